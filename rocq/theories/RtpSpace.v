(* The index spaces of reduced_tensor_product_basis: multi-indices of a tuple of irreps, and the group acting on every index. *)
From Coq Require Import Reals Lra Lia List Arith Permutation.
From Verif Require Import PyBase PermModel IrrepsModel IrrepsProofs IrrepsProofs2 ArrayModel ArrayProofs LeadModel StackProofs ActProofs EntryProofs LinearProofs ScatterProps SumR S2Proofs3 RotationModel RotationProofs CGModel WignerModel WignerProofs WignerProofs2 WignerProps WignerProps2 CGComplete SchurProofs MultProofs CouplingProofs ReducedProofs ConstrainProofs.
Import ListNotations.
Open Scope R_scope.

Definition e0 : irrep := Irrep 0 Even.
(* the block diagonal matrix of a list of irreps *)
Fixpoint bd (r : mat) (l : list irrep) (p q : nat) : R :=
  match l with
  | [] => 0
  | ir :: l => let d := ir_dim ir in
      if (p <? d)%nat then (if (q <? d)%nat then D_from_matrix r ir p q else 0) else if (q <? d)%nat then 0 else bd r l (p - d) (q - d)
  end.
Lemma bd_low r ir l p q : (p < ir_dim ir)%nat -> (q < ir_dim ir)%nat -> bd r (ir :: l) p q = D_from_matrix r ir p q.
Proof. intros Hp Hq. cbn [bd]. rewrite (proj2 (Nat.ltb_lt _ _) Hp), (proj2 (Nat.ltb_lt _ _) Hq). reflexivity. Qed.
Lemma bd_low_high r ir l p q : (p < ir_dim ir)%nat -> bd r (ir :: l) p (ir_dim ir + q) = 0.
Proof. intros Hp. cbn [bd]. rewrite (proj2 (Nat.ltb_lt _ _) Hp). rewrite (proj2 (Nat.ltb_ge (ir_dim ir + q) (ir_dim ir))) by lia. reflexivity. Qed.
Lemma bd_high_low r ir l p q : (q < ir_dim ir)%nat -> bd r (ir :: l) (ir_dim ir + p) q = 0.
Proof. intros Hq. cbn [bd]. rewrite (proj2 (Nat.ltb_lt _ _) Hq). rewrite (proj2 (Nat.ltb_ge (ir_dim ir + p) (ir_dim ir))) by lia. reflexivity. Qed.
Lemma bd_high r ir l p q : bd r (ir :: l) (ir_dim ir + p) (ir_dim ir + q) = bd r l p q.
Proof. cbn [bd]. rewrite (proj2 (Nat.ltb_ge (ir_dim ir + p) (ir_dim ir))) by lia. rewrite (proj2 (Nat.ltb_ge (ir_dim ir + q) (ir_dim ir))) by lia. f_equal; lia. Qed.
Lemma bd_split r ir l p f : (p < ir_dim ir)%nat -> rsum (dims (ir :: l)) (fun q => bd r (ir :: l) p q * f q) = rsum (ir_dim ir) (fun q => D_from_matrix r ir p q * f q).
Proof.
  intros Hp. rewrite dims_cons, rsum_add. rewrite (rsum_zero (dims l)), Rplus_0_r by (intros; rewrite bd_low_high by exact Hp; ring). apply rsum_ext. intros q Hq. rewrite bd_low by assumption. reflexivity.
Qed.
Lemma bd_split_high r ir l p f : rsum (dims (ir :: l)) (fun q => bd r (ir :: l) (ir_dim ir + p) q * f q) = rsum (dims l) (fun q => bd r l p q * f (ir_dim ir + q)%nat).
Proof.
  rewrite dims_cons, rsum_add. rewrite (rsum_zero (ir_dim ir)), Rplus_0_l by (intros; rewrite bd_high_low by assumption; ring). apply rsum_ext. intros q _. rewrite bd_high. reflexivity.
Qed.
Lemma D_dot r ir (f g : nat -> R) : orthogonal3 r -> rsum (ir_dim ir) (fun p => rsum (ir_dim ir) (fun q => D_from_matrix r ir p q * f q) * rsum (ir_dim ir) (fun q => D_from_matrix r ir p q * g q)) = rsum (ir_dim ir) (fun q => f q * g q).
Proof.
  intros O. rewrite (rsum_ext (ir_dim ir) _ (fun p => rsum (ir_dim ir) (fun q => rsum (ir_dim ir) (fun q' => f q * g q' * (D_from_matrix r ir p q * D_from_matrix r ir p q'))))).
  2:{ intros p _. rewrite rsum_prod. apply rsum_ext. intros q _. apply rsum_ext. intros q' _. ring. }
  rewrite rsum_swap. apply rsum_ext. intros q Hq. rewrite rsum_swap. rewrite (rsum_ext (ir_dim ir) _ (fun q' => delta q q' * (f q * g q'))).
  - apply (rsum_delta_r (ir_dim ir) q (fun q' => f q * g q') Hq).
  - intros q' Hq'. rewrite rsum_scal. destruct (C39_orthogonal r ir q q' O Hq Hq') as [_ E]. unfold CGModel.mmul, CGModel.mone in E. rewrite E. destruct (q =? q')%nat; ring.
Qed.
Definition axis (l : list irrep) : mat -> nat -> nat -> R := fun r p q => bd r l p q.
Lemma axis_preserving l : preserving (seq 0 (dims l)) (axis l).
Proof.
  intros r f g O. unfold dot, rot, axis. rewrite !lsum_seq. rewrite (rsum_ext (dims l) _ (fun p => rsum (dims l) (fun q => bd r l p q * f q) * rsum (dims l) (fun q => bd r l p q * g q))) by (intros; rewrite !lsum_seq; reflexivity).
  revert f g. induction l as [|ir l IH]; intros f g; [reflexivity|].
  transitivity (rsum (ir_dim ir + dims l) (fun p => rsum (dims (ir :: l)) (fun q => bd r (ir :: l) p q * f q) * rsum (dims (ir :: l)) (fun q => bd r (ir :: l) p q * g q))); [reflexivity|]. transitivity (rsum (ir_dim ir + dims l) (fun q => f q * g q)); [|reflexivity]. rewrite !rsum_add. f_equal.
  - rewrite <- (D_dot r ir f g O). apply rsum_ext. intros p Hp. rewrite !bd_split by exact Hp. reflexivity.
  - rewrite <- (IH (fun q => f (ir_dim ir + q)%nat) (fun q => g (ir_dim ir + q)%nat)). apply rsum_ext. intros p Hp. rewrite !bd_split_high. reflexivity.
Qed.
Lemma bd_tr r l p q : orthogonal3 r -> (p < dims l)%nat -> (q < dims l)%nat -> bd (mtr r) l p q = bd r l q p.
Proof.
  intros O. revert p q. induction l as [|ir l IH]; intros p q Hp Hq; [reflexivity|]. rewrite dims_cons in Hp, Hq. cbn [bd]. destruct (Nat.ltb_spec p (ir_dim ir)) as [H1|H1], (Nat.ltb_spec q (ir_dim ir)) as [H2|H2]; try reflexivity.
  - apply C39_inverse_is_transpose; assumption.
  - apply IH; lia.
Qed.
(* the columns of the identity, one multiplet per irrep *)
Fixpoint eyes (l : list irrep) (off : nat) : list (mult nat) :=
  match l with [] => [] | ir :: l => (ir, fun p c => if (p =? off + c)%nat then 1 else 0) :: eyes l (off + ir_dim ir) end.
Lemma eyes_types l off t : In t (eyes l off) -> In (fst t) l.
Proof. revert off. induction l as [|ir l IH]; intros off H; [contradiction|]. destruct H as [<-|H]; [left; reflexivity|right; exact (IH _ H)]. Qed.
Lemma columns_eyes l off : columns (eyes l off) = map (fun j p => if (p =? j)%nat then 1 else 0) (seq off (dims l)).
Proof.
  revert off. induction l as [|ir l IH]; intros off; [reflexivity|]. rewrite dims_cons, seq_app, map_app. cbn [eyes columns flat_map fst snd]. f_equal; [|apply IH].
  clear. rewrite <- (map_map (fun m => (off + m)%nat) (fun j p => if (p =? j)%nat then 1 else 0)). f_equal. revert off. induction (ir_dim ir) as [|n IHn]; intros off; [reflexivity|]. cbn [seq map]. rewrite Nat.add_0_r. f_equal. rewrite <- (IHn (S off)), <- seq_shift, map_map. apply map_ext. intros; lia.
Qed.
Lemma indicator_dot n i j : (i < n)%nat -> dot (seq 0 n) (fun p => if (p =? i)%nat then 1 else 0) (fun p => if (p =? j)%nat then 1 else 0) = delta i j.
Proof.
  intros Hi. unfold dot. rewrite lsum_seq. rewrite (rsum_ext n _ (fun p => delta i p * (if (p =? j)%nat then 1 else 0))); [apply (rsum_delta_r n i (fun p => if (p =? j)%nat then 1 else 0) Hi)|]. intros p _. rewrite (Nat.eqb_sym p i). reflexivity.
Qed.
(* offsets *)
Lemma eyes_spec l off t : In t (eyes l off) -> exists k, (off <= k)%nat /\ (k + ir_dim (fst t) <= off + dims l)%nat /\ (forall p c, snd t p c = if (p =? k + c)%nat then 1 else 0) /\
  (forall r p c, (c < ir_dim (fst t))%nat -> (p < dims l)%nat -> bd r l p (k + c - off) = rsum (ir_dim (fst t)) (fun c' => D_from_matrix r (fst t) c' c * (if (off + p =? k + c')%nat then 1 else 0))).
Proof.
  revert off. induction l as [|ir l IH]; intros off H; [contradiction|]. rewrite dims_cons. destruct H as [<-|H].
  - exists off. cbn [fst snd]. split; [lia|]. split; [lia|]. split; [reflexivity|]. intros r p c Hc Hp. replace (off + c - off)%nat with c by lia. destruct (Nat.lt_ge_cases p (ir_dim ir)) as [L|L].
    + rewrite bd_low by assumption. rewrite (rsum_ext (ir_dim ir) _ (fun c' => delta p c' * D_from_matrix r ir c' c)); [symmetry; apply (rsum_delta_r (ir_dim ir) p (fun c' => D_from_matrix r ir c' c) L)|].
      intros c' _. destruct (Nat.eqb_spec (off + p) (off + c')), (Nat.eqb_spec p c'); try lia; ring.
    + rewrite rsum_zero; [|intros c' Hc'; rewrite (proj2 (Nat.eqb_neq (off + p) (off + c'))) by lia; ring]. replace p with (ir_dim ir + (p - ir_dim ir))%nat by lia. apply bd_high_low, Hc.
  - destruct (IH (off + ir_dim ir)%nat H) as (k & K1 & K2 & K3 & K4). exists k. split; [lia|]. split; [lia|]. split; [exact K3|]. intros r p c Hc Hp. destruct (Nat.lt_ge_cases p (ir_dim ir)) as [L|L].
    + rewrite rsum_zero; [|intros c' Hc'; rewrite (proj2 (Nat.eqb_neq (off + p) (k + c'))) by lia; ring]. replace (k + c - off)%nat with (ir_dim ir + (k + c - off - ir_dim ir))%nat by lia. apply bd_low_high, L.
    + replace p with (ir_dim ir + (p - ir_dim ir))%nat at 1 by lia. replace (k + c - off)%nat with (ir_dim ir + (k + c - (off + ir_dim ir)))%nat by lia. rewrite bd_high. rewrite (K4 r (p - ir_dim ir)%nat c Hc ltac:(lia)). apply rsum_ext. intros c' _. replace (off + ir_dim ir + (p - ir_dim ir))%nat with (off + p)%nat by lia. reflexivity.
Qed.
Lemma eyes_full l : full (seq 0 (dims l)) (axis l) (eyes l 0).
Proof.
  assert (OC : orthonormal_list (seq 0 (dims l)) (columns (eyes l 0))).
  { rewrite columns_eyes. split.
    - apply Forall_forall. intros s Hs. apply in_map_iff in Hs as (j & <- & Hj). apply in_seq in Hj. rewrite indicator_dot by lia. rewrite Nat.eqb_refl. reflexivity.
    - rewrite pairwise_map. apply (pairwise_impl (fun a b => a <> b)); [|apply pairwise_nodup, seq_NoDup]. intros i j Hi Hj N. apply in_seq in Hi. rewrite indicator_dot by lia. apply Nat.eqb_neq in N. rewrite N. reflexivity. }
  constructor.
  - apply Forall_forall. intros t Ht. destruct (eyes_spec l 0 t Ht) as (k & K1 & K2 & K3 & K4). intros r p c O Hp Hc. apply in_seq in Hp. unfold rot, axis. rewrite lsum_seq.
    rewrite (rsum_ext (dims l) _ (fun q => delta (k + c)%nat q * bd r l p q)).
    + rewrite (rsum_delta_r (dims l) (k + c)%nat (fun q => bd r l p q)) by lia. replace (k + c)%nat with (k + c - 0)%nat by lia. rewrite (K4 r p c Hc ltac:(lia)). apply rsum_ext. intros c' _. rewrite K3. reflexivity.
    + intros q _. rewrite K3, (Nat.eqb_sym q). ring.
  - apply Forall_forall. intros t Ht. destruct (eyes_spec l 0 t Ht) as (k & K1 & K2 & K3 & K4). intros m m' Hm Hm'. rewrite (dot_ext _ _ (fun p => if (p =? k + m)%nat then 1 else 0) _ (fun p => if (p =? k + m')%nat then 1 else 0)) by (intros; apply K3). rewrite indicator_dot by lia. destruct (Nat.eqb_spec (k + m) (k + m')), (Nat.eqb_spec m m'); try lia; reflexivity.
  - assert (G : forall l off n, (off + dims l <= n)%nat -> pairwise (orth_mult (seq 0 n)) (eyes l off)); [|apply G; lia].
    { clear. induction l as [|ir l IH]; intros off n H; [exact Logic.I|]. rewrite dims_cons in H. split; [|apply IH; lia]. apply Forall_forall. intros t Ht. destruct (eyes_spec l _ t Ht) as (k & K1 & K2 & K3 & _). intros m m' Hm Hm'. cbn [fst snd] in *.
      rewrite (dot_ext _ _ (fun p => if (p =? off + m)%nat then 1 else 0) _ (fun p => if (p =? k + m')%nat then 1 else 0)) by (intros; first [reflexivity|apply K3]). rewrite indicator_dot by lia. rewrite (proj2 (Nat.eqb_neq (off + m) (k + m'))) by lia. reflexivity. }
  - intros f p Hp. apply in_seq in Hp. unfold expand. rewrite columns_eyes, lsum_map, lsum_seq. rewrite (rsum_ext (dims l) _ (fun j => delta p j * f j)); [apply (rsum_delta_r (dims l) p f); lia|].
    intros j Hj. unfold dot. rewrite lsum_seq. rewrite (rsum_ext (dims l) _ (fun q => delta j q * f q)) by (intros q _; rewrite (Nat.eqb_sym q); ring). rewrite (rsum_delta_r (dims l) j f Hj). ring.
Qed.

(* ---------- tuples ---------- *)
Definition tdims (ls : list (list irrep)) : list nat := map dims ls.
Definition space (ls : list (list irrep)) : list (list nat) := all_idx (tdims ls).
(* the group acts on every index *)
Fixpoint rho (ls : list (list irrep)) (r : mat) (z z' : list nat) : R :=
  match ls, z, z' with
  | [], [], [] => 1
  | l :: ls, p :: z, q :: z' => bd r l p q * rho ls r z z'
  | _, _, _ => 0
  end.
Lemma lsum_all_idx d s f : lsum (all_idx (d :: s)) f = lsum (seq 0 d) (fun k => lsum (all_idx s) (fun i => f (k :: i))).
Proof. cbn [all_idx]. rewrite lsum_flat_map. apply lsum_ext. intros k _. apply lsum_map. Qed.
Lemma in_all_idx_cons d s k i : In (k :: i) (all_idx (d :: s)) <-> (k < d)%nat /\ In i (all_idx s).
Proof.
  rewrite !all_idx_valid. unfold valid. split; [intros H; inversion H; auto|intros []; constructor; assumption].
Qed.
Lemma in_all_idx_inv d s z : In z (all_idx (d :: s)) -> exists k i, z = k :: i /\ (k < d)%nat /\ In i (all_idx s).
Proof. intros H. pose proof H as H'. apply all_idx_valid in H. inversion H as [|k d' i s' Hk Hi]; subst. exists k, i. split; [reflexivity|]. apply in_all_idx_cons. exact H'. Qed.
Lemma space_cons l ls : product_space (seq 0 (dims l)) (space ls) (space (l :: ls)) (axis l) (rho ls) (rho (l :: ls)) (hd 0%nat) (@tl nat) (@cons nat).
Proof.
  constructor.
  - intros g. apply lsum_all_idx.
  - intros a b Ha Hb. apply in_all_idx_cons. apply in_seq in Ha. split; [lia|exact Hb].
  - reflexivity.
  - reflexivity.
  - intros z Hz. apply in_all_idx_inv in Hz as (k & i & -> & Hk & Hi). apply in_seq. cbn [hd]. lia.
  - intros z Hz. apply in_all_idx_inv in Hz as (k & i & -> & Hk & Hi). exact Hi.
  - intros z Hz. apply in_all_idx_inv in Hz as (k & i & -> & Hk & Hi). reflexivity.
  - intros r z z' _ Hz Hz'. apply in_all_idx_inv in Hz as (k & i & -> & Hk & Hi). apply in_all_idx_inv in Hz' as (k' & i' & -> & Hk' & Hi'). reflexivity.
Qed.
Lemma space_preserving ls : preserving (space ls) (rho ls).
Proof.
  induction ls as [|l ls IH].
  - intros r f g _. unfold dot, rot, space. cbn [tdims map all_idx lsum fold_right rho]. ring.
  - exact (product_preserving _ _ _ _ _ _ _ _ _ (space_cons l ls) (axis_preserving l) IH).
Qed.
Lemma rho_tr ls r z z' : orthogonal3 r -> In z (space ls) -> In z' (space ls) -> rho ls (mtr r) z z' = rho ls r z' z.
Proof.
  intros O. revert z z'. induction ls as [|l ls IH]; intros z z' Hz Hz'.
  - destruct Hz as [<-|[]], Hz' as [<-|[]]. reflexivity.
  - apply in_all_idx_inv in Hz as (k & i & -> & Hk & Hi). apply in_all_idx_inv in Hz' as (k' & i' & -> & Hk' & Hi'). cbn [rho]. rewrite IH by assumption. rewrite bd_tr by assumption. reflexivity.
Qed.
Lemma space_adjoint ls : adjoint (space ls) (rho ls).
Proof.
  intros r f g O. unfold dot, rot. rewrite (lsum_ext (space ls) _ (fun x => lsum (space ls) (fun y => rho ls r x y * f y * g x))) by (intros; rewrite <- lsum_scal_r; reflexivity).
  rewrite lsum_swap. apply lsum_ext. intros y Hy. rewrite <- lsum_scal. apply lsum_ext. intros x Hx. rewrite rho_tr by assumption. ring.
Qed.

(* ---------- types of the full bases ---------- *)
Lemma fusion a u v b c : In b (ir_mul u v) -> In c (ir_mul a b) -> exists d, In d (ir_mul a u) /\ In c (ir_mul d v).
Proof.
  intros Hb Hc. apply ir_mul_in in Hb as [P1 Q1], Hc as [P2 Q2]. set (m := Nat.max (Nat.max (ir_l a - ir_l u) (ir_l u - ir_l a)) (Nat.max (ir_l c - ir_l v) (ir_l v - ir_l c))).
  exists (Irrep m (pmul (ir_p a) (ir_p u))). split; apply ir_mul_in; cbn [ir_l ir_p].
  - split; [reflexivity|]. unfold m. lia.
  - split; [|unfold m; lia]. rewrite P2, P1. destruct (ir_p a), (ir_p u), (ir_p v); reflexivity.
Qed.
(* what can be reached from ir by multiplying with an irrep of every list *)
Fixpoint reach (a : irrep) (ls : list (list irrep)) (c : irrep) : Prop :=
  match ls with [] => c = a | l :: ls => exists v d, In v l /\ In d (ir_mul a v) /\ reach d ls c end.
Lemma space_full ls : exists F, full (space ls) (rho ls) F /\ forall u a c, In u F -> In c (ir_mul a (fst u)) -> reach a ls c.
Proof.
  induction ls as [|l ls (F & HF & HT)].
  - exists [(e0, fun _ _ => 1)]. split.
    + constructor.
      * constructor; [|constructor]. intros r x m O Hx Hm. unfold rot, space. cbn [fst snd tdims map all_idx lsum fold_right] in *. destruct Hx as [<-|[]]. assert (m = 0)%nat by (unfold ir_dim in Hm; cbn in Hm; lia). subst m. change (ir_dim e0) with 1%nat. cbn [rsum rho].
        pose proof (rep_of_scalar r O) as E. unfold scalar_trivial in E. assert (Q : mat_at (rep_of r (Irrep 0 Even)) 0 0 = 1) by (rewrite E; reflexivity). unfold rep_of in Q. rewrite as_rep_at in Q by (cbn; lia). unfold e0. rewrite Q. ring.
      * constructor; [|constructor]. intros m m' Hm Hm'. unfold ir_dim in *. cbn in Hm, Hm'. assert (m = 0)%nat by lia. assert (m' = 0)%nat by lia. subst. unfold dot, space. cbn [tdims map all_idx lsum fold_right snd]. cbn. ring.
      * repeat constructor.
      * intros f x Hx. unfold expand, columns, dot, space. cbn [flat_map fst snd app]. change (ir_dim e0) with 1%nat. cbn [seq map tdims all_idx lsum fold_right app]. destruct Hx as [<-|[]]. ring.
    + intros u a c [<-|[]] Hc. cbn [fst reach] in *. apply ir_mul_in in Hc as [P Q]. cbn [e0 ir_l ir_p] in *. destruct a as [la pa], c as [lc pc]. cbn [ir_l ir_p] in *. destruct pa; cbn in P; subst pc; f_equal; lia.
  - exists (products (hd 0%nat) (@tl nat) (fun _ => true) (eyes l 0) F). split.
    + apply (product_full _ _ _ _ _ _ _ _ _ (space_cons l ls)); [apply eyes_full|exact HF].
    + intros u a c Hu Hc. apply in_products in Hu as (t & s & b & Ht & Hs & Hb & _ & ->). cbn [product couple fst] in Hc. destruct (fusion a (fst t) (fst s) b c Hb Hc) as (d & Hd & Hc'). cbn [reach]. exists (fst t), d. split; [apply (eyes_types _ _ _ Ht)|]. split; [exact Hd|]. exact (HT s d c Hs Hc').
Qed.

(* ---------- masks ---------- *)
(* the tuple with the scalar 0e at the positions that are not selected *)
Fixpoint mk (m : list bool) (ls : list (list irrep)) : list (list irrep) :=
  match m, ls with b :: m, l :: ls => (if (b : bool) then l else [e0]) :: mk m ls | _, _ => [] end.
Fixpoint keepz (m : list bool) (z : list nat) : list nat :=
  match m, z with b :: m, k :: z => (if (b : bool) then k else 0%nat) :: keepz m z | _, _ => [] end.
Fixpoint joinz (m : list bool) (a b : list nat) : list nat :=
  match m, a, b with c :: m, x :: a, y :: b => (if (c : bool) then x else y) :: joinz m a b | _, _, _ => [] end.
(* two disjoint masks and their union *)
Inductive disjoint_masks : list bool -> list bool -> list bool -> Prop :=
| dm_nil : disjoint_masks [] [] []
| dm_left m m' u : disjoint_masks m m' u -> disjoint_masks (true :: m) (false :: m') (true :: u)
| dm_right m m' u : disjoint_masks m m' u -> disjoint_masks (false :: m) (true :: m') (true :: u)
| dm_none m m' u : disjoint_masks m m' u -> disjoint_masks (false :: m) (false :: m') (false :: u).
Lemma bd_scalar r p q : orthogonal3 r -> (p < 1)%nat -> (q < 1)%nat -> bd r [e0] p q = 1.
Proof.
  intros O Hp Hq. assert (p = 0)%nat as -> by lia. assert (q = 0)%nat as -> by lia. rewrite bd_low by (cbn; lia). pose proof (rep_of_scalar r O) as E. unfold scalar_trivial in E. assert (Q : mat_at (rep_of r (Irrep 0 Even)) 0 0 = 1) by (rewrite E; reflexivity). unfold rep_of in Q. rewrite as_rep_at in Q by (cbn; lia). exact Q.
Qed.
Lemma dims_e0 : dims [e0] = 1%nat. Proof. reflexivity. Qed.
Lemma lsum_one1 (f : nat -> R) : lsum (seq 0 1) f = f 0%nat.
Proof. cbn. ring. Qed.
Theorem masked_product ma mb mu ls : disjoint_masks ma mb mu -> length ls = length mu ->
  product_space (space (mk ma ls)) (space (mk mb ls)) (space (mk mu ls)) (rho (mk ma ls)) (rho (mk mb ls)) (rho (mk mu ls)) (keepz ma) (keepz mb) (joinz ma).
Proof.
  intros H. revert ls. induction H as [|m m' u H IH|m m' u H IH|m m' u H IH]; intros ls L.
  - destruct ls; [|discriminate]. constructor; try (intros; cbn [mk] in *; repeat match goal with H : In _ (space []) |- _ => destruct H as [<-|[]] end; first [reflexivity|left; reflexivity|cbn [keepz rho]; ring]).
    intros g. unfold space. cbn [mk tdims map all_idx lsum fold_right joinz]. ring.
  - destruct ls as [|l ls]; [discriminate|]. injection L as L. destruct (IH ls L) as [H1 H2 H3 H4 H5 H6 H7 H8]. cbn [mk]. constructor.
    + intros g. unfold space in *. cbn [tdims map]. rewrite !lsum_all_idx. apply lsum_ext. intros k _. fold (tdims (mk m ls)) (tdims (mk m' ls)) (tdims (mk u ls)). rewrite H1. apply lsum_ext. intros a _. rewrite lsum_all_idx. change (dims [e0]) with 1%nat. rewrite lsum_one1. reflexivity.
    + intros a b Ha Hb. apply in_all_idx_inv in Ha as (k & i & -> & Hk & Hi). apply in_all_idx_inv in Hb as (k' & i' & -> & Hk' & Hi'). cbn [joinz]. apply in_all_idx_cons. split; [exact Hk|]. apply H2; assumption.
    + intros a b Ha Hb. apply in_all_idx_inv in Ha as (k & i & -> & Hk & Hi). apply in_all_idx_inv in Hb as (k' & i' & -> & Hk' & Hi'). cbn [joinz keepz]. f_equal. apply H3; assumption.
    + intros a b Ha Hb. apply in_all_idx_inv in Ha as (k & i & -> & Hk & Hi). apply in_all_idx_inv in Hb as (k' & i' & -> & Hk' & Hi'). cbn [joinz keepz]. change (dims [e0]) with 1%nat in Hk'. f_equal; [lia|]. apply H4; assumption.
    + intros z Hz. apply in_all_idx_inv in Hz as (k & i & -> & Hk & Hi). cbn [keepz]. apply in_all_idx_cons. split; [exact Hk|apply H5, Hi].
    + intros z Hz. apply in_all_idx_inv in Hz as (k & i & -> & Hk & Hi). cbn [keepz]. apply in_all_idx_cons. split; [cbn; lia|apply H6, Hi].
    + intros z Hz. apply in_all_idx_inv in Hz as (k & i & -> & Hk & Hi). cbn [keepz joinz]. f_equal. apply H7, Hi.
    + intros r z z' O Hz Hz'. apply in_all_idx_inv in Hz as (k & i & -> & Hk & Hi). apply in_all_idx_inv in Hz' as (k' & i' & -> & Hk' & Hi'). cbn [keepz]. change (rho (?l :: ?t) r (?p :: ?z) (?q :: ?z')) with (bd r l p q * rho t r z z'). rewrite (bd_scalar r 0 0 O) by lia. rewrite (H8 r i i' O Hi Hi'). ring.
  - destruct ls as [|l ls]; [discriminate|]. injection L as L. destruct (IH ls L) as [H1 H2 H3 H4 H5 H6 H7 H8]. cbn [mk]. constructor.
    + intros g. unfold space in *. cbn [tdims map]. rewrite !lsum_all_idx. change (dims [e0]) with 1%nat. rewrite lsum_one1. fold (tdims (mk m ls)) (tdims (mk m' ls)) (tdims (mk u ls)).
      rewrite (lsum_ext (seq 0 (dims l)) _ (fun k => lsum (all_idx (tdims (mk m ls))) (fun a => lsum (all_idx (tdims (mk m' ls))) (fun b => g (k :: joinz m a b))))) by (intros k _; rewrite H1; reflexivity).
      rewrite lsum_swap. apply lsum_ext. intros a _. rewrite lsum_all_idx. reflexivity.
    + intros a b Ha Hb. apply in_all_idx_inv in Ha as (k & i & -> & Hk & Hi). apply in_all_idx_inv in Hb as (k' & i' & -> & Hk' & Hi'). cbn [joinz]. apply in_all_idx_cons. split; [exact Hk'|]. apply H2; assumption.
    + intros a b Ha Hb. apply in_all_idx_inv in Ha as (k & i & -> & Hk & Hi). apply in_all_idx_inv in Hb as (k' & i' & -> & Hk' & Hi'). cbn [joinz keepz]. change (dims [e0]) with 1%nat in Hk. f_equal; [lia|]. apply H3; assumption.
    + intros a b Ha Hb. apply in_all_idx_inv in Ha as (k & i & -> & Hk & Hi). apply in_all_idx_inv in Hb as (k' & i' & -> & Hk' & Hi'). cbn [joinz keepz]. f_equal. apply H4; assumption.
    + intros z Hz. apply in_all_idx_inv in Hz as (k & i & -> & Hk & Hi). cbn [keepz]. apply in_all_idx_cons. split; [cbn; lia|apply H5, Hi].
    + intros z Hz. apply in_all_idx_inv in Hz as (k & i & -> & Hk & Hi). cbn [keepz]. apply in_all_idx_cons. split; [exact Hk|apply H6, Hi].
    + intros z Hz. apply in_all_idx_inv in Hz as (k & i & -> & Hk & Hi). cbn [keepz joinz]. f_equal. apply H7, Hi.
    + intros r z z' O Hz Hz'. apply in_all_idx_inv in Hz as (k & i & -> & Hk & Hi). apply in_all_idx_inv in Hz' as (k' & i' & -> & Hk' & Hi'). cbn [keepz]. change (rho (?l :: ?t) r (?p :: ?z) (?q :: ?z')) with (bd r l p q * rho t r z z'). rewrite (bd_scalar r 0 0 O) by lia. rewrite (H8 r i i' O Hi Hi'). ring.
  - destruct ls as [|l ls]; [discriminate|]. injection L as L. destruct (IH ls L) as [H1 H2 H3 H4 H5 H6 H7 H8]. cbn [mk]. constructor.
    + intros g. unfold space in *. cbn [tdims map]. rewrite !lsum_all_idx. change (dims [e0]) with 1%nat. rewrite !lsum_one1. fold (tdims (mk m ls)) (tdims (mk m' ls)) (tdims (mk u ls)). rewrite H1. apply lsum_ext. intros a _. rewrite lsum_all_idx. rewrite lsum_one1. reflexivity.
    + intros a b Ha Hb. apply in_all_idx_inv in Ha as (k & i & -> & Hk & Hi). apply in_all_idx_inv in Hb as (k' & i' & -> & Hk' & Hi'). cbn [joinz]. apply in_all_idx_cons. split; [exact Hk'|]. apply H2; assumption.
    + intros a b Ha Hb. apply in_all_idx_inv in Ha as (k & i & -> & Hk & Hi). apply in_all_idx_inv in Hb as (k' & i' & -> & Hk' & Hi'). cbn [joinz keepz]. change (dims [e0]) with 1%nat in Hk. f_equal; [lia|]. apply H3; assumption.
    + intros a b Ha Hb. apply in_all_idx_inv in Ha as (k & i & -> & Hk & Hi). apply in_all_idx_inv in Hb as (k' & i' & -> & Hk' & Hi'). cbn [joinz keepz]. change (dims [e0]) with 1%nat in Hk'. f_equal; [lia|]. apply H4; assumption.
    + intros z Hz. apply in_all_idx_inv in Hz as (k & i & -> & Hk & Hi). cbn [keepz]. apply in_all_idx_cons. split; [cbn; lia|apply H5, Hi].
    + intros z Hz. apply in_all_idx_inv in Hz as (k & i & -> & Hk & Hi). cbn [keepz]. apply in_all_idx_cons. split; [cbn; lia|apply H6, Hi].
    + intros z Hz. apply in_all_idx_inv in Hz as (k & i & -> & Hk & Hi). change (dims [e0]) with 1%nat in Hk. cbn [keepz joinz]. f_equal; [lia|]. apply H7, Hi.
    + intros r z z' O Hz Hz'. apply in_all_idx_inv in Hz as (k & i & -> & Hk & Hi). apply in_all_idx_inv in Hz' as (k' & i' & -> & Hk' & Hi'). change (dims [e0]) with 1%nat in Hk, Hk'. cbn [keepz]. change (rho (?l :: ?t) r (?p :: ?z) (?q :: ?z')) with (bd r l p q * rho t r z z'). rewrite (bd_scalar r 0 0 O) by lia. rewrite (bd_scalar r k k' O) by lia. rewrite (H8 r i i' O Hi Hi'). ring.
Qed.
