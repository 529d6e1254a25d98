(* The permutation symmetry on the index space: it commutes with the rotations, restricts to sub-tuples, and reduce_subgroup_permutation gives an orthonormal basis of it. *)
From Coq Require Import Reals Lra Lia List Arith Permutation Sorted ZArith.
From Verif Require Import PyBase PermModel PermProofs IrrepsModel IrrepsProofs IrrepsProofs2 ArrayModel ArrayProofs ArrayOps RechunkProofs LeadModel LeadProofs StackProofs ActProofs EquivProofs EntryProofs LinearProofs ScatterProps SumR S2Proofs3 TPModel TPProofs TPProofs2 RotationModel RotationProofs CGModel WignerModel WignerProofs WignerProofs2 WignerProps WignerProps2 CGComplete SymModel SymProofs SymProofs2 SymProps3 SchurProofs MultProofs CouplingProofs ReducedProofs ConstrainProofs RtpModel RtpSpace RtpTools RtpArr RtpMasks.
Import ListNotations.
Open Scope R_scope.

(* ---------- the representation is a product over the indices ---------- *)
Definition prodR (l : list R) : R := fold_right Rmult 1 l.
Lemma prodR_perm l l' : Permutation l l' -> prodR l = prodR l'.
Proof. unfold prodR. induction 1 as [|a l l' P IH|a b l|l l' l'' P1 IH1 P2 IH2]; cbn [fold_right]; [reflexivity|rewrite IH; reflexivity|ring|congruence]. Qed.
Lemma rho_index ls r z z' : length z = length ls -> length z' = length ls -> rho ls r z z' = prodR (map (fun k => bd r (nth k ls []) (nth k z 0%nat) (nth k z' 0%nat)) (seq 0 (length ls))).
Proof.
  revert z z'. induction ls as [|l ls IH]; intros [|p z] [|q z'] L L'; try discriminate; [reflexivity|]. injection L as L. injection L' as L'. cbn [rho length seq map nth prodR fold_right]. f_equal. rewrite (IH z z' L L'). rewrite <- seq_shift, map_map. reflexivity.
Qed.
Lemma rho_permute ls r z z' p : is_perm p = true -> length p = length ls -> (forall k, (k < length ls)%nat -> nth (nth k p 0%nat) ls [] = nth k ls []) -> length z = length ls -> length z' = length ls ->
  rho ls r (permute z p) (permute z' p) = rho ls r z z'.
Proof.
  intros Hp Lp E Lz Lz'. rewrite !rho_index by (rewrite ?permute_length; assumption). set (G := fun k => bd r (nth k ls []) (nth k z 0%nat) (nth k z' 0%nat)).
  transitivity (prodR (map G p)).
  - f_equal. transitivity (map G (map (fun k => nth k p 0%nat) (seq 0 (length p)))); [|rewrite map_nth_all; reflexivity]. rewrite Lp, map_map. apply map_ext_in. intros k Hk. apply in_seq in Hk. unfold G. rewrite !permute_nth by lia. rewrite E by lia. reflexivity.
  - apply prodR_perm, Permutation_map. rewrite <- Lp. apply is_perm_iff, Hp.
Qed.
Lemma space_permute ls p : is_perm p = true -> length p = length ls -> permute (tdims ls) p = tdims ls -> Permutation (map (fun y => permute y p) (space ls)) (space ls).
Proof.
  intros Hp Lp E. assert (Lt : length p = length (tdims ls)) by (rewrite tdims_length; exact Lp).
  assert (Back : forall y, In y (space ls) -> permute (permute y p) (inv_nat p) = y).
  { intros y Hy. apply in_valid, valid_length in Hy. rewrite permute_comp by (try apply inv_nat_perm; try rewrite inv_nat_length; auto). rewrite comp_nat_inv_r by exact Hp. apply permute_id. rewrite Hy. symmetry. exact Lt. }
  apply NoDup_Permutation_bis.
  - assert (G : forall l, (forall y, In y l -> In y (space ls)) -> NoDup l -> NoDup (map (fun y => permute y p) l)); [|apply G; [auto|apply all_idx_nodup]].
    induction l as [|y l IH]; intros H N; [constructor|]. inversion N; subst. cbn [map]. constructor; [|apply IH; [intros; apply H; right; assumption|assumption]]. intros Q. apply in_map_iff in Q as (y' & Q & Hy'). assert (y' = y) by (rewrite <- (Back y), <- (Back y') by (apply H; cbn; auto); rewrite Q; reflexivity). subst. contradiction.
  - rewrite map_length. lia.
  - intros y Hy. apply in_map_iff in Hy as (y' & <- & Hy'). apply all_idx_valid, permute_valid; try assumption. apply in_valid, Hy'.
Qed.
Lemma lsum_perm {T} (l l' : list T) f : Permutation l l' -> lsum l f = lsum l' f.
Proof. induction 1 as [|a l l' P IH|a b l|l l' l'' P1 IH1 P2 IH2]; rewrite ?lsum_cons; [reflexivity|rewrite IH; reflexivity|ring|congruence]. Qed.

(* ---------- tuples of irreps compatible with a group ---------- *)
Definition compatible (g : list signed) (irs : list irreps) : Prop := forall s p, In (s, p) g -> map (fun i => nth i irs []) p = irs.
Definition flats (irs : list irreps) : list (list irrep) := map flat irs.
Lemma flats_length irs : length (flats irs) = length irs. Proof. apply map_length. Qed.
Lemma tdims_flats irs : tdims (flats irs) = map dim irs.
Proof. unfold tdims, flats. rewrite map_map. apply map_ext. intros; apply dims_flat. Qed.
Section Group.
Variables (g : list signed) (irs : list irreps).
Let n := length irs.
Hypothesis Gg : signed_group n g.
Hypothesis Co : compatible g irs.
Let ls := flats irs.
Definition symmetric_under (T : idx -> R) : Prop := invariant g (map dim irs) T.
Lemma elem s p : In (s, p) g -> is_sign s /\ is_perm p = true /\ length p = n.
Proof. intros H. exact (proj1 Gg s p H). Qed.
Lemma compatible_nth s p k : In (s, p) g -> (k < n)%nat -> nth (nth k p 0%nat) irs [] = nth k irs [].
Proof. intros H Hk. rewrite <- (Co s p H) at 2. destruct (elem s p H) as (_ & _ & L). rewrite (nth_map_at (fun i => nth i irs []) p _ 0%nat) by lia. reflexivity. Qed.
Lemma compatible_dims s p : In (s, p) g -> permute (map dim irs) p = map dim irs.
Proof. intros H. destruct (elem s p H) as (_ & Hp & L). apply nth_ext0; [rewrite permute_length, map_length; exact L|]. rewrite permute_length. intros k Hk. rewrite permute_nth by exact Hk. assert (B : (nth k p 0 < length p)%nat) by (apply perm_nth_lt; assumption). rewrite !(nth_map_at dim irs _ []) by (unfold n in *; lia). rewrite (compatible_nth s p k H) by lia. reflexivity. Qed.
Lemma dims_length : length (map dim irs) = n. Proof. apply map_length. Qed.
Lemma symmetric_rot r f : symmetric_under f -> symmetric_under (rot (space ls) (rho ls) r f).
Proof.
  intros H s p z Hp Vz. destruct (elem s p Hp) as (Sg & Pp & Lp). unfold rot. assert (Ll : length p = length ls) by (unfold ls; rewrite flats_length; exact Lp).
  assert (Ed : permute (tdims ls) p = tdims ls) by (unfold ls; rewrite tdims_flats; apply (compatible_dims s), Hp).
  rewrite <- (lsum_perm _ _ _ (space_permute ls p Pp Ll Ed)), lsum_map. rewrite <- lsum_scal. apply lsum_ext. intros y Hy.
  assert (Vy : valid (map dim irs) y) by (rewrite <- tdims_flats; apply in_valid, Hy). rewrite (H s p y Hp Vy). rewrite rho_permute; [ring|exact Pp|exact Ll| | |].
  - intros k Hk. unfold ls, flats in *. rewrite map_length in Hk. assert (B : (nth k p 0 < length p)%nat) by (apply perm_nth_lt; [assumption|unfold n in Lp; lia]). rewrite !(nth_map_at flat irs _ []) by (unfold n in *; lia). rewrite (compatible_nth s p k Hp) by exact Hk. reflexivity.
  - apply valid_length in Vz. rewrite Vz, map_length. unfold ls. rewrite flats_length. reflexivity.
  - apply valid_length in Vy. rewrite Vy, map_length. unfold ls. rewrite flats_length. reflexivity.
Qed.
Lemma symmetric_subspace : subspace (space ls) symmetric_under.
Proof.
  constructor.
  - intros f f' E H s p z Hp Vz. destruct (elem s p Hp) as (Sg & Pp & Lp). rewrite <- !E; [apply H; assumption| |].
    + apply all_idx_valid. unfold ls. rewrite tdims_flats. exact Vz.
    + apply all_idx_valid. unfold ls. rewrite tdims_flats. apply permute_valid; [exact Pp|rewrite map_length; exact Lp|apply (compatible_dims s), Hp|exact Vz].
  - intros s p z _ _. ring.
  - intros f f' H H' s p z Hp Vz. rewrite (H s p z Hp Vz), (H' s p z Hp Vz). ring.
  - intros c f H s p z Hp Vz. rewrite (H s p z Hp Vz). ring.
Qed.
Lemma symmetric_trivial : NoDup g -> length g = 1%nat -> forall f, symmetric_under f.
Proof.
  intros _ L f s p z Hp Vz. destruct Gg as (_ & I1 & _). destruct g as [|a [|b l]]; try discriminate. destruct I1 as [-> |[]]. destruct Hp as [Q|[]]. injection Q as <- <-. rewrite permute_id by (apply valid_length in Vz; rewrite Vz; apply map_length). ring.
Qed.
(* the rows of reduce_permutation_matrix *)
Lemma pairwise_of_nth {T} (P : T -> T -> Prop) l d : (forall i j, (i < j < length l)%nat -> P (nth i l d) (nth j l d)) -> pairwise P l.
Proof.
  induction l as [|a l IH]; intros H; [exact Logic.I|]. split.
  - apply Forall_forall. intros b Hb. apply (In_nth _ _ d) in Hb as (k & Hk & <-). exact (H 0%nat (S k) ltac:(cbn; lia)).
  - apply IH. intros i j Hij. exact (H (S i) (S j) ltac:(cbn; lia)).
Qed.
Lemma rows_of_group h : signed_group n h -> (forall s p, In (s, p) h <-> In (s, p) g) -> exists base, reduce_permutation_base h (map dim irs) = Ok base /\
  forall Sp : list (idx -> R), Forall2 (fun p q => forall z, valid (map dim irs) z -> p z = q z) (reduce_permutation_matrix base (map dim irs)) Sp ->
  orthonormal_list (space ls) Sp /\ (forall f, symmetric_under f <-> repro (space ls) Sp f).
Proof.
  intros Gh Eh. destruct (reduction_basis n h (map dim irs) Gh dims_length) as (base & E & H1 & H2 & H3); [intros s p Hp; apply (compatible_dims s), Eh, Hp|]. exists base. split; [exact E|]. intros Sp FS. set (Q := reduce_permutation_matrix base (map dim irs)) in *.
  assert (XS : space ls = all_idx (map dim irs)) by (unfold space, ls; rewrite tdims_flats; reflexivity).
  assert (Ei : forall T, invariant h (map dim irs) T <-> symmetric_under T) by (intros T; split; intros H s p z Hp; apply H, Eh, Hp).
  assert (LS : length Q = length Sp) by (eapply Forall2_length, FS).
  assert (NS : forall k z, (k < length Q)%nat -> valid (map dim irs) z -> nth k Q (fun _ => 0) z = nth k Sp (fun _ => 0) z).
  { clear -FS. induction FS as [|p q Q Sp H F IH]; intros k z Hk Vz; [cbn in Hk; lia|]. destruct k as [|k]; [apply H, Vz|]. cbn [nth]. apply IH; [cbn in Hk; lia|exact Vz]. }
  assert (D : forall a b, (a < length Sp)%nat -> (b < length Sp)%nat -> dot (space ls) (nth a Sp (fun _ => 0)) (nth b Sp (fun _ => 0)) = delta a b).
  { intros a b Ha Hb. rewrite <- LS in Ha, Hb. rewrite <- (H2 a b Ha Hb). rewrite XS. apply lsum_ext. intros z Hz. apply in_valid in Hz. rewrite !NS by assumption. reflexivity. }
  assert (OS : orthonormal_list (space ls) Sp).
  { split.
    - apply Forall_forall. intros p Hp. apply (In_nth _ _ (fun _ => 0)) in Hp as (k & Hk & <-). rewrite D by assumption. rewrite Nat.eqb_refl. reflexivity.
    - apply (pairwise_of_nth _ _ (fun _ => 0)). intros i j Hij. rewrite D by lia. rewrite (proj2 (Nat.eqb_neq i j)) by lia. reflexivity. }
  split; [exact OS|]. intros f. split.
  - intros H z Hz. apply Ei in H. assert (Vz : valid (map dim irs) z) by (apply in_valid; rewrite <- XS; exact Hz). rewrite (H3 f H z Vz) at 1. symmetry. unfold expand. clear -FS XS Vz.
    induction FS as [|p q Q Sp Hpq F IH]; [reflexivity|]. rewrite !lsum_cons, IH. f_equal. rewrite (Hpq z Vz). f_equal. unfold dot. rewrite XS. apply lsum_ext. intros y Hy. rewrite (Hpq y (in_valid _ _ Hy)). ring.
  - intros H. apply (sub_ext _ _ symmetric_subspace (fun z => lsum Sp (fun p => dot (space ls) f p * p z))); [exact H|]. apply (sub_lsum (space ls) _ Sp (fun p => dot (space ls) f p) (fun p => p) symmetric_subspace). intros p Hp.
    assert (T : exists q, In q Q /\ forall z, valid (map dim irs) z -> q z = p z) by (clear -FS Hp; induction FS as [|q p' Q Sp H F IH]; [contradiction|]; destruct Hp as [<-|Hp]; [exists q; split; [left; reflexivity|exact H]|destruct (IH Hp) as (q' & Hq' & E); exists q'; split; [right; exact Hq'|exact E]]).
    destruct T as (q & Hq & Eq). apply (sub_ext _ _ symmetric_subspace q); [intros z Hz; apply Eq, in_valid; rewrite <- XS; exact Hz|]. apply Ei, H1, Hq.
Qed.
(* the group read on all the indices is the group *)
Lemma whole_group : exists h, subrepr_permutation (seq 0 n) g = Ok h /\ NoDup h /\ signed_group n h /\ (forall s p, In (s, p) h <-> In (s, p) g).
Proof.
  destruct (C50_subgroup n g (seq 0 n) Gg (sorted_seq n 0)) as (h & E & Nd & G & H); [intros i Hi; apply in_seq in Hi; lia|]. rewrite seq_length in G. exists h. split; [exact E|]. split; [exact Nd|]. split; [exact G|].
  assert (Q : forall p q, length p = n -> restriction (seq 0 n) p q <-> is_perm p = is_perm p /\ length q = n /\ (forall k, (k < n)%nat -> nth k p 0%nat = nth k q 0%nat /\ (nth k q 0 < n)%nat)).
  { intros p q Lp. unfold restriction. rewrite seq_length. split.
    - intros [L R]. split; [reflexivity|]. split; [exact L|]. intros k Hk. destruct (R k Hk) as [R1 R2]. rewrite !seq_nth in R1 by lia. split; [exact R1|exact R2].
    - intros (_ & L & R). split; [exact L|]. intros k Hk. destruct (R k Hk) as [R1 R2]. rewrite !seq_nth by lia. split; [exact R1|exact R2]. }
  intros s q. rewrite H. split.
  - intros (p & Hp & _ & Rp). destruct (elem s p Hp) as (_ & _ & Lp). apply (Q p q Lp) in Rp as (_ & Lq & R). assert (p = q) by (apply nth_ext0; [lia|]; intros k Hk; apply R; lia). subst. exact Hp.
  - intros Hp. destruct (elem s q Hp) as (_ & Pp & Lp). exists q. split; [exact Hp|]. split; [intros j Hj Nj; exfalso; apply Nj, in_seq; lia|]. apply (Q q q Lp). split; [reflexivity|]. split; [exact Lp|]. intros k Hk. split; [reflexivity|]. rewrite <- Lp. apply perm_nth_lt; [exact Pp|lia].
Qed.
Lemma whole_rows h : subrepr_permutation (seq 0 n) g = Ok h -> length h <> 1%nat -> Forall (fun x => (0 < dim x)%nat) irs ->
  exists Sp, reduce_subgroup_permutation (seq 0 n) g (map dim irs) = Ok Sp /\ orthonormal_list (space ls) Sp /\ (forall f, symmetric_under f <-> repro (space ls) Sp f).
Proof.
  intros Eh Lh Pos. destruct whole_group as (h' & E & _ & G & H). assert (h' = h) by congruence. subst h'. unfold reduce_subgroup_permutation. rewrite E. cbn [bind]. rewrite (proj2 (Nat.eqb_neq _ _) Lh).
  assert (Ep : picked (seq 0 n) (map dim irs) 0%nat = map dim irs) by (unfold picked; rewrite <- dims_length; apply map_nth_all). rewrite Ep.
  assert (Em : masked (seq 0 n) (map dim irs) = map dim irs) by (rewrite masked_mk; fold n; rewrite mask_seq; unfold n; rewrite <- flats_length; fold (flats irs); rewrite mk_all; apply tdims_flats). rewrite Em.
  destruct (rows_of_group h G H) as (base & Eb & Q). rewrite Eb. cbn [bind].
  replace (existsb (Nat.eqb 0) (map dim irs)) with false.
  2:{ symmetry. match goal with |- ?b = false => destruct b eqn:B end; [|reflexivity]. apply existsb_exists in B as (d & Hd & B). apply Nat.eqb_eq in B. subst d. apply in_map_iff in Hd as (x & Hx & Hi). rewrite Forall_forall in Pos. specialize (Pos x Hi). lia. }
  eexists. split; [reflexivity|]. apply Q. generalize (reduce_permutation_matrix base (map dim irs)). intros l. induction l as [|q l IH]; [constructor|]. cbn [map]. constructor; [|exact IH]. intros z Vz. rewrite unravel_ravel by exact Vz. reflexivity.
Qed.
End Group.

(* ---------- sub-tuples ---------- *)
Section Sub.
Variables (g : list signed) (irs : list irreps) (f : list nat).
Let n := length irs.
Hypothesis Gg : signed_group n g.
Hypothesis Co : compatible g irs.
Hypothesis Sf : iset n f.
Let ls := flats irs.
Let m := maskof n f.
Lemma sub_group : exists h, subrepr_permutation f g = Ok h /\ NoDup h /\ signed_group (length f) h /\ (forall s q, In (s, q) h <-> exists p, In (s, p) g /\ only n f p /\ restriction f p q).
Proof. apply (C50_subgroup n g f Gg); [apply (iset_sorted n), Sf|intros i Hi; exact (iset_in n f i Sf Hi)]. Qed.
Variable h : list signed.
Hypothesis Hh : subrepr_permutation f g = Ok h.
Let irs' := picked f irs [].
Lemma sub_spec : NoDup h /\ signed_group (length irs') h /\ (forall s q, In (s, q) h <-> exists p, In (s, p) g /\ only n f p /\ restriction f p q).
Proof. destruct sub_group as (h' & E & Q). assert (h' = h) by congruence. subst h'. unfold irs', picked. rewrite map_length. exact Q. Qed.
Lemma sub_compatible : compatible h irs'.
Proof.
  intros s q Hq. destruct sub_spec as (_ & G & H). apply H in Hq as (p & Hp & _ & [Lq R]). unfold irs', picked. apply (nth_ext _ _ [] []); [rewrite !map_length; exact Lq|]. rewrite map_length. intros k Hk.
  rewrite (nth_map_at _ q _ 0%nat) by exact Hk. rewrite Lq in Hk. destruct (R k Hk) as [R1 R2]. rewrite !(nth_map_at (fun i => nth i irs []) f _ 0%nat) by assumption. rewrite <- R1. apply (compatible_nth g irs Gg Co s p); [exact Hp|]. apply (iset_in n f); [exact Sf|]. apply nth_In, Hk.
Qed.
Lemma sub_trivial : length g = 1%nat -> length h = 1%nat.
Proof.
  intros L. destruct sub_spec as (Nd & (_ & I1 & _) & H). destruct Gg as (_ & J1 & _). destruct g as [|a [|b l]]; try discriminate. destruct J1 as [-> |[]].
  assert (A : forall a, In a h -> a = (1%Z, identity (length irs'))).
  { intros [s q] Hq. apply H in Hq as (p & [Q|[]] & _ & [Lq R]). injection Q as <- <-. f_equal. apply nth_ext0; [unfold identity; rewrite seq_length; unfold irs', picked; rewrite map_length; exact Lq|]. unfold identity. intros k Hk. rewrite seq_nth by (unfold irs', picked; rewrite map_length; lia). rewrite Lq in Hk. destruct (R k Hk) as [R1 R2].
    unfold identity in R1. rewrite seq_nth in R1 by (apply (iset_in n f); [exact Sf|apply nth_In, Hk]). cbn in R1. cbn. apply (proj1 (NoDup_nth f 0%nat) (iset_nodup n f Sf) _ _ R2 Hk). symmetry. exact R1. }
  destruct h as [|a [|b t]]; [destruct I1|reflexivity|]. exfalso. inversion Nd as [|? ? N1 _]. apply N1. rewrite (A a), (A b) by (cbn; auto). left. reflexivity.
Qed.
Lemma nth_joinz m0 a b k : length a = length m0 -> length b = length m0 -> nth k (joinz m0 a b) 0%nat = if nth k m0 false then nth k a 0%nat else nth k b 0%nat.
Proof. revert a b k. induction m0 as [|c m0 IH]; intros [|x a] [|y b] k La Lb; try discriminate; [destruct k; reflexivity|]. injection La as La. injection Lb as Lb. destruct k as [|k]; cbn [joinz nth]; [destruct c; reflexivity|]. apply IH; assumption. Qed.
Lemma joinz_length m0 a b : length a = length m0 -> length b = length m0 -> length (joinz m0 a b) = length m0.
Proof. revert a b. induction m0 as [|c m0 IH]; intros [|x a] [|y b] La Lb; try discriminate; [reflexivity|]. injection La as La. injection Lb as Lb. cbn [joinz length]. rewrite IH by assumption. reflexivity. Qed.
Lemma negb_disjoint m0 : disjoint_masks m0 (map negb m0) (repeat true (length m0)).
Proof. induction m0 as [|c m0 IH]; [constructor|]. cbn [map length repeat]. destruct c; constructor; exact IH. Qed.
Lemma join_space a b : In a (space (mk m ls)) -> In b (space (mk (map negb m) ls)) -> In (joinz m a b) (space ls).
Proof.
  intros Ha Hb. assert (L : length ls = length (repeat true (length m))) by (unfold ls, m; rewrite repeat_length, flats_length, maskof_length; reflexivity).
  pose proof (masked_product m (map negb m) (repeat true (length m)) ls (negb_disjoint m) L) as PS. pose proof (ps_in _ _ _ _ _ _ _ _ _ PS a b Ha Hb) as Q. rewrite repeat_length in L. rewrite <- L, mk_all in Q. exact Q.
Qed.
Lemma lengths : length ls = length m. Proof. unfold ls, m. rewrite flats_length, maskof_length. reflexivity. Qed.
Lemma unsel_space y : In y (space (select m ls)) -> In (unsel m y) (space (mk m ls)) /\ select m (unsel m y) = y.
Proof.
  intros Hy. rewrite (select_space m ls lengths) in Hy. apply in_map_iff in Hy as (z & <- & Hz). rewrite (unsel_select m ls z lengths Hz). split; [exact Hz|reflexivity].
Qed.
Lemma space_length m' z : length m' = length ls -> In z (space (mk m' ls)) -> length z = n.
Proof. intros L Hz. apply in_valid, valid_length in Hz. rewrite Hz, tdims_length, mk_length by (symmetry; exact L). rewrite L. apply flats_length. Qed.
Lemma sub_dims : map dim irs' = tdims (select m ls).
Proof. unfold ls, flats. rewrite select_map. unfold m, n. rewrite <- (picked_select f irs []) by exact Sf. symmetry. apply tdims_flats. Qed.
Lemma slice_symmetric T o : symmetric_under g irs T -> In o (space (mk (map negb m) ls)) -> lifted m (symmetric_under h irs') (fun a => T (joinz m a o)).
Proof.
  intros HT Ho s q y Hq Vy. destruct sub_spec as (_ & G & H). pose proof (proj1 G s q Hq) as (Sg & Pq & Lq). unfold irs', picked in Lq. rewrite map_length in Lq. pose proof (sub_compatible) as Cs. pose proof (compatible_dims h irs' G Cs s q Hq) as Ed. pose proof Hq as Hq'. apply H in Hq' as (p & Hp & On & [Lq' R]).
  pose proof (proj1 Gg s p Hp) as (_ & Pp & Lp). assert (Ly : length y = length f) by (apply valid_length in Vy; rewrite Vy; unfold irs', picked; rewrite !map_length; reflexivity).
  assert (Y1 : In y (space (select m ls))) by (unfold space; rewrite <- sub_dims; apply all_idx_valid, Vy).
  assert (Y2 : In (permute y q) (space (select m ls))).
  { unfold space. rewrite <- sub_dims. apply all_idx_valid, permute_valid; try assumption. unfold irs', picked. rewrite !map_length. exact Lq. }
  destruct (unsel_space y Y1) as [U1 U2]. destruct (unsel_space _ Y2) as [U3 U4].
  assert (Lm : length m = n) by apply maskof_length. assert (LL : length m = length ls) by (symmetry; apply lengths).
  assert (Lo : length o = length m) by (rewrite Lm; apply (space_length (map negb m)); [rewrite map_length; exact LL|exact Ho]).
  assert (La : length (unsel m y) = length m) by (rewrite Lm; apply (space_length m); [exact LL|exact U1]).
  assert (Lb : length (unsel m (permute y q)) = length m) by (rewrite Lm; apply (space_length m); [exact LL|exact U3]).
  assert (CO : forall z k, length z = length m -> (k < length f)%nat -> nth (nth k f 0%nat) z 0%nat = nth k (select m z) 0%nat).
  { intros z k Lz Hk. unfold m. rewrite <- Lm, <- Lz. rewrite <- (picked_select f z 0%nat) by (rewrite Lz, Lm; exact Sf). unfold picked. rewrite (nth_map_at _ f _ 0%nat) by exact Hk. reflexivity. }
  assert (EZ : joinz m (unsel m (permute y q)) o = permute (joinz m (unsel m y) o) p).
  { apply nth_ext0; [rewrite joinz_length, permute_length by assumption; lia|]. rewrite joinz_length by assumption. intros j Hj. rewrite permute_nth by lia. rewrite !nth_joinz by assumption. assert (Bj : (nth j p 0 < length p)%nat) by (apply perm_nth_lt; [exact Pp|lia]). unfold m at 1 3. rewrite !maskof_nth by lia. destruct (inb f j) eqn:F.
    - apply inb_iff in F. apply (In_nth _ _ 0%nat) in F as (k & Hk & <-). destruct (R k Hk) as [R1 R2]. rewrite R1. assert (Fq : inb f (nth (nth k q 0%nat) f 0%nat) = true) by (apply inb_iff, nth_In, R2). rewrite Fq. rewrite (CO _ k Lb Hk), (CO _ _ La R2), U2, U4. rewrite permute_nth by lia. reflexivity.
    - apply inb_false in F. rewrite (On j) by (try lia; exact F). apply inb_false in F. rewrite F. reflexivity. }
  cbv beta. rewrite EZ. apply HT; [exact Hp|]. apply in_valid. rewrite <- tdims_flats. exact (join_space _ _ U1 Ho).
Qed.
End Sub.
