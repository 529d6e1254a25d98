(* C49: the variance of the output of FunctionalTensorProduct *)
From Coq Require Import Reals Lra Lia List.
From Verif Require Import PyBase PermModel PermProofs IrrepsModel IrrepsProofs IrrepsProofs2 ArrayModel ArrayProofs ArrayOps RechunkProofs ArithProofs BlockProofs LeadModel LeadProofs StackProofs BilinProofs ActProofs EquivProofs EquivProofs2 SumR TPModel LinearModel LinearProofs TPProofs TPProofs2 LinearProps TPProps3 TPProps4 SymProofs2 ArrayProps3 CGModel CGProofs2 CGProofs3 CGProofs6 LegacyModel GSProofs LegacyProofs LegacyProofs2 LegacyProofs3 LegacyProofs4 LegacyProofs5 LegacyProofs6 LegacyProofs7 LegacyProofs8 LegacyProps LegacyProps2 LegacyProps3.
From Verif Require Import EntryProofs.
Import ListNotations.
Open Scope nat_scope.

(* ---------- squares of sums of uncorrelated random variables ---------- *)
Lemma Ex_lsum {O A} (Ex : (O -> R) -> R) (H : expectation O Ex) (l : list A) f : Ex (fun w => lsum l (fun t => f t w)) = lsum l (fun t => Ex (f t)).
Proof.
  induction l as [|a l IH].
  - rewrite (Ex_ext _ _ H _ (fun w => 0 * 0)%R) by (intros; cbn; lra). rewrite (Ex_scal _ _ H). cbn. lra.
  - rewrite lsum_cons, <- IH. rewrite <- (Ex_plus _ _ H). apply (Ex_ext _ _ H). intros w. rewrite lsum_cons. reflexivity.
Qed.
Lemma lsum_pick {A} (l : list A) a (g : A -> R) : NoDup l -> In a l -> (forall b, In b l -> b <> a -> g b = 0%R) -> lsum l g = g a.
Proof.
  induction 1 as [|b l Hb Hl IH]; intros Ha H; [destruct Ha|]. rewrite lsum_cons. destruct Ha as [->|Ha].
  - rewrite lsum_zero; [lra|]. intros c Hc. apply H; [right; exact Hc|]. intros ->. contradiction.
  - rewrite IH; [|exact Ha|intros c Hc; apply H; right; exact Hc]. rewrite H; [lra|apply in_eq|]. intros ->. contradiction.
Qed.
Lemma Ex_square {O A} (Ex : (O -> R) -> R) (H : expectation O Ex) (l : list A) (c : A -> R) (Z : A -> O -> R) (s : A -> R) : NoDup l ->
  (forall t, In t l -> Ex (fun w => Z t w * Z t w)%R = s t) -> (forall t t', In t l -> In t' l -> t <> t' -> Ex (fun w => Z t w * Z t' w)%R = 0%R) ->
  Ex (fun w => lsum l (fun t => c t * Z t w) ^ 2)%R = lsum l (fun t => c t ^ 2 * s t)%R.
Proof.
  intros ND HS HU. rewrite (Ex_ext _ _ H _ (fun w => lsum l (fun t => lsum l (fun t' => (c t * c t') * (Z t w * Z t' w)))))%R.
  2:{ intros w. cbn [pow]. rewrite Rmult_1_r. rewrite <- lsum_scal_r. apply lsum_ext. intros t _. rewrite <- lsum_scal. apply lsum_ext. intros t' _. ring. }
  rewrite (Ex_lsum _ H). apply lsum_ext. intros t Ht. rewrite (Ex_lsum _ H). rewrite (lsum_pick l t) by (try assumption; intros b Hb N; rewrite (Ex_scal _ _ H), HU by (auto; congruence); ring).
  rewrite (Ex_scal _ _ H), HS by exact Ht. ring.
Qed.
(* pairs (a, b) with b in a list that depends on a *)
Definition lpairs {A B} (l : list A) (f : A -> list B) : list (A * B) := flat_map (fun a => map (pair a) (f a)) l.
Lemma lpairs_nodup {A B} (l : list A) (f : A -> list B) : NoDup l -> (forall a, In a l -> NoDup (f a)) -> NoDup (lpairs l f).
Proof.
  intros H1 H2. apply nodup_flat_map; [exact H1| |].
  - intros a Ha. apply FinFun.Injective_map_NoDup; [intros b b' E; congruence|apply H2, Ha].
  - intros a a' p _ _ Hp Hp'. apply in_map_iff in Hp as (b & <- & _). apply in_map_iff in Hp' as (b' & E & _). congruence.
Qed.
Lemma lpairs_in {A B} (l : list A) (f : A -> list B) a b : In (a, b) (lpairs l f) <-> In a l /\ In b (f a).
Proof.
  unfold lpairs. rewrite in_flat_map. split.
  - intros (a' & Ha & H). apply in_map_iff in H as (b' & E & Hb). injection E as -> ->. auto.
  - intros [Ha Hb]. exists a. split; [exact Ha|]. apply in_map, Hb.
Qed.
Lemma lpairs_sum {A B} (l : list A) (f : A -> list B) g : lsum (lpairs l f) g = lsum l (fun a => lsum (f a) (fun b => g (a, b))).
Proof. unfold lpairs. rewrite lsum_flat_map. apply lsum_ext. intros a _. apply lsum_map. Qed.

(* ---------- the variance ---------- *)
(* the variance of one component of an irrep whose declared variance is 1: components have variance 1, or the squared norm has mean 1 *)
Definition spread (nrm : inorm) (c : irrep) : R := match nrm with NNorm => (/ INR (ir_dim c))%R | _ => 1%R end.
Definition std_of (o : tinstr) : R := if ti_hw o then match ti_std o with Some s => s | None => 0%R end else 1%R.
Definition dins : tinstr := TIns 0 0 0 MBad false 0 None 0 0 0.
(* one product weight * x1 component * x2 component of instruction number p *)
Definition product_of (T : ftp) (q : nat) (l : list tensor) (x1 x2 : iarray) (t : nat * (nat * (nat * (nat * nat)))) : R :=
  let '(p, (u, (v, (i, i')))) := t in let o := nth p (tp_ins T) dins in
  (coefficient (ti_mode o) (ti_hw o) (ti_m1 o) (ti_m2 o) (ti_mo o) (snd (nth p (assign (tp_ins T) l) (dins, []))) u v q * (entry (tp_in1 T) (arr x1 []) (ti_1 o) u i * entry (tp_in2 T) (arr x2 []) (ti_2 o) v i'))%R.
(* the index (p, u, v, i, i') of a product that enters copy q of entry j *)
Definition index_of (T : ftp) (j : nat) (t : nat * (nat * (nat * (nat * nat)))) : Prop :=
  let '(p, (u, (v, (i, i')))) := t in exists o, nth_error (tp_ins T) p = Some o /\ ti_o o = j /\ u < ti_m1 o /\ v < ti_m2 o /\ i < ir_dim (snd (nth (ti_1 o) (tp_in1 T) d0)) /\ i' < ir_dim (snd (nth (ti_2 o) (tp_in2 T) d0)).
Definition variance_of (T : ftp) (nrm : inorm) (v1 v2 : option (list R)) (q : nat) (t : nat * (nat * (nat * (nat * nat)))) : R :=
  let '(p, (u, (v, (i, i')))) := t in let o := nth p (tp_ins T) dins in
  (one_if (feeds (ti_mode o) (ti_m1 o) (ti_m2 o) u v q) * std_of o ^ 2 * (declared v1 (tp_in1 T) (ti_1 o) * spread nrm (snd (nth (ti_1 o) (tp_in1 T) d0))) * (declared v2 (tp_in2 T) (ti_2 o) * spread nrm (snd (nth (ti_2 o) (tp_in2 T) d0))))%R.
Definition normalized (cg : coupling) : Prop := forall a b c k, In c (ir_mul a b) -> k < ir_dim c ->
  rsum (ir_dim a) (fun i => rsum (ir_dim b) (fun j => cg (ir_l a) (ir_l b) (ir_l c) i j k ^ 2))%R = (/ INR (ir_dim c))%R.
Definition indices (T : ftp) (j : nat) : list (nat * (nat * (nat * (nat * nat)))) :=
  lpairs (filter (fun p => ti_o (nth p (tp_ins T) dins) =? j) (seq 0 (length (tp_ins T)))) (fun p => let o := nth p (tp_ins T) dins in
    lpairs (seq 0 (ti_m1 o)) (fun _ => lpairs (seq 0 (ti_m2 o)) (fun _ => lpairs (seq 0 (ir_dim (snd (nth (ti_1 o) (tp_in1 T) d0)))) (fun _ => seq 0 (ir_dim (snd (nth (ti_2 o) (tp_in2 T) d0))))))).
Lemma indices_nodup T j : NoDup (indices T j).
Proof.
  unfold indices. apply lpairs_nodup; [apply NoDup_filter, seq_NoDup|]. intros p _. repeat (apply lpairs_nodup; [apply seq_NoDup|intros ? _]). apply seq_NoDup.
Qed.
Lemma indices_in T j t : In t (indices T j) -> index_of T j t.
Proof.
  destruct t as [p [u [v [i i']]]]. unfold indices. rewrite lpairs_in. intros [H1 H2]. cbv zeta in H2. rewrite !lpairs_in, !in_seq in H2. apply filter_In in H1 as [H1 Ej]. apply in_seq in H1. apply Nat.eqb_eq in Ej.
  exists (nth p (tp_ins T) dins). split; [apply nth_error_nth'; lia|]. split; [exact Ej|]. lia.
Qed.
(* random weights and inputs such that the products above are uncorrelated with the variances declared (inputs with the declared
   variances, weights of standard deviation weight_std): then the output has the declared variance *)
Theorem C49_variance (O : Type) (Ex : (O -> R) -> R) x y z us v1 v2 vo nrm pn gn T cg j q k (l : O -> list tensor) (x1 x2 r : O -> iarray) :
  expectation O Ex -> functional_tp x y z us v1 v2 vo nrm pn gn = Ok T -> nrm = NComponent \/ nrm = NNorm -> normalized cg ->
  Forall suits (tp_ins T) -> Forall nonempty (tp_ins T) -> Forall (fun o => (0 < gathered v1 v2 x y o)%R) (tp_ins T) -> Forall (fun u => weight_of u = 1%R) us ->
  (exists o, In o (tp_ins T) /\ ti_o o = j) -> inside z j q k ->
  (forall w, inputs_for T (x1 w) (x2 w) /\ weights_fit (tp_ins T) (l w) /\ left_right cg false T (WList (l w)) (x1 w) (x2 w) = Ok (r w)) ->
  (forall t, index_of T j t -> Ex (fun w => product_of T q (l w) (x1 w) (x2 w) t * product_of T q (l w) (x1 w) (x2 w) t)%R = variance_of T nrm v1 v2 q t) ->
  (forall t t', index_of T j t -> index_of T j t' -> t <> t' -> Ex (fun w => product_of T q (l w) (x1 w) (x2 w) t * product_of T q (l w) (x1 w) (x2 w) t')%R = 0%R) ->
  Ex (fun w => entry z (arr (r w) []) j q k ^ 2)%R = (declared vo z j * spread nrm (snd (nth j z d0)))%R.
Proof.
  intros HE E Hn HC HS HN HG HW Hj Hin HR HV HU. pose proof (C49_total_share _ _ _ _ _ _ _ _ _ _ _ _ E HG HW Hj) as SS. pose proof (coupled_all _ _ _ _ _ _ _ _ _ _ _ E) as CO.
  destruct (constructor_inv _ _ _ _ _ _ _ _ _ _ _ E) as (ins & _ & Ex1 & Ey & Ez & _). set (c := snd (nth j z d0)) in *.
  set (cf := fun t : nat * (nat * (nat * (nat * nat))) => let '(p, (u, (v, (i, i')))) := t in let o := nth p (tp_ins T) dins in (ti_pw o * cg (ir_l (snd (nth (ti_1 o) x d0))) (ir_l (snd (nth (ti_2 o) y d0))) (ir_l c) i i' k)%R).
  rewrite (Ex_ext _ _ HE _ (fun w => lsum (indices T j) (fun t => cf t * product_of T q (l w) (x1 w) (x2 w) t) ^ 2)%R).
  - rewrite (Ex_square Ex HE (indices T j) cf _ (variance_of T nrm v1 v2 q) (indices_nodup T j)); [|intros t Ht; apply HV, indices_in, Ht|intros t t' Ht Ht' N; apply HU; auto using indices_in].
    rewrite <- SS. unfold indices. rewrite lpairs_sum, lsum_filter, (lsum_nth (tp_ins T) dins), lsum_seq, Rmult_comm, <- rsum_scal. apply rsum_ext. intros p Hp. destruct (Nat.eqb_spec (ti_o (nth p (tp_ins T) dins)) j) as [Ej|]; [|ring].
    cbv zeta. set (o := nth p (tp_ins T) dins) in *. rewrite Ex1, Ey. assert (Ho : In o (tp_ins T)) by (apply nth_In, Hp). rewrite Forall_forall in HS, CO. specialize (HS o Ho). destruct (CO o Ho) as (m1 & a & m2 & b & mo & c' & E1 & E2 & E3 & Cab & M1 & M2 & M3). rewrite Ex1 in E1. rewrite Ey in E2. rewrite Ez in E3.
    assert (Ec : c' = c) by (unfold c; rewrite <- Ej, (nth_error_nth _ _ _ E3); reflexivity). subst c'. rewrite (nth_error_nth _ _ _ E1), (nth_error_nth _ _ _ E2). cbn [snd].
    destruct Hin as (mo' & c0 & Hin & Hq & Hk). assert (c0 = c) by (unfold c; rewrite (nth_error_nth _ _ _ Hin); reflexivity). subst c0. assert (mo' = mo) by (rewrite Ej in E3; congruence). subst mo'.
    transitivity (rsum (ti_m1 o) (fun u => rsum (ti_m2 o) (fun v => one_if (feeds (ti_mode o) (ti_m1 o) (ti_m2 o) u v q) * (scale o ^ 2 * (declared v1 x (ti_1 o) * spread nrm a * (declared v2 y (ti_2 o) * spread nrm b)) * / INR (ir_dim c))))%R).
    + rewrite lpairs_sum, lsum_seq. apply rsum_ext. intros u Hu. rewrite lpairs_sum, lsum_seq. apply rsum_ext. intros v Hv. rewrite <- (HC a b c k Cab Hk). rewrite lpairs_sum, lsum_seq. rewrite <- !rsum_scal. apply rsum_ext. intros i Hi. rewrite lsum_seq. rewrite <- !rsum_scal. apply rsum_ext. intros i' Hi'.
      unfold cf, variance_of. cbv zeta. fold o. rewrite Ex1, Ey, (nth_error_nth _ _ _ E1), (nth_error_nth _ _ _ E2). cbn [snd]. unfold scale. fold (std_of o). ring.
    + rewrite (rsum_ext _ _ (fun u => rsum (ti_m2 o) (fun v => one_if (feeds (ti_mode o) (ti_m1 o) (ti_m2 o) u v q)) * (scale o ^ 2 * (declared v1 x (ti_1 o) * spread nrm a * (declared v2 y (ti_2 o) * spread nrm b)) * / INR (ir_dim c))))%R by (intros u _; apply rsum_scal_r). rewrite rsum_scal_r, (C49_num_elements o q HS) by lia.
      unfold gathered, irrep_factor. rewrite Ej. fold c. rewrite (nth_error_nth _ _ _ E1), (nth_error_nth _ _ _ E2). cbn [snd]. rewrite mult_INR. assert (Pa : (INR (ir_dim a) <> 0)%R) by (apply not_0_INR; unfold ir_dim; lia). assert (Pb : (INR (ir_dim b) <> 0)%R) by (apply not_0_INR; unfold ir_dim; lia). assert (Pc : (INR (ir_dim c) <> 0)%R) by (apply not_0_INR; unfold ir_dim; lia).
      unfold spread. destruct Hn as [-> | ->]; field; auto.
  - intros w. f_equal. destruct (HR w) as (HI & HF & Er). destruct (C49_value _ _ _ _ _ _ _ _ _ _ T cg (WList (l w)) (l w) (x1 w) (x2 w) E HI HS HN (conj HF eq_refl)) as (r' & Er' & _ & _ & _ & Vr). rewrite Er in Er'. assert (Q : r' = r w) by congruence. rewrite Q in Vr. rewrite (Vr j q k Hin). clear Q Er' Vr.
    rewrite (lsum_nth _ (dins, [])), assign_length. unfold indices. rewrite lpairs_sum, lsum_filter, lsum_seq. apply rsum_ext. intros p Hp.
    assert (Eo : fst (nth p (assign (tp_ins T) (l w)) (dins, [])) = nth p (tp_ins T) dins) by (rewrite <- (assign_fst (tp_ins T) (l w)) at 2; rewrite (nth_map_in fst _ p (dins, [])) by (rewrite assign_length; exact Hp); reflexivity).
    destruct (nth p (assign (tp_ins T) (l w)) (dins, [])) as [o wt] eqn:Ep. cbn [fst] in Eo. subst o. cbv zeta. set (o := nth p (tp_ins T) dins) in *. destruct (ti_o o =? j); [|reflexivity].
    rewrite lpairs_sum, lsum_seq. apply rsum_ext. intros u Hu. rewrite lpairs_sum, lsum_seq. apply rsum_ext. intros v Hv. rewrite lpairs_sum, lsum_seq. rewrite Ex1, Ey. rewrite <- !rsum_scal. apply rsum_ext. intros i Hi. rewrite lsum_seq. rewrite <- !rsum_scal. apply rsum_ext. intros i' Hi'.
    unfold cf, product_of. cbv zeta. fold o. rewrite Ep, Ex1, Ey. cbn [snd]. fold c. ring.
Qed.
(* the couplings of e3nn are normalized *)
Lemma triangle_even l1 l2 l3 : l1 - l2 + (l2 - l1) <= l3 <= l1 + l2 -> triangle (2 * l1) (2 * l2) (2 * l3) = true.
Proof.
  intros H. unfold triangle. cbv zeta. rewrite !andb_true_iff, !Z.leb_le, Z.eqb_eq. split; [split; lia|]. destruct (Z.abs_spec (Z.of_nat (2 * l1) - Z.of_nat (2 * l2))) as [[_ E]|[_ E]]; rewrite E.
  - replace (_ - _)%Z with ((Z.of_nat l3 - (Z.of_nat l1 - Z.of_nat l2)) * 2)%Z by lia. apply Z.mod_mul. lia.
  - replace (_ - _)%Z with ((Z.of_nat l3 + (Z.of_nat l1 - Z.of_nat l2)) * 2)%Z by lia. apply Z.mod_mul. lia.
Qed.
Theorem C49_cg_normalized : normalized clebsch_gordan.
Proof.
  intros a b c k C Hk. rewrite ir_mul_in in C. destruct C as [_ Cl]. unfold ir_dim in *. pose proof (cg_gram (ir_l a) (ir_l b) (ir_l c) k k) as G. rewrite Nat.eqb_refl in G. rewrite <- G; [|apply triangle_even; lia|lia|lia].
  apply rsum_ext. intros i _. apply rsum_ext. intros i' _. ring.
Qed.
