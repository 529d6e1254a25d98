(* The coupling of degrees l - 1 and l to 1, at the pole; the rule of _jvp is the derivative. *)
From Coq Require Import Reals Lra ZArith Lia List Bool Arith.
From Coquelicot Require Import Coquelicot.
From Verif Require Import PyBase IrrepsModel IrrepsProofs ArrayModel LeadModel SumR TPProofs CGModel EntryProofs CGProofs CGProofs2 CGProofs3 CGProofs5 CGProofs9 CGProofs11 RotationModel RotationProofs RadialProofs S2Model WignerProofs2 WignerProps WignerProps2 SHModel SHProofs SHProofs2 SHProofs3 SHProofs4 SHProofs5 SHProofs6.
Import ListNotations.
Open Scope R_scope.

Definition nf (l : nat) : R := norm_factor (2 * Z.of_nat l - 2) 0 2.
Lemma racah_one A a k : (0 <= k <= 2)%Z -> racah A 0 2 a k = sgn k * ff (2 + a - k) * ff (A - a + k) * rf k * rf (2 - k).
Proof.
  intros H. unfold racah. change (S (Z.to_nat 2)) with 3%nat.
  rewrite (rsum_ext 3 _ (fun i => if (i =? Z.to_nat k)%nat then sgn k * ff (2 + a - k) * ff (A - a + k) * rf k * rf (2 - k) else 0)).
  - exact (rsum_delta 3 (Z.to_nat k) (fun _ => sgn k * ff (2 + a - k) * ff (A - a + k) * rf k * rf (2 - k)) ltac:(lia)).
  - intros i Hi. unfold term. destruct (Nat.eqb_spec i (Z.to_nat k)) as [E|N].
    + replace (Z.of_nat i) with k by lia. rewrite Z.add_0_r, !Z.sub_diag. replace (k + 0 - k)%Z with 0%Z by lia. rewrite (rf_nonneg 0) by lia. rewrite ff_0. field.
    + destruct (Z.lt_trichotomy (Z.of_nat i) k) as [L|[L|L]]; [rewrite (rf_neg (Z.of_nat i + 0 - k)) by lia; ring|lia|rewrite (rf_neg (k - Z.of_nat i)) by lia; ring].
Qed.
Lemma cgz_pole l k : (1 <= l)%nat -> (0 <= k <= 2)%Z -> cgz (2 * Z.of_nat l - 2) 0 2 (Z.of_nat l - 1) (Z.of_nat l - 1 + k) k =
  sgn (Z.of_nat l - 1) * (nf l * (if (k =? 1)%Z then INR l else sqrt (INR l * (INR l + 1) / 2))).
Proof.
  intros Hl Hk. rewrite cgz_in by lia. rewrite racah_one by lia. unfold nf. set (N := norm_factor _ _ _). set (L := Z.of_nat l) in *. assert (HL : (1 <= L)%Z) by lia.
  replace (2 * L - 2 + 0)%Z with (2 * L - 2)%Z by lia. replace (2 * L - 2 + 2)%Z with (2 * L)%Z by lia. replace (2 + (L - 1) - k)%Z with (L + 1 - k)%Z by lia. replace (2 * L - 2 - (L - 1) + k)%Z with (L - 1 + k)%Z by lia. change (0 + 2)%Z with 2%Z.
  rewrite sgn_add. unfold wt_in, wt_out. replace (2 * L - 2 - (L - 1))%Z with (L - 1)%Z by lia. replace (2 * L - (L - 1 + k))%Z with (L + 1 - k)%Z by lia. rewrite !rf_nonneg by lia.
  pose proof (ff_pos (L - 1)) as F1. rewrite sqrt_square by (apply Rlt_le, Rinv_0_lt_compat, F1).
  assert (FL : ff L = INR l * ff (L - 1)) by (rewrite ff_pred by lia; rewrite INR_IZR_INZ; reflexivity).
  assert (FS : ff (L + 1) = (INR l + 1) * ff L) by (rewrite ff_succ by lia; rewrite plus_IZR, INR_IZR_INZ; reflexivity).
  assert (Il : 1 <= INR l) by (change 1 with (INR 1); apply le_INR; lia). set (f := ff (L - 1)) in *. assert (F0 : ff 0 = 1) by reflexivity. assert (F2 : ff 2 = 2) by (unfold ff; change (fact (Z.to_nat 2)) with 2%nat; cbn [INR]; ring). assert (F11 : ff 1 = 1) by reflexivity.
  assert (Sk : sgn k * sgn k = 1) by apply sgn_sq.
  assert (C : (k = 0 \/ k = 1 \/ k = 2)%Z) by lia. destruct C as [->|[->| ->]]; cbn [Z.eqb Pos.eqb].
  - replace (L - 1 + 0)%Z with (L - 1)%Z by lia. rewrite Z.sub_0_r. change (2 - 0)%Z with 2%Z. fold f. rewrite F0, F2, FS, FL. rewrite <- Rinv_mult. rewrite sqrt_inv. set (q := f * ((INR l + 1) * (INR l * f))).
    assert (Hq : sqrt q = f * sqrt (INR l * (INR l + 1))) by (unfold q; replace (f * ((INR l + 1) * (INR l * f))) with (f * f * (INR l * (INR l + 1))) by ring; rewrite sqrt_mult by nra; rewrite sqrt_square by lra; reflexivity).
    rewrite Hq. rewrite sqrt_div by nra. assert (S1 : 0 < sqrt (INR l * (INR l + 1))) by (apply sqrt_lt_R0; nra). assert (S2 : sqrt (INR l * (INR l + 1)) * sqrt (INR l * (INR l + 1)) = INR l * (INR l + 1)) by (apply sqrt_sqrt; nra). assert (T1 : 0 < sqrt 2) by (apply sqrt_lt_R0; lra). assert (T2 : sqrt 2 * sqrt 2 = 2) by (apply sqrt_sqrt; lra). rewrite Rmult_1_l.
    set (s := sqrt (INR l * (INR l + 1))) in *. set (t := sqrt 2) in *. change (sgn 0) with 1. rewrite !Rmult_1_l, !Rmult_1_r.
    transitivity (sgn (L - 1) * N * (t * / 2) * (INR l * (INR l + 1) * / s)); [field; split; lra|]. rewrite <- S2. replace (/ 2) with (/ (t * t)) by (rewrite T2; reflexivity). field. split; lra.
  - replace (L - 1 + 1)%Z with L by lia. replace (L + 1 - 1)%Z with L by lia. change (2 - 1)%Z with 1%Z. rewrite F11, FL, Rinv_1, !Rmult_1_r, sqrt_1. rewrite sqrt_square by (apply Rlt_le, Rinv_0_lt_compat; nra). change (sgn 1) with (-1). field. split; lra.
  - replace (L - 1 + 2)%Z with (L + 1)%Z by lia. replace (L + 1 - 2)%Z with (L - 1)%Z by lia. change (2 - 2)%Z with 0%Z. fold f. rewrite F0, F2, FS, FL. rewrite <- Rinv_mult. rewrite sqrt_inv. set (q := (INR l + 1) * (INR l * f) * f).
    assert (Hq : sqrt q = f * sqrt (INR l * (INR l + 1))) by (unfold q; replace ((INR l + 1) * (INR l * f) * f) with (f * f * (INR l * (INR l + 1))) by ring; rewrite sqrt_mult by nra; rewrite sqrt_square by lra; reflexivity).
    rewrite Hq. rewrite sqrt_div by nra. assert (S1 : 0 < sqrt (INR l * (INR l + 1))) by (apply sqrt_lt_R0; nra). assert (S2 : sqrt (INR l * (INR l + 1)) * sqrt (INR l * (INR l + 1)) = INR l * (INR l + 1)) by (apply sqrt_sqrt; nra). assert (T1 : 0 < sqrt 2) by (apply sqrt_lt_R0; lra). assert (T2 : sqrt 2 * sqrt 2 = 2) by (apply sqrt_sqrt; lra). rewrite Rmult_1_r.
    set (s := sqrt (INR l * (INR l + 1))) in *. set (t := sqrt 2) in *. change (sgn 2) with 1. rewrite !Rmult_1_l, !Rmult_1_r, Rinv_1, !Rmult_1_r.
    transitivity (sgn (L - 1) * N * (t * / 2) * (INR l * (INR l + 1) * / s)); [field; split; lra|]. rewrite <- S2. replace (/ 2) with (/ (t * t)) by (rewrite T2; reflexivity). field. split; lra.
Qed.
Definition gpole (p n : nat) : R := nf (S p) * (if (n =? 1)%nat then INR (S p) else sqrt (INR (S p) * (INR (S p) + 1) / 2)).
Lemma su2_pole p s n : (s < 2 * S p + 1)%nat -> (n < 3)%nat -> su2_clebsch_gordan (2 * p) (2 * S p) (2 * 1) p s n = if (s =? p + n)%nat then (-1) ^ p * gpole p n else 0.
Proof.
  intros Hs Hn. pose proof (su2_closed (2 * p) 0 2 p s n ltac:(lia) ltac:(lia) ltac:(lia)) as E. replace (2 * p + 0)%nat with (2 * p)%nat in E by lia. replace (2 * p + 2)%nat with (2 * S p)%nat in E by lia. change (0 + 2)%nat with (2 * 1)%nat in E. rewrite E.
  destruct (Nat.eqb_spec s (p + n)) as [->|N]; [|apply cgz_out; lia]. pose proof (cgz_pole (S p) (Z.of_nat n) ltac:(lia) ltac:(lia)) as C.
  replace (2 * Z.of_nat (S p) - 2)%Z with (Z.of_nat (2 * p)) in C by lia. replace (Z.of_nat (S p) - 1)%Z with (Z.of_nat p) in C by lia. change 0%Z with (Z.of_nat 0) in C. change 2%Z with (Z.of_nat 2) in C. rewrite Nat2Z.inj_add. rewrite C. unfold gpole.
  replace (Z.of_nat n =? 1)%Z with (n =? 1)%nat by (destruct (Nat.eqb_spec n 1), (Z.eqb_spec (Z.of_nat n) 1); lia). f_equal.
  unfold sgn. clear. induction p as [|p IH]; [reflexivity|]. rewrite Nat2Z.inj_succ, Z.even_succ, <- Z.negb_even. cbn [pow]. rewrite <- IH. destruct (Z.even (Z.of_nat p)); cbn [negb]; ring.
Qed.
Lemma cg_pole_sum p j k : (j < 2 * S p + 1)%nat -> (k < 3)%nat -> clebsch_gordan_complex p (S p) 1 p j k =
  (csum 3 (fun n => om p * Q (S p) (p + n) j * Cconj (Q 1 n k) * RtoC ((-1) ^ p * gpole p n)))%C.
Proof.
  intros Hj Hk. unfold clebsch_gordan_complex. change change_basis_real_to_complex with Q.
  rewrite (csum_pick1 _ p) by (try lia; intros r Hr Nr; apply csum_zero; intros s _; apply csum_zero; intros n _; rewrite (Q_out p r p) by lia; ring). rewrite Q_mid.
  rewrite csum_swap. apply csum_ext. intros n Hn. rewrite (csum_pick1 _ (p + n)).
  - rewrite su2_pole by lia. rewrite Nat.eqb_refl. reflexivity.
  - lia.
  - intros s Hs Ns. rewrite su2_pole by lia. rewrite (proj2 (Nat.eqb_neq s (p + n)) Ns). ring.
Qed.
Lemma om_sign p : (om p * om (S p) * Cconj (om 1) = RtoC ((-1) ^ p))%C.
Proof.
  replace (S p) with (p + 1)%nat by lia. rewrite om_add. transitivity (om p * om p * (om 1 * Cconj (om 1)))%C; [ring|]. rewrite om_conj, Cmult_1_r. rewrite <- om_add. induction p as [|p IH]; [unfold om; cbn; reflexivity|].
  replace (S p + S p)%nat with (S (S (p + p))) by lia. unfold om in *. cbn [cpow pow]. rewrite IH. rewrite RtoC_mult. transitivity (Ci * Ci * RtoC ((-1) ^ p))%C; [ring|]. f_equal. unfold Ci, Cmult, RtoC. cbn. f_equal; ring.
Qed.
Lemma cg_pole p j k : (j < 2 * S p + 1)%nat -> (k < 3)%nat -> clebsch_gordan p (S p) 1 p j k = if (j =? p + k)%nat then gpole p k else 0.
Proof.
  intros Hj Hk. unfold clebsch_gordan. rewrite cg_pole_sum by assumption. cbn [csum]. assert (G : gpole p 0 = gpole p 2) by reflexivity.
  assert (A1 : alt 1 = (- RtoC 1)%C) by (unfold alt; cbn [pow]; rewrite Rmult_1_r, <- RtoC_opp; reflexivity).
  assert (SG : forall z, (RtoC ((-1) ^ p) * RtoC ((-1) ^ p * z) = RtoC z)%C) by (intros z; rewrite <- RtoC_mult; f_equal; rewrite <- Rmult_assoc, <- Rpow_mult_distr; replace (-1 * -1) with 1 by ring; rewrite pow1; ring).
  assert (H2 : (sq2 * Cconj sq2 + sq2 * Cconj sq2 = RtoC 1)%C). { unfold sq2. rewrite Cconj_R, <- !RtoC_mult, <- RtoC_plus. f_equal. assert (sqrt 2 * sqrt 2 = 2) by (apply sqrt_sqrt; lra). assert (0 < sqrt 2) by (apply sqrt_lt_R0; lra). field_simplify; [|lra]. replace (sqrt 2 ^ 2) with 2 by (cbn; lra). field. }
  assert (Qm : forall d, Q (S p) (p + 1) d = if (d =? S p)%nat then om (S p) else RtoC 0). { intros d. replace (p + 1)%nat with (S p) by lia. destruct (Nat.eqb_spec d (S p)) as [->|N]; [apply Q_mid|apply Q_out; lia]. }
  assert (M1 : forall d, (d < 3)%nat -> Q 1 1 d = if (d =? 1)%nat then om 1 else RtoC 0). { intros d Hd. destruct (Nat.eqb_spec d 1) as [->|N]; [apply Q_mid|apply Q_out; lia]. }
  pose proof (Q_ll (S p) 1 ltac:(lia)) as Qll. pose proof (Q_lu (S p) 1 ltac:(lia)) as Qlu. pose proof (Q_ul (S p) 1 ltac:(lia)) as Qul. pose proof (Q_uu (S p) 1 ltac:(lia)) as Quu. replace (S p - 1)%nat with p in * by lia. replace (S p + 1)%nat with (p + 2)%nat in * by lia. rewrite A1 in *.
  pose proof (Q_ll 1 1 ltac:(lia)) as Rll. pose proof (Q_lu 1 1 ltac:(lia)) as Rlu. pose proof (Q_ul 1 1 ltac:(lia)) as Rul. pose proof (Q_uu 1 1 ltac:(lia)) as Ruu. cbn [Nat.sub Nat.add] in Rll, Rlu, Rul, Ruu. rewrite A1 in *.
  rewrite Nat.add_0_r, Qm, M1 by exact Hk.
  assert (CC : Cconj Ci = (- Ci)%C) by (unfold Cconj, Ci, Copp; cbn; f_equal; ring). assert (CS : Cconj sq2 = sq2) by (unfold sq2; apply Cconj_R). assert (C1 : Cconj (- RtoC 1)%C = (- RtoC 1)%C) by (rewrite <- RtoC_opp; apply Cconj_R).
  assert (CI : (Ci * Ci = - RtoC 1)%C) by (unfold Ci, Cmult, Copp, RtoC; cbn; f_equal; ring). rewrite CS in H2.
  assert (J : (j = p \/ j = S p \/ j = p + 2 \/ (j <> p /\ j <> S p /\ j <> p + 2))%nat) by lia.
  assert (KK : (k = 0 \/ k = 1 \/ k = 2)%nat) by lia.
  assert (Fin : forall z w : C, (z = om p * om (S p) * Cconj (om 1) * w)%C -> z = (RtoC ((-1) ^ p) * w)%C) by (intros z w ->; rewrite om_sign; reflexivity).
  assert (Q0 : Q (S p) p (S p) = RtoC 0) by (apply Q_out; lia). assert (Q2 : Q (S p) (p + 2) (S p) = RtoC 0) by (apply Q_out; lia).
  assert (R0 : Q 1 0 1 = RtoC 0) by (apply Q_out; lia). assert (R2 : Q 1 2 1 = RtoC 0) by (apply Q_out; lia).
  destruct J as [->|[->|[->|(J1 & J2 & J3)]]].
  - rewrite (proj2 (Nat.eqb_neq p (S p))) by lia. rewrite Qll, Qul. destruct KK as [->|[->| ->]].
    + rewrite Nat.add_0_r, Nat.eqb_refl, Rll, Rul, <- G. cbn [Nat.eqb]. rewrite !Cconj_opp, !Cmult_conj, CC, CS, C1. rewrite !Cconj_R.
      transitivity (Re (RtoC ((-1) ^ p) * RtoC ((-1) ^ p * gpole p 0))%C); [|rewrite SG; reflexivity]. f_equal. apply Fin. transitivity (om p * om (S p) * Cconj (om 1) * RtoC ((-1) ^ p * gpole p 0) * (- (Ci * Ci)) * (sq2 * sq2 + sq2 * sq2))%C; [ring|]. rewrite H2, CI. ring.
    + rewrite (proj2 (Nat.eqb_neq p (p + 1))) by lia. rewrite R0, R2. rewrite !Cconj_R. match goal with |- Re ?z = _ => replace z with (RtoC 0) by ring end. reflexivity.
    + rewrite (proj2 (Nat.eqb_neq p (p + 2))) by lia. rewrite Rlu, Ruu, <- G. cbn [Nat.eqb]. rewrite !Cmult_conj, CS, C1, Cconj_R. match goal with |- Re ?z = _ => replace z with (RtoC 0) by ring end. reflexivity.
  - rewrite Nat.eqb_refl, Q0, Q2. destruct KK as [->|[->| ->]].
    + rewrite (proj2 (Nat.eqb_neq (S p) (p + 0))) by lia. cbn [Nat.eqb]. rewrite !Cconj_R. match goal with |- Re ?z = _ => replace z with (RtoC 0) by ring end. reflexivity.
    + rewrite (proj2 (Nat.eqb_eq (S p) (p + 1))) by lia. cbn [Nat.eqb]. transitivity (Re (RtoC ((-1) ^ p) * RtoC ((-1) ^ p * gpole p 1))%C); [|rewrite SG; reflexivity]. f_equal. apply Fin. ring.
    + rewrite (proj2 (Nat.eqb_neq (S p) (p + 2))) by lia. cbn [Nat.eqb]. rewrite !Cconj_R. match goal with |- Re ?z = _ => replace z with (RtoC 0) by ring end. reflexivity.
  - rewrite (proj2 (Nat.eqb_neq (p + 2) (S p))) by lia. rewrite Qlu, Quu. destruct KK as [->|[->| ->]].
    + rewrite (proj2 (Nat.eqb_neq (p + 2) (p + 0))) by lia. rewrite Rll, Rul, <- G. cbn [Nat.eqb]. rewrite !Cconj_opp, !Cmult_conj, CC, CS, C1. rewrite !Cconj_R. match goal with |- Re ?z = _ => replace z with (RtoC 0) by ring end. reflexivity.
    + rewrite (proj2 (Nat.eqb_neq (p + 2) (p + 1))) by lia. rewrite R0, R2. rewrite !Cconj_R. match goal with |- Re ?z = _ => replace z with (RtoC 0) by ring end. reflexivity.
    + rewrite Nat.eqb_refl. rewrite Rlu, Ruu, G. cbn [Nat.eqb]. rewrite !Cmult_conj, CS, C1, Cconj_R.
      transitivity (Re (RtoC ((-1) ^ p) * RtoC ((-1) ^ p * gpole p 2))%C); [|rewrite SG; reflexivity]. f_equal. apply Fin. transitivity (om p * om (S p) * Cconj (om 1) * RtoC ((-1) ^ p * gpole p 2) * (sq2 * sq2 + sq2 * sq2))%C; [ring|]. rewrite H2. ring.
  - rewrite (proj2 (Nat.eqb_neq j (S p)) J2). rewrite (Q_out (S p) p j), (Q_out (S p) (p + 2) j) by lia. replace (j =? p + k)%nat with false by (symmetry; apply Nat.eqb_neq; destruct KK as [->|[->| ->]]; lia). match goal with |- Re ?z = _ => replace z with (RtoC 0) by ring end. reflexivity.
Qed.
Lemma nf_weight p : jvp_weight Norm (S p) * nf (S p) = 1.
Proof.
  cbn [jvp_weight]. unfold nf, norm_factor. set (l := S p). assert (Il : 1 <= INR l) by (change 1 with (INR 1); apply le_INR; lia). rewrite <- sqrt_mult_alt by nra. transitivity (sqrt 1); [|apply sqrt_1]. apply (f_equal sqrt). set (L := Z.of_nat l). assert (1 <= L)%Z by lia.
  replace (2 * L - 2 + 0 + 2 + 1)%Z with (2 * L - 2 + 1 + 1 + 1)%Z by lia. rewrite rf_nonneg by lia. rewrite !ff_succ by lia. pose proof (ff_pos (2 * L - 2)). assert (F0 : ff 0 = 1) by reflexivity. assert (F2 : ff 2 = 2) by (unfold ff; change (fact (Z.to_nat 2)) with 2%nat; cbn [INR]; ring). rewrite F0, F2.
  rewrite !plus_IZR, !minus_IZR, !mult_IZR. assert (IL : IZR L = INR l) by (unfold L; symmetry; apply INR_IZR_INZ). rewrite IL. field. repeat split; lra.
Qed.
Definition ek (k : nat) : nat -> R := fun i => if (i =? k)%nat then 1 else 0.
Lemma gen2_col l j : (j < 2 * l + 1)%nat -> generators l 2 j l = - ((INR l - INR j) * generators l 0 (2 * l - j) l).
Proof.
  intros Hj. destruct (C38_commutators l j l Hj ltac:(lia)) as (E & _ & _). cbv zeta beta in E. rewrite <- E. unfold CGModel.mmul.
  rewrite (rsum_zero _ (fun k => generators l 0 j k * generators l 1 k l)).
  - rewrite (rsum_ext _ _ (fun k => if (k =? 2 * l - j)%nat then (INR l - INR j) * generators l 0 k l else 0)) by (intros k Hk; rewrite generators_y by assumption; destruct (k =? 2 * l - j)%nat; ring).
    rewrite (rsum_delta _ (2 * l - j) (fun k => (INR l - INR j) * generators l 0 k l)) by lia. ring.
  - intros k Hk. rewrite generators_y by lia. destruct (Nat.eqb_spec l (2 * l - k)); [|ring]. replace k with l by lia. ring.
Qed.
Lemma gen0_col l j : (j < 2 * l + 1)%nat -> (0 < l)%nat -> generators l 0 j l = if (j =? S l)%nat then sqrt (INR l * (INR l + 1) / 2) else 0.
Proof.
  intros Hj Hl. rewrite generators_x by lia. destruct (Nat.eqb_spec l (S j)) as [E|N]; [rewrite x0_below by lia; destruct (Nat.eqb_spec j (S l)); [lia|reflexivity]|].
  destruct (Nat.eqb_spec j (S l)); [|reflexivity]. rewrite x0_mid. unfold ladn. replace (2 * l - l)%nat with l by lia. rewrite plus_INR. change (INR 1) with 1. rewrite Ropp_involutive. pose proof (pos_INR l). rewrite sqrt_div by nra. assert (0 < sqrt 2) by (apply sqrt_lt_R0; lra). field. lra.
Qed.
Lemma grad_pole p j k : (j < 2 * S p + 1)%nat -> (k < 3)%nat -> DP (S p) pole (ek k) j = jvp_weight Norm (S p) * clebsch_gordan p (S p) 1 p j k.
Proof.
  intros Hj Hk. rewrite cg_pole by assumption. assert (W : forall z, jvp_weight Norm (S p) * (nf (S p) * z) = z) by (intros z; rewrite <- Rmult_assoc, nf_weight; ring).
  assert (J : DP (S p) pole (ek k) j = if (j =? p + k)%nat then if (k =? 1)%nat then INR (S p) else sqrt (INR (S p) * (INR (S p) + 1) / 2) else 0).
  { destruct k as [|[|[|k]]]; [| | |lia].
    - rewrite (DP_ext _ pole pole (ek 0) (vec3 1 0 0)) by (try exact Hj; try reflexivity; intros [|[|[|i]]] Hi; reflexivity || lia). rewrite DP_pole_x, gen2_col by exact Hj. rewrite gen0_col by lia. rewrite Nat.add_0_r. cbn [Nat.eqb].
      destruct (Nat.eqb_spec j p) as [->|N]; [|replace (2 * S p - j =? S (S p))%nat with false by (symmetry; apply Nat.eqb_neq; lia); ring]. replace (2 * S p - p =? S (S p))%nat with true by (symmetry; apply Nat.eqb_eq; lia). rewrite S_INR. ring.
    - rewrite (DP_ext _ pole pole (ek 1) pole) by (try exact Hj; reflexivity). rewrite DP_euler, P_pole by exact Hj. replace (p + 1)%nat with (S p) by lia. destruct (j =? S p)%nat; cbn [Nat.eqb]; ring.
    - rewrite (DP_ext _ pole pole (ek 2) (vec3 0 0 1)) by (try exact Hj; try reflexivity; intros [|[|[|i]]] Hi; reflexivity || lia). rewrite DP_pole_z, gen0_col by (try exact Hj; lia). replace (p + 2)%nat with (S (S p)) by lia. reflexivity. }
  rewrite J. unfold gpole. destruct (j =? p + k)%nat; [|ring]. symmetry. apply W.
Qed.
