(* Sums of cosines on uniform grids: the discrete orthogonality relations behind the real Fourier transform and the "soft" quadrature of s2grid.py. *)
From Coq Require Import Reals Lra ZArith Lia.
From Coquelicot Require Import Coquelicot.
From Verif Require Import PyBase SumR.
Open Scope R_scope.

Lemma cos_telescope n h p : 2 * sin (h / 2) * rsum n (fun j => cos (INR j * h + p)) = sin (INR n * h - h / 2 + p) - sin (p - h / 2).
Proof.
  induction n as [|n IH]; [cbn [rsum INR]; rewrite Rmult_0_r; replace (0 * h - h / 2 + p) with (p - h / 2) by ring; ring|].
  cbn [rsum]. rewrite Rmult_plus_distr_l, IH, S_INR.
  replace ((INR n + 1) * h - h / 2 + p) with ((INR n * h + p) + h / 2) by field. replace (INR n * h - h / 2 + p) with ((INR n * h + p) - h / 2) by ring.
  rewrite sin_plus, sin_minus. ring.
Qed.
Lemma sin_nPI n x : sin (x + 2 * INR n * PI) = sin x.
Proof. apply sin_period. Qed.
Lemma sin_INR_PI n : sin (INR n * PI) = 0.
Proof. apply sin_eq_0_1. exists (Z.of_nat n). rewrite <- INR_IZR_INZ. reflexivity. Qed.

(* a full period *)
Lemma cos_sum_period n k p : (0 < k < n)%nat -> rsum n (fun j => cos (INR j * (2 * PI * INR k / INR n) + p)) = 0.
Proof.
  intros H. set (h := 2 * PI * INR k / INR n). assert (N : 0 < INR n) by (apply lt_0_INR; lia). assert (K : 0 < INR k) by (apply lt_0_INR; lia). assert (KN : INR k < INR n) by (apply lt_INR; lia).
  assert (P := PI_RGT_0). pose proof (cos_telescope n h p) as T.
  replace (INR n * h - h / 2 + p) with ((p - h / 2) + 2 * INR k * PI) in T by (unfold h; field; lra). rewrite sin_nPI, Rminus_diag_eq in T by reflexivity.
  assert (S0 : 0 < sin (h / 2)).
  { apply sin_gt_0; unfold h.
    - apply Rdiv_lt_0_compat; [|lra]. apply Rdiv_lt_0_compat; [|lra]. apply Rmult_lt_0_compat; lra.
    - replace (2 * PI * INR k / INR n / 2) with (PI * (INR k / INR n)) by (field; lra). rewrite <- (Rmult_1_r PI) at 2. apply Rmult_lt_compat_l; [lra|]. apply (Rmult_lt_reg_r (INR n)); [lra|]. unfold Rdiv. rewrite Rmult_assoc, Rinv_l by lra. lra. }
  apply Rmult_integral in T. destruct T as [T|T]; [lra|exact T].
Qed.
(* half-shifted points on half a period *)
Lemma cos_sum_half n k : (0 < k < 2 * n)%nat -> rsum n (fun j => cos (INR k * ((2 * INR j + 1) * PI / (2 * INR n)))) = 0.
Proof.
  intros H. set (h := PI * INR k / INR n). assert (N : 0 < INR n) by (apply lt_0_INR; lia). assert (K : 0 < INR k) by (apply lt_0_INR; lia). assert (KN : INR k < 2 * INR n) by (rewrite <- (mult_INR 2); apply lt_INR; lia).
  assert (P := PI_RGT_0). pose proof (cos_telescope n h (h / 2)) as T.
  replace (INR n * h - h / 2 + h / 2) with (INR k * PI) in T by (unfold h; field; lra). replace (h / 2 - h / 2) with 0 in T by ring. rewrite sin_INR_PI, sin_0, Rminus_0_r in T.
  assert (S0 : 0 < sin (h / 2)).
  { apply sin_gt_0; unfold h.
    - apply Rdiv_lt_0_compat; [|lra]. apply Rdiv_lt_0_compat; [|lra]. apply Rmult_lt_0_compat; lra.
    - replace (PI * INR k / INR n / 2) with (PI * (INR k / (2 * INR n))) by (field; lra). rewrite <- (Rmult_1_r PI) at 2. apply Rmult_lt_compat_l; [lra|]. apply (Rmult_lt_reg_r (2 * INR n)); [lra|]. unfold Rdiv. rewrite Rmult_assoc, Rinv_l by lra. lra. }
  apply Rmult_integral in T. destruct T as [T|T]; [lra|]. rewrite <- T. apply rsum_ext. intros j _. f_equal. unfold h. field. lra.
Qed.

Lemma cos_mul_cos a b : cos a * cos b = (cos (a - b) + cos (a + b)) / 2.
Proof. rewrite cos_minus, cos_plus. field. Qed.
Lemma sin_mul_sin a b : sin a * sin b = (cos (a - b) - cos (a + b)) / 2.
Proof. rewrite cos_minus, cos_plus. field. Qed.
Lemma sin_mul_cos a b : sin a * cos b = (sin (a + b) + sin (a - b)) / 2.
Proof. rewrite sin_minus, sin_plus. field. Qed.

Lemma INR_diff_le a b : (b <= a)%nat -> INR a - INR b = INR (a - b).
Proof. intros H. rewrite minus_INR by exact H. reflexivity. Qed.
(* the discrete sine transform used by the soft quadrature *)
Lemma dst_orthogonal n p q : (0 < p < n)%nat -> (0 < q <= n)%nat ->
  rsum n (fun j => sin (INR p * ((2 * INR j + 1) * PI / (2 * INR n))) * sin (INR q * ((2 * INR j + 1) * PI / (2 * INR n)))) = if (p =? q)%nat then INR n / 2 else 0.
Proof.
  intros Hp Hq. set (th := fun j => (2 * INR j + 1) * PI / (2 * INR n)).
  assert (D : rsum n (fun j => cos (INR p * th j - INR q * th j)) = if (p =? q)%nat then INR n else 0).
  { destruct (Nat.eqb_spec p q) as [<-|N].
    - rewrite (rsum_ext n _ (fun _ => 1)); [rewrite rsum_const; ring|]. intros k _. replace (INR p * th k - INR p * th k) with 0 by ring. apply cos_0.
    - destruct (Nat.le_gt_cases q p) as [L|L].
      + rewrite <- (cos_sum_half n (p - q)) by lia. apply rsum_ext. intros j _. f_equal. rewrite <- INR_diff_le by exact L. fold (th j). ring.
      + rewrite <- (cos_sum_half n (q - p)) by lia. apply rsum_ext. intros j _. rewrite <- cos_neg. f_equal. rewrite <- INR_diff_le by lia. fold (th j). ring. }
  assert (S0 : rsum n (fun j => cos (INR p * th j + INR q * th j)) = 0).
  { rewrite <- (cos_sum_half n (p + q)) by lia. apply rsum_ext. intros j _. f_equal. rewrite plus_INR. fold (th j). ring. }
  rewrite (rsum_ext n _ (fun j => / 2 * (cos (INR p * th j - INR q * th j) + - cos (INR p * th j + INR q * th j)))) by (intros j _; rewrite sin_mul_sin; fold (th j); field).
  rewrite rsum_scal, rsum_plus, rsum_opp, D, S0. destruct (p =? q)%nat; field.
Qed.

(* the trigonometric basis of the rows of _sh_alpha, indexed by a signed order *)
Definition trig (m : Z) (a : R) : R :=
  match m with Z0 => 1 | Zpos _ => sqrt 2 * cos (IZR m * a) | Zneg _ => sqrt 2 * sin (IZR (- m) * a) end.
Definition points (n j : nat) : R := INR j * (2 * PI / INR n).
Lemma cos_sum_points n k : (Z.abs_nat k < n)%nat -> rsum n (fun j => cos (IZR k * points n j)) = if (k =? 0)%Z then INR n else 0.
Proof.
  intros H. destruct (Z.eqb_spec k 0) as [->|N].
  - rewrite (rsum_ext n _ (fun _ => 1)); [rewrite rsum_const; ring|]. intros j _. rewrite Rmult_0_l. apply cos_0.
  - rewrite <- (cos_sum_period n (Z.abs_nat k) 0) by lia. apply rsum_ext. intros j _. assert (A : IZR k = INR (Z.abs_nat k) \/ IZR k = - INR (Z.abs_nat k)).
    { rewrite INR_IZR_INZ, <- opp_IZR. destruct (Z_le_gt_dec 0 k); [left|right]; f_equal; lia. }
    destruct A as [-> | ->]; [|rewrite <- cos_neg]; f_equal; unfold points; field; apply not_0_INR; lia.
Qed.
Lemma sin_sum_points n k : (Z.abs_nat k < n)%nat -> rsum n (fun j => sin (IZR k * points n j)) = 0.
Proof.
  intros H. destruct (Z.eqb_spec k 0) as [->|N].
  - apply rsum_zero. intros j _. rewrite Rmult_0_l. apply sin_0.
  - destruct (Z_le_gt_dec 0 k) as [L|L].
    + rewrite <- (cos_sum_period n (Z.abs_nat k) (- (PI / 2))) by lia. apply rsum_ext. intros j _.
      rewrite <- (cos_shift (IZR k * points n j)). rewrite <- cos_neg. f_equal. unfold points. rewrite (INR_IZR_INZ (Z.abs_nat k)), Zabs2Nat.id_abs, Z.abs_eq by lia. field. apply not_0_INR; lia.
    + rewrite <- (Ropp_involutive (rsum _ _)), <- rsum_opp, <- (Ropp_0). f_equal. rewrite <- (cos_sum_period n (Z.abs_nat k) (- (PI / 2))) by lia. apply rsum_ext. intros j _.
      rewrite <- sin_neg, <- (cos_shift (- (IZR k * points n j))). rewrite <- cos_neg. f_equal. unfold points. rewrite (INR_IZR_INZ (Z.abs_nat k)), Zabs2Nat.id_abs, Z.abs_neq, opp_IZR by lia. field. apply not_0_INR; lia.
Qed.
Theorem trig_orthogonal n m m' : (Z.abs_nat m + Z.abs_nat m' < n)%nat ->
  rsum n (fun j => trig m (points n j) * trig m' (points n j)) = if (m =? m')%Z then INR n else 0.
Proof.
  assert (Q : sqrt 2 * sqrt 2 = 2) by (apply sqrt_sqrt; lra).
  assert (CS : forall a b, (Z.abs_nat a + Z.abs_nat b < n)%nat -> rsum n (fun j => sqrt 2 * cos (IZR a * points n j) * (sqrt 2 * sin (IZR b * points n j))) = 0).
  { intros a b H. rewrite (rsum_ext n _ (fun j => sin (IZR (b + a) * points n j) + sin (IZR (b - a) * points n j))).
    - rewrite rsum_plus, !sin_sum_points by lia. ring.
    - intros j _. rewrite plus_IZR, minus_IZR, Rmult_plus_distr_r, Rmult_minus_distr_r.
      transitivity (sqrt 2 * sqrt 2 * (sin (IZR b * points n j) * cos (IZR a * points n j))); [ring|]. rewrite Q, sin_mul_cos. field. }
  intros H. destruct m as [|p|p], m' as [|q|q]; unfold trig.
  - cbn [Z.eqb]. rewrite (rsum_ext n _ (fun _ => 1)) by (intros; ring). rewrite rsum_const. ring.
  - cbn [Z.eqb]. rewrite (rsum_ext n _ (fun j => sqrt 2 * cos (IZR (Z.pos q) * points n j))) by (intros; ring). rewrite rsum_scal, cos_sum_points by lia. cbn. ring.
  - cbn [Z.eqb]. rewrite (rsum_ext n _ (fun j => sqrt 2 * sin (IZR (- Z.neg q) * points n j))) by (intros; ring). rewrite rsum_scal, sin_sum_points by lia. ring.
  - cbn [Z.eqb]. rewrite (rsum_ext n _ (fun j => sqrt 2 * cos (IZR (Z.pos p) * points n j))) by (intros; ring). rewrite rsum_scal, cos_sum_points by lia. cbn. ring.
  - rewrite (rsum_ext n _ (fun j => cos (IZR (Z.pos p - Z.pos q) * points n j) + cos (IZR (Z.pos p + Z.pos q) * points n j))).
    + rewrite rsum_plus, !cos_sum_points by lia. replace (Z.pos p + Z.pos q =? 0)%Z with false by lia. destruct (Z.eqb_spec (Z.pos p) (Z.pos q)) as [E|E].
      * rewrite E, Z.sub_diag. cbn. ring.
      * replace (Z.pos p - Z.pos q =? 0)%Z with false by lia. ring.
    + intros j _. rewrite minus_IZR, plus_IZR, Rmult_plus_distr_r, Rmult_minus_distr_r. transitivity (sqrt 2 * sqrt 2 * (cos (IZR (Z.pos p) * points n j) * cos (IZR (Z.pos q) * points n j))); [ring|]. rewrite Q, cos_mul_cos. field.
  - cbn [Z.eqb]. apply CS. lia.
  - cbn [Z.eqb]. rewrite (rsum_ext n _ (fun j => sqrt 2 * sin (IZR (- Z.neg p) * points n j))) by (intros; ring). rewrite rsum_scal, sin_sum_points by lia. ring.
  - cbn [Z.eqb]. rewrite (rsum_ext n _ (fun j => sqrt 2 * cos (IZR (Z.pos q) * points n j) * (sqrt 2 * sin (IZR (- Z.neg p) * points n j)))) by (intros; ring). apply CS. lia.
  - rewrite (rsum_ext n _ (fun j => cos (IZR (- Z.neg p - - Z.neg q) * points n j) + - cos (IZR (- Z.neg p + - Z.neg q) * points n j))).
    + rewrite rsum_plus, rsum_opp, !cos_sum_points by lia. replace (- Z.neg p + - Z.neg q =? 0)%Z with false by lia. destruct (Z.eqb_spec (Z.neg p) (Z.neg q)) as [E|E].
      * rewrite E, Z.sub_diag. cbn. ring.
      * replace (- Z.neg p - - Z.neg q =? 0)%Z with false by lia. ring.
    + intros j _. rewrite minus_IZR, plus_IZR, Rmult_plus_distr_r, Rmult_minus_distr_r. transitivity (sqrt 2 * sqrt 2 * (sin (IZR (- Z.neg p) * points n j) * sin (IZR (- Z.neg q) * points n j))); [ring|]. rewrite Q, sin_mul_sin. field.
Qed.
