(* The matrix exponential of an antisymmetric matrix *)
From Coq Require Import Reals List Lra Lia Psatz Nsatz.
From Coquelicot Require Import Rcomplements Series PSeries Hierarchy.
From Verif Require Import RotationModel RotationProofs RotationProofs2.
Open Scope R_scope.

Definition mscale (k : R) (a : mat) : mat := Mx (k * m00 a) (k * m01 a) (k * m02 a) (k * m10 a) (k * m11 a) (k * m12 a) (k * m20 a) (k * m21 a) (k * m22 a).
Definition outer (n : vec) : mat := Mx (vx n * vx n) (vx n * vy n) (vx n * vz n) (vy n * vx n) (vy n * vy n) (vy n * vz n) (vz n * vx n) (vz n * vy n) (vz n * vz n).
Lemma mpow_scale k a n : mpow (mscale k a) n = mscale (k ^ n) (mpow a n).
Proof. induction n as [|n IH]; cbn [mpow pow]; [mring|]. rewrite IH. mring. Qed.
Lemma log_sq n : unit_vec n -> mmul (log_generator n) (mmul (log_generator n) (log_generator n)) = mscale (-1) (log_generator n).
Proof. unfold unit_vec; intro U; destruct n as [x y z]; apply mat_eq; cbn in *; nsatz. Qed.
Lemma mpow_odd n k : unit_vec n -> mpow (log_generator n) (2 * k + 1) = mscale ((-1) ^ k) (log_generator n).
Proof.
  intro U. induction k as [|k IH]; [cbn [Nat.mul Nat.add mpow pow]; mring|].
  replace (2 * S k + 1)%nat with (S (S (2 * k + 1))) by lia. cbn [mpow pow]. rewrite IH.
  transitivity (mscale ((-1) ^ k) (mmul (log_generator n) (mmul (log_generator n) (log_generator n)))); [mring|].
  rewrite log_sq by auto. mring.
Qed.
Lemma mpow_even (f : mat -> R) n k : (forall c a, f (mscale c a) = c * f a) -> unit_vec n ->
  f (mpow (log_generator n) (2 * k)) = (-1) ^ k * - f (mmul (log_generator n) (log_generator n)) + 0 ^ k * (f mone + f (mmul (log_generator n) (log_generator n))).
Proof.
  intros L U. destruct k as [|k]; [cbn [Nat.mul Nat.add mpow pow]; ring|].
  replace (2 * S k)%nat with (S (2 * k + 1)) by lia. cbn [mpow]. rewrite mpow_odd by auto.
  replace (mmul (log_generator n) (mscale ((-1) ^ k) (log_generator n))) with (mscale ((-1) ^ k) (mmul (log_generator n) (log_generator n))) by mring.
  rewrite L. rewrite <- !tech_pow_Rmult. ring.
Qed.
Lemma cos_series t : is_series (fun k => (t ^ 2) ^ k * ((-1) ^ k / INR (fact (2 * k)))) (cos t).
Proof.
  apply is_series_Reals. unfold cos. destruct (exist_cos (t²)) as [l H]. unfold cos_in in H.
  intros e E. destruct (H e E) as [N HN]. exists N. intros m M. specialize (HN m M).
  erewrite sum_eq; [exact HN|]. intros i _. cbn beta. unfold cos_n, Rsqr. replace (t ^ 2) with (t * t) by ring. ring.
Qed.
Lemma sin_series t : exists l, is_series (fun k => (t ^ 2) ^ k * ((-1) ^ k / INR (fact (2 * k + 1)))) l /\ sin t = t * l.
Proof.
  unfold sin. destruct (exist_sin (t²)) as [l H]. exists l. split; auto. unfold sin_in in H. apply is_series_Reals.
  intros e E. destruct (H e E) as [N HN]. exists N. intros m M. specialize (HN m M).
  erewrite sum_eq; [exact HN|]. intros i _. cbn beta. unfold sin_n, Rsqr. replace (t ^ 2) with (t * t) by ring. ring.
Qed.
Lemma zero_series : is_series (fun k => 0 ^ k) 1.
Proof. replace 1 with (/ (1 - 0)) by field. apply is_series_geom. rewrite Rabs_R0; lra. Qed.

Lemma scal_R (a b : R) : scal (V := R_NormedModule) a b = a * b.
Proof. reflexivity. Qed.
Lemma plus_R (a b : R) : plus (G := R_NormedModule) a b = a + b.
Proof. reflexivity. Qed.
Lemma exp_entry_unit (f : mat -> R) n t : (forall c a, f (mscale c a) = c * f a) -> unit_vec n ->
  exp_entry f (mscale t (log_generator n)) = f mone + sin t * f (log_generator n) + (1 - cos t) * f (mmul (log_generator n) (log_generator n)).
Proof.
  intros L U. unfold exp_entry. apply is_series_unique.
  set (k1 := f (log_generator n)). set (k2 := f (mmul (log_generator n) (log_generator n))).
  set (a := fun k => f (mpow (log_generator n) k) / INR (fact k)).
  destruct (sin_series t) as (l & SL & SE).
  assert (E : is_pseries (fun k => a (2 * k)%nat) (t ^ 2) (- k2 * cos t + (f mone + k2))).
  { unfold is_pseries. 
    apply is_series_ext with (fun k => plus (scal (- k2) ((t ^ 2) ^ k * ((-1) ^ k / INR (fact (2 * k))))) (scal (f mone + k2) (0 ^ k))).
    - intro k. unfold a. rewrite (mpow_even f n k L U). fold k2.
      change (- k2 * ((t ^ 2) ^ k * ((-1) ^ k / INR (fact (2 * k)))) + (f mone + k2) * 0 ^ k = (t ^ 2) ^ k * (((-1) ^ k * - k2 + 0 ^ k * (f mone + k2)) / INR (fact (2 * k)))).
      destruct k as [|k]; [cbn; field|]. replace (0 ^ S k) with 0 by (cbn; ring). unfold Rdiv. ring.
    - replace (- k2 * cos t + (f mone + k2)) with (- k2 * cos t + (f mone + k2) * 1) by ring.
      apply (is_series_plus (V := R_NormedModule)); [apply (is_series_scal (V := R_NormedModule)), cos_series|apply (is_series_scal (V := R_NormedModule)), zero_series]. }
  assert (O : is_pseries (fun k => a (2 * k + 1)%nat) (t ^ 2) (k1 * l)).
  { unfold is_pseries. apply is_series_ext with (fun k => scal k1 ((t ^ 2) ^ k * ((-1) ^ k / INR (fact (2 * k + 1))))).
    - intro k. unfold a. rewrite mpow_odd by auto. rewrite L. fold k1.
      change (k1 * ((t ^ 2) ^ k * ((-1) ^ k / INR (fact (2 * k + 1)))) = (t ^ 2) ^ k * ((-1) ^ k * k1 / INR (fact (2 * k + 1)))). unfold Rdiv. ring.
    - apply (is_series_scal (V := R_NormedModule)), SL. }
  generalize (is_pseries_odd_even a t _ _ E O). unfold is_pseries. intro P.
  replace (f mone + sin t * k1 + (1 - cos t) * k2) with (- k2 * cos t + (f mone + k2) + t * (k1 * l)) by (rewrite SE; ring).
  eapply is_series_ext; [|exact P]. intro k. cbn beta. unfold a. rewrite mpow_scale, L.
  change (t ^ k * (f (mpow (log_generator n) k) / INR (fact k)) = t ^ k * f (mpow (log_generator n) k) / INR (fact k)). unfold Rdiv; ring.
Qed.
Lemma expm_unit n t : unit_vec n -> expm (mscale t (log_generator n)) = rodrigues n t.
Proof.
  intro U. unfold expm. rewrite !exp_entry_unit by (auto; intros; reflexivity). unfold unit_vec in U. destruct n as [x y z]; cbn in U.
  set (c := cos t). set (s := sin t). unfold rodrigues; fold c; fold s. apply mat_eq; cbn [m00 m01 m02 m10 m11 m12 m20 m21 m22 mone mmul log_generator vx vy vz]; try ring.
  - replace (x * x) with (1 - y * y - z * z) by lra. replace ((1 - c) * x * x) with ((1 - c) * (1 - y * y - z * z)) by (rewrite <- U; ring). ring.
  - replace ((1 - c) * y * y) with ((1 - c) * (1 - x * x - z * z)) by (rewrite <- U; ring). ring.
  - replace ((1 - c) * z * z) with ((1 - c) * (1 - x * x - y * y)) by (rewrite <- U; ring). ring.
Qed.
Lemma log_matrix_nonzero v : v <> V 0 0 0 -> log_coordinates_to_matrix v = rodrigues (normalize v) (sqrt (norm2 v)).
Proof.
  intro N. rewrite <- expm_unit by now apply normalize_is_unit. unfold log_coordinates_to_matrix. f_equal.
  destruct (normalize_nonzero v N) as [P ->]. assert (0 < sqrt (norm2 v)) by now apply sqrt_lt_R0. apply mat_eq; cbn; field; lra.
Qed.
Lemma log_matrix_zero : log_coordinates_to_matrix (V 0 0 0) = mone.
Proof.
  unfold log_coordinates_to_matrix. rewrite <- (rodrigues_id (V 0 1 0) 0) by apply cos_0. rewrite <- expm_unit by apply unit_y. f_equal. apply mat_eq; cbn; ring.
Qed.
