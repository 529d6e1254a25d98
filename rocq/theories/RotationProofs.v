(* Lemmas about the model of rotation.py *)
From Coq Require Import Reals List Lra Lia Psatz.
From Verif Require Import RotationModel.
Open Scope R_scope.

Lemma mat_eq (a b : mat) : m00 a = m00 b -> m01 a = m01 b -> m02 a = m02 b -> m10 a = m10 b -> m11 a = m11 b -> m12 a = m12 b ->
  m20 a = m20 b -> m21 a = m21 b -> m22 a = m22 b -> a = b.
Proof. destruct a, b; cbn; intros; subst; reflexivity. Qed.
Lemma vec_eq (a b : vec) : vx a = vx b -> vy a = vy b -> vz a = vz b -> a = b.
Proof. destruct a, b; cbn; intros; subst; reflexivity. Qed.
Lemma quat_eq (a b : quat) : qw a = qw b -> qx a = qx b -> qy a = qy b -> qz a = qz b -> a = b.
Proof. destruct a, b; cbn; intros; subst; reflexivity. Qed.
Ltac mring := apply mat_eq; cbn; try ring.

Lemma Rltb_true a b : a < b -> Rltb a b = true.
Proof. intros; unfold Rltb; destruct (Rlt_dec a b); tauto. Qed.
Lemma Rltb_false a b : b <= a -> Rltb a b = false.
Proof. intros; unfold Rltb; destruct (Rlt_dec a b); auto; lra. Qed.
Lemma Reqb_true a b : a = b -> Reqb a b = true.
Proof. intros; unfold Reqb; destruct (Req_EM_T a b); tauto. Qed.
Lemma Reqb_false a b : a <> b -> Reqb a b = false.
Proof. intros; unfold Reqb; destruct (Req_EM_T a b); tauto. Qed.
Lemma clip1_id x : -1 <= x <= 1 -> clip1 x = x.
Proof. intros [A B]; unfold clip1. rewrite Rmax_left by lra. now apply Rmin_left. Qed.

(* algebra of 3x3 matrices *)
Lemma mmul_assoc a b c : mmul (mmul a b) c = mmul a (mmul b c).
Proof. mring. Qed.
Lemma mmul_1l a : mmul mone a = a.
Proof. mring. Qed.
Lemma mmul_1r a : mmul a mone = a.
Proof. mring. Qed.
Lemma mtr_mmul a b : mtr (mmul a b) = mmul (mtr b) (mtr a).
Proof. mring. Qed.
Lemma mtr_mtr a : mtr (mtr a) = a.
Proof. mring. Qed.
Lemma mapply_mmul a b v : mapply (mmul a b) v = mapply a (mapply b v).
Proof. apply vec_eq; cbn; ring. Qed.
Lemma mtr_one : mtr mone = mone. Proof. reflexivity. Qed.

Definition det (a : mat) : R :=
  m00 a * (m11 a * m22 a - m12 a * m21 a) - m01 a * (m10 a * m22 a - m12 a * m20 a) + m02 a * (m10 a * m21 a - m11 a * m20 a).
Lemma det_mmul a b : det (mmul a b) = det a * det b.
Proof. unfold det; cbn; ring. Qed.
Lemma det_mtr a : det (mtr a) = det a.
Proof. unfold det; cbn; ring. Qed.
Lemma det_one : det mone = 1. Proof. unfold det; cbn; ring. Qed.

Definition rotation (r : mat) : Prop := mmul r (mtr r) = mone /\ mmul (mtr r) r = mone /\ det r = 1.
Lemma rotation_one : rotation mone.
Proof. repeat split; try mring. apply det_one. Qed.
Lemma rotation_mul a b : rotation a -> rotation b -> rotation (mmul a b).
Proof.
  intros (A1 & A2 & A3) (B1 & B2 & B3); repeat split.
  - rewrite mtr_mmul, mmul_assoc, <- (mmul_assoc b), B1, mmul_1l; exact A1.
  - rewrite mtr_mmul, mmul_assoc, <- (mmul_assoc (mtr a)), A2, mmul_1l; exact B2.
  - rewrite det_mmul, A3, B3; ring.
Qed.
Lemma rotation_mtr a : rotation a -> rotation (mtr a).
Proof. intros (A1 & A2 & A3); repeat split; rewrite ?mtr_mtr, ?det_mtr; auto. Qed.

Lemma sc1 t : sin t * sin t + cos t * cos t = 1.
Proof. generalize (sin2_cos2 t); unfold Rsqr; auto. Qed.
Lemma cc t : cos t * cos t = 1 - sin t * sin t.
Proof. generalize (sc1 t); lra. Qed.

Lemma rotation_y t : rotation (matrix_y t).
Proof. generalize (sc1 t); intro H; repeat split; try (apply mat_eq; cbn; nra). unfold det; cbn; nra. Qed.
Lemma rotation_x t : rotation (matrix_x t).
Proof. generalize (sc1 t); intro H; repeat split; try (apply mat_eq; cbn; nra). unfold det; cbn; nra. Qed.
Lemma rotation_z t : rotation (matrix_z t).
Proof. generalize (sc1 t); intro H; repeat split; try (apply mat_eq; cbn; nra). unfold det; cbn; nra. Qed.
Lemma rotation_angles a b c : rotation (angles_to_matrix a b c).
Proof. apply rotation_mul; [apply rotation_mul|]; auto using rotation_y, rotation_x. Qed.

(* arctan2 *)
Lemma atan_cs u : cos (atan u) = 1 / sqrt (1 + u * u) /\ sin (atan u) = u / sqrt (1 + u * u).
Proof.
  assert (P : 0 < 1 + u * u) by nra.
  assert (S0 : 0 < sqrt (1 + u * u)) by now apply sqrt_lt_R0.
  assert (C : 0 < cos (atan u)) by (apply cos_gt_0; generalize (atan_bound u); lra).
  assert (T : sin (atan u) = u * cos (atan u)).
  { generalize (tan_atan u); unfold tan; intro E. rewrite <- E at 2. field. lra. }
  assert (C2 : cos (atan u) * cos (atan u) * (1 + u * u) = 1).
  { generalize (sc1 (atan u)); rewrite T; nra. }
  assert (E : cos (atan u) = 1 / sqrt (1 + u * u)).
  { assert (Q : (cos (atan u) * sqrt (1 + u * u))² = 1²).
    { unfold Rsqr. transitivity (cos (atan u) * cos (atan u) * (sqrt (1 + u * u) * sqrt (1 + u * u))); [ring|].
      rewrite sqrt_sqrt by lra. rewrite C2; ring. }
    apply Rsqr_inj in Q; [|nra|lra]. apply Rmult_eq_reg_r with (sqrt (1 + u * u)); [|lra]. rewrite Q; field; lra. }
  split; auto. rewrite T, E; field; lra.
Qed.
Lemma arctan2_spec y x : x * x + y * y = 1 -> cos (arctan2 y x) = x /\ sin (arctan2 y x) = y.
Proof.
  intro H. unfold arctan2.
  destruct (Rlt_le_dec 0 x) as [P|P].
  - rewrite Rltb_true by auto. destruct (atan_cs (y / x)) as [C S1].
    assert (E : 1 + y / x * (y / x) = (1 / x) * (1 / x)) by (transitivity ((x * x + y * y) / (x * x)); [field; lra|rewrite H; field; lra]).
    rewrite E in C, S1. assert (0 < 1 / x) by (apply Rdiv_lt_0_compat; lra).
    rewrite sqrt_square in C, S1 by lra. rewrite C, S1. split; field; lra.
  - rewrite Rltb_false by auto. destruct (Rlt_le_dec x 0) as [N|N].
    + rewrite (Rltb_true x 0) by auto. destruct (atan_cs (y / x)) as [C S1].
      assert (E : 1 + y / x * (y / x) = (1 / - x) * (1 / - x)) by (transitivity ((x * x + y * y) / (x * x)); [field; lra|rewrite H; field; lra]).
      rewrite E in C, S1. assert (0 < 1 / - x) by (apply Rdiv_lt_0_compat; lra).
      rewrite sqrt_square in C, S1 by lra.
      destruct (Rltb y 0).
      * assert (Cm : cos (atan (y / x) - PI) = - cos (atan (y / x))) by (rewrite cos_minus, cos_PI, sin_PI; ring).
        assert (Sm : sin (atan (y / x) - PI) = - sin (atan (y / x))) by (rewrite sin_minus, cos_PI, sin_PI; ring).
        rewrite Cm, Sm, C, S1. split; field; lra.
      * rewrite neg_cos, neg_sin, C, S1. split; field; lra.
    + assert (x = 0) by lra; subst. rewrite (Rltb_false 0 0) by lra.
      assert (Y : y = 1 \/ y = -1).
      { assert ((y - 1) * (y + 1) = 0) by nra. apply Rmult_integral in H0; destruct H0; lra. }
      destruct Y; subst.
      * rewrite Rltb_true by lra. rewrite cos_PI2, sin_PI2; auto.
      * rewrite Rltb_false by lra. rewrite Rltb_true by lra. rewrite cos_neg, sin_neg, cos_PI2, sin_PI2; split; ring.
Qed.
(* for any non-zero point *)
Lemma arctan2_range y x : - PI <= arctan2 y x <= PI.
Proof.
  generalize PI_RGT_0; intro P. unfold arctan2. generalize (atan_bound (y / x)); intros B.
  destruct (Rltb 0 x); [lra|].
  destruct (Rlt_dec x 0) as [N|N].
  - rewrite (Rltb_true x 0) by auto. unfold Rltb. destruct (Rlt_dec y 0) as [Y|Y].
    + assert (0 < y / x). { replace (y / x) with ((- y) / (- x)) by (field; lra). apply Rdiv_lt_0_compat; lra. }
      generalize (atan_increasing 0 (y / x) H); rewrite atan_0; intro; lra.
    + assert (y / x <= 0). { assert (0 <= y / - x) by (apply Rmult_le_pos; [lra|left; apply Rinv_0_lt_compat; lra]). replace (y / x) with (- (y / - x)) by (field; lra); lra. }
      destruct H as [H|H]; [generalize (atan_increasing (y / x) 0 H); rewrite atan_0; intro; lra|rewrite H, atan_0; lra].
  - rewrite (Rltb_false x 0) by lra. destruct (Rltb 0 y); [lra|]. destruct (Rltb y 0); lra.
Qed.

(* unit vectors *)
Definition unit_vec (v : vec) : Prop := vx v * vx v + vy v * vy v + vz v * vz v = 1.
Lemma norm2_alt v : norm2 v = vx v * vx v + vy v * vy v + vz v * vz v.
Proof. unfold norm2; ring. Qed.
Lemma normalize_unit v : unit_vec v -> normalize v = v.
Proof.
  unfold unit_vec; intro H. unfold normalize. rewrite norm2_alt, H, Rltb_true by lra. rewrite sqrt_1.
  apply vec_eq; cbn; field.
Qed.
Lemma norm2_nonneg v : 0 <= norm2 v.
Proof. rewrite norm2_alt; nra. Qed.
Lemma norm2_zero v : norm2 v = 0 -> v = V 0 0 0.
Proof. rewrite norm2_alt; intro H. apply vec_eq; cbn; nra. Qed.
Lemma normalize_zero : normalize (V 0 0 0) = V 0 0 0.
Proof. unfold normalize. replace (norm2 (V 0 0 0)) with 0 by (unfold norm2; cbn; ring). rewrite Rltb_false by lra. rewrite sqrt_1; apply vec_eq; cbn; field. Qed.
Definition vscale (k : R) (v : vec) : vec := V (k * vx v) (k * vy v) (k * vz v).
Lemma normalize_nonzero v : v <> V 0 0 0 -> 0 < norm2 v /\ normalize v = vscale (/ sqrt (norm2 v)) v.
Proof.
  intro N. assert (P : 0 < norm2 v). { destruct (norm2_nonneg v) as [|E]; auto. symmetry in E; apply norm2_zero in E; tauto. }
  split; auto. unfold normalize. rewrite Rltb_true by auto. apply vec_eq; cbn; field; apply Rgt_not_eq, sqrt_lt_R0, P.
Qed.
Lemma normalize_is_unit v : v <> V 0 0 0 -> unit_vec (normalize v).
Proof.
  intro N. destruct (normalize_nonzero v N) as [P E]. rewrite E. unfold unit_vec; cbn.
  assert (S0 : 0 < sqrt (norm2 v)) by now apply sqrt_lt_R0.
  assert (Q : sqrt (norm2 v) * sqrt (norm2 v) = norm2 v) by (apply sqrt_sqrt; lra).
  transitivity (norm2 v * (/ sqrt (norm2 v) * / sqrt (norm2 v))); [rewrite (norm2_alt v) at 7; ring|]. rewrite <- Q at 1. field; lra.
Qed.
Lemma normalize_scale k v : 0 < k -> normalize (vscale k v) = normalize v.
Proof.
  intro K. destruct (Req_EM_T (norm2 v) 0) as [Z|N].
  - apply norm2_zero in Z; subst. unfold vscale; cbn. rewrite Rmult_0_r; reflexivity.
  - assert (P : 0 < norm2 v) by (generalize (norm2_nonneg v); lra).
    assert (E : norm2 (vscale k v) = k * k * norm2 v) by (rewrite !norm2_alt; cbn; ring).
    unfold normalize. rewrite E. assert (KK : 0 < k * k) by nra. assert (0 < k * k * norm2 v) by (apply Rmult_lt_0_compat; auto). rewrite !Rltb_true by auto.
    rewrite sqrt_mult by lra. rewrite sqrt_square by lra.
    assert (S0 : 0 < sqrt (norm2 v)) by now apply sqrt_lt_R0.
    apply vec_eq; cbn; field; lra.
Qed.

(* xyz_to_angles *)
Lemma xyz_to_angles_unit u : unit_vec u -> let '(a, b) := xyz_to_angles u in angles_to_xyz a b = u /\ - PI <= a <= PI /\ 0 <= b <= PI.
Proof.
  intro U. unfold xyz_to_angles. rewrite (normalize_unit u U). destruct u as [x y z]; unfold unit_vec in U; cbn in U |- *.
  assert (HX : -1 <= x <= 1) by nra. assert (HY : -1 <= y <= 1) by nra. assert (HZ : -1 <= z <= 1) by nra. rewrite !clip1_id by auto.
  generalize PI_RGT_0; intro PP.
  assert (B : forall r, 0 <= (if Reqb y 1 then 0 else if Reqb y (-1) then PI else acos r) <= PI).
  { intro r. destruct (Reqb y 1); [lra|]. destruct (Reqb y (-1)); [lra|]. apply acos_bound. }
  split; [|split; [apply arctan2_range|apply B]].
  destruct (Req_EM_T x 0) as [X|X]; [destruct (Req_EM_T z 0) as [Z|Z]|].
  - subst. rewrite (Reqb_true 0 0) by auto; cbn.
    assert (Y : (y - 1) * (y + 1) = 0) by nra.
    apply Rmult_integral in Y. destruct Y as [Y|Y].
    + assert (y = 1) by lra; subst. rewrite Reqb_true by auto. apply vec_eq; cbn; rewrite ?sin_0, ?cos_0; ring.
    + assert (y = -1) by lra; subst. rewrite Reqb_false by lra. rewrite Reqb_true by auto. apply vec_eq; cbn; rewrite ?sin_PI, ?cos_PI; ring.
  - rewrite (Reqb_false z 0) by auto. rewrite Bool.andb_false_r.
    assert (y * y < 1) by nra. rewrite (Reqb_false y 1), (Reqb_false y (-1)) by nra.
    set (s := sin (acos y)). assert (S1 : s * s = 1 - y * y). { unfold s. generalize (sc1 (acos y)). rewrite cos_acos by nra. lra. }
    assert (S0 : 0 < s). { assert (0 <= s) by (apply sin_ge_0; apply acos_bound). destruct (Req_EM_T s 0) as [E|]; [rewrite E in S1; nra|lra]. }
    assert (S2 : s * s = x * x + z * z) by lra.
    assert (A : (z / s) * (z / s) + (x / s) * (x / s) = 1). { field_simplify_eq; [|lra]. nra. }
    assert (E : arctan2 x z = arctan2 (x / s) (z / s)).
    { unfold arctan2. replace (x / s / (z / s)) with (x / z) by (field; split; lra).
      assert (HH : forall r, Rltb 0 (r / s) = Rltb 0 r /\ Rltb (r / s) 0 = Rltb r 0).
      { intro r. assert (0 < / s) by now apply Rinv_0_lt_compat. unfold Rdiv. split; unfold Rltb.
        - destruct (Rlt_dec 0 (r * / s)), (Rlt_dec 0 r); auto; nra.
        - destruct (Rlt_dec (r * / s) 0), (Rlt_dec r 0); auto; nra. }
      destruct (HH x) as [-> ->], (HH z) as [-> ->]; reflexivity. }
    rewrite E. destruct (arctan2_spec (x / s) (z / s)) as [C1 C2]; [nra|].
    apply vec_eq; cbn; fold s; rewrite ?C1, ?C2, ?cos_acos by nra; try (field; lra).
  - rewrite (Reqb_false x 0) by auto; cbn.
    assert (y * y < 1) by nra. rewrite (Reqb_false y 1), (Reqb_false y (-1)) by nra.
    set (s := sin (acos y)). assert (S1 : s * s = 1 - y * y). { unfold s. generalize (sc1 (acos y)). rewrite cos_acos by nra. lra. }
    assert (S0 : 0 < s). { assert (0 <= s) by (apply sin_ge_0; apply acos_bound). destruct (Req_EM_T s 0) as [E|]; [rewrite E in S1; nra|lra]. }
    assert (A : (z / s) * (z / s) + (x / s) * (x / s) = 1). { field_simplify_eq; [|lra]. nra. }
    assert (E : arctan2 x z = arctan2 (x / s) (z / s)).
    { assert (HH : forall r, Rltb 0 (r / s) = Rltb 0 r /\ Rltb (r / s) 0 = Rltb r 0).
        { intro r. assert (0 < / s) by now apply Rinv_0_lt_compat. unfold Rdiv. split; unfold Rltb.
          - destruct (Rlt_dec 0 (r * / s)), (Rlt_dec 0 r); auto; nra.
          - destruct (Rlt_dec (r * / s) 0), (Rlt_dec r 0); auto; nra. }
      destruct (Req_EM_T z 0) as [Z|Z].
      - subst. unfold arctan2. 
        destruct (HH x) as [-> ->], (HH 0) as [-> ->]. rewrite !(Rltb_false 0 0) by lra. reflexivity.
      - unfold arctan2. replace (x / s / (z / s)) with (x / z) by (field; split; lra).
                destruct (HH x) as [-> ->], (HH z) as [-> ->]; reflexivity. }
    rewrite E. destruct (arctan2_spec (x / s) (z / s)) as [C1 C2]; [nra|].
    apply vec_eq; cbn; fold s; rewrite ?C1, ?C2, ?cos_acos by nra; try (field; lra).
Qed.
