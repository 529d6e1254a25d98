(* Quaternions, axis and angle, the exponential *)
From Coq Require Import Reals List Lra Lia Psatz Nsatz.
From Coquelicot Require Import Series PSeries Hierarchy.
From Verif Require Import RotationModel RotationProofs.
Open Scope R_scope.

(* the rotation of a unit quaternion, v |-> q v q^-1, written out *)
Definition quat_matrix (q : quat) : mat :=
  let w := qw q in let x := qx q in let y := qy q in let z := qz q in
  Mx (w*w + x*x - y*y - z*z) (2 * (x*y - w*z)) (2 * (x*z + w*y))
     (2 * (x*y + w*z)) (w*w - x*x + y*y - z*z) (2 * (y*z - w*x))
     (2 * (x*z - w*y)) (2 * (y*z + w*x)) (w*w - x*x - y*y + z*z).
Definition unit_quat (q : quat) : Prop := qw q * qw q + qx q * qx q + qy q * qy q + qz q * qz q = 1.
(* the rotation by t around the unit vector n (Rodrigues) *)
Definition rodrigues (n : vec) (t : R) : mat :=
  let c := cos t in let s := sin t in let x := vx n in let y := vy n in let z := vz n in
  Mx (c + (1 - c) * x * x) ((1 - c) * x * y - s * z) ((1 - c) * x * z + s * y)
     ((1 - c) * x * y + s * z) (c + (1 - c) * y * y) ((1 - c) * y * z - s * x)
     ((1 - c) * x * z - s * y) ((1 - c) * y * z + s * x) (c + (1 - c) * z * z).

Lemma quat_matrix_mul p q : quat_matrix (compose_quaternion p q) = mmul (quat_matrix p) (quat_matrix q).
Proof. mring. Qed.
Lemma unit_quat_mul p q : unit_quat p -> unit_quat q -> unit_quat (compose_quaternion p q).
Proof.
  unfold unit_quat; intros P Q; cbn.
  transitivity ((qw p * qw p + qx p * qx p + qy p * qy p + qz p * qz p) * (qw q * qw q + qx q * qx q + qy q * qy q + qz q * qz q)); [ring|rewrite P, Q; ring].
Qed.
Lemma quat_matrix_inv q : quat_matrix (inverse_quaternion q) = mtr (quat_matrix q).
Proof. mring. Qed.
Lemma unit_quat_inv q : unit_quat q -> unit_quat (inverse_quaternion q).
Proof. unfold unit_quat; cbn; intro H; rewrite <- H; ring. Qed.
Lemma quat_matrix_opp q : quat_matrix (Qn (- qw q) (- qx q) (- qy q) (- qz q)) = quat_matrix q.
Proof. mring. Qed.
Lemma rotation_quat q : unit_quat q -> rotation (quat_matrix q).
Proof.
  unfold unit_quat; destruct q as [w x y z]; cbn; intro H. repeat split; try (apply mat_eq; cbn; nsatz). unfold det; cbn; nsatz.
Qed.
Lemma half t : cos t = cos (t / 2) * cos (t / 2) - sin (t / 2) * sin (t / 2) /\ sin t = 2 * (sin (t / 2) * cos (t / 2)).
Proof.
  assert (E : t = 2 * (t / 2)) by field. split; rewrite E at 1; [rewrite cos_2a|rewrite sin_2a]; ring.
Qed.
Lemma rodrigues_quat n t : unit_vec n -> rodrigues n t = quat_matrix (Qn (cos (t / 2)) (vx n * sin (t / 2)) (vy n * sin (t / 2)) (vz n * sin (t / 2))).
Proof.
  unfold unit_vec; intro U. destruct (half t) as [C S1]. generalize (sc1 (t / 2)); intro H.
  unfold rodrigues, quat_matrix; cbn [qw qx qy qz]. rewrite C, S1. destruct n as [x y z]; cbn in U |- *.
  set (c := cos (t / 2)) in *; set (s := sin (t / 2)) in *. apply mat_eq; cbn; nsatz.
Qed.
Lemma unit_quat_axis n t : unit_vec n -> unit_quat (Qn (cos (t / 2)) (vx n * sin (t / 2)) (vy n * sin (t / 2)) (vz n * sin (t / 2))).
Proof. unfold unit_vec, unit_quat; cbn; intro U. generalize (sc1 (t / 2)); intro H. nsatz. Qed.
Lemma rotation_rodrigues n t : unit_vec n -> rotation (rodrigues n t).
Proof. intro U. rewrite rodrigues_quat by auto. now apply rotation_quat, unit_quat_axis. Qed.

Lemma angles_to_matrix_0 a b : angles_to_matrix a b 0 =
  Mx (cos a) (sin a * sin b) (sin a * cos b) 0 (cos b) (- sin b) (- sin a) (cos a * sin b) (cos a * cos b).
Proof. unfold angles_to_matrix, matrix_x, matrix_y. rewrite sin_0, cos_0. mring. Qed.
Lemma conj_generic ca sa cb sb c s : sa * sa + ca * ca = 1 -> sb * sb + cb * cb = 1 ->
  let r := Mx ca (sa * sb) (sa * cb) 0 cb (- sb) (- sa) (ca * sb) (ca * cb) in
  mmul (mmul r (Mx c 0 s 0 1 0 (- s) 0 c)) (mtr r) =
  let x := sb * sa in let y := cb in let z := sb * ca in
  Mx (c + (1 - c) * x * x) ((1 - c) * x * y - s * z) ((1 - c) * x * z + s * y)
     ((1 - c) * x * y + s * z) (c + (1 - c) * y * y) ((1 - c) * y * z - s * x)
     ((1 - c) * x * z - s * y) ((1 - c) * y * z + s * x) (c + (1 - c) * z * z).
Proof. intros A B. cbv zeta. apply mat_eq; cbn; nsatz. Qed.
Lemma conj_rodrigues a b t : let r := angles_to_matrix a b 0 in mmul (mmul r (matrix_y t)) (mtr r) = rodrigues (angles_to_xyz a b) t.
Proof.
  cbv zeta. rewrite angles_to_matrix_0. exact (conj_generic (cos a) (sin a) (cos b) (sin b) (cos t) (sin t) (sc1 a) (sc1 b)).
Qed.
Lemma axis_angle_unit n t : unit_vec n -> axis_angle_to_matrix n t = rodrigues n t.
Proof.
  intro U. generalize (xyz_to_angles_unit n U). unfold axis_angle_to_matrix. destruct (xyz_to_angles n) as [a b]; intros (E & _).
  rewrite conj_rodrigues, E; reflexivity.
Qed.
Lemma xyz_to_angles_normalize v : v <> V 0 0 0 -> xyz_to_angles v = xyz_to_angles (normalize v).
Proof.
  intro N. unfold xyz_to_angles. rewrite (normalize_unit (normalize v)); auto. now apply normalize_is_unit.
Qed.
Lemma axis_angle_nonzero v t : v <> V 0 0 0 -> axis_angle_to_matrix v t = rodrigues (normalize v) t.
Proof.
  intro N. rewrite <- axis_angle_unit by now apply normalize_is_unit. unfold axis_angle_to_matrix. now rewrite xyz_to_angles_normalize.
Qed.
Lemma xyz_to_angles_zero : xyz_to_angles (V 0 0 0) = (0, PI / 2).
Proof.
  unfold xyz_to_angles. rewrite normalize_zero; cbn. rewrite clip1_id by lra. rewrite (Reqb_true 0 0), (Reqb_false 0 1), (Reqb_false 0 (-1)) by lra; cbn.
  rewrite acos_0. unfold arctan2. rewrite Rltb_true by lra. replace (0 / 1) with 0 by field. now rewrite atan_0.
Qed.
Lemma axis_angle_zero t : axis_angle_to_matrix (V 0 0 0) t = rodrigues (V 0 0 1) t.
Proof.
  unfold axis_angle_to_matrix. rewrite xyz_to_angles_zero. rewrite conj_rodrigues. unfold angles_to_xyz. rewrite sin_0, cos_0, sin_PI2, cos_PI2.
  f_equal. apply vec_eq; cbn; ring.
Qed.
Lemma rodrigues_id n t : cos t = 1 -> rodrigues n t = mone.
Proof. intro C. assert (S1 : sin t = 0). { generalize (sc1 t); rewrite C; nra. } unfold rodrigues. rewrite C, S1. mring. Qed.
Lemma rotation_axis_angle v t : rotation (axis_angle_to_matrix v t).
Proof.
  destruct (Req_EM_T (norm2 v) 0) as [Z|Z].
  - apply norm2_zero in Z; subst. rewrite axis_angle_zero. apply rotation_rodrigues. unfold unit_vec; cbn; ring.
  - assert (N : v <> V 0 0 0) by (intros ->; apply Z; unfold norm2; cbn; ring).
    rewrite axis_angle_nonzero by auto. now apply rotation_rodrigues, normalize_is_unit.
Qed.

(* quaternion_to_matrix on unit quaternions *)
Lemma acos_half w : -1 <= w <= 1 -> let t := 2 * acos w in cos (t / 2) = w /\ 0 <= sin (t / 2) /\ sin (t / 2) * sin (t / 2) = 1 - w * w.
Proof.
  intros H t. replace (t / 2) with (acos w) by (unfold t; field). assert (C := cos_acos w H). split; auto.
  split; [apply sin_ge_0; apply acos_bound|]. generalize (sc1 (acos w)); rewrite C; lra.
Qed.
Lemma quat_zero_vec q : unit_quat q -> V (qx q) (qy q) (qz q) = V 0 0 0 -> qw q * qw q = 1 /\ quat_matrix q = mone.
Proof.
  unfold unit_quat; destruct q as [w x y z]; cbn; intros U E; inversion E; subst. assert (W : w * w = 1) by nra. split; auto.
  apply mat_eq; cbn; nsatz.
Qed.
Lemma vec_dec (v : vec) : v = V 0 0 0 \/ v <> V 0 0 0.
Proof.
  destruct (Req_EM_T (norm2 v) 0) as [Z|Z]; [left; now apply norm2_zero|right; intros ->; apply Z; unfold norm2; cbn; ring].
Qed.
(* the axis-angle pair of a unit quaternion gives the quaternion back *)
Lemma quat_axis_angle q : unit_quat q -> V (qx q) (qy q) (qz q) <> V 0 0 0 ->
  let '(n, t) := quaternion_to_axis_angle q in unit_vec n /\ q = Qn (cos (t / 2)) (vx n * sin (t / 2)) (vy n * sin (t / 2)) (vz n * sin (t / 2)).
Proof.
  intros U N. unfold quaternion_to_axis_angle. split; [now apply normalize_is_unit|].
  destruct (normalize_nonzero _ N) as [P E]. rewrite E. destruct q as [w x y z]; unfold unit_quat in U; cbn in U, N, P |- *.
  assert (W : -1 <= w <= 1) by nra. rewrite clip1_id by auto. destruct (acos_half w W) as (C & S0 & S1).
  rewrite C. assert (S2 : sin (2 * acos w / 2) = sqrt (norm2 (V x y z))).
  { symmetry. apply sqrt_lem_1; auto; [now left|]. rewrite S1, norm2_alt; cbn; lra. }
  rewrite S2. assert (0 < sqrt (norm2 (V x y z))) by now apply sqrt_lt_R0. apply quat_eq; cbn; try field; lra.
Qed.
Lemma quaternion_to_matrix_unit q : unit_quat q -> quaternion_to_matrix q = quat_matrix q.
Proof.
  intro U. destruct (vec_dec (V (qx q) (qy q) (qz q))) as [Z|N].
  - destruct (quat_zero_vec q U Z) as [W E]. rewrite E. unfold quaternion_to_matrix, quaternion_to_axis_angle. rewrite Z, normalize_zero, axis_angle_zero.
    apply rodrigues_id. assert (B : -1 <= qw q <= 1) by nra. rewrite clip1_id by auto.
    destruct (acos_half (qw q) B) as (C & _ & S1). destruct (half (2 * acos (qw q))) as [E2 _]. rewrite E2, C, S1; lra.
  - generalize (quat_axis_angle q U N). unfold quaternion_to_matrix. destruct (quaternion_to_axis_angle q) as [n t]; intros (Un & E).
    rewrite axis_angle_unit by auto. rewrite rodrigues_quat by auto. now rewrite <- E.
Qed.
Lemma axis_angle_quat_nonzero v t : v <> V 0 0 0 -> unit_quat (axis_angle_to_quaternion v t) /\ quat_matrix (axis_angle_to_quaternion v t) = axis_angle_to_matrix v t.
Proof.
  intro N. assert (U := normalize_is_unit v N). rewrite axis_angle_nonzero by auto. unfold axis_angle_to_quaternion. cbn zeta.
  split; [now apply unit_quat_axis|]. symmetry; now apply rodrigues_quat.
Qed.
Lemma axis_y a : rodrigues (V 0 1 0) a = matrix_y a.
Proof. unfold rodrigues; apply mat_eq; cbn; ring. Qed.
Lemma axis_x a : rodrigues (V 1 0 0) a = matrix_x a.
Proof. unfold rodrigues; apply mat_eq; cbn; ring. Qed.
Lemma quat_axis_unit n t : unit_vec n -> unit_quat (axis_angle_to_quaternion n t) /\ quat_matrix (axis_angle_to_quaternion n t) = rodrigues n t.
Proof.
  intro U. unfold axis_angle_to_quaternion. rewrite (normalize_unit n U). cbn zeta. split; [now apply unit_quat_axis|]. symmetry; now apply rodrigues_quat.
Qed.
Lemma unit_y : unit_vec (V 0 1 0). Proof. unfold unit_vec; cbn; ring. Qed.
Lemma unit_x : unit_vec (V 1 0 0). Proof. unfold unit_vec; cbn; ring. Qed.
Lemma angles_quat a b c : unit_quat (angles_to_quaternion a b c) /\ quat_matrix (angles_to_quaternion a b c) = angles_to_matrix a b c.
Proof.
  unfold angles_to_quaternion. destruct (quat_axis_unit _ a unit_y) as [U1 E1], (quat_axis_unit _ b unit_x) as [U2 E2], (quat_axis_unit _ c unit_y) as [U3 E3].
  split; [auto using unit_quat_mul|]. rewrite !quat_matrix_mul, E1, E2, E3, axis_x, !axis_y, <- mmul_assoc. reflexivity.
Qed.

(* matrix_to_angles on rotations *)
Lemma rotation_entries r : rotation r ->
  m00 r * m00 r + m01 r * m01 r + m02 r * m02 r = 1 /\ m00 r * m00 r + m10 r * m10 r + m20 r * m20 r = 1 /\
  m01 r * m01 r + m11 r * m11 r + m21 r * m21 r = 1.
Proof.
  intros (A & B & _). destruct r; unfold mmul, mtr, mone in A, B; cbn in *. injection A; injection B; intros. repeat split; assumption.
Qed.
Lemma fixes_y r : rotation r -> mapply r (V 0 1 0) = V 0 1 0 -> r = matrix_y (arctan2 (m02 r) (m00 r)).
Proof.
  intros Rr F. assert (H := Rr). destruct H as (A & B & D). destruct r as [a b c d e f g h i]; unfold mmul, mtr, mone, det, mapply in *; cbn in *.
  injection F; intros F3 F2 F1. injection A; intros A9 A8 A7 A6 A5 A4 A3 A2 A1. injection B; intros B9 B8 B7 B6 B5 B4 B3 B2 B1.
  assert (b = 0) by lra. assert (e = 1) by lra. assert (h = 0) by lra. subst b e h.
  assert (d = 0) by nra. assert (f = 0) by nra. subst d f.
  assert (N : a * a + c * c = 1) by lra.
  destruct (arctan2_spec c a N) as [C S1]. unfold matrix_y. rewrite C, S1.
  assert (D1 : a * i - c * g = 1) by (rewrite <- D; ring). assert (O1 : a * g + c * i = 0) by lra.
  assert (I1 : i = a). { transitivity (i * (a * a + c * c)); [rewrite N; ring|]. transitivity (a * (a * i - c * g) + c * (a * g + c * i)); [ring|rewrite D1, O1; ring]. }
  assert (G1 : g = - c). { transitivity (g * (a * a + c * c)); [rewrite N; ring|]. transitivity (a * (a * g + c * i) - c * (a * i - c * g)); [ring|rewrite D1, O1; ring]. }
  subst; reflexivity.
Qed.
Lemma angles_y a b c : mapply (angles_to_matrix a b c) (V 0 1 0) = angles_to_xyz a b.
Proof. apply vec_eq; cbn; ring. Qed.
Lemma matrix_y_add a b : mmul (matrix_y a) (matrix_y b) = matrix_y (a + b).
Proof. unfold matrix_y. rewrite sin_plus, cos_plus. apply mat_eq; cbn; ring. Qed.
Lemma matrix_y_0 : matrix_y 0 = mone.
Proof. unfold matrix_y. rewrite sin_0, cos_0. apply mat_eq; cbn; ring. Qed.
Lemma matrix_to_angles_rotation r : rotation r -> let '(a, b, c) := matrix_to_angles r in angles_to_matrix a b c = r /\ - PI <= a <= PI /\ 0 <= b <= PI /\ - PI <= c <= PI.
Proof.
  intro H. unfold matrix_to_angles.
  assert (U : unit_vec (mapply r (V 0 1 0))).
  { destruct (rotation_entries r H) as (_ & _ & E). unfold unit_vec; cbn [mapply vx vy vz]. refine (eq_trans _ E). ring. }
  generalize (xyz_to_angles_unit _ U). destruct (xyz_to_angles (mapply r (V 0 1 0))) as [a b]. intros (E & RA & RB).
  split; [|repeat split; try apply RA; try apply RB; apply arctan2_range].
  set (r0 := angles_to_matrix a b 0). set (r' := mmul (mtr r0) r).
  assert (H0 : rotation r0) by apply rotation_angles. assert (H' : rotation r') by (apply rotation_mul; auto using rotation_mtr).
  assert (F : mapply r' (V 0 1 0) = V 0 1 0).
  { unfold r'. rewrite mapply_mmul, <- E, <- (angles_y a b 0). fold r0. rewrite <- mapply_mmul. destruct H0 as (_ & Q & _). rewrite Q. apply vec_eq; cbn; ring. }
  assert (G := fixes_y r' H' F). unfold angles_to_matrix.
  assert (Z : mmul (matrix_y a) (matrix_x b) = r0). { unfold r0, angles_to_matrix. now rewrite matrix_y_0, mmul_1r. }
  rewrite Z, <- G. unfold r'. rewrite <- mmul_assoc. destruct H0 as (Q & _ & _). now rewrite Q, mmul_1l.
Qed.
Lemma rotation_is_quat r : rotation r -> exists q, unit_quat q /\ quat_matrix q = r /\ 0 <= qw q.
Proof.
  intro H. generalize (matrix_to_angles_rotation r H). destruct (matrix_to_angles r) as [[a b] c]; intros (E & _).
  destruct (angles_quat a b c) as [U Q]. set (q := angles_to_quaternion a b c) in *.
  destruct (Rle_lt_dec 0 (qw q)).
  - exists q; repeat split; auto. now rewrite Q.
  - exists (Qn (- qw q) (- qx q) (- qy q) (- qz q)). split; [|split; [rewrite quat_matrix_opp; now rewrite Q|cbn [qw]; lra]].
    unfold unit_quat in *. refine (eq_trans _ U). cbn [qw qx qy qz]. ring.
Qed.

(* matrix_to_axis_angle away from half turns *)
Lemma trace_quat q : unit_quat q -> (trace (quat_matrix q) - 1) / 2 = 2 * (qw q * qw q) - 1.
Proof. unfold unit_quat, trace; destruct q as [w x y z]; cbn; intro U. lra. Qed.
Lemma angle_quat q : unit_quat q -> rotation_angle_from_matrix (quat_matrix q) = 2 * acos (Rabs (qw q)).
Proof.
  intro U. unfold rotation_angle_from_matrix. rewrite trace_quat by auto.
  assert (W : qw q * qw q <= 1) by (unfold unit_quat in U; nra).
  assert (W2 : 0 <= qw q * qw q) by nra. rewrite clip1_id by lra.
  assert (A : Rabs (qw q) * Rabs (qw q) = qw q * qw q) by (rewrite <- Rabs_mult; apply Rabs_pos_eq; auto).
  assert (A0 := Rabs_pos (qw q)). assert (A1 : Rabs (qw q) <= 1) by nra.
  set (w := Rabs (qw q)) in *. rewrite <- A. assert (C : cos (acos w) = w) by (apply cos_acos; lra).
  replace (2 * (w * w) - 1) with (cos (2 * acos w)) by (rewrite cos_2a_cos, C; ring).
  apply acos_cos. generalize (acos_bound w); intro B. split; [lra|].
  assert (0 <= cos (acos w)) by (rewrite C; auto).
  destruct (Rle_lt_dec (acos w) (PI / 2)); [lra|]. assert (cos (acos w) < 0) by (apply cos_lt_0; lra). lra.
Qed.
Lemma matrix_to_quaternion_rotation r : rotation r -> trace r <> -1 ->
  let '(n, t) := matrix_to_axis_angle r in
  (unit_vec n /\ 0 < t < PI /\ rodrigues n t = r) \/ (n = V 0 0 0 /\ t = 0 /\ r = mone).
Proof.
  intros H T. destruct (rotation_is_quat r H) as (q & U & E & W). subst r.
  assert (TQ := trace_quat q U). assert (W0 : 0 < qw q). { destruct W as [|W]; auto. exfalso; apply T. rewrite <- W in TQ. lra. }
  unfold matrix_to_axis_angle. rewrite angle_quat by auto. rewrite Rabs_pos_eq by auto.
  destruct q as [w x y z]; cbn in *. clear T TQ H.
  replace (V (2 * (y * z + w * x) - 2 * (y * z - w * x)) (2 * (x * z + w * y) - 2 * (x * z - w * y)) (2 * (x * y + w * z) - 2 * (x * y - w * z)))
    with (vscale (4 * w) (V x y z)) by (apply vec_eq; cbn; ring).
  rewrite normalize_scale by lra.
  destruct (vec_dec (V x y z)) as [Z|N].
  - right. destruct (quat_zero_vec _ U Z) as [W1 E]. cbn in W1, E. rewrite Z, normalize_zero. split; auto.
    assert (w = 1) by nra. subst. rewrite acos_1. split; [ring|]. exact E.
  - left. generalize (quat_axis_angle _ U N). unfold quaternion_to_axis_angle; cbn [qw qx qy qz].
    assert (B : -1 <= w <= 1) by (unfold unit_quat in U; cbn in U; nra). rewrite clip1_id by auto.
    intros (Un & E). split; auto. split.
    + destruct (acos_bound w) as [A0 A1]. assert (C := cos_acos w B).
      destruct (acos_half w B) as (_ & _ & S2). 
      assert (w < 1). { assert (0 < norm2 (V x y z)) by (apply normalize_nonzero; auto). rewrite norm2_alt in H; cbn in H. unfold unit_quat in U; cbn in U. nra. }
      assert (acos w <> 0) by (intro Z0; rewrite Z0, cos_0 in C; lra). split; [lra|].
      destruct (Rlt_le_dec (acos w) (PI / 2)); [lra|]. assert (cos (acos w) <= 0) by (apply cos_le_0; lra). lra.
    + rewrite rodrigues_quat by auto. now rewrite <- E.
Qed.
