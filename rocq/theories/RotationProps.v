(* C34-C37: rotations.  Specification: [rotation r] (r r^T = r^T r = 1, det r = 1), [quat_matrix q] (v |-> q v q^-1), [rodrigues n t]
   (rotation by t around the unit vector n), [unit_vec], [unit_quat]; see RotationProofs.v and RotationProofs2.v. *)
From Coq Require Import Reals List Lra Lia Psatz.
From Verif Require Import RotationModel RotationProofs RotationProofs2 RotationProofs3.
Import ListNotations.
Open Scope R_scope.

(* ---------- the five representations of a rotation ---------- *)
Inductive kind := KMatrix | KAngles | KQuat | KAxisAngle | KLog.
Inductive repr := RMatrix (r : mat) | RAngles (a b c : R) | RQuat (q : quat) | RAxisAngle (n : vec) (t : R) | RLog (v : vec).
(* which values are representations of a rotation.  The axis of the identity may be the zero vector (that is what the library returns) *)
Definition well_formed (x : repr) : Prop :=
  match x with
  | RMatrix r => rotation r
  | RQuat q => unit_quat q
  | RAxisAngle n t => unit_vec n \/ (n = V 0 0 0 /\ (t = 0 \/ t = 2 * PI))
  | RAngles _ _ _ | RLog _ => True
  end.
(* the rotation that is meant *)
Definition denotes (x : repr) : mat :=
  match x with
  | RMatrix r => r
  | RAngles a b c => mmul (mmul (rodrigues (V 0 1 0) a) (rodrigues (V 1 0 0) b)) (rodrigues (V 0 1 0) c)
  | RQuat q => quat_matrix q
  | RAxisAngle n t => rodrigues n t
  | RLog v => rodrigues (vscale (/ sqrt (norm2 v)) v) (sqrt (norm2 v))
  end.
(* the library function that converts x to kind k (none is needed when x has this kind already) *)
Definition convert (k : kind) (x : repr) : repr :=
  match x, k with
  | RMatrix r, KAngles => let '(a, b, c) := matrix_to_angles r in RAngles a b c
  | RMatrix r, KQuat => RQuat (matrix_to_quaternion r)
  | RMatrix r, KAxisAngle => let '(n, t) := matrix_to_axis_angle r in RAxisAngle n t
  | RMatrix r, KLog => RLog (matrix_to_log_coordinates r)
  | RAngles a b c, KMatrix => RMatrix (angles_to_matrix a b c)
  | RAngles a b c, KQuat => RQuat (angles_to_quaternion a b c)
  | RAngles a b c, KAxisAngle => let '(n, t) := angles_to_axis_angle a b c in RAxisAngle n t
  | RAngles a b c, KLog => RLog (angles_to_log_coordinates a b c)
  | RQuat q, KMatrix => RMatrix (quaternion_to_matrix q)
  | RQuat q, KAngles => let '(a, b, c) := quaternion_to_angles q in RAngles a b c
  | RQuat q, KAxisAngle => let '(n, t) := quaternion_to_axis_angle q in RAxisAngle n t
  | RQuat q, KLog => RLog (quaternion_to_log_coordinates q)
  | RAxisAngle n t, KMatrix => RMatrix (axis_angle_to_matrix n t)
  | RAxisAngle n t, KAngles => let '(a, b, c) := axis_angle_to_angles n t in RAngles a b c
  | RAxisAngle n t, KQuat => RQuat (axis_angle_to_quaternion n t)
  | RAxisAngle n t, KLog => RLog (axis_angle_to_log_coordinates n t)
  | RLog v, KMatrix => RMatrix (log_coordinates_to_matrix v)
  | RLog v, KAngles => let '(a, b, c) := log_coordinates_to_angles v in RAngles a b c
  | RLog v, KQuat => RQuat (log_coordinates_to_quaternion v)
  | RLog v, KAxisAngle => let '(n, t) := log_coordinates_to_axis_angle v in RAxisAngle n t
  | x, _ => x
  end.
Definition kind_of (x : repr) : kind :=
  match x with RMatrix _ => KMatrix | RAngles _ _ _ => KAngles | RQuat _ => KQuat | RAxisAngle _ _ => KAxisAngle | RLog _ => KLog end.
(* the conversions that read the axis off the antisymmetric part of a matrix *)
Definition reads_axis (from to : kind) : bool :=
  match from, to with
  | KMatrix, KQuat | KMatrix, KAxisAngle | KMatrix, KLog | KAngles, KAxisAngle | KAngles, KLog => true
  | _, _ => false
  end.
Fixpoint safe_chain (from : kind) (ks : list kind) : bool :=
  match ks with [] => true | k :: ks => negb (reads_axis from k) && safe_chain k ks end.

Lemma denotes_angles a b c : denotes (RAngles a b c) = angles_to_matrix a b c.
Proof. cbn. rewrite !axis_y, axis_x. reflexivity. Qed.
Lemma denotes_log v : denotes (RLog v) = log_coordinates_to_matrix v.
Proof.
  cbn [denotes]. destruct (vec_dec v) as [->|N].
  - rewrite log_matrix_zero. replace (norm2 (V 0 0 0)) with 0 by (unfold norm2; cbn; ring). rewrite sqrt_0. apply rodrigues_id, cos_0.
  - rewrite log_matrix_nonzero by auto. destruct (normalize_nonzero v N) as [_ ->]. reflexivity.
Qed.
Lemma wf_axis n t : well_formed (RAxisAngle n t) -> axis_angle_to_matrix n t = rodrigues n t.
Proof.
  intros [U|[-> T]]; [now apply axis_angle_unit|]. rewrite axis_angle_zero.
  assert (C : cos t = 1) by (destruct T as [->| ->]; [apply cos_0|apply cos_2PI]). now rewrite !rodrigues_id.
Qed.
Lemma denotes_rotation x : well_formed x -> rotation (denotes x).
Proof.
  destruct x; intro W.
  - exact W.
  - rewrite denotes_angles; apply rotation_angles.
  - now apply rotation_quat.
  - cbn [denotes]. rewrite <- wf_axis by auto. apply rotation_axis_angle.
  - rewrite denotes_log. destruct (vec_dec v) as [->|N]; [rewrite log_matrix_zero; apply rotation_one|].
    rewrite log_matrix_nonzero by auto. apply rotation_rodrigues, normalize_is_unit, N.
Qed.
Lemma axis_log n t : well_formed (RAxisAngle n t) -> 0 <= t -> denotes (RLog (axis_angle_to_log_coordinates n t)) = rodrigues n t.
Proof.
  intros W T. rewrite denotes_log.
  destruct W as [U|[-> T']].
  - destruct (Req_EM_T t 0) as [->|T0].
    + replace (axis_angle_to_log_coordinates n 0) with (V 0 0 0) by (apply vec_eq; cbn; ring). rewrite log_matrix_zero. symmetry; apply rodrigues_id, cos_0.
    + assert (E : axis_angle_to_log_coordinates n t = vscale t n) by (apply vec_eq; cbn; ring). rewrite E.
      assert (N2 : norm2 (vscale t n) = t * t). { rewrite norm2_alt; cbn. unfold unit_vec in U. transitivity (t * t * (vx n * vx n + vy n * vy n + vz n * vz n)); [ring|rewrite U; ring]. }
      rewrite log_matrix_nonzero.
      * rewrite N2, sqrt_square by auto. rewrite normalize_scale by lra. now rewrite normalize_unit.
      * intro Z. assert (norm2 (vscale t n) = 0) by (rewrite Z; unfold norm2; cbn; ring). nra.
  - replace (axis_angle_to_log_coordinates (V 0 0 0) t) with (V 0 0 0) by (apply vec_eq; cbn; ring). rewrite log_matrix_zero.
    symmetry; apply rodrigues_id. destruct T' as [->| ->]; [apply cos_0|apply cos_2PI].
Qed.
Lemma axis_log_neg n t : denotes (RLog (axis_angle_to_log_coordinates n t)) = denotes (RLog (axis_angle_to_log_coordinates (vscale (-1) n) (- t))).
Proof. f_equal. f_equal. apply vec_eq; cbn; ring. Qed.
Lemma rodrigues_neg n t : rodrigues (vscale (-1) n) (- t) = rodrigues n t.
Proof. unfold rodrigues. rewrite cos_neg, sin_neg. apply mat_eq; cbn; ring. Qed.
Lemma axis_log_any n t : well_formed (RAxisAngle n t) -> denotes (RLog (axis_angle_to_log_coordinates n t)) = rodrigues n t.
Proof.
  intro W. destruct (Rle_lt_dec 0 t) as [T|T]; [now apply axis_log|]. rewrite axis_log_neg, <- rodrigues_neg. apply axis_log; [|lra].
  destruct W as [U|[-> T']]; [left; unfold unit_vec in *; cbn; rewrite <- U; ring|]. exfalso. generalize PI_RGT_0; intro; destruct T'; lra.
Qed.
Lemma axis_quat n t : well_formed (RAxisAngle n t) -> unit_quat (axis_angle_to_quaternion n t) /\ quat_matrix (axis_angle_to_quaternion n t) = rodrigues n t.
Proof.
  intros [U|[-> T]]; [now apply quat_axis_unit|]. unfold axis_angle_to_quaternion. rewrite normalize_zero. cbn zeta. cbn [vx vy vz].
  assert (H : cos (t / 2) * cos (t / 2) = 1). { destruct T as [->| ->]; [replace (0 / 2) with 0 by field; rewrite cos_0; ring|]. replace (2 * PI / 2) with PI by field. rewrite cos_PI; ring. }
  rewrite !Rmult_0_l. split; [unfold unit_quat; cbn; rewrite H; ring|].
  rewrite rodrigues_id by (destruct T as [->| ->]; [apply cos_0|apply cos_2PI]). apply mat_eq; cbn; rewrite ?H; ring.
Qed.
Lemma quat_axis q : unit_quat q -> let '(n, t) := quaternion_to_axis_angle q in well_formed (RAxisAngle n t) /\ rodrigues n t = quat_matrix q /\ 0 <= t <= 2 * PI.
Proof.
  intro U. assert (T : 0 <= 2 * acos (clip1 (qw q)) <= 2 * PI) by (generalize (acos_bound (clip1 (qw q))); lra).
  destruct (vec_dec (V (qx q) (qy q) (qz q))) as [Z|N].
  - destruct (quat_zero_vec q U Z) as [W E]. unfold quaternion_to_axis_angle. rewrite Z, normalize_zero.
    assert (W' : qw q = 1 \/ qw q = -1) by (assert (H : (qw q - 1) * (qw q + 1) = 0) by lra; apply Rmult_integral in H; destruct H; lra).
    assert (A : 2 * acos (clip1 (qw q)) = 0 \/ 2 * acos (clip1 (qw q)) = 2 * PI).
    { destruct W' as [-> | ->]; rewrite clip1_id by lra; [left; rewrite acos_1; ring|right].
      replace (acos (-1)) with PI; auto. rewrite <- cos_PI. symmetry; apply acos_cos. generalize PI_RGT_0; lra. }
    split; [right; auto|]. split; auto. rewrite E. apply rodrigues_id. destruct A as [-> | ->]; [apply cos_0|apply cos_2PI].
  - generalize (quat_axis_angle q U N). unfold quaternion_to_axis_angle in *. intros (Un & E). split; [left; auto|]. split; auto.
    rewrite rodrigues_quat by auto. now rewrite <- E.
Qed.
Lemma matrix_axis r : rotation r -> trace r <> -1 -> let '(n, t) := matrix_to_axis_angle r in well_formed (RAxisAngle n t) /\ rodrigues n t = r /\ 0 <= t < PI.
Proof.
  intros H T. generalize (matrix_to_quaternion_rotation r H T). destruct (matrix_to_axis_angle r) as [n t]. generalize PI_RGT_0; intros PP [(U & B & E)|(-> & -> & ->)].
  - split; [left; auto|]. split; auto. lra.
  - split; [right; auto|]. split; [apply rodrigues_id, cos_0|lra].
Qed.

(* ---------- C34 ---------- *)
Theorem C34_proper_rotations :
  (forall a b c, rotation (angles_to_matrix a b c)) /\ (forall q, unit_quat q -> rotation (quaternion_to_matrix q)) /\
  (forall n t, rotation (axis_angle_to_matrix n t)) /\ (forall v, rotation (log_coordinates_to_matrix v)) /\
  (forall t, rotation (matrix_x t) /\ rotation (matrix_y t) /\ rotation (matrix_z t)) /\ (forall x y z, rotation (rand_matrix x y z)).
Proof.
  split; [apply rotation_angles|]. split; [intros; rewrite quaternion_to_matrix_unit by auto; now apply rotation_quat|].
  split; [apply rotation_axis_angle|]. split; [intro v; rewrite <- denotes_log; now apply denotes_rotation|].
  split; [auto using rotation_x, rotation_y, rotation_z|]. intros; apply rotation_angles.
Qed.
(* matrix_x, matrix_y, matrix_z turn around the axis they are named after, counter-clockwise *)
Theorem C34_axes t : matrix_x t = rodrigues (V 1 0 0) t /\ matrix_y t = rodrigues (V 0 1 0) t /\ matrix_z t = rodrigues (V 0 0 1) t.
Proof. repeat split; apply mat_eq; cbn; ring. Qed.
(* one conversion *)
Theorem C34_convert x k : well_formed x -> (reads_axis (kind_of x) k = true -> trace (denotes x) <> -1) ->
  well_formed (convert k x) /\ denotes (convert k x) = denotes x /\ kind_of (convert k x) = k.
Proof.
  intros W S1.
  assert (Fin : forall r, rotation r -> forall y, denotes y = r -> let '(a, b, c) := matrix_to_angles r in well_formed (RAngles a b c) /\ denotes (RAngles a b c) = denotes y).
  { intros r H y E. generalize (matrix_to_angles_rotation r H). destruct (matrix_to_angles r) as [[a b] c]; intros (E2 & _). split; [exact I|]. rewrite denotes_angles. congruence. }
  destruct x as [r|a b c|q|n t|v]; destruct k; cbn [convert kind_of reads_axis] in *; try (split; [exact W|split; reflexivity]).
  - generalize (Fin r W (RMatrix r) eq_refl). destruct (matrix_to_angles r) as [[a b] c]; intuition.
  - unfold matrix_to_quaternion. generalize (matrix_axis r W (S1 eq_refl)). destruct (matrix_to_axis_angle r) as [n t]; intros (Wn & E & _).
    destruct (axis_quat n t Wn) as [U E2]. repeat split; auto. cbn [denotes]; congruence.
  - generalize (matrix_axis r W (S1 eq_refl)). destruct (matrix_to_axis_angle r) as [n t]; intros (Wn & E & _). auto.
  - unfold matrix_to_log_coordinates. generalize (matrix_axis r W (S1 eq_refl)). destruct (matrix_to_axis_angle r) as [n t]; intros (Wn & E & _).
    split; [exact I|]. split; auto. rewrite axis_log_any by auto. exact E.
  - split; [apply rotation_angles|]. split; auto. rewrite denotes_angles; reflexivity.
  - destruct (angles_quat a b c) as [U E]. rewrite denotes_angles. auto.
  - rewrite denotes_angles in *. unfold angles_to_axis_angle. generalize (matrix_axis _ (rotation_angles a b c) (S1 eq_refl)).
    destruct (matrix_to_axis_angle (angles_to_matrix a b c)) as [n t]; intros (Wn & E & _). auto.
  - rewrite denotes_angles in *. unfold angles_to_log_coordinates, angles_to_axis_angle. generalize (matrix_axis _ (rotation_angles a b c) (S1 eq_refl)).
    destruct (matrix_to_axis_angle (angles_to_matrix a b c)) as [n t]; intros (Wn & E & _). split; [exact I|]. split; auto. rewrite axis_log_any by auto. exact E.
  - cbn [denotes well_formed] in *. rewrite quaternion_to_matrix_unit by auto. auto using rotation_quat.
  - unfold quaternion_to_angles. cbn [well_formed] in W. rewrite quaternion_to_matrix_unit by auto.
    generalize (Fin _ (rotation_quat q W) (RQuat q) eq_refl). destruct (matrix_to_angles (quat_matrix q)) as [[a b] c]; intuition.
  - generalize (quat_axis q W). destruct (quaternion_to_axis_angle q) as [n t]; intros (Wn & E & _). auto.
  - unfold quaternion_to_log_coordinates. generalize (quat_axis q W). destruct (quaternion_to_axis_angle q) as [n t]; intros (Wn & E & _).
    split; [exact I|]. split; auto. rewrite axis_log_any by auto. exact E.
  - split; [apply rotation_axis_angle|]. split; auto. cbn [denotes]. now apply wf_axis.
  - unfold axis_angle_to_angles. generalize (Fin _ (rotation_axis_angle n t) (RAxisAngle n t) (eq_sym (wf_axis n t W))).
    destruct (matrix_to_angles (axis_angle_to_matrix n t)) as [[a b] c]; intuition.
  - destruct (axis_quat n t W) as [U E]. auto.
  - split; [exact I|]. split; auto. now apply axis_log_any.
  - rewrite denotes_log. split; auto. cbn [well_formed]. rewrite <- denotes_log. now apply denotes_rotation.
  - unfold log_coordinates_to_angles. assert (H : rotation (log_coordinates_to_matrix v)) by (rewrite <- denotes_log; now apply denotes_rotation).
    generalize (Fin _ H (RLog v) (denotes_log v)). destruct (matrix_to_angles (log_coordinates_to_matrix v)) as [[a b] c]; intuition.
  - assert (X : let '(n, t) := log_coordinates_to_axis_angle v in well_formed (RAxisAngle n t) /\ rodrigues n t = denotes (RLog v)).
    { rewrite denotes_log. unfold log_coordinates_to_axis_angle. destruct (vec_dec v) as [->|N].
      - replace (norm2 (V 0 0 0)) with 0 by (unfold norm2; cbn; ring). rewrite Rltb_false by lra. cbn zeta. rewrite log_matrix_zero, sqrt_1.
        split; [right; split; auto; apply vec_eq; cbn; field|apply rodrigues_id, cos_0].
      - destruct (normalize_nonzero v N) as [P E]. rewrite Rltb_true by auto. rewrite log_matrix_nonzero by auto. cbn zeta.
        assert (E2 : V (vx v / sqrt (norm2 v)) (vy v / sqrt (norm2 v)) (vz v / sqrt (norm2 v)) = normalize v) by (unfold normalize; rewrite Rltb_true by auto; reflexivity).
        rewrite E2. split; [left; now apply normalize_is_unit|reflexivity]. }
    unfold log_coordinates_to_quaternion. destruct (log_coordinates_to_axis_angle v) as [n t]; destruct X as [Wn E]. destruct (axis_quat n t Wn) as [U E2].
    repeat split; auto. cbn [denotes] in *. congruence.
  - unfold log_coordinates_to_axis_angle. rewrite denotes_log. destruct (vec_dec v) as [->|N].
    + replace (norm2 (V 0 0 0)) with 0 by (unfold norm2; cbn; ring). rewrite Rltb_false by lra. cbn zeta. rewrite log_matrix_zero, sqrt_1.
      split; [right; split; auto; apply vec_eq; cbn; field|split; [apply rodrigues_id, cos_0|reflexivity]].
    + destruct (normalize_nonzero v N) as [P E]. rewrite Rltb_true by auto. rewrite log_matrix_nonzero by auto. cbn zeta.
      assert (E2 : V (vx v / sqrt (norm2 v)) (vy v / sqrt (norm2 v)) (vz v / sqrt (norm2 v)) = normalize v) by (unfold normalize; rewrite Rltb_true by auto; reflexivity).
      rewrite E2. split; [left; now apply normalize_is_unit|split; reflexivity].
Qed.
(* any chain of conversions *)
Theorem C34_any_chain ks x : well_formed x -> trace (denotes x) <> -1 ->
  let y := fold_left (fun x k => convert k x) ks x in well_formed y /\ denotes y = denotes x.
Proof.
  revert x; induction ks as [|k ks IH]; intros x W T; [split; auto|]. cbn [fold_left].
  destruct (C34_convert x k W (fun _ => T)) as (W2 & E & _). destruct (IH (convert k x) W2) as [W3 E3]; [now rewrite E|]. split; auto. cbn zeta. congruence.
Qed.
(* chains that never read an axis off a matrix need no condition *)
Theorem C34_any_safe_chain ks x : well_formed x -> safe_chain (kind_of x) ks = true ->
  let y := fold_left (fun x k => convert k x) ks x in well_formed y /\ denotes y = denotes x.
Proof.
  revert x; induction ks as [|k ks IH]; intros x W T; [split; auto|]. cbn [fold_left]. cbn [safe_chain] in T. apply andb_prop in T; destruct T as [T0 T].
  apply Bool.negb_true_iff in T0. destruct (C34_convert x k W) as (W2 & E & K); [congruence|].
  destruct (IH (convert k x) W2) as [W3 E3]; [now rewrite K|]. split; auto; cbn zeta; congruence.
Qed.
Example C34_example : well_formed (RAngles 1 (1 / 2) 2) /\ trace (denotes (RAngles 0 0 0)) <> -1 /\
  fold_left (fun x k => convert k x) [KQuat; KMatrix; KAngles] (RAngles 0 0 0) <> RAngles 0 0 1.
Proof.
  split; [exact I|]. split.
  - rewrite denotes_angles. unfold angles_to_matrix, matrix_x, matrix_y, trace. rewrite sin_0, cos_0. cbn [m00 m11 m22 mmul m01 m02 m10 m12 m20 m21]. lra.
  - intro E. destruct (C34_any_safe_chain [KQuat; KMatrix; KAngles] (RAngles 0 0 0) I eq_refl) as [_ D].
    cbv zeta in D. rewrite E in D. rewrite !denotes_angles in D.
    assert (Z : m02 (angles_to_matrix 0 0 1) = 0) by (rewrite D; unfold angles_to_matrix, matrix_x, matrix_y; rewrite sin_0, cos_0; cbn [mmul m00 m01 m02 m10 m11 m12 m20 m21 m22]; ring).
    unfold angles_to_matrix, matrix_x, matrix_y in Z. rewrite sin_0, cos_0 in Z. cbn [mmul m00 m01 m02 m10 m11 m12 m20 m21 m22] in Z.
    assert (0 < sin 1) by (apply sin_gt_0; generalize PI_RGT_0 PI2_3_2; lra). lra.
Qed.

(* ---------- C35 ---------- *)
Theorem C35_compose_angles a1 b1 c1 a2 b2 c2 :
  let '(a, b, c) := compose_angles a1 b1 c1 a2 b2 c2 in
  angles_to_matrix a b c = mmul (angles_to_matrix a1 b1 c1) (angles_to_matrix a2 b2 c2).
Proof.
  unfold compose_angles. assert (H : rotation (mmul (angles_to_matrix a1 b1 c1) (angles_to_matrix a2 b2 c2))) by (apply rotation_mul; apply rotation_angles).
  generalize (matrix_to_angles_rotation _ H). destruct (matrix_to_angles _) as [[a b] c]; tauto.
Qed.
Theorem C35_compose_quaternion p q : unit_quat p -> unit_quat q ->
  unit_quat (compose_quaternion p q) /\ quaternion_to_matrix (compose_quaternion p q) = mmul (quaternion_to_matrix p) (quaternion_to_matrix q).
Proof.
  intros P Q. assert (U := unit_quat_mul p q P Q). split; auto. rewrite !quaternion_to_matrix_unit by auto. apply quat_matrix_mul.
Qed.
Theorem C35_compose_axis_angle n1 t1 n2 t2 : n1 <> V 0 0 0 -> n2 <> V 0 0 0 ->
  let '(n, t) := compose_axis_angle n1 t1 n2 t2 in
  axis_angle_to_matrix n t = mmul (axis_angle_to_matrix n1 t1) (axis_angle_to_matrix n2 t2) /\ well_formed (RAxisAngle n t).
Proof.
  intros N1 N2. destruct (axis_angle_quat_nonzero n1 t1 N1) as [U1 E1], (axis_angle_quat_nonzero n2 t2 N2) as [U2 E2]. unfold compose_axis_angle.
  generalize (quat_axis _ (unit_quat_mul _ _ U1 U2)). destruct (quaternion_to_axis_angle _) as [n t]. intros (W & E & _).
  rewrite wf_axis by auto. rewrite E, quat_matrix_mul, E1, E2; auto.
Qed.
Lemma log_quat v : unit_quat (log_coordinates_to_quaternion v) /\ quat_matrix (log_coordinates_to_quaternion v) = log_coordinates_to_matrix v.
Proof. destruct (C34_convert (RLog v) KQuat I) as (W & E & _); [discriminate|]. rewrite denotes_log in E. auto. Qed.
Theorem C35_compose_log_coordinates u v :
  log_coordinates_to_matrix (compose_log_coordinates u v) = mmul (log_coordinates_to_matrix u) (log_coordinates_to_matrix v).
Proof.
  destruct (log_quat u) as [U1 E1], (log_quat v) as [U2 E2]. unfold compose_log_coordinates.
  destruct (C34_convert (RQuat (compose_quaternion (log_coordinates_to_quaternion u) (log_coordinates_to_quaternion v))) KLog) as (_ & E & _); [now apply unit_quat_mul|discriminate|].
  cbn [convert] in E. rewrite denotes_log in E. rewrite E. cbn [denotes]. now rewrite quat_matrix_mul, E1, E2.
Qed.
Theorem C35_inverse :
  (forall a b c, let '(a', b', c') := inverse_angles a b c in angles_to_matrix a' b' c' = mtr (angles_to_matrix a b c)) /\
  (forall q, unit_quat q -> quaternion_to_matrix (inverse_quaternion q) = mtr (quaternion_to_matrix q) /\
     compose_quaternion q (inverse_quaternion q) = identity_quaternion /\ compose_quaternion (inverse_quaternion q) q = identity_quaternion) /\
  (forall v, log_coordinates_to_matrix (inverse_log_coordinates v) = mtr (log_coordinates_to_matrix v)).
Proof.
  split; [|split].
  - intros a b c. cbn. unfold angles_to_matrix. rewrite !mtr_mmul, mmul_assoc. 
    assert (Y : forall t, matrix_y (- t) = mtr (matrix_y t)) by (intro; unfold matrix_y; rewrite sin_neg, cos_neg; apply mat_eq; cbn; ring).
    assert (X : forall t, matrix_x (- t) = mtr (matrix_x t)) by (intro; unfold matrix_x; rewrite sin_neg, cos_neg; apply mat_eq; cbn; ring).
    now rewrite !Y, X.
  - intros q U. rewrite !quaternion_to_matrix_unit by auto using unit_quat_inv. rewrite quat_matrix_inv. split; auto.
    unfold unit_quat in U. split; apply quat_eq; cbn; try ring; rewrite <- U; ring.
  - intro v. destruct (vec_dec v) as [->|N].
    + replace (inverse_log_coordinates (V 0 0 0)) with (V 0 0 0) by (apply vec_eq; cbn; ring). rewrite log_matrix_zero. reflexivity.
    + rewrite !log_matrix_nonzero; auto.
      * assert (E : norm2 (inverse_log_coordinates v) = norm2 v) by (rewrite !norm2_alt; cbn; ring). unfold normalize. rewrite E.
        unfold rodrigues. apply mat_eq; cbn; unfold Rdiv; ring.
      * intro Z. apply N. injection Z; intros. apply vec_eq; cbn; lra.
Qed.
Theorem C35_identity :
  (let '(a, b, c) := identity_angles in angles_to_matrix a b c = mone) /\ quaternion_to_matrix identity_quaternion = mone /\ log_coordinates_to_matrix identity_log_coordinates = mone.
Proof.
  split; [|split]; [|rewrite quaternion_to_matrix_unit|apply log_matrix_zero].
  - cbn. unfold angles_to_matrix. rewrite matrix_y_0. unfold matrix_x. rewrite sin_0, cos_0. apply mat_eq; cbn; ring.
  - apply mat_eq; cbn; ring.
  - unfold unit_quat; cbn; ring.
Qed.

(* the angle of a rotation: the t in [0, pi] with trace = 1 + 2 cos t *)
Definition is_angle (r : mat) (t : R) : Prop := 0 <= t <= PI /\ trace r = 1 + 2 * cos t.
Lemma angle_of_rotation r : rotation r -> is_angle r (rotation_angle_from_matrix r).
Proof.
  intro H. destruct (rotation_is_quat r H) as (q & U & E & _). subst r. unfold is_angle, rotation_angle_from_matrix. split; [apply acos_bound|].
  assert (T := trace_quat q U). rewrite T. assert (qw q * qw q <= 1) by (unfold unit_quat in U; nra). assert (0 <= qw q * qw q) by nra.
  rewrite clip1_id by lra. rewrite cos_acos by lra. lra.
Qed.
Lemma angle_between p q : unit_quat p -> unit_quat q -> is_angle (mmul (quat_matrix p) (mtr (quat_matrix q))) (rotation_angle_from_quaternion p q).
Proof.
  intros P Q. rewrite <- quat_matrix_inv, <- quat_matrix_mul. set (r := compose_quaternion p (inverse_quaternion q)).
  assert (U : unit_quat r) by (apply unit_quat_mul; auto using unit_quat_inv).
  replace (rotation_angle_from_quaternion p q) with (rotation_angle_from_matrix (quat_matrix r)); [apply angle_of_rotation, rotation_quat, U|].
  rewrite angle_quat by auto. unfold rotation_angle_from_quaternion.
  replace (qw p * qw q + qx p * qx q + qy p * qy q + qz p * qz q) with (qw r) by (cbn; ring).
  rewrite Rmin_left; auto. unfold unit_quat in U. assert (A : Rabs (qw r) * Rabs (qw r) = qw r * qw r) by (rewrite <- Rabs_mult; apply Rabs_pos_eq; nra).
  assert (0 <= Rabs (qw r)) by apply Rabs_pos. nra.
Qed.
Theorem C35_rotation_angle :
  (forall r, rotation r -> is_angle r (rotation_angle_from_matrix r)) /\
  (forall a1 b1 c1 a2 b2 c2, is_angle (mmul (angles_to_matrix a1 b1 c1) (mtr (angles_to_matrix a2 b2 c2))) (rotation_angle_from_angles a1 b1 c1 a2 b2 c2)) /\
  (forall p q, unit_quat p -> unit_quat q -> is_angle (mmul (quaternion_to_matrix p) (mtr (quaternion_to_matrix q))) (rotation_angle_from_quaternion p q)) /\
  (forall n1 t1 n2 t2, n1 <> V 0 0 0 -> n2 <> V 0 0 0 ->
     is_angle (mmul (axis_angle_to_matrix n1 t1) (mtr (axis_angle_to_matrix n2 t2))) (rotation_angle_from_axis_angle n1 t1 n2 t2)) /\
  (forall u v, is_angle (mmul (log_coordinates_to_matrix u) (mtr (log_coordinates_to_matrix v))) (rotation_angle_from_log_coordinates u v)).
Proof.
  split; [apply angle_of_rotation|]. split; [|split; [|split]].
  - intros; apply angle_of_rotation. auto using rotation_mul, rotation_mtr, rotation_angles.
  - intros p q P Q. rewrite !quaternion_to_matrix_unit by auto. now apply angle_between.
  - intros n1 t1 n2 t2 N1 N2. destruct (axis_angle_quat_nonzero n1 t1 N1) as [U1 <-], (axis_angle_quat_nonzero n2 t2 N2) as [U2 <-]. now apply angle_between.
  - intros u v. destruct (log_quat u) as [U1 <-], (log_quat v) as [U2 <-]. now apply angle_between.
Qed.
(* with a batch of three triplets the transposition mixes the batch axis in: the angle between a rotation and itself is not zero *)
Theorem C35_rotation_angle_batch_refuted : exists s : nat -> R * R * R, (forall n, is_angle (let '(a, b, c) := s n in mmul (angles_to_matrix a b c) (mtr (angles_to_matrix a b c))) 0) /\
  rotation_angle_from_angles_3 s s 0 = PI.
Proof.
  exists (fun _ => (PI / 2, 0, 0)). split.
  - intros _. destruct (rotation_angles (PI / 2) 0 0) as (E & _). rewrite E. split; [generalize PI_RGT_0; lra|]. rewrite cos_0. unfold trace; cbn. ring.
  - unfold rotation_angle_from_angles_3, rotation_angle_from_matrix. rewrite angles_to_matrix_0. cbn [get build Nat.add mmul m00 m01 m02 m10 m11 m12 m20 m21 m22 trace].
    unfold trace; cbn. rewrite sin_0, cos_0, sin_PI2, cos_PI2.
    match goal with |- acos (clip1 ?x) = _ => replace x with (-1) by field end. rewrite clip1_id by lra. rewrite <- cos_PI. apply acos_cos. generalize PI_RGT_0; lra.
Qed.

(* ---------- C36 ---------- *)
Theorem C36_angles r : rotation r ->
  let '(a, b, c) := matrix_to_angles r in angles_to_matrix a b c = r /\ - PI <= a <= PI /\ 0 <= b <= PI /\ - PI <= c <= PI.
Proof. apply matrix_to_angles_rotation. Qed.
Theorem C36_axis_angle r : rotation r -> trace r <> -1 ->
  let '(n, t) := matrix_to_axis_angle r in axis_angle_to_matrix n t = r /\ 0 <= t < PI /\ (r = mone \/ unit_vec n).
Proof.
  intros H T. generalize (matrix_to_quaternion_rotation r H T) (matrix_axis r H T). destruct (matrix_to_axis_angle r) as [n t]. intros X (W & E & B).
  rewrite wf_axis by auto. repeat split; auto; try apply B. destruct X as [(U & _)|(_ & _ & ->)]; auto.
Qed.
Theorem C36_quaternion r : rotation r -> trace r <> -1 -> unit_quat (matrix_to_quaternion r) /\ quaternion_to_matrix (matrix_to_quaternion r) = r.
Proof.
  intros H T. destruct (C34_convert (RMatrix r) KQuat H (fun _ => T)) as (W & E & _). cbn in W, E. split; auto. rewrite quaternion_to_matrix_unit; auto.
Qed.
Theorem C36_log_coordinates r : rotation r -> trace r <> -1 -> log_coordinates_to_matrix (matrix_to_log_coordinates r) = r.
Proof.
  intros H T. destruct (C34_convert (RMatrix r) KLog H (fun _ => T)) as (W & E & _). cbn [convert] in E. rewrite denotes_log in E. exact E.
Qed.
(* "also at rotation angle pi" fails, at every half turn: the axis is lost, the quaternion is zero, the logarithm is zero *)
Theorem C36_half_turn_refuted r : rotation r -> trace r = -1 ->
  matrix_to_axis_angle r = (V 0 0 0, PI) /\ matrix_to_quaternion r = Qn 0 0 0 0 /\ ~ unit_quat (matrix_to_quaternion r) /\
  matrix_to_log_coordinates r = V 0 0 0 /\ log_coordinates_to_matrix (matrix_to_log_coordinates r) <> r /\
  (r <> matrix_z PI -> let '(n, t) := matrix_to_axis_angle r in axis_angle_to_matrix n t <> r).
Proof.
  intros H T. assert (E : matrix_to_axis_angle r = (V 0 0 0, PI)).
  { destruct (rotation_is_quat r H) as (q & U & E & _). subst r. assert (TQ := trace_quat q U). rewrite T in TQ. assert (W : qw q = 0) by nra.
    unfold matrix_to_axis_angle, rotation_angle_from_matrix. rewrite T. replace ((-1 - 1) / 2) with (-1) by field. rewrite clip1_id by lra.
    replace (acos (-1)) with PI by (rewrite <- cos_PI; symmetry; apply acos_cos; generalize PI_RGT_0; lra). f_equal.
    rewrite <- normalize_zero. f_equal. apply vec_eq; cbn; rewrite W; ring. }
  assert (EQ : matrix_to_quaternion r = Qn 0 0 0 0).
  { unfold matrix_to_quaternion. rewrite E. unfold axis_angle_to_quaternion. rewrite normalize_zero. rewrite cos_PI2. apply quat_eq; cbn; ring. }
  assert (EL : matrix_to_log_coordinates r = V 0 0 0) by (unfold matrix_to_log_coordinates; rewrite E; apply vec_eq; cbn; ring).
  split; auto. split; auto. split; [rewrite EQ; unfold unit_quat; cbn; lra|]. split; auto. split.
  - rewrite EL, log_matrix_zero. intro Z. rewrite <- Z in T. unfold trace in T; cbn in T. lra.
  - intros NZ. rewrite E, axis_angle_zero. intro Z. apply NZ. rewrite <- Z. unfold rodrigues, matrix_z. apply mat_eq; cbn; rewrite ?sin_PI, ?cos_PI; ring.
Qed.
Example C36_half_turn_exists : rotation (matrix_x PI) /\ trace (matrix_x PI) = -1 /\ matrix_x PI <> matrix_z PI.
Proof.
  split; [apply rotation_x|]. split; [unfold trace, matrix_x; cbn; rewrite cos_PI; ring|].
  intro E. assert (Z : m00 (matrix_x PI) = m00 (matrix_z PI)) by now rewrite E. cbn in Z. rewrite cos_PI in Z. lra.
Qed.

(* ---------- C37 ---------- *)
Theorem C37_xyz_round_trip v : v <> V 0 0 0 ->
  let '(a, b) := xyz_to_angles v in vscale (sqrt (norm2 v)) (angles_to_xyz a b) = v /\ - PI <= a <= PI /\ 0 <= b <= PI.
Proof.
  intro N. rewrite xyz_to_angles_normalize by auto. generalize (xyz_to_angles_unit _ (normalize_is_unit v N)). destruct (xyz_to_angles (normalize v)) as [a b].
  intros (E & B). split; auto. rewrite E. destruct (normalize_nonzero v N) as [P ->]. assert (0 < sqrt (norm2 v)) by now apply sqrt_lt_R0. apply vec_eq; cbn; field; lra.
Qed.
Theorem C37_unit_round_trip v : unit_vec v -> let '(a, b) := xyz_to_angles v in angles_to_xyz a b = v.
Proof. intro U. generalize (xyz_to_angles_unit v U). destruct (xyz_to_angles v); tauto. Qed.
Theorem C37_moves_y_axis a b c : mapply (angles_to_matrix a b c) (V 0 1 0) = angles_to_xyz a b /\ unit_vec (angles_to_xyz a b).
Proof. split; [apply angles_y|]. unfold unit_vec; cbn. generalize (sc1 a) (sc1 b); intros. nra. Qed.
Lemma cos_one t : cos t = 1 -> - (2 * PI) < t < 2 * PI -> t = 0.
Proof.
  intros C B. destruct (half t) as [E _]. generalize (sc1 (t / 2)); intro S1. rewrite C in E. assert (Z : sin (t / 2) = 0) by nra.
  destruct (Rtotal_order t 0) as [L|[|L]]; auto; exfalso.
  - assert (0 < sin (- (t / 2))) by (apply sin_gt_0; lra). rewrite sin_neg in H. lra.
  - assert (0 < sin (t / 2)) by (apply sin_gt_0; lra). lra.
Qed.
(* away from the poles the angles themselves come back *)
Theorem C37_angles_round_trip a b : - PI < a < PI -> 0 < b < PI -> xyz_to_angles (angles_to_xyz a b) = (a, b).
Proof.
  intros A B. destruct (C37_moves_y_axis a b 0) as [_ U]. generalize (xyz_to_angles_unit _ U). destruct (xyz_to_angles (angles_to_xyz a b)) as [a' b']. intros (E & A' & B').
  unfold angles_to_xyz in E. injection E; intros E3 E2 E1.
  assert (b' = b). { rewrite <- (acos_cos b') by auto. rewrite E2. apply acos_cos; lra. } subst b'.
  assert (S0 : 0 < sin b) by (apply sin_gt_0; lra).
  assert (sin a' = sin a) by (apply Rmult_eq_reg_l with (sin b); lra). assert (cos a' = cos a) by (apply Rmult_eq_reg_l with (sin b); lra).
  assert (C : cos (a' - a) = 1). { rewrite cos_minus, H, H0. generalize (sc1 a); lra. }
  apply cos_one in C; [|lra]. f_equal. lra.
Qed.
Example C37_example : unit_vec (V 0 (-1) 0) /\ xyz_to_angles (angles_to_xyz 1 2) = (1, 2).
Proof. split; [unfold unit_vec; cbn; ring|]. apply C37_angles_round_trip; generalize PI2_3_2; lra. Qed.
