(* Model of e3nn_jax/_src/rotation.py over the real numbers, one element of the batch at a time
   (every function broadcasts over the leading axes and treats them pointwise; the exception, rotation_angle_from_angles, is at the end).
   Simplifications: floating point is replaced by R; signed zeros are not distinguished (arctan2(-0., -1.) is pi here). *)
From Coq Require Import Reals List.
From Coquelicot Require Import Series Hierarchy.
Open Scope R_scope.

Record vec := V { vx : R; vy : R; vz : R }.
Record mat := Mx { m00 : R; m01 : R; m02 : R; m10 : R; m11 : R; m12 : R; m20 : R; m21 : R; m22 : R }.
Record quat := Qn { qw : R; qx : R; qy : R; qz : R }.

(* the @ operator of numpy on 3x3 matrices and on a matrix and a vector; swapaxes(-1, -2) *)
Definition mmul (a b : mat) : mat :=
  Mx (m00 a * m00 b + m01 a * m10 b + m02 a * m20 b) (m00 a * m01 b + m01 a * m11 b + m02 a * m21 b) (m00 a * m02 b + m01 a * m12 b + m02 a * m22 b)
     (m10 a * m00 b + m11 a * m10 b + m12 a * m20 b) (m10 a * m01 b + m11 a * m11 b + m12 a * m21 b) (m10 a * m02 b + m11 a * m12 b + m12 a * m22 b)
     (m20 a * m00 b + m21 a * m10 b + m22 a * m20 b) (m20 a * m01 b + m21 a * m11 b + m22 a * m21 b) (m20 a * m02 b + m21 a * m12 b + m22 a * m22 b).
Definition mapply (a : mat) (v : vec) : vec :=
  V (m00 a * vx v + m01 a * vy v + m02 a * vz v) (m10 a * vx v + m11 a * vy v + m12 a * vz v) (m20 a * vx v + m21 a * vy v + m22 a * vz v).
Definition mtr (a : mat) : mat := Mx (m00 a) (m10 a) (m20 a) (m01 a) (m11 a) (m21 a) (m02 a) (m12 a) (m22 a).
Definition mone : mat := Mx 1 0 0 0 1 0 0 0 1.

Definition Reqb (a b : R) : bool := if Req_EM_T a b then true else false.
Definition Rltb (a b : R) : bool := if Rlt_dec a b then true else false.
(* jnp.clip(x, -1, 1) *)
Definition clip1 (x : R) : R := Rmin (Rmax x (-1)) 1.
(* jnp.arctan2(y, x) *)
Definition arctan2 (y x : R) : R :=
  if Rltb 0 x then atan (y / x)
  else if Rltb x 0 then (if Rltb y 0 then atan (y / x) - PI else atan (y / x) + PI)
  else if Rltb 0 y then PI / 2 else if Rltb y 0 then - (PI / 2) else 0.

(* rotation.py:533-536  _normalize *)
Definition norm2 (v : vec) : R := vx v ^ 2 + vy v ^ 2 + vz v ^ 2.
Definition normalize (v : vec) : vec :=
  let n2 := if Rltb 0 (norm2 v) then norm2 v else 1 in
  V (vx v / sqrt n2) (vy v / sqrt n2) (vz v / sqrt n2).

(* rotation.py:20-30  rotation_angle_from_matrix *)
Definition trace (r : mat) : R := m00 r + m11 r + m22 r.
Definition rotation_angle_from_matrix (r : mat) : R := acos (clip1 ((trace r - 1) / 2)).

(* rotation.py:362-382  matrix_x, matrix_y, matrix_z (to line 428) *)
Definition matrix_x (t : R) : mat := Mx 1 0 0 0 (cos t) (- sin t) 0 (sin t) (cos t).
Definition matrix_y (t : R) : mat := Mx (cos t) 0 (sin t) 0 1 0 (- sin t) 0 (cos t).
Definition matrix_z (t : R) : mat := Mx (cos t) (- sin t) 0 (sin t) (cos t) 0 0 0 1.

(* rotation.py:431-443  angles_to_matrix *)
Definition angles_to_matrix (a b c : R) : mat := mmul (mmul (matrix_y a) (matrix_x b)) (matrix_y c).

(* rotation.py:774-792  angles_to_xyz *)
Definition angles_to_xyz (a b : R) : vec := V (sin b * sin a) (cos b) (sin b * cos a).

(* rotation.py:795-828  xyz_to_angles *)
Definition xyz_to_angles (v : vec) : R * R :=
  let u := normalize v in
  let x := clip1 (vx u) in let y := clip1 (vy u) in let z := clip1 (vz u) in
  let pole := andb (Reqb x 0) (Reqb z 0) in
  let x_ := if pole then 0 else x in
  let y_ := if pole then 0 else y in
  let z_ := if pole then 1 else z in
  let beta := if Reqb y 1 then 0 else if Reqb y (-1) then PI else acos y_ in
  (arctan2 x_ z_, beta).

(* rotation.py:446-465  matrix_to_angles *)
Definition matrix_to_angles (r : mat) : R * R * R :=
  let '(a, b) := xyz_to_angles (mapply r (V 0 1 0)) in
  let r' := mmul (mtr (angles_to_matrix a b 0)) r in
  (a, b, arctan2 (m02 r') (m00 r')).

(* rotation.py:36-49  identity_angles;  52-67  rand_angles (the three uniform draws are arguments) *)
Definition identity_angles : R * R * R := (0, 0, 0).
Definition rand_angles (x y z : R) : R * R * R := (2 * PI * x, acos (2 * z - 1), 2 * PI * y).
(* rotation.py:7-17  rand_matrix *)
Definition rand_matrix (x y z : R) : mat := let '(a, b, c) := rand_angles x y z in angles_to_matrix a b c.

(* rotation.py:70-92  compose_angles *)
Definition compose_angles (a1 b1 c1 a2 b2 c2 : R) : R * R * R := matrix_to_angles (mmul (angles_to_matrix a1 b1 c1) (angles_to_matrix a2 b2 c2)).
(* rotation.py:95-110  inverse_angles *)
Definition inverse_angles (a b c : R) : R * R * R := (- c, - b, - a).
(* rotation.py:113-130  rotation_angle_from_angles, without batch axes *)
Definition rotation_angle_from_angles (a1 b1 c1 a2 b2 c2 : R) : R :=
  rotation_angle_from_matrix (mmul (angles_to_matrix a1 b1 c1) (mtr (angles_to_matrix a2 b2 c2))).

(* rotation.py:136-146  identity_quaternion *)
Definition identity_quaternion : quat := Qn 1 0 0 0.
(* rotation.py:162-193  compose_quaternion *)
Definition compose_quaternion (p q : quat) : quat :=
  Qn (qw p * qw q - qx p * qx q - qy p * qy q - qz p * qz q)
     (qx p * qw q + qw p * qx q + qy p * qz q - qz p * qy q)
     (qw p * qy q - qx p * qz q + qy p * qw q + qz p * qx q)
     (qw p * qz q + qx p * qy q - qy p * qx q + qz p * qw q).
(* rotation.py:196-207  inverse_quaternion *)
Definition inverse_quaternion (q : quat) : quat := Qn (qw q) (qx q * -1) (qy q * -1) (qz q * -1).
(* rotation.py:210-223  rotation_angle_from_quaternion *)
Definition rotation_angle_from_quaternion (p q : quat) : R :=
  2 * acos (Rmin (Rabs (qw p * qw q + qx p * qx q + qy p * qy q + qz p * qz q)) 1).

(* rotation.py:498-513  axis_angle_to_quaternion *)
Definition axis_angle_to_quaternion (axis : vec) (t : R) : quat :=
  let u := normalize axis in
  Qn (cos (t / 2)) (vx u * sin (t / 2)) (vy u * sin (t / 2)) (vz u * sin (t / 2)).
(* rotation.py:516-530  quaternion_to_axis_angle *)
Definition quaternion_to_axis_angle (q : quat) : vec * R :=
  (normalize (V (qx q) (qy q) (qz q)), 2 * acos (clip1 (qw q))).
(* rotation.py:468-483  angles_to_quaternion *)
Definition angles_to_quaternion (a b c : R) : quat :=
  compose_quaternion (axis_angle_to_quaternion (V 0 1 0) a)
    (compose_quaternion (axis_angle_to_quaternion (V 1 0 0) b) (axis_angle_to_quaternion (V 0 1 0) c)).
(* rotation.py:539-563  matrix_to_axis_angle *)
Definition matrix_to_axis_angle (r : mat) : vec * R :=
  (normalize (V (m21 r - m12 r) (m02 r - m20 r) (m10 r - m01 r)), rotation_angle_from_matrix r).
(* rotation.py:566-580  angles_to_axis_angle *)
Definition angles_to_axis_angle (a b c : R) : vec * R := matrix_to_axis_angle (angles_to_matrix a b c).
(* rotation.py:486-495  matrix_to_quaternion *)
Definition matrix_to_quaternion (r : mat) : quat := let '(axis, t) := matrix_to_axis_angle r in axis_angle_to_quaternion axis t.
(* rotation.py:583-598  axis_angle_to_matrix *)
Definition axis_angle_to_matrix (axis : vec) (t : R) : mat :=
  let '(a, b) := xyz_to_angles axis in
  let r := angles_to_matrix a b 0 in
  mmul (mmul r (matrix_y t)) (mtr r).
(* rotation.py:601-610  quaternion_to_matrix *)
Definition quaternion_to_matrix (q : quat) : mat := let '(axis, t) := quaternion_to_axis_angle q in axis_angle_to_matrix axis t.
(* rotation.py:613-626  quaternion_to_angles *)
Definition quaternion_to_angles (q : quat) : R * R * R := matrix_to_angles (quaternion_to_matrix q).
(* rotation.py:629-643  axis_angle_to_angles *)
Definition axis_angle_to_angles (axis : vec) (t : R) : R * R * R := matrix_to_angles (axis_angle_to_matrix axis t).

(* jax.scipy.linalg.expm is a Pade approximation in the library; here it is the exponential series itself *)
Fixpoint mpow (a : mat) (n : nat) : mat := match n with O => mone | S n => mmul a (mpow a n) end.
Definition exp_entry (f : mat -> R) (a : mat) : R := Series (fun n => f (mpow a n) / INR (fact n)).
Definition expm (a : mat) : mat :=
  Mx (exp_entry m00 a) (exp_entry m01 a) (exp_entry m02 a) (exp_entry m10 a) (exp_entry m11 a) (exp_entry m12 a) (exp_entry m20 a) (exp_entry m21 a) (exp_entry m22 a).
(* rotation.py:646-668  log_coordinates_to_matrix: the einsum of the three generators with the coordinates *)
Definition log_generator (v : vec) : mat := Mx 0 (- vz v) (vy v) (vz v) 0 (- vx v) (- vy v) (vx v) 0.
Definition log_coordinates_to_matrix (v : vec) : mat := expm (log_generator v).
(* rotation.py:671-687  log_coordinates_to_axis_angle *)
Definition log_coordinates_to_axis_angle (v : vec) : vec * R :=
  let n2 := norm2 v in
  let n2_ := if Rltb 0 n2 then n2 else 1 in
  (V (vx v / sqrt n2_) (vy v / sqrt n2_) (vz v / sqrt n2_), if Rltb 0 n2 then sqrt n2_ else 0).
(* rotation.py:690-699  log_coordinates_to_quaternion *)
Definition log_coordinates_to_quaternion (v : vec) : quat := let '(axis, t) := log_coordinates_to_axis_angle v in axis_angle_to_quaternion axis t.
(* rotation.py:702-715  log_coordinates_to_angles *)
Definition log_coordinates_to_angles (v : vec) : R * R * R := matrix_to_angles (log_coordinates_to_matrix v).
(* rotation.py:718-730  axis_angle_to_log_coordinates *)
Definition axis_angle_to_log_coordinates (axis : vec) (t : R) : vec := V (vx axis * t) (vy axis * t) (vz axis * t).
(* rotation.py:733-742  matrix_to_log_coordinates *)
Definition matrix_to_log_coordinates (r : mat) : vec := let '(axis, t) := matrix_to_axis_angle r in axis_angle_to_log_coordinates axis t.
(* rotation.py:745-756  angles_to_log_coordinates *)
Definition angles_to_log_coordinates (a b c : R) : vec := let '(axis, t) := angles_to_axis_angle a b c in axis_angle_to_log_coordinates axis t.
(* rotation.py:759-768  quaternion_to_log_coordinates *)
Definition quaternion_to_log_coordinates (q : quat) : vec := let '(axis, t) := quaternion_to_axis_angle q in axis_angle_to_log_coordinates axis t.

(* rotation.py:245-265  compose_axis_angle;  268-283  rotation_angle_from_axis_angle *)
Definition compose_axis_angle (x1 : vec) (t1 : R) (x2 : vec) (t2 : R) : vec * R :=
  quaternion_to_axis_angle (compose_quaternion (axis_angle_to_quaternion x1 t1) (axis_angle_to_quaternion x2 t2)).
Definition rotation_angle_from_axis_angle (x1 : vec) (t1 : R) (x2 : vec) (t2 : R) : R :=
  rotation_angle_from_quaternion (axis_angle_to_quaternion x1 t1) (axis_angle_to_quaternion x2 t2).
(* rotation.py:314-328  compose_log_coordinates;  331-340  inverse_log_coordinates;  343-356  rotation_angle_from_log_coordinates *)
Definition identity_log_coordinates : vec := V 0 0 0.
Definition compose_log_coordinates (u v : vec) : vec :=
  quaternion_to_log_coordinates (compose_quaternion (log_coordinates_to_quaternion u) (log_coordinates_to_quaternion v)).
Definition inverse_log_coordinates (v : vec) : vec := V (- vx v) (- vy v) (- vz v).
Definition rotation_angle_from_log_coordinates (u v : vec) : R :=
  rotation_angle_from_quaternion (log_coordinates_to_quaternion u) (log_coordinates_to_quaternion v).

(* rotation.py:113-130  rotation_angle_from_angles on three triplets at once (batch shape (3,)): R2.T reverses all the axes, so
   R2.T[n, j, k] = R2[k, j, n], and R1 @ R2.T is a (3, 3, 3) array from which the angle is taken element by element *)
Definition get (r : mat) (i j : nat) : R :=
  match i, j with
  | 0, 0 => m00 r | 0, 1 => m01 r | 0, _ => m02 r
  | 1, 0 => m10 r | 1, 1 => m11 r | 1, _ => m12 r
  | _, 0 => m20 r | _, 1 => m21 r | _, _ => m22 r
  end%nat.
Definition build (f : nat -> nat -> R) : mat := Mx (f 0 0)%nat (f 0 1)%nat (f 0 2)%nat (f 1 0)%nat (f 1 1)%nat (f 1 2)%nat (f 2 0)%nat (f 2 1)%nat (f 2 2)%nat.
Definition rotation_angle_from_angles_3 (s t : nat -> R * R * R) (n : nat) : R :=
  let m p := let '(a, b, c) := p in angles_to_matrix a b c in
  let r1 k := m (s k) in let r2 k := m (t k) in
  rotation_angle_from_matrix (mmul (r1 n) (build (fun j k => get (r2 k) j n))).
