(* Model of the representation matrices of e3nn_jax/_src/irreps.py (the methods D_from_... of Irrep and Irreps) and of the transform_by_... methods of
   e3nn_jax/_src/irreps_array.py, one element of the batch at a time.  Floating point is replaced by R. *)
From Coq Require Import Reals ZArith List.
From Verif Require Import PyBase IrrepsModel ArrayModel LeadModel SumR CGModel JTables RotationModel EntryProofs.
Import ListNotations.
Open Scope R_scope.

(* J.py: the number written (n, d, s) in JTables.v is n * sqrt(s) / d;  Jd[l] *)
Definition J_number (t : Z * Z * Z) : R := let '(n, d, s) := t in IZR n * sqrt (IZR s) / IZR d.
Definition Jd (l : nat) : rmat := fun i j => J_number (nth j (nth i (nth l Jd_tables []) []) (0, 1, 1)%Z).
(* irreps.py:1023-1088 with len(Jd) tables *)
Definition wigner_D (l : nat) (alpha beta gamma : option R) : rmat := wigner_D_from_angles (length Jd_tables) Jd l alpha beta gamma.

Definition pR (p : parity) : R := match p with Even => 1 | Odd => -1 end.
(* irreps.py:117-139  Irrep.D_from_log_coordinates(v, k): the Wigner matrix times p ** k *)
Definition D_from_log_coordinates (v : vec) (k : nat) (ir : irrep) : rmat := fun i j => wigner_D_from_log_coordinates (ir_l ir) (vx v) (vy v) (vz v) i j * pR (ir_p ir) ^ k.
(* irreps.py:141-193  Irrep.D_from_angles(alpha, beta, gamma, k); None stands for the Python number 0 *)
Definition D_from_angles (alpha beta gamma : option R) (k : nat) (ir : irrep) : rmat := fun i j => wigner_D (ir_l ir) alpha beta gamma i j * pR (ir_p ir) ^ k.
(* irreps.py:195-205  Irrep.D_from_quaternion *)
Definition D_from_quaternion (q : quat) (k : nat) (ir : irrep) : rmat :=
  let '(a, b, c) := quaternion_to_angles q in D_from_angles (Some a) (Some b) (Some c) k ir.
(* irreps.py:207-230  Irrep.D_from_matrix: d = sign(det(R)), R <- d R, k = (1 - d) / 2 (k is 0, 1 or, for a singular matrix, 1/2: not modelled) *)
Definition mat_det (a : mat) : R :=
  m00 a * (m11 a * m22 a - m12 a * m21 a) - m01 a * (m10 a * m22 a - m12 a * m20 a) + m02 a * (m10 a * m21 a - m11 a * m20 a).
Definition mat_scale (k : R) (a : mat) : mat := Mx (k * m00 a) (k * m01 a) (k * m02 a) (k * m10 a) (k * m11 a) (k * m12 a) (k * m20 a) (k * m21 a) (k * m22 a).
Definition D_from_matrix (r : mat) (ir : irrep) : rmat :=
  let neg := Rltb (mat_det r) 0 in
  let d := if neg then -1 else 1 in
  let k := if neg then 1%nat else 0%nat in
  let '(a, b, c) := matrix_to_angles (mat_scale d r) in D_from_angles (Some a) (Some b) (Some c) k ir.
(* irreps.py:232-235  Irrep.D_from_axis_angle *)
Definition D_from_axis_angle (axis : vec) (angle : R) (k : nat) (ir : irrep) : rmat := D_from_log_coordinates (axis_angle_to_log_coordinates axis angle) k ir.

(* the array of shape (dim, dim) *)
Definition as_rep (D : irrep -> rmat) : rep := fun ir => tab2 (ir_dim ir) (ir_dim ir) (D ir).

(* irreps_array.py:963-991  transform_by_log_coordinates *)
Definition transform_by_log_coordinates (x : iarray) (v : vec) (k : nat) : res iarray := transform (as_rep (D_from_log_coordinates v k)) x.
(* irreps_array.py:993-1046  transform_by_angles; inverse transposes every matrix *)
Definition transform_by_angles (x : iarray) (a b c : option R) (k : nat) (inverse : bool) : res iarray :=
  transform (as_rep (fun ir => if inverse then fun i j => D_from_angles a b c k ir j i else D_from_angles a b c k ir)) x.
(* irreps_array.py:1048-1060  transform_by_quaternion, through quaternion_to_log_coordinates *)
Definition transform_by_quaternion (x : iarray) (q : quat) (k : nat) : res iarray := transform_by_log_coordinates x (quaternion_to_log_coordinates q) k.
(* irreps_array.py:1062-1077  transform_by_axis_angle *)
Definition transform_by_axis_angle (x : iarray) (axis : vec) (angle : R) (k : nat) : res iarray := transform_by_log_coordinates x (axis_angle_to_log_coordinates axis angle) k.
(* irreps_array.py:1079-1091  transform_by_matrix *)
Definition transform_by_matrix (x : iarray) (r : mat) : res iarray :=
  let neg := Rltb (mat_det r) 0 in
  let d := if neg then -1 else 1 in
  let k := if neg then 1%nat else 0%nat in
  let '(a, b, c) := matrix_to_angles (mat_scale d r) in transform_by_angles x (Some a) (Some b) (Some c) k false.
