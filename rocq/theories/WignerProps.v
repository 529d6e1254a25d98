(* C38, C39, C40 and, with the Clebsch-Gordan coefficients and the Wigner matrices the library uses, the equivariance statements of C22-C24, C27, C30, C31 for every element of O(3).
   Specification: orthogonal3 r says that r is an orthogonal 3 x 3 matrix, mat_det is its determinant; matrices of size d are functions nat -> nat -> R (or C) read at indices below d;
   dmul d and done are their product and identity. *)
From Coq Require Import Reals ZArith Arith Bool Lia Lra Psatz List FunctionalExtensionality.
From Coquelicot Require Import Complex.
From Verif Require Import PyBase IrrepsModel IrrepsProofs ArrayModel ArrayProofs LeadModel SumR CGModel CGProofs2 CGProofs3 CGProofs4 CGProofs5 CGProofs6 CGProofs7 CGProofs8 CGProofs9 CGProofs10 CGProofs12 CGProofs13 WignerModel WignerProofs LeadProofs ActProofs RechunkProofs SliceProofs ArithProofs EquivProofs EquivProofs2 ArrayProps3 LinearModel LinearProofs LinearProps TPModel TPProofs TPProps TPProps2 TPProps3 WignerProofs2 EntryProofs.
From Verif Require RotationModel RotationProofs RotationProofs2 RotationProofs3 RotationProps.
Import RotationModel RotationProofs ListNotations.
Open Scope R_scope.

(* ================= C38: the generators ================= *)
(* su2_generators(j), 2j = n: [X0, X1] = X2, [X1, X2] = X0, [X2, X0] = X1 *)
Theorem C38_su2_commutators n i k : (i <= n)%nat -> (k <= n)%nat ->
  let mul := fun (a b : cmat) => csum (n + 1) (fun p => a i p * b p k)%C in let X := su2_generators n in
  (mul (X 0%nat) (X 1%nat) - mul (X 1%nat) (X 0%nat) = X 2%nat i k)%C /\ (mul (X 1%nat) (X 2%nat) - mul (X 2%nat) (X 1%nat) = X 0%nat i k)%C /\ (mul (X 2%nat) (X 0%nat) - mul (X 0%nat) (X 2%nat) = X 1%nat i k)%C.
Proof.
  intros Hi Hk. cbv zeta. replace (n + 1)%nat with (S n) by lia.
  split; [apply su2_comm01|split; [apply su2_comm12|apply su2_comm20]]; lia.
Qed.
(* anti-Hermitian *)
Theorem C38_su2_antihermitian n a i k : (i <= n)%nat -> (k <= n)%nat -> Cconj (su2_generators n a k i) = (- su2_generators n a i k)%C.
Proof. intros. apply su2_antiherm; lia. Qed.
(* Casimir operator: X0 X0 + X1 X1 + X2 X2 = - j (j + 1) *)
Theorem C38_su2_casimir n i k : (i <= n)%nat -> (k <= n)%nat ->
  let sq := fun a => csum (n + 1) (fun p => su2_generators n a i p * su2_generators n a p k)%C in let j := INR n / 2 in
  (sq 0%nat + sq 1%nat + sq 2%nat = if (i =? k)%nat then - RtoC (j * (j + 1)) else RtoC 0)%C.
Proof. intros Hi Hk. cbv zeta. replace (n + 1)%nat with (S n) by lia. apply su2_casimir; lia. Qed.
(* the change of basis is unitary *)
Theorem C38_change_of_basis_unitary l p r : (p < 2 * l + 1)%nat -> (r < 2 * l + 1)%nat ->
  let Q := change_basis_real_to_complex l in
  csum (2 * l + 1) (fun t => Q p t * Cconj (Q r t))%C = (if (p =? r)%nat then RtoC 1 else RtoC 0) /\ csum (2 * l + 1) (fun t => Cconj (Q t p) * Q t r)%C = (if (p =? r)%nat then RtoC 1 else RtoC 0).
Proof. intros Hp Hr. split; [apply (Q_unitary_rows l p r Hp Hr)|apply (Q_unitary_cols l p r Hp Hr)]. Qed.
(* the generators in the real basis: nothing is lost by taking the real part *)
Theorem C38_real l a i j : (i < 2 * l + 1)%nat -> (j < 2 * l + 1)%nat -> Im (generators_complex l a i j) = 0.
Proof. intros Hi Hj. now rewrite generators_real. Qed.
Theorem C38_antisymmetric l a i j : (i < 2 * l + 1)%nat -> (j < 2 * l + 1)%nat -> generators l a i j = - generators l a j i.
Proof. apply generators_antisym. Qed.
Theorem C38_commutators l i j : (i < 2 * l + 1)%nat -> (j < 2 * l + 1)%nat ->
  let X := generators l in let br := fun a b => dmul (2 * l + 1) (X a) (X b) i j - dmul (2 * l + 1) (X b) (X a) i j in
  br 0%nat 1%nat = X 2%nat i j /\ br 1%nat 2%nat = X 0%nat i j /\ br 2%nat 0%nat = X 1%nat i j.
Proof. intros Hi Hj. cbv zeta. split; [|split]; [apply (generators_comm l 0)|apply (generators_comm l 1)|apply (generators_comm l 2)]; auto; lia. Qed.
Theorem C38_casimir l i j : (i < 2 * l + 1)%nat -> (j < 2 * l + 1)%nat ->
  let sq := fun a => dmul (2 * l + 1) (generators l a) (generators l a) i j in sq 0%nat + sq 1%nat + sq 2%nat = - (INR l * (INR l + 1)) * done i j.
Proof. intros Hi Hj. cbv beta zeta. rewrite generators_casimir by assumption. unfold CGModel.mone. destruct (i =? j)%nat; ring. Qed.
(* for l = 1 they are the generators of rotations about the x, y and z axes: (generators(1)[a])_ij = - epsilon_aij *)
Theorem C38_vector : forall x0 x1 x2 v0 v1 v2,
  let X := fun i j => x0 * generators 1 0 i j + x1 * generators 1 1 i j + x2 * generators 1 2 i j in
  X 0%nat 0%nat * v0 + X 0%nat 1%nat * v1 + X 0%nat 2%nat * v2 = x1 * v2 - x2 * v1 /\ X 1%nat 0%nat * v0 + X 1%nat 1%nat * v1 + X 1%nat 2%nat * v2 = x2 * v0 - x0 * v2 /\ X 2%nat 0%nat * v0 + X 2%nat 1%nat * v1 + X 2%nat 2%nat * v2 = x0 * v1 - x1 * v0.
Proof. intros x0 x1 x2 v0 v1 v2. cbv beta zeta. rewrite !generators_l1 by lia. cbn [eps]. split; [|split]; ring. Qed.
(* hence the generators of l > 0 are not zero, and the commutators above are not 0 = 0 *)
Example C38_nonvacuous : generators 1 1 0%nat 2%nat = 1 /\ generators 2 1 0%nat 4%nat = 2.
Proof. split; rewrite generators_y by lia; cbn; ring. Qed.

(* ================= C39: Wigner matrices ================= *)
(* rotations about y *)
Theorem C39_rot_y l a b i j : (i < 2 * l + 1)%nat -> (j < 2 * l + 1)%nat ->
  rot_y l (a + b) i j = dmul (2 * l + 1) (rot_y l a) (rot_y l b) i j /\ rot_y l 0 i j = done i j /\ rot_y l (- a) i j = rot_y l a j i /\ dmul (2 * l + 1) (rot_y l a) (rot_y l (- a)) i j = done i j.
Proof.
  intros Hi Hj. assert (M : forall u v, rot_y l (u + v) i j = dmul (2 * l + 1) (rot_y l u) (rot_y l v) i j).
  { intros u v. rewrite rot_y_is_wD by assumption. pose proof (wD_add l u v 0 1 0 i j Hi Hj) as E. rewrite !Rmult_0_r, !Rmult_1_r in E. rewrite E. unfold CGModel.mmul. apply rsum_ext. intros k Hk. rewrite !rot_y_is_wD by lia. reflexivity. }
  assert (Z : rot_y l 0 i j = done i j) by (rewrite rot_y_is_wD by assumption; now apply wD_zero).
  split; [apply M|]. split; [exact Z|]. split; [|rewrite <- M, Rplus_opp_r; exact Z].
  rewrite !rot_y_is_wD by assumption. rewrite (wD_transpose l 0 a 0 i j) by assumption. now rewrite Ropp_0.
Qed.
(* the tables J: each is a symmetric orthogonal involution that exchanges the axes x and y up to the sign convention, so that J rot_y(b) J is the rotation about x *)
Theorem C39_J_tables l i j : (l < 12)%nat -> (i < 2 * l + 1)%nat -> (j < 2 * l + 1)%nat ->
  dmul (2 * l + 1) (Jd l) (Jd l) i j = done i j /\ dmul (2 * l + 1) (dmul (2 * l + 1) (Jd l) (generators l 1)) (Jd l) i j = generators l 0 i j.
Proof. exact (Jd_exact l i j). Qed.
Theorem C39_J_rot_y l b i j : (l < 12)%nat -> (i < 2 * l + 1)%nat -> (j < 2 * l + 1)%nat ->
  dmul (2 * l + 1) (dmul (2 * l + 1) (Jd l) (rot_y l b)) (Jd l) i j = CGModel.expm (2 * l + 1)%nat (fun p q => b * generators l 0 p q) i j.
Proof. intros. rewrite rot_x_is_wD by assumption. rewrite wD_expm. f_equal. apply functional_extensionality; intro p; apply functional_extensionality; intro q. unfold gen3. ring. Qed.
(* Irrep.D_from_matrix is a representation of O(3): multiplicative, identity, orthogonal *)
Theorem C39_homomorphism r s ir i j : orthogonal3 r -> orthogonal3 s -> (i < ir_dim ir)%nat -> (j < ir_dim ir)%nat ->
  D_from_matrix (mmul r s) ir i j = dmul (ir_dim ir) (D_from_matrix r ir) (D_from_matrix s ir) i j.
Proof. intros R1 R2 Hi Hj. apply D_matrix_mul; assumption. Qed.
Theorem C39_identity ir i j : (i < ir_dim ir)%nat -> (j < ir_dim ir)%nat -> D_from_matrix mone ir i j = done i j.
Proof. apply D_matrix_one. Qed.
Theorem C39_inverse_is_transpose r ir i j : orthogonal3 r -> (i < ir_dim ir)%nat -> (j < ir_dim ir)%nat -> D_from_matrix (mtr r) ir i j = D_from_matrix r ir j i.
Proof. intros O Hi Hj. exact (proj1 (D_matrix_orth r ir i j O Hi Hj)). Qed.
Theorem C39_orthogonal r ir i j : orthogonal3 r -> (i < ir_dim ir)%nat -> (j < ir_dim ir)%nat ->
  let D := D_from_matrix r ir in dmul (ir_dim ir) D (fun a b => D b a) i j = done i j /\ dmul (ir_dim ir) (fun a b => D b a) D i j = done i j.
Proof.
  intros O Hi Hj. cbv zeta. assert (T : forall p q, (p < ir_dim ir)%nat -> (q < ir_dim ir)%nat -> D_from_matrix r ir q p = D_from_matrix (mtr r) ir p q) by (intros; symmetry; now apply C39_inverse_is_transpose).
  split.
  - transitivity (dmul (ir_dim ir) (D_from_matrix r ir) (D_from_matrix (mtr r) ir) i j); [unfold CGModel.mmul; apply rsum_ext; intros k Hk; now rewrite (T k j)|].
    rewrite <- C39_homomorphism by auto using o3_tr. rewrite (proj1 O). now apply D_matrix_one.
  - transitivity (dmul (ir_dim ir) (D_from_matrix (mtr r) ir) (D_from_matrix r ir) i j); [unfold CGModel.mmul; apply rsum_ext; intros k Hk; now rewrite (T i k)|].
    rewrite <- C39_homomorphism by auto using o3_tr. rewrite (proj2 O). now apply D_matrix_one.
Qed.
(* "1o" is the vector representation, "1e" the pseudovector, "0e" trivial, "0o" the determinant *)
Theorem C39_low_degrees r i j : orthogonal3 r -> (i < 3)%nat -> (j < 3)%nat ->
  D_from_matrix r (Irrep 1 Odd) i j = entry3 r i j /\ D_from_matrix r (Irrep 1 Even) i j = mat_det r * entry3 r i j /\ D_from_matrix r (Irrep 0 Even) 0%nat 0%nat = 1 /\ D_from_matrix r (Irrep 0 Odd) 0%nat 0%nat = mat_det r.
Proof.
  intros O Hi Hj. destruct (D_matrix_vector r i j O Hi Hj) as [A B]. split; [exact A|split; [exact B|]].
  rewrite !D_matrix_eq by (cbn; lia). cbn [ir_l ir_p]. rewrite (proj1 (wfam_W (proper r))). rewrite !Rmult_1_l. change mat_det with det. rewrite (sg_spec r O). unfold chi. destruct (sg r); split; cbn; reflexivity.
Qed.
(* the inversion -1 acts by the parity *)
Theorem C39_inversion ir i j : (i < ir_dim ir)%nat -> (j < ir_dim ir)%nat -> D_from_matrix (mat_scale (-1) mone) ir i j = (match ir_p ir with Even => 1 | Odd => -1 end) * done i j.
Proof.
  intros Hi Hj. pose proof (D_with_parity mone 1 ir i j rotation_one Hi Hj) as E. rewrite !pow_1 in E. rewrite <- E. rewrite W_one by assumption. unfold pR. destruct (ir_p ir); ring.
Qed.
(* all the parametrisations describe the same representation: angles (None or a number), logarithmic coordinates, unit quaternions, axis and angle, with k inversions *)
Theorem C39_parametrisations k ir i j : (i < ir_dim ir)%nat -> (j < ir_dim ir)%nat ->
  let D := fun r => D_from_matrix (mat_scale ((-1) ^ k) r) ir i j in
  (forall a b c, D_from_angles (Some a) (Some b) (Some c) k ir i j = D (angles_to_matrix a b c)) /\
  (forall a b c, D_from_angles a b c k ir i j = D_from_angles (Some (opt a)) (Some (opt b)) (Some (opt c)) k ir i j) /\
  (forall v, D_from_log_coordinates v k ir i j = D (log_coordinates_to_matrix v)) /\
  (forall q, RotationProofs2.unit_quat q -> D_from_quaternion q k ir i j = D (quaternion_to_matrix q)) /\
  (forall n t, unit_vec n -> D_from_axis_angle n t k ir i j = D (axis_angle_to_matrix n t)).
Proof.
  intros Hi Hj. cbv zeta. split; [|split; [|split; [|split]]]; intros.
  - now rewrite D_angles_eq.
  - rewrite !D_angles_eq by assumption. reflexivity.
  - now rewrite D_log_eq.
  - now rewrite D_quaternion_eq.
  - now rewrite D_axis_angle_eq.
Qed.
Lemma angles_reversed a b c : angles_to_matrix (- c) (- b) (- a) = mtr (angles_to_matrix a b c).
Proof. unfold angles_to_matrix, matrix_y, matrix_x. rewrite !cos_neg, !sin_neg. apply mat_eq; cbn; ring. Qed.
Theorem C39_angles_inverse a b c ir i j : (i < ir_dim ir)%nat -> (j < ir_dim ir)%nat ->
  D_from_angles (Some (- c)) (Some (- b)) (Some (- a)) 0 ir i j = D_from_angles (Some a) (Some b) (Some c) 0 ir j i.
Proof. intros Hi Hj. rewrite !D_angles_eq by assumption. cbn [opt pow]. rewrite !scale_one. rewrite angles_reversed. apply C39_inverse_is_transpose; auto. apply o3_rotation, rotation_angles. Qed.

(* ---- the methods of IrrepsArray ---- *)
Lemma by_matrix x r : transform_by_matrix x r = transform (rep_of r) x.
Proof. unfold transform_by_matrix, transform_by_angles, rep_of, as_rep, D_from_matrix. destruct (matrix_to_angles _) as [[a b] c]. reflexivity. Qed.
Lemma as_rep_eq D E : (forall ir i j, (i < ir_dim ir)%nat -> (j < ir_dim ir)%nat -> D ir i j = E ir i j) -> as_rep D = as_rep E.
Proof. intros H. apply functional_extensionality. now apply as_rep_ext. Qed.
(* every transform_by_... is transform_by_matrix of the corresponding matrix; inverse=True is the transpose, i.e. the inverse element *)
Theorem C39_transform_by_angles x a b c k inv :
  transform_by_angles x a b c k inv = transform_by_matrix x (let r := mat_scale ((-1) ^ k) (angles_to_matrix (opt a) (opt b) (opt c)) in if inv then mtr r else r).
Proof.
  rewrite by_matrix. unfold transform_by_angles, rep_of. f_equal. apply as_rep_eq. intros ir i j Hi Hj. cbv zeta. destruct inv; rewrite D_angles_eq by assumption; [|reflexivity].
  symmetry. apply C39_inverse_is_transpose; auto. assert (R : rotation (angles_to_matrix (opt a) (opt b) (opt c))) by apply rotation_angles. destruct R as (A & B & _).
  assert (K : (-1) ^ k * (-1) ^ k = 1) by (rewrite <- Rpow_mult_distr; replace (-1 * -1) with 1 by ring; apply pow1).
  split.
  - set (r := angles_to_matrix _ _ _) in *. replace (mtr (mat_scale ((-1) ^ k) r)) with (mat_scale ((-1) ^ k) (mtr r)) by (apply mat_eq; reflexivity). rewrite scale_mul, K, scale_one. exact A.
  - set (r := angles_to_matrix _ _ _) in *. replace (mtr (mat_scale ((-1) ^ k) r)) with (mat_scale ((-1) ^ k) (mtr r)) by (apply mat_eq; reflexivity). rewrite scale_mul, K, scale_one. exact B.
Qed.
Theorem C39_transform_by_log_coordinates x v k : transform_by_log_coordinates x v k = transform_by_matrix x (mat_scale ((-1) ^ k) (log_coordinates_to_matrix v)).
Proof. rewrite by_matrix. unfold transform_by_log_coordinates, rep_of. f_equal. apply as_rep_eq. intros. now apply D_log_eq. Qed.
Theorem C39_transform_by_axis_angle x n t k : unit_vec n -> transform_by_axis_angle x n t k = transform_by_matrix x (mat_scale ((-1) ^ k) (axis_angle_to_matrix n t)).
Proof. intros U. rewrite by_matrix. unfold transform_by_axis_angle, transform_by_log_coordinates, rep_of. f_equal. apply as_rep_eq. intros ir i j Hi Hj. now apply (D_axis_angle_eq n t k ir i j U). Qed.
Theorem C39_transform_by_quaternion x q k : RotationProofs2.unit_quat q -> transform_by_quaternion x q k = transform_by_matrix x (mat_scale ((-1) ^ k) (quaternion_to_matrix q)).
Proof.
  intros U. unfold transform_by_quaternion. rewrite C39_transform_by_log_coordinates. f_equal. f_equal.
  destruct (RotationProps.C34_convert (RotationProps.RQuat q) RotationProps.KLog) as (_ & E & _); [exact U|discriminate|]. cbn [RotationProps.convert] in E. rewrite RotationProps.denotes_log in E. rewrite E.
  cbn [RotationProps.denotes]. symmetry. now apply RotationProofs2.quaternion_to_matrix_unit.
Qed.
(* acting by s and then by r is acting by r s; the identity does nothing; the transpose undoes *)
Theorem C39_transform_composition x r s : orthogonal3 r -> orthogonal3 s -> coherent x ->
  agree (let! y := transform_by_matrix x s in transform_by_matrix y r) (transform_by_matrix x (mmul r s)).
Proof.
  intros R1 R2 H. rewrite !by_matrix. replace (let! y := transform (rep_of s) x in transform_by_matrix y r) with (let! y := transform (rep_of s) x in transform (rep_of r) y) by (destruct (transform (rep_of s) x); cbn [bind]; [now rewrite by_matrix|reflexivity]).
  apply C23_composition; auto using as_rep_ok, rep_of_composes; apply as_rep_ok.
Qed.
Theorem C39_transform_identity x : coherent x -> yields (transform_by_matrix x mone) (irr x) (lead x) (arr x).
Proof. intros H. rewrite by_matrix. apply C23_identity; auto using rep_of_trivial. apply as_rep_ok. Qed.
Theorem C39_transform_undo x r : orthogonal3 r -> coherent x -> yields (let! y := transform_by_matrix x r in transform_by_matrix y (mtr r)) (irr x) (lead x) (arr x).
Proof.
  intros R1 H. pose proof (C39_transform_composition x (mtr r) r (o3_tr r R1) R1 H) as A. destruct R1 as [_ R2]. rewrite R2 in A. pose proof (C39_transform_identity x H) as I1.
  destruct A as (z & s & a & A1 & (y2 & Y1 & Y2 & Y3 & Y4 & Y5)). destruct I1 as (y1 & Z1 & Z2 & Z3 & Z4 & Z5). assert (y1 = y2) by congruence. subst y2. subst z s. rewrite <- Z2, <- Z3. eapply yields_ext; [|exact A1]. intros i Hi. cbv beta. rewrite <- Y5 by exact Hi. apply Z5. rewrite <- Z3. exact Hi.
Qed.
(* a quarter turn about z composed with the inversion, on a vector: (1, 2, 3) -> (2, -1, -3) *)
Example C39_nonvacuous : let r := Mx 0 1 0 (-1) 0 0 0 0 (-1) in orthogonal3 r /\ mat_det r = -1 /\
  exists y, transform_by_matrix (IA [(1%nat, Irrep 1 Odd)] [] (fun _ => [1; 2; 3]) None None) r = Ok y /\ arr y [] = [2; -1; -3].
Proof.
  cbv zeta. assert (O : orthogonal3 (Mx 0 1 0 (-1) 0 0 0 0 (-1))) by (split; apply mat_eq; cbn; ring). split; [exact O|]. split; [unfold mat_det; cbn; ring|].
  assert (C : coherent (IA [(1%nat, Irrep 1 Odd)] [] (fun _ => [1; 2; 3]) None None)) by (split; [intros i V; reflexivity|split; [apply flags_false|exact I]]).
  rewrite by_matrix. destruct (transform_act (rep_of (Mx 0 1 0 (-1) 0 0 0 0 (-1))) _ C (as_rep_ok _)) as (y & Y1 & Y2 & Y3 & Y4 & Y5). exists y. split; [exact Y1|]. rewrite Y5 by (first [reflexivity|constructor]).
  cbn [irr arr]. unfold act. cbn [flat flat_map repeat app acts firstn skipn fst snd]. rewrite app_nil_r. unfold rep_of.
  change (firstn (ir_dim (Irrep 1 Odd)) [1; 2; 3]) with [1; 2; 3]. rewrite matvec_as_rep by reflexivity.
  change (ir_dim (Irrep 1 Odd)) with 3%nat. unfold tab. cbn [seq map rsum]. assert (V : forall a b, (a < 3)%nat -> (b < 3)%nat -> D_from_matrix (Mx 0 1 0 (-1) 0 0 0 0 (-1)) (Irrep 1 Odd) a b = entry3 (Mx 0 1 0 (-1) 0 0 0 0 (-1)) a b) by (intros a b Ha Hb; exact (proj1 (C39_low_degrees _ _ _ O Ha Hb))). rewrite !V by lia. cbn. f_equal; [ring|f_equal; [ring|f_equal; ring]].
Qed.
