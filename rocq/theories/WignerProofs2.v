(* The matrices returned by Irrep.D_from_... form a representation of O(3) *)
From Coq Require Import Reals ZArith Arith Bool Lia Lra Psatz List.
From Verif Require Import PyBase IrrepsModel IrrepsProofs ArrayModel LeadModel SumR CGModel CGProofs5 CGProofs6 CGProofs7 CGProofs8 CGProofs10 WignerModel WignerProofs EquivProofs EquivProofs2 LinearProofs TPModel TPProofs TPProps2 EntryProofs.
From Verif Require RotationModel RotationProofs RotationProofs2 RotationProofs3 RotationProps.
Import RotationModel RotationProofs ListNotations.
Open Scope R_scope.
Notation dmul := CGModel.mmul.
Notation done := CGModel.mone.
Definition orthogonal3 (r : mat) : Prop := mmul r (mtr r) = mone /\ mmul (mtr r) r = mone.
Definition is_rotation (r : mat) : Prop := orthogonal3 r /\ mat_det r = 1.

Lemma det_same r : mat_det r = det r. Proof. destruct r; unfold mat_det, det; cbn; ring. Qed.
Lemma is_rotation_iff r : is_rotation r <-> rotation r.
Proof. unfold is_rotation, orthogonal3, rotation. change mat_det with det. tauto. Qed.
Lemma det_scale r : det (mat_scale (-1) r) = - det r. Proof. destruct r; unfold det; cbn; ring. Qed.
Lemma scale_one r : mat_scale 1 r = r. Proof. apply mat_eq; cbn; ring. Qed.
Lemma o3_det r : orthogonal3 r -> det r = 1 \/ det r = -1.
Proof. intros [H _]. assert (E : det r * det r = 1) by (rewrite <- (det_mtr r) at 2; rewrite <- det_mmul, H; apply det_one). assert ((det r - 1) * (det r + 1) = 0) by lra. apply Rmult_integral in H0. lra. Qed.
Definition sg (r : mat) : bool := Rltb (mat_det r) 0.
Definition proper (r : mat) : mat := mat_scale (if sg r then -1 else 1) r.
Lemma sg_spec r : orthogonal3 r -> det r = if sg r then -1 else 1.
Proof. intro H. unfold sg, Rltb. change (mat_det r) with (det r). destruct (o3_det r H) as [->| ->]; destruct (Rlt_dec _ _); lra. Qed.
Lemma scale_mul a b r s : mmul (mat_scale a r) (mat_scale b s) = mat_scale (a * b) (mmul r s).
Proof. apply mat_eq; cbn; ring. Qed.
Lemma proper_rotation r : orthogonal3 r -> rotation (proper r).
Proof.
  intro H. generalize (sg_spec r H). unfold proper. destruct H as [H1 H2]. destruct (sg r); intro D.
  - repeat split; [transitivity (mmul (mat_scale (-1) r) (mat_scale (-1) (mtr r))); [f_equal; apply mat_eq; cbn; ring|]|transitivity (mmul (mat_scale (-1) (mtr r)) (mat_scale (-1) r)); [f_equal; apply mat_eq; cbn; ring|]|rewrite det_scale, D; ring];
      rewrite scale_mul, ?H1, ?H2; apply mat_eq; cbn; ring.
  - rewrite scale_one. repeat split; auto.
Qed.
Lemma o3_mul r s : orthogonal3 r -> orthogonal3 s -> orthogonal3 (mmul r s).
Proof.
  intros [A1 A2] [B1 B2]. assert (T : mtr (mmul r s) = mmul (mtr s) (mtr r)) by (apply mat_eq; cbn; ring).
  assert (As : forall a b c, mmul (mmul a b) c = mmul a (mmul b c)) by (intros; apply mat_eq; cbn; ring). assert (I1 : forall a, mmul mone a = a) by (intro; apply mat_eq; cbn; ring).
  split; rewrite T, As.
  - rewrite <- (As s), B1, I1. exact A1.
  - rewrite <- (As (mtr r)), A2, I1. exact B2.
Qed.
Lemma o3_tr r : orthogonal3 r -> orthogonal3 (mtr r).
Proof. intros [A1 A2]. split; assumption. Qed.
Lemma o3_rotation r : rotation r -> orthogonal3 r. Proof. intros (A & B & _). split; assumption. Qed.
Lemma o3_one : orthogonal3 mone. Proof. apply o3_rotation, rotation_one. Qed.
Lemma sg_mul r s : orthogonal3 r -> orthogonal3 s -> sg (mmul r s) = xorb (sg r) (sg s).
Proof. intros Hr Hs. generalize (sg_spec _ (o3_mul r s Hr Hs)) (sg_spec r Hr) (sg_spec s Hs). rewrite det_mmul. intros E E1 E2. rewrite E1, E2 in E. destruct (sg (mmul r s)), (sg r), (sg s); cbn; try reflexivity; lra. Qed.
Lemma sg_tr r : sg (mtr r) = sg r. Proof. unfold sg. change mat_det with det. now rewrite det_mtr. Qed.
Lemma sg_rotation r : rotation r -> sg r = false.
Proof. intros (_ & _ & D). unfold sg, Rltb. change mat_det with det. rewrite D. destruct (Rlt_dec 1 0); lra. Qed.
Lemma proper_mul r s : orthogonal3 r -> orthogonal3 s -> proper (mmul r s) = mmul (proper r) (proper s).
Proof. intros Hr Hs. unfold proper. rewrite sg_mul, scale_mul by assumption. f_equal. destruct (sg r), (sg s); cbn; ring. Qed.
Lemma proper_tr r : proper (mtr r) = mtr (proper r). Proof. unfold proper. rewrite sg_tr. apply mat_eq; cbn; ring. Qed.
Lemma proper_of_rotation r : rotation r -> proper r = r. Proof. intro H. unfold proper. rewrite sg_rotation by assumption. apply scale_one. Qed.

Definition chi (r : mat) (p : parity) : R := if sg r then pR p else 1.
Lemma D_matrix_eq r ir i j : (i < ir_dim ir)%nat -> (j < ir_dim ir)%nat -> D_from_matrix r ir i j = W (proper r) (ir_l ir) i j * chi r (ir_p ir).
Proof.
  intros Hi Hj. unfold D_from_matrix. cbv zeta. fold (sg r). change (mat_scale (if sg r then -1 else 1) r) with (proper r). unfold W. destruct (matrix_to_angles (proper r)) as [[a b] c].
  unfold D_from_angles. rewrite wigner_D_is_euler by assumption. cbn [opt]. unfold chi. destruct (sg r); cbn [pow]; ring.
Qed.
Lemma chi_mul r s p : orthogonal3 r -> orthogonal3 s -> chi (mmul r s) p = chi r p * chi s p.
Proof. intros Hr Hs. unfold chi. rewrite sg_mul by assumption. destruct (sg r), (sg s), p; cbn; ring. Qed.
Lemma chi_sq r p : chi r p * chi r p = 1. Proof. unfold chi. destruct (sg r), p; cbn; ring. Qed.
Theorem D_matrix_mul r s ir i j : orthogonal3 r -> orthogonal3 s -> (i < ir_dim ir)%nat -> (j < ir_dim ir)%nat ->
  D_from_matrix (mmul r s) ir i j = rsum (ir_dim ir) (fun k => D_from_matrix r ir i k * D_from_matrix s ir k j).
Proof.
  intros Hr Hs Hi Hj. rewrite D_matrix_eq by assumption. rewrite proper_mul, W_mul, chi_mul by (auto using proper_rotation). unfold dmul. rewrite <- rsum_scal_r. apply rsum_ext. intros k Hk. rewrite !D_matrix_eq by assumption. ring.
Qed.
Theorem D_matrix_one ir i j : (i < ir_dim ir)%nat -> (j < ir_dim ir)%nat -> D_from_matrix mone ir i j = done i j.
Proof. intros Hi Hj. rewrite D_matrix_eq by assumption. rewrite proper_of_rotation by apply rotation_one. rewrite W_one by assumption. unfold chi. rewrite sg_rotation by apply rotation_one. ring. Qed.
Theorem D_matrix_orth r ir i j : orthogonal3 r -> (i < ir_dim ir)%nat -> (j < ir_dim ir)%nat ->
  D_from_matrix (mtr r) ir i j = D_from_matrix r ir j i /\ rsum (ir_dim ir) (fun k => D_from_matrix r ir i k * D_from_matrix r ir j k) = done i j /\ rsum (ir_dim ir) (fun k => D_from_matrix r ir k i * D_from_matrix r ir k j) = done i j.
Proof.
  intros H Hi Hj. destruct (W_orthogonal (proper r) (ir_l ir) i j (proper_rotation r H) Hi Hj) as (T & O1 & O2). split; [|split].
  - rewrite !D_matrix_eq by assumption. rewrite proper_tr, T. unfold chi. now rewrite sg_tr.
  - rewrite <- O1. apply rsum_ext. intros k Hk. rewrite !D_matrix_eq by assumption. transitivity (W (proper r) (ir_l ir) i k * W (proper r) (ir_l ir) j k * (chi r (ir_p ir) * chi r (ir_p ir))); [ring|]. rewrite chi_sq. ring.
  - rewrite <- O2. apply rsum_ext. intros k Hk. rewrite !D_matrix_eq by assumption. transitivity (W (proper r) (ir_l ir) k i * W (proper r) (ir_l ir) k j * (chi r (ir_p ir) * chi r (ir_p ir))); [ring|]. rewrite chi_sq. ring.
Qed.
(* vectors transform by the matrix itself, pseudovectors by det times the matrix *)
Theorem D_matrix_vector r i j : orthogonal3 r -> (i < 3)%nat -> (j < 3)%nat -> D_from_matrix r (Irrep 1 Odd) i j = entry3 r i j /\ D_from_matrix r (Irrep 1 Even) i j = mat_det r * entry3 r i j.
Proof.
  intros H Hi Hj. rewrite !D_matrix_eq by assumption. cbn [ir_l ir_p]. rewrite W_l1 by (auto using proper_rotation). change mat_det with det. rewrite (sg_spec r H). unfold chi, proper. destruct (sg r); cbn [pR].
  - split; three i; three j; cbn [entry3 mat_scale m00 m01 m02 m10 m11 m12 m20 m21 m22]; ring.
  - rewrite scale_one. split; ring.
Qed.
(* the k-th power of the parity *)
Definition invert (k : nat) : mat := mat_scale ((-1) ^ k) mone.
Lemma D_with_parity r k ir i j : rotation r -> (i < ir_dim ir)%nat -> (j < ir_dim ir)%nat -> W r (ir_l ir) i j * pR (ir_p ir) ^ k = D_from_matrix (mat_scale ((-1) ^ k) r) ir i j.
Proof.
  intros H Hi Hj. rewrite D_matrix_eq by assumption.
  assert (P : (-1) ^ k = 1 /\ (forall p, pR p ^ k = 1) \/ (-1) ^ k = -1 /\ (forall p, pR p ^ k = pR p)).
  { induction k as [|k [[E F]|[E F]]]; [left; split; reflexivity| |].
    - right. cbn [pow]. rewrite E. split; [ring|]. intro p. rewrite F. destruct p; cbn; ring.
    - left. cbn [pow]. rewrite E. split; [ring|]. intro p. rewrite F. destruct p; cbn; ring. }
  destruct P as [[-> F]|[-> F]]; rewrite F.
  - rewrite scale_one, proper_of_rotation by assumption. unfold chi. now rewrite sg_rotation.
  - assert (S1 : sg (mat_scale (-1) r) = true). { unfold sg, Rltb. change mat_det with det. rewrite det_scale. destruct H as (_ & _ & ->). destruct (Rlt_dec _ _); [reflexivity|lra]. }
    unfold chi, proper. rewrite S1. replace (mat_scale (-1) (mat_scale (-1) r)) with r by (apply mat_eq; cbn; ring). reflexivity.
Qed.
Theorem D_angles_eq a b c k ir i j : (i < ir_dim ir)%nat -> (j < ir_dim ir)%nat ->
  D_from_angles a b c k ir i j = D_from_matrix (mat_scale ((-1) ^ k) (angles_to_matrix (opt a) (opt b) (opt c))) ir i j.
Proof. intros Hi Hj. rewrite <- D_with_parity by (auto; apply rotation_angles). rewrite <- W_angles by assumption. unfold D_from_angles. now rewrite wigner_D_is_euler. Qed.
Theorem D_log_eq v k ir i j : (i < ir_dim ir)%nat -> (j < ir_dim ir)%nat ->
  D_from_log_coordinates v k ir i j = D_from_matrix (mat_scale ((-1) ^ k) (log_coordinates_to_matrix v)) ir i j.
Proof.
  intros Hi Hj. destruct v as [v0 v1 v2]. rewrite <- D_with_parity by (auto; apply (proj1 (proj2 (proj2 (proj2 RotationProps.C34_proper_rotations))))). rewrite <- W_log by assumption. reflexivity.
Qed.
Theorem D_quaternion_eq q k ir i j : RotationProofs2.unit_quat q -> (i < ir_dim ir)%nat -> (j < ir_dim ir)%nat ->
  D_from_quaternion q k ir i j = D_from_matrix (mat_scale ((-1) ^ k) (quaternion_to_matrix q)) ir i j.
Proof.
  intros U Hi Hj. unfold D_from_quaternion. assert (H : rotation (quaternion_to_matrix q)) by (apply (proj1 (proj2 RotationProps.C34_proper_rotations)); exact U).
  unfold quaternion_to_angles. generalize (RotationProofs2.matrix_to_angles_rotation _ H). destruct (matrix_to_angles (quaternion_to_matrix q)) as [[a b] c]. intros [E _]. rewrite D_angles_eq by assumption. cbn [opt]. now rewrite E.
Qed.
Theorem D_axis_angle_eq n t k ir i j : RotationProofs.unit_vec n -> (i < ir_dim ir)%nat -> (j < ir_dim ir)%nat ->
  D_from_axis_angle n t k ir i j = D_from_matrix (mat_scale ((-1) ^ k) (axis_angle_to_matrix n t)) ir i j.
Proof.
  intros U Hi Hj. unfold D_from_axis_angle. rewrite D_log_eq by assumption. do 2 f_equal.
  destruct (RotationProps.C34_convert (RotationProps.RAxisAngle n t) RotationProps.KLog) as (_ & E & _); [left; exact U|discriminate|]. cbn [RotationProps.convert] in E. rewrite RotationProps.denotes_log in E. rewrite E.
  symmetry. apply RotationProps.wf_axis. left; exact U.
Qed.

(* ---- as the matrices used by the array operations ---- *)
Lemma as_rep_ok D : rep_ok (as_rep D).
Proof. intro ir. apply tab2_wf. Qed.
Lemma as_rep_at D ir i j : (i < ir_dim ir)%nat -> (j < ir_dim ir)%nat -> mat_at (as_rep D ir) i j = D ir i j.
Proof. intros Hi Hj. unfold mat_at, as_rep, tab2. rewrite nth_tab by assumption. now rewrite nth_tab. Qed.
Lemma matvec_as_rep D ir v : length v = ir_dim ir -> matvec (as_rep D ir) v = tab (ir_dim ir) (fun a => rsum (ir_dim ir) (fun b => D ir a b * nth b v 0)).
Proof.
  intro L. destruct (as_rep_ok D ir) as [L1 L2]. rewrite (matvec_tab _ _ _ L1 L2 L). apply tab_ext. intros a Ha. apply rsum_ext. intros b Hb. now rewrite as_rep_at.
Qed.
Lemma as_rep_ext D E : (forall ir i j, (i < ir_dim ir)%nat -> (j < ir_dim ir)%nat -> D ir i j = E ir i j) -> forall ir, as_rep D ir = as_rep E ir.
Proof. intros H ir. apply tab2_ext. intros. now apply H. Qed.
Definition rep_of (r : mat) : rep := as_rep (D_from_matrix r).
Lemma rep_of_trivial : acts_trivially (rep_of mone).
Proof.
  intros ir v L. unfold rep_of. rewrite matvec_as_rep by assumption. transitivity (tab (ir_dim ir) (fun a => nth a v 0)); [|rewrite <- L; apply tab_nth]. apply tab_ext. intros a Ha.
  rewrite (rsum_ext _ _ (fun b => (if (a =? b)%nat then 1 else 0) * nth b v 0)) by (intros b Hb; rewrite D_matrix_one by assumption; reflexivity). now rewrite (rsum_delta_r _ a (fun b => nth b v 0)).
Qed.
Lemma rep_of_composes r s : orthogonal3 r -> orthogonal3 s -> composes (rep_of r) (rep_of s) (rep_of (mmul r s)).
Proof.
  intros Hr Hs ir v L. unfold rep_of. rewrite (matvec_as_rep (D_from_matrix s)), (matvec_as_rep (D_from_matrix (mmul r s))) by assumption. rewrite matvec_as_rep by apply tab_length. apply tab_ext. intros a Ha.
  rewrite (rsum_ext _ _ (fun b => rsum (ir_dim ir) (fun c => D_from_matrix r ir a b * D_from_matrix s ir b c * nth c v 0))).
  2: { intros b Hb. rewrite nth_tab by assumption. rewrite <- rsum_scal. apply rsum_ext. intros; ring. }
  rewrite rsum_swap. apply rsum_ext. intros c Hc. rewrite D_matrix_mul by assumption. now rewrite <- rsum_scal_r.
Qed.
Lemma rep_of_orthogonal r : orthogonal3 r -> orthogonal_rep (rep_of r).
Proof.
  intros H ir u v Lu Lv. unfold rep_of. rewrite !matvec_as_rep by assumption. rewrite (dotR_rsum _ _ (ir_dim ir)) by apply tab_length. rewrite (dotR_rsum u v (ir_dim ir)) by assumption.
  rewrite (rsum_ext _ _ (fun k => rsum (ir_dim ir) (fun b => rsum (ir_dim ir) (fun c => nth b u 0 * nth c v 0 * (D_from_matrix r ir k b * D_from_matrix r ir k c))))).
  2: { intros k Hk. rewrite !nth_tab by assumption. rewrite <- rsum_scal_r. apply rsum_ext. intros b Hb. rewrite <- rsum_scal. apply rsum_ext. intros; ring. }
  rewrite rsum_swap. apply rsum_ext. intros b Hb. rewrite rsum_swap.
  rewrite (rsum_ext _ _ (fun c => (if (b =? c)%nat then 1 else 0) * (nth b u 0 * nth c v 0))).
  - now rewrite (rsum_delta_r _ b (fun c => nth b u 0 * nth c v 0)).
  - intros c Hc. rewrite rsum_scal. rewrite (proj2 (proj2 (D_matrix_orth r ir b c H Hb Hc))). unfold done. ring.
Qed.
Lemma rep_of_scalar r : orthogonal3 r -> scalar_trivial (rep_of r).
Proof.
  intro H. unfold scalar_trivial, rep_of, as_rep. cbn [ir_dim ir_l Nat.mul Nat.add tab2 tab seq map]. rewrite D_matrix_eq by (cbn; lia). cbn [ir_l ir_p]. destruct (wfam_W (proper r)) as [E _]. rewrite E. unfold chi. destruct (sg r); cbn [pR]; do 2 f_equal; ring.
Qed.
Lemma pR_mul p q : pR (pmul p q) = pR p * pR q. Proof. destruct p, q; cbn; ring. Qed.
Lemma rep_of_intertwines r : orthogonal3 r -> intertwines clebsch_gordan (rep_of r).
Proof.
  intros H a b c i j k Hc Hi Hj Hk. assert (P : ir_p c = pmul (ir_p a) (ir_p b)). { apply ir_mul_in in Hc. tauto. }
  assert (X : chi r (ir_p c) = chi r (ir_p a) * chi r (ir_p b)) by (unfold chi; rewrite P, pR_mul; destruct (sg r); ring).
  unfold rep_of. rewrite (rsum_ext _ _ (fun k' => W (proper r) (ir_l c) k k' * clebsch_gordan (ir_l a) (ir_l b) (ir_l c) i j k' * chi r (ir_p c))) by (intros; rewrite as_rep_at, D_matrix_eq by assumption; ring).
  rewrite rsum_scal_r. pose proof (proj2 (wfam_W (proper r)) (ir_l a) (ir_l b) (ir_l c) k i j Hi Hj Hk) as F. change (2 * ir_l a + 1)%nat with (ir_dim a) in F. change (2 * ir_l b + 1)%nat with (ir_dim b) in F. change (2 * ir_l c + 1)%nat with (ir_dim c) in F. rewrite F. rewrite <- rsum_scal_r. apply rsum_ext. intros i' Hi'. rewrite <- rsum_scal_r. apply rsum_ext. intros j' Hj'. rewrite !as_rep_at, !D_matrix_eq by assumption. rewrite X. ring.
Qed.
Lemma cg_scalar_coupling : scalar_coupling clebsch_gordan.
Proof. exact cg_scalar_right. Qed.
