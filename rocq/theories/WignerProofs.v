(* The Wigner matrices are a representation of the rotation group, for every l *)
From Coq Require Import Reals ZArith Arith Bool Lia Lra Psatz.
From Coquelicot Require Import Series Hierarchy.
From Verif Require Import SumR CGModel CGProofs CGProofs5 CGProofs7 CGProofs8 CGProofs9 CGProofs10 CGProofs12.
From Verif Require RotationModel RotationProofs RotationProofs2 RotationProofs3 RotationProps JTables WignerModel.
Open Scope R_scope.
Arguments wigner_D_from_log_coordinates l%nat_scope (v0 v1 v2)%R_scope _%nat_scope _%nat_scope.
Arguments generators l%nat_scope a%nat_scope i%nat_scope j%nat_scope.

(* conjugation by an involution *)
Section Conj.
  Variables (d : nat) (J A B : rmat).
  Hypothesis JJ : forall i j, (i < d)%nat -> (j < d)%nat -> mmul d J J i j = mone i j.
  Hypothesis AB : forall i j, (i < d)%nat -> (j < d)%nat -> mmul d (mmul d J A) J i j = B i j.
  Lemma conj_mul M N i j : (i < d)%nat -> (j < d)%nat -> mmul d (mmul d (mmul d J M) J) (mmul d (mmul d J N) J) i j = mmul d (mmul d J (mmul d M N)) J i j.
  Proof.
    intros Hi Hj. rewrite (mmul_assoc d (mmul d J M) J). rewrite (mmul_ext d (mmul d J M) (mmul d J M) (mmul d J (mmul d (mmul d J N) J)) (mmul d N J)); auto.
    - rewrite !mmul_assoc. apply mmul_ext; auto. intros p Hp. rewrite mmul_assoc. reflexivity.
    - intros p Hp. rewrite <- mmul_assoc. rewrite (mmul_ext d (mmul d J (mmul d J N)) N J J); auto. intros q Hq. rewrite <- mmul_assoc.
      rewrite (mmul_ext d (mmul d J J) mone N N); auto. now apply mone_l.
  Qed.
  Lemma conj_pow n : forall i j, (i < d)%nat -> (j < d)%nat -> mpow d B n i j = mmul d (mmul d J (mpow d A n)) J i j.
  Proof.
    induction n as [|n IH]; intros i j Hi Hj.
    - cbn [mpow]. rewrite (mmul_ext d (mmul d J mone) J J J); auto. + symmetry; now apply JJ. + intros; now apply mone_r.
    - cbn [mpow]. rewrite <- conj_mul by assumption. apply mmul_ext; intros; [symmetry; now apply AB|now apply IH].
  Qed.
  Lemma conj_exp i j : (i < d)%nat -> (j < d)%nat -> mmul d (mmul d J (expm d A)) J i j = expm d B i j.
  Proof.
    intros Hi Hj. symmetry. apply is_series_unique.
    apply (is_series_ext (fun n => rsum d (fun k => rsum d (fun m => J i m * J k j * xp d A n m k)))).
    - intro n. unfold xp. rewrite conj_pow by assumption. unfold mmul, Rdiv. rewrite <- rsum_scal_r. apply rsum_ext. intros k Hk. rewrite <- !rsum_scal_r. apply rsum_ext. intros; ring.
    - replace (mmul d (mmul d J (expm d A)) J i j) with (rsum d (fun k => rsum d (fun m => J i m * J k j * expm d A m k))).
      + apply is_series_rsum. intros k Hk. apply is_series_rsum. intros m Hm. apply is_series_scalR. now apply expm_is.
      + unfold mmul. apply rsum_ext. intros k Hk. rewrite <- rsum_scal_r. apply rsum_ext. intros; ring.
  Qed.
End Conj.
Lemma rot_x_is_wD l b i j : (l < 12)%nat -> (i < 2 * l + 1)%nat -> (j < 2 * l + 1)%nat ->
  mmul (2 * l + 1) (mmul (2 * l + 1) (WignerModel.Jd l) (rot_y l b)) (WignerModel.Jd l) i j = wD l b 0 0 i j.
Proof.
  intros Hl Hi Hj. rewrite (mmul_ext _ _ (mmul (2 * l + 1) (WignerModel.Jd l) (wD l 0 b 0)) _ (WignerModel.Jd l)); auto.
  2: { intros p Hp. apply mmul_ext; auto. intros q Hq. now apply rot_y_is_wD. }
  rewrite !wD_expm. apply conj_exp; try assumption.
  - intros p q Hp Hq. apply (Jd_exact l p q Hl Hp Hq).
  - intros p q Hp Hq. destruct (Jd_exact l p q Hl Hp Hq) as [_ E]. change (Jd_table l) with (WignerModel.Jd l) in E. transitivity (b * generators l 0 p q); [|unfold gen3; ring]. rewrite <- E.
    unfold mmul. rewrite <- rsum_scal. apply rsum_ext. intros k Hk. rewrite <- !rsum_scal_r, <- rsum_scal. apply rsum_ext. intros m Hm. unfold gen3. ring.
Qed.
Lemma mod_trig x : cos (mod_2pi x) = cos x /\ sin (mod_2pi x) = sin x.
Proof.
  unfold mod_2pi. set (z := Int_part (x / (2 * PI))). clearbody z. assert (P : forall n y, cos (y - 2 * PI * IZR (Z.of_nat n)) = cos y /\ sin (y - 2 * PI * IZR (Z.of_nat n)) = sin y).
  { intros n y. rewrite <- INR_IZR_INZ. rewrite <- (cos_period (y - 2 * PI * INR n) n), <- (sin_period (y - 2 * PI * INR n) n). split; f_equal; ring. }
  destruct (Z_le_gt_dec 0 z) as [L|L]; [rewrite <- (Z2Nat.id z L); apply P|].
  destruct (P (Z.to_nat (- z)) (x - 2 * PI * IZR z)) as [E1 E2]. rewrite Z2Nat.id, opp_IZR in E1, E2 by lia. rewrite <- E1, <- E2. split; f_equal; ring.
Qed.
Lemma matrix_y_mod x : RotationModel.matrix_y (mod_2pi x) = RotationModel.matrix_y x.
Proof. destruct (mod_trig x) as [C S1]. unfold RotationModel.matrix_y. now rewrite C, S1. Qed.
Lemma matrix_x_mod x : RotationModel.matrix_x (mod_2pi x) = RotationModel.matrix_x x.
Proof. destruct (mod_trig x) as [C S1]. unfold RotationModel.matrix_x. now rewrite C, S1. Qed.
Lemma wD_y_mod l x i j : (i < 2 * l + 1)%nat -> (j < 2 * l + 1)%nat -> wD l 0 (mod_2pi x) 0 i j = wD l 0 x 0 i j.
Proof. revert l i j. apply wD_of_matrix. now rewrite !rodrigues_y, matrix_y_mod. Qed.
Lemma wD_x_mod l x i j : (i < 2 * l + 1)%nat -> (j < 2 * l + 1)%nat -> wD l (mod_2pi x) 0 0 i j = wD l x 0 0 i j.
Proof. revert l i j. apply wD_of_matrix. now rewrite !rodrigues_x, matrix_x_mod. Qed.

Definition opt (x : option R) : R := match x with Some x => x | None => 0 end.
Definition euler (l : nat) (a b c : R) : rmat := mmul (2 * l + 1) (mmul (2 * l + 1) (wD l 0 a 0) (wD l b 0 0)) (wD l 0 c 0).
Theorem wigner_D_is_euler l a b c i j : (i < 2 * l + 1)%nat -> (j < 2 * l + 1)%nat -> WignerModel.wigner_D l a b c i j = euler l (opt a) (opt b) (opt c) i j.
Proof.
  intros Hi Hj. unfold WignerModel.wigner_D, wigner_D_from_angles. cbv zeta. change (length JTables.Jd_tables) with 12%nat. set (d := (2 * l + 1)%nat) in *.
  set (rb := fun b => if (l <? 12)%nat then mmul d (mmul d (WignerModel.Jd l) (rot_y l b)) (WignerModel.Jd l) else expm d (fun i j => b * generators l 0 i j)).
  assert (RB : forall x p q, (p < d)%nat -> (q < d)%nat -> rb (mod_2pi x) p q = wD l x 0 0 p q).
  { intros x p q Hp Hq. rewrite <- wD_x_mod by assumption. unfold rb. destruct (Nat.ltb_spec l 12) as [L|L]; [now apply rot_x_is_wD|]. rewrite wD_expm. apply expm_ext; try assumption. intros. unfold gen3. ring. }
  assert (RY : forall x p q, (p < d)%nat -> (q < d)%nat -> rot_y l (mod_2pi x) p q = wD l 0 x 0 p q) by (intros; rewrite rot_y_is_wD by assumption; now apply wD_y_mod).
  assert (Z : forall p q, (p < d)%nat -> (q < d)%nat -> wD l 0 0 0 p q = mone p q) by (intros; now apply wD_zero).
  assert (ZL : forall m p q, (p < d)%nat -> (q < d)%nat -> mmul d (wD l 0 0 0) m p q = m p q) by (intros m p q Hp Hq; rewrite (mmul_ext d _ mone m m) by (intros; auto); now apply mone_l).
  assert (ZR : forall m p q, (p < d)%nat -> (q < d)%nat -> mmul d m (wD l 0 0 0) p q = m p q) by (intros m p q Hp Hq; rewrite (mmul_ext d m m _ mone) by (intros; auto); now apply mone_r).
  unfold euler. fold d.
  destruct a as [a|], b as [b|], c as [c|]; cbn [opt]; cbv beta iota; fold (rb (mod_2pi 0));
    repeat match goal with |- context [if (l <? 12)%nat then mmul d (mmul d _ (rot_y l ?b)) _ else _] => fold (rb b) end.
  - apply mmul_ext; intros; auto. apply mmul_ext; auto.
  - rewrite ZR by assumption. apply mmul_ext; intros; auto.
  - apply mmul_ext; intros; auto. rewrite ZR by assumption. auto.
  - rewrite !ZR by assumption. auto.
  - apply mmul_ext; intros; auto. rewrite ZL by assumption. auto.
  - rewrite ZR, ZL by assumption. auto.
  - rewrite (mmul_ext d (mmul d _ _) mone (wD l 0 c 0) (wD l 0 c 0)) by (intros; auto; rewrite ZL by assumption; auto). rewrite mone_l by assumption. auto.
  - rewrite !ZR by assumption. symmetry. auto.
Qed.
(* the representation as a function of the rotation matrix *)
Definition W (r : RotationModel.mat) (l : nat) : rmat := let '(a, b, c) := RotationModel.matrix_to_angles r in euler l a b c.
Lemma wfam_euler a b c : wfam (fun l => euler l a b c).
Proof. apply wfam_mul; [apply wfam_mul|]; apply wfam_wD. Qed.
Lemma euler_l1 a b c i j : (i < 3)%nat -> (j < 3)%nat -> euler 1 a b c i j = entry3 (RotationModel.angles_to_matrix a b c) i j.
Proof.
  intros Hi Hj. unfold euler, RotationModel.angles_to_matrix. change (2 * 1 + 1)%nat with 3%nat. rewrite entry3_mul by assumption. apply mmul_ext; intros p Hp.
  - rewrite entry3_mul by assumption. apply mmul_ext; intros q Hq; rewrite wD_l1, ?rodrigues_y, ?rodrigues_x by assumption; reflexivity.
  - rewrite wD_l1, rodrigues_y by assumption. reflexivity.
Qed.
Lemma wfam_W r : wfam (W r).
Proof. unfold W. destruct (RotationModel.matrix_to_angles r) as [[a b] c]. apply wfam_euler. Qed.
Lemma W_l1 r i j : RotationProofs.rotation r -> (i < 3)%nat -> (j < 3)%nat -> W r 1 i j = entry3 r i j.
Proof. intros H Hi Hj. unfold W. generalize (RotationProofs2.matrix_to_angles_rotation r H). destruct (RotationModel.matrix_to_angles r) as [[a b] c]. intros [E _]. rewrite euler_l1 by assumption. now rewrite E. Qed.
Theorem W_mul r s l i j : RotationProofs.rotation r -> RotationProofs.rotation s -> (i < 2 * l + 1)%nat -> (j < 2 * l + 1)%nat -> W (RotationModel.mmul r s) l i j = mmul (2 * l + 1) (W r l) (W s l) i j.
Proof.
  intros Hr Hs. revert l i j. apply (wfam_unique (W (RotationModel.mmul r s)) (fun l => mmul (2 * l + 1) (W r l) (W s l))); [apply wfam_W|apply wfam_mul; apply wfam_W|].
  intros i j Hi Hj. rewrite W_l1 by (auto; now apply RotationProofs.rotation_mul). rewrite entry3_mul by assumption. apply mmul_ext; intros; rewrite W_l1; auto.
Qed.
Theorem W_angles a b c l i j : (i < 2 * l + 1)%nat -> (j < 2 * l + 1)%nat -> euler l a b c i j = W (RotationModel.angles_to_matrix a b c) l i j.
Proof. revert l i j. apply (wfam_unique (fun l => euler l a b c)); [apply wfam_euler|apply wfam_W|]. intros i j Hi Hj. rewrite euler_l1, W_l1; auto. apply RotationProofs.rotation_angles. Qed.
Theorem W_log v0 v1 v2 l i j : (i < 2 * l + 1)%nat -> (j < 2 * l + 1)%nat -> wD l v0 v1 v2 i j = W (RotationModel.log_coordinates_to_matrix (RotationModel.V v0 v1 v2)) l i j.
Proof.
  revert l i j. apply (wfam_unique (fun l => wD l v0 v1 v2)); [apply wfam_wD|apply wfam_W|]. intros i j Hi Hj. rewrite wD_l1, W_l1; auto.
  apply (proj1 (proj2 (proj2 (proj2 RotationProps.C34_proper_rotations)))).
Qed.
Theorem W_one l i j : (i < 2 * l + 1)%nat -> (j < 2 * l + 1)%nat -> W RotationModel.mone l i j = mone i j.
Proof.
  intros Hi Hj. rewrite <- (wD_zero l i j) by assumption. rewrite W_log by assumption. now rewrite RotationProofs3.log_matrix_zero.
Qed.
Theorem W_orthogonal r l i j : RotationProofs.rotation r -> (i < 2 * l + 1)%nat -> (j < 2 * l + 1)%nat ->
  W (RotationModel.mtr r) l i j = W r l j i /\ rsum (2 * l + 1) (fun k => W r l i k * W r l j k) = mone i j /\ rsum (2 * l + 1) (fun k => W r l k i * W r l k j) = mone i j.
Proof.
  intros H Hi Hj.
  assert (T : forall p q, (p < 2 * l + 1)%nat -> (q < 2 * l + 1)%nat -> W (RotationModel.mtr r) l p q = W r l q p).
  { intros p q Hp Hq. generalize (RotationProofs2.matrix_to_angles_rotation r H). destruct (RotationModel.matrix_to_angles r) as [[a b] c] eqn:E. intros [A _]. rewrite <- A.
    assert (Rv : RotationModel.mtr (RotationModel.angles_to_matrix a b c) = RotationModel.angles_to_matrix (- c) (- b) (- a)) by (symmetry; exact (proj1 RotationProps.C35_inverse a b c)).
    rewrite Rv, <- !W_angles by assumption. unfold euler. rewrite mmul_assoc. unfold mmul at 1 3. apply rsum_ext. intros k Hk. rewrite Rmult_comm. f_equal.
    - unfold mmul. apply rsum_ext. intros m Hm. rewrite Rmult_comm. f_equal; rewrite (wD_transpose l) by assumption; f_equal; ring.
    - rewrite (wD_transpose l) by assumption. f_equal; ring. }
  assert (E1 : RotationModel.mmul r (RotationModel.mtr r) = RotationModel.mone) by apply H. assert (E2 : RotationModel.mmul (RotationModel.mtr r) r = RotationModel.mone) by apply H.
  assert (H' := RotationProofs.rotation_mtr r H).
  split; [now apply T|]. split; rewrite <- (W_one l i j) by assumption; [rewrite <- E1|rewrite <- E2]; rewrite W_mul by assumption; apply rsum_ext; intros k Hk; rewrite T by assumption; ring.
Qed.
