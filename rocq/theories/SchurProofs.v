(* Schur's lemma for the irreps of O(3): a matrix that commutes with the action of every rotation and inversion is zero between two different
   irreps, and a multiple of the identity from an irrep to itself. *)
From Coq Require Import Reals Lra Lia List Arith.
From Coquelicot Require Import Coquelicot.
From Verif Require Import PyBase PermModel IrrepsModel IrrepsProofs IrrepsProofs2 SumR RotationModel RotationProofs CGModel CGProofs5 CGProofs6 CGProofs7 CGProofs8 CGProofs10 WignerModel WignerProofs WignerProofs2 WignerProps WignerProps2 CGComplete.
Import ListNotations.
Open Scope R_scope.

Lemma mpow_scal d t a n : forall i j, (i < d)%nat -> (j < d)%nat -> CGModel.mpow d (fun i j => t * a i j) n i j = t ^ n * CGModel.mpow d a n i j.
Proof.
  induction n as [|n IH]; intros i j Hi Hj; cbn [CGModel.mpow pow]; [ring|]. unfold CGModel.mmul. rewrite <- rsum_scal. apply rsum_ext. intros k Hk. rewrite IH by assumption. ring.
Qed.
Lemma disk_radius c : CV_disk c 1 -> Rbar_lt 0 (CV_radius c).
Proof.
  intros H. unfold CV_radius. destruct (Lub_Rbar_correct (CV_disk c)) as [U _]. apply Rbar_lt_le_trans with (Finite 1); [exact Rlt_0_1|]. apply U, H.
Qed.
(* a vector fixed by all the exponentials of a matrix is in its kernel *)
Lemma fixed_kernel d a (v : nat -> R) : (forall t k, (k < d)%nat -> rsum d (fun m => CGModel.expm d (fun i j => t * a i j) k m * v m) = v k) -> forall k, (k < d)%nat -> rsum d (fun m => a k m * v m) = 0.
Proof.
  intros H k Hk. set (c := fun n => rsum d (fun m => CGModel.mpow d a n k m * v m) / INR (fact n)). set (c' := fun n => match n with O => v k | S _ => 0 end).
  assert (E : forall t, PSeries c t = v k).
  { intros t. rewrite <- (H t k Hk). symmetry. rewrite <- (is_series_unique _ _ (is_series_rsum d (fun m n => xp d (fun i j => t * a i j) n k m * v m) (fun m => CGModel.expm d (fun i j => t * a i j) k m * v m)
      ltac:(intros m Hm; apply (is_series_ext (fun n => v m * xp d (fun i j => t * a i j) n k m)); [intros n; idtac; match goal with |- ?a = ?b => change (@eq R a b) end; ring|]; rewrite (Rmult_comm _ (v m)); apply is_series_scalR, expm_is; assumption))).
    unfold PSeries. apply Series_ext. intros n. unfold c, xp. rewrite (rsum_ext d _ (fun m => CGModel.mpow d a n k m * v m * (t ^ n / INR (fact n)))).
    - rewrite rsum_scal_r. unfold Rdiv. ring.
    - intros m Hm. rewrite mpow_scal by assumption. unfold Rdiv. ring. }
  assert (E' : forall t, PSeries c' t = v k).
  { intros t. unfold PSeries. apply is_series_unique. apply (is_series_ext (fun n => match n with O => v k | S _ => 0 end)). { intros [|n]; unfold c'; cbn [pow]; match goal with |- ?a = ?b => change (@eq R a b) end; ring. }
    apply (is_series_ext (fun n => match n with O => v k | S _ => 0 end)); [reflexivity|]. change (is_lim_seq (sum_n (fun n => match n with O => v k | S _ => 0 end)) (v k)).
    apply is_lim_seq_ext with (fun _ => v k); [|apply is_lim_seq_const]. intros n. induction n as [|n IHn]; [rewrite sum_O; reflexivity|]. rewrite sum_Sn, <- IHn. unfold plus. cbn. match goal with |- ?a = ?b => change (@eq R a b) end. ring. }
  assert (C1 : c 1%nat = c' 1%nat).
  { apply PSeries_ext_recip.
    - apply disk_radius. unfold CV_disk. apply (ex_series_le (fun n => Rabs (c n * 1 ^ n)) (fun n => rsum d (fun m => Rabs (v m) * Rabs (xp d a n k m)))).
      + intros n. unfold norm. cbn. unfold abs. cbn. rewrite Rabs_Rabsolu, pow1, Rmult_1_r. unfold c. unfold Rdiv. rewrite <- rsum_scal_r. eapply Rle_trans; [apply rsum_abs|]. apply rsum_le. intros m Hm. right. rewrite <- Rabs_mult. f_equal. unfold xp, Rdiv. ring.
      + exists (rsum d (fun m => Rabs (v m) * Series (fun n => Rabs (xp d a n k m)))). apply (is_series_rsum d (fun m n => Rabs (v m) * Rabs (xp d a n k m))). intros m Hm. apply is_series_scalR. apply Series_correct, xp_abs_ex; assumption.
    - apply disk_radius. unfold CV_disk. exists (Rabs (v k)). apply (is_series_ext (fun n => match n with O => Rabs (v k) | S _ => 0 end)); [intros [|n]; unfold c'; rewrite pow1, Rmult_1_r; [reflexivity|rewrite Rabs_R0; reflexivity]|].
      change (is_lim_seq (sum_n (fun n => match n with O => Rabs (v k) | S _ => 0 end)) (Rabs (v k))). apply is_lim_seq_ext with (fun _ => Rabs (v k)); [|apply is_lim_seq_const]. intros n. induction n as [|n IHn]; [rewrite sum_O; reflexivity|]. rewrite sum_Sn, <- IHn. unfold plus. cbn. match goal with |- ?a = ?b => change (@eq R a b) end. ring.
    - exists (mkposreal 1 Rlt_0_1). intros t _. rewrite E, E'. reflexivity. }
  unfold c, c' in C1. cbn [fact] in C1. unfold Rdiv in C1. cbn [INR Nat.mul Nat.add] in C1. rewrite Rinv_1, Rmult_1_r in C1. rewrite <- C1. apply rsum_ext. intros m Hm. f_equal. cbn [CGModel.mpow]. symmetry. apply mone_r, Hm.
Qed.
(* no vector of a positive degree is fixed by all rotations *)
Lemma invariant_vector l (v : nat -> R) : (0 < l)%nat -> (forall v0 v1 v2 k, (k < 2 * l + 1)%nat -> rsum (2 * l + 1) (fun m => wD l v0 v1 v2 k m * v m) = v k) -> forall k, (k < 2 * l + 1)%nat -> v k = 0.
Proof.
  intros L H k Hk. set (d := (2 * l + 1)%nat) in *.
  assert (K : forall x, (x < 3)%nat -> forall i, (i < d)%nat -> rsum d (fun m => generators l x i m * v m) = 0).
  { intros x Hx. apply fixed_kernel. intros t i Hi.
    rewrite <- (H (if (x =? 0)%nat then t else 0) (if (x =? 1)%nat then t else 0) (if (x =? 2)%nat then t else 0) i Hi). apply rsum_ext. intros m Hm. f_equal. rewrite wD_expm. apply expm_ext; try assumption. intros p q _ _. unfold gen3. destruct x as [|[|[|x]]]; [..|lia]; cbn [Nat.eqb]; ring. }
  assert (S : rsum d (fun m => (dmul d (generators l 0) (generators l 0) k m + dmul d (generators l 1) (generators l 1) k m + dmul d (generators l 2) (generators l 2) k m) * v m) = - (INR l * (INR l + 1)) * v k).
  { rewrite (rsum_ext d _ (fun m => (if (k =? m)%nat then 1 else 0) * (- (INR l * (INR l + 1)) * v m))).
    - rewrite (rsum_delta_r d k (fun m => - (INR l * (INR l + 1)) * v m)) by exact Hk. reflexivity.
    - intros m Hm. pose proof (C38_casimir l k m Hk Hm) as Q. cbv zeta beta in Q. fold d in Q. rewrite Q. unfold CGModel.mone. ring. }
  assert (Z : forall x, (x < 3)%nat -> rsum d (fun m => dmul d (generators l x) (generators l x) k m * v m) = 0).
  { intros x Hx. unfold CGModel.mmul. transitivity (rsum d (fun p => generators l x k p * rsum d (fun m => generators l x p m * v m))).
    - rewrite (rsum_ext d _ (fun m => rsum d (fun p => generators l x k p * (generators l x p m * v m)))) by (intros; rewrite <- rsum_scal_r; apply rsum_ext; intros; ring). rewrite rsum_swap. apply rsum_ext. intros p Hp. apply rsum_scal.
    - apply rsum_zero. intros p Hp. rewrite K by assumption. ring. }
  rewrite (rsum_ext d _ (fun m => dmul d (generators l 0) (generators l 0) k m * v m + dmul d (generators l 1) (generators l 1) k m * v m + dmul d (generators l 2) (generators l 2) k m * v m)) in S by (intros; ring). rewrite !rsum_plus, !Z in S by lia.
  assert (P : INR l * (INR l + 1) * v k = 0) by lra. apply lt_INR in L. cbn [INR] in L. apply Rmult_integral in P as [P|P]; [|exact P]. apply Rmult_integral in P as [P|P]; lra.
Qed.

(* M commutes with the two actions *)
Definition commutes (a b : irrep) (M : nat -> nat -> R) : Prop := forall r i j, orthogonal3 r -> (i < ir_dim a)%nat -> (j < ir_dim b)%nat ->
  rsum (ir_dim a) (fun k => D_from_matrix r a i k * M k j) = rsum (ir_dim b) (fun k => M i k * D_from_matrix r b k j).

Lemma D_of_log v0 v1 v2 ir i j : (i < ir_dim ir)%nat -> (j < ir_dim ir)%nat -> D_from_matrix (log_coordinates_to_matrix (RotationModel.V v0 v1 v2)) ir i j = wD (ir_l ir) v0 v1 v2 i j.
Proof.
  intros Hi Hj. pose proof (D_log_eq (RotationModel.V v0 v1 v2) 0 ir i j Hi Hj) as E. cbn [pow] in E. rewrite scale_one in E. rewrite <- E. unfold D_from_log_coordinates. cbn [vx vy vz pow]. ring.
Qed.
Lemma log_orthogonal3 v0 v1 v2 : orthogonal3 (log_coordinates_to_matrix (RotationModel.V v0 v1 v2)).
Proof. apply o3_rotation. apply RotationProps.C34_proper_rotations. Qed.
Section Schur.
Variables (a b : irrep) (M : nat -> nat -> R).
Hypothesis H : commutes a b M.
Let la := ir_l a.
Let lb := ir_l b.
Let da := ir_dim a.
Let db := ir_dim b.
Lemma commutes_wD v0 v1 v2 i j : (i < da)%nat -> (j < db)%nat -> rsum da (fun k => rsum db (fun k' => wD la v0 v1 v2 i k * wD lb v0 v1 v2 j k' * M k k')) = M i j.
Proof.
  intros Hi Hj.
  assert (E : forall i j, (i < da)%nat -> (j < db)%nat -> rsum da (fun k => wD la v0 v1 v2 i k * M k j) = rsum db (fun k => M i k * wD lb v0 v1 v2 k j)).
  { intros i' j' Hi' Hj'. pose proof (H _ i' j' (log_orthogonal3 v0 v1 v2) Hi' Hj') as Q. rewrite (rsum_ext _ _ (fun k => wD la v0 v1 v2 i' k * M k j')) in Q by (intros k Hk; rewrite D_of_log by assumption; reflexivity).
    refine (eq_trans Q _). apply rsum_ext. intros k Hk. rewrite D_of_log by assumption. reflexivity. }
  rewrite rsum_swap. rewrite (rsum_ext db _ (fun k' => rsum db (fun k => M i k * (wD lb v0 v1 v2 k k' * wD lb v0 v1 v2 j k')))).
  2: { intros k' Hk'. rewrite (rsum_ext da _ (fun k => wD la v0 v1 v2 i k * M k k' * wD lb v0 v1 v2 j k')) by (intros; ring). rewrite rsum_scal_r, E by assumption. rewrite <- rsum_scal_r. apply rsum_ext. intros; ring. }
  rewrite rsum_swap. rewrite (rsum_ext db _ (fun k => M i k * (if (k =? j)%nat then 1 else 0))).
  - rewrite (rsum_ext db _ (fun k => (if (k =? j)%nat then 1 else 0) * M i k)) by (intros; ring). apply rsum_delta_l, Hj.
  - intros k Hk. rewrite rsum_scal. f_equal. apply (wD_orthogonal lb v0 v1 v2 k j); assumption.
Qed.
Let V (l k : nat) : R := rsum da (fun i => rsum db (fun j => clebsch_gordan la lb l i j k * M i j)).
Lemma coupled_zero l k : (0 < l)%nat -> (k < 2 * l + 1)%nat -> V l k = 0.
Proof.
  intros L Hk. apply (invariant_vector l (V l)); [exact L| |exact Hk]. clear k Hk. intros v0 v1 v2 k Hk. unfold V.
  rewrite (rsum_ext _ _ (fun m => rsum da (fun i => rsum db (fun j => wD l v0 v1 v2 k m * clebsch_gordan la lb l i j m * M i j)))) by (intros m Hm; rewrite <- rsum_scal; apply rsum_ext; intros i Hi; rewrite <- rsum_scal; apply rsum_ext; intros; ring).
  rewrite rsum_swap. rewrite (rsum_ext da _ (fun i => rsum db (fun j => rsum da (fun i' => rsum db (fun j' => clebsch_gordan la lb l i' j' k * (wD la v0 v1 v2 i' i * wD lb v0 v1 v2 j' j * M i j)))))).
  2: { intros i Hi. rewrite rsum_swap. apply rsum_ext. intros j Hj. rewrite rsum_scal_r, wD_intertwines by assumption. rewrite <- rsum_scal_r. apply rsum_ext. intros i' Hi'. rewrite <- rsum_scal_r. apply rsum_ext. intros; ring. }
  transitivity (rsum da (fun i' => rsum db (fun j' => clebsch_gordan la lb l i' j' k * rsum da (fun i => rsum db (fun j => wD la v0 v1 v2 i' i * wD lb v0 v1 v2 j' j * M i j))))).
  2: { apply rsum_ext. intros i' Hi'. apply rsum_ext. intros j' Hj'. rewrite commutes_wD by assumption. reflexivity. }
  rewrite (rsum_ext da _ (fun i => rsum da (fun i' => rsum db (fun j => rsum db (fun j' => clebsch_gordan la lb l i' j' k * (wD la v0 v1 v2 i' i * wD lb v0 v1 v2 j' j * M i j)))))) by (intros; apply rsum_swap).
  rewrite rsum_swap. apply rsum_ext. intros i' Hi'. rewrite (rsum_ext da _ (fun i => rsum db (fun j' => rsum db (fun j => clebsch_gordan la lb l i' j' k * (wD la v0 v1 v2 i' i * wD lb v0 v1 v2 j' j * M i j))))) by (intros; apply rsum_swap).
  rewrite rsum_swap. apply rsum_ext. intros j' Hj'. rewrite <- rsum_scal. apply rsum_ext. intros i Hi. apply rsum_scal.
Qed.
Lemma expand_commutant i j : (i < da)%nat -> (j < db)%nat -> M i j = lsum (degrees la lb) (fun l => INR (2 * l + 1) * rsum (2 * l + 1) (fun k => clebsch_gordan la lb l i j k * V l k)).
Proof.
  intros Hi Hj. transitivity (rsum da (fun i' => rsum db (fun j' => lsum (degrees la lb) (fun l => INR (2 * l + 1) * rsum (2 * l + 1) (fun k => clebsch_gordan la lb l i j k * clebsch_gordan la lb l i' j' k)) * M i' j'))).
  - rewrite (rsum_ext da _ (fun i' => (if (i =? i')%nat then 1 else 0) * M i' j)).
    + rewrite rsum_delta_r by exact Hi. reflexivity.
    + intros i' Hi'. rewrite (rsum_ext db _ (fun j' => (if (j =? j')%nat then 1 else 0) * ((if (i =? i')%nat then 1 else 0) * M i' j'))).
      * rewrite rsum_delta_r by exact Hj. reflexivity.
      * intros j' Hj'. rewrite C40_complete by assumption. destruct (i =? i')%nat, (j =? j')%nat; cbn [andb]; ring.
  - unfold V. rewrite (rsum_ext da _ (fun i' => lsum (degrees la lb) (fun l => rsum db (fun j' => INR (2 * l + 1) * rsum (2 * l + 1) (fun k => clebsch_gordan la lb l i j k * clebsch_gordan la lb l i' j' k) * M i' j')))).
    + rewrite <- lsum_seq0. rewrite lsum_swap. apply lsum_ext. intros l Hl. rewrite lsum_seq0. rewrite <- rsum_scal.
      rewrite (rsum_ext da _ (fun i' => rsum (2 * l + 1) (fun k => rsum db (fun j' => INR (2 * l + 1) * (clebsch_gordan la lb l i j k * (clebsch_gordan la lb l i' j' k * M i' j')))))).
      * rewrite rsum_swap. apply rsum_ext. intros k Hk. rewrite <- !rsum_scal. apply rsum_ext. intros i' Hi'. rewrite <- !rsum_scal. apply rsum_ext. intros; ring.
      * intros i' Hi'. rewrite rsum_swap. apply rsum_ext. intros j' Hj'. rewrite Rmult_assoc, <- rsum_scal_r, <- rsum_scal. apply rsum_ext. intros; ring.
    + intros i' Hi'. rewrite (rsum_ext db _ (fun j' => lsum (degrees la lb) (fun l => INR (2 * l + 1) * rsum (2 * l + 1) (fun k => clebsch_gordan la lb l i j k * clebsch_gordan la lb l i' j' k) * M i' j'))) by (intros; rewrite lsum_scal_r; reflexivity).
      rewrite <- lsum_seq0. rewrite lsum_swap. apply lsum_ext. intros l Hl. rewrite lsum_seq0. reflexivity.
Qed.
End Schur.
Theorem schur_zero a b M : commutes a b M -> a <> b -> forall i j, (i < ir_dim a)%nat -> (j < ir_dim b)%nat -> M i j = 0.
Proof.
  intros H N i j Hi Hj. destruct (Nat.eq_dec (ir_l a) (ir_l b)) as [El|El].
  - assert (Np : ir_p a <> ir_p b) by (intros Ep; apply N; destruct a, b; cbn in *; congruence). assert (O : orthogonal3 (mat_scale (-1) RotationModel.mone)) by (split; apply mat_eq; cbn; ring).
    pose proof (H _ i j O Hi Hj) as E.
    rewrite (rsum_ext (ir_dim a) _ (fun k => (if (i =? k)%nat then 1 else 0) * (match ir_p a with Even => 1 | Odd => -1 end * M k j))) in E by (intros k Hk; rewrite C39_inversion by assumption; unfold CGModel.mone; ring).
    rewrite (rsum_ext (ir_dim b) _ (fun k => (if (k =? j)%nat then 1 else 0) * (match ir_p b with Even => 1 | Odd => -1 end * M i k))) in E by (intros k Hk; rewrite C39_inversion by assumption; unfold CGModel.mone; ring).
    rewrite (rsum_delta_r (ir_dim a) i (fun k => match ir_p a with Even => 1 | Odd => -1 end * M k j)), (rsum_delta_l (ir_dim b) j (fun k => match ir_p b with Even => 1 | Odd => -1 end * M i k)) in E by assumption.
    destruct (ir_p a), (ir_p b); try congruence; lra.
  - rewrite (expand_commutant a b M i j Hi Hj). apply lsum_zero. intros l Hl. apply in_degrees in Hl. rewrite rsum_zero; [ring|]. intros k Hk. rewrite (coupled_zero a b M H l k); [ring|lia|exact Hk].
Qed.
Theorem schur_scalar a M : commutes a a M -> forall i j, (i < ir_dim a)%nat -> (j < ir_dim a)%nat -> M i j = (if (i =? j)%nat then 1 else 0) * M 0%nat 0%nat.
Proof.
  intros H. set (l := ir_l a). set (c := rsum (ir_dim a) (fun i => rsum (ir_dim a) (fun j => clebsch_gordan l l 0 i j 0 * M i j)) * / sqrt (INR (2 * l + 1))).
  assert (G : forall i j, (i < ir_dim a)%nat -> (j < ir_dim a)%nat -> M i j = (if (i =? j)%nat then 1 else 0) * c).
  { intros i j Hi Hj. rewrite (expand_commutant a a M i j Hi Hj). fold l. unfold degrees. replace (l + l + 1)%nat with (S (l + l)) by lia. cbn [seq filter]. rewrite !(proj2 (Nat.leb_le _ _)) by lia. cbn [andb]. rewrite lsum_cons, lsum_zero.
    - cbn [Nat.mul Nat.add INR rsum]. unfold l at 1 2. rewrite cg_invariant by assumption. fold l. destruct (i =? j)%nat; unfold c; ring.
    - intros l3 Hl3. apply filter_In in Hl3 as [Hl3 _]. apply in_seq in Hl3. rewrite rsum_zero; [ring|]. intros k Hk. pose proof (coupled_zero a a M H l3 k ltac:(lia) Hk) as Z; cbv zeta in Z; fold l in Z; rewrite Z; ring. }
  intros i j Hi Hj. rewrite (G i j Hi Hj). f_equal. rewrite (G 0%nat 0%nat) by (unfold ir_dim; lia). cbn [Nat.eqb]. ring.
Qed.
