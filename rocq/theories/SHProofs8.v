(* The gradient of a spherical harmonic of degree l is a coupling of the harmonics of degree l - 1. *)
From Coq Require Import Reals Lra ZArith Lia List Bool Arith.
From Coquelicot Require Import Coquelicot.
From Verif Require Import PyBase IrrepsModel IrrepsProofs ArrayModel LeadModel SumR TPProofs CGModel EntryProofs CGProofs CGProofs10 RotationModel RotationProofs RotationProofs2 RadialProofs S2Model WignerModel WignerProofs WignerProofs2 WignerProps WignerProps2 SHModel SHProofs SHProofs2 SHProofs3 SHProofs4 SHProofs5 SHProofs6 SHProofs7.
Import ListNotations.
Open Scope R_scope.

Lemma rep_cols r ir i j : orthogonal3 r -> (i < ir_dim ir)%nat -> (j < ir_dim ir)%nat -> rsum (ir_dim ir) (fun k => mat_at (rep_of r ir) k i * mat_at (rep_of r ir) k j) = if (i =? j)%nat then 1 else 0.
Proof.
  intros O Hi Hj. destruct (C39_orthogonal r ir i j O Hi Hj) as [_ E]. unfold CGModel.mmul in E. unfold CGModel.mone in E. rewrite <- E. apply rsum_ext. intros k Hk. unfold rep_of. now rewrite !as_rep_at.
Qed.
Lemma rep_rows r ir i j : orthogonal3 r -> (i < ir_dim ir)%nat -> (j < ir_dim ir)%nat -> rsum (ir_dim ir) (fun k => mat_at (rep_of r ir) i k * mat_at (rep_of r ir) j k) = if (i =? j)%nat then 1 else 0.
Proof.
  intros O Hi Hj. destruct (C39_orthogonal r ir i j O Hi Hj) as [E _]. unfold CGModel.mmul in E. unfold CGModel.mone in E. rewrite <- E. apply rsum_ext. intros k Hk. unfold rep_of. now rewrite !as_rep_at.
Qed.
Lemma transfer (nA nB nC : nat) (A B C : nat -> nat -> R) (g : nat -> nat -> nat -> R) :
  (forall i j, (i < nA)%nat -> (j < nA)%nat -> rsum nA (fun k => A k i * A k j) = if (i =? j)%nat then 1 else 0) ->
  (forall i j, (i < nB)%nat -> (j < nB)%nat -> rsum nB (fun k => B i k * B j k) = if (i =? j)%nat then 1 else 0) ->
  (forall i j k, (i < nC)%nat -> (j < nB)%nat -> (k < nA)%nat -> rsum nA (fun k' => A k k' * g i j k') = rsum nC (fun i' => rsum nB (fun j' => g i' j' k * C i' i * B j' j))) ->
  forall i m q, (i < nC)%nat -> (m < nB)%nat -> (q < nA)%nat -> rsum nB (fun j => B m j * g i j q) = rsum nC (fun i' => rsum nA (fun k => g i' m k * C i' i * A k q)).
Proof.
  intros OA OB HI i m q Hi Hm Hq.
  assert (S1 : forall j, (j < nB)%nat -> g i j q = rsum nA (fun k => rsum nC (fun i' => rsum nB (fun j' => A k q * (g i' j' k * C i' i * B j' j))))).
  { intros j Hj. transitivity (rsum nA (fun q' => (if (q =? q')%nat then 1 else 0) * g i j q')); [symmetry; apply rsum_delta_r, Hq|].
    transitivity (rsum nA (fun q' => rsum nA (fun k => A k q * (A k q' * g i j q')))).
    { apply rsum_ext. intros q' Hq'. rewrite <- OA by assumption. rewrite <- rsum_scal_r. apply rsum_ext. intros; ring. }
    rewrite rsum_swap. apply rsum_ext. intros k Hk. rewrite rsum_scal, HI by assumption. rewrite <- rsum_scal. apply rsum_ext. intros i' _. symmetry. apply rsum_scal. }
  transitivity (rsum nA (fun k => rsum nC (fun i' => rsum nB (fun j' => (if (m =? j')%nat then 1 else 0) * (g i' j' k * C i' i * A k q))))).
  - transitivity (rsum nB (fun j => rsum nA (fun k => rsum nC (fun i' => rsum nB (fun j' => B m j * B j' j * (g i' j' k * C i' i * A k q)))))).
    + apply rsum_ext. intros j Hj. rewrite (S1 j Hj). rewrite <- rsum_scal. apply rsum_ext; intros k _. rewrite <- rsum_scal. apply rsum_ext; intros i' _. rewrite <- rsum_scal. apply rsum_ext; intros j' _. ring.
    + rewrite rsum_swap. apply rsum_ext. intros k _. rewrite rsum_swap. apply rsum_ext. intros i' _. rewrite rsum_swap. apply rsum_ext. intros j' Hj'. rewrite rsum_scal_r. rewrite OB by assumption. reflexivity.
  - rewrite rsum_swap. apply rsum_ext. intros i' _. apply rsum_ext. intros k _. apply rsum_delta_r, Hm.
Qed.
Lemma coupling_transfer r p i m q : orthogonal3 r -> (i < 2 * p + 1)%nat -> (m < 2 * S p + 1)%nat -> (q < 3)%nat ->
  let D := rep_of r in
  rsum (2 * S p + 1) (fun j => mat_at (D (Irrep (S p) (ppow Odd (S p)))) m j * clebsch_gordan p (S p) 1 i j q) =
  rsum (2 * p + 1) (fun i' => rsum 3 (fun k => clebsch_gordan p (S p) 1 i' m k * mat_at (D (Irrep p (ppow Odd p))) i' i * mat_at (D (Irrep 1 Odd)) k q)).
Proof.
  intros O Hi Hm Hq D. apply transfer; try assumption.
  - intros a b Ha Hb. exact (rep_cols r (Irrep 1 Odd) a b O Ha Hb).
  - intros a b Ha Hb. exact (rep_rows r (Irrep (S p) (ppow Odd (S p))) a b O Ha Hb).
  - intros a b c Ha Hb Hc. apply (rep_of_intertwines r O (Irrep p (ppow Odd p)) (Irrep (S p) (ppow Odd (S p))) (Irrep 1 Odd)); try assumption.
    apply ir_mul_in. cbn [ir_l ir_p]. split; [cbn [ppow]; destruct (ppow Odd p); reflexivity|lia].
Qed.
(* every vector is a multiple of a rotated pole *)
Lemma reach (x : nat -> R) : exists r t, orthogonal3 r /\ 0 <= t /\ forall i, (i < 3)%nat -> x i = t * rsum 3 (fun j => mat_at (rep_of r (Irrep 1 Odd)) i j * pole j).
Proof.
  destruct (polar [x 0%nat; x 1%nat; x 2%nat] eq_refl) as (Ht & Hy & E). cbv zeta in E, Hy, Ht. set (y := _ / _) in *. set (a := arctan2 _ _) in *. set (t := vec_norm _) in *.
  exists (angles_to_matrix a (acos y) 0), t. assert (O : orthogonal3 (angles_to_matrix a (acos y) 0)) by apply o3_rotation, rotation_angles. split; [exact O|split; [exact Ht|]]. intros i Hi.
  transitivity (fn [x 0%nat; x 1%nat; x 2%nat] i); [destruct i as [|[|[|i]]]; reflexivity || lia|]. rewrite E by exact Hi. f_equal.
  transitivity (mat_at (rep_of (angles_to_matrix a (acos y) 0) (Irrep 1 Odd)) i 1); [|unfold pole; cbn [rsum Nat.eqb]; ring]. unfold rep_of. rewrite as_rep_at by (cbn; lia). rewrite (proj1 (C39_low_degrees _ i 1 O Hi ltac:(lia))).
  pose proof (angles_y a (acos y) 0) as Q. set (m := angles_to_matrix a (acos y) 0) in *. assert (S1 : sin (acos y) = sqrt (1 - y ^ 2)) by (rewrite sin_acos by exact Hy; f_equal; unfold Rsqr; ring). assert (C1 : cos (acos y) = y) by (apply cos_acos; exact Hy).
  unfold angles_to_xyz in Q. rewrite S1, C1 in Q. clearbody m. destruct m. unfold mapply in Q. cbn in Q. injection Q as Q0 Q1 Q2. destruct i as [|[|[|i]]]; try lia; cbn; lra.
Qed.
Theorem gradient p x v j : (j < 2 * S p + 1)%nat ->
  DP (S p) x v j = jvp_weight Norm (S p) * rsum (2 * p + 1) (fun i => rsum 3 (fun k => P p x i * v k * clebsch_gordan p (S p) 1 i j k)).
Proof.
  intros Hj. destruct (reach x) as (r & t & O & _ & Ex). set (D := rep_of r). set (A := mat_at (D (Irrep 1 Odd))). set (B := mat_at (D (Irrep (S p) (ppow Odd (S p))))). set (C := mat_at (D (Irrep p (ppow Odd p)))). set (w := jvp_weight Norm (S p)).
  pose (v' := fun q => rsum 3 (fun k => A k q * v k)).
  assert (Ev : forall k, (k < 3)%nat -> v k = rsum 3 (fun q => A k q * v' q)).
  { intros k Hk. symmetry. transitivity (rsum 3 (fun q => rsum 3 (fun m => A k q * A m q * v m))); [apply rsum_ext; intros q _; unfold v'; rewrite <- rsum_scal; apply rsum_ext; intros; ring|].
    rewrite rsum_swap. transitivity (rsum 3 (fun m => (if (k =? m)%nat then 1 else 0) * v m)); [|apply rsum_delta_r, Hk]. apply rsum_ext. intros m Hm. rewrite rsum_scal_r. f_equal. exact (rep_rows r (Irrep 1 Odd) k m O Hk Hm). }
  pose proof (rep_of_intertwines r O) as HI. assert (H0 : mat_at (D (Irrep 0 Even)) 0 0 = 1) by (unfold D, rep_of; rewrite as_rep_at by (cbn; lia); apply (C39_low_degrees r 0 0 O); lia).
  transitivity (t ^ p * rsum (2 * S p + 1) (fun j' => B j j' * rsum 3 (fun k => v' k * (w * clebsch_gordan p (S p) 1 p j' k)))).
  - rewrite (DP_ext _ x (fun i => t * rsum 3 (fun j => A i j * pole j)) v (fun k => rsum 3 (fun q => A k q * v' q))) by assumption. rewrite DP_scale. replace (S p - 1)%nat with p by lia. f_equal.
    rewrite (DP_equivariant D Odd pole v' HI H0) by exact Hj. apply rsum_ext. intros j' Hj'. f_equal.
    rewrite (DP_ext _ pole pole v' (fun i => rsum 3 (fun q => v' q * ek q i))); [|reflexivity| |exact Hj'].
    + rewrite DP_linear. apply rsum_ext. intros k Hk. now rewrite grad_pole by assumption.
    + intros i Hi. symmetry. transitivity (rsum 3 (fun q => (if (i =? q)%nat then 1 else 0) * v' q)); [apply rsum_ext; intros; unfold ek; ring|apply rsum_delta_r, Hi].
  - assert (EP : forall i, (i < 2 * p + 1)%nat -> P p x i = t ^ p * C i p).
    { intros i Hi. rewrite (P_ext _ x (fun i => t * rsum 3 (fun j => A i j * pole j))) by assumption. rewrite P_scale. f_equal. etransitivity; [exact (P_equivariant D Odd pole HI H0 p i Hi)|]. apply sum_pole. }
    transitivity (w * t ^ p * rsum 3 (fun q => v' q * rsum (2 * S p + 1) (fun j' => B j j' * clebsch_gordan p (S p) 1 p j' q))).
    + transitivity (t ^ p * rsum (2 * S p + 1) (fun j' => rsum 3 (fun k => w * (v' k * (B j j' * clebsch_gordan p (S p) 1 p j' k))))); [f_equal; apply rsum_ext; intros; rewrite <- rsum_scal; apply rsum_ext; intros; ring|].
      rewrite rsum_swap. transitivity (t ^ p * rsum 3 (fun k => w * (v' k * rsum (2 * S p + 1) (fun j' => B j j' * clebsch_gordan p (S p) 1 p j' k)))); [f_equal; apply rsum_ext; intros; rewrite <- !rsum_scal; apply rsum_ext; intros; ring|]. rewrite rsum_scal. ring.
    + transitivity (w * t ^ p * rsum 3 (fun q => v' q * rsum (2 * p + 1) (fun i' => rsum 3 (fun k => clebsch_gordan p (S p) 1 i' j k * C i' p * A k q)))).
      { f_equal. apply rsum_ext. intros q Hq. f_equal. apply (coupling_transfer r p p j q O); lia. }
      rewrite Rmult_assoc. f_equal. transitivity (rsum 3 (fun q => rsum (2 * p + 1) (fun i' => rsum 3 (fun k => t ^ p * (v' q * (clebsch_gordan p (S p) 1 i' j k * C i' p * A k q)))))).
      { rewrite <- rsum_scal. apply rsum_ext. intros q _. rewrite <- !rsum_scal. apply rsum_ext. intros i' _. rewrite <- !rsum_scal. reflexivity. }
      rewrite rsum_swap. apply rsum_ext. intros i Hi. rewrite rsum_swap. apply rsum_ext. intros k Hk. rewrite EP, (Ev k Hk) by exact Hi. rewrite <- rsum_scal, <- rsum_scal_r. apply rsum_ext. intros; ring.
Qed.
