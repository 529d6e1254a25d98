(* C67: the voxel convolution. *)
From Coq Require Import Reals ZArith Arith Lia Lra Bool List Permutation.
From Verif Require Import PyBase IrrepsModel IrrepsProofs IrrepsProofs2 NormModel NormProofs ArrayModel ArrayProofs ArrayProps3 ArrayOps RechunkProofs LeadModel LeadProofs SumR CGModel ActProofs EquivProofs EquivProofs2 EntryProofs TPModel TPProofs LinearModel LinearProofs LinearProps BlockProofs LinModProofs ConvProps2 TransformerProps4.
From Verif Require Import LegacyModel LegacyProofs LegacyProofs2 RadialModel GradProofs RotationModel RotationProofs WignerModel WignerProofs WignerProofs2 WignerProps S2Model SHModel SHProps.
From Verif Require Import VconvModel VconvProofs VconvProofs2 VconvProofs3 VconvProofs4.
Import ListNotations.
Open Scope R_scope.

(* ---- the conditions ---- *)
(* the harmonics are those of a vector of parity q, the algorithm can compute them, the normalization is known; the padding is "SAME";
   the radius is positive, the radial functions start before it, and the dynamic steps are not smaller than the static ones *)
Definition ready (C : vconv) (q : parity) (steps : option (nat -> R)) : Prop :=
  natural q (v_sh C) /\ (num_irreps (v_sh C) = 0%nat \/ usable (v_auto C) None (v_sh C)) /\ v_inorm C <> NOther /\ v_same C = true /\
  0 < v_diameter C /\ (forall k, 0 < v_steps C k <= resolved C steps k) /\ forall l, v_start C l < 1.
(* the irreps the kernel is computed for: without the zero chunks, and simplified *)
Definition read_irreps (a : iarray) : irreps := fed_irreps (zero_flags a) (irr a).
(* the parameters have the shapes the code asks for when it creates them *)
Definition supplied (C : vconv) (P : vparams) (x : irreps) : Prop :=
  (forall T, functional_fctp x (v_sh C) (kept_out C x) None None None (v_inorm C) (v_pn C) (v_gn C) = Ok T -> length (p_tp P) = length (tp_ins T)) /\
  (forall L, functional_linear x (kept_out C x) None NoBias (v_pn C) (v_gn C) = Ok L -> Forall2 (fun o w => length w = nprod (li_shape o)) (fl_ins L) (p_self P)).
Definition grid (a : iarray) (B X Y Z : nat) : Prop := coherent a /\ lead a = [B; X; Y; Z].
Definition alike (a b : iarray) : Prop := irr b = irr a /\ zero_flags b = zero_flags a.
(* the batch entry n at the voxel v *)
Definition voxel_at (a : iarray) (n : nat) (v : voxel) : list R := arr a (at_voxel n v).

Lemma setup C P q steps x : ready C q steps -> supplied C P x -> exists T L M, fct C x (kept_out C x) T /\ sh_good C q /\ length (p_tp P) = length (tp_ins T) /\ functional_linear x (kept_out C x) None NoBias (v_pn C) (v_gn C) = Ok L /\
  Forall2 (fun o w => length w = nprod (li_shape o)) (fl_ins L) (p_self P) /\ linear_matrix L (p_self P) = Ok M /\ fine C (resolved C steps).
Proof.
  intros (R1 & R2 & R3 & _ & R5 & R6 & R7) [S1 S2]. destruct (fct_exists C x (kept_out C x) R3) as (T & F). destruct (center_run x (kept_out C x) (v_pn C) (v_gn C)) as (L & EL). pose proof (S2 L EL) as W.
  destruct (center_row _ _ _ _ _ _ EL W) as (M & EM & _). exists T, L, M. split; [exact F|]. split; [split; assumption|]. split; [exact (S1 T (fct_run _ _ _ _ F))|]. split; [exact EL|]. split; [exact W|]. split; [exact EM|]. split; [exact R5|]. split; assumption.
Qed.
Lemma in_grid B X Y Z n p : (n < B)%nat -> In p (box X Y Z) -> vox (at_voxel n p) = p /\ nth 0 (at_voxel n p) 0%nat = n /\ valid [B; X; Y; Z] (at_voxel n p).
Proof. intros Hn Hp. split; [destruct p as [[? ?] ?]; reflexivity|]. split; [destruct p as [[? ?] ?]; reflexivity|]. now apply at_valid. Qed.

(* ---- C67_accepts: it succeeds, with the given irreps and the same grid ---- *)
Theorem C67_accepts C P q steps a B X Y Z : ready C q steps -> grid a B X Y Z -> supplied C P (read_irreps a) ->
  exists z, vconv_call C P a steps = Ok z /\ grid z B X Y Z /\ irr z = v_out C.
Proof.
  intros Rd [Ca La] Su. destruct (setup _ _ _ _ _ Rd Su) as (T & L & M & F & G & LP & EL & LW & EM & Fi).
  destruct (call_yields C P steps (irr a) (zero_flags a) q T L M (zero_flags_length a Ca) F G LP EL LW EM (proj1 (proj2 (proj2 (proj2 Rd)))) Fi a B X Y Z Ca eq_refl eq_refl La) as (z & E & I1 & L1 & C1 & _). exists z. split; [exact E|]. split; [split; assumption|exact I1].
Qed.
(* ---- C67_equivariant ---- *)
(* t moves the voxels of the grid the way r moves their displacements *)
Definition turns (steps : nat -> R) (X Y Z : nat) (r : mat) (t : voxel -> voxel) : Prop :=
  (forall v, In v (box X Y Z) -> In (t v) (box X Y Z)) /\ (forall v w, In v (box X Y Z) -> In w (box X Y Z) -> t v = t w -> v = w) /\
  (forall v w, In v (box X Y Z) -> In w (box X Y Z) -> displacement steps (t v) (t w) = moved r (displacement steps v w)).
Theorem C67_equivariant C P q steps a a' B X Y Z r t : ready C q steps -> grid a B X Y Z -> grid a' B X Y Z -> alike a a' -> supplied C P (read_irreps a) ->
  orthogonal3 r -> (q = Odd \/ rotation r) -> turns (resolved C steps) X Y Z r t ->
  (forall n v, (n < B)%nat -> In v (box X Y Z) -> voxel_at a' n (t v) = act (rep_of r) (irr a) (voxel_at a n v)) ->
  exists z z', vconv_call C P a steps = Ok z /\ vconv_call C P a' steps = Ok z' /\ irr z = v_out C /\ irr z' = v_out C /\
    forall n v, (n < B)%nat -> In v (box X Y Z) -> voxel_at z' n (t v) = act (rep_of r) (v_out C) (voxel_at z n v).
Proof.
  intros Rd [Ca La] [Ca' La'] [Ia Za] Su O Hq (T1 & T2 & T3) He. destruct (setup _ _ _ _ _ Rd Su) as (T & L & M & F & G & LP & EL & LW & EM & Fi). pose proof (zero_flags_length a Ca) as Lf. pose proof (proj1 (proj2 (proj2 (proj2 Rd)))) as Sm.
  destruct (call_yields C P steps (irr a) (zero_flags a) q T L M Lf F G LP EL LW EM Sm Fi a B X Y Z Ca eq_refl eq_refl La) as (z & E & I1 & L1 & C1 & A1).
  destruct (call_yields C P steps (irr a) (zero_flags a) q T L M Lf F G LP EL LW EM Sm Fi a' B X Y Z Ca' Ia Za La') as (z' & E' & I1' & L1' & C1' & A1').
  exists z, z'. split; [exact E|]. split; [exact E'|]. split; [exact I1|]. split; [exact I1'|]. intros n v Hn Hv. unfold voxel_at.
  destruct (in_grid B X Y Z n v Hn Hv) as (V1 & V2 & V3). destruct (in_grid B X Y Z n (t v) Hn (T1 v Hv)) as (W1 & W2 & W3). rewrite A1' by exact W3. rewrite A1 by exact V3. rewrite V1, V2, W1, W2.
  apply (voxel_row_turn C P steps (irr a) (zero_flags a) q T L M); auto.
  - destruct Hq as [->|Hr]; [now left|right; now apply sg_rotation].
  - intros w Hw. apply (proj1 Ca). rewrite La. now apply at_valid.
  - intros w Hw. apply He; assumption.
Qed.
