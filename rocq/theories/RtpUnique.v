(* Two reduced bases for the same request have the same irreps; RtpSpec.reduced_basis is the reduced family of the proofs. *)
From Coq Require Import Reals Lra Lia List Arith Permutation Sorted ZArith.
From Verif Require Import PyBase PermModel PermProofs IrrepsModel IrrepsProofs IrrepsProofs2 ArrayModel ArrayProofs ArrayOps RechunkProofs LeadModel LeadProofs StackProofs ActProofs EquivProofs EntryProofs LinearProofs ScatterProps SumR S2Proofs3 TPModel TPProofs TPProofs2 RotationModel RotationProofs CGModel WignerModel WignerProofs WignerProofs2 WignerProps WignerProps2 CGComplete MathModel GSProofs BasisProofs MathProps2 BasisProofs2 SymModel SymProofs SymProofs2 SymProps SymProps2 SymProps3 SchurProofs MultProofs CouplingProofs ReducedProofs ConstrainProofs RtpModel RtpSpace RtpTools RtpArr RtpMasks RtpPerm RtpSymModel RtpWords RtpSymmetrize RtpFamily RtpTuples RtpChain RtpMain RtpTerm RtpTerm2 RtpTerm3 RtpOpt RtpSpec RtpResult RtpTotal.
From Verif Require GradProofs RtpProps.
Import ListNotations.
Open Scope R_scope.

(* ---------- multiplicities ---------- *)
Section Count.
Context {A : Type} (X : list A) (rh : mat -> A -> A -> R).
Hypothesis Pr : preserving X rh.
Definition alpha (t s : mult A) : R := dot X (comp t 0%nat) (comp s 0%nat).
Lemma alpha_sum L t : Forall (covariant X rh) L -> covariant X rh t -> repro X (columns L) (comp t 0%nat) -> dot X (comp t 0%nat) (comp t 0%nat) = lsum L (fun s => if irrep_eqb (fst t) (fst s) then alpha t s * alpha t s else 0).
Proof.
  intros FL Ct H. assert (Z : (0 < ir_dim (fst t))%nat) by (unfold ir_dim; lia).
  rewrite <- (dot_ext X (expand X (columns L) (comp t 0%nat)) (comp t 0%nat) (comp t 0%nat) (comp t 0%nat)) by (try exact H; reflexivity). rewrite expand_dot. unfold columns. rewrite lsum_flat_map. apply lsum_ext. intros s Hs. rewrite lsum_map. rewrite Forall_forall in FL. pose proof (FL s Hs) as Cs.
  rewrite (lsum_ext _ _ (fun m => dot X (comp t 0%nat) (comp s m) * dot X (comp t 0%nat) (comp s m))) by (intros m _; rewrite (dot_sym X (comp s m)); reflexivity). rewrite lsum_seq. destruct (irrep_eqb (fst t) (fst s)) eqn:E.
  - apply irrep_eqb_eq in E. assert (Z' : (0 < ir_dim (fst s))%nat) by (rewrite <- E; exact Z). rewrite (rsum_ext _ _ (fun m => (if (m =? 0)%nat then 1 else 0) * (alpha t s * alpha t s))) by (intros m Hm; rewrite (overlap_scalar X rh Pr t s 0%nat m Ct Cs E Z Hm), (Nat.eqb_sym 0 m); unfold alpha; destruct (m =? 0)%nat; ring). rewrite (rsum_delta_l _ 0%nat (fun _ => alpha t s * alpha t s)) by exact Z'. reflexivity.
  - rewrite rsum_zero; [reflexivity|]. intros m Hm. rewrite (overlap_zero X rh Pr t s 0%nat m Ct Cs); [ring| |exact Z|exact Hm]. intros Q. apply irrep_eqb_eq in Q. congruence.
Qed.
Lemma count_lsum (l : list (mult A)) c : INR (count_occ irrep_eq_dec (map fst l) c) = lsum l (fun t => if irrep_eqb c (fst t) then 1 else 0).
Proof.
  induction l as [|t l IH]; [reflexivity|]. rewrite lsum_cons, <- IH. cbn [map count_occ]. destruct (irrep_eq_dec (fst t) c) as [E|E]; destruct (irrep_eqb c (fst t)) eqn:Q.
  - rewrite S_INR. ring.
  - rewrite E in Q. rewrite (proj2 (irrep_eqb_eq c c) eq_refl) in Q. discriminate.
  - apply irrep_eqb_eq in Q. congruence.
  - ring.
Qed.
Lemma same_counts K W L L' c : reduced X rh K W L -> reduced X rh K W L' -> count_occ irrep_eq_dec (map fst L) c = count_occ irrep_eq_dec (map fst L') c.
Proof.
  assert (G : forall L L', reduced X rh K W L -> reduced X rh K W L' -> INR (count_occ irrep_eq_dec (map fst L) c) = lsum L (fun t => lsum L' (fun s => if irrep_eqb c (fst t) then if irrep_eqb c (fst s) then alpha t s * alpha t s else 0 else 0))).
  { clear L L'. intros L L' [C U _ Kp Wi _] [C' _ _ _ _ All]. rewrite count_lsum. apply lsum_ext. intros t Ht. rewrite Forall_forall in C, U, Kp. assert (Z : (0 < ir_dim (fst t))%nat) by (unfold ir_dim; lia). destruct (irrep_eqb c (fst t)) eqn:E; [|symmetry; apply lsum_zero; reflexivity].
    apply irrep_eqb_eq in E. rewrite E. rewrite <- (alpha_sum L' t C' (C t Ht)); [symmetry; exact (U t Ht 0%nat 0%nat Z Z)|]. apply All; [apply C, Ht|apply Kp, Ht|intros m Hm; apply Wi; assumption|exact Z]. }
  intros R1 R2. apply INR_eq. rewrite (G L L' R1 R2), (G L' L R2 R1), lsum_swap. apply lsum_ext. intros s Hs. apply lsum_ext. intros t Ht. unfold alpha. rewrite (dot_sym X (comp t 0%nat)). destruct (irrep_eqb c (fst t)), (irrep_eqb c (fst s)); reflexivity.
Qed.
End Count.

(* ---------- from the specification back to families ---------- *)
Lemma turn_plets X rh l off (a : idx -> list R) : (forall r z c, orthogonal3 r -> In z X -> (c < dims l)%nat -> rot X rh r (fun y => nth (off + c) (a y) 0) z = rsum (dims l) (fun c' => bd r l c' c * nth (off + c') (a z) 0)) -> Forall (covariant X rh) (plets l off a).
Proof.
  revert off. induction l as [|ir l IH]; intros off H; [constructor|]. cbn [plets]. constructor.
  - intros r z m O Hz Hm. cbn [fst snd] in *. etransitivity; [apply (H r z m O Hz); rewrite dims_cons; lia|]. rewrite dims_cons, rsum_add. rewrite (rsum_zero (dims l)), Rplus_0_r by (intros k Hk; rewrite bd_high_low by exact Hm; ring). apply rsum_ext. intros k Hk. rewrite bd_low by assumption. reflexivity.
  - apply IH. intros r z c O Hz Hc. specialize (H r z (ir_dim ir + c)%nat O Hz ltac:(rewrite dims_cons; lia)). rewrite Nat.add_assoc in H. rewrite H. rewrite dims_cons, rsum_add. rewrite (rsum_zero (ir_dim ir)), Rplus_0_l by (intros k Hk; rewrite bd_low_high by exact Hk; ring). apply rsum_ext. intros k Hk. rewrite bd_high, Nat.add_assoc. reflexivity.
Qed.
Lemma plets_unit X l off (a : idx -> list R) : (forall c c', (c < dims l)%nat -> (c' < dims l)%nat -> dot X (fun y => nth (off + c) (a y) 0) (fun y => nth (off + c') (a y) 0) = if (c =? c')%nat then 1 else 0) -> Forall (unit_mult X) (plets l off a) /\ pairwise (orth_mult X) (plets l off a).
Proof.
  revert off. induction l as [|ir l IH]; intros off H; [split; constructor|]. cbn [plets pairwise]. rewrite dims_cons in H. destruct (IH (off + ir_dim ir)%nat) as [U P].
  { intros c c' Hc Hc'. specialize (H (ir_dim ir + c)%nat (ir_dim ir + c')%nat ltac:(lia) ltac:(lia)). rewrite !Nat.add_assoc in H. rewrite H. destruct (Nat.eqb_spec (ir_dim ir + c) (ir_dim ir + c')), (Nat.eqb_spec c c'); try reflexivity; lia. }
  split; [constructor; [|exact U]|split; [|exact P]].
  - intros m m' Hm Hm'. cbn [fst] in *. apply H; lia.
  - apply Forall_forall. intros s Hs m m' Hm Hm'. cbn [fst] in Hm.
    assert (In (comp s m') (columns (plets l (off + ir_dim ir) a))) as I by (apply in_columns; assumption). rewrite columns_plets in I. apply in_map_iff in I as (j & E & Hj). apply in_seq in Hj. rewrite <- E. replace j with (off + (j - off))%nat by lia. etransitivity; [apply (H m (j - off)%nat); lia|]. destruct (Nat.eqb_spec m (j - off)); [lia|reflexivity].
Qed.
Theorem reduced_of_spec irs keep sym b : reduced_basis irs keep sym b -> reduced (space (flats irs)) (rho (flats irs)) (fun c => passes keep c = true) sym (family b).
Proof.
  intros []. set (ls := flats irs) in *. assert (XS : space ls = all_idx (map dim irs)) by (unfold space, ls; rewrite tdims_flats; reflexivity).
  assert (VZ : forall z, In z (space ls) -> valid (map dim irs) z) by (intros z Hz; rewrite XS in Hz; apply all_idx_valid, Hz).
  assert (UP : Forall (unit_mult (space ls)) (family b) /\ pairwise (orth_mult (space ls)) (family b)) by (apply plets_unit; intros c c' Hc Hc'; rewrite dims_flat in Hc, Hc'; rewrite XS; exact (rb_orthonormal c c' Hc Hc')).
  assert (Col : forall t m, In t (family b) -> (m < ir_dim (fst t))%nat -> exists c, (c < dim (irr b))%nat /\ comp t m = tensor b c).
  { intros t m Ht Hm. assert (I : In (comp t m) (columns (family b))) by (apply in_columns; assumption). rewrite columns_family in I. apply in_map_iff in I as (c & E & Hc). apply in_seq in Hc. exists c. split; [lia|symmetry; exact E]. }
  constructor.
  - apply turn_plets. intros r z c O Hz Hc. rewrite dims_flat in *. unfold ls. rewrite <- turned_rot by apply VZ, Hz. cbn [Nat.add]. etransitivity; [apply (rb_equivariant r c z O Hc), VZ, Hz|]. apply rsum_ext. intros k Hk. rewrite Dmat_bd by assumption. reflexivity.
  - apply UP.
  - apply UP.
  - apply Forall_forall. intros t Ht. assert (I : In (fst t) (flat (irr b))) by (rewrite <- (plets_types (flat (irr b)) 0 (arr b)); apply in_map, Ht). rewrite flat_mflat in I. apply in_flat_map in I as (m & Hm & I). apply repeat_spec in I. rewrite I. apply rb_kept, Hm.
  - intros t m Ht Hm. destruct (Col t m Ht Hm) as (c & Hc & ->). apply rb_symmetric, Hc.
  - intros t Ct Kp St m Hm z Hz. pose proof (VZ z Hz) as V. pose proof (rb_complete (fst t) (fun k y => snd t y k) Kp St) as Q. transitivity (projected irs b (comp t m) z).
    + unfold expand, projected, inner_product. rewrite columns_family, lsum_map, lsum_seq. rewrite XS. reflexivity.
    + apply (Q); [|exact Hm|exact V]. intros r k y O Hk Vy. assert (Hy : In y (space ls)) by (rewrite XS; apply all_idx_valid, Vy). rewrite turned_rot by exact Vy. etransitivity; [apply (Ct r y k O Hy Hk)|]. apply rsum_ext. intros k' Hk'. rewrite D_one by assumption. reflexivity.
Qed.
Lemma strict_alternating x : StronglySorted (fun a b => ir_ltb (snd a) (snd b) = true) x -> alternating x.
Proof.
  induction 1 as [|a x H IH Ha]; [exact Logic.I|]. destruct x as [|b x]; [exact Logic.I|]. cbn [alternating] in *. split; [|exact IH]. inversion Ha as [|? ? Q]. intros E. rewrite E in Q. rewrite ir_ltb_irrefl in Q. discriminate.
Qed.
Lemma sorted_counts x y : StronglySorted (fun a b => ir_ltb (snd a) (snd b) = true) x -> StronglySorted (fun a b => ir_ltb (snd a) (snd b) = true) y -> positive x -> positive y -> (forall c, IrrepsModel.count c x = IrrepsModel.count c y) -> x = y.
Proof.
  intros Sx Sy Px Py H. rewrite <- (simplify_fixed x Px (strict_alternating x Sx)), <- (simplify_fixed y Py (strict_alternating y Sy)). apply simplify_iff.
  assert (W : forall z, StronglySorted (fun a b : mulirrep => ir_ltb (snd a) (snd b) = true) z -> StronglySorted ir_le (flat z)).
  { intros z Sz. apply sorted_flat. induction Sz as [|a z Sz IH Ha]; constructor; [exact IH|]. eapply Forall_impl; [|exact Ha]. intros b Hb. left. exact Hb. }
  apply sorted_perm_unique; [apply W, Sx|apply W, Sy|]. apply (Permutation_count_occ irrep_eq_dec). intros c. rewrite <- !count_flat. apply H.
Qed.
Theorem irreps_unique irs keep sym b b' : reduced_basis irs keep sym b -> reduced_basis irs keep sym b' -> irr b = irr b'.
Proof.
  intros H H'. pose proof (reduced_of_spec _ _ _ _ H) as R1. pose proof (reduced_of_spec _ _ _ _ H') as R2. apply sorted_counts; [apply H|apply H'| | |].
  - apply Forall_forall. intros m Hm. apply H, Hm.
  - apply Forall_forall. intros m Hm. apply H', Hm.
  - intros c. rewrite !count_flat. pose proof (same_counts _ _ (space_preserving _) _ _ _ _ c R1 R2) as Q. unfold family in Q. rewrite !plets_types in Q. exact Q.
Qed.
