(* C45, continued: integrate, resample, the transforms of zonal signals.  C44: harmonics under inversion. *)
From Coq Require Import Reals Lra ZArith Lia.
From Coquelicot Require Import Coquelicot.
From Verif Require Import PyBase IrrepsModel IrrepsProofs IrrepsProofs2 ArrayModel ArrayProofs ArithProofs ArrayOps RechunkProofs SumR CGModel TrigProofs PolyProofs S2Model LegendreProofs S2Proofs S2Proofs2 S2Proofs3 S2Props S2Props2.
From Verif Require Import LeadModel LeadProofs AxisProofs BlockProofs.
From Verif Require Import EntryProofs.
Open Scope R_scope.

(* ---- integrate ---- *)
Lemma sh_beta_continuous l m (y : R) : continuous (sh_beta l m : R -> R) y.
Proof.
  apply (continuous_ext (fun y => (if (m <=? l)%nat then nlm l m * sqrt (1 - y ^ 2) ^ m * V l m y else 0))); [intros z; symmetry; apply sh_beta_V|].
  destruct (m <=? l)%nat; [|apply continuous_const].
  assert (C : forall n, continuous (fun y : R => sqrt (1 - y ^ 2) ^ n) y).
  { induction n as [|n IH]; [apply continuous_const|]. apply (continuous_mult (fun y : R => sqrt (1 - y ^ 2)) (fun y : R => sqrt (1 - y ^ 2) ^ n)); [|exact IH]. apply continuous_sqrt_comp. apply (poly_continuous 3). apply (poly_ext _ (fun x => (-1) * (x ^ 2 - 1) ^ 1)); [intros z; ring|]. apply poly_scale. apply (sq_poly 1). }
  apply (continuous_mult (fun y => nlm l m * sqrt (1 - y ^ 2) ^ m) (V l m)); [apply (continuous_mult (fun _ : R => nlm l m) (fun y => sqrt (1 - y ^ 2) ^ m)); [apply continuous_const|apply C]|apply (poly_continuous _ _ _ (V_poly l m))].
Qed.
Lemma RInt_rsum n (f : nat -> R -> R) a b : (forall k, (k < n)%nat -> ex_RInt (f k) a b) -> ex_RInt (fun x => rsum n (fun k => f k x)) a b /\ RInt (fun x => rsum n (fun k => f k x)) a b = rsum n (fun k => RInt (f k) a b).
Proof.
  induction n as [|n IH]; intros H.
  - cbn [rsum]. split; [apply ex_RInt_const|]. rewrite RInt_const. unfold scal. cbn. unfold Hierarchy.mult. cbn. ring.
  - cbn [rsum]. destruct IH as [E I]; [intros; apply H; lia|]. split.
    + apply (@ex_RInt_plus R_NormedModule); [exact E|apply H; lia].
    + rewrite <- I. apply (@RInt_plus R_CompleteNormedModule); [exact E|apply H; lia].
Qed.
Lemma RInt_mul c (f : R -> R) a b : ex_RInt f a b -> RInt (fun x => c * f x) a b = c * RInt f a b.
Proof. intros E. exact (@RInt_scal R_CompleteNormedModule f a b c E). Qed.
Lemma RInt_mul_r c (f : R -> R) a b : ex_RInt f a b -> RInt (fun x => f x * c) a b = RInt f a b * c.
Proof. intros E. rewrite Rmult_comm, <- RInt_mul by exact E. apply RInt_ext. intros; apply Rmult_comm. Qed.
Lemma trig_continuous m (t : R) : continuous (trig m : R -> R) t.
Proof.
  assert (L : forall c : R, continuous (fun a : R => c * a) t) by (intros c; apply (continuous_mult (fun _ : R => c) (fun a : R => a)); [apply continuous_const|apply continuous_id]).
  destruct m as [|p|p]; unfold trig.
  - apply continuous_const.
  - apply (continuous_mult (fun _ : R => sqrt 2) (fun a : R => cos (IZR (Z.pos p) * a))); [apply continuous_const|]. apply continuous_cos_comp, L.
  - apply (continuous_mult (fun _ : R => sqrt 2) (fun a : R => sin (IZR (- Z.neg p) * a))); [apply continuous_const|]. apply continuous_sin_comp, L.
Qed.
Lemma trig_integral m : RInt (trig m) 0 (2 * PI) = if (m =? 0)%Z then 2 * PI else 0.
Proof.
  assert (Pz : forall p, IZR (Z.pos p) <> 0) by (intros p; apply not_0_IZR; discriminate). destruct m as [|p|p]; cbn [Z.eqb].
  - rewrite (RInt_ext (trig 0) (fun _ => 1)) by reflexivity. rewrite RInt_const. unfold scal. cbn. unfold Hierarchy.mult. cbn. ring.
  - rewrite (@is_RInt_unique R_CompleteNormedModule (trig (Z.pos p)) 0 (2 * PI) (minus (sqrt 2 / IZR (Z.pos p) * sin (IZR (Z.pos p) * (2 * PI))) (sqrt 2 / IZR (Z.pos p) * sin (IZR (Z.pos p) * 0)))).
    + replace (IZR (Z.pos p) * (2 * PI)) with (0 + 2 * INR (Pos.to_nat p) * PI) by (rewrite INR_IZR_INZ, positive_nat_Z; ring). rewrite sin_period, Rmult_0_r, sin_0. unfold minus, plus, opp. cbn. ring.
    + apply (@is_RInt_derive R_CompleteNormedModule (fun t => sqrt 2 / IZR (Z.pos p) * sin (IZR (Z.pos p) * t)) (trig (Z.pos p))).
      * intros t _. auto_derive; [trivial|]. cbn [trig]. change (- Z.neg p)%Z with (Z.pos p). field. apply Pz.
      * intros t _. apply trig_continuous.
  - rewrite (@is_RInt_unique R_CompleteNormedModule (trig (Z.neg p)) 0 (2 * PI) (minus (- (sqrt 2 / IZR (Z.pos p)) * cos (IZR (Z.pos p) * (2 * PI))) (- (sqrt 2 / IZR (Z.pos p)) * cos (IZR (Z.pos p) * 0)))).
    + replace (IZR (Z.pos p) * (2 * PI)) with (0 + 2 * INR (Pos.to_nat p) * PI) by (rewrite INR_IZR_INZ, positive_nat_Z; ring). rewrite cos_period, Rmult_0_r, cos_0. unfold minus, plus, opp. cbn. ring.
    + apply (@is_RInt_derive R_CompleteNormedModule (fun t => - (sqrt 2 / IZR (Z.pos p)) * cos (IZR (Z.pos p) * t)) (trig (Z.neg p))).
      * intros t _. auto_derive; [trivial|]. cbn [trig]. change (- Z.neg p)%Z with (Z.pos p). field. apply Pz.
      * intros t _. apply trig_continuous.
Qed.
Lemma trig_integrable m a b : ex_RInt (trig m) a b.
Proof. apply (@ex_RInt_continuous R_CompleteNormedModule). intros z _. apply trig_continuous. Qed.
Lemma sh_beta_integrable l m a b : ex_RInt (sh_beta l m) a b.
Proof. apply (@ex_RInt_continuous R_CompleteNormedModule). intros z _. apply sh_beta_continuous. Qed.
Lemma sh_beta_00 y : sh_beta 0 0 y = / sqrt (4 * PI).
Proof.
  rewrite sh_beta_V. cbn [Nat.leb pow]. destruct (V_lead 0 0 (le_n 0)) as (g & (c & Lc & Ec) & Eg). rewrite Eg, Ec. destruct c; [|cbn in Lc; lia]. unfold nlm. cbn [Nat.sub Nat.add Nat.mul fact INR pow RadialModel.poly_at]. pose proof PI_RGT_0.
  replace ((2 * 0 + 1) / (4 * PI) * (1 / 1)) with (/ (4 * PI)) by (field; lra). rewrite sqrt_inv. field. apply Rgt_not_eq, sqrt_lt_R0. lra.
Qed.
Lemma sh_beta_integral l : RInt (sh_beta l 0) (-1) 1 = if (l =? 0)%nat then 2 / sqrt (4 * PI) else 0.
Proof.
  pose proof PI_RGT_0 as Pp. assert (SP : 0 < sqrt (4 * PI)) by (apply sqrt_lt_R0; lra). destruct (Nat.eqb_spec l 0) as [->|N].
  - rewrite (RInt_ext _ (fun _ => / sqrt (4 * PI))) by (intros; apply sh_beta_00). rewrite RInt_const. unfold scal. cbn. unfold Hierarchy.mult. cbn. unfold Rdiv. ring.
  - pose (n := (2 * (l + 1))%nat). assert (X : exact_rule n n (fun i => - cos ((INR i + 1 / 2) / INR n * PI)) (soft_weight n)) by (apply soft_exact; unfold n; [lia|]; rewrite Nat.mul_comm, Nat.mod_mul; lia).
    pose proof (sh_beta_orthonormal n n _ _ l 0 0 X ltac:(unfold n; lia) ltac:(lia) ltac:(lia)) as O. replace (l =? 0)%nat with false in O by (symmetry; apply Nat.eqb_neq; exact N).
    assert (Pf : poly n (sh_beta l 0)). { apply (poly_ext _ (fun y => nlm l 0 * V l 0 y)); [intros y; rewrite sh_beta_V; cbn [Nat.leb pow]; ring|]. apply poly_scale. apply (poly_weaken (S (2 * l) - (l + 0))); [unfold n; lia|apply V_poly]. }
    destruct X as [_ X]. specialize (X _ Pf). unfold Int in X. rewrite <- X.
    apply (Rmult_eq_reg_r (/ sqrt (4 * PI) / 2)); [|apply Rgt_not_eq; apply Rdiv_lt_0_compat; [apply Rinv_0_lt_compat, SP|lra]]. rewrite Rmult_0_l, <- rsum_scal_r, <- O. apply rsum_ext. intros b _. rewrite (sh_beta_00 (- cos ((INR b + 1 / 2) / INR n * PI))). unfold Rdiv. ring.
Qed.
Lemma Ylm_inner l m alpha : ex_RInt (fun y => Ylm l m y alpha) (-1) 1 /\ RInt (fun y => Ylm l m y alpha) (-1) 1 = RInt (sh_beta l (Z.abs_nat m)) (-1) 1 * trig m alpha.
Proof.
  split; [|unfold Ylm; apply RInt_mul_r, sh_beta_integrable]. apply (@ex_RInt_continuous R_CompleteNormedModule). intros z _. unfold Ylm. apply (continuous_mult (sh_beta l (Z.abs_nat m)) (fun _ => trig m alpha)); [apply sh_beta_continuous|apply continuous_const].
Qed.
Lemma expansion_integral n x row : length row = dim x ->
  RInt (fun alpha => RInt (fun y => expansion n x row (fun l m => Ylm l m y alpha)) (-1) 1) 0 (2 * PI) = expansion n x row (fun l m => if ((l =? 0)%nat && (m =? 0)%Z) then sqrt (4 * PI) else 0).
Proof.
  intros L. pose proof PI_RGT_0 as Pp. assert (SP : 0 < sqrt (4 * PI)) by (apply sqrt_lt_R0; lra).
  set (N := num_coeffs (ls x)). set (D := decode (ls x)).
  assert (I1 : forall alpha, RInt (fun y => expansion n x row (fun l m => Ylm l m y alpha)) (-1) 1 = rsum N (fun i => n (fst (D i)) * nth i row 0 * RInt (sh_beta (fst (D i)) (Z.abs_nat (order_of (D i)))) (-1) 1 * trig (order_of (D i)) alpha)).
  { intros alpha. rewrite (RInt_ext _ (fun y => rsum N (fun i => n (fst (D i)) * nth i row 0 * Ylm (fst (D i)) (order_of (D i)) y alpha))) by (intros y _; symmetry; exact (expansion_coeffs n x row (fun l m => Ylm l m y alpha) L)).
    rewrite (proj2 (RInt_rsum N (fun i y => n (fst (D i)) * nth i row 0 * Ylm (fst (D i)) (order_of (D i)) y alpha) (-1) 1 ltac:(intros k _; apply (@ex_RInt_scal R_NormedModule); apply Ylm_inner))).
    apply rsum_ext. intros i _. rewrite RInt_mul by apply Ylm_inner. rewrite (proj2 (Ylm_inner _ _ _)). ring. }
  rewrite (RInt_ext _ _ _ _ (fun alpha _ => I1 alpha)).
  rewrite (proj2 (RInt_rsum N (fun i alpha => n (fst (D i)) * nth i row 0 * RInt (sh_beta (fst (D i)) (Z.abs_nat (order_of (D i)))) (-1) 1 * trig (order_of (D i)) alpha) 0 (2 * PI) ltac:(intros k _; apply (@ex_RInt_scal R_NormedModule), trig_integrable))).
  rewrite <- expansion_coeffs by exact L. apply rsum_ext. intros i Hi. rewrite RInt_mul by apply trig_integrable. rewrite trig_integral. fold (D i). destruct (Z.eqb_spec (order_of (D i)) 0) as [E|E].
  - rewrite E. change (Z.abs_nat 0) with 0%nat. rewrite sh_beta_integral. destruct (Nat.eqb_spec (fst (D i)) 0); cbn [andb]; [|ring]. replace (sqrt (4 * PI)) with (4 * PI / sqrt (4 * PI)) at 2; [field; lra|]. apply (Rmult_eq_reg_r (sqrt (4 * PI))); [|lra]. rewrite sqrt_sqrt by lra. field. lra.
  - rewrite andb_false_r. ring.
Qed.
Lemma sampled lg x B A q n fft pv pa s L : coherent x -> to_s2grid lg x B A q n fft pv pa = Ok s -> top (irr x) L -> (fft = true -> (2 * L + 1 <= A)%nat) ->
  singles (irr x) /\ form (irr x) (g_pval s) (g_parg s) /\ g_lead s = lead x /\ g_beta s = B /\ g_alpha s = A /\ g_quad s = q /\ (q = Soft -> (B mod 2 = 0)%nat) /\
  forall i u v, valid (lead x) i -> (u < B)%nat -> (v < A)%nat -> g_val s i u v = expansion (norm_to_s2 L n) (irr x) (arr x i) (fun l m => Ylm l m (height lg q B u) (alpha_grid A v)).
Proof.
  intros Co E T H1. destruct (to_facts _ _ _ _ _ _ _ _ _ _ Co E) as (L0 & a & b & _ & S1 & P & Q & F0).
  destruct (C45_to_s2grid lg x B A q n fft pv pa a b L Co T S1 P Q) as (s' & E' & G1 & G2 & G3 & G4 & G5 & G6 & Vs); [intros Z; split; [apply F0, Z|apply H1, Z]|]. rewrite E in E'. injection E' as <-.
  split; [exact S1|]. split; [rewrite G5, G6; apply P|]. do 5 (split; [assumption|]). intros i u v Vi Hu Hv. rewrite Vs by assumption. rewrite value_expansion. replace (2 * PI * INR v / INR A) with (alpha_grid A v) by (unfold alpha_grid, Rdiv; ring). reflexivity.
Qed.
(* integrate is the integral of the sampled function over the sphere (measure dy dalpha) *)
Theorem C45_integrate lg x B A q n fft p_val p_arg s L : coherent x -> to_s2grid lg x B A q n fft p_val p_arg = Ok s -> top (irr x) L -> fine lg q B L -> (L < A)%nat -> (fft = true -> (2 * L + 1 <= A)%nat) ->
  yields (integrate lg s) [(1%nat, Irrep 0 (g_pval s))] (lead x) (fun i => [RInt (fun alpha => RInt (fun y => value_at (norm_to_s2 L n) (irr x) (arr x i) y alpha) (-1) 1) 0 (2 * PI)]).
Proof.
  intros Co E T F HA H1. destruct (sampled _ _ _ _ _ _ _ _ _ _ _ Co E T H1) as (S1 & Fm & G1 & G2 & G3 & G4 & Q & Vs). pose proof Co as (Lx & _). pose proof PI_RGT_0 as Pp. assert (SP : 0 < sqrt (4 * PI)) by (apply sqrt_lt_R0; lra).
  unfold integrate. rewrite G2, G3, G4, G1. destruct (quadrature_ok lg q B Q) as (r & Rq & R1 & R2). rewrite Rq. cbn [bind].
  pose (f := fun i => [rsum A (fun a => rsum B (fun b => snd r b * g_val s i b a)) / INR A * 4 * PI]).
  refine (yields_ext _ _ _ f _ _ (new_yields [(1%nat, Irrep 0 (g_pval s))] (lead x) f (fun _ _ => eq_refl))). unfold f.
  intros i Vi. cbv beta. apply (f_equal (fun z : R => z :: nil)). rewrite (RInt_ext _ (fun alpha => RInt (fun y => expansion (norm_to_s2 L n) (irr x) (arr x i) (fun l m => Ylm l m y alpha)) (-1) 1)) by (intros alpha _; apply RInt_ext; intros y _; apply value_expansion).
  rewrite expansion_integral by (apply Lx, Vi).
  transitivity (4 * PI * sqrt (4 * PI) * coefficient A B (height lg q B) (fun b => weight lg q B b / 2) (g_val s i) 0 0).
  - unfold coefficient. rewrite rsum_swap. unfold Rdiv at 1. rewrite Rmult_assoc. rewrite <- rsum_scal_r, <- rsum_scal. rewrite <- rsum_scal_r. apply rsum_ext. intros b _. rewrite R2.
    rewrite (rsum_ext A (fun a => g_val s i b a * Ylm 0 0 (height lg q B b) (alpha_grid A a)) (fun a => / sqrt (4 * PI) * g_val s i b a)) by (intros a _; unfold Ylm; change (Z.abs_nat 0) with 0%nat; rewrite sh_beta_00; cbn [trig]; ring). rewrite !rsum_scal. field. split; [lra|]. apply not_0_INR. lia.
  - rewrite (coefficient_expansion A B (S L) (height lg q B) (weight lg q B) (norm_to_s2 L n) (irr x) L (arr x i)); [|apply fine_exact, F|lia|lia|cbn; lia|exact T|apply Lx, Vi|intros b a Hb Ha; apply Vs; assumption].
    unfold expansion. repeat (rewrite <- rsum_scal; apply rsum_ext; intros ? _). destruct (_ && _)%bool; field. lra.
Qed.
(* ---- resample ---- *)
Lemma nth_s2 L pv pa k : (k < L + 1)%nat -> nth k (s2_irreps L pv pa) none = (1%nat, Irrep k (pmul pv (ppow pa k))).
Proof. intros H. destruct (C44_s2_irreps L pv pa) as (_ & N & _). apply nth_error_nth, N. lia. Qed.
Lemma s2_top L pv pa : top (s2_irreps L pv pa) L /\ singles (s2_irreps L pv pa) /\ of_form (s2_irreps L pv pa) pv pa.
Proof.
  destruct (C44_s2_irreps L pv pa) as (Ln & _ & _ & O). split; [|split; [|exact O]].
  - split.
    + exists (Irrep L (pmul pv (ppow pa L))). split; [|reflexivity]. pose proof (has_nth (s2_irreps L pv pa) L) as H. unfold S2Proofs2.mult in H. rewrite nth_s2 in H by lia. apply H; cbn [fst]; lia.
    + intros ir H. apply has_flat in H. unfold flat in H. apply in_flat_map in H as ([m a] & I & J). apply repeat_spec in J. subst a. unfold s2_irreps in I. apply in_map_iff in I as (l & E & I). injection E as <- <-. apply in_seq in I. cbn [ir_l]. lia.
  - intros ir. unfold s2_irreps. assert (G : forall n c, (count ir (map (fun l => (1%nat, Irrep l (pmul pv (ppow pa l)))) (seq c n)) <= 1)%nat /\ ((ir_l ir < c)%nat -> count ir (map (fun l => (1%nat, Irrep l (pmul pv (ppow pa l)))) (seq c n)) = 0%nat)).
    { induction n as [|n IH]; intros c; [split; [cbn; lia|reflexivity]|]. cbn [seq map]. rewrite count_cons. cbn [fst snd]. destruct (IH (S c)) as [A B]. unfold irrep_eqb. cbn [ir_l ir_p]. destruct (Nat.eqb_spec (ir_l ir) c) as [E|N]; cbn [andb].
      - rewrite B by lia. split; [destruct (parity_eqb _ _); lia|lia].
      - split; [lia|]. intros H. rewrite B by lia. reflexivity. }
    apply G.
Qed.
Lemma expansion_s2 n L pv pa row Y : expansion n (s2_irreps L pv pa) row Y = rsum (L + 1) (fun l => rsum (2 * l + 1) (fun j => n l * entry (s2_irreps L pv pa) row l 0 j * Y l (Z.of_nat j - Z.of_nat l)%Z)).
Proof.
  unfold expansion. rewrite (proj1 (C44_s2_irreps L pv pa)). apply rsum_ext. intros k Hk. unfold S2Proofs2.mult, deg. rewrite nth_s2 by exact Hk. cbn [fst snd ir_l rsum]. rewrite Rplus_0_l. reflexivity.
Qed.
Lemma expansion_resum n x row L Y : top x L -> forall L', (L <= L')%nat -> length row = dim x ->
  rsum (L' + 1) (fun l => rsum (2 * l + 1) (fun j => expansion n x row (fun l' m' => if ((l' =? l)%nat && (m' =? Z.of_nat j - Z.of_nat l)%Z) then 1 else 0) * Y l (Z.of_nat j - Z.of_nat l)%Z)) = expansion n x row Y.
Proof.
  intros T L' H Lr. pose proof (top_bound x L T) as Bd. set (N := num_coeffs (ls x)). set (D := decode (ls x)).
  transitivity (rsum N (fun i => rsum (L' + 1) (fun l => rsum (2 * l + 1) (fun j => n (fst (D i)) * nth i row 0 * (if ((fst (D i) =? l)%nat && (order_of (D i) =? Z.of_nat j - Z.of_nat l)%Z) then 1 else 0) * Y l (Z.of_nat j - Z.of_nat l)%Z)))).
  - rewrite rsum_swap. apply rsum_ext. intros l _. rewrite rsum_swap. apply rsum_ext. intros j _. rewrite <- expansion_coeffs by exact Lr. rewrite <- rsum_scal_r. reflexivity.
  - rewrite <- expansion_coeffs by exact Lr. apply rsum_ext. intros i Hi. fold (D i). destruct (decode_spec _ _ Hi) as [D1 D2]. fold (D i) in D1, D2. rewrite Forall_forall in Bd. specialize (Bd _ D1).
    rewrite (rsum_ext (L' + 1) _ (fun l => if (l =? fst (D i))%nat then n (fst (D i)) * nth i row 0 * Y (fst (D i)) (order_of (D i)) else 0)).
    + apply (rsum_delta (L' + 1) (fst (D i)) (fun _ => n (fst (D i)) * nth i row 0 * Y (fst (D i)) (order_of (D i)))). lia.
    + intros l _. destruct (Nat.eqb_spec l (fst (D i))) as [->|N1].
      * rewrite Nat.eqb_refl. cbn [andb]. rewrite (rsum_ext (2 * fst (D i) + 1) _ (fun j => if (j =? snd (D i))%nat then n (fst (D i)) * nth i row 0 * Y (fst (D i)) (order_of (D i)) else 0)).
        -- apply (rsum_delta _ (snd (D i)) (fun _ => n (fst (D i)) * nth i row 0 * Y (fst (D i)) (order_of (D i)))). exact D2.
        -- intros j _. unfold order_of. destruct (Nat.eqb_spec j (snd (D i))) as [->|N2]; [rewrite Z.eqb_refl; ring|]. replace (_ =? _)%Z with false by (symmetry; apply Z.eqb_neq; lia). ring.
      * apply rsum_zero. intros j _. replace (fst (D i) =? l)%nat with false by (symmetry; apply Nat.eqb_neq; congruence). cbn [andb]. ring.
Qed.
(* resampling a band-limited signal loses nothing: the result has the values of the same function on the new grid *)
Theorem C45_resample lg x B A q n fft p_val p_arg s L L' B' A' q' : coherent x -> to_s2grid lg x B A q n fft p_val p_arg = Ok s -> top (irr x) L -> (fft = true -> (2 * L + 1 <= A)%nat) ->
  (L <= L')%nat -> fine lg q B (L + L') -> (L + L' < A)%nat -> (2 * L' <= A)%nat -> let q2 := match q' with None => q | Some z => z end in (q2 = Soft -> (B' mod 2 = 0)%nat) -> (A' mod 2 = 1)%nat -> (2 * L' + 1 <= A')%nat ->
  exists t, resample lg s B' A' L' q' = Ok t /\ g_lead t = lead x /\ g_beta t = B' /\ g_alpha t = A' /\ g_quad t = q2 /\ g_pval t = g_pval s /\ g_parg t = g_parg s /\
  forall i u v, valid (lead x) i -> (u < B')%nat -> (v < A')%nat -> g_val t i u v = value_at (norm_to_s2 L n) (irr x) (arr x i) (height lg q2 B' u) (2 * PI * INR v / INR A').
Proof.
  intros Co E T H1 HL F HA HA2 q2 Q2 O' HA'. destruct (s2_top L' (g_pval s) (g_parg s)) as (T' & S' & O).
  destruct (round_trip lg x B A q n fft p_val p_arg s (s2_irreps L' (g_pval s) (g_parg s)) L L' Integral None true Co E T T' S' O F HA H1 ltac:(auto)) as (row & (c & Ec & C1 & C2 & C3 & C4) & Vr).
  destruct (sampled _ _ _ _ _ _ _ _ _ _ _ Co E T H1) as (S1 & Fm & G1 & G2 & G3 & G4 & Q & Vs).
  unfold resample. rewrite Ec. cbn [bind]. rewrite G4. fold q2. rewrite <- C1 in T', S'.
  destruct (C45_to_s2grid lg c B' A' q2 Integral true (Some (g_pval s)) (Some (g_parg s)) (g_pval s) (g_parg s) L' C3 T' S') as (t & Et & K1 & K2 & K3 & K4 & K5 & K6 & W).
  - split; [|split; reflexivity]. rewrite C1. intros ir H. apply has_flat in H. unfold flat in H. apply in_flat_map in H as ([m a] & I & J). apply repeat_spec in J. subst a. apply (O m ir I).
  - exact Q2.
  - auto.
  - exists t. rewrite C2 in *. do 7 (split; [first [exact Et|assumption]|]). intros i u v Vi Hu Hv. rewrite W by assumption. rewrite !value_expansion, C1, C4 by exact Vi. pose proof Co as (Lx & _).
    rewrite expansion_s2. rewrite <- (expansion_resum (norm_to_s2 L n) (irr x) (arr x i) L _ T L' HL (Lx i Vi)). apply rsum_ext. intros l Hl. apply rsum_ext. intros j Hj.
    rewrite Vr; [|exact Vi|apply inside_cases; rewrite (proj1 (C44_s2_irreps L' (g_pval s) (g_parg s))); unfold S2Proofs2.mult, deg; rewrite nth_s2 by exact Hl; cbn [fst snd ir_l]; repeat split; (exact Hl || lia || exact Hj)].
    unfold deg. rewrite nth_s2 by exact Hl. cbn [snd ir_l]. rewrite <- Rmult_assoc. f_equal. pose proof PI_RGT_0 as Pp.
    transitivity (4 * PI * expansion (norm_to_s2 L n) (irr x) (arr x i) (fun l' m' => if ((l' =? l)%nat && (m' =? Z.of_nat j - Z.of_nat l)%Z) then / (4 * PI) else 0)).
    + unfold norm_to_s2 at 1, norm_from_s2. rewrite <- (sqrt_sqrt (4 * PI)) at 3 by lra. ring.
    + unfold expansion. repeat (rewrite <- rsum_scal; apply rsum_ext; intros ? _). destruct (_ && _)%bool; field. lra.
Qed.
