(* C68, continued: the direction, and linearity in the parameters. *)
From Coq Require Import Reals ZArith Arith Lia Lra Bool List.
From Verif Require Import PyBase IrrepsModel IrrepsProofs IrrepsProofs2 ArrayModel ArrayProofs ArrayOps RechunkProofs LeadModel LeadProofs ArithProofs SumR CGModel CGProofs10 ActProofs EquivProofs EquivProofs2 EntryProofs TPModel TPProofs TPProofs2 TPProofs3 StableSort GradProofs.
From Verif Require Import RotationModel RotationProofs RotationProofs2 RotationProps WignerModel WignerProofs WignerProofs2 WignerProps WignerProps2 S2Model S2Proofs2 SHModel SHProofs SHProofs2 SHProps SHProps2 SHProps3 TpshCG TpshModel TpshProofs TpshProofs2 TpshProofs3 TpshProps.
From Verif Require Import ShtpModel ShtpProofs ShtpProofs2 ShtpProofs3 ShtpProofs4 ShtpProofs5 ShtpProofs6 ShtpProps LinShtpModel LinShtpProofs LinShtpProofs2 LinShtpProofs3 LinShtpProofs4 LinShtpProps.
Import ListNotations.
Open Scope R_scope.

(* only the direction of the vector matters *)
Theorem C68_direction mix w irs x v v' z z' t : coherent x -> coherent v -> coherent v' -> positive_copies (irr x) -> irr v' = irr v -> 0 < t -> arr v' [] = map (Rmult t) (arr v []) -> linear_shtp mix w irs x v = Ok z -> linear_shtp mix w irs x v' = Ok z' ->
  irr z' = irr z /\ lead z' = lead z /\ arr z' [] = arr z [].
Proof.
  intros Cx Cv Cv' _ Iv' Ht Ev' H H'. destruct (lin_shape _ _ _ _ _ _ H) as (Lx & Lv & p & Iv). destruct (lin_value mix w irs x v p z Cx Cv Iv H) as (Iz & Lz & Cz & g & Rg & Eg & Az). rewrite Iv in Iv'. destruct (lin_value mix w irs x v' p z' Cx Cv' Iv' H') as (Iz' & Lz' & Cz' & g' & Rg' & Eg' & Az').
  set (pl := lin_plan mix p w irs (irr x)) in *. split; [congruence|]. split; [congruence|]. rewrite Az, Az'. f_equal. assert (L : length (arr x []) = dim (irr x)) by (apply Cx; rewrite Lx; constructor).
  apply (palong_unique p); [apply lin_plan_ok|exact L|exact Rg|exact Rg'|]. rewrite Eg', Eg, Ev'. pose proof (vector_row v p Cv Lv Iv) as L3. set (u := arr v []) in *. unfold dir. rewrite len2_map. assert (T2 : t ^ 2 <> 0) by (apply pow_nonzero; lra).
  destruct (Req_EM_T (t ^ 2 * len2 u) 0) as [Z|Z], (Req_EM_T (len2 u) 0) as [Z'|Z']; [reflexivity|exfalso; apply Rmult_integral in Z; tauto|exfalso; apply Z; rewrite Z'; ring|].
  rewrite !normalized_vec by (rewrite ?map_length, ?len2_map; assumption). rewrite len2_map. pose proof (len2_nonneg u) as P0. rewrite sqrt_mult by (try exact P0; apply pow2_ge_0). rewrite sqrt_pow2 by lra. assert (sqrt (len2 u) <> 0) by (apply Rgt_not_eq, sqrt_lt_R0; lra).
  destruct (three u L3) as (a & b & c & Eu). rewrite Eu. unfold vmul, row_vec. cbn [map nth vx vy vz]. rewrite <- Eu. apply vec_eq; cbn [vx vy vz]; field; lra.
Qed.
(* a zero vector is read as (0, 0, 1) *)
Theorem C68_zero mix w irs x v v' z z' : coherent x -> coherent v -> coherent v' -> positive_copies (irr x) -> irr v' = irr v -> arr v [] = [0; 0; 0] -> arr v' [] = [0; 0; 1] -> linear_shtp mix w irs x v = Ok z -> linear_shtp mix w irs x v' = Ok z' ->
  irr z' = irr z /\ lead z' = lead z /\ arr z' [] = arr z [].
Proof.
  intros Cx Cv Cv' _ Iv' Ev Ev' H H'. destruct (lin_shape _ _ _ _ _ _ H) as (Lx & Lv & p & Iv). destruct (lin_value mix w irs x v p z Cx Cv Iv H) as (Iz & Lz & Cz & g & Rg & Eg & Az). rewrite Iv in Iv'. destruct (lin_value mix w irs x v' p z' Cx Cv' Iv' H') as (Iz' & Lz' & Cz' & g' & Rg' & Eg' & Az').
  set (pl := lin_plan mix p w irs (irr x)) in *. split; [congruence|]. split; [congruence|]. rewrite Az, Az'. f_equal. assert (L : length (arr x []) = dim (irr x)) by (apply Cx; rewrite Lx; constructor).
  apply (palong_unique p); [apply lin_plan_ok|exact L|exact Rg|exact Rg'|]. rewrite Eg', Eg, Ev, Ev'. unfold dir. destruct (Req_EM_T (len2 [0; 0; 0]) 0) as [_|N]; [|exfalso; apply N; unfold len2, lsum; cbn [map fold_right]; ring]. destruct (Req_EM_T (len2 [0; 0; 1]) 0) as [_|_]; reflexivity.
Qed.
Lemma cells_lin p w w1 w2 irs x mix t : (forall ix q s c u v, w2 ix q s c u v = t * w ix q s c u v + w1 ix q s c u v) ->
  forall row q v k, pl_val x row (cells (lin_plan mix p w2 irs x) q) v k = t * pl_val x row (cells (lin_plan mix p w irs x) q) v k + pl_val x row (cells (lin_plan mix p w1 irs x) q) v k.
Proof.
  intros E row q v k. unfold cells. destruct mix.
  - unfold lin_plan. destruct (Nat.lt_ge_cases q (length (enumerate irs))) as [Hq|Hq].
    + rewrite !(nth_map_at _ _ _ (0%nat, (0%nat, Irrep 0 Even))) by exact Hq. unfold mix_plan. cbn [snd]. unfold pl_val. rewrite !lsum_map. rewrite <- lsum_scal, <- lsum_plus. apply lsum_ext. intros s _. cbn [mix_cell fst snd]. rewrite <- rsum_scal, <- rsum_plus. apply rsum_ext. intros u Hu. rewrite <- rsum_scal, <- rsum_plus. apply rsum_ext. intros c Hc. rewrite E. unfold Rdiv. ring.
    + rewrite !nth_overflow by (rewrite map_length; exact Hq). cbn. ring.
  - unfold lin_plan. set (l := enumerate (regroup_irreps irs)). clearbody l.
    assert (Fl : forall w, flat_map (keep_plan p w x) l = map (fun qs => ((s_mul (snd qs), s_out (snd qs)), [keep_cell w (fst qs) (snd qs)])) (flat_map (fun q => map (fun s => (fst q, s)) (lpaths p (snd (snd q)) x)) l)).
    { intros w'. rewrite map_flat_map. apply flat_map_ext. intros [iz [m b]]. unfold keep_plan. cbn [fst snd]. rewrite map_map. apply map_ext_in. intros s Hs. cbn [fst snd]. pose proof (lpaths_ok p b x) as F. rewrite Forall_forall in F. destruct (F s Hs) as [_ ->]. reflexivity. }
    rewrite !Fl. set (L := flat_map _ l). clearbody L. destruct (Nat.lt_ge_cases q (length L)) as [Hq|Hq].
    + rewrite !(nth_map_at _ _ _ (0%nat, no_path)) by exact Hq. cbn [snd]. unfold pl_val. cbn [lsum fold_right]. rewrite !Rplus_0_r. cbn [keep_cell fst snd]. rewrite <- rsum_scal, <- rsum_plus. apply rsum_ext. intros u Hu. rewrite <- rsum_scal, <- rsum_plus. apply rsum_ext. intros c Hc. rewrite E. destruct (Nat.eqb u v); ring.
    + rewrite !nth_overflow by (rewrite map_length; exact Hq). cbn. ring.
Qed.
Lemma lin_plan_out mix p w w' irs x : pl_out (lin_plan mix p w irs x) = pl_out (lin_plan mix p w' irs x).
Proof. unfold pl_out, lin_plan. destruct mix; [rewrite !map_map; reflexivity|]. rewrite !map_flat_map. apply flat_map_ext. intros q. unfold keep_plan. rewrite !map_map. reflexivity. Qed.
(* linear in the parameters *)
Theorem C68_parameters mix w w1 w2 irs x v z t : coherent x -> coherent v -> positive_copies (irr x) -> (forall ix q s c u v, w2 ix q s c u v = t * w ix q s c u v + w1 ix q s c u v) -> linear_shtp mix w irs x v = Ok z ->
  exists z1 z2, linear_shtp mix w1 irs x v = Ok z1 /\ linear_shtp mix w2 irs x v = Ok z2 /\ irr z1 = irr z /\ irr z2 = irr z /\ arr z2 [] = zipR Rplus (map (Rmult t) (arr z [])) (arr z1 []).
Proof.
  intros Cx Cv _ E H. destruct (lin_shape _ _ _ _ _ _ H) as (Lx & Lv & p & Iv). destruct (lin_makes mix w irs x v p Cx Lx Cv Lv Iv) as [H1 _]. specialize (H1 (ex_intro _ z H)). destruct (lin_value mix w irs x v p z Cx Cv Iv H) as (Iz & Lz & Cz & g & Rg & Eg & Az).
  destruct (lin_makes mix w1 irs x v p Cx Lx Cv Lv Iv) as [_ G1]. destruct (lin_makes mix w2 irs x v p Cx Lx Cv Lv Iv) as [_ G2].
  destruct (G1 H1) as (g1 & Rg1 & Eg1 & z1 & E1 & Iz1 & _ & _ & _ & R1). destruct (G2 H1) as (g2 & Rg2 & Eg2 & z2 & E2 & Iz2 & _ & _ & _ & R2).
  assert (V0 : valid (@nil nat) []) by constructor. specialize (R1 [] V0). specialize (R2 [] V0).
  exists z1, z2. split; [exact E1|]. split; [exact E2|]. rewrite Iz1, Iz2, Iz. split; [f_equal; apply lin_plan_out|]. split; [f_equal; apply lin_plan_out|].
  assert (La : length (arr x []) = dim (irr x)) by (apply Cx; rewrite Lx; constructor).
  rewrite (palong_unique p _ (irr x) (arr x []) g g1) in R1 by (try assumption; try apply lin_plan_ok; congruence). rewrite (palong_unique p _ (irr x) (arr x []) g g2) in R2 by (try assumption; try apply lin_plan_ok; congruence).
  rewrite Az, R1, R2. unfold palong. rewrite (lin_plan_out mix p w2 w), (lin_plan_out mix p w1 w). set (Y := pl_out (lin_plan mix p w irs (irr x))).
  set (row := act (rep_of (mtr g)) (irr x) (arr x [])).
  assert (Er : pl_row (lin_plan mix p w2 irs (irr x)) (irr x) row = lin t (pl_row (lin_plan mix p w irs (irr x)) (irr x) row) (pl_row (lin_plan mix p w1 irs (irr x)) (irr x) row)).
  { unfold pl_row. rewrite (lin_plan_out mix p w2 w), (lin_plan_out mix p w1 w). fold Y. rewrite <- rowof_lin. apply rowof_ext. intros q u k _. now apply cells_lin. }
  assert (L0 : forall w', length (pl_row (lin_plan mix p w' irs (irr x)) (irr x) row) = dim Y) by (intros w'; rewrite pl_row_length; unfold Y; now rewrite (lin_plan_out mix p w' w)).
  assert (HD : rep_ok (rep_of g)) by apply as_rep_ok. rewrite Er. rewrite act_lin by auto. apply TPProofs3.sort_row_lin. rewrite !act_length by auto. reflexivity.
Qed.
