(* What LinearSHTP returns, and when it fails. *)
From Coq Require Import Reals ZArith Arith Lia Lra Bool List.
From Verif Require Import PyBase IrrepsModel IrrepsProofs IrrepsProofs2 ArrayModel ArrayProofs ArrayOps RechunkProofs LeadModel LeadProofs ArithProofs SumR CGModel CGProofs10 ActProofs EquivProofs EquivProofs2 EntryProofs TPModel TPProofs TPProofs2 TPProofs3 StableSort GradProofs.
From Verif Require Import RotationModel RotationProofs RotationProofs2 WignerModel WignerProofs WignerProofs2 WignerProps S2Model S2Proofs2 SHModel SHProofs SHProofs2 SHProps SHProps2 SHProps3 TpshCG TpshModel TpshProofs TpshProofs2 TpshProofs3 ShtpModel ShtpProofs ShtpProofs2 ShtpProofs3 ShtpProofs4 ShtpProofs5 ShtpProofs6 LinShtpModel LinShtpProofs LinShtpProofs2 LinShtpProofs3.
Import ListNotations.
Open Scope R_scope.

Lemma lin_makes mix w irs x v p : coherent x -> lead x = [] -> coherent v -> lead v = [] -> irr v = [(1%nat, Irrep 1 p)] ->
  let pl := lin_plan mix p w irs (irr x) in
  ((exists z, linear_shtp mix w irs x v = Ok z) -> all_reached mix p irs (irr x)) /\
  (all_reached mix p irs (irr x) -> exists g, rotation g /\ mapply g pole_vec = row_vec (normalized (dir (arr v []))) /\
  makes (linear_shtp mix w irs x v) (regroup_irreps (pl_out pl)) [] (fun _ => sort_row (pl_out pl) (palong pl (irr x) (arr x []) g))).
Proof.
  intros Cx Lx Cv Lv Iv pl. unfold linear_shtp. assert (V0 : valid (@nil nat) []) by constructor.
  assert (L3 : length (arr v []) = 3%nat) by (rewrite (proj1 Cv []) by (rewrite Lv; constructor); rewrite Iv; reflexivity).
  assert (Dv : dim (irr v) = 3%nat) by (rewrite Iv; reflexivity).
  rewrite Lx, Lv. rewrite Dv. cbn [assert bind Nat.eqb]. rewrite Iv. cbn [length Nat.eqb assert bind]. change (num_irreps [(1%nat, Irrep 1 p)] =? 1)%nat with true. cbn [assert bind nth snd]. replace (irrep_eqb (Irrep 1 p) (Irrep 1 Odd) || irrep_eqb (Irrep 1 p) (Irrep 1 Even)) with true by (destruct p; reflexivity). cbn [assert bind ir_p].
  destruct (new_makes [(1%nat, Irrep 1 p)] [] (fun i => normalize_row (arr v i))) as (v1 & E & I1 & L1 & C1 & _ & R1). { intros i Hi. inversion Hi. rewrite normalize_row_normalized, normalized_length. exact L3. }
  change (dim [(1%nat, Irrep 1 p)]) with 3%nat in E. rewrite E. clear E. cbn [bind]. cbv zeta. rewrite (R1 [] V0). set (u := normalize_row (arr v [])). set (lock := gimbal_lock u). set (G := fixing lock).
  destruct (fix_makes lock true x Cx) as (x2 & -> & I2 & L2 & C2 & N2 & R2). cbn [bind]. rewrite Lx in L2, R2. destruct (fix_makes lock true v1 C1) as (v2 & -> & I2v & L2v & C2v & N2v & R2v). cbn [bind]. rewrite L1 in R2v, L2v. rewrite (R2v [] V0). rewrite (R1 [] V0). rewrite I1. fold u G.
  pose proof (aligned_direction p (arr v []) L3) as AD. cbv zeta in AD. fold u lock G in AD. cbn [directed] in *. destruct (xyz_to_angles _) as [alpha beta]. cbv zeta.
  set (A := angles_to_matrix alpha beta 0) in *. set (R0 := mmul G A) in *. assert (RG : rotation G) by apply fixing_rotation. assert (RA : rotation A) by apply rotation_angles. assert (RR : rotation R0) by now apply rotation_mul.
  destruct (by_angles_makes x2 (Some alpha) (Some beta) None true C2 N2) as (x3 & -> & I3 & L3x & C3 & N3 & R3). cbn [bind]. rewrite L2 in L3x, R3. rewrite I2 in I3. rewrite <- I3.
  split.
  - intros [z H]. destruct (lin_parts mix p w irs x3) as [o|] eqn:Eo; [|discriminate H]. exact (lin_parts_err mix p w irs x3 o C3 L3x N3 Eo).
  - intros Ar. destruct (lin_parts_ok mix p w irs x3 C3 L3x N3 Ar) as (o & -> & F). cbn [bind]. pose proof (built_yields x3 _ o F) as SP. rewrite I3 in SP |- *. fold pl in SP.
    exists R0. split; [exact RR|]. split; [exact AD|].
    destruct SP as (b & -> & Ib & Lb & Cb & Rb). cbn [bind]. destruct (ia_regroup_yields b Cb) as (c & -> & Ic & Lc & Cc & Rc). cbn [bind]. rewrite Lb in Lc, Rc. rewrite Ib in Ic.
    destruct (by_angles_yields c (Some alpha) (Some beta) None false Cc) as (d & -> & Id & Ld & Cd & Rd). cbn [bind]. rewrite Lc in Ld, Rd. destruct (fix_makes lock false d Cd) as (e & -> & Ie & Le & Ce & Ne & Re). rewrite Ld in Le, Re.
    exists e. split; [reflexivity|]. split; [now rewrite Ie, Id, Ic|]. repeat (split; [assumption|]). intros i Hi. inversion Hi; subst i. clear Hi.
    rewrite (Re [] V0), (Rd [] V0), (Rc [] V0), (Rb [] V0). rewrite Id, Ic, Ib. cbn [directed opt]. fold G A.
    change (concat (map (fun k => nth k (blocks (pl_out pl) (pl_row pl (irr x) (arr x3 []))) []) (sort_inv_list (pl_out pl)))) with (sort_row (pl_out pl) (pl_row pl (irr x) (arr x3 []))).
    assert (Lx1 : length (arr x []) = dim (irr x)) by (apply Cx; rewrite Lx; constructor).
    assert (Lx3 : arr x3 [] = act (rep_of (mtr R0)) (irr x) (arr x [])). { rewrite (R3 [] V0), (R2 [] V0), I2. cbn [directed opt]. fold A G. rewrite act_comp by (try (apply o3_tr, o3_rotation; assumption); exact Lx1). unfold R0. now rewrite mtr_mmul. }
    assert (Lb' : length (pl_row pl (irr x) (arr x3 [])) = dim (pl_out pl)) by apply pl_row_length.
    rewrite act_comp by (try (apply o3_rotation; assumption); exact (maybe_sort_row_length true _ _ Lb')). fold R0.
    etransitivity; [exact (maybe_sort_row_act (rep_of R0) true (pl_out pl) _ (as_rep_ok _) Lb')|]. cbn [maybe_sort_row]. unfold palong. now rewrite Lx3.
Qed.
Lemma lin_shape mix w irs x v z : linear_shtp mix w irs x v = Ok z -> lead x = [] /\ lead v = [] /\ exists p, irr v = [(1%nat, Irrep 1 p)].
Proof.
  intros H. unfold linear_shtp in H. destruct (lead x) as [|? ?] eqn:Lx; cbn [assert bind] in H; [|discriminate]. destruct (lead v) as [|? ?] eqn:Lv; cbn [assert bind] in H; [|discriminate].
  destruct (dim (irr v) =? 3)%nat; cbn [assert bind] in H; [|discriminate]. destruct (Nat.eqb_spec (length (irr v)) 1) as [E1|]; cbn [assert bind] in H; [|discriminate]. destruct (Nat.eqb_spec (num_irreps (irr v)) 1) as [E2|]; cbn [assert bind] in H; [|discriminate].
  destruct (num_irreps_one _ E1 E2) as [ir Iv]. rewrite Iv in H. cbn [nth snd] in H. split; [reflexivity|]. split; [reflexivity|].
  destruct (irrep_eqb ir (Irrep 1 Odd)) eqn:Q1; [apply irrep_eqb_eq in Q1; subst ir; eauto|]. destruct (irrep_eqb ir (Irrep 1 Even)) eqn:Q2; [apply irrep_eqb_eq in Q2; subst ir; eauto|]. discriminate H.
Qed.
Lemma lin_value mix w irs x v p z : coherent x -> coherent v -> irr v = [(1%nat, Irrep 1 p)] -> linear_shtp mix w irs x v = Ok z -> let pl := lin_plan mix p w irs (irr x) in
  irr z = regroup_irreps (pl_out pl) /\ lead z = [] /\ coherent z /\ exists g, rotation g /\ mapply g pole_vec = row_vec (normalized (dir (arr v []))) /\ arr z [] = sort_row (pl_out pl) (palong pl (irr x) (arr x []) g).
Proof.
  intros Cx Cv Iv H pl. destruct (lin_shape _ _ _ _ _ _ H) as (A & B & _). destruct (lin_makes mix w irs x v p Cx A Cv B Iv) as [H1 H2]. destruct (H2 (H1 (ex_intro _ z H))) as (g & Rg & Eg & z' & H' & I' & L' & C' & _ & V'). assert (z' = z) by congruence. subst z'. split; [exact I'|]. split; [exact L'|]. split; [exact C'|]. exists g. split; [exact Rg|]. split; [exact Eg|]. apply V'. constructor.
Qed.
