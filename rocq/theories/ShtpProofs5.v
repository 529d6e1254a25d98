(* What shtp returns; it does not depend on the rotation chosen to align the direction. *)
From Coq Require Import Reals ZArith Arith Lia Lra Bool List.
From Verif Require Import PyBase IrrepsModel IrrepsProofs IrrepsProofs2 ArrayModel ArrayProofs ArrayOps RechunkProofs LeadModel LeadProofs ArithProofs SumR CGModel CGProofs10 ActProofs EquivProofs EquivProofs2 EntryProofs TPModel TPProofs TPProofs2 TPProofs3 StableSort GradProofs.
From Verif Require Import RotationModel RotationProofs RotationProofs2 RotationProps WignerModel WignerProofs WignerProofs2 WignerProps S2Model S2Proofs2 SHModel SHProofs SHProofs2 SHProps SHProps2 SHProps3 TpshCG TpshModel TpshProofs TpshProofs2 TpshProofs3 ShtpModel ShtpProofs ShtpProofs2 ShtpProofs3 ShtpProofs4.
Import ListNotations.
Open Scope R_scope.

Definition pole_vec : vec := V 0 1 0.
(* the value, for a rotation that takes the pole to the direction *)
Definition along (ps : list spath) (x : irreps) (row : list R) (g : mat) : list R :=
  act (rep_of g) (shtp_out ps) (shtp_row ps x (act (rep_of (mtr g)) x row)).
Lemma chi_rotation r p : rotation r -> chi r p = 1. Proof. intros H. unfold chi. now rewrite sg_rotation. Qed.
Lemma mmul_as a b c : mmul (mmul a b) c = mmul a (mmul b c). Proof. apply mat_eq; cbn; ring. Qed.
Lemma mmul_one_r a : mmul a mone = a. Proof. apply mat_eq; cbn; ring. Qed.
Lemma mmul_one_l a : mmul mone a = a. Proof. apply mat_eq; cbn; ring. Qed.
Lemma along_move p ps x row g0 g1 r : Forall (sp_ok p x) ps -> length row = dim x -> rotation g0 -> rotation g1 -> orthogonal3 r ->
  mapply g1 pole_vec = mapply (mat_scale (chi r p) (proper r)) (mapply g0 pole_vec) ->
  along ps x (act (rep_of r) x row) g1 = act (rep_of r) (shtp_out ps) (along ps x row g0).
Proof.
  intros F L R0 R1 O E. pose proof (o3_rotation _ R0) as O0. pose proof (o3_rotation _ R1) as O1. pose proof (o3_tr _ O0) as O0t. pose proof (o3_tr _ O1) as O1t.
  set (h := mmul (mtr g1) (mmul r g0)). assert (Oh : orthogonal3 h) by (unfold h; auto using o3_mul).
  assert (Ch : chi h p = chi r p). { unfold h. rewrite !chi_mul by auto using o3_mul. rewrite (chi_rotation (mtr g1)) by now apply rotation_mtr. rewrite (chi_rotation g0) by exact R0. ring. }
  assert (Ph : proper h = mmul (mtr g1) (mmul (proper r) g0)). { unfold h. rewrite !proper_mul by auto using o3_mul. rewrite (proper_of_rotation (mtr g1)) by now apply rotation_mtr. now rewrite (proper_of_rotation g0). }
  assert (Fh : fixes p h).
  { split; [exact Oh|]. rewrite Ph, Ch. rewrite !mapply_mmul. pose proof (chi_sq r p) as Sq.
    assert (Q : mapply (proper r) (mapply g0 (V 0 1 0)) = mapply (mat_scale (chi r p) mone) (mapply g1 pole_vec)). { rewrite E. unfold pole_vec. rewrite <- (mapply_mmul (mat_scale (chi r p) mone)). rewrite scale_mul, Sq, mmul_one_l. now rewrite scale_one. }
    rewrite Q. assert (Z : forall u, mapply (mtr g1) (mapply (mat_scale (chi r p) mone) (mapply g1 u)) = mapply (mat_scale (chi r p) (mmul (mtr g1) g1)) u) by (intros u; apply vec_eq; cbn; ring). rewrite Z. rewrite (proj2 O1). unfold pole_vec. apply vec_eq; cbn; ring. }
  assert (Lt : length (act (rep_of (mtr g0)) x row) = dim x) by (apply act_length, as_rep_ok).
  unfold along. set (y := act (rep_of (mtr g0)) x row) in *.
  rewrite (act_comp r g0 (shtp_out ps) (shtp_row ps x y)) by (auto; apply shtp_row_length). replace (mmul r g0) with (mmul g1 h). 2: { unfold h. rewrite <- mmul_as, (proj1 O1). apply mmul_one_l. }
  rewrite <- (act_comp g1 h (shtp_out ps) (shtp_row ps x y)) by (auto; apply shtp_row_length). f_equal. rewrite (shtp_row_act p h x ps) by assumption. f_equal. unfold y. rewrite !act_comp by auto. f_equal. f_equal. unfold h. rewrite !mmul_as, (proj1 O0). now rewrite mmul_one_r.
Qed.
Lemma along_unique p ps x row g0 g1 : Forall (sp_ok p x) ps -> length row = dim x -> rotation g0 -> rotation g1 -> mapply g1 pole_vec = mapply g0 pole_vec -> along ps x row g1 = along ps x row g0.
Proof.
  intros F L R0 R1 E. assert (Q := along_move p ps x row g0 g1 mone F L R0 R1 o3_one). rewrite act_id in Q by exact L. rewrite Q; [apply act_id; unfold along; rewrite act_length by apply as_rep_ok; reflexivity|].
  rewrite (chi_rotation mone), (proper_of_rotation mone), scale_one by apply rotation_one. rewrite E. set (w := mapply g0 pole_vec). apply vec_eq; cbn; ring.
Qed.
Lemma along_one ps x row : length row = dim x -> along ps x row mone = shtp_row ps x row.
Proof. intros L. unfold along. rewrite mtr_one, (act_id x row L). apply act_id, shtp_row_length. Qed.

Definition out_irreps (p : parity) (f : filter_arg) (x : irreps) : irreps := shtp_out (shtp_paths p (sorted_irs (requested f)) x).
Lemma shtp_makes x v f p : coherent x -> lead x = [] -> irr x <> [] -> coherent v -> lead v = [] -> irr v = [(1%nat, Irrep 1 p)] -> sorted_irs (requested f) <> [] ->
  let ps := shtp_paths p (sorted_irs (requested f)) (irr x) in
  exists g, rotation g /\ mapply g pole_vec = row_vec (normalized (dir (arr v []))) /\
  makes (shtp x v f) (regroup_irreps (shtp_out ps)) [] (fun _ => sort_row (shtp_out ps) (along ps (irr x) (arr x []) g)).
Proof.
  intros Cx Lx Nx Cv Lv Iv Nf ps. unfold shtp. assert (V0 : valid (@nil nat) []) by constructor.
  assert (L3 : length (arr v []) = 3%nat) by (rewrite (proj1 Cv []) by (rewrite Lv; constructor); rewrite Iv; reflexivity).
  assert (Dv : dim (irr v) = 3%nat) by (rewrite Iv; reflexivity).
  rewrite Lx, Lv. rewrite Dv. cbn [assert bind Nat.eqb]. rewrite Iv. cbn [length Nat.eqb assert bind]. change (num_irreps [(1%nat, Irrep 1 p)] =? 1)%nat with true. cbn [assert bind nth snd]. replace (irrep_eqb (Irrep 1 p) (Irrep 1 Odd) || irrep_eqb (Irrep 1 p) (Irrep 1 Even)) with true by (destruct p; reflexivity). cbn [assert bind ir_p].
  destruct (new_makes [(1%nat, Irrep 1 p)] [] (fun i => normalize_row (arr v i))) as (v1 & E & I1 & L1 & C1 & _ & R1). { intros i Hi. inversion Hi. rewrite normalize_row_normalized, normalized_length. exact L3. }
  change (dim [(1%nat, Irrep 1 p)]) with 3%nat in E. rewrite E. clear E. cbn [bind]. cbv zeta. rewrite (R1 [] V0). set (w := normalize_row (arr v [])). set (lock := gimbal_lock w). set (G := fixing lock).
  destruct (fix_makes lock true x Cx) as (x2 & -> & I2 & L2 & C2 & N2 & R2). cbn [bind]. rewrite Lx in L2, R2. destruct (fix_makes lock true v1 C1) as (v2 & -> & I2v & L2v & C2v & N2v & R2v). cbn [bind]. rewrite L1 in R2v, L2v. rewrite (R2v [] V0). rewrite (R1 [] V0). rewrite I1. fold w G.
  pose proof (aligned_direction p (arr v []) L3) as AD. cbv zeta in AD. fold w lock G in AD. cbn [directed] in *. destruct (xyz_to_angles _) as [alpha beta]. cbv zeta.
  set (A := angles_to_matrix alpha beta 0) in *. set (R0 := mmul G A) in *. assert (RG : rotation G) by apply fixing_rotation. assert (RA : rotation A) by apply rotation_angles. assert (RR : rotation R0) by now apply rotation_mul.
  destruct (by_angles_makes x2 (Some alpha) (Some beta) None true C2 N2) as (x3 & -> & I3 & L3x & C3 & N3 & R3). cbn [bind]. rewrite L2 in L3x, R3. rewrite I2 in I3.
  pose proof (shtp_parts_yields p (sorted_irs (requested f)) x3 C3 L3x N3) as SP. cbv zeta in SP. rewrite I3 in SP. fold ps in SP. set (o := shtp_parts p (sorted_irs (requested f)) x3) in *.
  exists R0. split; [exact RR|]. split; [exact AD|].
  assert (Fin : makes (let! out := from_chunks (map fst o) (map (fun o0 => Some (snd o0)) o) [] true in let! out0 := ia_regroup out in let! out1 := transform_by_angles out0 (Some alpha) (Some beta) None 0 false in fix_gimbal_lock lock false out1)
    (regroup_irreps (shtp_out ps)) [] (fun _ => sort_row (shtp_out ps) (along ps (irr x) (arr x []) R0)));
  [|rewrite I3; destruct (sorted_irs (requested f)) as [|i0 is0]; [contradiction|]; destruct (irr x) as [|m x0]; [contradiction|exact Fin]].
  destruct SP as (b & -> & Ib & Lb & Cb & Rb). cbn [bind]. destruct (ia_regroup_yields b Cb) as (c & -> & Ic & Lc & Cc & Rc). cbn [bind]. rewrite Lb in Lc, Rc. rewrite Ib in Ic.
  destruct (by_angles_yields c (Some alpha) (Some beta) None false Cc) as (d & -> & Id & Ld & Cd & Rd). cbn [bind]. rewrite Lc in Ld, Rd. destruct (fix_makes lock false d Cd) as (e & -> & Ie & Le & Ce & Ne & Re). rewrite Ld in Le, Re.
  exists e. split; [reflexivity|]. split; [now rewrite Ie, Id, Ic|]. repeat (split; [assumption|]). intros i Hi. inversion Hi; subst i. clear Hi.
  rewrite (Re [] V0), (Rd [] V0), (Rc [] V0), (Rb [] V0). rewrite Id, Ic, Ib. cbn [directed opt]. fold G A.
  change (concat (map (fun k => nth k (blocks (shtp_out ps) (shtp_row ps (irr x) (arr x3 []))) []) (sort_inv_list (shtp_out ps)))) with (sort_row (shtp_out ps) (shtp_row ps (irr x) (arr x3 []))).
  assert (Lx1 : length (arr x []) = dim (irr x)) by (apply Cx; rewrite Lx; constructor).
  assert (Lx3 : arr x3 [] = act (rep_of (mtr R0)) (irr x) (arr x [])). { rewrite (R3 [] V0), (R2 [] V0), I2. cbn [directed opt]. fold A G. rewrite act_comp by (try (apply o3_tr, o3_rotation; assumption); exact Lx1). unfold R0. now rewrite mtr_mmul. }
  assert (Lb' : length (shtp_row ps (irr x) (arr x3 [])) = dim (shtp_out ps)) by apply shtp_row_length.
  rewrite act_comp by (try (apply o3_rotation; assumption); exact (maybe_sort_row_length true _ _ Lb')). fold R0.
  etransitivity; [exact (maybe_sort_row_act (rep_of R0) true (shtp_out ps) _ (as_rep_ok _) Lb')|]. cbn [maybe_sort_row]. unfold along. now rewrite Lx3.
Qed.
