(* tensor_product_with_spherical_harmonics: the rotation to the pole and back. *)
From Coq Require Import Reals ZArith Arith Lia Lra Bool List.
From Verif Require Import PyBase IrrepsModel IrrepsProofs IrrepsProofs2 ArrayModel ArrayProofs ArrayOps RechunkProofs LeadModel LeadProofs ArithProofs SumR CGModel CGProofs10 ActProofs EquivProofs EquivProofs2 EntryProofs TPModel TPProofs TPProofs2 TPProofs3 StableSort GradProofs.
From Verif Require Import RotationModel RotationProofs RotationProofs2 RotationProps WignerModel WignerProofs WignerProofs2 WignerProps S2Model S2Proofs2 SHModel SHProofs SHProofs2 SHProps SHProps2 SHProps3 TpshCG TpshModel TpshProofs.
Import ListNotations.
Open Scope R_scope.

(* ---- arrays without zero-flagged chunk ---- *)
Definition dense (x : iarray) : Prop := Forall (fun c => c <> None) (chunks x).
Definition makes (r : res iarray) (x : irreps) (s : shape) (a : idx -> list R) : Prop :=
  exists y, r = Ok y /\ irr y = x /\ lead y = s /\ coherent y /\ dense y /\ forall i, valid s i -> arr y i = a i.
Lemma dense_flags x : coherent x -> dense x <-> Forall (fun b => b = false) (zero_flags x).
Proof.
  intros H. rewrite (chunks_flags x H). unfold dense. rewrite Forall_map. split; intros F; eapply Forall_impl; try exact F; intros [c|]; cbn; congruence.
Qed.
Lemma makes_yields r x s a : makes r x s a -> yields r x s a.
Proof. intros (y & E & A & B & C & _ & D). exists y. auto. Qed.
Lemma new_makes x s a : (forall i, valid s i -> length (a i) = dim x) -> makes (mkIA x s (dim x) a None None) x s a.
Proof.
  intros L. rewrite mkIA_ok by auto. eexists. split; [reflexivity|]. destruct (fresh_chunks x s a L) as [C D]. split; [reflexivity|]. split; [reflexivity|]. split; [exact C|]. split; [exact D|]. reflexivity.
Qed.
Lemma transform_makes D x : coherent x -> dense x -> rep_ok D -> makes (transform D x) (irr x) (lead x) (fun i => act D (irr x) (arr x i)).
Proof.
  intros C N HD. destruct (transform_act D x C HD) as (y & E & A & B & Cy & Dy). exists y. split; [exact E|]. repeat (split; [assumption|]). split; [|exact Dy]. apply dense_flags; [exact Cy|]. rewrite (transform_flags D x y C E). now apply dense_flags.
Qed.
Lemma act_id x row : length row = dim x -> act (rep_of mone) x row = row.
Proof. intros L. apply acts_id; [apply rep_of_trivial|]. now rewrite dims_flat. Qed.
Lemma act_comp r s x row : orthogonal3 r -> orthogonal3 s -> length row = dim x -> act (rep_of r) x (act (rep_of s) x row) = act (rep_of (mmul r s)) x row.
Proof. intros Hr Hs L. apply acts_comp; [apply as_rep_ok|now apply rep_of_composes|]. now rewrite dims_flat. Qed.

(* ---- fix_gimbal_lock ---- *)
Definition fixing (lock : bool) : mat := if lock then angles_to_matrix 0 (PI / 2) 0 else mone.
Lemma fixing_rotation lock : rotation (fixing lock).
Proof. destruct lock; [apply rotation_angles|apply rotation_one]. Qed.
Definition directed (inv : bool) (r : mat) : mat := if inv then mtr r else r.
Lemma directed_o3 inv r : rotation r -> orthogonal3 (directed inv r).
Proof. intros H. apply o3_rotation in H. destruct inv; [now apply o3_tr|exact H]. Qed.
Lemma by_angles_makes x a b c inv : coherent x -> dense x -> makes (transform_by_angles x a b c 0 inv) (irr x) (lead x) (fun i => act (rep_of (directed inv (angles_to_matrix (opt a) (opt b) (opt c)))) (irr x) (arr x i)).
Proof.
  intros C N. rewrite C39_transform_by_angles, by_matrix. cbv zeta. cbn [pow]. rewrite scale_one. apply transform_makes; [assumption|assumption|apply as_rep_ok].
Qed.
Lemma by_angles_yields x a b c inv : coherent x -> yields (transform_by_angles x a b c 0 inv) (irr x) (lead x) (fun i => act (rep_of (directed inv (angles_to_matrix (opt a) (opt b) (opt c)))) (irr x) (arr x i)).
Proof.
  intros C. rewrite C39_transform_by_angles, by_matrix. cbv zeta. cbn [pow]. rewrite scale_one. apply transform_act; [assumption|apply as_rep_ok].
Qed.
Lemma fix_makes lock inv x : coherent x -> makes (fix_gimbal_lock lock inv x) (irr x) (lead x) (fun i => act (rep_of (directed inv (fixing lock))) (irr x) (arr x i)).
Proof.
  intros C. unfold fix_gimbal_lock. destruct (by_angles_yields x None (Some (PI / 2)) None inv C) as (y & -> & A & B & Cy & Dy). cbn [bind].
  assert (Lx : forall i, valid (lead x) i -> length (arr x i) = dim (irr x)) by apply C.
  destruct (new_makes (irr x) (lead x) (fun i => if lock then arr y i else arr x i)) as (z & E & Az & Bz & Cz & Nz & Dz).
  { intros i Hi. destruct lock; [rewrite <- A; apply Cy; now rewrite B|now apply Lx]. }
  exists z. split; [exact E|]. repeat (split; [assumption|]). intros i Hi. rewrite Dz by exact Hi. destruct lock; [apply Dy, Hi|]. replace (directed inv (fixing false)) with mone by (destruct inv; reflexivity). symmetry. apply act_id, Lx, Hi.
Qed.

(* ---- the angles ---- *)
Definition dir (v : list R) : list R := if Req_EM_T (len2 v) 0 then [0; 0; 1] else v.
Lemma len2_nonneg v : 0 <= len2 v.
Proof. unfold len2, lsum. induction v as [|a v IH]; cbn [map fold_right]; [lra|]. pose proof (pow2_ge_0 a). lra. Qed.
Lemma normalize_row_normalized v : normalize_row v = normalized v.
Proof.
  unfold normalize_row, normalized. cbv zeta. fold (len2 v). pose proof (len2_nonneg v). unfold Rltb. destruct (Rlt_dec 0 (len2 v)), (Req_EM_T (len2 v) 0); try reflexivity; lra.
Qed.
Lemma three (v : list R) : length v = 3%nat -> exists a b c, v = [a; b; c].
Proof. destruct v as [|a [|b [|c [|]]]]; try discriminate. eauto. Qed.
Lemma row_vec_act r p v : rotation r -> length v = 3%nat -> row_vec (act (rep_of r) [(1%nat, Irrep 1 p)] v) = mapply r (row_vec v).
Proof.
  intros H L. assert (O := o3_rotation r H). assert (A : forall c, (c < 3)%nat -> nth c (act (rep_of r) [(1%nat, Irrep 1 p)] v) 0 = rsum 3 (fun j => entry3 r c j * fn v j)).
  { intros c Hc. pose proof (act_vector (rep_of r) p v c (as_rep_ok _) L Hc) as E. unfold fn at 1 in E. rewrite E. apply rsum_ext. intros j Hj. f_equal. unfold rep_of. rewrite as_rep_at by assumption. destruct (C39_low_degrees r c j O Hc Hj) as (E1 & E2 & _). destruct p; [|exact E1]. rewrite E2. destruct H as (_ & _ & Dt). change (mat_det r) with (det r). rewrite Dt. ring. }
  unfold row_vec. rewrite !A by lia. destruct r as [r0 r1 r2 r3 r4 r5 r6 r7 r8]. unfold mapply. cbn [rsum entry3 vx vy vz m00 m01 m02 m10 m11 m12 m20 m21 m22]. unfold fn. apply vec_eq; cbn [vx vy vz]; ring.
Qed.
Lemma rotation_unit r v : rotation r -> unit_vec v -> unit_vec (mapply r v).
Proof.
  intros (_ & H & _) U. destruct r as [a b c d e f g h i], v as [x y z]. unfold unit_vec in *. unfold mapply, mmul, mtr, mone in *. cbn [vx vy vz m00 m01 m02 m10 m11 m12 m20 m21 m22] in *. injection H as E0 E1 E2 _ E3 E4 _ _ E5.
  transitivity ((a * a + d * d + g * g) * (x * x) + (b * b + e * e + h * h) * (y * y) + (c * c + f * f + i * i) * (z * z) + 2 * (a * b + d * e + g * h) * (x * y) + 2 * (a * c + d * f + g * i) * (x * z) + 2 * (b * c + e * f + h * i) * (y * z)); [ring|]. rewrite E0, E1, E2, E3, E4, E5. lra.
Qed.
Lemma rotation_back r v : rotation r -> mapply r (mapply (mtr r) v) = v.
Proof. intros (H & _ & _). rewrite <- mapply_mmul, H. destruct v. unfold mapply, mone. apply vec_eq; cbn; ring. Qed.
Lemma normalized_unit v : length v = 3%nat -> len2 v <> 0 -> unit_vec (row_vec (normalized v)).
Proof.
  intros L N. destruct (three v L) as (a & b & c & ->). pose proof (len2_nonneg [a; b; c]) as P0. unfold normalized. fold (len2 [a; b; c]). destruct (Req_EM_T _ 0); [contradiction|]. set (s := len2 [a; b; c]) in *. unfold unit_vec, row_vec. cbn [map nth vx vy vz].
  assert (Ss : sqrt s * sqrt s = s) by (apply sqrt_sqrt; exact P0). assert (S0 : sqrt s <> 0) by (intros E; rewrite E in Ss; lra).
  transitivity ((a * a + b * b + c * c) / (sqrt s * sqrt s)); [field; exact S0|]. rewrite Ss. replace (a * a + b * b + c * c) with s by (unfold s, len2, lsum; cbn [map fold_right]; ring). now field.
Qed.
Lemma len2_zero v : length v = 3%nat -> len2 v = 0 -> v = [0; 0; 0].
Proof.
  intros L E. destruct (three v L) as (a & b & c & ->). unfold len2, lsum in E. cbn [map fold_right] in E. pose proof (pow2_ge_0 a). pose proof (pow2_ge_0 b). pose proof (pow2_ge_0 c).
  assert (Z : forall t, t ^ 2 = 0 -> t = 0) by (intros t Et; destruct (Req_dec t 0) as [|Nt]; [assumption|]; exfalso; apply (pow_nonzero t 2 Nt Et)). rewrite (Z a), (Z b), (Z c) by lra. reflexivity.
Qed.
Lemma zero_angles : let '(a, b) := xyz_to_angles (V 0 0 0) in angles_to_xyz a b = V 0 0 1.
Proof.
  unfold xyz_to_angles. rewrite normalize_zero. cbn [vx vy vz]. rewrite clip1_id by lra. unfold Reqb. destruct (Req_EM_T 0 0) as [_|]; [|contradiction]. cbn [andb]. destruct (Req_EM_T 0 1); [lra|]. destruct (Req_EM_T 0 (-1)); [lra|]. cbv zeta. destruct (arctan2_spec 0 1 ltac:(lra)) as [C Sn]. unfold angles_to_xyz. rewrite C, Sn, acos_0, sin_PI2, cos_PI2. apply vec_eq; cbn [vx vy vz]; ring.
Qed.
(* after fixing and aligning, the pole is sent to the direction of the vector *)
Lemma aligned_direction p v : length v = 3%nat ->
  let w := normalize_row v in let G := fixing (gimbal_lock w) in
  let '(a, b) := xyz_to_angles (row_vec (act (rep_of (directed true G)) [(1%nat, Irrep 1 p)] w)) in
  mapply (mmul G (angles_to_matrix a b 0)) (V 0 1 0) = row_vec (normalized (dir v)).
Proof.
  intros L w G. assert (RG : rotation G) by apply fixing_rotation. unfold w. rewrite normalize_row_normalized. fold w. assert (Lw : length (normalized v) = 3%nat) by (rewrite normalized_length; exact L). cbn [directed]. rewrite row_vec_act by (try (now apply rotation_mtr); exact Lw).
  unfold dir. destruct (Req_EM_T (len2 v) 0) as [Z|Z].
  - pose proof (len2_zero v L Z) as Ev. assert (Ew : normalized v = [0; 0; 0]). { rewrite Ev. unfold normalized. cbn [map]. unfold Rdiv. rewrite !Rmult_0_l. reflexivity. }
    assert (EG : G = mone). { unfold G, w. rewrite normalize_row_normalized, Ew. unfold gimbal_lock. cbn [nth]. rewrite Rabs_R0. unfold Rltb. destruct (Rlt_dec _ _); [lra|reflexivity]. }
    rewrite EG, Ew. rewrite mtr_one. replace (mapply mone (row_vec [0; 0; 0])) with (V 0 0 0) by (unfold row_vec, mapply, mone; apply vec_eq; cbn; ring). pose proof zero_angles as Q. destruct (xyz_to_angles (V 0 0 0)) as [a b]. rewrite mmul_1l, angles_y, Q.
    unfold normalized, row_vec. cbn [map nth]. replace (lsum [0; 0; 1] (fun t => t ^ 2)) with 1 by (unfold lsum; cbn; ring). destruct (Req_EM_T 1 0); [lra|]. rewrite sqrt_1. apply vec_eq; cbn; field.
  - pose proof (normalized_unit v L Z) as U. set (u := row_vec (normalized v)) in *. pose proof (C37_unit_round_trip (mapply (mtr G) u) (rotation_unit _ _ (rotation_mtr G RG) U)) as Q. destruct (xyz_to_angles (mapply (mtr G) u)) as [a b]. rewrite mapply_mmul, angles_y, Q. now apply rotation_back.
Qed.
(* ---- the harmonics at the pole are sent to the harmonics of the direction ---- *)
Lemma normalized_pole : normalized [0; 1; 0] = [0; 1; 0].
Proof. unfold normalized. replace (lsum [0; 1; 0] (fun t => t ^ 2)) with 1 by (unfold lsum; cbn; ring). destruct (Req_EM_T 1 0); [lra|]. rewrite sqrt_1. cbn [map]. f_equal; [field|f_equal; [field|f_equal; field]]. Qed.
Lemma fn_pole i : (i < 3)%nat -> fn [0; 1; 0] i = pole i.
Proof. intros Hi. destruct i as [|[|[|i]]]; [reflexivity..|lia]. Qed.
Lemma moved_harmonics R0 p n v Y : rotation R0 -> length v = 3%nat -> mapply R0 (V 0 1 0) = row_vec (normalized v) -> natural p Y ->
  act (rep_of R0) Y (rowof Y (fun k _ j => value n true [0; 1; 0] (deg Y k) j)) = rowof Y (fun k _ j => value n true v (deg Y k) j).
Proof.
  intros RR L E N. assert (O := o3_rotation _ RR). set (D := rep_of R0). assert (HD : rep_ok D) by apply as_rep_ok. rewrite act_rowof by exact HD. apply rowof_ext. intros k u j Hin. pose proof (inside_deg Y k u j Hin) as Hj. cbv zeta.
  assert (HI : intertwines clebsch_gordan D) by (apply rep_of_intertwines, O). assert (H0 : mat_at (D (Irrep 0 Even)) 0 0 = 1) by (unfold D, rep_of; rewrite as_rep_at by (cbn; lia); apply (C39_low_degrees R0 0 0 O); lia).
  assert (Ei : snd (nth k Y (0%nat, Irrep 0 Even)) = Irrep (deg Y k) (ppow p (deg Y k))). { change (0%nat, Irrep 0 Even) with none. destruct Hin as (mul & ir & Ek & _). unfold deg. rewrite (nth_error_nth _ _ none Ek). cbn [snd]. unfold natural in N. rewrite Forall_forall in N. specialize (N (mul, ir) (nth_error_In _ _ Ek)). cbn [snd] in N. destruct ir as [l q]. cbn [ir_l ir_p] in *. now subst q. }
  rewrite Ei. unfold ir_dim. cbn [ir_l]. set (l := deg Y k) in *. unfold value.
  transitivity (kappa n l * rsum (2 * l + 1) (fun j' => mat_at (D (Irrep l (ppow p l))) j j' * P l (fn (normalized [0; 1; 0])) j')); [rewrite <- rsum_scal; apply rsum_ext; intros; ring|]. rewrite <- (P_equivariant D p (fn (normalized [0; 1; 0])) HI H0 l j Hj). f_equal. apply P_ext; [|exact Hj]. intros c Hc.
  pose proof normalized_pole as E1.
  rewrite E1. rewrite <- (act_vector D p [0; 1; 0] c HD eq_refl Hc). pose proof (row_vec_act R0 p [0; 1; 0] RR eq_refl) as Q. change (row_vec [0; 1; 0]) with (V 0 1 0) in Q. rewrite E in Q. fold D in Q. unfold row_vec in Q. injection Q as Q0 Q1 Q2. unfold fn. destruct c as [|[|[|c]]]; [exact Q0|exact Q1|exact Q2|lia].
Qed.
(* ---- spherical_harmonics at the pole ---- *)
Lemma sh_dense auto out inp normalize n algorithm z : well_formed inp -> spherical_harmonics auto out inp normalize n algorithm = Ok z -> dense z.
Proof.
  intros W H. assert (C : coherent z) by (destruct (sh_spec _ _ _ _ _ _ _ W H) as (_ & _ & C & _); exact C). apply dense_flags; [exact C|]. unfold spherical_harmonics in H.
  destruct (sh_irreps out inp) as [x|]; cbn [bind] in H; [|discriminate]. destruct (negb _) in H; [discriminate|]. destruct (negb _) in H; [discriminate|].
  match type of H with (let! v := ?m in _) = _ => destruct m as [r|] end; cbn [bind] in H; [|discriminate].
  destruct (num_irreps x =? 0)%nat; [unfold mkIA in H; destruct (negb _) in H; [discriminate|]; cbn [negb] in H; injection H as <-; apply Forall_forall; intros b Hb; apply repeat_spec in Hb; exact Hb|].
  match type of H with (let! alg := ?m in _) = _ => destruct m as [alg|] end; cbn [bind] in H; [|discriminate]. destruct (has_kw KOther alg); [discriminate|]. destruct (negb _) in H; [discriminate|]. destruct (harmonics _ _ _ _) in H; cbn [bind] in H; [|discriminate].
  unfold from_chunks in H. destruct (negb _) in H; [discriminate|]. destruct (negb _) in H; [discriminate|]. destruct (_ || _) in H; cbn [negb] in H; [|discriminate]. unfold mkIA in H. do 4 (destruct (negb _) in H; [discriminate|]).
  injection H as <-. unfold zero_flags. cbn [zf]. rewrite map_map. apply Forall_map, Forall_forall. intros [k m] _. reflexivity.
Qed.
(* ---- impl ---- *)
Definition sh_of (p : parity) (degree : Z) : irreps := map (fun l => (1%nat, Irrep l (ppow p l))) (degrees degree).
Definition sh_row (n : s2norm) (Y : irreps) (v : list R) : list R := rowof Y (fun k _ j => value n true v (deg Y k) j).
Definition computed (n : s2norm) (x Y : irreps) (row v : list R) : list R :=
  let ps := tp_paths NComponent None x Y in sort_row (bil_out ps) (bil_row clebsch_gordan ps x Y row (sh_row n Y v)).
Lemma sh_of_natural p d : natural p (sh_of p d).
Proof. unfold natural, sh_of. apply Forall_map, Forall_forall. reflexivity. Qed.
Lemma impl_makes auto n x v degree p : coherent x -> lead x = [] -> irr x <> [] -> coherent v -> lead v = [] -> irr v = [(1%nat, Irrep 1 p)] ->
  let Y := sh_of p degree in num_irreps Y = 0%nat \/ usable auto None Y ->
  makes (impl auto n x v degree) (regroup_irreps (bil_out (tp_paths NComponent None (irr x) Y))) [] (fun _ => computed n (irr x) Y (arr x []) (dir (arr v []))).
Proof.
  intros Cx Lx Nx Cv Lv Iv Y U. set (ps := tp_paths NComponent None (irr x) Y). unfold impl. assert (V0 : valid (@nil nat) []) by constructor.
  assert (L3 : length (arr v []) = 3%nat) by (rewrite (proj1 Cv []) by (rewrite Lv; constructor); rewrite Iv; reflexivity).
  (* the normalized vector *)
  destruct (new_makes (irr v) (lead v) (fun i => normalize_row (arr v i))) as (v1 & E & I1 & L1 & C1 & _ & R1). { intros i Hi. rewrite normalize_row_normalized, normalized_length. apply Cv, Hi. }
  assert (Dv : dim (irr v) = 3%nat) by (rewrite Iv; reflexivity). rewrite Dv in E. rewrite E. clear E. cbn [bind]. rewrite Lv in *. cbv zeta. rewrite (R1 [] V0). set (w := normalize_row (arr v [])). set (lock := gimbal_lock w). set (G := fixing lock).
  (* fixing *)
  destruct (fix_makes lock true x Cx) as (x2 & -> & I2 & L2 & C2 & N2 & R2). cbn [bind]. rewrite Lx in L2, R2. destruct (fix_makes lock true v1 C1) as (v2 & -> & I2v & L2v & C2v & N2v & R2v). cbn [bind]. rewrite L1 in R2v, L2v. rewrite (R2v [] V0). rewrite (R1 [] V0). rewrite I1, Iv. fold w G.
  pose proof (aligned_direction p (arr v []) L3) as AD. cbv zeta in AD. fold w lock G in AD. destruct (xyz_to_angles _) as [alpha beta]. cbv zeta.
  set (A := angles_to_matrix alpha beta 0) in *. set (R0 := mmul G A) in *. assert (RG : rotation G) by apply fixing_rotation. assert (RA : rotation A) by apply rotation_angles. assert (RR : rotation R0) by now apply rotation_mul.
  (* aligning *)
  destruct (by_angles_makes x2 (Some alpha) (Some beta) None true C2 N2) as (x3 & -> & I3 & L3x & C3 & N3 & R3). cbn [bind]. rewrite L2 in L3x, R3. rewrite I2 in I3.
  (* the pole *)
  rewrite I2v, I1, Iv. destruct (new_makes [(1%nat, Irrep 1 p)] [] (fun _ => [0; 1; 0])) as (q & E & Iq & Lq & Cq & _ & Rq); [reflexivity|]. change (dim [(1%nat, Irrep 1 p)]) with 3%nat in E. rewrite E. clear E. cbn [bind].
  assert (Rq2 : requests (OutList (degrees degree)) (InIrreps q) Y) by (cbn [requests]; exists p; split; [exact Iq|reflexivity]).
  destruct (sh_yields auto (OutList (degrees degree)) (InIrreps q) true n None p Y (Cq : well_formed (InIrreps q)) Rq2 (Iq : vector_of_parity (InIrreps q) p) (sh_of_natural p degree)) as (sh & E & Is & Ls & Cs & Rs). { destruct U as [U|U]; [now left|right; split; [reflexivity|exact U]]. }
  pose proof (sh_dense _ _ (InIrreps q) _ _ _ _ (Cq : well_formed (InIrreps q)) E) as Ns. rewrite E. clear E. cbn [bind]. cbn [shape_of points] in Ls, Rs. rewrite Lq in Ls, Rs. specialize (Rs [] V0). rewrite (Rq [] V0) in Rs.
  (* the aligned product *)
  assert (AP := aligned_product_yields x3 sh C3 Cs L3x Ls N3 Ns). rewrite Is, I3 in AP. fold ps in AP. cbv zeta in AP.
  assert (AP' := AP ltac:(unfold Y, sh_of; apply Forall_map, Forall_forall; reflexivity)). clear AP.
  assert (Pl : forall k m, nth_error Y k = Some m -> pole_like (ir_l (snd m)) (fun j => entry Y (arr sh []) k 0 j)).
  { intros k [mul ir] Ek j Hj Nj. cbn [snd] in *. rewrite Rs. assert (Hin : inside Y k 0 j). { exists mul, ir. repeat split; [exact Ek| |exact Hj]. unfold Y, sh_of in Ek. apply nth_error_In in Ek. apply in_map_iff in Ek as (l & El & _). injection El as <- _. lia. }
    rewrite entry_rowof by exact Hin. unfold deg. rewrite (nth_error_nth _ _ none Ek). cbn [snd]. unfold value.
    pose proof normalized_pole as E1.
    rewrite E1. rewrite (P_ext (ir_l ir) (fn [0; 1; 0]) pole fn_pole j Hj). rewrite P_pole by exact Hj. destruct (Nat.eqb_spec j (ir_l ir)); [contradiction|ring]. }
  specialize (AP' Pl). destruct (aligned_product x3 sh) as [o|e]; cbn [bind] in *; [|destruct AP' as (? & ? & _); discriminate]. rewrite I3.
  assert (Fin : makes (let! out := from_chunks (map fst o) (map (fun o0 => Some (snd o0)) o) [] true in let! out0 := ia_regroup out in let! out1 := transform_by_angles out0 (Some alpha) (Some beta) None 0 false in fix_gimbal_lock lock false out1)
    (regroup_irreps (bil_out ps)) [] (fun _ => computed n (irr x) Y (arr x []) (dir (arr v []))));
  [|destruct (irr x) as [|m x0]; [contradiction|exact Fin]].
  destruct AP' as (b & -> & Ib & Lb & Cb & Rb). cbn [bind]. destruct (ia_regroup_yields b Cb) as (c & -> & Ic & Lc & Cc & Rc). cbn [bind]. rewrite Lb in Lc, Rc. rewrite Ib in Ic.
  destruct (by_angles_yields c (Some alpha) (Some beta) None false Cc) as (d & -> & Id & Ld & Cd & Rd). cbn [bind]. rewrite Lc in Ld, Rd. destruct (fix_makes lock false d Cd) as (e & -> & Ie & Le & Ce & Ne & Re). rewrite Ld in Le, Re.
  exists e. split; [reflexivity|]. split; [now rewrite Ie, Id, Ic|]. repeat (split; [assumption|]). intros i Hi. inversion Hi; subst i. clear Hi.
  rewrite (Re [] V0), (Rd [] V0), (Rc [] V0), (Rb [] V0). rewrite Id, Ic, Ib. cbn [directed opt]. fold G A.
  change (concat (map (fun k => nth k (blocks (bil_out ps) (bil_row clebsch_gordan ps (irr x) Y (arr x3 []) (arr sh []))) []) (sort_inv_list (bil_out ps)))) with (sort_row (bil_out ps) (bil_row clebsch_gordan ps (irr x) Y (arr x3 []) (arr sh []))).
  assert (Lx1 : length (arr x []) = dim (irr x)) by (apply Cx; rewrite Lx; constructor).
  assert (Lx3 : arr x3 [] = act (rep_of (mtr R0)) (irr x) (arr x [])). { rewrite (R3 [] V0), (R2 [] V0), I2. cbn [directed opt]. fold A G. rewrite act_comp by (try (apply o3_tr, o3_rotation; assumption); exact Lx1). unfold R0. now rewrite mtr_mmul. }
  assert (Lb' : length (bil_row clebsch_gordan ps (irr x) Y (arr x3 []) (arr sh [])) = dim (bil_out ps)) by apply bil_row_length.
  rewrite act_comp by (try (apply o3_rotation; assumption); exact (maybe_sort_row_length true _ _ Lb')). fold R0.
  etransitivity; [exact (maybe_sort_row_act (rep_of R0) true (bil_out ps) _ (as_rep_ok _) Lb')|]. cbn [maybe_sort_row]. unfold computed. cbv zeta. fold ps. f_equal.
  assert (Lx4 : length (arr x3 []) = dim (irr x)) by (rewrite Lx3; apply act_length, as_rep_ok). assert (Ls4 : length (arr sh []) = dim Y) by (rewrite <- Is; apply Cs; rewrite Ls; exact V0).
  rewrite bil_row_act; [|apply as_rep_ok|apply rep_of_intertwines, o3_rotation, RR|apply tp_paths_ok|exact Lx4|exact Ls4].
  rewrite Lx3, act_comp by (try apply o3_tr; try (apply o3_rotation; assumption); exact Lx1). rewrite (proj1 RR), act_id by exact Lx1. f_equal. rewrite Rs. apply (moved_harmonics R0 p); [exact RR| |exact AD|apply sh_of_natural]. unfold dir. destruct (Req_EM_T _ 0); [reflexivity|exact L3].
Qed.
Lemma impl_empty auto n x v degree p : coherent x -> lead x = [] -> irr x = [] -> coherent v -> lead v = [] -> irr v = [(1%nat, Irrep 1 p)] ->
  num_irreps (sh_of p degree) = 0%nat \/ usable auto None (sh_of p degree) -> impl auto n x v degree = Err NameError.
Proof.
  intros Cx Lx Nx Cv Lv Iv U. unfold impl. assert (V0 : valid (@nil nat) []) by constructor.
  destruct (new_makes (irr v) (lead v) (fun i => normalize_row (arr v i))) as (v1 & E & I1 & L1 & C1 & _ & _). { intros i Hi. rewrite normalize_row_normalized, normalized_length. apply Cv, Hi. }
  assert (Dv : dim (irr v) = 3%nat) by (rewrite Iv; reflexivity). rewrite Dv in E. rewrite E. clear E. cbn [bind]. cbv zeta. set (lock := gimbal_lock (arr v1 [])).
  destruct (fix_makes lock true x Cx) as (x2 & -> & I2 & L2 & C2 & N2 & _). cbn [bind]. destruct (fix_makes lock true v1 C1) as (v2 & -> & I2v & _). cbn [bind]. destruct (xyz_to_angles _) as [alpha beta].
  destruct (by_angles_makes x2 (Some alpha) (Some beta) None true C2 N2) as (x3 & -> & I3 & _ & C3 & _). cbn [bind]. rewrite I2, Nx in I3. rewrite I2v, I1, Iv.
  destruct (new_makes [(1%nat, Irrep 1 p)] [] (fun _ => [0; 1; 0])) as (q & E & Iq & Lq & Cq & _); [reflexivity|]. change (dim [(1%nat, Irrep 1 p)]) with 3%nat in E. rewrite E. clear E. cbn [bind].
  destruct (sh_yields auto (OutList (degrees degree)) (InIrreps q) true n None p (sh_of p degree) (Cq : well_formed (InIrreps q)) (ex_intro _ p (conj Iq eq_refl)) (Iq : vector_of_parity (InIrreps q) p) (sh_of_natural p degree)) as (sh & -> & _). { destruct U as [U|U]; [now left|right; split; [reflexivity|exact U]]. }
  cbn [bind]. unfold aligned_product. rewrite I3. reflexivity.
Qed.
