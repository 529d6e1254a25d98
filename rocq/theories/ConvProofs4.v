(* The messages of the convolution: what one edge contributes. *)
From Coq Require Import Reals Lra Lia List Arith Bool.
From Verif Require Import PyBase PermModel PermProofs IrrepsModel IrrepsProofs IrrepsProofs2 IrrepsStr ArrayModel ArrayProofs ArrayOps RechunkProofs ArithProofs LeadModel LeadProofs BlockProofs AxisProofs StackProofs BilinProofs ActProofs EquivProofs EquivProofs2 SumR EntryProofs ArrayProps2 TPModel TPProofs TPProofs2 StableSort TPProofs3 TPProps TPProps2 GradProofs CGModel RotationModel WignerModel WignerProofs WignerProofs2 WignerProps S2Model SHModel S2Proofs2 SHProps SHProps3 ScatterModel ScatterProps NormProofs LinearModel LinearProofs LinearProps LinearComplete LinModModel LinModProofs LinModProofs2 LinModProps ActivationModel MlpModel MlpProps ConvModel ConvProofs ConvProofs2 ConvProofs3.
Import ListNotations.
Open Scope nat_scope.

(* ---- selecting irreps ---- *)
Lemma sel_drop P x row : sel_row P x row = drop_row (map (fun m => negb (P (snd m))) x) x row /\ sel_irreps P x = select (map negb (map (fun m => negb (P (snd m))) x)) x.
Proof.
  assert (E : map negb (map (fun m : mulirrep => negb (P (snd m))) x) = map (fun m => P (snd m)) x) by (rewrite map_map; apply map_ext; intros m; apply negb_involutive).
  unfold drop_row. rewrite E. split; [symmetry; apply TPProps.select_filter|]. symmetry. apply ArrayOps.select_filter.
Qed.
Lemma sel_row_len P x row : length row = dim x -> length (sel_row P x row) = dim (sel_irreps P x).
Proof.
  intros L. destruct (sel_drop P x row) as [-> ->]. pose proof (st_len _ _ _ _ _ _ _ (drop_stage (map (fun m : mulirrep => negb (P (snd m))) x) x [] ltac:(apply map_length)) (fun _ => row) [] ltac:(constructor) ltac:(intros; exact L)) as H. exact H.
Qed.
Lemma sel_row_act D P x row : rep_ok D -> length row = dim x -> act D (sel_irreps P x) (sel_row P x row) = sel_row P x (act D x row).
Proof.
  intros HD L. destruct (sel_drop P x row) as [-> ->]. destruct (sel_drop P x (act D x row)) as [-> _]. apply select_act; assumption.
Qed.
Lemma sel_row_lin P x t a b : length a = length b -> sel_row P x (lin t a b) = lin t (sel_row P x a) (sel_row P x b).
Proof. intros L. rewrite (proj1 (sel_drop P x (lin t a b))), (proj1 (sel_drop P x a)), (proj1 (sel_drop P x b)). now apply drop_row_lin. Qed.
Lemma tp_row_len cg nrm flt x y rx ry : length (tp_row cg nrm flt true x y rx ry) = dim (tp_out nrm flt true x y).
Proof.
  unfold tp_row, tp_out. cbv zeta. set (ps := tp_paths _ _ _ _). rewrite StableSort.sort_row_length by apply bil_row_length. cbn [maybe_regroup]. unfold regroup_irreps. rewrite (dim_flat (simplify _)), flat_simplify, sort_irreps_idem, <- dim_flat. reflexivity.
Qed.

(* ---- the messages before mixing ---- *)
Definition wanted (C : conv) : list irrep := map snd (c_target C).
Definition comb_irreps (C : conv) (p : parity) (x : irreps) : irreps := sel_irreps (passes (Some (wanted C))) x ++ tp_out (c_inorm C) (Some (wanted C)) true x (shx C p).
Definition comb_row (C : conv) (p : parity) (x : irreps) (row sh : list R) : list R :=
  sort_row' (comb_irreps C p x) (sel_row (passes (Some (wanted C))) x row ++ tp_row clebsch_gordan (c_inorm C) (Some (wanted C)) true x (shx C p) row sh).
Lemma combine_yields C p m a : c_inorm C <> NOther -> coherent m -> coherent a -> irr a = scalars C :: shx C p -> lead m = lead a ->
  yields (conv_combine C m a) (regroup_irreps (comb_irreps C p (irr m))) (lead m) (fun i => comb_row C p (irr m) (arr m i) (skipn (c_width C) (arr a i))).
Proof.
  intros Hn Cm Ca Ia Lma. unfold conv_combine. eapply yields_bind; [apply (ia_filter_row (wanted C) m Cm)|]. intros m1 _ I1 L1 C1 A1.
  eapply yields_bind; [apply (attrs_drop C p a Ca Ia)|]. intros sh _ I2 L2 C2 A2.
  assert (B : broadcast_shapes (lead m) (lead sh) = Ok (lead m)) by (rewrite L2, <- Lma; apply broadcast_refl).
  eapply yields_bind; [apply (tensor_product_yields clebsch_gordan (c_inorm C) (Some (wanted C)) true m sh (lead m) Cm C2 Hn B)|]. intros m2 _ I3 L3 C3 A3.
  assert (F : Forall (fun y => coherent y /\ lead y = lead m) [m1; m2]) by (constructor; [split; assumption|constructor; [split; assumption|constructor]]).
  eapply yields_bind; [apply (concat_last_yields (lead m) [m1; m2] ltac:(discriminate) F)|]. intros w _ I4 L4 C4 A4.
  assert (J : irr w = comb_irreps C p (irr m)) by (rewrite I4; cbn [flat_map]; rewrite I1, I3, I2, app_nil_r; reflexivity). pose proof (ia_regroup_yields w C4) as Y. rewrite J, L4 in Y. eapply yields_ext; [|exact Y].
  intros i Hi. cbv beta. unfold comb_row, sort_row'. rewrite A4 by exact Hi. cbn [flat_map]. rewrite app_nil_r. rewrite A1, A3 by exact Hi. rewrite I2. rewrite bidx_id by exact Hi. rewrite L2, <- Lma. rewrite bidx_id by exact Hi. rewrite A2 by (rewrite <- Lma; exact Hi). reflexivity.
Qed.
Lemma combine_kin C p m a m' a' z w : c_inorm C <> NOther -> kin m m' -> kin a a' -> irr a = scalars C :: shx C p -> lead m = lead a -> lead m' = lead a' -> conv_combine C m a = Ok z -> conv_combine C m' a' = Ok w -> kin z w.
Proof.
  intros Hn Km Ka Ia Lma Lma' Z W. assert (Ia' : irr a' = scalars C :: shx C p) by (rewrite <- (kin_irr _ _ Ka); exact Ia).
  destruct (yields_inv _ _ _ _ _ Z (combine_yields C p m a Hn (kin_l _ _ Km) (kin_l _ _ Ka) Ia Lma)) as (Iz & _ & Cz & _). destruct (yields_inv _ _ _ _ _ W (combine_yields C p m' a' Hn (kin_r _ _ Km) (kin_r _ _ Ka) Ia' Lma')) as (Iw & _ & Cw & _).
  constructor; auto; [rewrite Iz, Iw, (kin_irr _ _ Km); reflexivity|]. unfold conv_combine in Z, W.
  destruct (ia_filter_row (wanted C) m (kin_l _ _ Km)) as (m1 & E1 & I1 & L1 & C1 & _). destruct (ia_filter_row (wanted C) m' (kin_r _ _ Km)) as (m1' & E1' & I1' & L1' & C1' & _). unfold wanted in E1, E1'. rewrite E1 in Z. rewrite E1' in W. cbn [bind] in Z, W.
  destruct (attrs_drop C p a (kin_l _ _ Ka) Ia) as (s & E2 & I2 & L2 & C2 & _). destruct (attrs_drop C p a' (kin_r _ _ Ka) Ia') as (s' & E2' & I2' & L2' & C2' & _). rewrite E2 in Z. rewrite E2' in W. cbn [bind] in Z, W.
  assert (K1 : kin m1 m1') by (destruct (filter_same _ _ _ _ _ _ _ Km E1 E1') as [Q1 Q2]; constructor; assumption). assert (K2 : kin s s') by (destruct (filter_same _ _ _ _ _ _ _ Ka E2 E2') as [Q1 Q2]; constructor; assumption).
  assert (B : broadcast_shapes (lead m) (lead s) = Ok (lead m)) by (rewrite L2, <- Lma; apply broadcast_refl). assert (B' : broadcast_shapes (lead m') (lead s') = Ok (lead m')) by (rewrite L2', <- Lma'; apply broadcast_refl).
  destruct (tensor_product clebsch_gordan (c_inorm C) (Some (map snd (c_target C))) true m s) as [t|] eqn:E3; [|discriminate]. destruct (tensor_product clebsch_gordan (c_inorm C) (Some (map snd (c_target C))) true m' s') as [t'|] eqn:E3'; [|discriminate]. cbn [bind] in Z, W.
  pose proof (tp_kin _ _ _ _ _ _ _ _ _ _ _ Hn Km K2 B B' E3 E3') as K3.
  destruct (yields_inv _ _ _ _ _ E3 (tensor_product_yields clebsch_gordan (c_inorm C) _ true m s (lead m) (kin_l _ _ Km) C2 Hn B)) as (_ & L3 & C3 & _). destruct (yields_inv _ _ _ _ _ E3' (tensor_product_yields clebsch_gordan (c_inorm C) _ true m' s' (lead m') (kin_r _ _ Km) C2' Hn B')) as (_ & L3' & C3' & _).
  destruct (concat_last [m1; t]) as [q|] eqn:E4; [|discriminate]. destruct (concat_last [m1'; t']) as [q'|] eqn:E4'; [|discriminate]. cbn [bind] in Z, W.
  assert (F : Forall (fun y => coherent y /\ lead y = lead m) [m1; t]) by (constructor; [split; assumption|constructor; [split; assumption|constructor]]). assert (F' : Forall (fun y => coherent y /\ lead y = lead m') [m1'; t']) by (constructor; [split; assumption|constructor; [split; assumption|constructor]]).
  destruct (yields_inv _ _ _ _ _ E4 (concat_last_yields (lead m) [m1; t] ltac:(discriminate) F)) as (_ & _ & Cq & _). destruct (yields_inv _ _ _ _ _ E4' (concat_last_yields (lead m') [m1'; t'] ltac:(discriminate) F')) as (_ & _ & Cq' & _).
  assert (K4 : kin q q') by (destruct (concat_same [m1; t] [m1'; t'] q q') as [Q1 Q2]; auto; constructor; assumption). exact (kin_flags _ _ (respects_regroup _ _ _ _ K4 Z W)).
Qed.
Lemma comb_len C p x row sh : length row = dim x -> length (comb_row C p x row sh) = dim (regroup_irreps (comb_irreps C p x)).
Proof.
  intros L. unfold comb_row. apply (st_len _ _ _ _ _ _ _ (regroup_stage (comb_irreps C p x) []) (fun _ => sel_row (passes (Some (wanted C))) x row ++ tp_row clebsch_gordan (c_inorm C) (Some (wanted C)) true x (shx C p) row sh) []); [constructor|].
  intros _ _. unfold comb_irreps. rewrite app_length, dim_app, tp_row_len, sel_row_len by exact L. reflexivity.
Qed.
Lemma comb_act D C p x row sh : rep_ok D -> scalar_trivial D -> intertwines clebsch_gordan D -> length row = dim x -> length sh = dim (shx C p) ->
  act D (regroup_irreps (comb_irreps C p x)) (comb_row C p x row sh) = comb_row C p x (act D x row) (act D (shx C p) sh).
Proof.
  intros HD HS HI L Ls. unfold comb_row. set (b := sel_row _ x row ++ _). assert (Lb : length b = dim (comb_irreps C p x)) by (unfold b, comb_irreps; rewrite app_length, dim_app, tp_row_len, sel_row_len by exact L; reflexivity).
  pose proof (st_act _ _ _ _ _ _ _ (regroup_stage (comb_irreps C p x) []) D HD HS (fun _ => b) [] ltac:(constructor) ltac:(intros; exact Lb)) as A. cbv beta in A. rewrite A. f_equal. unfold b, comb_irreps. rewrite act_app by (apply sel_row_len, L). rewrite sel_row_act by assumption. f_equal. now apply tp_row_act.
Qed.
Lemma comb_lin C p x t a b sh : length a = dim x -> length b = dim x -> comb_row C p x (lin t a b) sh = lin t (comb_row C p x a sh) (comb_row C p x b sh).
Proof.
  intros La Lb. unfold comb_row. rewrite sel_row_lin by congruence. rewrite tp_row_lin_l by assumption. rewrite <- LinModProofs.lin_app by (rewrite !sel_row_len by assumption; reflexivity). apply LinModProofs.sort_row_lin. rewrite !app_length, !tp_row_len, !sel_row_len by assumption. reflexivity.
Qed.

(* ---- the weights ---- *)
Definition mix_module (C : conv) (n : nat) : mlp := Mlp (c_neurons C ++ [n]) (Some (c_act C)) None OFalse false.
Definition mix_row (C : conv) (P : conv_params) (gn : R) (n : nat) (row : list R) : list R :=
  mlp_row gn false (Some (normalize_function (c_pts C) (c_act C))) None (p_mlp P) 0 (c_neurons C ++ [n]) (c_width C) row.
Lemma mix_len C P gn n row : length row = c_width C -> length (mix_row C P gn n row) = n.
Proof. intros L. unfold mix_row. rewrite mlp_row_length by exact L. apply last_last. Qed.
Record mix_ok (C : conv) (gn : R) : Prop := { mo_gn : gradient_number (c_conf C) None = Ok gn; mo_neurons : Forall (fun n => n <> 0) (c_neurons C); mo_width : c_width C <> 0 }.
Lemma mix_call C P gn n sc : mix_ok C gn -> coherent sc -> irr sc = [scalars C] ->
  exists y, mlp_call (c_conf C) (c_pts C) (mix_module C n) (p_mlp P) (MIrreps sc) = Ok (MIrreps y) /\ coherent y /\ irr y = [(n, Irrep 0 Even)] /\ lead y = lead sc /\ zero_flags y = [false] /\ forall i, arr y i = mix_row C P gn n (arr sc i).
Proof.
  intros [G N W] Cs Is. unfold mlp_call, mix_module. cbn [m_gradient m_act m_with_bias list_neurons output_activation m_output option_map]. rewrite G. cbn [bind].
  assert (D : dim (irr sc) = c_width C) by (rewrite Is; cbn; lia). assert (S0 : is_scalar (irr sc) = true) by (rewrite Is; reflexivity). rewrite S0, D. cbn [negb].
  rewrite layers_rows by (intros _; rewrite removelast_last; constructor; assumption). cbn [bind fst snd]. rewrite last_last. unfold mkIA. assert (D1 : dim [(n, Irrep 0 Even)] = n) by (cbn; lia). rewrite D1, Nat.eqb_refl. cbn [negb bind].
  eexists. split; [reflexivity|]. cbn [irr lead arr zero_flags zf length repeat]. split; [|auto]. apply (fresh_chunks [(n, Irrep 0 Even)] (lead sc) (fun i => mix_row C P gn n (arr sc i))). intros i Hi. rewrite D1. apply mix_len. rewrite <- D. apply Cs, Hi.
Qed.
Lemma scalars_one_r u v : length u = length v -> Forall (fun ir => ir_l ir = 0) v -> Forall2 one_scalar u v.
Proof. revert v. induction u as [|a u IH]; intros [|b v] L F; try discriminate; constructor; inversion F; subst; [right; assumption|]. apply IH; [cbn in L; lia|assumption]. Qed.
Definition mixed_row (C : conv) (P : conv_params) (gn : R) (n : nat) (u v : irreps) (row att : list R) : list R :=
  bil_row clebsch_gordan (ew_paths NComponent None u v) u v row (mix_row C P gn n (firstn (c_width C) att)).
Section Mix.
Variables (C : conv) (P : conv_params) (gn : R) (p : parity) (xm u v : irreps).
Hypothesis M : mix_ok C gn.
Hypothesis Al : align_two_irreps xm [(num_irreps xm, Irrep 0 Even)] = Ok (u, v).
Lemma mix_unfold m a : coherent m -> coherent a -> irr m = xm -> irr a = scalars C :: shx C p -> lead m = lead a ->
  exists y, conv_mix C P m a = elementwise_tensor_product clebsch_gordan NComponent None m y /\ coherent y /\ irr y = [(num_irreps xm, Irrep 0 Even)] /\ lead y = lead m /\ zero_flags y = [false] /\
    forall i, valid (lead m) i -> arr y i = mix_row C P gn (num_irreps xm) (firstn (c_width C) (arr a i)).
Proof.
  intros Cm Ca Im Ia Lma. destruct (attrs_keep C p a Ca Ia) as (sc & Es & Is & Ls & Cs & As). unfold conv_mix. rewrite Es. cbn [bind]. rewrite Im. fold (mix_module C (num_irreps xm)).
  destruct (mix_call C P gn (num_irreps xm) sc M Cs Is) as (y & Ey & Cy & Iy & Ly & Fy & Ay). rewrite Ey. cbn [bind]. exists y. split.
  - apply (C22_mul_is_elementwise clebsch_gordan m y u v); [rewrite Im, Iy; exact Al|]. rewrite Im, Iy. apply scalars_one_r; [cbn [flat flat_map]; rewrite app_nil_r, repeat_length; symmetry; apply num_irreps_flat|]. cbn [flat flat_map]. rewrite app_nil_r. apply Forall_forall. intros ir Hi. apply repeat_spec in Hi as ->. reflexivity.
  - split; [exact Cy|]. split; [exact Iy|]. split; [congruence|]. split; [exact Fy|]. intros i Hi. rewrite Ay, As by (rewrite <- Lma; exact Hi). reflexivity.
Qed.
Lemma mix_yields m a : coherent m -> coherent a -> irr m = xm -> irr a = scalars C :: shx C p -> lead m = lead a ->
  yields (conv_mix C P m a) (bil_out (ew_paths NComponent None u v)) (lead m) (fun i => mixed_row C P gn (num_irreps xm) u v (arr m i) (arr a i)).
Proof.
  intros Cm Ca Im Ia Lma. destruct (mix_unfold m a Cm Ca Im Ia Lma) as (y & E & Cy & Iy & Ly & _ & Ay). rewrite E.
  assert (B : broadcast_shapes (lead m) (lead y) = Ok (lead m)) by (rewrite Ly; apply broadcast_refl). assert (Al' : align_two_irreps (irr m) (irr y) = Ok (u, v)) by (rewrite Im, Iy; exact Al).
  eapply yields_ext; [|apply (elementwise_yields clebsch_gordan NComponent None m y (lead m) u v Cm Cy ltac:(discriminate) B Al')]. intros i Hi. cbv beta. rewrite Ly, !bidx_id by exact Hi. rewrite Ay by exact Hi. reflexivity.
Qed.
Lemma mix_kin m a m' a' z w : kin m m' -> kin a a' -> irr m = xm -> irr a = scalars C :: shx C p -> lead m = lead a -> lead m' = lead a' -> conv_mix C P m a = Ok z -> conv_mix C P m' a' = Ok w -> zero_flags z = zero_flags w.
Proof.
  intros Km Ka Im Ia Lma Lma' Z W. destruct (mix_unfold m a (kin_l _ _ Km) (kin_l _ _ Ka) Im Ia Lma) as (y & E & Cy & Iy & Ly & Fy & _). destruct (mix_unfold m' a' (kin_r _ _ Km) (kin_r _ _ Ka) ltac:(rewrite <- (kin_irr _ _ Km); exact Im) ltac:(rewrite <- (kin_irr _ _ Ka); exact Ia) Lma') as (y' & E' & Cy' & Iy' & Ly' & Fy' & _).
  rewrite E in Z. rewrite E' in W. assert (Ky : kin y y') by (constructor; auto; congruence). refine (kin_flags _ _ (ew_kin clebsch_gordan m y m' y' (lead m) (lead m') z w u v Km Ky _ _ _ Z W)); [rewrite Ly; apply broadcast_refl|rewrite Ly'; apply broadcast_refl|rewrite Im, Iy; exact Al].
Qed.
Lemma mixed_len row att : length (mixed_row C P gn (num_irreps xm) u v row att) = dim (bil_out (ew_paths NComponent None u v)).
Proof. apply bil_row_length. Qed.
Lemma mixed_act D row att att' : rep_ok D -> scalar_trivial D -> intertwines clebsch_gordan D -> length row = dim xm -> c_width C <= length att -> firstn (c_width C) att' = firstn (c_width C) att ->
  act D (bil_out (ew_paths NComponent None u v)) (mixed_row C P gn (num_irreps xm) u v row att) = mixed_row C P gn (num_irreps xm) u v (act D xm row) att'.
Proof.
  intros HD HS HI L La E. destruct (align_sound _ _ _ _ Al) as (Mu & Fu & Fv & _). unfold mixed_row. rewrite E. set (mr := mix_row _ _ _ _ _). assert (Lr : length mr = num_irreps xm) by (apply mix_len; rewrite firstn_length; lia).
  assert (Dv : dim v = num_irreps xm) by (rewrite dim_flat, Fv, <- dim_flat; cbn; lia). assert (Du : dim u = dim xm) by (rewrite !dim_flat, Fu; reflexivity).
  assert (Lu : length row = dim u) by congruence. assert (Lv : length mr = dim v) by congruence. rewrite (bil_row_act clebsch_gordan D _ u v row mr HD HI (ew_paths_ok _ _ _ _ Mu) Lu Lv). rewrite (act_flat D u xm row Fu). f_equal. rewrite (act_flat D v _ mr Fv). apply scalar_dim_act; auto. rewrite Lr. cbn. lia.
Qed.
Lemma mixed_lin t a b att : length a = dim xm -> length b = dim xm -> mixed_row C P gn (num_irreps xm) u v (lin t a b) att = lin t (mixed_row C P gn (num_irreps xm) u v a att) (mixed_row C P gn (num_irreps xm) u v b att).
Proof.
  intros La Lb. destruct (align_sound _ _ _ _ Al) as (Mu & Fu & _). assert (Du : dim u = dim xm) by (rewrite !dim_flat, Fu; reflexivity). unfold mixed_row. apply bil_row_lin_l; [apply ew_paths_ok, Mu|congruence|congruence].
Qed.
End Mix.
