(* The function f of the Transformer (used for the keys and for the values), row by row. *)
From Coq Require Import Reals Lra Lia List Arith Bool ZArith.
From Verif Require Import PyBase PermModel PermProofs IrrepsModel IrrepsProofs IrrepsProofs2 IrrepsStr ArrayModel ArrayProofs ArrayOps RechunkProofs ArithProofs LeadModel LeadProofs BlockProofs AxisProofs StackProofs BilinProofs ActProofs EquivProofs EquivProofs2 SumR EntryProofs ArrayProps2 ArrayProps3 TPModel TPProofs TPProofs2 StableSort TPProofs3 TPProps TPProps2 GradProofs CGModel RotationModel WignerModel WignerProofs WignerProofs2 WignerProps S2Model SHModel S2Proofs2 SHProps SHProps3 ScatterModel ScatterProps NormProofs LinearModel LinearProofs LinearProps LinearComplete LinModModel LinModProofs LinModProofs2 LinModProps ActivationModel MlpModel MlpProps ConvModel ConvProofs ConvProofs2 ConvProofs3 ConvProofs4 ConvProofs5 ConvProofs6 ConvProps TransformerModel TransformerProofs.
Import ListNotations.
Open Scope nat_scope.

(* with a second argument of a given kind *)
Definition step2k (op : iarray -> iarray -> res iarray) (x : irreps) (fl : list bool) (y : irreps) (fy : list bool) (x' : irreps) (fl' : list bool) (F : list R -> list R -> list R) : Prop :=
  forall a b, coherent a -> coherent b -> irr a = x -> zero_flags a = fl -> irr b = y -> zero_flags b = fy -> lead a = lead b ->
    exists z, op a b = Ok z /\ irr z = x' /\ zero_flags z = fl' /\ lead z = lead a /\ coherent z /\ forall i, valid (lead a) i -> arr z i = F (arr a i) (arr b i).
Lemma step2k_of op x fl y fy x' F : length fl = length x -> length fy = length y ->
  (forall a b, coherent a -> coherent b -> irr a = x -> irr b = y -> lead a = lead b -> yields (op a b) x' (lead a) (fun i => F (arr a i) (arr b i))) ->
  (forall a b c d u v, kin a b -> kin c d -> lead a = lead c -> lead b = lead d -> irr a = x -> irr c = y -> op a c = Ok u -> op b d = Ok v -> zero_flags u = zero_flags v) ->
  exists fl', length fl' = length x' /\ step2k op x fl y fy x' fl' F.
Proof.
  intros L Ly Y K. destruct (zero_like_coherent x [] fl L) as [C0 F0]. destruct (zero_like_coherent y [] fy Ly) as [C1 F1]. destruct (Y _ _ C0 C1 eq_refl eq_refl eq_refl) as (z & E & I & _ & C & _). exists (zero_flags z). split; [rewrite <- I; apply zero_flags_length, C|].
  intros a b Ca Cb Ia Fa Ib Fb Lab. destruct (Y a b Ca Cb Ia Ib Lab) as (w & E1 & I1 & L1 & Cw & A1). exists w. split; [exact E1|]. split; [exact I1|]. split; [|auto].
  apply (K a (zero_like x [] fl) b (zero_like y [] fy) w z); auto; constructor; auto; congruence.
Qed.

(* ---- aligning with one block of scalars ---- *)
Definition ones (x : irreps) : irreps := map (fun m => (fst m, Irrep 0 Even)) x.
Lemma align_loop_ones : forall x fuel, positive x -> x <> [] -> length x + 1 <= fuel -> align_loop fuel x [(num_irreps x, Irrep 0 Even)] = (x, ones x).
Proof.
  induction x as [|[m a] x IH]; intros fuel P Ne Lf; [contradiction|]. destruct fuel as [|fuel]; [cbn in Lf; lia|]. inversion P as [|? ? Hm P']; subst. cbn [fst] in Hm. cbn [align_loop].
  assert (N : num_irreps ((m, a) :: x) = m + num_irreps x) by reflexivity. rewrite N. destruct x as [|b x].
  - assert (Z0 : num_irreps [] = 0) by reflexivity. rewrite Z0, Nat.add_0_r, Nat.ltb_irrefl. destruct fuel; reflexivity.
  - assert (Hx : 0 < num_irreps (b :: x)). { inversion P' as [|? ? Hb P'']; subst. unfold num_irreps. cbn [map sum fold_right]. lia. }
    destruct (Nat.ltb_spec m (m + num_irreps (b :: x))); [|lia]. replace (m + num_irreps (b :: x) - m) with (num_irreps (b :: x)) by lia. rewrite IH; [reflexivity|exact P'|discriminate|cbn [length] in *; lia].
Qed.
Lemma align_ones x : positive x -> x <> [] -> align_two_irreps x [(num_irreps x, Irrep 0 Even)] = Ok (x, ones x).
Proof.
  intros P Ne. unfold align_two_irreps. assert (N : num_irreps [(num_irreps x, Irrep 0 Even)] = num_irreps x) by (cbn; lia). rewrite N. unfold assert at 1. rewrite Nat.eqb_refl. cbn [bind]. rewrite align_loop_ones by (auto; cbn; lia).
  replace (list_eqb (map fst x) (map fst (ones x))) with true; [reflexivity|]. symmetry. apply list_eqb_eq. unfold ones. rewrite map_map. reflexivity.
Qed.
Lemma ones_dim x : dim (ones x) = num_irreps x.
Proof. unfold ones, dim, num_irreps. rewrite map_map. f_equal. apply map_ext. intros [m ir]. unfold mi_dim. cbn. lia. Qed.
Lemma ones_out x : bil_out (ew_paths NComponent None x (ones x)) = x.
Proof.
  assert (M : map fst x = map fst (ones x)) by (unfold ones; rewrite map_map; reflexivity). assert (Z0 : Forall (fun m => ir_l (snd m) = 0) (ones x)) by (apply Forall_map, Forall_forall; reflexivity).
  destruct (mul_scalars_row clebsch_gordan x (ones x) (repeat 0%R (dim x)) (repeat 0%R (dim (ones x))) cg_scalar_coupling M Z0) as [O _]; try apply repeat_length. rewrite O. unfold ones. clear. induction x as [|[m [l p]] x IH]; [reflexivity|]. cbn [map]. rewrite map2_cons, IH. unfold scaled_entry. cbn [fst snd ir_l ir_p]. destruct p; reflexivity.
Qed.
Lemma scalars_act D x row : scalar_trivial D -> rep_ok D -> Forall (fun m => snd m = Irrep 0 Even) x -> length row = dim x -> act D x row = row.
Proof.
  intros HS HD F L. destruct x as [|m x]; [destruct row; [reflexivity|discriminate]|]. apply scalar_dim_act; auto. unfold is_scalar. cbn [length Nat.eqb negb]. rewrite andb_true_r. apply forallb_forall. intros k Hk. rewrite Forall_forall in F. rewrite (F k Hk). reflexivity.
Qed.
(* each copy of an irrep multiplied by its own number *)
Definition scaled_row (x : irreps) (row w : list R) : list R := bil_row clebsch_gordan (ew_paths NComponent None x (ones x)) x (ones x) row w.
Lemma scaled_row_copies x row w : length row = dim x -> length w = num_irreps x -> scaled_row x row w = scale_copies (SliceProofs2.instances x row) w.
Proof.
  intros L Lw. assert (M : map fst x = map fst (ones x)) by (unfold ones; rewrite map_map; reflexivity). assert (Z0 : Forall (fun m => ir_l (snd m) = 0) (ones x)) by (apply Forall_map, Forall_forall; reflexivity).
  apply (mul_scalars_row clebsch_gordan x (ones x) row w cg_scalar_coupling M Z0 L). rewrite ones_dim. exact Lw.
Qed.
Lemma scaled_row_length x row w : length (scaled_row x row w) = dim x.
Proof. pose proof (bil_row_length clebsch_gordan (ew_paths NComponent None x (ones x)) x (ones x) row w) as Q. rewrite ones_out in Q. exact Q. Qed.
Lemma scaled_row_act D x row w : rep_ok D -> scalar_trivial D -> intertwines clebsch_gordan D -> length row = dim x -> length w = num_irreps x -> act D x (scaled_row x row w) = scaled_row x (act D x row) w.
Proof.
  intros HD HS HI L Lw. assert (M : map fst x = map fst (ones x)) by (unfold ones; rewrite map_map; reflexivity). assert (Lw' : length w = dim (ones x)) by (rewrite ones_dim; exact Lw).
  unfold scaled_row. rewrite <- (ones_out x) at 1. rewrite (bil_row_act clebsch_gordan D _ x (ones x) row w HD HI (ew_paths_ok _ _ _ _ M) L Lw'). f_equal. apply scalars_act; auto. apply Forall_map, Forall_forall. reflexivity.
Qed.

(* ---- the parts of the edge attributes ---- *)
Definition is0e (ir : irrep) : bool := existsb (irrep_eqb ir) [Irrep 0 Even].
Definition not0e (ir : irrep) : bool := negb (is0e ir).
Lemma keep_yields z : coherent z -> yields (ia_filter z (Some (ByIrreps [Irrep 0 Even])) None None) (sel_irreps is0e (irr z)) (lead z) (fun i => sel_row is0e (irr z) (arr z i)).
Proof. exact (ia_filter_row [Irrep 0 Even] z). Qed.
Lemma drop_yields z : coherent z -> yields (ia_filter z None (Some (ByIrreps [Irrep 0 Even])) None) (sel_irreps not0e (irr z)) (lead z) (fun i => sel_row not0e (irr z) (arr z i)).
Proof.
  intros H. eapply yields_ext; [|apply (filter_yields z None (Some (ByIrreps [Irrep 0 Even])) None); [exact H|discriminate|reflexivity|]].
  - intros i Hi. cbv beta. rewrite <- (TPProps.select_filter not0e). reflexivity.
  - intros m n _ _ Q. cbn. rewrite Q. reflexivity.
Qed.
Lemma scal_all x : Forall (fun m => snd m = Irrep 0 Even) (sel_irreps is0e x).
Proof. apply Forall_forall. intros m Hm. apply filter_In in Hm as [_ Hm]. unfold is0e in Hm. cbn in Hm. rewrite orb_false_r in Hm. now apply irrep_eqb_eq in Hm. Qed.

Section F.
Variables (T : attention_net) (P : mlp_params) (gn : R) (keep x y : irreps).
Let w0 := dim (sel_irreps is0e y).
Definition drops : irreps := sel_irreps not0e y.
Definition cats : irreps := x ++ tp_out (t_inorm T) None true x drops.
Definition kept (ir : irrep) : bool := passes (Some (map snd keep)) ir.
Definition f_irreps : irreps := sel_irreps kept (regroup_irreps cats).
Definition cat_row (row att : list R) : list R := sort_row' cats (row ++ tp_row clebsch_gordan (t_inorm T) None true x drops row (sel_row not0e y att)).
Definition out1_row (row att : list R) : list R := sel_row kept (regroup_irreps cats) (cat_row row att).
Definition net_row (att : list R) : list R := mlp_row gn false (Some (normalize_function (t_pts T) (t_act T))) None P 0 (t_neurons T ++ [num_irreps f_irreps]) w0 (sel_row is0e y att).
Definition f_row (row att : list R) : list R := scaled_row f_irreps (out1_row row att) (net_row att).
Lemma f_positive : positive f_irreps.
Proof.
  unfold f_irreps, sel_irreps, positive. apply Forall_forall. intros m Hm. apply filter_In in Hm as [Hm _]. pose proof (positive_simplify (sort_irreps cats)) as Q. unfold positive in Q. rewrite Forall_forall in Q. apply Q, Hm.
Qed.
Lemma combine_tf a b : t_inorm T <> NOther -> coherent a -> coherent b -> irr a = x -> irr b = y -> lead a = lead b ->
  yields (tf_combine T keep a b) f_irreps (lead a) (fun i => out1_row (arr a i) (arr b i)).
Proof.
  intros Hn Ca Cb Ia Ib Lab. unfold tf_combine. eapply yields_bind; [apply (drop_yields b Cb)|]. intros d _ Id Ld Cd Ad. rewrite Ib in Id, Ad. fold drops in Id.
  assert (B : broadcast_shapes (lead a) (lead d) = Ok (lead a)) by (rewrite Ld, <- Lab; apply broadcast_refl).
  eapply yields_bind; [apply (tensor_product_yields clebsch_gordan (t_inorm T) None true a d (lead a) Ca Cd Hn B)|]. intros t _ It Lt Ct At. rewrite Ia, Id in It, At.
  assert (F : Forall (fun y => coherent y /\ lead y = lead a) [a; t]) by (constructor; [split; [assumption|reflexivity]|constructor; [split; assumption|constructor]]).
  eapply yields_bind; [apply (concat_last_yields (lead a) [a; t] ltac:(discriminate) F)|]. intros c _ Ic Lc Cc Ac.
  assert (J : irr c = cats) by (rewrite Ic; cbn [flat_map]; rewrite Ia, It, app_nil_r; reflexivity). pose proof (ia_regroup_yields c Cc) as Y. rewrite J, Lc in Y. eapply yields_bind; [exact Y|]. intros r _ Ir Lr Cr Ar.
  pose proof (ia_filter_row (map snd keep) r Cr) as Q. rewrite Ir, Lr in Q. eapply yields_ext; [|exact Q].
  intros i Hi. cbv beta. unfold out1_row, kept. f_equal. rewrite Ar by exact Hi. unfold cat_row. unfold sort_row'. rewrite Ac by exact Hi. cbn [flat_map]. rewrite app_nil_r, At by exact Hi. rewrite bidx_id by exact Hi. rewrite Ld, <- Lab, bidx_id by exact Hi. rewrite Ad by (rewrite <- Lab; exact Hi). reflexivity.
Qed.
Lemma combine_tf_kin a b c d u v : t_inorm T <> NOther -> kin a b -> kin c d -> lead a = lead c -> lead b = lead d -> irr a = x -> irr c = y -> tf_combine T keep a c = Ok u -> tf_combine T keep b d = Ok v -> kin u v.
Proof.
  intros Hn Kab Kcd Lac Lbd Ia Ic Z W. assert (Ib : irr b = x) by (rewrite <- (kin_irr _ _ Kab); exact Ia). assert (Id : irr d = y) by (rewrite <- (kin_irr _ _ Kcd); exact Ic).
  destruct (yields_inv _ _ _ _ _ Z (combine_tf a c Hn (kin_l _ _ Kab) (kin_l _ _ Kcd) Ia Ic Lac)) as (Iu & _ & Cu & _). destruct (yields_inv _ _ _ _ _ W (combine_tf b d Hn (kin_r _ _ Kab) (kin_r _ _ Kcd) Ib Id Lbd)) as (Iv & _ & Cv & _).
  constructor; auto; [congruence|]. unfold tf_combine in Z, W.
  destruct (drop_yields c (kin_l _ _ Kcd)) as (s & E2 & I2 & L2 & C2 & _). destruct (drop_yields d (kin_r _ _ Kcd)) as (s' & E2' & I2' & L2' & C2' & _). rewrite E2 in Z. rewrite E2' in W. cbn [bind] in Z, W.
  assert (K2 : kin s s') by (destruct (filter_same _ _ _ _ _ _ _ Kcd E2 E2') as [Q1 Q2]; constructor; assumption).
  assert (B : broadcast_shapes (lead a) (lead s) = Ok (lead a)) by (rewrite L2, <- Lac; apply broadcast_refl). assert (B' : broadcast_shapes (lead b) (lead s') = Ok (lead b)) by (rewrite L2', <- Lbd; apply broadcast_refl).
  destruct (tensor_product clebsch_gordan (t_inorm T) None true a s) as [t|] eqn:E3; [|discriminate]. destruct (tensor_product clebsch_gordan (t_inorm T) None true b s') as [t'|] eqn:E3'; [|discriminate]. cbn [bind] in Z, W.
  pose proof (tp_kin _ _ _ _ _ _ _ _ _ _ _ Hn Kab K2 B B' E3 E3') as K3.
  destruct (yields_inv _ _ _ _ _ E3 (tensor_product_yields clebsch_gordan (t_inorm T) _ true a s (lead a) (kin_l _ _ Kab) C2 Hn B)) as (_ & L3 & C3 & _). destruct (yields_inv _ _ _ _ _ E3' (tensor_product_yields clebsch_gordan (t_inorm T) _ true b s' (lead b) (kin_r _ _ Kab) C2' Hn B')) as (_ & L3' & C3' & _).
  destruct (concat_last [a; t]) as [q|] eqn:E4; [|discriminate]. destruct (concat_last [b; t']) as [q'|] eqn:E4'; [|discriminate]. cbn [bind] in Z, W.
  assert (F : Forall (fun y => coherent y /\ lead y = lead a) [a; t]) by (constructor; [split; [apply Kab|reflexivity]|constructor; [split; assumption|constructor]]). assert (F' : Forall (fun y => coherent y /\ lead y = lead b) [b; t']) by (constructor; [split; [apply Kab|reflexivity]|constructor; [split; assumption|constructor]]).
  destruct (yields_inv _ _ _ _ _ E4 (concat_last_yields (lead a) [a; t] ltac:(discriminate) F)) as (_ & _ & Cq & _). destruct (yields_inv _ _ _ _ _ E4' (concat_last_yields (lead b) [b; t'] ltac:(discriminate) F')) as (_ & _ & Cq' & _).
  assert (K4 : kin q q') by (destruct (concat_same [a; t] [b; t'] q q') as [Q1 Q2]; auto; constructor; assumption).
  destruct (ia_regroup q) as [r|] eqn:E5; [|discriminate]. destruct (ia_regroup q') as [r'|] eqn:E5'; [|discriminate]. cbn [bind] in Z, W. pose proof (respects_regroup _ _ _ _ K4 E5 E5') as K5. apply (filter_same _ _ _ _ _ _ _ K5 Z W).
Qed.
Lemma cat_len row att : length row = dim x -> length (row ++ tp_row clebsch_gordan (t_inorm T) None true x drops row (sel_row not0e y att)) = dim cats.
Proof. intros L. unfold cats. rewrite app_length, dim_app, tp_row_len, L. reflexivity. Qed.
Lemma cat_row_len row att : length row = dim x -> length (cat_row row att) = dim (regroup_irreps cats).
Proof. intros L. exact (st_len _ _ _ _ _ _ _ (regroup_stage cats []) (fun _ => row ++ tp_row clebsch_gordan (t_inorm T) None true x drops row (sel_row not0e y att)) [] ltac:(constructor) ltac:(intros; apply cat_len, L)). Qed.
Lemma out1_len row att : length row = dim x -> length (out1_row row att) = dim f_irreps.
Proof. intros L. apply sel_row_len, cat_row_len, L. Qed.
Lemma out1_act D row att : rep_ok D -> scalar_trivial D -> intertwines clebsch_gordan D -> length row = dim x -> length att = dim y ->
  act D f_irreps (out1_row row att) = out1_row (act D x row) (act D y att).
Proof.
  intros HD HS HI L La. unfold out1_row, f_irreps. rewrite sel_row_act by (auto; apply cat_row_len, L). f_equal. unfold cat_row.
  pose proof (st_act _ _ _ _ _ _ _ (regroup_stage cats []) D HD HS (fun _ => row ++ tp_row clebsch_gordan (t_inorm T) None true x drops row (sel_row not0e y att)) [] ltac:(constructor) ltac:(intros; apply cat_len, L)) as A. cbv beta in A. rewrite A. f_equal. unfold cats. rewrite act_app by exact L. f_equal.
  rewrite <- sel_row_act by assumption. apply tp_row_act; auto. apply sel_row_len, La.
Qed.
Lemma net_len att : length att = dim y -> length (net_row att) = num_irreps f_irreps.
Proof. intros L. unfold net_row. rewrite mlp_row_length by (apply sel_row_len, L). apply last_last. Qed.
Lemma net_act D att : rep_ok D -> scalar_trivial D -> length att = dim y -> net_row (act D y att) = net_row att.
Proof. intros HD HS L. unfold net_row. f_equal. rewrite <- sel_row_act by assumption. apply scalars_act; auto; [apply scal_all|apply sel_row_len, L]. Qed.
Lemma f_len row att : length (f_row row att) = dim f_irreps.
Proof. apply scaled_row_length. Qed.
Lemma f_act D row att : rep_ok D -> scalar_trivial D -> intertwines clebsch_gordan D -> length row = dim x -> length att = dim y -> act D f_irreps (f_row row att) = f_row (act D x row) (act D y att).
Proof.
  intros HD HS HI L La. unfold f_row. rewrite scaled_row_act by (auto using out1_len, net_len). rewrite out1_act by assumption. rewrite net_act by assumption. reflexivity.
Qed.
Record f_pre : Prop := { fp_gn : gradient_number (t_conf T) None = Ok gn; fp_neurons : Forall (fun n => n <> 0) (t_neurons T); fp_scalars : w0 <> 0 }.
Record f_ok : Prop := { fo_norm : t_inorm T <> NOther; fo_pre : f_pre; fo_some : f_irreps <> [] }.
Lemma mix_mul o b : f_pre -> coherent o -> coherent b -> irr o = f_irreps -> irr b = y -> lead o = lead b ->
  exists m, tf_mix T P o b = ia_mul clebsch_gordan o m /\ coherent m /\ irr m = [(num_irreps f_irreps, Irrep 0 Even)] /\ lead m = lead o /\ zero_flags m = [false] /\ forall i, valid (lead o) i -> arr m i = net_row (arr b i).
Proof.
  intros [G N W] Co Cb Io Ib Lob. destruct (keep_yields b Cb) as (s & Es & Is & Ls & Cs & As). rewrite Ib in Is, As. unfold tf_mix. rewrite Es. cbn [bind]. rewrite Io.
  unfold mlp_call. cbn [m_gradient m_act m_with_bias list_neurons output_activation m_output option_map]. rewrite G. cbn [bind]. assert (S0 : is_scalar (irr s) = true).
  { rewrite Is. unfold is_scalar. apply andb_true_intro. split; [apply forallb_forall; intros m Hm; pose proof (scal_all y) as F; rewrite Forall_forall in F; rewrite (F m Hm); reflexivity|]. assert (Q : sel_irreps is0e y <> []) by (intros E; apply W; unfold w0; rewrite E; reflexivity). destruct (sel_irreps is0e y); [contradiction|reflexivity]. }
  rewrite S0. cbn [negb]. rewrite Is. fold w0. rewrite layers_rows by (intros _; rewrite removelast_last; constructor; assumption). cbn [bind fst snd]. rewrite last_last.
  unfold mkIA. assert (D1 : dim [(num_irreps f_irreps, Irrep 0 Even)] = num_irreps f_irreps) by (cbn; lia). rewrite D1, Nat.eqb_refl. cbn [negb bind].
  set (m := IA [(num_irreps f_irreps, Irrep 0 Even)] (lead s) (fun k => mlp_row gn false (Some (normalize_function (t_pts T) (t_act T))) None P 0 (t_neurons T ++ [num_irreps f_irreps]) w0 (arr s k)) None None).
  exists m. assert (Em : forall i, valid (lead o) i -> arr m i = net_row (arr b i)) by (intros i Hi; unfold m, net_row; cbn [arr]; rewrite As by (rewrite <- Lob; exact Hi); reflexivity).
  split; [reflexivity|]. split; [|split; [reflexivity|split; [unfold m; cbn [lead]; congruence|split; [reflexivity|exact Em]]]].
  unfold m. apply (fresh_chunks [(num_irreps f_irreps, Irrep 0 Even)] (lead s)). intros i Hi. rewrite D1. rewrite mlp_row_length; [apply last_last|]. rewrite (proj1 Cs i Hi), Is. reflexivity.
Qed.
Lemma mix_tf o b : f_ok -> coherent o -> coherent b -> irr o = f_irreps -> irr b = y -> lead o = lead b ->
  exists m, tf_mix T P o b = elementwise_tensor_product clebsch_gordan NComponent None o m /\ coherent m /\ irr m = [(num_irreps f_irreps, Irrep 0 Even)] /\ lead m = lead o /\ zero_flags m = [false] /\ forall i, valid (lead o) i -> arr m i = net_row (arr b i).
Proof.
  intros [_ Pre Some0] Co Cb Io Ib Lob. destruct (mix_mul o b Pre Co Cb Io Ib Lob) as (m & -> & Cm & Im & R0). exists m. split; [|split; [exact Cm|split; [exact Im|exact R0]]].
  pose proof f_positive as Pf. apply (C22_mul_is_elementwise clebsch_gordan o m f_irreps (ones f_irreps)); [rewrite Io, Im; apply align_ones; [exact Pf|exact Some0]|]. rewrite Io, Im. apply scalars_one_r; [cbn [flat flat_map]; rewrite app_nil_r, repeat_length; symmetry; apply num_irreps_flat|]. cbn [flat flat_map]. rewrite app_nil_r. apply Forall_forall. intros ir Hi. apply repeat_spec in Hi as ->. reflexivity.
Qed.
(* a call of f that returns meets the conditions *)
Lemma f_ok_inv o b v : t_inorm T <> NOther -> Forall (fun n => n <> 0) (t_neurons T) -> coherent o -> coherent b -> irr o = f_irreps -> irr b = y -> lead o = lead b -> tf_mix T P o b = Ok v ->
  gradient_number (t_conf T) None = Ok gn -> f_ok.
Proof.
  intros Hn Ne Co Cb Io Ib Lob E G. assert (W : w0 <> 0).
  { intros W. destruct (keep_yields b Cb) as (s & Es & Is & _). rewrite Ib in Is. unfold tf_mix in E. rewrite Es in E. cbn [bind] in E. unfold mlp_call in E. cbn [m_gradient m_act m_with_bias list_neurons output_activation m_output option_map] in E. rewrite G in E. cbn [bind] in E.
    destruct (negb (is_scalar (irr s))); [discriminate E|]. rewrite Is in E. fold w0 in E. rewrite W in E. destruct (t_neurons T); discriminate E. }
  assert (Pre : f_pre) by (constructor; assumption). constructor; [exact Hn|exact Pre|]. intros Q. destruct (mix_mul o b Pre Co Cb Io Ib Lob) as (m & Em & _ & Im & _). rewrite Em in E. rewrite Q in Io, Im. rewrite (ConvProps.align_nothing clebsch_gordan o m Io Im) in E. discriminate E.
Qed.
Lemma f_gn o b v : tf_mix T P o b = Ok v -> exists g0, gradient_number (t_conf T) None = Ok g0.
Proof.
  unfold tf_mix. destruct (ia_filter b _ _ _); [|discriminate]. cbn [bind]. unfold mlp_call. cbn [m_gradient]. destruct (gradient_number (t_conf T) None); [eauto|discriminate].
Qed.
Lemma f_yields a b : f_ok -> coherent a -> coherent b -> irr a = x -> irr b = y -> lead a = lead b -> yields (tf_f T P keep a b) f_irreps (lead a) (fun i => f_row (arr a i) (arr b i)).
Proof.
  intros OK Ca Cb Ia Ib Lab. unfold tf_f. eapply yields_bind; [apply (combine_tf a b (fo_norm OK) Ca Cb Ia Ib Lab)|]. intros o _ Io Lo Co Ao. destruct (mix_tf o b OK Co Cb Io Ib ltac:(congruence)) as (m & -> & Cm & Im & Lm & _ & Am).
  assert (B : broadcast_shapes (lead o) (lead m) = Ok (lead a)) by (rewrite Lm, Lo; apply broadcast_refl). assert (Al : align_two_irreps (irr o) (irr m) = Ok (f_irreps, ones f_irreps)) by (rewrite Io, Im; apply align_ones; [apply f_positive|apply OK]).
  pose proof (elementwise_yields clebsch_gordan NComponent None o m (lead a) _ _ Co Cm ltac:(discriminate) B Al) as Y. rewrite ones_out in Y. eapply yields_ext; [|exact Y]. intros i Hi. cbv beta. rewrite Lm, Lo, !bidx_id by exact Hi. rewrite Ao by exact Hi. rewrite Am by (rewrite Lo; exact Hi). reflexivity.
Qed.
Lemma f_kin a b c d u v : f_ok -> kin a b -> kin c d -> lead a = lead c -> lead b = lead d -> irr a = x -> irr c = y -> tf_f T P keep a c = Ok u -> tf_f T P keep b d = Ok v -> zero_flags u = zero_flags v.
Proof.
  intros OK Kab Kcd Lac Lbd Ia Ic Z W. assert (Ib : irr b = x) by (rewrite <- (kin_irr _ _ Kab); exact Ia). assert (Id : irr d = y) by (rewrite <- (kin_irr _ _ Kcd); exact Ic). unfold tf_f in Z, W.
  destruct (combine_tf a c (fo_norm OK) (kin_l _ _ Kab) (kin_l _ _ Kcd) Ia Ic Lac) as (o & Eo & Io & Lo & Co & _). destruct (combine_tf b d (fo_norm OK) (kin_r _ _ Kab) (kin_r _ _ Kcd) Ib Id Lbd) as (o' & Eo' & Io' & Lo' & Co' & _). rewrite Eo in Z. rewrite Eo' in W. cbn [bind] in Z, W.
  pose proof (combine_tf_kin a b c d o o' (fo_norm OK) Kab Kcd Lac Lbd Ia Ic Eo Eo') as Ko.
  destruct (mix_tf o c OK Co (kin_l _ _ Kcd) Io Ic ltac:(congruence)) as (m & Em & Cm & Im & Lm & Fm & _). destruct (mix_tf o' d OK Co' (kin_r _ _ Kcd) Io' Id ltac:(congruence)) as (m' & Em' & Cm' & Im' & Lm' & Fm' & _). rewrite Em in Z. rewrite Em' in W.
  assert (Km : kin m m') by (constructor; auto; congruence).
  refine (kin_flags _ _ (ew_kin clebsch_gordan o m o' m' (lead o) (lead o') u v f_irreps (ones f_irreps) Ko Km _ _ _ Z W)); [rewrite Lm; apply broadcast_refl|rewrite Lm'; apply broadcast_refl|rewrite Io, Im; apply align_ones; [apply f_positive|apply OK]].
Qed.
Lemma f_step fl fy : f_ok -> length fl = length x -> length fy = length y -> exists fl', length fl' = length f_irreps /\ step2k (tf_f T P keep) x fl y fy f_irreps fl' f_row.
Proof. intros OK L Ly. apply step2k_of; [exact L|exact Ly|intros a b Ca Cb Ia Ib Lab; now apply f_yields|intros a b c d u v K1 K2 L1 L2 I1 I2 Z W; exact (f_kin a b c d u v OK K1 K2 L1 L2 I1 I2 Z W)]. Qed.
End F.
