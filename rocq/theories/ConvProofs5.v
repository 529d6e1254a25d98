(* The contribution of one edge, and how it transforms. *)
From Coq Require Import Reals Lra Lia List Arith Bool.
From Verif Require Import PyBase PermModel PermProofs IrrepsModel IrrepsProofs IrrepsProofs2 IrrepsStr ArrayModel ArrayProofs ArrayOps RechunkProofs ArithProofs LeadModel LeadProofs BlockProofs AxisProofs StackProofs BilinProofs ActProofs EquivProofs EquivProofs2 SumR EntryProofs ArrayProps2 TPModel TPProofs TPProofs2 StableSort TPProofs3 TPProps TPProps2 GradProofs CGModel RotationModel WignerModel WignerProofs WignerProofs2 WignerProps S2Model SHModel S2Proofs2 SHProps SHProps3 ScatterModel ScatterProps NormProofs LinearModel LinearProofs LinearProps LinearComplete LinModModel LinModProofs LinModProofs2 LinModProps ActivationModel MlpModel MlpProps ConvModel ConvProofs ConvProofs2 ConvProofs3 ConvProofs4.
Import ListNotations.
Open Scope nat_scope.

(* everything that happens on an edge: messages m, edge vectors v *)
Definition edge_op (C : conv) (P : conv_params) (m v : iarray) : res iarray :=
  let! a := edge_attrs C v in let! c := conv_combine C m a in conv_mix C P c a.
Definition vec (p : parity) : irreps := [(1, Irrep 1 p)].
Lemma vec_act r p v : orthogonal3 r -> length v = 3 -> distance (act (rep_of r) (vec p) v) = distance v.
Proof.
  intros O L. unfold distance, norm_row. rewrite (act_dot (rep_of r) (vec p) v v); auto; [apply as_rep_ok|now apply rep_of_orthogonal].
Qed.
Lemma yields_same r x s a x' s' b : yields r x s a -> yields r x' s' b -> x = x' /\ s = s' /\ forall i, valid s i -> a i = b i.
Proof. intros (z & E & I & L & _ & A) (z' & E' & I' & L' & _ & A'). rewrite E in E'. injection E' as <-. split; [congruence|]. split; [congruence|]. intros i Hi. rewrite <- A, <- A' by congruence. reflexivity. Qed.
Lemma sh_row_length C p v : length (sh_row C p v) = dim (shx C p). Proof. apply rowof_length. Qed.
Lemma sh_row_act C r p v : edge_ok C p -> orthogonal3 r -> length v = 3 -> sh_row C p (act (rep_of r) (vec p) v) = act (rep_of r) (shx C p) (sh_row C p v).
Proof.
  intros [_ _ U] O L. set (a := IA (vec p) [] (fun _ => v) None None). assert (Ca : coherent a) by (apply (fresh_chunks (vec p) [] (fun _ => v)); intros; exact L). pose proof (as_rep_ok (D_from_matrix r) : rep_ok (rep_of r)) as HD.
  assert (Y : forall w, coherent w -> irr w = vec p -> lead w = [] -> yields (spherical_harmonics (c_auto C) (OutList (seq 1 (c_sh_lmax C))) (InIrreps w) true (c_sh_norm C) None) (shx C p) [] (fun i => sh_row C p (arr w i))).
  { intros w Cw Iw Lw. pose proof (sh_yields (c_auto C) (OutList (seq 1 (c_sh_lmax C))) (InIrreps w) true (c_sh_norm C) None p (shx C p) Cw) as Q. cbn [shape_of points] in Q. rewrite Lw in Q. apply Q; [exists p; split; [exact Iw|reflexivity]|exact Iw|apply shx_natural|destruct U as [U|U]; [now left|right; split; [reflexivity|exact U]]]. }
  destruct (Y a Ca eq_refl eq_refl) as (z & Ez & Iz & Lz & Cz & Az). destruct (C52_equivariant _ _ a _ _ _ r z O Ca Ez) as (x' & s' & b & Y1 & Y2).
  rewrite by_matrix in Y1. fold (rep_of r) in Y1. pose proof (transform_act (rep_of r) z Cz HD) as T1. rewrite Iz, Lz in T1. destruct (yields_same _ _ _ _ _ _ _ Y1 T1) as (-> & -> & B1).
  rewrite by_matrix in Y2. fold (rep_of r) in Y2. destruct (transform_act (rep_of r) a Ca HD) as (a' & Ea & Ia & La & Ca' & Aa). rewrite Ea in Y2. cbn [bind] in Y2. destruct (yields_same _ _ _ _ _ _ _ Y2 (Y a' Ca' Ia La)) as (_ & _ & B2).
  assert (V0 : valid [] []) by constructor. rewrite <- (Aa [] V0 : arr a' [] = act (rep_of r) (vec p) v). rewrite <- (B2 [] V0), (B1 [] V0), (Az [] V0). reflexivity.
Qed.

Record edge_T (C : conv) (P : conv_params) (p : parity) (x : irreps) (fl : list bool) (xo : irreps) (flo : list bool) (T : list R -> list R -> list R) : Prop := {
  et_run : step2 (edge_op C P) x fl (vec p) xo flo T;
  et_nonempty : flat xo <> [];
  et_flags : length flo = length xo;
  et_len : forall row v, length row = dim x -> length v = 3 -> length (T row v) = dim xo;
  et_act : forall r row v, orthogonal3 r -> length row = dim x -> length v = 3 -> act (rep_of r) xo (T row v) = T (act (rep_of r) x row) (act (rep_of r) (vec p) v);
  et_lin : forall t a b v, length a = dim x -> length b = dim x -> length v = 3 -> T (lin t a b) v = lin t (T a v) (T b v) }.
Definition edge_row (C : conv) (P : conv_params) (gn : R) (p : parity) (x u w : irreps) (row v : list R) : list R :=
  mixed_row C P gn (num_irreps (regroup_irreps (comb_irreps C p x))) u w (comb_row C p x row (sh_row C p v)) (c_radial C (distance v) ++ sh_row C p v).
Lemma edge_T_explicit C P gn p x fl : edge_ok C p -> mix_ok C gn -> c_inorm C <> NOther -> length fl = length x -> regroup_irreps (comb_irreps C p x) <> [] ->
  exists u w flo, align_two_irreps (regroup_irreps (comb_irreps C p x)) [(num_irreps (regroup_irreps (comb_irreps C p x)), Irrep 0 Even)] = Ok (u, w) /\ edge_T C P p x fl (bil_out (ew_paths NComponent None u w)) flo (edge_row C P gn p x u w).
Proof.
  intros EO MO Hn Lf Ne. set (xm := regroup_irreps (comb_irreps C p x)) in *.
  destruct (align_with_scalars xm (num_irreps xm) Ne eq_refl ltac:(unfold xm, regroup_irreps; apply positive_simplify)) as (u & w & Al). destruct (align_sound _ _ _ _ Al) as (Mu & Fu & Fw & _).
  set (xo := bil_out (ew_paths NComponent None u w)).
  set (T := fun row v => mixed_row C P gn (num_irreps xm) u w (comb_row C p x row (sh_row C p v)) (c_radial C (distance v) ++ sh_row C p v)).
  assert (Y : forall m v, coherent m -> coherent v -> irr m = x -> zero_flags m = fl -> irr v = vec p -> lead m = lead v -> yields (edge_op C P m v) xo (lead m) (fun i => T (arr m i) (arr v i))).
  { intros m v Cm Cv Im _ Iv Lmv. unfold edge_op. rewrite Lmv. eapply yields_bind; [apply (attrs_yields C p v EO Cv Iv)|]. intros a _ Ia La Ca Aa. assert (Lma : lead m = lead a) by congruence.
    pose proof (combine_yields C p m a Hn Cm Ca Ia Lma) as Yc. rewrite Lmv in Yc. eapply yields_bind; [exact Yc|]. intros c _ Ic Lc Cc Ac. rewrite Im in Ic. fold xm in Ic. assert (Lca : lead c = lead a) by congruence.
    pose proof (mix_yields C P gn p xm u w MO Al c a Cc Ca Ic Ia Lca) as Ym. rewrite Lc in Ym. eapply yields_ext; [|exact Ym]. intros i Hi. cbv beta. rewrite Ac, Aa by exact Hi. rewrite Im. unfold T. f_equal. f_equal.
    rewrite skipn_app, (skipn_all2 (c_radial C _)) by (rewrite (eo_width _ _ EO); lia). rewrite (eo_width _ _ EO), Nat.sub_diag. reflexivity. }
  assert (K : forall a b c d z z', kin a b -> coherent c -> coherent d -> lead a = lead c -> lead b = lead d -> irr a = x -> zero_flags a = fl -> irr c = vec p -> irr d = vec p -> edge_op C P a c = Ok z -> edge_op C P b d = Ok z' -> zero_flags z = zero_flags z').
  { intros a b c d z z' Kab Cc Cd Lac Lbd Ia _ Ic Id Z Z'. unfold edge_op in Z, Z'.
    destruct (attrs_yields C p c EO Cc Ic) as (q & Eq & Iq & Lq & Cq & _). destruct (attrs_yields C p d EO Cd Id) as (q' & Eq' & Iq' & Lq' & Cq' & _). rewrite Eq in Z. rewrite Eq' in Z'. cbn [bind] in Z, Z'.
    assert (Kq : kin q q') by (constructor; auto; [congruence|]; rewrite (attrs_flags C p c q EO Cc Ic Eq), (attrs_flags C p d q' EO Cd Id Eq'); reflexivity).
    assert (L1 : lead a = lead q) by congruence. assert (L2 : lead b = lead q') by congruence. assert (Ib : irr b = x) by (rewrite <- (kin_irr _ _ Kab); exact Ia).
    destruct (combine_yields C p a q Hn (kin_l _ _ Kab) Cq Iq L1) as (h & Eh & Ih & Lh & Ch & _). destruct (combine_yields C p b q' Hn (kin_r _ _ Kab) Cq' Iq' L2) as (h' & Eh' & Ih' & Lh' & Ch' & _). rewrite Eh in Z. rewrite Eh' in Z'. cbn [bind] in Z, Z'.
    pose proof (combine_kin C p a q b q' h h' Hn Kab Kq Iq L1 L2 Eh Eh') as Kh. rewrite Ia in Ih. apply (mix_kin C P gn p xm u w MO Al h q h' q' z z' Kh Kq Ih Iq); auto; congruence. }
  destruct (step2_of (edge_op C P) x fl (vec p) xo T Lf Y K) as (flo & Lo & St). exists u, w, flo. split; [exact Al|]. change (edge_T C P p x fl xo flo T). split; auto.
  - unfold xo. assert (Zw : Forall (fun m => ir_l (snd m) = 0) w).
    { apply Forall_forall. intros m Hm. destruct (align_In _ _ _ _ Al) as [_ I0]. specialize (I0 m Hm). apply in_map_iff in I0 as (n0 & En & Hn0). rewrite <- En. destruct Hn0 as [<- |[]]. reflexivity. }
    destruct (mul_scalars_row clebsch_gordan u w (repeat 0%R (dim u)) (repeat 0%R (dim w)) cg_scalar_coupling Mu Zw) as [O _]; try apply repeat_length. rewrite O. rewrite scaled_flat by exact Mu. rewrite Fu, Fw. cbn [flat flat_map]. rewrite app_nil_r, num_irreps_flat. assert (Nf : flat xm <> []). { pose proof (positive_simplify (sort_irreps (comb_irreps C p x))) as Pm. fold (regroup_irreps (comb_irreps C p x)) in Pm. fold xm in Pm. destruct xm as [|[k ir] xm']; [contradiction|]. inversion Pm as [|? ? Hk]. cbn [fst] in Hk. destruct k; [lia|]. discriminate. }
    destruct (flat xm); [contradiction|]. cbn [length repeat]. rewrite map2_cons. discriminate.
  - intros row v L Lv. apply mixed_len.
  - intros r row v O L Lv. unfold T, xo. rewrite (mixed_act C P gn xm u w Al (rep_of r) (comb_row C p x row (sh_row C p v)) (c_radial C (distance v) ++ sh_row C p v) (c_radial C (distance (act (rep_of r) (vec p) v)) ++ sh_row C p (act (rep_of r) (vec p) v))).
    + f_equal. rewrite sh_row_act by assumption. apply comb_act; auto; [apply as_rep_ok|now apply rep_of_scalar|now apply rep_of_intertwines|apply sh_row_length].
    + apply as_rep_ok.
    + now apply rep_of_scalar.
    + now apply rep_of_intertwines.
    + apply comb_len, L.
    + rewrite app_length, (eo_width _ _ EO). lia.
    + rewrite vec_act by assumption. rewrite !firstn_app, !(eo_width _ _ EO), Nat.sub_diag. reflexivity.
  - intros t a b v La Lb Lv. unfold T. rewrite comb_lin by assumption. apply (mixed_lin C P gn xm u w Al); apply comb_len; assumption.
Qed.
Lemma edge_T_exists C P gn p x fl : edge_ok C p -> mix_ok C gn -> c_inorm C <> NOther -> length fl = length x -> regroup_irreps (comb_irreps C p x) <> [] -> exists xo flo T, edge_T C P p x fl xo flo T.
Proof. intros H1 H2 H3 H4 H5. destruct (edge_T_explicit C P gn p x fl H1 H2 H3 H4 H5) as (u & w & flo & _ & H). eauto. Qed.
