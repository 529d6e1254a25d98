(* C63: MessagePassingConvolution. *)
From Coq Require Import Reals Lra Lia List Arith Bool ZArith Permutation.
From Verif Require Import PyBase PermModel PermProofs IrrepsModel IrrepsProofs IrrepsProofs2 IrrepsStr ArrayModel ArrayProofs ArrayOps RechunkProofs ArithProofs LeadModel LeadProofs BlockProofs AxisProofs StackProofs BilinProofs ActProofs EquivProofs EquivProofs2 SumR EntryProofs ArrayProps2 TPModel TPProofs TPProofs2 StableSort TPProofs3 TPProps TPProps2 GradProofs CGModel RotationModel WignerModel WignerProofs WignerProofs2 WignerProps S2Model SHModel S2Proofs2 SHProps SHProps3 ScatterModel ScatterProps NormProofs LinearModel LinearProofs LinearProps LinearComplete LinModModel LinModProofs LinModProofs2 LinModProps ActivationModel MlpModel MlpProps ConvModel ConvProofs ConvProofs2 ConvProofs3 ConvProofs4 ConvProofs5 ConvProofs6.
Import ListNotations.
Open Scope nat_scope.

(* ---- specification ---- *)
(* the layer was built with sensible arguments: radial_basis gives num_radial_basis > 0 numbers, no hidden layer of the MLP is empty, irrep_normalization is a known one *)
Record settings (C : conv) : Prop := {
  se_radial : forall r, length (c_radial C r) = c_width C; se_width : c_width C <> 0; se_neurons : Forall (fun n => n <> 0) (c_neurons C); se_norm : c_inorm C <> NOther }.
(* N nodes with positions and features, E edges; an index counts from the end when negative *)
Record nodes_edges (pos feats : iarray) (N E : nat) (sn rc : nat -> Z) : Prop := {
  ne_pos : coherent pos; ne_feats : coherent feats; ne_pl : lead pos = [N]; ne_fl : lead feats = [N];
  ne_snd : forall e, e < E -> (- Z.of_nat N <= sn e < Z.of_nat N)%Z; ne_rec : forall e, e < E -> (- Z.of_nat N <= rc e < Z.of_nat N)%Z }.
(* the parameters have the shapes that the two Linear layers ask for *)
Definition fits (C : conv) (P : conv_params) (pos feats : iarray) (E : nat) (sn rc : nat -> Z) : Prop :=
  (forall L, layer_for (default_linear C (irr feats)) feats = Ok L -> supplies (p_up P) [] L) /\
  (forall agg L, conv_gather C P pos feats E sn rc = Ok agg -> layer_for (default_linear C (c_target C)) agg = Ok L -> supplies (p_down P) [] L).
(* the same kind of features: same irreps, same known zeros *)
Definition alike (x y : iarray) : Prop := irr x = irr y /\ zero_flags x = zero_flags y.
(* what node i hears: for every edge that ends there, the features of its sender and the vector from sender to receiver *)
Definition heard (pos feats : iarray) (N E : nat) (sn rc : nat -> Z) (i : nat) : list (list R * list R) :=
  map (fun e => (arr feats [node N (sn e)], zipR Rminus (arr pos [node N (rc e)]) (arr pos [node N (sn e)]))) (filter (fun e => node N (rc e) =? i) (seq 0 E)).

(* ---- a call that succeeds fixes the kind of everything ---- *)
Lemma align_nil : align_two_irreps [] [(0, Irrep 0 Even)] = Err AssertionError. Proof. reflexivity. Qed.
Lemma align_nothing cg m y : irr m = [] -> irr y = [(0, Irrep 0 Even)] -> ia_mul cg m y = Err AssertionError.
Proof. intros Im Iy. unfold ia_mul, elementwise_irreps. rewrite Im, Iy. reflexivity. Qed.
Definition kind_of (C : conv) (P : conv_params) (pos feats : iarray) (p : parity) (xa : irreps) (msg : list R -> list R -> list R) (xo : irreps) (out : list R -> list R) : Prop :=
  irr pos = vec p /\ (forall m, In m xo -> In (snd m) (map snd (c_target C))) /\ conv_form C P p (irr feats) (zero_flags feats) xa msg xo out.
Lemma run_form C P pos feats N E sn rc z : settings C -> nodes_edges pos feats N E sn rc -> fits C P pos feats E sn rc -> conv_call C P pos feats E sn rc = Ok z -> exists p xa msg xo out, kind_of C P pos feats p xa msg xo out.
Proof.
  intros [Sr Sw Sn Si] [Cp Cf Lp Lf Hs Hr] [F1 F2] Ez.
  assert (EG : exists agg, conv_gather C P pos feats E sn rc = Ok agg) by (unfold conv_call in Ez; destruct (conv_gather C P pos feats E sn rc) as [agg|]; [eauto|discriminate]). destruct EG as [agg EG].
  pose proof (zero_flags_length feats Cf) as Lz.
  assert (HP : forall L, layer_for (default_linear C (irr feats)) (zero_like (irr feats) [] (zero_flags feats)) = Ok L -> supplies (p_up P) [] L).
  { intros L EL. apply F1. rewrite <- EL. unfold layer_for. destruct (alike_irreps C (irr feats) (irr feats) (zero_flags feats) feats eq_refl eq_refl) as (-> & -> & _). reflexivity. }
  destruct (module_step C (irr feats) (irr feats) (zero_flags feats) (p_up P) Lz HP) as (L & fl1 & EL & Sp & Lf1 & Up).
  pose proof EG as EG0. unfold conv_gather in EG0. rewrite Lp, Lf in EG0. cbn [length Nat.eqb assert bind] in EG0.
  destruct (take_yields pos N E rc Cp Lp Hr) as (a & Ea & Ia & _ & La & Ca & _). destruct (take_yields pos N E sn Cp Lp Hs) as (b & Eb & Ib & _ & Lb & Cb & _). rewrite Ea, Eb in EG0. cbn [bind] in EG0.
  destruct (proj2 (C22_add_sub_same_shape a b Ca Cb ltac:(congruence) ltac:(congruence))) as (v & Ev & Iv & Lv & Cv & _). rewrite Ev in EG0. cbn [bind] in EG0.
  destruct (edge_attrs C v) as [at_|] eqn:Eat; [|discriminate]. cbn [bind] in EG0.
  assert (U : exists p, irr v = vec p /\ (num_irreps (shx C p) = 0 \/ SHProps.usable (c_auto C) None (shx C p))).
  { unfold edge_attrs in Eat. destruct (norm v false true) as [r|]; [|discriminate]. cbn [bind] in Eat. destruct (as_irreps_array _ _ _) as [rad|]; [|discriminate]. cbn [bind] in Eat. destruct (spherical_harmonics _ _ _ _ _ _) as [sh|] eqn:Esh; [|discriminate].
    destruct (sh_accepts_inv _ _ _ _ _ _ _ Esh) as (p & x & (q & Q1 & Q2) & V & _ & U). cbn [vector_of_parity] in V. assert (q = p) by congruence. subst q. exists p. split; [exact V|]. subst x. destruct U as [U|[_ U]]; [now left|now right]. }
  destruct U as (p & Vp & U). assert (EO : edge_ok C p) by (constructor; assumption). assert (Ip : irr pos = vec p) by congruence.
  destruct (Up feats Cf eq_refl eq_refl) as (h & Eh & Ih & Fh & Lh & Ch & _). rewrite Eh in EG0. cbn [bind] in EG0. rewrite Lf in Lh.
  destruct (take_yields h N E sn Ch Lh Hs) as (ms & Ems & Im & _ & Lm & Cm & _). rewrite Ems in EG0. cbn [bind] in EG0.
  destruct (attrs_yields C p v EO Cv Vp) as (at2 & Eat2 & Iat & Lat & Cat & _). rewrite Eat in Eat2. injection Eat2 as <-.
  destruct (combine_yields C p ms at_ Si Cm Cat Iat ltac:(congruence)) as (c & Ec & Ic & Lc & Cc & _). rewrite Ec in EG0. cbn [bind] in EG0. rewrite Im, Ih in Ic. fold (up_irreps C (irr feats) (zero_flags feats)) in Ic.
  destruct (conv_mix C P c at_) as [q|] eqn:Emix; [|discriminate].
  assert (G : exists gn, gradient_number (c_conf C) None = Ok gn).
  { unfold conv_mix in Emix. destruct (ia_filter at_ _ _ _) as [sc|]; [|discriminate]. cbn [bind] in Emix. unfold mlp_call in Emix. cbn [m_gradient] in Emix. destruct (gradient_number (c_conf C) None) as [gn|]; [eauto|discriminate]. }
  destruct G as [gn G]. assert (MO : mix_ok C gn) by (constructor; assumption).
  assert (Ne : regroup_irreps (comb_irreps C p (up_irreps C (irr feats) (zero_flags feats))) <> []).
  { intros Q. rewrite Q in Ic. unfold conv_mix in Emix. destruct (attrs_keep C p at_ Cat Iat) as (sc & Es & Is & _ & Cs & _). rewrite Es in Emix. cbn [bind] in Emix. rewrite Ic in Emix. fold (mix_module C (num_irreps [])) in Emix. destruct (mix_call C P gn (num_irreps []) sc MO Cs Is) as (y & Ey & _ & Iy & _). rewrite Ey in Emix. cbn [bind] in Emix. rewrite (align_nothing _ c y Ic Iy) in Emix. discriminate. }
  destruct (gather_exists C P gn p (irr feats) (zero_flags feats) EO MO Si Lz HP Ne) as (xa & fla & msg & GF).
  assert (Gr : graph p (irr feats) (zero_flags feats) pos feats N E sn rc) by (constructor; auto).
  destruct (gf_run _ _ _ _ _ _ _ _ GF _ _ _ _ _ _ Gr) as (agg' & Eagg & Iagg & Fagg & _ & Cagg & _). rewrite EG in Eagg. injection Eagg as <-.
  destruct (conv_exists C P p (irr feats) (zero_flags feats) xa fla msg GF) as [out CF].
  - intros L' EL'. apply (F2 agg L' EG). rewrite <- EL'. unfold layer_for. destruct (alike_irreps C (c_target C) xa fla agg Iagg Fagg) as (-> & -> & _). reflexivity.
  - exists p, xa, msg, (result_irreps (default_linear C (c_target C)) (zero_like xa [] fla)), out. split; [exact Ip|]. split; [|exact CF].
    unfold result_irreps, target. cbn [default_linear m_force m_simplify m_out]. intros m Hm. apply filter_In in Hm as [Hm _]. clear -Hm. assert (Q : In (snd m) (flat (simplify (c_target C)))). { pose proof (positive_simplify (c_target C)) as Ps. unfold positive in Ps. rewrite Forall_forall in Ps. specialize (Ps m Hm). unfold flat. apply in_flat_map. exists m. split; [exact Hm|]. destruct m as [k ir]. cbn [fst snd] in *. destruct k; [lia|]. now left. }
    rewrite flat_simplify in Q. unfold flat in Q. apply in_flat_map in Q as ([k ir] & H1 & H2). apply repeat_spec in H2. apply in_map_iff. exists (k, ir). split; [exact (eq_sym H2)|exact H1].
Qed.
Lemma to_graph p x fl pos feats N E sn rc : nodes_edges pos feats N E sn rc -> irr pos = vec p -> irr feats = x -> zero_flags feats = fl -> graph p x fl pos feats N E sn rc.
Proof. intros [Cp Cf Lp Lf Hs Hr] Ip Ix Fx. constructor; auto. Qed.
