(* C60: the Linear modules (haiku, flax, equinox).
   [lmodule] holds the constructor's arguments, [params] the dictionary of parameters, [weights_arg] the optional first argument of the call.
   Specification (LinModProofs2.v): [seen]/[fed] = the irreps entering the layer, [target]/[asked] = the irreps leaving it, [result_irreps],
   [result_lead] = irreps and leading shape of the result, [layer_lead] = how the leading shapes of input and weights combine, [chosen] = the
   weights that row i uses, [supplies P ex L] = the dictionary holds an array of the requested shape for every requested name. *)
From Coq Require Import Reals Lra Lia List Arith Bool Ascii.
From Verif Require Import PyBase PermModel PermProofs IrrepsModel IrrepsProofs IrrepsProofs2 IrrepsStr IrrepsStrProofs ArrayModel ArrayProofs ArrayOps RechunkProofs ArithProofs LeadModel LeadProofs BlockProofs AxisProofs StackProofs BilinProofs ActProofs EquivProofs EquivProofs2 HistoryProofs SumR EntryProofs TPModel TPProofs TPProofs2 GradProofs LinearModel LinearProofs LinearProps LinearComplete LinearProps2 LinModModel LinModProofs LinModProofs2.
From Verif Require Import RotationModel WignerModel WignerProofs WignerProofs2.
Import ListNotations.
Open Scope nat_scope.

(* ---- when the module accepts its input (default instructions) ---- *)
Record acceptable (M : lmodule) (w : weights_arg) (x : iarray) (s' : shape) : Prop := {
  ok_instr : m_instr M = None;
  ok_in : forall z, m_in M = Some z -> forall ir, count ir z = count ir (fed M x);
  ok_channel : forall c, m_channel M = Some c -> c <> 0 /\ m_per_channel M = false /\ lead x <> [];
  ok_weights : usable M w (inner_lead M (lead x));
  ok_lead : layer_lead M w (inner_lead M (lead x)) = Ok s';
  ok_biases : match m_biases M with ListBias l => length l = length (asked M x) /\ forall j m, nth_error l j = Some true -> nth_error (asked M x) j = Some m -> snd m = Irrep 0 Even | _ => True end }.
Lemma acceptable_accepted M w x s' : acceptable M w x s' -> accepted M w x s' /\ exists L, layer_for M x = Ok L.
Proof.
  intros [A1 A2 A3 A4 A5 A6]. split.
  - split; auto.
    + unfold validate_inputs. rewrite A1. destruct (m_in M) as [z|]; [|reflexivity]. rewrite !regroup_Ok. cbn [bind]. rewrite (proj2 (regroup_iff (fed M x) z)) by (intros ir; symmetry; now apply A2). now rewrite (proj2 (irreps_eqb_eq _ _) eq_refl).
    + rewrite A1. apply default_connects.
  - unfold layer_for. rewrite A1. now apply C27_biases.
Qed.

(* the call succeeds, with these irreps and this leading shape *)
Theorem C60_shape M P w x s' L : coherent x -> acceptable M w x s' -> layer_for M x = Ok L -> supplies P (extra M w (inner_lead M (lead x))) L ->
  exists r, module_call M P w x = Ok r /\ coherent r /\ irr r = result_irreps M x /\ lead r = result_lead M s'.
Proof.
  intros Cx A EL HP. destruct (st_run _ _ _ _ _ _ _ (call_stage M P w x s' L Cx (proj1 (acceptable_accepted _ _ _ _ A)) EL HP) x (conj eq_refl Cx) Cx eq_refl eq_refl) as (r & E & H1 & H2 & H3 & _). exists r. auto.
Qed.
Lemma In_count ir l : In ir (map snd (regroup_irreps l)) <-> 0 < count ir l.
Proof.
  rewrite <- (regroup_count ir l). assert (Pos : Forall (fun m => 0 < fst m) (regroup_irreps l)) by apply positive_simplify. revert Pos. generalize (regroup_irreps l). intros r Pos. unfold count. induction Pos as [|[m i0] r Hm Pos IH]; [cbn; split; [intros []|lia]|].
  cbn [map snd In filter]. destruct (irrep_eqb ir i0) eqn:E.
  - apply irrep_eqb_eq in E as ->. cbn [map fst]. unfold sum. cbn [fold_right]. cbn in Hm. split; [lia|]. intros _. now left.
  - rewrite <- IH. split; [intros [->|H]; [|exact H]|now right]. assert (irrep_eqb ir ir = true) by now apply irrep_eqb_eq. congruence.
Qed.
(* without force_irreps_out the result keeps, in order, the requested irreps that occur in the (non-zero part of the) input *)
Theorem C60_irreps_kept M x : m_force M = false -> m_simplify M = true ->
  exists keep, result_irreps M x = filter keep (simplify (m_out M)) /\ forall m ir, keep (m, ir) = true <-> 0 < count ir (kept x).
Proof.
  intros Ef Es. unfold result_irreps, target, seen. rewrite Ef, Es. eexists. split; [reflexivity|]. intros m ir. cbv beta. cbn [snd]. fold (kept x). rewrite <- In_count. rewrite existsb_exists. split; [intros (q & Hq & E); apply irrep_eqb_eq in E as ->; exact Hq|]. intros H. exists ir. split; [exact H|]. now apply irrep_eqb_eq.
Qed.
Theorem C60_irreps_forced M x : m_force M = true -> result_irreps M x = m_out M.
Proof. intros E. unfold result_irreps. now rewrite E. Qed.

(* ---- equivariance, for every accepted configuration (user instructions included, if they connect equal irreps) ---- *)
Lemma like_transform D x b : rep_ok D -> coherent x -> transform D x = Ok b -> like x b.
Proof. intros HD Cx E. split; [now apply (transform_flags D)|now apply (transform_coherent D x)]. Qed.
Theorem C60_equivariant r M P w x s' L : orthogonal3 r -> coherent x -> accepted M w x s' -> layer_for M x = Ok L -> supplies P (extra M w (inner_lead M (lead x))) L ->
  agree (let! y := module_call M P w x in transform (rep_of r) y) (let! y := transform (rep_of r) x in module_call M P w y).
Proof.
  intros Or Cx A EL HP. pose proof (as_rep_ok (D_from_matrix r) : rep_ok (rep_of r)) as HD. eapply stage_equivariant; [exact HD|now apply rep_of_scalar|exact Cx|exact (call_stage M P w x s' L Cx A EL HP)|split; auto|]. intros b E. now apply (like_transform (rep_of r)).
Qed.

(* ---- without biases the call is linear in the input ---- *)
Lemma no_bias_instr x y ins pn gn L : functional_linear x y ins NoBias pn gn = Ok L -> Forall (fun o => li_in o <> None) (fl_ins L).
Proof.
  intros E. destruct (constructor_shape _ _ _ _ _ _ _ E) as (bs & Eb & Ex & Ey & Ei & _). rewrite Ei. apply Forall_app. split; [apply Forall_map, Forall_forall; intros [i j] _; discriminate|]. apply Forall_forall. intros o Ho. apply in_flat_map in Ho as ([j [bb m]] & Hj & Ho). apply in_enumerate in Hj. apply nth_error_In, in_combine_l in Hj.
  unfold biases_of in Eb. rewrite repeat_length, Nat.eqb_refl in Eb. cbn [assert bind] in Eb. destruct (forallb _ _); [|discriminate]. cbn [assert bind] in Eb. injection Eb as <-. apply repeat_spec in Hj as ->. destruct Ho.
Qed.
Lemma call_linear M P w x s' L : coherent x -> accepted M w x s' -> layer_for M x = Ok L -> supplies P (extra M w (inner_lead M (lead x))) L -> m_biases M = NoBias -> linear_stage (irr x) (lead x) (result_lead M s') (call_T M P w L x).
Proof.
  intros Cx [Av Ac Ach Aw Al] EL HP Nb. assert (H1 : m_channel M <> None -> lead x <> []) by (intros N; destruct (m_channel M) as [c|]; [apply (Ach c eq_refl)|congruence]).
  destruct (module_layer_stage M P w _ _ _ _ _ _ L _ s' EL Ac Aw Al HP) as [LS Hb]. unfold layer_for in EL. rewrite Nb in EL. pose proof (no_bias_instr _ _ _ _ _ _ EL) as NB.
  assert (P0 : linear_stage (irr x) (lead x) (lead x) (pre0 M (zero_flags x) (irr x))).
  { intros t a b i Hi La Lb. unfold pre0. destruct (m_simplify M); [|reflexivity]. rewrite drop_row_lin by (rewrite La, Lb by exact Hi; reflexivity). apply sort_row_lin. pose proof (st_len _ _ _ _ _ _ _ (drop_stage (zero_flags x) (irr x) (lead x) (zero_flags_length x Cx))) as N. rewrite (N a i Hi La), (N b i Hi Lb). reflexivity. }
  assert (P1 : linear_stage (irr x) (lead x) (inner_lead M (lead x)) (pre_T M x)).
  { unfold pre_T, inner_lead. destruct (m_channel M) as [c|]; [|exact P0]. assert (Nl : lead x <> []) by (apply H1; congruence). pose proof (axis_linear (seen M x) (removelast (lead x)) (last (lead x) 0)) as AL. rewrite <- (snoc_shape _ Nl) in AL. refine (linear_compose _ _ _ _ _ _ _ P0 AL _ _).
    - exact (st_len _ _ _ _ _ _ _ (pre0_stage M x Cx)).
    - pose proof (st_local _ _ _ _ _ _ _ (axis_stage (seen M x) (removelast (lead x)) (last (lead x) 0))) as Lo. rewrite <- (snoc_shape _ Nl) in Lo. exact Lo. }
  assert (P2 : linear_stage (fed M x) (inner_lead M (lead x)) s' (mid_T M P w L x)).
  { intros t a b i Hi La Lb. unfold mid_T. pose proof (constructor_ok _ _ _ _ _ _ _ EL Ac) as Hins. assert (V : forall i, valid s' i -> valid (inner_lead M (lead x)) (bidx (inner_lead M (lead x)) i)) by (intros j Hj; apply (broadcast_valid _ _ _ _ Hb Hj)).
    pose proof (layer_linear (fed M x) (asked M x) (fl_ins L) (fun i => map (fun f => f i) (row_weights M P w L)) s' Hins NB ltac:(intros; unfold row_weights; now rewrite !map_length)) as LL. apply (LL t (fun i => a (bidx (inner_lead M (lead x)) i)) (fun i => b (bidx (inner_lead M (lead x)) i)) i Hi); intros j Hj; [apply La|apply Lb]; now apply V. }
  assert (P3 : linear_stage (asked M x) s' (result_lead M s') (post_T M x)).
  { unfold post_T, result_lead. destruct (m_channel M) as [c|] eqn:Ec; [|intros t a b i _ _ _; reflexivity]. destruct (Ach c eq_refl) as (Nc & _). destruct (asked_div M x c Ec Nc) as [Hd _]. now apply split_linear. }
  assert (H2 : forall c, m_channel M = Some c -> c <> 0) by (intros c Ec; apply (Ach c Ec)).
  assert (P12 : linear_stage (irr x) (lead x) s' (fun a => mid_T M P w L x (pre_T M x a))) by (refine (linear_compose _ _ _ _ _ _ _ P1 P2 _ _); [exact (st_len _ _ _ _ _ _ _ (pre_stage M x Cx H1))|exact (st_local _ _ _ _ _ _ _ LS)]).
  refine (linear_compose _ _ _ _ _ (fun a => mid_T M P w L x (pre_T M x a)) _ P12 P3 _ _); [|exact (st_local _ _ _ _ _ _ _ (post_stage M x s' H2))].
  exact (st_len _ _ _ _ _ _ _ (stage_compose _ _ _ _ _ _ _ _ _ _ _ (pre_stage M x Cx H1) LS)).
Qed.
Theorem C60_linear M P w x y z s' L t : m_biases M = NoBias -> coherent x -> accepted M w x s' -> layer_for M x = Ok L -> supplies P (extra M w (inner_lead M (lead x))) L ->
  coherent y -> irr y = irr x -> lead y = lead x -> zero_flags y = zero_flags x ->
  coherent z -> irr z = irr x -> lead z = lead x -> zero_flags z = zero_flags x ->
  (forall i, valid (lead x) i -> arr z i = zipR Rplus (map (Rmult t) (arr x i)) (arr y i)) ->
  exists rx ry rz, module_call M P w x = Ok rx /\ module_call M P w y = Ok ry /\ module_call M P w z = Ok rz /\
    forall i, valid (lead rz) i -> arr rz i = zipR Rplus (map (Rmult t) (arr rx i)) (arr ry i).
Proof.
  intros Nb Cx A EL HP Cy Iy Ly Fy Cz Iz Lz Fz H. pose proof (call_stage M P w x s' L Cx A EL HP) as [R1 L1 N1 A1]. pose proof (call_linear M P w x s' L Cx A EL HP Nb) as CL.
  destruct (R1 x (conj eq_refl Cx) Cx eq_refl eq_refl) as (rx & Ex & _ & _ & _ & Vx). destruct (R1 y (conj Fy Cy) Cy Iy Ly) as (ry & Ey & _ & _ & _ & Vy). destruct (R1 z (conj Fz Cz) Cz Iz Lz) as (rz & Ez & _ & Sz & _ & Vz).
  exists rx, ry, rz. repeat (split; [assumption|]). intros i Hi. rewrite Sz in Hi. rewrite Vx, Vy, Vz by exact Hi. rewrite (L1 (arr z) (fun j => lin t (arr x j) (arr y j)) i Hi) by (intros j Hj; now apply H).
  apply (CL t (arr x) (arr y) i Hi); [apply Cx|]. rewrite <- Iy, <- Ly. apply Cy.
Qed.
