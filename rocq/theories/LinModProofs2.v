(* The whole call of a Linear module as one step. *)
From Coq Require Import Reals Lra Lia List Arith Bool.
From Verif Require Import PyBase PermModel PermProofs IrrepsModel IrrepsProofs IrrepsProofs2 IrrepsStr ArrayModel ArrayProofs ArrayOps RechunkProofs ArithProofs LeadModel LeadProofs BlockProofs AxisProofs StackProofs BilinProofs ActProofs EquivProofs EquivProofs2 SumR EntryProofs TPModel TPProofs TPProofs2 GradProofs LinearModel LinearProofs LinearProps LinearComplete LinModModel LinModProofs.
Import ListNotations.
Open Scope nat_scope.

(* the irreps the layer sees: entries flagged as zero are dropped, the rest is sorted and merged *)
Definition seen (M : lmodule) (x : iarray) : irreps := if m_simplify M then regroup_irreps (select (map negb (zero_flags x)) (irr x)) else irr x.
(* the irreps of the result before force_irreps_out: those that the input has *)
Definition target (M : lmodule) (x : iarray) : irreps :=
  let y := if m_simplify M then simplify (m_out M) else m_out M in
  if m_force M then y else filter (fun m => existsb (irrep_eqb (snd m)) (map snd (seen M x))) y.
(* with channel_out the last axis is moved into the multiplicities *)
Definition fed (M : lmodule) (x : iarray) : irreps := match m_channel M with None => seen M x | Some _ => map (fun '(m, ir) => (last (lead x) 0 * m, ir)) (seen M x) end.
Definition asked (M : lmodule) (x : iarray) : irreps := match m_channel M with None => target M x | Some c => map (fun '(m, ir) => (m * c, ir)) (target M x) end.
Definition inner_lead (M : lmodule) (s : shape) : shape := match m_channel M with None => s | Some _ => removelast s end.
(* an IrrepsArray of weights stands for its array *)
Definition plain (w : weights_arg) : weights_arg := match w with Wrapped a => Floats (lead a) (dim (irr a)) (arr a) | w => w end.
(* the leading shape of the layer's result, for an input of leading shape s *)
Definition layer_lead (M : lmodule) (w : weights_arg) (s : shape) : res shape :=
  match plain w with
  | Indices si _ => broadcast_shapes s si
  | Floats sw _ _ => if m_per_channel M then rmap (fun r => r ++ [last s 0]) (broadcast_shapes (removelast s) sw) else broadcast_shapes s sw
  | _ => Ok s
  end.
(* the leading axes of the parameters *)
Definition extra (M : lmodule) (w : weights_arg) (s : shape) : shape :=
  match plain w with
  | Indices _ _ => match m_indexed M with Some n => [n] | None => [] end
  | Floats _ d _ => if m_per_channel M then [d; last s 0] else [d]
  | _ => []
  end.
Definition usable (M : lmodule) (w : weights_arg) (s : shape) : Prop :=
  match w with Wrapped a => is_scalar (irr a) = true | _ => True end /\
  match plain w with
  | Indices _ _ => exists n, m_indexed M = Some n /\ n <> 0 /\ m_per_channel M = false
  | Floats _ d _ => m_indexed M = None /\ d <> 0 /\ (m_per_channel M = true -> s <> [])
  | _ => m_per_channel M = false
  end.
(* the weights, of size n, that the parameter called nm contributes to row i of the layer's result *)
Definition chosen (M : lmodule) (P : params) (w : weights_arg) (nm : chars) (n : nat) (i : idx) : list R :=
  match plain w with
  | Indices si ix => P nm [gather_index (match m_indexed M with Some n => n | None => 0 end) (ix (bidx si i))]
  | Floats sw d f => if m_per_channel M then mix (m_gn M) d n (f (bidx sw (removelast i))) (fun k => P nm [k; last i 0]) else mix (m_gn M) d n (f (bidx sw i)) (fun k => P nm [k])
  | _ => P nm []
  end.
Definition supplies (P : params) (ex : shape) (L : flinear) : Prop := forall o, In o (fl_ins L) -> forall e, valid ex e -> length (P (pname L o) e) = nprod (li_shape o).
Definition row_weights (M : lmodule) (P : params) (w : weights_arg) (L : flinear) : list (idx -> list R) := map (fun o => chosen M P w (pname L o) (nprod (li_shape o))) (fl_ins L).

Lemma gather_index_lt n z : n <> 0 -> gather_index n z < n.
Proof. intros N. unfold gather_index. lia. Qed.
Lemma mix_length gn d n v p : length (mix gn d n v p) = n.
Proof. unfold mix. now rewrite map_length, seq_length. Qed.
Lemma snoc_shape (s : shape) : s <> [] -> s = removelast s ++ [last s 0].
Proof. intros H. apply app_removelast_last, H. Qed.
Lemma broadcast_snoc s t r n : broadcast_shapes s t = Ok r -> broadcast_shapes (s ++ [n]) (t ++ [n]) = Ok (r ++ [n]).
Proof.
  unfold broadcast_shapes. rewrite !rev_app_distr. cbn [rev app bshape_rev]. intros E. destruct (bshape_rev (rev s) (rev t)) as [q|] eqn:Eq; [|discriminate]. cbn [rmap] in E. injection E as <-. unfold bdim. rewrite Nat.eqb_refl. cbn [bind rmap]. reflexivity.
Qed.
Lemma map_zip_Forall2 {A C} (R0 : A -> C -> Prop) (f : A -> C) (l : list A) : (forall o, In o l -> R0 o (f o)) -> Forall2 R0 l (map f l).
Proof. induction l as [|o l IH]; intros H; constructor; [apply H; now left|]. apply IH. intros q Hq. apply H. now right. Qed.
Lemma row_weights_length M P w L s s' : usable M w s -> layer_lead M w s = Ok s' -> supplies P (extra M w s) L ->
  Forall2 (fun o f => forall i, valid s' i -> length (f i) = nprod (li_shape o)) (fl_ins L) (row_weights M P w L).
Proof.
  intros [_ U] El HP. unfold row_weights. apply map_zip_Forall2. intros o Ho i Hi. unfold chosen, extra, layer_lead in *. destruct (plain w) as [|si ix|sw d f|a] eqn:Ew.
  - apply HP; [exact Ho|constructor].
  - destruct U as (n & En & Nn & _). rewrite En in *. apply HP; [exact Ho|]. constructor; [now apply gather_index_lt|constructor].
  - destruct (m_per_channel M); apply mix_length.
  - apply HP; [exact Ho|constructor].
Qed.
Lemma module_layer_stage M P w x y instr b pn gn L s s' : functional_linear x y instr b pn gn = Ok L -> connects_equal x y instr -> usable M w s -> layer_lead M w s = Ok s' -> supplies P (extra M w s) L ->
  stage any x s y s' (module_layer M P L w) (fun a => layer_row x y (fl_ins L) (fun i => map (fun f => f i) (row_weights M P w L)) (fun i => a (bidx s i))) /\ broadcast_shapes s s' = Ok s'.
Proof.
  intros E C U El HP. pose proof (row_weights_length M P w L s s' U El HP) as HW. pose proof (layer_stage x y instr b pn gn L s' (row_weights M P w L) E C HW) as LS.
  assert (self : broadcast_shapes s s = Ok s). { clear. unfold broadcast_shapes. assert (G : forall l, bshape_rev l l = Ok l). { induction l as [|n l IH]; [reflexivity|]. cbn [bshape_rev]. unfold bdim. rewrite Nat.eqb_refl, IH. reflexivity. } rewrite G. cbn [rmap]. now rewrite rev_involutive. }
  assert (G : forall op, (forall z, lead z = s -> op z = (let! z' := broadcast_to z s' in linear_call L (row_weights M P w L) z')) -> broadcast_shapes s s' = Ok s' ->
    stage any x s y s' op (fun a => layer_row x y (fl_ins L) (fun i => map (fun f => f i) (row_weights M P w L)) (fun i => a (bidx s i)))).
  { intros op Hop Hb. eapply stage_op; [|exact (stage_compose any x s x s' y s' _ _ _ _ (broadcast_stage x s s' Hb) LS)]. intros z _ _ Lz. apply Hop, Lz. }
  destruct U as [U0 U]. unfold layer_lead, module_layer in *. destruct w as [|si ix|sw d f|a]; cbn [plain] in *.
  - injection El as <-. split; [|exact self]. rewrite U. cbn [negb assert bind]. unfold linear_vanilla.
    assert (W0 : map (fun o _ => P (pname L o) []) (fl_ins L) = row_weights M P NoWeights L) by reflexivity. destruct LS as [R1 L1 N1 A1]. split.
    + intros z Hz Cz Ez Sz. rewrite W0. eapply yields_ext; [|apply (R1 z Hz Cz Ez Sz)]. intros i Hi. cbv beta. apply L1; [exact Hi|]. intros j Hj. now rewrite bidx_id.
    + intros a b0 i Hi Q. apply L1; [exact Hi|]. intros j Hj. rewrite bidx_id by exact Hj. now apply Q.
    + intros a i Hi La. apply N1; [exact Hi|]. intros j Hj. rewrite bidx_id by exact Hj. now apply La.
    + intros D HD HS a i Hi La. apply A1; auto. intros j Hj. rewrite bidx_id by exact Hj. now apply La.
  - destruct (broadcast_absorb _ _ _ El) as [Hb _]. split; [|exact Hb]. apply G; [|exact Hb]. intros z Lz. destruct U as (n & En & Nn & Pc). rewrite En, Pc. cbn [negb assert bind]. unfold linear_indexed. rewrite Lz, El. cbn [bind]. destruct (broadcast_to z s'); [|reflexivity]. cbn [bind]. rewrite (proj2 (Nat.eqb_neq n 0) Nn). cbn [andb]. unfold row_weights, chosen. cbn [plain]. rewrite En. reflexivity.
  - destruct U as (En & Nd & Pc). rewrite En. destruct (m_per_channel M) eqn:Epc.
    + specialize (Pc eq_refl). destruct (broadcast_shapes (removelast s) sw) as [r|] eqn:Er; [|discriminate]. cbn [rmap] in El. injection El as <-. destruct (broadcast_absorb _ _ _ Er) as [Hb _]. assert (Hb' : broadcast_shapes s (r ++ [last s 0]) = Ok (r ++ [last s 0])) by (rewrite (snoc_shape s Pc) at 1; apply broadcast_snoc, Hb). split; [|exact Hb']. apply G; [|exact Hb'].
      intros z Lz. unfold linear_mixed_per_channel. rewrite Lz. destruct s as [|s0 s]; [congruence|]. rewrite Er. cbn [bind]. destruct (broadcast_to z _); [|reflexivity]. cbn [bind]. rewrite (proj2 (Nat.eqb_neq d 0) Nd). unfold row_weights, chosen. cbn [plain]. rewrite Epc. reflexivity.
    + destruct (broadcast_absorb _ _ _ El) as [Hb _]. split; [|exact Hb]. apply G; [|exact Hb]. intros z Lz. unfold linear_mixed. rewrite Lz, El. cbn [bind]. destruct (broadcast_to z s'); [|reflexivity]. cbn [bind]. rewrite (proj2 (Nat.eqb_neq d 0) Nd). unfold row_weights, chosen. cbn [plain]. rewrite Epc. reflexivity.
  - rewrite U0. cbn [negb]. set (sw := lead a) in *. set (d := dim (irr a)) in *. set (f := arr a) in *. destruct U as (En & Nd & Pc). rewrite En. destruct (m_per_channel M) eqn:Epc.
    + specialize (Pc eq_refl). destruct (broadcast_shapes (removelast s) sw) as [r|] eqn:Er; [|discriminate]. cbn [rmap] in El. injection El as <-. destruct (broadcast_absorb _ _ _ Er) as [Hb _]. assert (Hb' : broadcast_shapes s (r ++ [last s 0]) = Ok (r ++ [last s 0])) by (rewrite (snoc_shape s Pc) at 1; apply broadcast_snoc, Hb). split; [|exact Hb']. apply G; [|exact Hb'].
      intros z Lz. unfold linear_mixed_per_channel. rewrite Lz. destruct s as [|s0 s]; [congruence|]. rewrite Er. cbn [bind]. destruct (broadcast_to z _); [|reflexivity]. cbn [bind]. rewrite (proj2 (Nat.eqb_neq d 0) Nd). unfold row_weights, chosen. cbn [plain]. rewrite Epc. reflexivity.
    + destruct (broadcast_absorb _ _ _ El) as [Hb _]. split; [|exact Hb]. apply G; [|exact Hb]. intros z Lz. unfold linear_mixed. rewrite Lz, El. cbn [bind]. destruct (broadcast_to z s'); [|reflexivity]. cbn [bind]. rewrite (proj2 (Nat.eqb_neq d 0) Nd). unfold row_weights, chosen. cbn [plain]. rewrite Epc. reflexivity.
Qed.

(* ---- the call ---- *)
Definition kept (x : iarray) : irreps := select (map negb (zero_flags x)) (irr x).
Definition pre0 (M : lmodule) (fl : list bool) (x : irreps) : transformer := fun a i => if m_simplify M then sort_row' (select (map negb fl) x) (drop_row fl x (a i)) else a i.
Definition pre_T (M : lmodule) (x : iarray) : transformer := fun a =>
  match m_channel M with None => pre0 M (zero_flags x) (irr x) a | Some _ => fun i => blockwise (fun m => V_merge (last (lead x) 0) m i) (seen M x) (pre0 M (zero_flags x) (irr x) a) end.
Definition mid_T (M : lmodule) (P : params) (w : weights_arg) (L : flinear) (x : iarray) : transformer := fun a =>
  layer_row (fed M x) (asked M x) (fl_ins L) (fun i => map (fun f => f i) (row_weights M P w L)) (fun i => a (bidx (inner_lead M (lead x)) i)).
Definition post_T (M : lmodule) (x : iarray) : transformer := fun a => match m_channel M with None => a | Some c => fun i => blockwise (fun m => V_split c m i) (asked M x) a end.
Definition call_T M P w L x : transformer := fun a => post_T M x (mid_T M P w L x (pre_T M x a)).
Definition result_irreps (M : lmodule) (x : iarray) : irreps := if m_force M then m_out M else target M x.
Definition result_lead (M : lmodule) (s' : shape) : shape := match m_channel M with None => s' | Some c => s' ++ [c] end.
Definition like (x y : iarray) : Prop := zero_flags y = zero_flags x /\ coherent y.

Definition pre (M : lmodule) (y : iarray) : res iarray :=
  let! z := if m_simplify M then (let! z := remove_zero_chunks y in ia_regroup z) else Ok y in
  match m_channel M with None => Ok z | Some _ => axis_to_mul z (-2) end.
Lemma pre0_stage M x : coherent x -> stage (like x) (irr x) (lead x) (seen M x) (lead x) (fun y => if m_simplify M then (let! z := remove_zero_chunks y in ia_regroup z) else Ok y) (pre0 M (zero_flags x) (irr x)).
Proof.
  intros Cx. unfold seen, pre0. destruct (m_simplify M).
  - eapply stage_weaken; [|exact (stage_compose _ _ _ _ _ _ _ _ _ _ _ (drop_stage (zero_flags x) (irr x) (lead x) (zero_flags_length x Cx)) (regroup_stage _ _))]. intros y [H _]. exact H.
  - eapply stage_weaken; [|apply stage_id]. intros; exact Logic.I.
Qed.
Lemma pre_stage M x : coherent x -> (m_channel M <> None -> lead x <> []) -> stage (like x) (irr x) (lead x) (fed M x) (inner_lead M (lead x)) (pre M) (pre_T M x).
Proof.
  intros Cx Hc. unfold pre, fed, inner_lead, pre_T. destruct (m_channel M) as [c|].
  - assert (Nl : lead x <> []) by (apply Hc; congruence). pose proof (axis_stage (seen M x) (removelast (lead x)) (last (lead x) 0)) as AS. rewrite <- (snoc_shape _ Nl) in AS. exact (stage_compose _ _ _ _ _ _ _ _ _ _ _ (pre0_stage M x Cx) AS).
  - destruct (pre0_stage M x Cx) as [R1 L1 N1 A1]. split; auto. intros y HQ Cy Ey Sy. destruct (R1 y HQ Cy Ey Sy) as (z & E & H). exists z. rewrite E. cbn [bind]. auto.
Qed.
Lemma filter_keep y l : filter_irreps y (Some (ByIrreps l)) None None = Ok (filter (fun m => existsb (irrep_eqb (snd m)) l) y).
Proof. reflexivity. Qed.
Lemma inputs_pre M x y z : coherent x -> like x y -> irr y = irr x -> lead y = lead x -> (m_channel M <> None -> lead x <> [] /\ m_per_channel M = false) -> pre M y = Ok z -> module_inputs M y = Ok (z, asked M x).
Proof.
  intros Cx Hl Ey Sy Hc. destruct (st_run _ _ _ _ _ _ _ (pre0_stage M x Cx) y Hl (proj2 Hl) Ey Sy) as (z0 & E0 & I0 & L0 & C0 & _). unfold pre, module_inputs. cbv beta in E0. rewrite E0. cbn [bind].
  assert (T0 : (let y0 := if m_simplify M then simplify (m_out M) else m_out M in if m_force M then Ok y0 else filter_irreps y0 (Some (ByIrreps (map snd (irr z0)))) None None) = Ok (target M x)) by (rewrite I0; unfold target; destruct (m_force M); reflexivity).
  cbv zeta in T0. unfold asked. destruct (m_channel M) as [c|].
  - destruct (Hc ltac:(congruence)) as [Nl Pc]. intros E. transitivity (let! y0 := (let y0 := if m_simplify M then simplify (m_out M) else m_out M in if m_force M then Ok y0 else filter_irreps y0 (Some (ByIrreps (map snd (irr z0)))) None None) in let! _ := assert (negb (m_per_channel M)) in let! x0 := axis_to_mul z0 (-2) in let! y1 := mul_int y0 (Z.of_nat c) in Ok (x0, y1)); [reflexivity|]. cbv zeta. rewrite T0. cbn [bind]. rewrite Pc. cbn [negb assert bind]. rewrite E. cbn [bind]. rewrite mul_int_ok. reflexivity.
  - intros E. injection E as <-. transitivity (let! y0 := (let y0 := if m_simplify M then simplify (m_out M) else m_out M in if m_force M then Ok y0 else filter_irreps y0 (Some (ByIrreps (map snd (irr z0)))) None None) in Ok (z0, y0)); [reflexivity|]. cbv zeta. rewrite T0. reflexivity.
Qed.
Definition post (M : lmodule) (out : iarray) : res iarray :=
  let! out := match m_channel M with Some c => mul_to_axis out (Some c) (-2) | None => Ok out end in
  if m_force M then rechunk out (m_out M) else Ok out.
Lemma asked_div M x c : m_channel M = Some c -> c <> 0 -> Forall (fun m => fst m mod c = 0) (asked M x) /\ map (fun '(mul, ir) => (mul / c, ir)) (asked M x) = target M x.
Proof.
  intros E N. unfold asked. rewrite E. split.
  - apply Forall_map, Forall_forall. intros [m ir] _. cbn [fst]. now apply Nat.mod_mul.
  - rewrite map_map. rewrite <- (map_id (target M x)) at 2. apply map_ext. intros [m ir]. now rewrite Nat.div_mul.
Qed.
Lemma forced_simplify M x : m_force M = true -> simplify (target M x) = simplify (m_out M).
Proof. intros E. unfold target. rewrite E. destruct (m_simplify M); [apply simplify_idem|reflexivity]. Qed.
Lemma post_stage M x s' : (forall c, m_channel M = Some c -> c <> 0) -> stage any (asked M x) s' (result_irreps M x) (result_lead M s') (post M) (post_T M x).
Proof.
  intros Hc. assert (F : stage any (target M x) (result_lead M s') (result_irreps M x) (result_lead M s') (fun z => if m_force M then rechunk z (m_out M) else Ok z) (fun a => a)).
  { unfold result_irreps. destruct (m_force M) eqn:Ef; [apply rechunk_stage, forced_simplify, Ef|apply stage_id]. }
  unfold post, post_T. destruct (m_channel M) as [c|] eqn:Ec.
  - destruct (asked_div M x c Ec (Hc c eq_refl)) as [Hd He]. pose proof (split_stage (asked M x) s' c (Hc c eq_refl) Hd) as SS. rewrite He in SS. unfold result_lead in *. rewrite Ec in *. exact (stage_compose _ _ _ _ _ _ _ _ _ _ _ SS F).
  - unfold result_lead, asked in *. rewrite Ec in *. exact F.
Qed.
Record accepted (M : lmodule) (w : weights_arg) (x : iarray) (s' : shape) : Prop := {
  ac_valid : validate_inputs (fed M x) (m_instr M) (m_simplify M) (m_channel M) (m_in M) = Ok tt;
  ac_connects : connects_equal (fed M x) (asked M x) (m_instr M);
  ac_channel : forall c, m_channel M = Some c -> c <> 0 /\ m_per_channel M = false /\ lead x <> [];
  ac_weights : usable M w (inner_lead M (lead x));
  ac_lead : layer_lead M w (inner_lead M (lead x)) = Ok s' }.
Definition layer_for (M : lmodule) (x : iarray) : res flinear := functional_linear (fed M x) (asked M x) (m_instr M) (m_biases M) (m_pn M) (m_gn M).
Lemma call_stage M P w x s' L : coherent x -> accepted M w x s' -> layer_for M x = Ok L -> supplies P (extra M w (inner_lead M (lead x))) L ->
  stage (like x) (irr x) (lead x) (result_irreps M x) (result_lead M s') (module_call M P w) (call_T M P w L x).
Proof.
  intros Cx [Av Ac Ach Aw Al] EL HP. assert (H1 : m_channel M <> None -> lead x <> []) by (intros N; destruct (m_channel M) as [c|]; [apply (Ach c eq_refl)|congruence]).
  assert (H2 : forall c, m_channel M = Some c -> c <> 0) by (intros c Ec; apply (Ach c Ec)).
  destruct (module_layer_stage M P w _ _ _ _ _ _ L _ s' EL Ac Aw Al HP) as [LS _].
  pose proof (stage_compose _ _ _ _ _ _ _ _ _ _ _ (stage_compose _ _ _ _ _ _ _ _ _ _ _ (pre_stage M x Cx H1) LS) (post_stage M x s' H2)) as S3. fold (mid_T M P w L x) in S3.
  eapply stage_op; [|exact S3]. intros y Hl Ey Sy. cbv beta.
  destruct (st_run _ _ _ _ _ _ _ (pre_stage M x Cx H1) y Hl (proj2 Hl) Ey Sy) as (z & Ez & Iz & _). rewrite Ez. cbn [bind]. unfold module_call.
  assert (H3 : m_channel M <> None -> lead x <> [] /\ m_per_channel M = false) by (intros N; destruct (m_channel M) as [c|]; [destruct (Ach c eq_refl) as (_ & A1 & A2); auto|congruence]). rewrite (inputs_pre M x y z Cx Hl Ey Sy H3 Ez). cbn [bind]. rewrite Iz, Av. cbn [bind]. unfold layer_for in EL. rewrite EL. cbn [bind]. reflexivity.
Qed.
