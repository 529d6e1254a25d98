(* C60, continued: the equinox module; what is rejected; corner cases; concrete instances. *)
From Coq Require Import Reals Lra Lia List Arith Bool Ascii.
From Verif Require Import PyBase PermModel PermProofs IrrepsModel IrrepsProofs IrrepsProofs2 IrrepsStr IrrepsStrProofs ArrayModel ArrayProofs ArrayOps ArrayProps3 RechunkProofs ArithProofs LeadModel LeadProofs BlockProofs AxisProofs StackProofs BilinProofs ActProofs EquivProofs EquivProofs2 HistoryProofs SumR EntryProofs TPModel TPProofs TPProofs2 GradProofs LinearModel LinearProofs LinearProps LinearComplete LinearProps2 LinModModel LinModProofs LinModProofs2 LinModProps LinModProps2.
From Verif Require Import RotationModel WignerModel WignerProofs WignerProofs2.
Import ListNotations.
Open Scope nat_scope.

(* how the equinox module evaluates its layer, in terms of the other modules *)
Definition eqx_layer (A : eqx_args) : lmodule := LMod (e_out A) None None (e_biases A) (e_pn A) (e_gn A) None (e_indexed A) (match e_type A with TMixedPerChannel => true | _ => false end) (e_force A) true.
Record eqx_accepts (A : eqx_args) (w : weights_arg) (x : iarray) (s' : shape) : Prop := {
  qa_in : forall ir, count ir (e_in A) = count ir (irr x);
  qa_zero : forall ir, count ir (kept x) = count ir (irr x);
  qa_channel_in : forall c, e_channel_in A = Some c -> lead x <> [] /\ last (lead x) 0 = c;
  qa_channel_out : forall c, e_channel_out A = Some c -> c <> 0;
  qa_weights : match e_type A, plain w with
    | TVanilla, NoWeights => True
    | TIndexed, Indices _ _ => e_per_channel A = false /\ exists n, e_indexed A = Some n /\ n <> 0
    | TMixed, Floats _ d _ => e_indexed A = None /\ e_wdim A = Some d /\ d <> 0
    | TMixedPerChannel, Floats _ d _ => e_indexed A = None /\ e_wdim A = Some d /\ d <> 0 /\ lead x <> []
    | _, _ => False
    end;
  qa_scalar : match w with Wrapped a => is_scalar (irr a) = true | _ => True end;
  qa_lead : layer_lead (eqx_layer A) w (lead x) = Ok s' }.
Lemma eqx_init_shape A Q : eqx_init A = Ok Q ->
  q_args Q = A /\ q_in Q = regroup_irreps (e_in A) /\
  q_out Q = (if e_force A then e_out A else simplify (filter (fun m => existsb (irrep_eqb (snd m)) (map snd (regroup_irreps (e_in A)))) (e_out A))) /\
  functional_linear (q_in Q) (map (fun '(m, ir) => (m * match e_channel_out A with Some c => c | None => 1 end, ir)) (q_out Q)) None (e_biases A) (e_pn A) (e_gn A) = Ok (q_linear Q).
Proof.
  unfold eqx_init. rewrite regroup_Ok. cbn [bind]. set (c0 := match e_channel_out A with Some c => c | None => 1 end).
  assert (G : forall y Z, (let! cy := mul_int y (Z.of_nat c0) in let! L := functional_linear (regroup_irreps (e_in A)) cy None (e_biases A) (e_pn A) (e_gn A) in let! _ := (Z L : res unit) in Ok (EqxMod A (regroup_irreps (e_in A)) y L)) = Ok Q ->
    q_args Q = A /\ q_in Q = regroup_irreps (e_in A) /\ q_out Q = y /\ functional_linear (q_in Q) (map (fun '(m, ir) => (m * c0, ir)) (q_out Q)) None (e_biases A) (e_pn A) (e_gn A) = Ok (q_linear Q)).
  { intros y Z. rewrite mul_int_ok. cbn [bind]. destruct (functional_linear _ _ _ _ _ _) as [L|] eqn:EL; [|discriminate]. cbn [bind]. destruct (Z L); [|discriminate]. cbn [bind]. intros H. injection H as <-. cbn [q_args q_in q_out q_linear]. auto. }
  assert (F : (if e_force A then Ok (e_out A) else rmap simplify (filter_irreps (e_out A) (Some (ByIrreps (map snd (regroup_irreps (e_in A))))) None None)) = Ok (if e_force A then e_out A else simplify (filter (fun m => existsb (irrep_eqb (snd m)) (map snd (regroup_irreps (e_in A)))) (e_out A)))) by (destruct (e_force A); reflexivity).
  rewrite F. unfold c0 in *. destruct (e_channel_out A) as [c|].
  - destruct (e_per_channel A); [discriminate|]. cbn [negb assert bind]. intros H. exact (G _ _ H).
  - cbn [bind]. intros H. exact (G _ _ H).
Qed.
Definition eqx_lead (A : eqx_args) (s' : shape) : shape := match e_channel_out A with None => s' | Some c => s' ++ [c] end.
Lemma eqx_stage A Q P w x s' : eqx_init A = Ok Q -> coherent x -> eqx_accepts A w x s' -> supplies P (extra (eqx_layer A) w (lead x)) (q_linear Q) ->
  exists T, stage (like x) (irr x) (lead x) (q_out Q) (eqx_lead A s') (eqx_call Q P w) T.
Proof.
  intros EQ Cx [A1 A2 A3 A4 A5 A6 A7] HP. destruct (eqx_init_shape A Q EQ) as (Qa & Qi & Qo & QL). set (M := eqx_layer A) in *. set (c0 := match e_channel_out A with Some c => c | None => 1 end) in *. set (cy := map (fun '(m, ir) => (m * c0, ir)) (q_out Q)) in *.
  assert (Es : seen M x = q_in Q). { unfold seen. cbn [M eqx_layer m_simplify]. rewrite Qi. apply regroup_iff. intros ir. rewrite A1, <- A2. reflexivity. }
  assert (Er : regroup_irreps (irr x) = q_in Q) by (rewrite Qi; apply regroup_iff; intros ir; symmetry; apply A1).
  assert (U : usable M w (lead x)).
  { split; [exact A6|]. cbn [M eqx_layer m_per_channel m_indexed]. destruct (e_type A), (plain w) as [|si ix|sw d f|a]; try contradiction.
    - reflexivity.
    - destruct A5 as (_ & n & En & Nn). exists n. auto.
    - destruct A5 as (En & _ & Nd). split; [exact En|]. split; [exact Nd|]. intros H. discriminate H.
    - destruct A5 as (En & _ & Nd & Nl). split; [exact En|]. split; [exact Nd|]. intros _. exact Nl. }
  destruct (module_layer_stage M P w _ _ _ _ _ _ _ _ s' QL (default_connects _ _) U A7 HP) as [LS _].
  pose proof (pre0_stage M x Cx) as PS. rewrite Es in PS. pose proof (stage_compose _ _ _ _ _ _ _ _ _ _ _ PS LS) as S1.
  assert (S2 : exists T2, stage any cy s' (q_out Q) (eqx_lead A s') (fun o => let! out := match e_channel_out A with Some c => mul_to_axis o (Some c) (-2) | None => Ok o end in rechunk out (q_out Q)) T2).
  { unfold eqx_lead. unfold cy, c0. destruct (e_channel_out A) as [c|].
    - assert (Nc : c <> 0) by now apply A4. assert (Hd : Forall (fun m => fst m mod c = 0) (map (fun '(m, ir) => (m * c, ir)) (q_out Q))) by (apply Forall_map, Forall_forall; intros [m ir] _; cbn [fst]; now apply Nat.mod_mul).
      pose proof (split_stage _ s' c Nc Hd) as SS. assert (Ed : map (fun '(mul, ir) => (mul / c, ir)) (map (fun '(m, ir) => (m * c, ir)) (q_out Q)) = q_out Q) by (rewrite map_map; rewrite <- (map_id (q_out Q)) at 2; apply map_ext; intros [m ir]; now rewrite Nat.div_mul). rewrite Ed in SS.
      eexists. exact (stage_compose _ _ _ _ _ _ _ _ _ _ _ SS (rechunk_stage (q_out Q) (s' ++ [c]) (q_out Q) eq_refl)).
    - assert (Ed : map (fun '(m, ir) => (m * 1, ir)) (q_out Q) = q_out Q) by (rewrite <- (map_id (q_out Q)) at 2; apply map_ext; intros [m ir]; now rewrite Nat.mul_1_r). rewrite Ed. eexists. exact (rechunk_stage (q_out Q) s' (q_out Q) eq_refl). }
  destruct S2 as [T2 S2]. eexists. eapply stage_op; [|exact (stage_compose _ _ _ _ _ _ _ _ _ _ _ S1 S2)]. intros y Hl Iy Ly. cbv beta. cbn [M eqx_layer m_simplify].
  assert (Rd : forall k, eqx_call Q P w y = (let! r := regroup (irr y) in if negb (irreps_eqb (q_in Q) r) then Err ValueError else let! _ := match e_channel_in A with None => Ok tt | Some c => match lead y with [] => Err IndexError | _ => if c =? last (lead y) 0 then Ok tt else Err ValueError end end in k) ->
    eqx_call Q P w y = k).
  { intros k ->. rewrite regroup_Ok, Iy, Er. cbn [bind]. rewrite (proj2 (irreps_eqb_eq _ _) eq_refl). cbn [negb]. rewrite Ly. destruct (e_channel_in A) as [c|]; [|reflexivity]. destruct (A3 c eq_refl) as [Nl El]. destruct (lead x); [congruence|]. rewrite El, Nat.eqb_refl. reflexivity. }
  apply Rd. unfold eqx_call. rewrite Qa. rewrite regroup_Ok. cbn [bind]. destruct (negb (irreps_eqb _ _)); [reflexivity|]. destruct (match e_channel_in A with None => _ | Some _ => _ end); [|reflexivity]. cbn [bind].
  set (u := let! z := remove_zero_chunks y in ia_regroup z). destruct u as [z|e]; [|reflexivity]. cbn [bind]. unfold module_layer. cbn [M eqx_layer m_indexed m_per_channel m_gn].
  destruct (e_type A); cbn [negb assert bind]; destruct w as [|si ix|sw d f|wa]; cbn [plain eqx_floats] in *; try contradiction.
  - reflexivity.
  - destruct A5 as (Ep & n & En & Nn). rewrite Ep, En. reflexivity.
  - destruct A5 as (En & Ew & Nd). rewrite En, Ew. cbn [bind assert]. rewrite Nat.eqb_refl. cbn [negb]. rewrite andb_false_r. reflexivity.
  - destruct A5 as (En & Ew & Nd). rewrite A6, En, Ew. cbn [negb bind assert]. rewrite Nat.eqb_refl. cbn [negb]. rewrite andb_false_r. reflexivity.
  - destruct A5 as (En & Ew & Nd & _). rewrite En, Ew. cbn [bind assert]. rewrite Nat.eqb_refl. cbn [negb]. rewrite andb_false_r. reflexivity.
  - destruct A5 as (En & Ew & Nd & _). rewrite A6, En, Ew. cbn [negb bind assert]. rewrite Nat.eqb_refl. cbn [negb]. rewrite andb_false_r. reflexivity.
Qed.
Theorem C60_equinox_shape A Q P w x s' : eqx_init A = Ok Q -> coherent x -> eqx_accepts A w x s' -> supplies P (extra (eqx_layer A) w (lead x)) (q_linear Q) ->
  (exists r, eqx_call Q P w x = Ok r /\ coherent r /\ irr r = q_out Q /\ lead r = match e_channel_out A with None => s' | Some c => s' ++ [c] end) /\
  (if e_force A then q_out Q = e_out A else exists keep, q_out Q = simplify (filter keep (e_out A)) /\ forall m ir, keep (m, ir) = true <-> 0 < count ir (e_in A)).
Proof.
  intros EQ Cx EA HP. split.
  - destruct (eqx_stage A Q P w x s' EQ Cx EA HP) as [T S0]. destruct (st_run _ _ _ _ _ _ _ S0 x (conj eq_refl Cx) Cx eq_refl eq_refl) as (r & E & H1 & H2 & H3 & _). exists r. auto.
  - destruct (eqx_init_shape A Q EQ) as (_ & _ & -> & _). destruct (e_force A); [reflexivity|]. eexists. split; [reflexivity|]. intros m ir. cbv beta. cbn [snd]. rewrite <- In_count, existsb_exists. split; [intros (q & Hq & E); apply irrep_eqb_eq in E as ->; exact Hq|]. intros H. exists ir. split; [exact H|]. now apply irrep_eqb_eq.
Qed.
Theorem C60_equinox_equivariant r A Q P w x s' : orthogonal3 r -> eqx_init A = Ok Q -> coherent x -> eqx_accepts A w x s' -> supplies P (extra (eqx_layer A) w (lead x)) (q_linear Q) ->
  agree (let! y := eqx_call Q P w x in transform (rep_of r) y) (let! y := transform (rep_of r) x in eqx_call Q P w y).
Proof.
  intros Or EQ Cx EA HP. destruct (eqx_stage A Q P w x s' EQ Cx EA HP) as [T S0]. pose proof (as_rep_ok (D_from_matrix r) : rep_ok (rep_of r)) as HD. eapply stage_equivariant; [exact HD|now apply rep_of_scalar|exact Cx|exact S0|split; auto|]. intros b E. now apply (like_transform (rep_of r)).
Qed.
(* the last axis of the input is kept and the new channels come after it; in the other modules it is mixed into the new channels *)
Corollary C60_equinox_channels_not_mixed A Q P x c : eqx_init A = Ok Q -> coherent x -> eqx_accepts A NoWeights x (lead x) -> supplies P [] (q_linear Q) -> e_channel_out A = Some c ->
  exists r, eqx_call Q P NoWeights x = Ok r /\ lead r = lead x ++ [c].
Proof.
  intros EQ Cx EA HP Ec. destruct (C60_equinox_shape A Q P NoWeights x (lead x) EQ Cx EA HP) as [(r & E & _ & _ & H) _]. exists r. rewrite Ec in H. auto.
Qed.

(* ---- what is rejected ---- *)
Lemma call_unfold M P w x : coherent x -> (forall c, m_channel M = Some c -> lead x <> [] /\ m_per_channel M = false) ->
  exists z, irr z = fed M x /\ lead z = inner_lead M (lead x) /\
    module_call M P w x = (let! _ := validate_inputs (fed M x) (m_instr M) (m_simplify M) (m_channel M) (m_in M) in let! L := layer_for M x in let! out := module_layer M P L w z in post M out).
Proof.
  intros Cx Hc. assert (H1 : m_channel M <> None -> lead x <> []) by (intros N; destruct (m_channel M) as [c|]; [apply (Hc c eq_refl)|congruence]). assert (H3 : m_channel M <> None -> lead x <> [] /\ m_per_channel M = false) by (intros N; destruct (m_channel M) as [c|]; [apply (Hc c eq_refl)|congruence]).
  destruct (st_run _ _ _ _ _ _ _ (pre_stage M x Cx H1) x (conj eq_refl Cx) Cx eq_refl eq_refl) as (z & Ez & Iz & Lz & _). exists z. split; [exact Iz|]. split; [exact Lz|]. unfold module_call. rewrite (inputs_pre M x x z Cx (conj eq_refl Cx) eq_refl eq_refl H3 Ez). cbn [bind]. rewrite Iz. reflexivity.
Qed.
(* an input that does not have the announced irreps; here both are compared after the zero chunks are dropped from the input and, with channel_out,
   after its last axis is moved into the multiplicities *)
Theorem C60_rejects_irreps M P w x z ir : coherent x -> (forall c, m_channel M = Some c -> lead x <> [] /\ m_per_channel M = false) -> m_instr M = None -> m_in M = Some z -> count ir z <> count ir (fed M x) -> module_call M P w x = Err ValueError.
Proof.
  intros Cx Hc Ei Ez Nz. destruct (call_unfold M P w x Cx Hc) as (y & _ & _ & ->). unfold validate_inputs. rewrite Ei, Ez, !regroup_Ok. cbn [bind]. destruct (irreps_eqb (regroup_irreps (fed M x)) (regroup_irreps z)) eqn:E; [|reflexivity]. apply irreps_eqb_eq in E. exfalso. apply Nz. symmetry. now apply regroup_iff.
Qed.
Lemma count_scaled ir n x : count ir (map (fun '(m, i0) => (n * m, i0)) x) = n * count ir x.
Proof. unfold count. induction x as [|[m i0] x IH]; [cbn; lia|]. cbn [map filter snd]. destruct (irrep_eqb ir i0); [|exact IH]. cbn [map fst]. unfold sum in *. cbn [fold_right]. rewrite IH. lia. Qed.
(* refuted: "irreps_in declares the irreps of the input": with channel_out an input that has exactly the announced irreps, in k <> 1 channels, is rejected *)
Corollary C60_channels_reject_irreps_in M P w x z c ir : coherent x -> m_instr M = None -> m_in M = Some z -> m_channel M = Some c -> m_per_channel M = false -> lead x <> [] ->
  (forall j, count j z = count j (seen M x)) -> 0 < count ir z -> last (lead x) 0 <> 1 -> module_call M P w x = Err ValueError.
Proof.
  intros Cx Ei Ez Ec Ep Nl Hz Pz N1. apply (C60_rejects_irreps M P w x z ir Cx); auto. unfold fed. rewrite Ec, count_scaled, <- Hz. nia.
Qed.
(* refuted, with the default simplify_irreps_internally: an input that has exactly the announced irreps, one non-empty chunk of which is flagged as zero, is rejected *)
Lemma count_select ir : forall fl x, count ir (select fl x) <= count ir x.
Proof. induction fl as [|b fl IH]; intros [|m x]; cbn [select]; try (unfold count; cbn; lia). specialize (IH x). destruct b; unfold count in *; cbn [filter]; destruct (irrep_eqb ir (snd m)); cbn [map]; unfold sum in *; cbn [fold_right]; lia. Qed.
Lemma count_dropped k m ir : forall fl x, length fl = length x -> nth_error fl k = Some true -> nth_error x k = Some (m, ir) -> 0 < m -> count ir (select (map negb fl) x) < count ir x.
Proof.
  revert m ir. induction k as [|k IH]; intros m ir [|b fl] [|n x] L Ef Ex Pm; try discriminate; cbn [nth_error] in *.
  - injection Ef as ->. injection Ex as ->. cbn [map negb select]. pose proof (count_select ir (map negb fl) x) as H. unfold count in *. cbn [filter snd]. rewrite (proj2 (irrep_eqb_eq ir ir) eq_refl). cbn [map fst]. unfold sum in *. cbn [fold_right]. lia.
  - injection L as L. specialize (IH m ir fl x L Ef Ex Pm). cbn [map select]. destruct (negb b); unfold count in *; cbn [filter]; destruct (irrep_eqb ir (snd n)); cbn [map]; unfold sum in *; cbn [fold_right]; lia.
Qed.
Corollary C60_zero_chunk_rejected M P w x k m ir : coherent x -> m_instr M = None -> m_in M = Some (irr x) -> m_channel M = None -> m_simplify M = true ->
  nth_error (zero_flags x) k = Some true -> nth_error (irr x) k = Some (m, ir) -> 0 < m -> module_call M P w x = Err ValueError.
Proof.
  intros Cx Ei Ez Ec Es Ef Ex Pm. apply (C60_rejects_irreps M P w x (irr x) ir Cx); auto; [intros c Q; congruence|]. unfold fed, seen. rewrite Ec, Es, regroup_count. pose proof (count_dropped k m ir (zero_flags x) (irr x) (zero_flags_length x Cx) Ef Ex Pm). lia.
Qed.
(* the same input makes the equinox module fail on an internal assertion *)
Theorem C60_equinox_zero_chunk A Q P x k m ir : eqx_init A = Ok Q -> e_type A = TVanilla -> e_channel_in A = None -> coherent x -> (forall j, count j (e_in A) = count j (irr x)) ->
  nth_error (zero_flags x) k = Some true -> nth_error (irr x) k = Some (m, ir) -> 0 < m -> eqx_call Q P NoWeights x = Err AssertionError.
Proof.
  intros EQ Et Ec Cx Hin Ef Ex Pm. destruct (eqx_init_shape A Q EQ) as (Qa & Qi & Qo & QL). unfold eqx_call. rewrite Qa, Et, Ec, regroup_Ok. cbn [bind]. assert (Er : regroup_irreps (irr x) = q_in Q) by (rewrite Qi; apply regroup_iff; intros j; symmetry; apply Hin). rewrite Er, (proj2 (irreps_eqb_eq _ _) eq_refl). cbn [negb].
  destruct (st_run _ _ _ _ _ _ _ (pre0_stage (eqx_layer A) x Cx) x (conj eq_refl Cx) Cx eq_refl eq_refl) as (z & Ez & Iz & _). cbn [eqx_layer m_simplify] in Ez. rewrite Ez. cbn [bind]. unfold linear_vanilla, linear_call.
  destruct (constructor_shape _ _ _ _ _ _ _ QL) as (bs & _ & El & _). rewrite El. rewrite rechunk_rejects; [reflexivity|]. rewrite Iz. unfold seen. cbn [eqx_layer m_simplify]. rewrite <- Er. unfold regroup_irreps. rewrite !simplify_idem. intros E. pose proof (proj1 (regroup_iff _ _) E ir) as H.
  pose proof (count_dropped k m ir (zero_flags x) (irr x) (zero_flags_length x Cx) Ef Ex Pm). lia.
Qed.
(* the weights must fit the configuration *)
Theorem C60_rejects_weights M P w x L : coherent x -> (forall c, m_channel M = Some c -> lead x <> [] /\ m_per_channel M = false) ->
  validate_inputs (fed M x) (m_instr M) (m_simplify M) (m_channel M) (m_in M) = Ok tt -> layer_for M x = Ok L ->
  (match w with
   | Indices _ _ => m_indexed M = None
   | Floats _ _ _ => m_indexed M <> None
   | Wrapped a => m_indexed M <> None \/ is_scalar (irr a) = false
   | NoWeights => False
   end) -> module_call M P w x = Err ValueError.
Proof.
  intros Cx Hc Hv EL Hw. destruct (call_unfold M P w x Cx Hc) as (y & _ & _ & ->). rewrite Hv, EL. cbn [bind]. unfold module_layer. destruct w as [|s ix|s d f|a]; [contradiction|rewrite Hw; reflexivity|destruct (m_indexed M); [reflexivity|congruence]|].
  destruct (is_scalar (irr a)) eqn:E; cbn [negb bind]; [|reflexivity]. destruct Hw as [Hw|Hw]; [|congruence]. destruct (m_indexed M); [reflexivity|congruence].
Qed.
(* per-channel weights need weights, and exclude channel_out *)
Theorem C60_per_channel M P x w : m_per_channel M = true -> coherent x ->
  (m_channel M = None -> validate_inputs (fed M x) (m_instr M) (m_simplify M) (m_channel M) (m_in M) = Ok tt -> (exists L, layer_for M x = Ok L) -> module_call M P NoWeights x = Err AssertionError) /\
  (forall c, m_channel M = Some c -> module_call M P w x = Err AssertionError).
Proof.
  intros Ep Cx. split.
  - intros Ec Hv [L EL]. destruct (call_unfold M P NoWeights x Cx) as (y & _ & _ & ->); [intros c Q; congruence|]. rewrite Hv, EL. cbn [bind]. unfold module_layer. rewrite Ep. reflexivity.
  - intros c Ec. unfold module_call, module_inputs. destruct (st_run _ _ _ _ _ _ _ (pre0_stage M x Cx) x (conj eq_refl Cx) Cx eq_refl eq_refl) as (z & Ez & _). cbv beta in Ez. rewrite Ez, Ec, Ep. cbn [bind]. destruct (m_force M); [reflexivity|]. rewrite filter_keep. reflexivity.
Qed.

(* ---- the hypotheses are met ---- *)
(* a dictionary of the requested shapes, whatever array each parameter is given *)
Lemma supplies_exists x y b pn gn L ex (v : linstr -> idx -> list R) : functional_linear x y None b pn gn = Ok L -> (forall o e, In o (fl_ins L) -> length (v o e) = nprod (li_shape o)) -> exists P, supplies P ex L /\ forall o e, In o (fl_ins L) -> P (pname L o) e = v o e.
Proof.
  intros E Hv. pose proof (C60_names_distinct _ _ _ _ _ L ex E) as ND. unfold requests in ND. rewrite map_map in ND. cbn [fst] in ND. rewrite (map_ext _ (pname L)) in ND by reflexivity.
  exists (fun nm e => lookup nm (combine (map (pname L) (fl_ins L)) (map (fun o => v o e) (fl_ins L)))).
  assert (G : forall o e, In o (fl_ins L) -> lookup (pname L o) (combine (map (pname L) (fl_ins L)) (map (fun o => v o e) (fl_ins L))) = v o e).
  { intros o e Ho. pose proof (lookup_all (map (pname L) (fl_ins L)) (map (fun o => v o e) (fl_ins L)) ND ltac:(now rewrite !map_length)) as Q. rewrite map_map in Q. exact (ext_in_map Q o Ho). }
  split; [|exact G]. intros o Ho e _. rewrite G by exact Ho. now apply Hv.
Qed.
Definition example_x : iarray := IA [(2, Irrep 0 Even); (1, Irrep 1 Odd)] [4; 2] (fun i => repeat (INR (nth 0 i 0)) 5) None None.
Lemma example_coherent : coherent example_x.
Proof. apply (fresh_chunks [(2, Irrep 0 Even); (1, Irrep 1 Odd)] [4; 2] (fun i => repeat (INR (nth 0 i 0)) 5)). intros i _. now rewrite repeat_length. Qed.
(* Linear("2x1o + 3x0e + 1x2e", channel_out=3) called with float weights of shape (1, 5): the last axis (2 channels) becomes 3 channels, and 2e is left out *)
Definition example_M : lmodule := LMod [(2, Irrep 1 Odd); (3, Irrep 0 Even); (1, Irrep 2 Even)] (Some 3) None (BoolBias true) 0 0 None None false false true.
Definition example_w : weights_arg := Floats [1] 5 (fun _ => [1; 2; 3; 4; 5]%R).
Example C60_nonvacuous : acceptable example_M example_w example_x [4] /\ (exists L, layer_for example_M example_x = Ok L /\ length (fl_ins L) = 3 /\ exists P, supplies P (extra example_M example_w (inner_lead example_M (lead example_x))) L) /\
  result_irreps example_M example_x = [(2, Irrep 1 Odd); (3, Irrep 0 Even)] /\ result_lead example_M [4] = [4; 3] /\ fed example_M example_x = [(4, Irrep 0 Even); (2, Irrep 1 Odd)].
Proof.
  assert (A : acceptable example_M example_w example_x [4]).
  { split; cbn [example_M m_instr m_in m_channel m_per_channel m_biases]; try reflexivity; try discriminate; try exact Logic.I.
    - intros c E. injection E as <-. repeat split; discriminate.
    - repeat split; discriminate. }
  split; [exact A|]. split; [|repeat split; reflexivity]. destruct (acceptable_accepted _ _ _ _ A) as [_ [L EL]]. exists L. split; [exact EL|]. split.
  - unfold layer_for in EL. cbn in EL. injection EL as <-. reflexivity.
  - unfold layer_for in EL. destruct (supplies_exists _ _ _ _ _ L (extra example_M example_w (inner_lead example_M (lead example_x))) (fun o _ => repeat 1%R (nprod (li_shape o))) EL) as (P & HP & _); [intros; apply repeat_length|]. exists P. exact HP.
Qed.
(* the equinox module with the same irreps, indexed weights, and channel_out: the result has shape (4, 2, 3, ...) *)
Definition example_A : eqx_args := EqxArgs [(2, Irrep 1 Odd); (3, Irrep 0 Even); (1, Irrep 2 Even)] [(1, Irrep 1 Odd); (2, Irrep 0 Even)] (Some 3) (Some 2) NoBias 0 0 (Some 7) false false None TIndexed.
Example C60_equinox_nonvacuous : exists Q, eqx_init example_A = Ok Q /\ eqx_accepts example_A (Indices [4; 1] (fun i => Z.of_nat (nth 0 i 0))) example_x [4; 2] /\ q_out Q = [(2, Irrep 1 Odd); (3, Irrep 0 Even)] /\
  exists P, supplies P (extra (eqx_layer example_A) (Indices [4; 1] (fun i => Z.of_nat (nth 0 i 0))) (lead example_x)) (q_linear Q).
Proof.
  eexists. split; [cbn; reflexivity|]. split; [|split; [reflexivity|]].
  - split; cbn [example_A e_in e_channel_in e_channel_out e_type plain e_per_channel e_indexed]; try exact Logic.I; try reflexivity.
    + intros ir. cbn. unfold count. cbn [filter snd irr example_x]. destruct (irrep_eqb ir (Irrep 1 Odd)), (irrep_eqb ir (Irrep 0 Even)); reflexivity.
    + intros c E. injection E as <-. split; [discriminate|reflexivity].
    + intros c E. injection E as <-. discriminate.
    + split; [reflexivity|]. exists 7. split; [reflexivity|discriminate].
  - set (Q := EqxMod _ _ _ _). assert (EQ : eqx_init example_A = Ok Q) by (cbn; reflexivity). destruct (eqx_init_shape _ _ EQ) as (_ & _ & _ & EL). destruct (supplies_exists _ _ _ _ _ _ (extra (eqx_layer example_A) (Indices [4; 1] (fun i => Z.of_nat (nth 0 i 0))) (lead example_x)) (fun o _ => repeat 1%R (nprod (li_shape o))) EL) as (P & HP & _); [intros; apply repeat_length|]. exists P. exact HP.
Qed.
(* completeness: doubling the features is an equivariant linear map, so some parameters make the module do it *)
Lemma act_double r x a : length a = dim x -> map (Rmult 2) (act (rep_of r) x a) = act (rep_of r) x (map (Rmult 2) a).
Proof.
  assert (Z : forall a, map (Rmult 2) a = lin 1 a a) by (intros l; unfold lin, zipR; induction l as [|q l IH]; [reflexivity|]; cbn [map combine]; rewrite <- IH; f_equal; ring).
  intros La. assert (Lra : length (act (rep_of r) x a) = dim x) by (rewrite act_length by apply as_rep_ok; reflexivity). rewrite !Z. assert (La2 : length (lin 1 a a) = dim x) by (now apply lin_length).
  apply (row_eq x); [now apply lin_length|rewrite act_length by apply as_rep_ok; reflexivity|]. intros k u c Hin. rewrite entry_lin by assumption. rewrite !act_entry by (try apply as_rep_ok; assumption). cbv zeta.
  rewrite Rmult_1_l, <- rsum_plus. apply rsum_ext. intros q Hq. destruct Hin as (m & ir & Ek & Hu & Hc). rewrite (nth_error_nth _ _ _ Ek) in *. cbn [snd] in *. rewrite entry_lin by (try assumption; exists m, ir; auto). ring.
Qed.
Example C60_complete_nonvacuous : let M := LMod [(2, Irrep 0 Even); (1, Irrep 1 Odd)] None None NoBias 0 0 None None false true true in
  result_irreps M example_x = irr example_x /\ linear_rows (irr example_x) (irr example_x) (map (Rmult 2)) /\ equivariant_rows (irr example_x) (irr example_x) (map (Rmult 2)).
Proof.
  split; [reflexivity|]. split.
  - split; [intros a La; now rewrite map_length|]. intros t a b _ _. unfold zipR. revert b. induction a as [|r a IH]; intros [|q b]; try reflexivity. cbn [map combine]. rewrite IH. f_equal. ring.
  - intros r a Or La. exact (act_double r (irr example_x) a La).
Qed.
