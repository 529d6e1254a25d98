(* C63: MessagePassingConvolution: symmetries of the whole layer. *)
From Coq Require Import Reals Lra Lia List Arith Bool ZArith Permutation.
From Verif Require Import PyBase PermModel PermProofs IrrepsModel IrrepsProofs IrrepsProofs2 ArrayModel ArrayProofs ArrayOps ArithProofs LeadModel LeadProofs BlockProofs ActProofs EquivProofs EquivProofs2 SumR EntryProofs ArrayProps3 TPModel TPProofs GradProofs CGModel RotationModel WignerModel WignerProofs WignerProofs2 WignerProps WignerProps2 ScatterModel ScatterProps RtpPerm LinearModel LinearProofs LinModModel LinModProofs2 MlpModel ConvModel ConvProofs ConvProofs2 ConvProofs5 ConvProofs6 ConvProps ConvProps2.
Import ListNotations.
Open Scope nat_scope.

Lemma heard_ext pos feats N E sn rc pos' feats' N' sn' rc' i i' :
  (forall e, e < E -> (node N (rc e) =? i) = (node N' (rc' e) =? i')) ->
  (forall e, e < E -> arr feats [node N (sn e)] = arr feats' [node N' (sn' e)] /\ zipR Rminus (arr pos [node N (rc e)]) (arr pos [node N (sn e)]) = zipR Rminus (arr pos' [node N' (rc' e)]) (arr pos' [node N' (sn' e)])) ->
  heard pos feats N E sn rc i = heard pos' feats' N' E sn' rc' i'.
Proof.
  intros H1 H2. unfold heard. assert (G : forall l, (forall e, In e l -> e < E) -> map (fun e => (arr feats [node N (sn e)], zipR Rminus (arr pos [node N (rc e)]) (arr pos [node N (sn e)]))) (filter (fun e => node N (rc e) =? i) l)
    = map (fun e => (arr feats' [node N' (sn' e)], zipR Rminus (arr pos' [node N' (rc' e)]) (arr pos' [node N' (sn' e)]))) (filter (fun e => node N' (rc' e) =? i') l)).
  { induction l as [|e l IH]; intros B; [reflexivity|]. assert (He : e < E) by (apply B; now left). cbn [filter]. rewrite (H1 e He). destruct (_ =? _); cbn [map]; [|apply IH; intros; apply B; now right]. destruct (H2 e He) as [-> ->]. f_equal. apply IH. intros; apply B; now right. }
  apply G. intros e He. apply in_seq in He. lia.
Qed.
(* translations: moving every node by the same vector changes nothing *)
Theorem C63_translation C P pos feats N E sn rc z pos' v : settings C -> nodes_edges pos feats N E sn rc -> fits C P pos feats E sn rc -> conv_call C P pos feats E sn rc = Ok z ->
  coherent pos' -> irr pos' = irr pos -> lead pos' = [N] -> length v = 3 -> (forall k, k < N -> arr pos' [k] = zipR Rplus (arr pos [k]) v) ->
  exists z', conv_call C P pos' feats E sn rc = Ok z' /\ irr z' = irr z /\ lead z' = lead z /\ forall i, i < N -> arr z' [i] = arr z [i].
Proof.
  intros S0 NE F Ez Cp' Ip' Lp' Lv H. assert (NE' : nodes_edges pos' feats N E sn rc) by (destruct NE; constructor; auto). destruct (C63_irreps _ _ _ _ _ _ _ _ _ S0 NE F Ez) as (_ & Lz & _ & G). destruct (G pos' feats N E sn rc NE' Ip' (conj eq_refl eq_refl)) as (z' & Ez' & Iz' & Lz' & _).
  exists z'. split; [exact Ez'|]. split; [exact Iz'|]. split; [congruence|]. intros i Hi. apply (C63_local C P pos feats N E sn rc z pos' feats N E sn rc z' i i); auto; [split; reflexivity|].
  destruct (run_form C P pos feats N E sn rc z S0 NE F Ez) as (p & xa & msg & xo & out & Ip & _ & _). rewrite (heard_ext pos feats N E sn rc pos' feats N sn rc i i); [apply Permutation_refl|reflexivity|]. intros e He. split; [reflexivity|]. destruct NE as [Cp Cf Lp Lf Hs Hr].
  assert (Q1 : node N (sn e) < N) by apply (node_spec N (sn e) (Hs e He)). assert (Q2 : node N (rc e) < N) by apply (node_spec N (rc e) (Hr e He)). rewrite !H by assumption. pose proof (row3 pos p N Cp Ip Lp _ Q1) as R1. pose proof (row3 pos p N Cp Ip Lp _ Q2) as R2.
  destruct (arr pos [node N (rc e)]) as [|a0 [|a1 [|a2 [|]]]]; try discriminate. destruct (arr pos [node N (sn e)]) as [|b0 [|b1 [|b2 [|]]]]; try discriminate. destruct v as [|v0 [|v1 [|v2 [|]]]]; try discriminate. cbn. f_equal; [lra|]. f_equal; [lra|]. f_equal; lra.
Qed.
(* renaming the nodes renames the rows of the result *)
Theorem C63_relabel C P pos feats N E sn rc z pos' feats' sn' rc' (s : nat -> nat) : settings C -> nodes_edges pos feats N E sn rc -> fits C P pos feats E sn rc -> conv_call C P pos feats E sn rc = Ok z ->
  (forall k, k < N -> s k < N) -> (forall k l, k < N -> l < N -> s k = s l -> k = l) ->
  nodes_edges pos' feats' N E sn' rc' -> irr pos' = irr pos -> alike feats feats' -> (forall k, k < N -> arr pos' [s k] = arr pos [k] /\ arr feats' [s k] = arr feats [k]) ->
  (forall e, e < E -> node N (sn' e) = s (node N (sn e)) /\ node N (rc' e) = s (node N (rc e))) ->
  exists z', conv_call C P pos' feats' E sn' rc' = Ok z' /\ irr z' = irr z /\ lead z' = lead z /\ forall i, i < N -> arr z' [s i] = arr z [i].
Proof.
  intros S0 NE F Ez Hs Inj NE' Ip' A H He0. destruct (C63_irreps _ _ _ _ _ _ _ _ _ S0 NE F Ez) as (_ & Lz & _ & G). destruct (G pos' feats' N E sn' rc' NE' Ip' A) as (z' & Ez' & Iz' & Lz' & _).
  exists z'. split; [exact Ez'|]. split; [exact Iz'|]. split; [congruence|]. intros i Hi. apply (C63_local C P pos feats N E sn rc z pos' feats' N E sn' rc' z' i (s i)); auto. destruct NE as [Cp Cf Lp Lf Hsn Hr].
  rewrite (heard_ext pos feats N E sn rc pos' feats' N sn' rc' i (s i)); [apply Permutation_refl| |]; intros e He; destruct (He0 e He) as [E1 E2]; assert (Q1 : node N (sn e) < N) by apply (node_spec N (sn e) (Hsn e He)); assert (Q2 : node N (rc e) < N) by apply (node_spec N (rc e) (Hr e He)).
  - rewrite E2. destruct (Nat.eqb_spec (node N (rc e)) i) as [->|Ne]; [now rewrite Nat.eqb_refl|]. destruct (Nat.eqb_spec (s (node N (rc e))) (s i)) as [Q|_]; [|reflexivity]. exfalso. apply Ne. now apply Inj.
  - rewrite E1, E2. destruct (H _ Q1) as [-> ->]. destruct (H _ Q2) as [-> _]. auto.
Qed.
Lemma filter_permute {A} (f : A -> bool) l l' : Permutation l l' -> Permutation (filter f l) (filter f l').
Proof.
  induction 1 as [|a l l' _ IH|a b l|l l' l'' _ IH1 _ IH2]; cbn [filter].
  - constructor.
  - destruct (f a); [now constructor|exact IH].
  - destruct (f a), (f b); try apply Permutation_refl. apply perm_swap.
  - eapply Permutation_trans; eassumption.
Qed.
(* the order in which the edges are listed does not matter, nor whether an index is written from the front or from the end *)
Theorem C63_edge_order C P pos feats N E sn rc z sn' rc' E' : settings C -> nodes_edges pos feats N E sn rc -> fits C P pos feats E sn rc -> conv_call C P pos feats E sn rc = Ok z -> nodes_edges pos feats N E' sn' rc' ->
  Permutation (map (fun e => (node N (sn e), node N (rc e))) (seq 0 E)) (map (fun e => (node N (sn' e), node N (rc' e))) (seq 0 E')) ->
  exists z', conv_call C P pos feats E' sn' rc' = Ok z' /\ irr z' = irr z /\ lead z' = lead z /\ forall i, i < N -> arr z' [i] = arr z [i].
Proof.
  intros S0 NE F Ez NE' Pm. destruct (C63_irreps _ _ _ _ _ _ _ _ _ S0 NE F Ez) as (_ & Lz & _ & G). destruct (G pos feats N E' sn' rc' NE' eq_refl (conj eq_refl eq_refl)) as (z' & Ez' & Iz' & Lz' & _).
  exists z'. split; [exact Ez'|]. split; [exact Iz'|]. split; [congruence|]. intros i Hi. apply (C63_local C P pos feats N E sn rc z pos feats N E' sn' rc' z' i i); auto; [split; reflexivity|].
  assert (Q : forall E sn rc, heard pos feats N E sn rc i = map (fun q => (arr feats [fst q], zipR Rminus (arr pos [snd q]) (arr pos [fst q]))) (filter (fun q => snd q =? i) (map (fun e => (node N (sn e), node N (rc e))) (seq 0 E)))).
  { clear. intros E sn rc. unfold heard. induction (seq 0 E) as [|e l IH]; [reflexivity|]. cbn [map filter snd]. destruct (_ =? _); cbn [map fst snd]; now rewrite IH. }
  rewrite !Q. apply Permutation_map. apply filter_permute, Pm.
Qed.
(* rotations, reflections and inversion of positions and features together rotate the result *)
Theorem C63_equivariant C P pos feats N E sn rc z r : orthogonal3 r -> settings C -> nodes_edges pos feats N E sn rc -> fits C P pos feats E sn rc -> conv_call C P pos feats E sn rc = Ok z ->
  agree (let! z := conv_call C P pos feats E sn rc in transform_by_matrix z r) (let! pos' := transform_by_matrix pos r in let! feats' := transform_by_matrix feats r in conv_call C P pos' feats' E sn rc).
Proof.
  intros O S0 NE F Ez. destruct (run_form C P pos feats N E sn rc z S0 NE F Ez) as (p & xa & msg & xo & out & K). destruct (runs _ _ _ _ _ _ _ _ _ K pos feats N E sn rc NE eq_refl (conj eq_refl eq_refl)) as (z0 & Ez0 & Iz & Lz & Cz & Az). rewrite Ez in Ez0. injection Ez0 as <-.
  assert (HD : rep_ok (rep_of r)) by apply as_rep_ok. pose proof NE as [Cp Cf Lp Lf Hs Hr]. rewrite Ez. cbn [bind]. rewrite !by_matrix. destruct (transform_act (rep_of r) pos Cp HD) as (pos' & Ep & Ip' & Lp' & Cp' & Ap). destruct (transform_act (rep_of r) feats Cf HD) as (feats' & Ef & If' & Lf' & Cf' & Af). pose proof (transform_flags _ _ _ Cf Ef) as Ff.
  rewrite Ep. cbn [bind]. rewrite Ef. cbn [bind]. rewrite Lp in Ap, Lp'. rewrite Lf in Af, Lf'.
  assert (NE' : nodes_edges pos' feats' N E sn rc) by (constructor; auto). destruct (runs _ _ _ _ _ _ _ _ _ K pos' feats' N E sn rc NE' Ip' (conj (eq_sym If') (eq_sym Ff))) as (z' & Ez' & Iz' & Lz' & Cz' & Az').
  exists xo, [N], (fun i => act (rep_of r) xo (arr z i)). split; [rewrite <- Iz, <- Lz; now apply transform_act|]. exists z'. split; [exact Ez'|]. split; [exact Iz'|]. split; [exact Lz'|]. split; [exact Cz'|]. intros i Hi. inversion Hi as [|k ? t ? Hk Ht]; subst. inversion Ht; subst. rewrite Az, Az' by exact Hk.
  destruct K as (Ip & _ & CF). rewrite (answer_act _ _ _ _ _ _ _ _ _ CF (c_avg C) r _ O (heard_fine _ _ _ _ _ _ _ p NE Ip)). f_equal. unfold heard. rewrite map_map. cbn [fst snd]. apply map_ext_in. intros e He. apply filter_In in He as [He _]. apply in_seq in He. assert (He' : e < E) by lia.
  assert (Q1 : node N (sn e) < N) by apply (node_spec N (sn e) (Hs e He')). assert (Q2 : node N (rc e) < N) by apply (node_spec N (rc e) (Hr e He')). rewrite Af, !Ap by (constructor; [assumption|constructor]). f_equal. rewrite act_minus, Ip; auto; rewrite (row3 pos p N Cp Ip Lp) by assumption; reflexivity.
Qed.
