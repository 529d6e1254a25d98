(* C63: MessagePassingConvolution, theorems. The specification (settings, nodes_edges, fits, alike, heard) is in ConvProps.v. *)
From Coq Require Import Reals Lra Lia List Arith Bool ZArith Permutation.
From Verif Require Import PyBase PermModel PermProofs IrrepsModel IrrepsProofs IrrepsProofs2 ArrayModel ArrayProofs ArrayOps ArithProofs LeadModel LeadProofs BlockProofs ActProofs EquivProofs EquivProofs2 SumR EntryProofs ArrayProps3 TPModel TPProofs GradProofs CGModel RotationModel WignerModel WignerProofs WignerProofs2 WignerProps WignerProps2 ScatterModel ScatterProps RtpPerm LinearModel LinearProofs LinModModel LinModProofs2 MlpModel ConvModel ConvProofs ConvProofs2 ConvProofs5 ConvProofs6 ConvProps.
Import ListNotations.
Open Scope nat_scope.

(* ---- sums of rows ---- *)
Lemma rowsum_perm w l l' : Permutation l l' -> Forall (fun r => length r = w) l -> rowsum w l = rowsum w l'.
Proof.
  intros Pm F. assert (F' : Forall (fun r => length r = w) l') by (apply (Permutation_Forall Pm F)). 
  apply (nth_ext _ _ 0%R 0%R).
  - rewrite (rowsum_length w l F), (rowsum_length w l' F'). reflexivity.
  - intros c Hc. rewrite (rowsum_length w l F) in Hc. rewrite Forall_forall in F, F'. rewrite <- (map_id l), <- (map_id l'). rewrite !nth_rowsum_lsum by auto. now apply lsum_perm.
Qed.
Lemma rowsum_app_plus w l l' : Forall (fun r => length r = w) l -> Forall (fun r => length r = w) l' -> rowsum w (l ++ l') = zipR Rplus (rowsum w l) (rowsum w l').
Proof.
  intros F F'. assert (F2 : Forall (fun r => length r = w) (l ++ l')) by (apply Forall_app; auto). pose proof (rowsum_length w l F) as L1. pose proof (rowsum_length w l' F') as L2. pose proof (rowsum_length w _ F2) as L3.
  apply (nth_ext _ _ 0%R 0%R); [rewrite zipR_length, L1, L2, L3; lia|]. intros c Hc. rewrite L3 in Hc. rewrite Forall_forall in F, F', F2. rewrite nth_zipR by lia. rewrite <- (map_id (l ++ l')), <- (map_id l), <- (map_id l'). rewrite !nth_rowsum_lsum by (rewrite ?map_id; auto). rewrite !map_id. apply lsum_app.
Qed.
Lemma lin_dist t a b c d : length a = length b -> length c = length a -> length d = length a -> zipR Rplus (lin t a b) (lin t c d) = lin t (zipR Rplus a c) (zipR Rplus b d).
Proof.
  revert b c d. induction a as [|a0 a IH]; intros [|b0 b] [|c0 c] [|d0 d] L1 L2 L3; try discriminate; [reflexivity|]. unfold lin in *. cbn [map]. rewrite !zipR_cons. cbn [map]. rewrite !zipR_cons. f_equal; [lra|]. apply IH; cbn in *; lia.
Qed.
Lemma rowsum_lin {A} w t (f g h : A -> list R) l : (forall e, In e l -> length (f e) = w /\ length (g e) = w /\ h e = lin t (f e) (g e)) -> rowsum w (map h l) = lin t (rowsum w (map f l)) (rowsum w (map g l)).
Proof.
  induction l as [|e l IH]; intros H.
  - cbn [map]. unfold rowsum, lin, zero_row. cbn. clear. induction w as [|w IH]; [reflexivity|]. cbn. f_equal; [lra|]. exact IH.
  - destruct (H e (or_introl eq_refl)) as (Lf & Lg & Q). assert (H' : forall e, In e l -> length (f e) = w /\ length (g e) = w /\ h e = lin t (f e) (g e)) by (intros; apply H; now right). cbn [map]. rewrite !rowsum_cons, IH, Q by exact H'.
    assert (L1 : length (rowsum w (map f l)) = w) by (apply rowsum_length, Forall_map, Forall_forall; intros q Hq; apply H', Hq). assert (L2 : length (rowsum w (map g l)) = w) by (apply rowsum_length, Forall_map, Forall_forall; intros q Hq; apply H', Hq). apply lin_dist; lia.
Qed.
Lemma map_lin (k t : R) a b : map (fun v => (v / k)%R) (lin t a b) = lin t (map (fun v => (v / k)%R) a) (map (fun v => (v / k)%R) b).
Proof. revert b. induction a as [|a0 a IH]; intros [|b0 b]; try reflexivity. unfold lin in *. cbn [map]. rewrite !zipR_cons. cbn [map]. f_equal; [unfold Rdiv; ring|]. apply IH. Qed.
Lemma lin_one a b : lin 1 a b = zipR Rplus a b.
Proof. unfold lin. f_equal. rewrite <- (map_id a) at 2. apply map_ext. intros; lra. Qed.

(* ---- every run of one kind computes the same function of what each node hears ---- *)
Definition answer (xa : irreps) (avg : R) (msg : list R -> list R -> list R) (out : list R -> list R) (hs : list (list R * list R)) : list R := out (total (dim xa) avg (map (fun h => msg (fst h) (snd h)) hs)).
Definition fine (x : irreps) (hs : list (list R * list R)) : Prop := Forall (fun h => length (fst h) = dim x /\ length (snd h) = 3) hs.
Lemma heard_fine pos feats N E sn rc i p : nodes_edges pos feats N E sn rc -> irr pos = vec p -> fine (irr feats) (heard pos feats N E sn rc i).
Proof.
  intros [Cp Cf Lp Lf Hs Hr] Ip. apply Forall_map, Forall_forall. intros e He. apply filter_In in He as [He _]. apply in_seq in He. assert (He' : e < E) by lia.
  assert (N1 : node N (sn e) < N) by apply (node_spec N (sn e) (Hs e He')). assert (N2 : node N (rc e) < N) by apply (node_spec N (rc e) (Hr e He')). cbn [fst snd]. split.
  - apply Cf. rewrite Lf. constructor; [exact N1|constructor].
  - rewrite zipR_length, !(row3 pos p N Cp Ip Lp) by assumption. reflexivity.
Qed.
Lemma runs C P pos feats p xa msg xo out : kind_of C P pos feats p xa msg xo out -> forall pos' feats' N E sn rc, nodes_edges pos' feats' N E sn rc -> irr pos' = irr pos -> alike feats feats' ->
  exists z, conv_call C P pos' feats' E sn rc = Ok z /\ irr z = xo /\ lead z = [N] /\ coherent z /\ forall i, i < N -> arr z [i] = answer xa (c_avg C) msg out (heard pos' feats' N E sn rc i).
Proof.
  intros (Ip & _ & CF) pos' feats' N E sn rc NE Ip' [Ix Fx]. destruct (cf_run _ _ _ _ _ _ _ _ _ CF pos' feats' N E sn rc) as (z & Ez & Iz & Lz & Cz & Az); [apply to_graph; auto; congruence|].
  exists z. split; [exact Ez|]. split; [exact Iz|]. split; [exact Lz|]. split; [exact Cz|]. intros i Hi. rewrite Az by exact Hi. unfold answer, heard. rewrite map_map. reflexivity.
Qed.
Section Form.
Variables (C : conv) (P : conv_params) (p : parity) (x : irreps) (fl : list bool) (xa : irreps) (msg : list R -> list R -> list R) (xo : irreps) (out : list R -> list R).
Hypothesis CF : conv_form C P p x fl xa msg xo out.
Lemma msgs_len hs : fine x hs -> Forall (fun r => length r = dim xa) (map (fun h => msg (fst h) (snd h)) hs).
Proof. intros F. apply Forall_map. eapply Forall_impl; [|exact F]. intros h [H1 H2]. now apply (cf_len _ _ _ _ _ _ _ _ _ CF). Qed.
Lemma total_len avg hs : fine x hs -> length (total (dim xa) avg (map (fun h => msg (fst h) (snd h)) hs)) = dim xa.
Proof. intros F. unfold total. rewrite map_length. apply rowsum_length, msgs_len, F. Qed.
Lemma answer_perm avg hs hs' : fine x hs -> Permutation hs hs' -> answer xa avg msg out hs = answer xa avg msg out hs'.
Proof. intros F Pm. unfold answer, total. f_equal. f_equal. apply rowsum_perm; [now apply Permutation_map|now apply msgs_len]. Qed.
Lemma answer_lin avg t (l : list (list R * list R)) (u : list R * list R -> list R) : (forall h, In h l -> length (fst h) = dim x /\ length (u h) = dim x /\ length (snd h) = 3) ->
  answer xa avg msg out (map (fun h => (lin t (fst h) (u h), snd h)) l) = lin t (answer xa avg msg out l) (answer xa avg msg out (map (fun h => (u h, snd h)) l)).
Proof.
  intros H. unfold answer. assert (F1 : fine x l) by (apply Forall_forall; intros h Hh; destruct (H h Hh) as (? & ? & ?); auto). assert (F2 : fine x (map (fun h => (u h, snd h)) l)) by (apply Forall_map, Forall_forall; intros h Hh; destruct (H h Hh) as (? & ? & ?); auto).
  rewrite <- (cf_out_lin _ _ _ _ _ _ _ _ _ CF) by (apply total_len; assumption). f_equal. unfold total. rewrite <- map_lin. f_equal. rewrite !map_map. cbn [fst snd]. apply rowsum_lin. intros h Hh. destruct (H h Hh) as (H1 & H2 & H3). split; [now apply (cf_len _ _ _ _ _ _ _ _ _ CF)|]. split; [now apply (cf_len _ _ _ _ _ _ _ _ _ CF)|]. now apply (cf_lin _ _ _ _ _ _ _ _ _ CF).
Qed.
Lemma answer_app avg l l' : fine x l -> fine x l' -> answer xa avg msg out (l ++ l') = zipR Rplus (answer xa avg msg out l) (answer xa avg msg out l').
Proof.
  intros F F'. unfold answer. rewrite <- !lin_one. rewrite <- (cf_out_lin _ _ _ _ _ _ _ _ _ CF) by (apply total_len; assumption). f_equal. unfold total. rewrite <- map_lin, lin_one. f_equal. rewrite map_app. apply rowsum_app_plus; apply msgs_len; assumption.
Qed.
Lemma answer_nil avg : answer xa avg msg out [] = zero_row (dim xo).
Proof.
  assert (L : length (answer xa avg msg out []) = dim xo) by (apply (cf_out_len _ _ _ _ _ _ _ _ _ CF), total_len; constructor). pose proof (answer_app avg [] [] (Forall_nil _) (Forall_nil _)) as Q. rewrite app_nil_r in Q.
  apply (nth_ext _ _ 0%R 0%R); [unfold zero_row; rewrite repeat_length; exact L|]. intros c Hc. rewrite Q in Hc. rewrite zipR_length in Hc. pose proof (f_equal (fun l => nth c l 0%R) Q) as Q'. cbv beta in Q'. rewrite nth_zipR in Q' by lia. unfold zero_row. rewrite nth_repeat. lra.
Qed.
Lemma act_div D y k row : act D y (map (fun v => (v / k)%R) row) = map (fun v => (v / k)%R) (act D y row).
Proof. apply (act_scale D y (/ k)%R row). Qed.
Lemma answer_act avg r l : orthogonal3 r -> fine x l -> act (rep_of r) xo (answer xa avg msg out l) = answer xa avg msg out (map (fun h => (act (rep_of r) x (fst h), act (rep_of r) (vec p) (snd h))) l).
Proof.
  intros O F. assert (HD : rep_ok (rep_of r)) by apply as_rep_ok. unfold answer. rewrite (cf_out_act _ _ _ _ _ _ _ _ _ CF r _ O) by (now apply total_len). f_equal. unfold total. rewrite act_div. f_equal. rewrite act_rowsum by (try exact HD; now apply msgs_len). f_equal. rewrite !map_map. apply map_ext_in. intros h Hh. cbn [fst snd]. unfold fine in F. rewrite Forall_forall in F. destruct (F h Hh). now apply (cf_act _ _ _ _ _ _ _ _ _ CF).
Qed.
End Form.

(* ---- theorems ---- *)
(* one successful call decides for all graphs of the same kind: the call returns, the result has the same irreps, all among those asked for, and one row per node *)
Theorem C63_irreps C P pos feats N E sn rc z : settings C -> nodes_edges pos feats N E sn rc -> fits C P pos feats E sn rc -> conv_call C P pos feats E sn rc = Ok z ->
  coherent z /\ lead z = [N] /\ (forall m, In m (irr z) -> In (snd m) (map snd (c_target C))) /\
  forall pos' feats' N' E' sn' rc', nodes_edges pos' feats' N' E' sn' rc' -> irr pos' = irr pos -> alike feats feats' -> exists z', conv_call C P pos' feats' E' sn' rc' = Ok z' /\ irr z' = irr z /\ lead z' = [N'] /\ coherent z'.
Proof.
  intros S0 NE F Ez. destruct (run_form C P pos feats N E sn rc z S0 NE F Ez) as (p & xa & msg & xo & out & K). destruct (runs _ _ _ _ _ _ _ _ _ K pos feats N E sn rc NE eq_refl (conj eq_refl eq_refl)) as (z0 & Ez0 & Iz & Lz & Cz & _). rewrite Ez in Ez0. injection Ez0 as <-.
  split; [exact Cz|]. split; [exact Lz|]. split; [rewrite Iz; apply K|]. intros. destruct (runs _ _ _ _ _ _ _ _ _ K pos' feats' N' E' sn' rc' H H0 H1) as (z' & E1 & E2 & E3 & E4 & _). exists z'. repeat (split; [try eassumption; congruence|]). exact E4.
Qed.
(* the row of a node depends only on what it hears, in whatever order, and on no other node: across graphs *)
Theorem C63_local C P pos feats N E sn rc z pos' feats' N' E' sn' rc' z' i i' : settings C -> nodes_edges pos feats N E sn rc -> fits C P pos feats E sn rc -> conv_call C P pos feats E sn rc = Ok z ->
  nodes_edges pos' feats' N' E' sn' rc' -> irr pos' = irr pos -> alike feats feats' -> conv_call C P pos' feats' E' sn' rc' = Ok z' -> i < N -> i' < N' ->
  Permutation (heard pos feats N E sn rc i) (heard pos' feats' N' E' sn' rc' i') -> arr z' [i'] = arr z [i].
Proof.
  intros S0 NE F Ez NE' Ip' A Ez' Hi Hi' Pm. destruct (run_form C P pos feats N E sn rc z S0 NE F Ez) as (p & xa & msg & xo & out & K). destruct (runs _ _ _ _ _ _ _ _ _ K pos feats N E sn rc NE eq_refl (conj eq_refl eq_refl)) as (z0 & Ez0 & _ & _ & _ & Az). rewrite Ez in Ez0. injection Ez0 as <-.
  destruct (runs _ _ _ _ _ _ _ _ _ K pos' feats' N' E' sn' rc' NE' Ip' A) as (z1 & Ez1 & _ & _ & _ & Az'). rewrite Ez' in Ez1. injection Ez1 as <-. rewrite Az, Az' by assumption. destruct K as (Ip & _ & CF). symmetry. apply (answer_perm _ _ _ _ _ _ _ _ _ CF); [|exact Pm]. now apply (heard_fine _ _ _ _ _ _ _ p).
Qed.
(* a node that no edge ends at gets zero *)
Theorem C63_isolated C P pos feats N E sn rc z i : settings C -> nodes_edges pos feats N E sn rc -> fits C P pos feats E sn rc -> conv_call C P pos feats E sn rc = Ok z -> i < N -> (forall e, e < E -> node N (rc e) <> i) -> arr z [i] = repeat 0%R (dim (irr z)).
Proof.
  intros S0 NE F Ez Hi No. destruct (run_form C P pos feats N E sn rc z S0 NE F Ez) as (p & xa & msg & xo & out & K). destruct (runs _ _ _ _ _ _ _ _ _ K pos feats N E sn rc NE eq_refl (conj eq_refl eq_refl)) as (z0 & Ez0 & Iz & _ & _ & Az). rewrite Ez in Ez0. injection Ez0 as <-. rewrite Az by exact Hi. rewrite Iz.
  assert (Q : heard pos feats N E sn rc i = []). { unfold heard. assert (G : filter (fun e => node N (rc e) =? i) (seq 0 E) = []); [|now rewrite G]. destruct (filter _ _) as [|e l] eqn:Ef; [reflexivity|]. exfalso. assert (In e (e :: l)) as Hin by now left. rewrite <- Ef in Hin. apply filter_In in Hin as [H1 H2]. apply in_seq in H1. apply Nat.eqb_eq in H2. apply (No e); [lia|exact H2]. }
  rewrite Q. destruct K as (_ & _ & CF). apply (answer_nil _ _ _ _ _ _ _ _ _ CF).
Qed.
(* messages are summed: hearing two lots of edges gives the sum of what each lot gives *)
Theorem C63_additive C P pos feats N E sn rc z pos1 feats1 N1 E1 sn1 rc1 z1 pos2 feats2 N2 E2 sn2 rc2 z2 i i1 i2 : settings C -> nodes_edges pos feats N E sn rc -> fits C P pos feats E sn rc -> conv_call C P pos feats E sn rc = Ok z ->
  nodes_edges pos1 feats1 N1 E1 sn1 rc1 -> irr pos1 = irr pos -> alike feats feats1 -> conv_call C P pos1 feats1 E1 sn1 rc1 = Ok z1 ->
  nodes_edges pos2 feats2 N2 E2 sn2 rc2 -> irr pos2 = irr pos -> alike feats feats2 -> conv_call C P pos2 feats2 E2 sn2 rc2 = Ok z2 -> i < N -> i1 < N1 -> i2 < N2 ->
  Permutation (heard pos feats N E sn rc i) (heard pos1 feats1 N1 E1 sn1 rc1 i1 ++ heard pos2 feats2 N2 E2 sn2 rc2 i2) -> arr z [i] = zipR Rplus (arr z1 [i1]) (arr z2 [i2]).
Proof.
  intros S0 NE F Ez NE1 Ip1 A1 Ez1 NE2 Ip2 A2 Ez2 Hi Hi1 Hi2 Pm. destruct (run_form C P pos feats N E sn rc z S0 NE F Ez) as (p & xa & msg & xo & out & K).
  destruct (runs _ _ _ _ _ _ _ _ _ K pos feats N E sn rc NE eq_refl (conj eq_refl eq_refl)) as (y & Ey & _ & _ & _ & Az). rewrite Ez in Ey. injection Ey as <-.
  destruct (runs _ _ _ _ _ _ _ _ _ K pos1 feats1 N1 E1 sn1 rc1 NE1 Ip1 A1) as (y & Ey & _ & _ & _ & Az1). rewrite Ez1 in Ey. injection Ey as <-.
  destruct (runs _ _ _ _ _ _ _ _ _ K pos2 feats2 N2 E2 sn2 rc2 NE2 Ip2 A2) as (y & Ey & _ & _ & _ & Az2). rewrite Ez2 in Ey. injection Ey as <-. rewrite Az, Az1, Az2 by assumption. destruct K as (Ip & _ & CF).
  rewrite <- (answer_app _ _ _ _ _ _ _ _ _ CF).
  - apply (answer_perm _ _ _ _ _ _ _ _ _ CF); [|exact Pm]. now apply (heard_fine _ _ _ _ _ _ _ p).
  - destruct A1 as [-> _]. apply (heard_fine _ _ _ _ _ _ _ p); [exact NE1|congruence].
  - destruct A2 as [-> _]. apply (heard_fine _ _ _ _ _ _ _ p); [exact NE2|congruence].
Qed.
(* linear in the features, for fixed positions and edges *)
Theorem C63_linear C P pos feats feats1 feats2 t N E sn rc z : settings C -> nodes_edges pos feats N E sn rc -> fits C P pos feats E sn rc -> conv_call C P pos feats E sn rc = Ok z ->
  coherent feats1 -> lead feats1 = [N] -> alike feats feats1 -> coherent feats2 -> lead feats2 = [N] -> alike feats feats2 -> (forall k, k < N -> arr feats2 [k] = zipR Rplus (map (Rmult t) (arr feats [k])) (arr feats1 [k])) ->
  exists z1 z2, conv_call C P pos feats1 E sn rc = Ok z1 /\ conv_call C P pos feats2 E sn rc = Ok z2 /\ irr z2 = irr z /\ forall i, i < N -> arr z2 [i] = zipR Rplus (map (Rmult t) (arr z [i])) (arr z1 [i]).
Proof.
  intros S0 NE F Ez C1 L1 A1 C2 L2 A2 H. destruct (run_form C P pos feats N E sn rc z S0 NE F Ez) as (p & xa & msg & xo & out & K).
  assert (NE1 : nodes_edges pos feats1 N E sn rc) by (destruct NE; constructor; auto). assert (NE2 : nodes_edges pos feats2 N E sn rc) by (destruct NE; constructor; auto).
  destruct (runs _ _ _ _ _ _ _ _ _ K pos feats N E sn rc NE eq_refl (conj eq_refl eq_refl)) as (y & Ey & Iy & _ & _ & Az). rewrite Ez in Ey. injection Ey as <-.
  destruct (runs _ _ _ _ _ _ _ _ _ K pos feats1 N E sn rc NE1 eq_refl A1) as (z1 & Ez1 & _ & _ & _ & Az1). destruct (runs _ _ _ _ _ _ _ _ _ K pos feats2 N E sn rc NE2 eq_refl A2) as (z2 & Ez2 & Iz2 & _ & _ & Az2).
  exists z1, z2. split; [exact Ez1|]. split; [exact Ez2|]. split; [congruence|]. intros i Hi. rewrite Az, Az1, Az2 by exact Hi. destruct K as (Ip & _ & CF). fold (lin t (answer xa (c_avg C) msg out (heard pos feats N E sn rc i)) (answer xa (c_avg C) msg out (heard pos feats1 N E sn rc i))).
  unfold answer. rewrite <- (cf_out_lin _ _ _ _ _ _ _ _ _ CF).
  2:{ apply (total_len _ _ _ _ _ _ _ _ _ CF). now apply (heard_fine _ _ _ _ _ _ _ p). }
  2:{ apply (total_len _ _ _ _ _ _ _ _ _ CF). destruct A1 as [-> _]. now apply (heard_fine _ _ _ _ _ _ _ p). }
  f_equal. unfold total. rewrite <- map_lin. f_equal. unfold heard. rewrite !map_map. cbn [fst snd]. apply rowsum_lin. intros e He. apply filter_In in He as [He _]. apply in_seq in He. assert (He' : e < E) by lia. destruct NE as [Cp Cf Lp Lf Hs Hr].
  assert (Q1 : node N (sn e) < N) by apply (node_spec N (sn e) (Hs e He')). assert (Q2 : node N (rc e) < N) by apply (node_spec N (rc e) (Hr e He')). assert (V1 : valid [N] [node N (sn e)]) by (constructor; [exact Q1|constructor]).
  assert (La : length (arr feats [node N (sn e)]) = dim (irr feats)) by (apply Cf; rewrite Lf; exact V1). assert (Lb : length (arr feats1 [node N (sn e)]) = dim (irr feats)) by (destruct A1 as [-> _]; apply C1; rewrite L1; exact V1).
  assert (Lv : length (zipR Rminus (arr pos [node N (rc e)]) (arr pos [node N (sn e)])) = 3) by (rewrite zipR_length, !(row3 pos p N Cp Ip Lp) by assumption; reflexivity).
  split; [now apply (cf_len _ _ _ _ _ _ _ _ _ CF)|]. split; [now apply (cf_len _ _ _ _ _ _ _ _ _ CF)|]. rewrite H by exact Q1. now apply (cf_lin _ _ _ _ _ _ _ _ _ CF).
Qed.
