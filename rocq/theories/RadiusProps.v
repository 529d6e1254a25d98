(* C43: radius_graph *)
From Coq Require Import Reals ZArith Arith Bool Lia Lra List Sorted Relations.
From Verif Require Import PyBase IrrepsProofs RotationModel NormActProofs RadiusModel.
Import ListNotations.
Open Scope R_scope.

(* the order of the pairs: by source, then by destination *)
Definition pair_lt (p q : Z * Z) : Prop := (fst p < fst q)%Z \/ (fst p = fst q /\ (snd p < snd q)%Z).
Lemma pair_lt_trans : Relations_1.Transitive pair_lt.
Proof. intros [a b] [c d] [e f]. unfold pair_lt. cbn. lia. Qed.

Lemma in_where n mask s d : In (s, d) (mask_where n mask) <-> exists i j, s = Z.of_nat i /\ d = Z.of_nat j /\ (i < n)%nat /\ (j < n)%nat /\ mask i j = true.
Proof.
  unfold mask_where. rewrite in_flat_map. split.
  - intros (i & Hi & H). apply in_map_iff in H as (j & E & Hj). apply filter_In in Hj as (Hj & M). apply in_seq in Hi, Hj. injection E as <- <-. exists i, j. repeat split; try lia; assumption.
  - intros (i & j & -> & -> & Hi & Hj & M). exists i. split; [apply in_seq; lia|]. apply in_map_iff. exists j. split; [reflexivity|]. apply filter_In. split; [apply in_seq; lia|exact M].
Qed.
Lemma row_sorted i mask : forall k a, StronglySorted pair_lt (map (fun j => (Z.of_nat i, Z.of_nat j)) (filter mask (seq a k))).
Proof.
  induction k as [|k IH]; intros a; [constructor|]. cbn [seq filter]. destruct (mask a); [|apply IH]. cbn [map]. constructor; [apply IH|]. apply Forall_map, Forall_forall. intros j Hj. apply filter_In in Hj as (Hj & _). apply in_seq in Hj. right. cbn. lia.
Qed.
Lemma ssorted_app (l l' : list (Z * Z)) : StronglySorted pair_lt l -> StronglySorted pair_lt l' -> (forall p q, In p l -> In q l' -> pair_lt p q) -> StronglySorted pair_lt (l ++ l').
Proof.
  intros S1 S2 H. induction S1 as [|p l S1 IH F]; [exact S2|]. cbn [app]. constructor; [apply IH; intros; apply H; [right|]; assumption|]. apply Forall_app. split; [exact F|]. apply Forall_forall. intros q Hq. apply H; [left; reflexivity|exact Hq].
Qed.
Lemma where_sorted_aux n mask : forall k a, StronglySorted pair_lt (flat_map (fun i => map (fun j => (Z.of_nat i, Z.of_nat j)) (filter (mask i) (seq 0 n))) (seq a k)).
Proof.
  induction k as [|k IH]; intros a; [constructor|]. cbn [seq flat_map]. apply ssorted_app; [apply row_sorted|apply IH|]. intros p q Hp Hq. apply in_map_iff in Hp as (j & <- & _). apply in_flat_map in Hq as (i & Hi & Hq). apply in_map_iff in Hq as (j' & <- & _). apply in_seq in Hi. left. cbn. lia.
Qed.
Lemma where_sorted n mask : StronglySorted pair_lt (mask_where n mask).
Proof. apply where_sorted_aux. Qed.
Lemma where_nonneg n mask s d : In (s, d) (mask_where n mask) -> (0 <= s)%Z /\ (0 <= d)%Z.
Proof. intros H. apply in_where in H as (i & j & -> & -> & _). lia. Qed.
Lemma ssorted_filter (P : Z * Z -> bool) l : StronglySorted pair_lt l -> StronglySorted pair_lt (filter P l).
Proof. induction 1 as [|p l S IH F]; [constructor|]. cbn [filter]. destruct (P p); [|exact IH]. constructor; [exact IH|]. rewrite Forall_forall in *. intros q Hq. apply filter_In in Hq as (Hq & _). now apply F. Qed.
Lemma fill_edges fs fd n mask : map (fun '(s, d) => (fill_with fs s, fill_with fd d)) (mask_where n mask) = mask_where n mask.
Proof.
  rewrite <- (map_id (mask_where n mask)) at 2. apply map_ext_in. intros [s d] H. apply where_nonneg in H. unfold fill_with. destruct (fs =? -1)%Z, (fd =? -1)%Z, (Z.eqb_spec s (-1)), (Z.eqb_spec d (-1)); try lia; reflexivity.
Qed.
Lemma dist_zero x : dist_vec x x = 0.
Proof. unfold dist_vec. transitivity (sqrt 0); [f_equal|apply sqrt_0]. induction x as [|a x IH]; [reflexivity|]. cbn [combine map fold_right]. rewrite IH. ring. Qed.
Lemma dist_sym x y : dist_vec x y = dist_vec y x.
Proof. unfold dist_vec. f_equal. revert y. induction x as [|a x IH]; intros [|b y]; try reflexivity. cbn [combine map fold_right]. rewrite IH. ring. Qed.
Lemma dist_pos x y : 0 <= dist_vec x y.
Proof. apply sqrt_pos. Qed.
Lemma dist_separates x y : length x = length y -> dist_vec x y = 0 -> x = y.
Proof.
  unfold dist_vec. intros L E. apply sqrt_eq_0 in E.
  - revert y L E. induction x as [|a x IH]; intros [|b y] L E; try discriminate; [reflexivity|]. cbn [combine map fold_right] in E. assert (P : 0 <= fold_right Rplus 0 (map (fun '(a, b) => (a - b) ^ 2) (combine x y))).
    { clear. generalize (combine x y). intros l. induction l as [|[p q] l IH]; cbn [map fold_right]; [lra|]. pose proof (pow2_ge_0 (p - q)). lra. }
    pose proof (pow2_ge_0 (a - b)) as Q. assert (E1 : (a - b) ^ 2 = 0) by lra. f_equal; [nra|]. apply IH; [now injection L|lra].
  - clear. generalize (combine x y). intros l. induction l as [|[p q] l IH]; cbn [map fold_right]; [lra|]. pose proof (pow2_ge_0 (p - q)). lra.
Qed.
Lemma Rltb_iff a b : Rltb a b = true <-> a < b.
Proof. unfold Rltb. destruct (Rlt_dec a b); split; intros; try assumption; try discriminate; try reflexivity. contradiction. Qed.
Lemma mask_iff pos r_max loop i j : edge_mask pos r_max loop i j = true <-> dist_vec (nth i pos []) (nth j pos []) < r_max /\ (loop = true \/ 0 < dist_vec (nth i pos []) (nth j pos [])).
Proof.
  unfold edge_mask. cbv zeta. destruct loop; [rewrite Rltb_iff; tauto|]. rewrite andb_true_iff, !Rltb_iff. split; [tauto|]. intros (A & [B|B]); [discriminate|tauto].
Qed.

(* exactly the ordered pairs of close points, each once, sorted *)
Theorem C43_edges pos r_max loop fs fd : let e := radius_graph pos r_max None None loop fs fd in
  StronglySorted pair_lt e /\ NoDup e /\ forall s d, In (s, d) e <-> exists i j, s = Z.of_nat i /\ d = Z.of_nat j /\ (i < length pos)%nat /\ (j < length pos)%nat /\
    dist_vec (nth i pos []) (nth j pos []) < r_max /\ (loop = true \/ 0 < dist_vec (nth i pos []) (nth j pos [])).
Proof.
  cbv zeta. unfold radius_graph, pad_to. rewrite fill_edges. pose proof (where_sorted (length pos) (edge_mask pos r_max loop)) as S. split; [exact S|]. split.
  - induction S as [|p l S IH F]; constructor; [|exact IH]. intros Hp. rewrite Forall_forall in F. specialize (F p Hp). unfold pair_lt in F. lia.
  - intros s d. rewrite in_where. split; intros (i & j & A & B & C & D & M); exists i, j; repeat split; try assumption; try apply mask_iff in M; try tauto.
Qed.
(* when no two of the points coincide, loop=False removes exactly the pairs (i, i), and loop=True has all of them if r_max > 0 *)
Theorem C43_loops pos r_max fs fd i j k : (forall v, In v pos -> length v = k) -> NoDup pos -> (i < length pos)%nat -> (j < length pos)%nat ->
  (In (Z.of_nat i, Z.of_nat j) (radius_graph pos r_max None None false fs fd) <-> dist_vec (nth i pos []) (nth j pos []) < r_max /\ i <> j) /\
  (In (Z.of_nat i, Z.of_nat j) (radius_graph pos r_max None None true fs fd) <-> dist_vec (nth i pos []) (nth j pos []) < r_max).
Proof.
  intros HL ND Hi Hj. assert (Q : forall loop, In (Z.of_nat i, Z.of_nat j) (radius_graph pos r_max None None loop fs fd) <-> dist_vec (nth i pos []) (nth j pos []) < r_max /\ (loop = true \/ 0 < dist_vec (nth i pos []) (nth j pos []))).
  { intros loop. destruct (C43_edges pos r_max loop fs fd) as (_ & _ & E). rewrite E. split; [intros (a & b & A & B & C & D & F)|intros F; exists i, j; tauto]. apply Nat2Z.inj in A, B. subst a b. exact F. }
  split; rewrite Q; [|tauto]. split; intros (A & B); split; try assumption.
  - intros ->. destruct B as [B|B]; [discriminate|]. rewrite dist_zero in B. lra.
  - right. destruct (dist_pos (nth i pos []) (nth j pos [])) as [P|P]; [exact P|]. exfalso. apply B. apply (proj1 (NoDup_nth pos []) ND i j Hi Hj). apply dist_separates; [|now symmetry]. rewrite !HL by (apply nth_In; assumption). reflexivity.
Qed.
(* the graph is symmetric *)
Theorem C43_symmetric pos r_max loop fs fd s d : In (s, d) (radius_graph pos r_max None None loop fs fd) <-> In (d, s) (radius_graph pos r_max None None loop fs fd).
Proof.
  destruct (C43_edges pos r_max loop fs fd) as (_ & _ & E). rewrite !E. split; intros (i & j & A & B & C & D & F); exists j, i; rewrite (dist_sym (nth j pos []) (nth i pos [])); tauto.
Qed.
(* and does not change when the points are moved by any map that preserves their distances (rotations, reflections, translations) *)
Theorem C43_isometry pos r_max batch size loop fs fd (f : list R -> list R) : (forall u v, In u pos -> In v pos -> dist_vec (f u) (f v) = dist_vec u v) ->
  radius_graph (map f pos) r_max batch size loop fs fd = radius_graph pos r_max batch size loop fs fd.
Proof.
  intros H. unfold radius_graph. replace (mask_where (length (map f pos)) (edge_mask (map f pos) r_max loop)) with (mask_where (length pos) (edge_mask pos r_max loop)); [reflexivity|].
  rewrite map_length. unfold mask_where. rewrite !flat_map_concat_map. f_equal. apply map_ext_in. intros i Hi. f_equal. apply filter_ext_in. intros j Hj. apply in_seq in Hi, Hj. unfold edge_mask. rewrite !(nth_indep (map f pos) [] (f [])) by (rewrite map_length; lia). rewrite !map_nth, H by (apply nth_In; lia). reflexivity.
Qed.
(* size: the output has exactly that many entries: the first edges, then the fill values *)
Theorem C43_size pos r_max loop k fs fd : let e := radius_graph pos r_max None None loop fs fd in let p := radius_graph pos r_max None (Some k) loop fs fd in
  length p = k /\ p = firstn k e ++ repeat (fs, fd) (k - length e).
Proof.
  cbv zeta. unfold radius_graph, pad_to. rewrite fill_edges, map_app, <- firstn_map, fill_edges, map_repeat. assert (E : (fill_with fs (-1), fill_with fd (-1)) = (fs, fd)) by (unfold fill_with; destruct (Z.eqb_spec fs (-1)), (Z.eqb_spec fd (-1)); subst; reflexivity). rewrite E. split; [|reflexivity].
  rewrite app_length, firstn_length, repeat_length. lia.
Qed.
(* batch: the edges between two different batches are removed and nothing else; the order is kept *)
Theorem C43_batch pos r_max b loop fs fd : length b = length pos -> let e := radius_graph pos r_max None None loop fs fd in let p := radius_graph pos r_max (Some b) None loop fs fd in
  StronglySorted pair_lt p /\ forall i j, (i < length pos)%nat -> (j < length pos)%nat -> (In (Z.of_nat i, Z.of_nat j) p <-> In (Z.of_nat i, Z.of_nat j) e /\ nth i b 0%Z = nth j b 0%Z).
Proof.
  intros L. cbv zeta. unfold radius_graph, pad_to. rewrite fill_edges. split; [apply ssorted_filter, where_sorted|]. intros i j Hi Hj. rewrite filter_In. unfold batch_at.
  assert (V : forall i, (i < length pos)%nat -> Z.to_nat (Z.max 0 (Z.min (if (Z.of_nat i <? 0)%Z then Z.of_nat i + Z.of_nat (length b) else Z.of_nat i) (Z.of_nat (length b) - 1))) = i). { intros a Ha. destruct (Z.ltb_spec (Z.of_nat a) 0); lia. }
  rewrite !V by assumption. rewrite Z.eqb_eq. tauto.
Qed.
(* batch and size together: the filter is applied after the truncation; with the default fill value -1 the padding survives *)
Theorem C43_batch_size pos r_max b loop k : let e := radius_graph pos r_max None None loop (-1) (-1) in
  radius_graph pos r_max (Some b) (Some k) loop (-1) (-1) = filter (fun '(s, d) => (batch_at b s =? batch_at b d)%Z) (firstn k e) ++ repeat (-1, -1)%Z (k - length e).
Proof.
  intros e. destruct (C43_size pos r_max loop k (-1) (-1)) as (_ & E). fold e in E. transitivity (filter (fun '(s, d) => (batch_at b s =? batch_at b d)%Z) (radius_graph pos r_max None (Some k) loop (-1) (-1))); [reflexivity|]. rewrite E, filter_app. apply (f_equal2 (@app (Z * Z))); [reflexivity|].
  clear E. induction (k - length e)%nat as [|m IH]; [reflexivity|]. cbn [repeat filter]. rewrite Z.eqb_refl, IH. reflexivity.
Qed.

(* ---- deviations ---- *)
(* loop=False also drops the pairs of distinct points at the same place *)
Lemma dist1 a b : dist_vec [a] [b] = Rabs (a - b).
Proof. unfold dist_vec. cbn [combine map fold_right]. rewrite Rplus_0_r. replace ((a - b) ^ 2) with (Rsqr (a - b)) by (unfold Rsqr; ring). apply sqrt_Rsqr_abs. Qed.
Theorem C43_coincident_refuted : exists pos i j, (i < length pos)%nat /\ (j < length pos)%nat /\ i <> j /\ dist_vec (nth i pos []) (nth j pos []) < 1 /\ ~ In (Z.of_nat i, Z.of_nat j) (radius_graph pos 1 None None false (-1) (-1)).
Proof.
  exists [[0]; [0]], 0%nat, 1%nat. cbn [length nth]. rewrite dist_zero. repeat split; try lia; try lra. intros H. apply C43_edges in H as (i & j & A & B & _ & _ & _ & [F|F]); [discriminate|]. replace i with 0%nat in F by lia. replace j with 1%nat in F by lia. cbn [nth] in F. rewrite dist_zero in F. lra.
Qed.
(* with batch the output does not have the requested size, and a size that is sufficient for the edges inside the batches loses some of them *)
Theorem C43_batch_size_refuted : exists pos b k, let e := radius_graph pos 3 (Some b) None false (-1) (-1) in let p := radius_graph pos 3 (Some b) (Some k) false (-1) (-1) in
  length b = length pos /\ length e = k /\ length p <> k /\ p = [].
Proof.
  exists [[0]; [1]; [2]], [0; 1; 1]%Z, 2%nat. cbv zeta. unfold radius_graph. cbn [length].
  assert (M : mask_where 3 (edge_mask [[0]; [1]; [2]] 3 false) = [(0, 1); (0, 2); (1, 0); (1, 2); (2, 0); (2, 1)]%Z).
  { assert (T : forall a b, a <> b -> -3 < a - b < 3 -> Rltb (dist_vec [a] [b]) 3 && Rltb 0 (dist_vec [a] [b]) = true). { intros a b N H. rewrite dist1. rewrite andb_true_iff, !Rltb_iff. split; [apply Rabs_def1; lra|apply Rabs_pos_lt; lra]. }
    assert (F : forall a, Rltb (dist_vec a a) 3 && Rltb 0 (dist_vec a a) = false). { intros a. rewrite dist_zero. rewrite (Rltb_false 0 0) by lra. apply andb_false_r. }
    unfold mask_where. cbn [seq flat_map filter]. unfold edge_mask. cbn [nth]. rewrite !F, !T by lra. reflexivity. }
  rewrite M. vm_compute. repeat split. discriminate.
Qed.
Example C43_nonvacuous : radius_graph [[0; 0]; [3; 4]; [0; 1]] 2 (Some [0; 1; 0]%Z) (Some 4%nat) false 3 3 = [(0, 2); (2, 0); (3, 3); (3, 3)]%Z.
Proof.
  unfold radius_graph. cbn [length]. assert (M : mask_where 3 (edge_mask [[0; 0]; [3; 4]; [0; 1]] 2 false) = [(0, 2); (2, 0)]%Z).
  { assert (F : forall a, Rltb (dist_vec a a) 2 && Rltb 0 (dist_vec a a) = false). { intros a. rewrite dist_zero. rewrite (Rltb_false 0 0) by lra. apply andb_false_r. }
    assert (D1 : dist_vec [0; 0] [3; 4] = 5). { unfold dist_vec. cbn [combine map fold_right]. replace ((0 - 3) ^ 2 + ((0 - 4) ^ 2 + 0)) with (5 ^ 2) by ring. apply sqrt_pow2. lra. }
    assert (D2 : dist_vec [0; 0] [0; 1] = 1). { unfold dist_vec. cbn [combine map fold_right]. replace ((0 - 0) ^ 2 + ((0 - 1) ^ 2 + 0)) with (1 ^ 2) by ring. apply sqrt_pow2. lra. }
    assert (D3 : 2 <= dist_vec [3; 4] [0; 1]). { unfold dist_vec. cbn [combine map fold_right]. rewrite <- (sqrt_pow2 2) by lra. apply sqrt_le_1_alt. lra. }
    unfold mask_where. cbn [seq flat_map filter]. unfold edge_mask. cbn [nth]. rewrite !F. rewrite (dist_sym [3; 4] [0; 0]), (dist_sym [0; 1] [0; 0]), (dist_sym [0; 1] [3; 4]), !D1, !D2. rewrite (Rltb_false 5 2), (Rltb_true 1 2), (Rltb_true 0 1), (Rltb_false (dist_vec [3; 4] [0; 1]) 2) by lra. reflexivity. }
  rewrite M. vm_compute. reflexivity.
Qed.
