(* C42 gate, C57 norm_activation / soft_normalization / key_value_activation; deviations and concrete cases for C41, C42, C57 *)
From Coq Require Import Reals ZArith Arith Bool Lia Lra Psatz List.
From Verif Require Import PyBase IrrepsModel IrrepsProofs ArrayModel ArrayProofs LeadModel SumR CGModel CGProofs6 WignerModel WignerProofs LeadProofs ArrayOps ArithProofs SliceProofs2 BlockProofs BilinProofs ActProofs EquivProofs EquivProofs2 LinearModel LinearProofs TPModel TPProofs WignerProofs2 WignerProps WignerProps2 ActivationModel ActivationProofs GateProofs NormActProofs ActivationProps EntryProofs.
From Verif Require RotationModel RotationProofs.
Import RotationModel RotationProofs ListNotations.
Open Scope R_scope.

(* ================= C42 ================= *)
(* S: the scalars of the input in order, V: the others in order, n = |S| - |V|.
   Output irreps: the first n scalars after activation, then each v of V with its parity multiplied by that of its activated gate.
   Output row: the activated first n scalars, then the copies of V scaled by the activated last |V| scalars, paired in order. *)
Theorem C42_value pts even odd even_gate odd_gate norm x : coherent x -> Forall (fun m => (0 < fst m)%nat) (irr x) -> no_zero_scalars x -> compatible even odd -> compatible even_gate odd_gate ->
  (In (Irrep 0 Odd) (flat (irr x)) -> parity_function (activate pts norm odd) <> 0%Z /\ parity_function (activate pts norm odd_gate) <> 0%Z) ->
  let S := filter (fun ir => (ir_l ir =? 0)%nat) (flat (irr x)) in let V := filter (fun ir => negb (ir_l ir =? 0)%nat) (flat (irr x)) in
  V <> [] -> (length V <= length S)%nat -> let n := (length S - length V)%nat in
  exists y, gate clebsch_gordan pts even odd even_gate odd_gate norm x = Ok y /\ coherent y /\ lead y = lead x /\
    flat (irr y) = map (act_ir pts norm even odd) (firstn n S) ++ map2 (fun g v => Irrep (ir_l v) (pmul (ir_p (act_ir pts norm even_gate odd_gate g)) (ir_p v))) (skipn n S) V /\
    forall i, valid (lead x) i ->
      let s := concat (copies (fun ir => (ir_l ir =? 0)%nat) (irr x) (arr x i)) in let v := copies (fun ir => negb (ir_l ir =? 0)%nat) (irr x) (arr x i) in
      arr y i = map2 (act_val pts norm even odd) (firstn n S) (firstn n s) ++ concat (map2 (fun r k => map (Rmult k) r) v (map2 (act_val pts norm even_gate odd_gate) (skipn n S) (skipn n s))).
Proof.
  intros H Hpos Hz C1 C2 Hp S V Hv Hle n. destruct (gate_yields clebsch_gordan pts even odd even_gate odd_gate norm x cg_scalar_coupling_l H Hpos Hz C1 C2 Hp Hv Hle) as (Ef & (y & E & Ei & El & Hy & Ea)).
  exists y. rewrite Ei. split; [exact E|]. split; [exact Hy|]. split; [exact El|]. split; [exact Ef|exact Ea].
Qed.
Theorem C42_equivariant cg pts even odd even_gate odd_gate norm D x : scalar_coupling_l cg -> rep_ok D -> parity_rep D -> coherent x -> Forall (fun m => (0 < fst m)%nat) (irr x) -> no_zero_scalars x -> compatible even odd -> compatible even_gate odd_gate ->
  (In (Irrep 0 Odd) (flat (irr x)) -> (parity_function (activate pts norm odd) <> 0%Z /\ honest (activate pts norm odd)) /\ (parity_function (activate pts norm odd_gate) <> 0%Z /\ honest (activate pts norm odd_gate))) ->
  let S := filter (fun ir => (ir_l ir =? 0)%nat) (flat (irr x)) in let V := filter (fun ir => negb (ir_l ir =? 0)%nat) (flat (irr x)) in
  V <> [] -> (length V <= length S)%nat ->
  agree (let! y := gate cg pts even odd even_gate odd_gate norm x in transform D y) (let! y := transform D x in gate cg pts even odd even_gate odd_gate norm y).
Proof. intros HC HD HP H Hpos Hz C1 C2 Hp S V Hv Hle. now apply gate_commutes. Qed.
Theorem C42_O3 pts even odd even_gate odd_gate norm r x : orthogonal3 r -> coherent x -> Forall (fun m => (0 < fst m)%nat) (irr x) -> no_zero_scalars x -> compatible even odd -> compatible even_gate odd_gate ->
  (In (Irrep 0 Odd) (flat (irr x)) -> (parity_function (activate pts norm odd) <> 0%Z /\ honest (activate pts norm odd)) /\ (parity_function (activate pts norm odd_gate) <> 0%Z /\ honest (activate pts norm odd_gate))) ->
  let S := filter (fun ir => (ir_l ir =? 0)%nat) (flat (irr x)) in let V := filter (fun ir => negb (ir_l ir =? 0)%nat) (flat (irr x)) in
  V <> [] -> (length V <= length S)%nat ->
  agree (let! y := gate clebsch_gordan pts even odd even_gate odd_gate norm x in transform_by_matrix y r) (let! y := transform_by_matrix x r in gate clebsch_gordan pts even odd even_gate odd_gate norm y).
Proof.
  intros O H Hpos Hz C1 C2 Hp S V Hv Hle. rewrite bind_by_matrix, by_matrix. apply gate_commutes; auto using cg_scalar_coupling_l, rep_of_parity. apply as_rep_ok.
Qed.
(* rejection *)
Lemma dim_scalars_flat x : dim (filter (fun m => scalar_b (snd m)) x) = length (filter scalar_b (flat x)).
Proof.
  induction x as [|[n ir] x IH]; [reflexivity|]. rewrite flat_cons, filter_app, app_length, filter_repeat, <- IH. cbn [filter snd]. destruct (scalar_b ir) eqn:E; [|reflexivity]. rewrite dim_cons, repeat_length. unfold mi_dim. cbn [fst snd]. apply Nat.eqb_eq in E. unfold ir_dim. rewrite E. lia.
Qed.
Lemma num_vectors_flat x : num_irreps (filter (fun m => is_vec (snd m)) x) = length (filter is_vec (flat x)).
Proof.
  induction x as [|[n ir] x IH]; [reflexivity|]. rewrite flat_cons, filter_app, app_length, filter_repeat, <- IH. cbn [filter snd]. destruct (is_vec ir) eqn:E; [|reflexivity]. rewrite repeat_length. reflexivity.
Qed.
Lemma dim_vectors_flat x : dim (filter (fun m => is_vec (snd m)) x) = 0%nat <-> filter is_vec (flat x) = [].
Proof.
  induction x as [|[n ir] x IH]; [tauto|]. rewrite flat_cons, filter_app, filter_repeat. cbn [filter snd]. destruct (is_vec ir) eqn:E; [|exact IH]. rewrite dim_cons. unfold mi_dim. cbn [fst snd].
  destruct n as [|n]; cbn [repeat app Nat.mul]; [exact IH|]. split; [|discriminate]. unfold ir_dim. lia.
Qed.
Lemma gate_split x : coherent x -> exists sc ve, ia_filter x (Some scalars_only) None None = Ok sc /\ irr sc = filter (fun m => scalar_b (snd m)) (irr x) /\ coherent sc /\ lead sc = lead x /\
  ia_filter x None (Some scalars_only) None = Ok ve /\ irr ve = filter (fun m => is_vec (snd m)) (irr x).
Proof.
  intros H. destruct (gate_vectors x H) as (ve & Eve & Ive & _). set (new := filter (selects scalars_only) (irr x)). assert (En : new = filter (fun m => scalar_b (snd m)) (irr x)) by (apply filter_ext; apply selects_scalars).
  destruct (filter_yields x (Some scalars_only) None None new H ltac:(discriminate) eq_refl) as (sc & A & B & C & D & _).
  { intros m n _ _ Emn. cbn [wants]. rewrite !selects_scalars, Emn. reflexivity. }
  exists sc, ve. split; [exact A|]. split; [congruence|]. split; [exact D|]. split; [exact C|]. split; [exact Eve|exact Ive].
Qed.
Theorem C42_too_few_scalars cg pts even odd even_gate odd_gate norm x : coherent x ->
  let S := filter (fun ir => (ir_l ir =? 0)%nat) (flat (irr x)) in let V := filter (fun ir => negb (ir_l ir =? 0)%nat) (flat (irr x)) in
  (length S < length V)%nat -> gate cg pts even odd even_gate odd_gate norm x = Err ValueError.
Proof.
  intros H S V L. destruct (gate_split x H) as (sc & ve & E1 & I1 & _ & _ & E2 & I2). unfold gate. rewrite E1. cbn [bind]. rewrite E2. cbn [bind]. rewrite I1, I2, dim_scalars_flat, num_vectors_flat.
  destruct (Nat.eqb_spec (dim (filter (fun m => is_vec (snd m)) (irr x))) 0) as [E|_].
  - apply dim_vectors_flat in E. unfold V in L. change (fun ir => negb (ir_l ir =? 0)%nat) with is_vec in L. rewrite E in L. cbn in L. lia.
  - replace (length (filter scalar_b (flat (irr x))) <? length (filter is_vec (flat (irr x))))%nat with true; [reflexivity|]. symmetry. apply Nat.ltb_lt. exact L.
Qed.
(* without l > 0 features it is scalar_activation of the scalars *)
Theorem C42_no_vectors cg pts even odd even_gate odd_gate norm x : coherent x -> filter (fun ir => negb (ir_l ir =? 0)%nat) (flat (irr x)) = [] ->
  exists sc, ia_filter x (Some scalars_only) None None = Ok sc /\ coherent sc /\ irr sc = filter (fun m => scalar_b (snd m)) (irr x) /\
    gate cg pts even odd even_gate odd_gate norm x = scalar_activation pts None even odd norm sc.
Proof.
  intros H L. destruct (gate_split x H) as (sc & ve & E1 & I1 & C1 & _ & E2 & I2). exists sc. split; [exact E1|]. split; [exact C1|]. split; [exact I1|]. unfold gate. rewrite E1. cbn [bind]. rewrite E2. cbn [bind]. rewrite I2.
  replace (dim (filter (fun m => is_vec (snd m)) (irr x)) =? 0)%nat with true; [reflexivity|]. symmetry. apply Nat.eqb_eq. now apply dim_vectors_flat.
Qed.

(* ================= C57 ================= *)
(* each activated copy v is multiplied by act(|v|), where |v| is the norm (component: divided by sqrt(dim)), 1 for v = 0 *)
Theorem C57_norm_activation_value acts component x : coherent x -> length acts = length (irr x) ->
  yields (norm_activation acts component x) (irr x) (lead x)
    (fun i => concat (map3 (fun m a b => match a with None => b | Some g => concat (map (fun v => let n2 := dotR v v / (if component then INR (length v) else 1) in map (fun t => t * g (if Rltb 0 n2 then sqrt n2 else 1)) v) (group_rows (fst m) (ir_dim (snd m)) b)) end) (irr x) acts (blocks (irr x) (arr x i)))).
Proof.
  intros H L. eapply yields_ext; [|now apply norm_activation_yields]. intros i Hi. cbv beta. f_equal. unfold map3. apply map_ext. intros [[m a] b]. destruct a as [g|]; [|reflexivity]. cbn [norm_block]. f_equal. apply map_ext. intros v. unfold norm_scale. fold (sq_sum v). rewrite sq_sum_dot.
  destruct component; [reflexivity|]. unfold Rdiv. rewrite Rinv_1, Rmult_1_r. reflexivity.
Qed.
Theorem C57_norm_activation_equivariant acts component D x : rep_ok D -> orthogonal_rep D -> coherent x -> length acts = length (irr x) ->
  agree (let! y := norm_activation acts component x in transform D y) (let! y := transform D x in norm_activation acts component y).
Proof. apply norm_activation_commutes. Qed.
Theorem C57_norm_activation_O3 acts component r x : orthogonal3 r -> coherent x -> length acts = length (irr x) ->
  agree (let! y := norm_activation acts component x in transform_by_matrix y r) (let! y := transform_by_matrix x r in norm_activation acts component y).
Proof. intros O H L. rewrite bind_by_matrix, by_matrix. apply norm_activation_commutes; auto using rep_of_orthogonal. apply as_rep_ok. Qed.
Theorem C57_wrong_number acts component x : length acts <> length (irr x) -> norm_activation acts component x = Err AssertionError.
Proof. intros N. unfold norm_activation. replace (length (irr x) =? length acts)%nat with false by (symmetry; apply Nat.eqb_neq; congruence). reflexivity. Qed.

Lemma norm_rows component g (x : irreps) : forall row, concat (map3 (norm_block component) x (repeat (Some g) (length x)) (blocks x row)) = concat (map (norm_scale component g) (instances x row)).
Proof.
  induction x as [|m x IH]; intros row; [reflexivity|]. cbn [length repeat blocks]. rewrite map3_cons. cbn [concat norm_block]. rewrite IH. unfold instances. cbn [blocks combine flat_map]. rewrite map_app, concat_app. reflexivity.
Qed.
(* soft_normalization: every copy keeps its direction and its component norm becomes smaller than max_component *)
Theorem C57_soft_normalization M x : 0 < M -> coherent x -> exists y, soft_normalization M x = Ok y /\ irr y = irr x /\ lead y = lead x /\ coherent y /\
  forall i, valid (lead x) i -> exists ks, Forall (fun k => 0 < k <= 1) ks /\ length ks = num_irreps (irr x) /\ instances (irr x) (arr y i) = map2 (fun k v => map (fun t => t * k) v) ks (instances (irr x) (arr x i)) /\
    Forall (fun v => sqrt (dotR v v / INR (length v)) < M) (instances (irr x) (arr y i)).
Proof.
  intros HM H. destruct (norm_activation_yields (repeat (Some (soft_phi M)) (length (irr x))) true x H (repeat_length _ _)) as (y & E & E1 & E2 & E3 & E4). exists y. split; [exact E|]. split; [exact E1|]. split; [exact E2|]. split; [exact E3|].
  intros i Hi. assert (Er : instances (irr x) (arr y i) = map (norm_scale true (soft_phi M)) (instances (irr x) (arr x i))).
  { rewrite (E4 i Hi), norm_rows. apply instances_concat. assert (W : Forall2 (fun ir r => length r = ir_dim ir) (flat (irr x)) (instances (irr x) (arr x i))) by (rewrite instances_cut; apply cut_widths; rewrite (proj1 H i Hi); symmetry; apply dims_flat).
    revert W. generalize (flat (irr x)) (instances (irr x) (arr x i)). intros l rs W. induction W as [|ir r l rs L W IH]; constructor; [now rewrite norm_scale_length|exact IH]. }
  rewrite Er. exists (map (fun v => let n2 := sq_sum v / INR (length v) in soft_phi M (if Rltb 0 n2 then sqrt n2 else 1)) (instances (irr x) (arr x i))). split; [|split; [|split]].
  - apply Forall_map, Forall_forall. intros v _. cbv zeta. set (n := if Rltb 0 _ then _ else 1). assert (Hn : 0 <= n) by (unfold n; destruct (Rltb _ _); [apply sqrt_pos|lra]). unfold soft_phi. cbv zeta.
    assert (P : 0 <= n / M * sus (n / M)) by (apply Rmult_le_pos; [apply div_nonneg; lra|apply sus_nonneg]). set (q := n / M * sus (n / M)) in *. clearbody q. split; [apply Rdiv_lt_0_compat; lra|]. apply (Rmult_le_reg_r (1 + q)); [lra|]. unfold Rdiv. rewrite Rmult_assoc, Rinv_l by lra. lra.
  - rewrite map_length, instances_cut, cut_length. apply flat_length.
  - generalize (instances (irr x) (arr x i)). intros l. induction l as [|v l IH]; [reflexivity|]. cbn [map]. rewrite map2_cons, IH. reflexivity.
  - apply Forall_map, Forall_forall. intros v _. pose proof (soft_copy_bound M v HM) as B. unfold component_norm in B. rewrite sq_sum_dot in B. exact B.
Qed.
Theorem C57_soft_normalization_O3 M r x : orthogonal3 r -> coherent x ->
  agree (let! y := soft_normalization M x in transform_by_matrix y r) (let! y := transform_by_matrix x r in soft_normalization M y).
Proof.
  intros O H. destruct (C57_norm_activation_O3 (repeat (Some (soft_phi M)) (length (irr x))) true r x O H (repeat_length _ _)) as (z & s & a & A & B). exists z, s, a. split; [exact A|].
  revert B. rewrite by_matrix. destruct (transform_act (rep_of r) x H (as_rep_ok _)) as (y & Y1 & Y2 & Y3 & Y4 & Y5). rewrite Y1. cbn [bind]. unfold soft_normalization. fold (soft_phi M). rewrite Y2. exact (fun q => q).
Qed.
(* key_value_activation commutes with every linear isometry applied to both of its arguments *)
Theorem C57_key_value_equivariant pts phi Q key value : length key = length value -> length Q = length value -> (forall u v, length u = length value -> length v = length value -> dotR (matvec Q u) (matvec Q v) = dotR u v) ->
  key_value_activation pts phi (matvec Q key) (matvec Q value) = matvec Q (key_value_activation pts phi key value).
Proof. apply key_value_act. Qed.
(* its result is key scaled by sqrt(d) phi(<k, value>) with k = key / sqrt(1/16 + |key|^2), |k| < 1 *)
Theorem C57_key_value_value pts phi key value : let c := sqrt (1 / 16 + dotR key key) in
  key_value_activation pts phi key value = map (fun t => t * (sqrt (INR (length value)) * normalize_function pts phi (dotR key value / c) / c)) key /\ dotR key key / (c * c) < 1.
Proof.
  cbv zeta. set (c := sqrt (1 / 16 + dotR key key)). pose proof (sq_sum_pos key) as P. rewrite sq_sum_dot in P. assert (C2 : c * c = 1 / 16 + dotR key key) by (apply sqrt_sqrt; lra). split.
  - unfold key_value_activation. fold (sq_sum key). rewrite sq_sum_dot. fold c. unfold Rdiv at 2 4. change (fun k => k / c) with (fun k => k * / c). rewrite sum_combine_dot, dotR_scale_l, map_map. apply map_ext. intros t. unfold Rdiv. ring.
  - rewrite C2. apply (Rmult_lt_reg_r (1 / 16 + dotR key key)); [lra|]. unfold Rdiv at 1. rewrite Rmult_assoc, Rinv_l by lra. lra.
Qed.

(* ================= deviations ================= *)
(* a block known to be zero is activated at 1 instead of 0 when the functions of the blocks are not all the same (activation.py:167): the same values, without that knowledge, give another result *)
Theorem C41_zero_chunk_refuted : exists x x' acts y y', coherent x /\ coherent x' /\ irr x = irr x' /\ arr x = arr x' /\
  (forall pts e o, scalar_activation pts (Some acts) e o false x = Ok y) /\ (forall pts e o, scalar_activation pts (Some acts) e o false x' = Ok y') /\ arr y [] = [3; 1; 2; 3] /\ arr y' [] = [2; 1; 2; 3].
Proof.
  set (xs := [(1%nat, Irrep 0 Even); (1%nat, Irrep 1 Odd)]). set (v := fun _ : idx => [0; 1; 2; 3]). set (f := PyFun 0 (fun t => t + 2)).
  assert (Z : is_zero_in_zero (fun t => t + 2) = false). { unfold is_zero_in_zero, allclose, Rleb. rewrite Rplus_0_l, Rminus_0_r, Rabs_R0, (Rabs_pos_eq 2) by lra. destruct (Rle_dec _ _); [lra|reflexivity]. }
  exists (IA xs [] v (Some [true; false]) None), (IA xs [] v None None), [Some f; None]. do 2 eexists.
  split; [split; [intros i V; reflexivity|split; [|exact I]]|].
  { split; [intros _ i V; reflexivity|]. split; [discriminate|exact I]. }
  split; [split; [intros i V; reflexivity|split; [apply flags_false|exact I]]|]. split; [reflexivity|]. split; [reflexivity|].
  split.
  { intros. unfold scalar_activation, ActivationModel.act_entry. cbn -[is_zero_in_zero]. 
    change (f_ap f) with (fun t : R => t + 2). rewrite Z. cbn. reflexivity. }
  split; [intros; cbn; reflexivity|]. split; cbn; repeat f_equal; ring.
Qed.
(* the parity of a function is measured on [0, 10] only: a function that is odd there and not beyond is accepted on odd scalars, and the result is not equivariant under the inversion *)
Definition cut_line (t : R) : R := if Rleb t 10 then t else 0.
Lemma linspace_bounds b n x : 0 <= b -> In x (linspace0 b n) -> 0 <= x <= b.
Proof.
  intros Hb Hx. unfold linspace0 in Hx. apply in_map_iff in Hx as (k & <- & Hk). apply in_seq in Hk. destruct (Nat.eq_dec n 1) as [->|N].
  - assert (k = 0%nat) by lia. subst k. cbn. unfold Rdiv. rewrite !Rmult_0_l. lra.
  - assert (P : 0 < INR (n - 1)) by (apply lt_0_INR; lia). assert (K : INR k <= INR (n - 1)) by (apply le_INR; lia). pose proof (pos_INR k) as K0.
    assert (E : INR k * b / INR (n - 1) = b * (INR k / INR (n - 1))) by (unfold Rdiv; ring). rewrite E. assert (Q : 0 <= INR k / INR (n - 1) <= 1).
    { split; [apply div_nonneg; assumption|]. apply (Rmult_le_reg_r (INR (n - 1))); [exact P|]. unfold Rdiv. rewrite Rmult_assoc, Rinv_l by lra. lra. }
    nra.
Qed.
Lemma cut_line_parity : parity_function cut_line = (-1)%Z.
Proof.
  unfold parity_function. cbv zeta. assert (V : forall x, 0 <= x <= 10 -> cut_line x = x /\ cut_line (- x) = - x). { intros x Hx. unfold cut_line, Rleb. destruct (Rle_dec x 10), (Rle_dec (- x) 10); lra. }
  replace (forallb (fun x => Rltb (Rabs (cut_line x - cut_line (- x))) (/ 100000)) (linspace0 10 256)) with false.
  - replace (forallb (fun x => Rltb (Rabs (cut_line x + cut_line (- x))) (/ 100000)) (linspace0 10 256)) with true; [reflexivity|]. symmetry. apply forallb_forall. intros x Hx. destruct (V x) as (-> & ->); [apply (linspace_bounds 10 256); [lra|exact Hx]|]. rewrite Rplus_opp_r, Rabs_R0. apply Rltb_true. lra.
  - symmetry. apply Bool.not_true_iff_false. intros F. rewrite forallb_forall in F. specialize (F 10 in_linspace_10). destruct (V 10) as (E1 & E2); [lra|]. rewrite E1, E2 in F. rewrite Rltb_false in F; [discriminate|]. rewrite Rabs_pos_eq by lra. lra.
Qed.
Theorem C41_parity_sampling_refuted : exists x f r, orthogonal3 r /\ coherent x /\ forall pts, exists y z, (let! y := scalar_activation pts (Some [Some f]) f f false x in transform_by_matrix y r) = Ok y /\
  (let! y := transform_by_matrix x r in scalar_activation pts (Some [Some f]) f f false y) = Ok z /\ irr y = irr z /\ arr y [] = [0] /\ arr z [] = [-11].
Proof.
  set (x := IA [(1%nat, Irrep 0 Odd)] [] (fun _ => [11]) None None). set (f := PyFun 0 cut_line). set (r := mat_scale (-1) mone). exists x, f, r.
  assert (O : orthogonal3 r) by (split; apply mat_eq; cbn; ring). assert (H : coherent x) by (split; [intros i V; reflexivity|split; [apply flags_false|exact I]]). split; [exact O|]. split; [exact H|]. intros pts.
  assert (Dr : rep_of r (Irrep 0 Odd) = [[-1]]). { rewrite rep_of_scalar_p. unfold chi. replace (sg r) with true; [reflexivity|]. symmetry. unfold sg, Rltb. destruct (Rlt_dec _ _) as [|N]; [reflexivity|]. exfalso. apply N. unfold mat_det, r. cbn. lra. }
  assert (E : forall s, scalar_activation pts (Some [Some f]) f f false (IA [(1%nat, Irrep 0 Odd)] [] s None None) = Ok (IA [(1%nat, Irrep 0 Odd)] [] (fun i => map cut_line (s i)) (Some [false]) None)).
  { intros s. unfold scalar_activation, ActivationModel.act_entry. cbn -[parity_function]. change (f_ap f) with cut_line. rewrite cut_line_parity. cbn. reflexivity. }
  unfold x at 1. rewrite (E (fun _ => [11])). cbn [bind]. rewrite !by_matrix.
  assert (H' : coherent (IA [(1%nat, Irrep 0 Odd)] [] (fun _ => map cut_line [11]) (Some [false]) None)) by (split; [intros i V; reflexivity|split; [split; [discriminate|exact I]|exact I]]).
  destruct (transform_act (rep_of r) _ H' (as_rep_ok _)) as (y & Y1 & Y2 & Y3 & Y4 & Y5).
  assert (A : forall t, act (rep_of r) [(1%nat, Irrep 0 Odd)] [t] = [- t]). { intros t. unfold act. cbn [flat flat_map repeat app acts fst snd]. change (ir_dim (Irrep 0 Odd)) with 1%nat. cbn [firstn skipn]. rewrite Dr. cbn. f_equal. ring. }
  destruct (transform_act (rep_of r) x H (as_rep_ok _)) as (u & U1 & U2 & U3 & U4 & U5).
  destruct (C41_value pts (Some [Some f]) f f false u U4) as (z & Z1 & Z2 & Z3 & Z4 & Z5).
  - rewrite U2. constructor; [|constructor]. split; [reflexivity|]. intros _. cbn [activate f f_ap]. rewrite cut_line_parity. discriminate.
  - pose proof (proj1 (proj2 U4)) as FO. apply flags_ok_length in FO. rewrite U2 in FO. destruct (zero_flags u) as [|b [|? ?]]; try discriminate. constructor; [|constructor]. intros _. cbn [activate f f_ap]. unfold cut_line, Rleb. destruct (Rle_dec 0 10); [reflexivity|lra].
  - intros p q [Ep|[]] [Eq|[]]. injection Ep as <-. injection Eq as <-. reflexivity.
  - exists y, z. split; [exact Y1|]. rewrite U1. cbn [bind]. split; [exact Z1|]. split; [|split].
    + rewrite Y2, Z2, U2. cbn [irr x map2 combine map out_entry fst snd ir_p activate f f_ap]. rewrite cut_line_parity. reflexivity.
    + rewrite Y5 by (first [reflexivity|constructor]). cbn [irr arr map]. rewrite A. f_equal. unfold cut_line, Rleb. destruct (Rle_dec 11 10); lra.
    + rewrite Z5 by (rewrite U3; first [reflexivity|constructor]). rewrite U2, U5 by (first [reflexivity|constructor]). cbn [irr arr x]. rewrite A. change ([cut_line (- (11))] = [-11]). f_equal. unfold cut_line, Rleb. destruct (Rle_dec (- (11)) 10); lra.
Qed.
(* gate fails on an input whose scalars are known to be zero and are cut by the separation of the gates; it accepts the same values without that knowledge *)
Theorem C42_zero_scalars_refuted : exists x x', coherent x /\ coherent x' /\ irr x = irr x' /\ arr x = arr x' /\ forall pts e o eg og,
  gate clebsch_gordan pts e o eg og false x = Err TypeError /\ (f_id e <> f_id o -> f_id eg <> f_id og -> is_ok (gate clebsch_gordan pts e o eg og false x') = true).
Proof.
  set (xs := [(2%nat, Irrep 0 Even); (1%nat, Irrep 1 Odd)]). set (v := fun _ : idx => [0; 0; 1; 2; 3]).
  exists (IA xs [] v (Some [true; false]) None), (IA xs [] v None None).
  assert (H' : coherent (IA xs [] v None None)) by (split; [intros i V; reflexivity|split; [apply flags_false|exact I]]).
  split; [split; [intros i V; reflexivity|split; [|exact I]]|].
  { split; [intros _ i V; reflexivity|]. split; [discriminate|exact I]. }
  split; [exact H'|]. split; [reflexivity|]. split; [reflexivity|]. intros. split; [reflexivity|]. intros N1 N2.
  destruct (C42_value pts e o eg og false (IA xs [] v None None) H') as (y & E & _).
  - repeat constructor.
  - repeat constructor; discriminate.
  - intros Q; contradiction.
  - intros Q; contradiction.
  - intros [Q|[Q|[Q|[]]]]; discriminate.
  - discriminate.
  - cbn. lia.
  - rewrite E. reflexivity.
Qed.

(* ================= concrete cases ================= *)
Definition demo : iarray := IA [(2%nat, Irrep 0 Odd); (1%nat, Irrep 1 Odd)] [] (fun _ => [1; 2; 3; 4; 5]) None None.
Definition demo_even := PyFun 0 (fun t => t ^ 2 + 1).
Definition demo_odd := PyFun 1 soft_odd.
Lemma demo_coherent : coherent demo.
Proof. split; [intros i V; reflexivity|split; [apply flags_false|exact I]]. Qed.
Lemma demo_parity : parity_function soft_odd = (-1)%Z /\ honest soft_odd.
Proof.
  assert (S : exists x, In x (linspace0 10 256) /\ / 100000 <= Rabs (2 * soft_odd x)) by (exists 10; split; [apply in_linspace_10|]; pose proof soft_odd_10; rewrite Rabs_pos_eq by lra; lra).
  split; [apply (proj2 (C41_parity_of_odd soft_odd C41_soft_odd_is_odd) S)|apply C41_honest_odd; [apply C41_soft_odd_is_odd|exact S]].
Qed.
Example C41_nonvacuous pts : (exists y, scalar_activation pts None demo_even demo_odd false demo = Ok y /\ irr y = irr demo /\ arr y [] = [soft_odd 1; soft_odd 2; 3; 4; 5]) /\
  forall r, orthogonal3 r -> agree (let! y := scalar_activation pts None demo_even demo_odd false demo in transform_by_matrix y r) (let! y := transform_by_matrix demo r in scalar_activation pts None demo_even demo_odd false y).
Proof.
  destruct demo_parity as (P1 & P2). assert (A : Forall2 (admissible pts false) (irr demo) (default_acts demo_even demo_odd (irr demo))) by (apply C41_default_admissible; intros _; cbn [activate demo_odd f_ap]; rewrite P1; discriminate).
  assert (Z : Forall2 (zeros_stay pts false) (zero_flags demo) (default_acts demo_even demo_odd (irr demo))) by (repeat constructor; discriminate).
  assert (B : by_identity (default_acts demo_even demo_odd (irr demo))) by (apply default_acts_identity; discriminate).
  split.
  - destruct (C41_value pts None demo_even demo_odd false demo demo_coherent A Z B) as (y & E & E1 & E2 & E3 & E4). exists y. split; [exact E|]. split; [|rewrite E4 by (first [reflexivity|constructor]); reflexivity].
    rewrite E1. cbn [demo irr default_acts map ir_l ir_p Nat.eqb map2 combine out_entry fst snd activate demo_odd f_ap]. rewrite P1. reflexivity.
  - intros r O. apply C41_O3; auto using demo_coherent. constructor; [|constructor; [|constructor]]; intros f E; [|discriminate]. injection E as <-. intros _. exact P2.
Qed.
Example C42_nonvacuous pts : (exists y, gate clebsch_gordan pts demo_even demo_odd demo_even demo_odd false demo = Ok y /\ flat (irr y) = [Irrep 0 Odd; Irrep 1 Even] /\ arr y [] = [soft_odd 1; soft_odd 2 * 3; soft_odd 2 * 4; soft_odd 2 * 5]) /\
  forall r, orthogonal3 r -> agree (let! y := gate clebsch_gordan pts demo_even demo_odd demo_even demo_odd false demo in transform_by_matrix y r) (let! y := transform_by_matrix demo r in gate clebsch_gordan pts demo_even demo_odd demo_even demo_odd false y).
Proof.
  destruct demo_parity as (P1 & P2). assert (C : compatible demo_even demo_odd) by (intros Q; discriminate). assert (F : Forall (fun m => (0 < fst m)%nat) (irr demo)) by (repeat constructor). assert (N : no_zero_scalars demo) by (repeat constructor; discriminate).
  split.
  - destruct (C42_value pts demo_even demo_odd demo_even demo_odd false demo demo_coherent F N C C) as (y & E & E1 & E2 & E3 & E4).
    + intros _. cbn [activate demo_odd f_ap]. rewrite P1. split; discriminate.
    + discriminate.
    + cbn. lia.
    + exists y. split; [exact E|]. split; [rewrite E3; cbn [demo irr flat flat_map repeat app fst snd filter ir_l Nat.eqb negb length Nat.sub firstn skipn map map2 combine act_ir ir_p activate demo_odd f_ap]; rewrite P1; reflexivity|]. rewrite E4 by (first [reflexivity|constructor]). reflexivity.
  - intros r O. apply C42_O3; auto using demo_coherent; [|discriminate|cbn; lia]. intros _. cbn [activate demo_odd f_ap]. rewrite P1. repeat split; try discriminate; apply P2.
Qed.
Example C57_nonvacuous r : orthogonal3 r -> (exists y, norm_activation [None; Some (fun n => n)] false (IA [(1%nat, Irrep 0 Odd); (1%nat, Irrep 1 Odd)] [] (fun _ => [7; 0; 3; 4]) None None) = Ok y /\ arr y [] = [7; 0; 15; 20]) /\
  agree (let! y := soft_normalization 2 demo in transform_by_matrix y r) (let! y := transform_by_matrix demo r in soft_normalization 2 y).
Proof.
  intros O. split; [|apply C57_soft_normalization_O3; auto using demo_coherent].
  destruct (C57_norm_activation_value [None; Some (fun n => n)] false (IA [(1%nat, Irrep 0 Odd); (1%nat, Irrep 1 Odd)] [] (fun _ => [7; 0; 3; 4]) None None)) as (y & E & E1 & E2 & E3 & E4).
  - split; [intros i V; reflexivity|split; [apply flags_false|exact I]].
  - reflexivity.
  - exists y. split; [exact E|]. rewrite E4 by (first [reflexivity|constructor]). cbn [irr arr blocks mi_dim fst snd ir_dim ir_l Nat.mul Nat.add firstn skipn]. rewrite !map3_cons. cbn [concat app group_rows]. 
    assert (S : dotR [0; 3; 4] [0; 3; 4] / 1 = 5 ^ 2) by (unfold dotR, zipR; cbn; field). unfold group_rows. cbn [seq map firstn skipn Nat.mul Nat.add fst snd ir_dim ir_l]. cbv zeta. rewrite S. rewrite Rltb_true by lra. rewrite sqrt_pow2 by lra. cbn [concat map app map3 combine]. repeat f_equal; ring.
Qed.
