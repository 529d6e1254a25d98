(* Composition of the steps of the Linear modules. *)
From Coq Require Import Reals Lra Lia List Arith Bool.
From Verif Require Import PyBase PermModel PermProofs IrrepsModel IrrepsProofs IrrepsProofs2 IrrepsStr ArrayModel ArrayProofs ArrayOps RechunkProofs ArithProofs LeadModel LeadProofs BlockProofs AxisProofs StackProofs BilinProofs ActProofs EquivProofs EquivProofs2 SumR EntryProofs TPModel TPProofs TPProofs2 GradProofs LinearModel LinearProofs LinearProps LinearComplete LinModModel.
Import ListNotations.
Open Scope nat_scope.

Definition transformer := (idx -> list R) -> idx -> list R.
(* a step with its effect on the arrays; Q restricts the inputs (beyond irreps and leading shape) *)
Record stage (Q : iarray -> Prop) (x : irreps) (s : shape) (x' : irreps) (s' : shape) (op : iarray -> res iarray) (T : transformer) : Prop := {
  st_run : forall y, Q y -> coherent y -> irr y = x -> lead y = s -> yields (op y) x' s' (T (arr y));
  st_local : forall a b i, valid s' i -> (forall j, valid s j -> a j = b j) -> T a i = T b i;
  st_len : forall a i, valid s' i -> (forall j, valid s j -> length (a j) = dim x) -> length (T a i) = dim x';
  st_act : forall D, rep_ok D -> scalar_trivial D -> forall a i, valid s' i -> (forall j, valid s j -> length (a j) = dim x) -> act D x' (T a i) = T (fun j => act D x (a j)) i }.
Definition any (_ : iarray) : Prop := True.
(* the effect is linear in the array *)
Definition linear_stage (x : irreps) (s s' : shape) (T : transformer) : Prop := forall t a b i, valid s' i -> (forall j, valid s j -> length (a j) = dim x) -> (forall j, valid s j -> length (b j) = dim x) ->
  T (fun j => lin t (a j) (b j)) i = lin t (T a i) (T b i).

Lemma stage_len_run x s x' s' op T : (forall y, any y -> coherent y -> irr y = x -> lead y = s -> yields (op y) x' s' (T (arr y))) ->
  forall a i, valid s' i -> (forall j, valid s j -> length (a j) = dim x) -> length (T a i) = dim x'.
Proof.
  intros H a i Hi La. destruct (fresh_chunks x s a La) as [C _]. destruct (H (IA x s a None None) Logic.I C eq_refl eq_refl) as (z & _ & E1 & E2 & Cz & Ez). cbn [arr] in Ez. rewrite <- (Ez i Hi), <- E1. apply Cz. rewrite E2. exact Hi.
Qed.
Lemma stage_compose Q x s x1 s1 x2 s2 op1 op2 T1 T2 : stage Q x s x1 s1 op1 T1 -> stage any x1 s1 x2 s2 op2 T2 -> stage Q x s x2 s2 (fun y => let! z := op1 y in op2 z) (fun a => T2 (T1 a)).
Proof.
  intros [R1 L1 N1 A1] [R2 L2 N2 A2]. split.
  - intros y HQ Cy Ey Sy. eapply yields_bind; [apply (R1 y HQ Cy Ey Sy)|]. intros z _ Ez Sz Cz Az. eapply yields_ext; [|apply (R2 z Logic.I Cz Ez Sz)]. intros i Hi. cbv beta. apply L2; [exact Hi|exact Az].
  - intros a b i Hi E. apply L2; [exact Hi|]. intros j Hj. now apply L1.
  - intros a i Hi La. apply N2; [exact Hi|]. intros j Hj. now apply N1.
  - intros D HD HS a i Hi La. rewrite (A2 D HD HS) by (try exact Hi; intros j Hj; now apply N1). apply L2; [exact Hi|]. intros j Hj. now apply A1.
Qed.
Lemma linear_compose x s x1 s1 s2 (T1 T2 : transformer) : linear_stage x s s1 T1 -> linear_stage x1 s1 s2 T2 -> (forall a i, valid s1 i -> (forall j, valid s j -> length (a j) = dim x) -> length (T1 a i) = dim x1) -> (forall a b i, valid s2 i -> (forall j, valid s1 j -> a j = b j) -> T2 a i = T2 b i) -> linear_stage x s s2 (fun a => T2 (T1 a)).
Proof.
  intros H1 H2 N1 L2 t a b i Hi La Lb. rewrite <- H2 by (try exact Hi; intros j Hj; now apply N1). apply L2; [exact Hi|]. intros j Hj. now apply H1.
Qed.
Lemma stage_weaken (Q Q' : iarray -> Prop) x s x' s' op T : (forall y, Q' y -> Q y) -> stage Q x s x' s' op T -> stage Q' x s x' s' op T.
Proof. intros H [R1 L1 N1 A1]. split; auto. Qed.
Lemma stage_op (Q : iarray -> Prop) x s x' s' op op' T : (forall y, Q y -> irr y = x -> lead y = s -> op' y = op y) -> stage Q x s x' s' op T -> stage Q x s x' s' op' T.
Proof. intros H [R1 L1 N1 A1]. split; auto. intros y HQ Cy Ey Sy. rewrite H by assumption. auto. Qed.
Lemma stage_id x s : stage any x s x s (fun y => Ok y) (fun a => a).
Proof. split; auto. intros y _ Cy Ey Sy. exists y. auto. Qed.
(* equivariance of a step *)
Lemma stage_equivariant D Q x' s' op T a : rep_ok D -> scalar_trivial D -> coherent a -> stage Q (irr a) (lead a) x' s' op T -> Q a -> (forall b, transform D a = Ok b -> Q b) ->
  agree (let! y := op a in transform D y) (let! y := transform D a in op y).
Proof.
  intros HD HS Ca [R1 L1 N1 A1] Qa Qb. exists x', s', (fun i => T (fun j => act D (irr a) (arr a j)) i). split.
  - eapply yields_bind; [apply (R1 a Qa Ca eq_refl eq_refl)|]. intros y _ E1 E2 H E. rewrite <- E1, <- E2. eapply yields_ext; [|apply (transform_act D y H HD)]. intros i Hi. cbv beta. rewrite E2 in Hi. rewrite E1, E by exact Hi. apply A1; auto. apply Ca.
  - eapply yields_bind; [apply (transform_act D a Ca HD)|]. intros y Ey E1 E2 H E. eapply yields_ext; [|apply (R1 y (Qb y Ey) H E1 E2)]. intros i Hi. cbv beta. apply L1; [exact Hi|exact E].
Qed.

(* ---- the individual steps ---- *)
Lemma rechunk_stage x s z : simplify x = simplify z -> stage any x s z s (fun y => rechunk y z) (fun a => a).
Proof.
  intros E. split; auto.
  - intros y _ Cy Ey Sy. rewrite <- Sy. apply rechunk_yields; [exact Cy|congruence].
  - intros a i Hi La. rewrite La by exact Hi. now apply dim_of_simplify.
  - intros D HD _ a i Hi La. apply act_flat. symmetry. apply simplify_iff, E.
Qed.
Definition sort_row' (x : irreps) (row : list R) : list R := concat (map (fun k => nth k (blocks x row) []) (sort_inv_list x)).
Lemma regroup_stage x s : stage any x s (regroup_irreps x) s ia_regroup (fun a i => sort_row' x (a i)).
Proof.
  assert (Rn : forall y, any y -> coherent y -> irr y = x -> lead y = s -> yields (ia_regroup y) (regroup_irreps x) s (fun i => sort_row' x (arr y i))) by (intros y _ Cy <- <-; apply ia_regroup_yields, Cy).
  split; [exact Rn| |exact (stage_len_run x s (regroup_irreps x) s ia_regroup (fun a i => sort_row' x (a i)) Rn)|].
  - intros a b i Hi E. now rewrite E.
  - intros D HD _ a i Hi La. unfold sort_row'. rewrite <- permuted_act by (auto; apply La, Hi). apply act_flat. unfold regroup_irreps. apply flat_simplify.
Qed.
Definition has_flags (fl : list bool) (y : iarray) : Prop := zero_flags y = fl.
Definition drop_row (fl : list bool) (x : irreps) (row : list R) : list R := concat (select (map negb fl) (blocks x row)).
Lemma drop_stage fl x s : length fl = length x -> stage (has_flags fl) x s (select (map negb fl) x) s remove_zero_chunks (fun a i => drop_row fl x (a i)).
Proof.
  intros Lf. split.
  - intros y Hf Cy Ey Ly. unfold has_flags in Hf. subst. unfold drop_row. apply remove_zero_chunks_yields, Cy.
  - intros a b i Hi E. now rewrite E.
  - intros a i Hi La. unfold drop_row. pose proof (select_Forall2 _ (map negb fl) _ _ (blocks_widths x (a i) (La i Hi))) as F. revert F. generalize (select (map negb fl) x) (select (map negb fl) (blocks x (a i))). intros l bs F. clear -F. induction F as [|m b l bs H F IH]; [reflexivity|]. cbn [concat]. rewrite app_length, IH. unfold dim. cbn [map sum fold_right]. destruct m as [k ir]. unfold mi_dim in H. cbn [fst snd] in H. unfold sum. lia.
  - intros D HD _ a i Hi La. apply select_act; [exact HD|apply La, Hi].
Qed.
Lemma axis_stage x s n : stage any x (s ++ [n]) (map (fun '(mul, ir) => (n * mul, ir)) x) s (fun y => axis_to_mul y (-2)) (fun a i => blockwise (fun m => V_merge n m i) x a).
Proof.
  assert (Rn : forall y, any y -> coherent y -> irr y = x -> lead y = s ++ [n] -> yields (axis_to_mul y (-2)) (map (fun '(mul, ir) => (n * mul, ir)) x) s (fun i => blockwise (fun m => V_merge n m i) x (arr y))) by (intros y _ Cy <- Sy; now apply axis_to_mul_yields).
  assert (V : forall i k, valid s i -> In k (seq 0 n) -> valid (s ++ [n]) (i ++ [k])). { intros i k Hi Hk. apply in_seq in Hk. apply valid_app; [exact Hi|]. constructor; [lia|constructor]. }
  split; [exact Rn| |exact (stage_len_run x (s ++ [n]) _ s _ (fun a i => blockwise (fun m => V_merge n m i) x a) Rn)|].
  - intros a b i Hi E. apply (blockwise_data (valid (s ++ [n]))); [|exact E]. intros m c d Ecd. unfold V_merge. f_equal. apply map_ext_in. intros k Hk. apply Ecd, V; assumption.
  - intros D HD _ a i Hi La.
    apply (blockwise_act_commute (valid (s ++ [n])) D (fun '(mul, ir) => (n * mul, ir)) (fun m => V_merge n m i)); auto.
    + intros m b b' E. unfold V_merge. f_equal. apply map_ext_in. intros k Hk. apply E, V; assumption.
    + intros [m ir] b Hin Lb. unfold V_merge, mi_dim in *. cbn [fst snd] in *.
      assert (Fb : Forall (fun r => length r = m * ir_dim ir) (map (fun k => b (i ++ [k])) (seq 0 n))) by (apply Forall_map, Forall_forall; intros k Hk; apply Lb, V; assumption).
      split; [rewrite (concat_length_widths _ (m * ir_dim ir)) by exact Fb; rewrite map_length, seq_length; lia|].
      assert (G : forall rows : list (list R), Forall (fun r => length r = m * ir_dim ir) rows -> act1 D (length rows * m, ir) (concat rows) = concat (map (act1 D (m, ir)) rows)).
      { induction 1 as [|r rows Hr F IH]; [reflexivity|]. cbn [concat length map]. rewrite <- IH. unfold act1, act. rewrite !flat_cons. change (flat []) with (@nil irrep). rewrite !app_nil_r.
        change (S (length rows) * m) with (m + length rows * m). rewrite repeat_app, acts_app, dims_repeat. rewrite firstn_length_app, skipn_length_app by exact Hr. reflexivity. }
      specialize (G _ Fb). rewrite map_length, seq_length, map_map in G. exact G.
Qed.
Lemma split_stage x s c : c <> 0 -> Forall (fun m => fst m mod c = 0) x -> stage any x s (map (fun '(mul, ir) => (mul / c, ir)) x) (s ++ [c]) (fun y => mul_to_axis y (Some c) (-2)) (fun a i => blockwise (fun m => V_split c m i) x a).
Proof.
  intros Hf Hd. assert (Rn : forall y, any y -> coherent y -> irr y = x -> lead y = s -> yields (mul_to_axis y (Some c) (-2)) (map (fun '(mul, ir) => (mul / c, ir)) x) (s ++ [c]) (fun i => blockwise (fun m => V_split c m i) x (arr y))) by (intros y _ Cy <- <-; now apply mul_to_axis_yields).
  split; [exact Rn| |exact (stage_len_run x s _ (s ++ [c]) _ (fun a i => blockwise (fun m => V_split c m i) x a) Rn)|].
  - intros a b i Hi E. apply valid_snoc_inv in Hi as (j & k & -> & Hj & Hk). apply (blockwise_data (valid s)); [|exact E]. intros m u d Ecd. unfold V_split. rewrite removelast_app1, Ecd by exact Hj. reflexivity.
  - intros D HD _ a i Hi La. apply valid_snoc_inv in Hi as (j & k & -> & Hj & Hk).
    apply (blockwise_act_commute (valid s) D (fun '(mul, ir) => (mul / c, ir)) (fun m => V_split c m (j ++ [k]))); auto.
    + intros m b b' E. unfold V_split. rewrite removelast_app1, E by exact Hj. reflexivity.
    + intros [m ir] b Hin Lb. rewrite Forall_forall in Hd. specialize (Hd _ Hin). cbn [fst] in Hd. specialize (Lb j Hj). unfold V_split, mi_dim in *. cbn [fst snd] in *.
      rewrite removelast_app1, last_app1. destruct (group_rows_ok m (ir_dim ir) (b j) Lb) as [F C].
      assert (Em : m = c * (m / c)) by (apply Nat.div_exact; assumption). set (q := m / c) in *.
      assert (Lp : length (part (q * ir_dim ir) k (b j)) = q * ir_dim ir). { unfold part. rewrite firstn_length, skipn_length, Lb. nia. }
      split; [exact Lp|]. rewrite !act1_rows.
      assert (Pc : forall rows : list (list R), Forall (fun r => length r = ir_dim ir) rows -> part (q * ir_dim ir) k (concat rows) = concat (firstn q (skipn (k * q) rows))).
      { intros rows Fr. unfold part. rewrite Nat.mul_assoc, <- (concat_skipn_rows _ (ir_dim ir)) by exact Fr. symmetry. apply concat_firstn_rows. apply Forall_skipn, Fr. }
      rewrite (Pc _ (rows_mv D ir _ HD)). f_equal. rewrite <- C at 1. rewrite (Pc _ F). rewrite group_rows_concat.
      * rewrite <- firstn_map, <- skipn_map. reflexivity.
      * rewrite firstn_length, skipn_length, group_rows_length. nia.
      * apply Forall_firstn, Forall_skipn, F.
Qed.
Lemma broadcast_stage x s s' : broadcast_shapes s s' = Ok s' -> stage any x s x s' (fun y => broadcast_to y s') (fun a i => a (bidx s i)).
Proof.
  intros E. assert (V : forall i, valid s' i -> valid s (bidx s i)) by (intros i Hi; apply (broadcast_valid _ _ _ _ E Hi)). split.
  - intros y _ Cy <- Sy. rewrite <- Sy in *. now apply broadcast_to_yields.
  - intros a b i Hi Q. apply Q, V, Hi.
  - intros a i Hi La. apply La, V, Hi.
  - intros D _ _ a i Hi La. reflexivity.
Qed.
(* the layer with weights that depend on the row *)
Definition layer_row (x y : irreps) (ins : list linstr) (W : idx -> list (list R)) : transformer := fun a i => rowof y (layer_entry ins (W i) (entry x (a i))).
Lemma layer_stage x y instr b pn gn L s (W : list (idx -> list R)) : functional_linear x y instr b pn gn = Ok L -> connects_equal x y instr ->
  Forall2 (fun o w => forall i, valid s i -> length (w i) = nprod (li_shape o)) (fl_ins L) W ->
  stage any x s y s (linear_call L W) (layer_row x y (fl_ins L) (fun i => map (fun w => w i) W)).
Proof.
  intros E C HW. pose proof (constructor_ok _ _ _ _ _ _ _ E C) as Hins. destruct (constructor_shape _ _ _ _ _ _ _ E) as (bs & _ & Ex & Ey & _). split.
  - intros z _ Cz Ez Sz. unfold layer_row. rewrite <- Ey, <- Sz. eapply yields_ext; [|apply linear_call_yields; [exact Cz|rewrite Ex, Ez; reflexivity|rewrite Ex, Ey; apply ins_ok_dim_all, Hins|rewrite Sz; exact HW]]. intros i Hi. cbv beta. now rewrite Ex.
  - intros a c i Hi Q. unfold layer_row. now rewrite Q.
  - intros a i Hi La. apply rowof_length.
  - intros D HD HS a i Hi La. unfold layer_row. apply layer_act; auto.
Qed.
(* ---- linearity of the steps ---- *)
Lemma lin_app t a1 a2 b1 b2 : length a1 = length b1 -> lin t (a1 ++ a2) (b1 ++ b2) = lin t a1 b1 ++ lin t a2 b2.
Proof. unfold lin, zipR. revert b1. induction a1 as [|r a1 IH]; intros [|q b1] E; try discriminate; [reflexivity|]. injection E as E. cbn [app map combine]. now rewrite IH. Qed.
Lemma lin_firstn t n a b : firstn n (lin t a b) = lin t (firstn n a) (firstn n b).
Proof. unfold lin, zipR. revert a b. induction n as [|n IH]; intros [|r a] [|q b]; try reflexivity. cbn [map combine firstn]. now rewrite IH. Qed.
Lemma lin_skipn t n a b : length a = length b -> skipn n (lin t a b) = lin t (skipn n a) (skipn n b).
Proof. unfold lin, zipR. revert a b. induction n as [|n IH]; intros [|r a] [|q b] E; try discriminate; try reflexivity. injection E as E. cbn [map combine skipn]. now apply IH. Qed.
Lemma lin_len t a b : length a = length b -> length (lin t a b) = length a.
Proof. intros E. unfold lin, zipR. rewrite map_length, combine_length, map_length. lia. Qed.
Lemma blocks_lin t x : forall a b, length a = length b -> blocks x (lin t a b) = map2 (lin t) (blocks x a) (blocks x b).
Proof. induction x as [|m x IH]; intros a b E; [reflexivity|]. cbn [blocks]. rewrite map2_cons, lin_firstn, lin_skipn by exact E. rewrite IH; [reflexivity|]. rewrite !skipn_length. lia. Qed.
Lemma concat_lin t A B : Forall2 (fun a b : list R => length a = length b) A B -> concat (map2 (lin t) A B) = lin t (concat A) (concat B).
Proof. induction 1 as [|a b A B E F IH]; [reflexivity|]. rewrite map2_cons. cbn [concat]. rewrite IH. symmetry. now apply lin_app. Qed.
Lemma blocks_alike x : forall a b : list R, length a = length b -> Forall2 (fun a b => length a = length b) (blocks x a) (blocks x b).
Proof. induction x as [|m x IH]; intros a b E; cbn [blocks]; constructor; [rewrite !firstn_length; lia|]. apply IH. rewrite !skipn_length. lia. Qed.
Lemma sort_row_lin t x a b : length a = length b -> sort_row' x (lin t a b) = lin t (sort_row' x a) (sort_row' x b).
Proof.
  intros E. unfold sort_row'. rewrite blocks_lin by exact E. assert (B : forall k, In k (sort_inv_list x) -> k < length x).
  { intros k Hk. pose proof (sort_inv_perm x) as P. apply is_perm_iff in P. rewrite sort_inv_length in P. apply (Permutation.Permutation_in _ P) in Hk. apply in_seq in Hk. lia. }
  revert B. generalize (sort_inv_list x) as l. induction l as [|k l IH]; intros B; [reflexivity|]. cbn [map concat]. rewrite IH by (intros q Hq; apply B; now right). assert (Hk : k < length x) by (apply B; now left).
  rewrite (nth_map2 (lin t) _ _ k [] []) by (rewrite ?blocks_length; auto). symmetry. apply lin_app. pose proof (blocks_alike x a b E) as F. revert F Hk. rewrite <- (blocks_length x a) at 1. generalize (blocks x a) (blocks x b). clear. intros A B F. revert k. induction F; intros [|k] Hk; cbn in *; try lia; auto. apply IHF. lia.
Qed.
Lemma drop_row_lin t fl x a b : length a = length b -> drop_row fl x (lin t a b) = lin t (drop_row fl x a) (drop_row fl x b).
Proof.
  intros E. unfold drop_row. rewrite blocks_lin by exact E. rewrite select_map2 by (rewrite !blocks_length; reflexivity). apply concat_lin, select_Forall2, blocks_alike, E.
Qed.
Lemma blockwise_lin t (Q : idx -> Prop) (V : mulirrep -> (idx -> list R) -> list R) (w : mulirrep -> nat) :
  (forall m a b, (forall j, Q j -> length (a j) = mi_dim m) -> (forall j, Q j -> length (b j) = mi_dim m) -> length (V m a) = w m /\ V m (fun j => lin t (a j) (b j)) = lin t (V m a) (V m b)) ->
  (forall m (a b : idx -> list R), (forall j, Q j -> a j = b j) -> V m a = V m b) ->
  forall x a b, (forall j, Q j -> length (a j) = dim x) -> (forall j, Q j -> length (b j) = dim x) -> blockwise V x (fun j => lin t (a j) (b j)) = lin t (blockwise V x a) (blockwise V x b).
Proof.
  intros H He. induction x as [|m x IH]; intros a b La Lb; [reflexivity|]. cbn [blockwise].
  assert (dm : dim (m :: x) = mi_dim m + dim x) by (unfold dim; cbn [map sum fold_right]; destruct m; reflexivity). rewrite dm in La, Lb.
  assert (La1 : forall j, Q j -> length (firstn (mi_dim m) (a j)) = mi_dim m) by (intros j Hj; rewrite firstn_length, La by exact Hj; lia). assert (Lb1 : forall j, Q j -> length (firstn (mi_dim m) (b j)) = mi_dim m) by (intros j Hj; rewrite firstn_length, Lb by exact Hj; lia).
  destruct (H m _ _ La1 Lb1) as [W1 E1]. destruct (H m _ _ Lb1 Lb1) as [W2 _]. rewrite lin_app by congruence. f_equal.
  - rewrite <- E1. apply He. intros j Hj. apply lin_firstn.
  - rewrite <- IH by (intros j Hj; rewrite skipn_length, ?La, ?Lb by exact Hj; lia).
    assert (G : forall x (a b : idx -> list R), (forall j, Q j -> a j = b j) -> blockwise V x a = blockwise V x b). { clear -He. induction x as [|m x IH]; intros a b E; [reflexivity|]. cbn [blockwise]. f_equal; [apply He; intros j Hj; now rewrite E|apply IH; intros j Hj; now rewrite E]. }
    apply G. intros j Hj. apply lin_skipn. rewrite La, Lb by exact Hj. reflexivity.
Qed.
Lemma regroup_linear x s : linear_stage x s s (fun a i => sort_row' x (a i)).
Proof. intros t a b i Hi La Lb. apply sort_row_lin. rewrite La, Lb by exact Hi. reflexivity. Qed.
Lemma drop_linear fl x s : linear_stage x s s (fun a i => drop_row fl x (a i)).
Proof. intros t a b i Hi La Lb. apply drop_row_lin. rewrite La, Lb by exact Hi. reflexivity. Qed.
Lemma axis_linear x s n : linear_stage x (s ++ [n]) s (fun a i => blockwise (fun m => V_merge n m i) x a).
Proof.
  intros t a b i Hi La Lb. assert (V : forall k, In k (seq 0 n) -> valid (s ++ [n]) (i ++ [k])). { intros k Hk. apply in_seq in Hk. apply valid_app; [exact Hi|]. constructor; [lia|constructor]. }
  apply (blockwise_lin t (valid (s ++ [n])) (fun m => V_merge n m i) (fun m => n * mi_dim m)); auto.
  - intros m c d Lc Ld. unfold V_merge. split.
    + rewrite (concat_length_uniform (mi_dim m)); [rewrite map_length, seq_length; reflexivity|]. apply Forall_map, Forall_forall. intros k Hk. apply Lc, V, Hk.
    + revert V. generalize (seq 0 n) as l. clear -Lc Ld. induction l as [|k l IH]; intros V; [reflexivity|]. cbn [map concat]. rewrite IH by (intros q Hq; apply V; now right). symmetry. apply lin_app. rewrite Lc, Ld by (apply V; now left). reflexivity.
  - intros m c d E. unfold V_merge. f_equal. apply map_ext_in. intros k Hk. apply E, V, Hk.
Qed.
Lemma split_linear x s c : Forall (fun m => fst m mod c = 0) x -> c <> 0 -> linear_stage x s (s ++ [c]) (fun a i => blockwise (fun m => V_split c m i) x a).
Proof.
  intros Hd Hc t a b i Hi La Lb. apply valid_snoc_inv in Hi as (j & k & -> & Hj & Hk).
  assert (G : forall x a b, (forall j, valid s j -> length (a j) = dim x) -> (forall j, valid s j -> length (b j) = dim x) -> Forall (fun m => fst m mod c = 0) x -> blockwise (fun m => V_split c m (j ++ [k])) x (fun j => lin t (a j) (b j)) = lin t (blockwise (fun m => V_split c m (j ++ [k])) x a) (blockwise (fun m => V_split c m (j ++ [k])) x b)).
  2: apply G; assumption.
  clear -Hj Hk Hc. induction x as [|m x IH]; intros a b La Lb Hd; [reflexivity|]. inversion Hd as [|? ? Hm Hx]; subst. cbn [blockwise].
  assert (dm : dim (m :: x) = mi_dim m + dim x) by (unfold dim; cbn [map sum fold_right]; destruct m; reflexivity). rewrite dm in La, Lb. rewrite lin_app.
  - f_equal.
    + unfold V_split, part. rewrite removelast_app1. rewrite lin_firstn, lin_skipn, lin_firstn; [reflexivity|]. rewrite !firstn_length, La, Lb by exact Hj. reflexivity.
    + rewrite <- IH; [|intros q Hq; rewrite skipn_length, La by exact Hq; lia|intros q Hq; rewrite skipn_length, Lb by exact Hq; lia|exact Hx].
      apply (blockwise_data (valid s)); [|intros q Hq; apply lin_skipn; rewrite La, Lb by exact Hq; reflexivity]. intros m' u d E. unfold V_split. rewrite removelast_app1, E by exact Hj. reflexivity.
  - unfold V_split, part. rewrite removelast_app1, !firstn_length, !skipn_length, !firstn_length, La, Lb by exact Hj. reflexivity.
Qed.
Lemma broadcast_linear x s s' : broadcast_shapes s s' = Ok s' -> linear_stage x s s' (fun a i => a (bidx s i)).
Proof. intros E t a b i Hi La Lb. reflexivity. Qed.
Lemma layer_linear x y ins W s : Forall (ins_ok eq x y) ins -> Forall (fun o => li_in o <> None) ins -> (forall i, valid s i -> length (W i) = length ins) -> linear_stage x s s (layer_row x y ins W).
Proof.
  intros Hins Nb HW t a b i Hi La Lb. unfold layer_row. rewrite <- rowof_lin. apply rowof_ext. intros j v c Hin. unfold layer_entry. rewrite <- lsum_scal, <- lsum_plus. apply lsum_ext. intros [o w] How. apply in_combine_l in How.
  rewrite Forall_forall in Hins, Nb. destruct (Hins o How) as (mo & ir & Ej & Ho). specialize (Nb o How). destruct (Nat.eqb_spec (li_out o) j) as [<-|]; [|ring]. unfold path_entry. destruct (li_in o) as [k|] eqn:Ek; [|congruence]. destruct Ho as (mi & ia & Ex & -> & Sh). rewrite Sh. cbn [nth].
  destruct Hin as (mo' & ir' & Ej' & Hv & Hc). assert (Em : mo' = mo /\ ir' = ir) by (split; congruence). destruct Em as [-> ->].
  rewrite (rsum_ext mi (fun u => (nth (u * mo + v) w 0 * entry x (lin t (a i) (b i)) k u c)%R) (fun u => (t * (nth (u * mo + v) w 0 * entry x (a i) k u c) + nth (u * mo + v) w 0 * entry x (b i) k u c)%R)).
  - rewrite rsum_plus, rsum_scal. ring.
  - intros u Hu. rewrite LinearComplete.entry_lin by (try (apply La || apply Lb; exact Hi); exists mi, ir; auto). ring.
Qed.
