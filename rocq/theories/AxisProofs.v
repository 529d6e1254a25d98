(* mul_to_axis, axis_to_mul, axis_to_irreps on the default axis -2, and their inverses. *)
From Coq Require Import Reals Lra.
From Verif Require Import PyBase PermModel PermProofs IrrepsModel IrrepsProofs IrrepsProofs2 ArrayModel ArrayProofs ArrayOps RechunkProofs SliceProofs ArithProofs LeadModel LeadProofs BlockProofs.
Open Scope nat_scope.

Lemma standard_axis_m2 n : standard_axis (-2) (S (S n)) = Ok n.
Proof.
  unfold standard_axis. destruct (Z.leb_spec (- Z.of_nat (S (S n))) (-2)); [|lia]. destruct (Z.ltb_spec (-2) (Z.of_nat (S (S n)))); [|lia]. cbn [andb]. f_equal.
  rewrite <- (Z.mod_unique (-2) (Z.of_nat (S (S n))) (-1) (Z.of_nat n)); lia.
Qed.
Lemma insert_at_end {A} (a : A) l : insert_at (length l) a l = l ++ [a].
Proof. unfold insert_at. rewrite firstn_all, skipn_all. reflexivity. Qed.
Lemma remove_at_end {A} (a : A) l : remove_at (length l) (l ++ [a]) = l.
Proof. unfold remove_at. rewrite firstn_app, firstn_all, Nat.sub_diag, skipn_all2; [cbn; rewrite !app_nil_r; reflexivity|rewrite app_length; cbn; lia]. Qed.
Lemma nth_end {A} (a d : A) l : nth (length l) (l ++ [a]) d = a.
Proof. rewrite app_nth2, Nat.sub_diag by lia. reflexivity. Qed.

Lemma concat_firstn_rows {A} (rows : list (list A)) d k : Forall (fun r => length r = d) rows -> concat (firstn k rows) = firstn (k * d) (concat rows).
Proof.
  intros H. revert k. induction H as [|r rows Hr H IH]; intros k; [rewrite !firstn_nil; reflexivity|]. destruct k; [reflexivity|]. cbn [firstn concat]. rewrite IH.
  rewrite firstn_app, Hr. replace (S k * d - d) with (k * d) by lia. f_equal. symmetry. apply firstn_all2. lia.
Qed.
Lemma concat_skipn_rows {A} (rows : list (list A)) d k : Forall (fun r => length r = d) rows -> concat (skipn k rows) = skipn (k * d) (concat rows).
Proof.
  intros H. revert k. induction H as [|r rows Hr H IH]; intros k; [rewrite !skipn_nil; reflexivity|]. destruct k; [reflexivity|]. cbn [skipn concat]. rewrite IH.
  rewrite skipn_app, Hr. replace (S k * d - d) with (k * d) by lia. rewrite (skipn_all2 r) by lia. reflexivity.
Qed.

Lemma skipn_In {A} k (l : list A) a : In a (skipn k l) -> In a l.
Proof. intros H. rewrite <- (firstn_skipn k l). apply in_or_app. right. exact H. Qed.
Lemma firstn_In {A} k (l : list A) a : In a (firstn k l) -> In a l.
Proof. intros H. rewrite <- (firstn_skipn k l). apply in_or_app. left. exact H. Qed.

(* the part f of a block cut in n equal parts of width w *)
Definition part {A} (w f : nat) (row : list A) : list A := firstn w (skipn (f * w) row).

Definition V_split (factor : nat) (m : mulirrep) (i : idx) (a : idx -> list R) : list R :=
  part (fst m / factor * ir_dim (snd m)) (last i 0) (a (removelast i)).

Lemma mul_to_axis_yields x factor : coherent x -> factor <> 0 -> Forall (fun m => fst m mod factor = 0) (irr x) ->
  yields (mul_to_axis x (Some factor) (-2)) (map (fun '(mul, ir) => (mul / factor, ir)) (irr x)) (lead x ++ [factor])
    (fun i => blockwise (fun m => V_split factor m i) (irr x) (arr x)).
Proof.
  intros H Hf Hd. unfold mul_to_axis. rewrite standard_axis_m2. cbn [bind].
  destruct (Nat.eqb_spec factor 0); [contradiction|]. cbn [andb].
  replace (forallb (fun '(mul, _) => mul mod factor =? 0) (irr x)) with true.
  2:{ symmetry. apply forallb_forall. intros [mul ir] Hin. rewrite Forall_forall in Hd. specialize (Hd _ Hin). cbn in Hd. apply Nat.eqb_eq, Hd. }
  cbn [negb].
  set (F := fun (m : mulirrep) (c : chunk) => mul_axis_chunk factor (length (lead x)) (length (lead x)) (fst m / factor) c).
  eapply (chunkwise_yields (lead x) (lead x ++ [factor]) (fun '(mul, ir) => (mul / factor, ir)) F (V_split factor) (fun m => fst m mod factor = 0)); auto.
  - intros [mul ir] c Hm W. pose proof W as (W1 & W2 & W3 & W4). cbn [fst snd] in *. unfold F, mul_axis_chunk. rewrite Nat.leb_refl. cbn [fst].
    assert (Ev : forall i, valid (lead x ++ [factor]) i -> exists j f, i = j ++ [f] /\ valid (lead x) j /\ f < factor).
    { intros i Hi. apply valid_app_inv in Hi as (j & q & -> & Hj & Hq). inversion Hq as [|f ? q' ? Hfq Hq']; subst. inversion Hq'; subst. eauto. }
    assert (Em : mul = factor * (mul / factor)) by (apply Nat.div_exact; assumption).
    split.
    + unfold wf_chunk. cbn [c_lead c_mul c_dim c_val fst snd]. rewrite W1, insert_at_end. split; [reflexivity|]. split; [reflexivity|]. split; [exact W3|].
      intros i Hi. destruct (Ev i Hi) as (j & f & -> & Hj & Hlt). rewrite <- (valid_length _ _ Hj), remove_at_end, nth_end.
      destruct (W4 j Hj) as [L Fw]. unfold take_rows. split.
      * rewrite firstn_length, skipn_length, L. nia.
      * rewrite Forall_forall in *. intros r Hr. apply Fw. eapply skipn_In, firstn_In, Hr.
    + intros i Hi. destruct (Ev i Hi) as (j & f & -> & Hj & Hlt). cbn [c_val]. rewrite <- (valid_length _ _ Hj), remove_at_end, nth_end.
      unfold take_rows, V_split, part. cbn [fst snd]. rewrite last_app1, removelast_app1. destruct (W4 j Hj) as [L Fw].
      rewrite (concat_firstn_rows _ (ir_dim ir)), (concat_skipn_rows _ (ir_dim ir)) by (try exact Fw; rewrite Forall_forall in *; intros r Hr; apply Fw; eapply skipn_In, Hr).
      rewrite Nat.mul_assoc. reflexivity.
  - intros [mul ir] i Hm Hi. unfold V_split, part, zero_row. cbn [fst snd]. unfold mi_dim at 1. cbn [fst snd] in *.
    apply valid_app_inv in Hi as (j & q & -> & Hj & Hq). inversion Hq as [|f ? q' ? Hfq Hq']; subst. inversion Hq'; subst. rewrite last_app1.
    assert (Em : mul = factor * (mul / factor)) by (apply Nat.div_exact; assumption).
    assert (Es : mul * ir_dim ir = f * (mul / factor * ir_dim ir) + (mul / factor * ir_dim ir + (factor - f - 1) * (mul / factor * ir_dim ir))).
    { rewrite Em at 1. set (q := mul / factor). replace factor with (f + (1 + (factor - f - 1))) at 1 by lia. ring. }
    rewrite Es, skipn_repeat, firstn_repeat. unfold mi_dim. reflexivity.
  - intros m i a b _ Hi E. unfold V_split. apply valid_app_inv in Hi as (j & q & -> & Hj & Hq). inversion Hq as [|f ? q' ? Hfq Hq']; subst. inversion Hq'; subst.
    rewrite removelast_app1, E by exact Hj. reflexivity.
  - f_equal. unfold F. generalize (chunks x). generalize (irr x). intros l0. induction l0 as [|[mul ir] l IH]; intros [|c cs]; try reflexivity. cbn [map combine]. rewrite IH. reflexivity.
Qed.
Lemma mul_to_axis_rejects x factor axis : (-(Z.of_nat (length (lead x)) + 2) <= axis < Z.of_nat (length (lead x)) + 2)%Z -> factor <> 0 ->
  Exists (fun m => fst m mod factor <> 0) (irr x) -> mul_to_axis x (Some factor) axis = Err ValueError.
Proof.
  intros Ha Hf He. unfold mul_to_axis, standard_axis. 
  destruct (Z.leb_spec (- Z.of_nat (S (S (length (lead x))))) axis); [|lia]. destruct (Z.ltb_spec axis (Z.of_nat (S (S (length (lead x)))))); [|lia]. cbn [andb bind].
  destruct (Nat.eqb_spec factor 0); [contradiction|]. cbn [andb].
  replace (forallb (fun '(mul, _) => mul mod factor =? 0) (irr x)) with false; [reflexivity|]. symmetry. apply not_true_iff_false. rewrite forallb_forall. intros Q.
  apply Exists_exists in He as ([mul ir] & Hin & He). specialize (Q _ Hin). cbn in *. apply Nat.eqb_eq in Q. contradiction.
Qed.

(* ---------- axis_to_mul ---------- *)
Definition V_merge (n : nat) (m : mulirrep) (i : idx) (a : idx -> list R) : list R := concat (map (fun k => a (i ++ [k])) (seq 0 n)).

Lemma move_last_end {A} (l : list A) a : insert_at (length l) a l = l ++ [a].
Proof. apply insert_at_end. Qed.
Lemma unravel_merge t n m i u : valid t i -> u < n * m ->
  unravel ((t ++ [n]) ++ [m]) (ravel (t ++ [n * m]) (i ++ [u])) = (i ++ [u / m]) ++ [u mod m].
Proof.
  intros Hi Hu. assert (m <> 0) by (intros ->; lia).
  assert (V : valid ((t ++ [n]) ++ [m]) ((i ++ [u / m]) ++ [u mod m])).
  { apply valid_app; [apply valid_app; [exact Hi|]|]; (constructor; [|constructor]); [apply Nat.div_lt_upper_bound; lia|apply Nat.mod_upper_bound; lia]. }
  rewrite <- (unravel_ravel _ _ V). f_equal. rewrite <- !app_assoc. cbn [app]. rewrite !ravel_app by exact Hi. unfold prod. cbn [ravel fold_right prod]. 
  pose proof (Nat.div_mod u m). nia.
Qed.
Lemma axis_to_mul_yields x s n : coherent x -> lead x = s ++ [n] ->
  yields (axis_to_mul x (-2)) (map (fun '(mul, ir) => (n * mul, ir)) (irr x)) s (fun i => blockwise (fun m => V_merge n m i) (irr x) (arr x)).
Proof.
  intros H El. unfold axis_to_mul. destruct (lead x) as [|d0 s0] eqn:E0; [destruct s; discriminate|]. rewrite <- E0 in *. clear E0 d0 s0.
  assert (Ln : length (lead x) = S (length s)) by (rewrite El, app_length; cbn; lia). rewrite Ln, standard_axis_m2. cbn [bind].
  replace (length s =? S (length s)) with false by (symmetry; apply Nat.eqb_neq; lia). rewrite El, removelast_app1, last_app1.
  set (F := fun (m : mulirrep) (c : chunk) => axis_mul_chunk (length s) s (n * fst m) c).
  eapply (chunkwise_yields (lead x) s (fun '(mul, ir) => (n * mul, ir)) F (V_merge n) (fun _ => True)); auto.
  - intros [mul ir] c _ W. pose proof W as (W1 & W2 & W3 & W4). cbn [fst snd] in *. unfold F, axis_mul_chunk. cbn [fst].
    assert (Et : move_last_shape (length s) (c_lead c) = s ++ [n]).
    { unfold move_last_shape. rewrite W1, El, remove_at_end, nth_end. reflexivity. }
    rewrite Et, W2.
    assert (Ev : forall i u, valid s i -> u < n * mul ->
       let j := unravel ((s ++ [n]) ++ [mul]) (ravel (s ++ [n * mul]) (i ++ [u])) in
       nth (last j 0) (c_val c (move_last_idx (length s) (removelast j))) [] = nth (u mod mul) (c_val c (i ++ [u / mul])) []).
    { intros i u Hi Hu j. unfold j. rewrite unravel_merge by assumption. rewrite last_app1, removelast_app1. unfold move_last_idx. rewrite last_app1, removelast_app1.
      rewrite <- (valid_length _ _ Hi), insert_at_end. reflexivity. }
    assert (Vk : forall i k, valid s i -> k < n -> valid (lead x) (i ++ [k])) by (intros; rewrite El; apply valid_app; [assumption|constructor; [assumption|constructor]]).
    assert (Ec : forall i, valid s i -> map (fun u => let j := unravel ((s ++ [n]) ++ [mul]) (ravel (s ++ [n * mul]) (i ++ [u])) in
       nth (last j 0) (c_val c (move_last_idx (length s) (removelast j))) []) (seq 0 (n * mul)) = concat (map (fun k => c_val c (i ++ [k])) (seq 0 n))).
    { intros i Hi. rewrite (map_ext_in _ (fun u => nth (u mod mul) (c_val c (i ++ [u / mul])) [])) by (intros u Hu; apply in_seq in Hu; apply Ev; [exact Hi|lia]).
      clear Ev. assert (G : forall k0 nn, k0 + nn <= n -> map (fun u => nth (u mod mul) (c_val c (i ++ [u / mul])) []) (seq (k0 * mul) (nn * mul)) = concat (map (fun k => c_val c (i ++ [k])) (seq k0 nn))).
      { intros k0 nn. revert k0. induction nn as [|nn IH]; intros k0 Hk; [reflexivity|]. cbn [seq map concat]. rewrite <- IH by lia. change (S nn * mul) with (mul + nn * mul). rewrite seq_app, map_app.
        f_equal; [|f_equal; f_equal; lia].
        destruct (W4 (i ++ [k0])) as [L Fw]; [apply Vk; [exact Hi|lia]|]. rewrite <- (map_nth_seq (c_val c (i ++ [k0])) []) at 1. rewrite L.
        rewrite <- (Nat.add_0_r (k0 * mul)) at 1.
        replace (seq (k0 * mul + 0) mul) with (map (fun u => k0 * mul + u) (seq 0 mul)).
        2:{ clear. generalize 0 as b. induction mul as [|q IHq] in k0 |- *; intros b. 1: reflexivity. 
            generalize (k0 * S q) as t. intros t. revert b. generalize (S q) as r. induction r as [|r IHr]; intros b; [reflexivity|]. cbn. f_equal. rewrite IHr. f_equal. lia. }
        rewrite map_map. apply map_ext_in. intros u Hu. apply in_seq in Hu.
        replace ((k0 * mul + u) mod mul) with u by (rewrite Nat.add_comm, Nat.mod_add by lia; symmetry; apply Nat.mod_small; lia).
        replace ((k0 * mul + u) / mul) with k0 by (rewrite Nat.add_comm, Nat.div_add by lia; rewrite Nat.div_small by lia; lia). reflexivity. }
      apply (G 0 n). lia. }
    split.
    + unfold wf_chunk. cbn [c_lead c_mul c_dim c_val fst snd]. split; [reflexivity|]. split; [reflexivity|]. split; [exact W3|].
      intros i Hi. rewrite map_length, seq_length. split; [reflexivity|]. rewrite Ec by exact Hi. apply Forall_concat, Forall_map, Forall_forall. intros k Hk. apply in_seq in Hk.
      apply W4. apply Vk; [exact Hi|lia].
    + intros i Hi. cbn [c_val]. rewrite Ec by exact Hi. unfold V_merge.
      generalize (seq 0 n). intros l. induction l as [|k l IH]; [reflexivity|]. cbn [map concat]. rewrite concat_app, IH. reflexivity.
  - intros [mul ir] i _ Hi. unfold V_merge, mi_dim, zero_row. cbn [fst snd]. clear. generalize 0. induction n as [|n IH]; intros b; [reflexivity|]. cbn [seq map concat].
    rewrite IH, <- repeat_app. f_equal. lia.
  - intros m i a b _ Hi E. unfold V_merge. f_equal. apply map_ext_in. intros k Hk. apply in_seq in Hk. apply E. rewrite El. apply valid_app; [exact Hi|]. constructor; [lia|constructor].
  - apply Forall_forall. auto.
  - f_equal. unfold F. generalize (chunks x). generalize (irr x). intros l0. induction l0 as [|[mul ir] l IH]; intros [|c cs]; try reflexivity. cbn [map combine]. rewrite IH. reflexivity.
Qed.

(* ---------- composing block by block operations ---------- *)
Lemma blockwise_ext {I} (Q : I -> Prop) (V V' : mulirrep -> (I -> list R) -> list R) : forall x a,
  (forall j, Q j -> length (a j) = dim x) ->
  (forall m b, In m x -> (forall j, Q j -> length (b j) = mi_dim m) -> V m b = V' m b) -> blockwise V x a = blockwise V' x a.
Proof.
  induction x as [|m x IH]; intros a L H; [reflexivity|]. cbn [blockwise]. f_equal.
  - apply H; [left; reflexivity|]. intros j Hj. rewrite firstn_length, L by exact Hj. rewrite dim_cons. lia.
  - apply IH; [|intros; apply H; [right; assumption|assumption]]. intros j Hj. rewrite skipn_length, L by exact Hj. rewrite dim_cons. lia.
Qed.
Lemma blockwise_id {I} (i : I) : forall x a, length (a i) = dim x -> blockwise (fun _ b => b i) x a = a i.
Proof.
  induction x as [|m x IH]; intros a L; [destruct (a i); [reflexivity|discriminate]|]. cbn [blockwise]. rewrite dim_cons in L.
  rewrite IH by (rewrite skipn_length; lia). apply firstn_skipn.
Qed.
Lemma blockwise_data {I} (Q : I -> Prop) (V : mulirrep -> (I -> list R) -> list R) : forall x a b, 
  (forall m c d, (forall j, Q j -> c j = d j) -> V m c = V m d) -> (forall j, Q j -> a j = b j) -> blockwise V x a = blockwise V x b.
Proof.
  induction x as [|m x IH]; intros a b He H; [reflexivity|]. cbn [blockwise]. f_equal; [apply He|apply IH; [exact He|]]; intros j Hj; rewrite H by exact Hj; reflexivity.
Qed.
Lemma blockwise_length {I} (G : mulirrep -> mulirrep) (V : mulirrep -> (I -> list R) -> list R) (Q : I -> Prop) : forall x a,
  (forall j, Q j -> length (a j) = dim x) -> (forall m b, In m x -> (forall j, Q j -> length (b j) = mi_dim m) -> length (V m b) = mi_dim (G m)) ->
  length (blockwise V x a) = dim (map G x).
Proof.
  induction x as [|m x IH]; intros a L H; [reflexivity|]. cbn [blockwise map]. rewrite app_length, dim_cons, IH, H; auto.
  - left; reflexivity.
  - intros j Hj. rewrite firstn_length, L by exact Hj. rewrite dim_cons. lia.
  - intros j Hj. rewrite skipn_length, L by exact Hj. rewrite dim_cons. lia.
  - intros; apply H; [right; assumption|assumption].
Qed.
Lemma blockwise_comp {I J} (G : mulirrep -> mulirrep) (V : mulirrep -> J -> (I -> list R) -> list R) (U : mulirrep -> (J -> list R) -> list R) (Q : I -> Prop) (P : J -> Prop) :
  forall x a,
  (forall i, Q i -> length (a i) = dim x) ->
  (forall m b j, In m x -> P j -> (forall i, Q i -> length (b i) = mi_dim m) -> length (V m j b) = mi_dim (G m)) ->
  (forall m c d, (forall j, P j -> c j = d j) -> U m c = U m d) ->
  blockwise U (map G x) (fun j => blockwise (fun m => V m j) x a) = blockwise (fun m b => U (G m) (fun j => V m j b)) x a.
Proof.
  induction x as [|m x IH]; intros a L HV HU; [reflexivity|]. cbn [blockwise map].
  assert (Lm : forall j, P j -> length (V m j (fun i => firstn (mi_dim m) (a i))) = mi_dim (G m)).
  { intros j Hj. apply HV; [left; reflexivity|exact Hj|]. intros i Hi. rewrite firstn_length, L by exact Hi. rewrite dim_cons. lia. }
  f_equal.
  - apply HU. intros j Hj. apply firstn_length_app, Lm, Hj.
  - rewrite <- IH; [|intros i Hi; rewrite skipn_length, L by exact Hi; rewrite dim_cons; lia|intros; apply HV; auto; right; assumption|exact HU].
    apply (blockwise_data P); [exact HU|]. intros j Hj. apply skipn_length_app, Lm, Hj.
Qed.

(* parts of width w put back together *)
Lemma concat_parts {A} n w (row : list A) : length row = n * w -> concat (map (fun f => part w f row) (seq 0 n)) = row.
Proof.
  intros L. change (map (fun f => part w f row) (seq 0 n)) with (map (fun u => firstn w (skipn (u * w) row)) (seq 0 n)).
  revert row L. induction n as [|n IH]; intros row L; [destruct row; [reflexivity|discriminate]|]. cbn [seq map concat]. cbn [Nat.mul skipn].
  rewrite <- seq_shift, map_map. rewrite (map_ext _ (fun u => firstn w (skipn (u * w) (skipn w row)))) by (intros u; rewrite skipn_skipn; reflexivity).
  rewrite IH by (rewrite skipn_length; cbn in L; lia). apply firstn_skipn.
Qed.
Lemma part_concat {A} n w f (rows : nat -> list A) : (forall k, k < n -> length (rows k) = w) -> f < n -> part w f (concat (map rows (seq 0 n))) = rows f.
Proof.
  intros L Hf. unfold part. replace n with (f + (1 + (n - f - 1))) by lia. rewrite seq_app, map_app, concat_app.
  assert (Lc : length (concat (map rows (seq 0 f))) = f * w).
  { rewrite (concat_length_widths _ w); [rewrite map_length, seq_length; reflexivity|]. apply Forall_map, Forall_forall. intros k Hk. apply in_seq in Hk. apply L. lia. }
  rewrite skipn_length_app by exact Lc. cbn [Nat.add seq map concat]. apply firstn_length_app. apply L. lia.
Qed.

(* x.mul_to_axis(f).axis_to_mul() *)
Lemma mul_axis_roundtrip x factor : coherent x -> factor <> 0 -> Forall (fun m => fst m mod factor = 0) (irr x) ->
  yields (let! y := mul_to_axis x (Some factor) (-2) in axis_to_mul y (-2)) (irr x) (lead x) (arr x).
Proof.
  intros H Hf Hd. destruct (mul_to_axis_yields x factor H Hf Hd) as (y & -> & E1 & E2 & Hy & Ea). cbn [bind].
  destruct (axis_to_mul_yields y (lead x) factor Hy E2) as (z & Ez & Z1 & Z2 & Hz & Za).
  exists z. split; [exact Ez|]. split.
  - rewrite Z1, E1, map_map. rewrite <- (map_id (irr x)) at 2. apply map_ext_in. intros [mul ir] Hin. rewrite Forall_forall in Hd. specialize (Hd _ Hin). cbn [fst] in Hd.
    f_equal. symmetry. apply Nat.div_exact; assumption.
  - split; [exact Z2|]. split; [exact Hz|]. intros i Hi. rewrite Za, E1 by exact Hi.
    assert (VU : forall m c d, (forall j, valid (lead x ++ [factor]) j -> removelast j = i -> c j = d j) -> V_merge factor m i c = V_merge factor m i d).
    { intros m c d E. unfold V_merge. f_equal. apply map_ext_in. intros k Hk. apply in_seq in Hk. apply E; [|apply removelast_app1]. apply valid_app; [exact Hi|]. constructor; [lia|constructor]. }
    rewrite (blockwise_data (fun j => valid (lead x ++ [factor]) j /\ removelast j = i) _ _ (arr y) (fun j => blockwise (fun m => V_split factor m j) (irr x) (arr x))).
    2:{ intros m c d E. apply VU. intros j Hj Hj'. apply E. auto. }
    2:{ intros j [Hj _]. apply Ea, Hj. }
    rewrite (blockwise_comp (fun '(mul, ir) => (mul / factor, ir)) (V_split factor) (fun m => V_merge factor m i) (valid (lead x)) (fun j => valid (lead x ++ [factor]) j /\ removelast j = i)).
    + rewrite (blockwise_ext (valid (lead x)) _ (fun _ b => b i)); [apply blockwise_id; apply H, Hi|apply H|].
      intros [mul ir] b Hin Lb. rewrite Forall_forall in Hd. specialize (Hd _ Hin). cbn [fst] in Hd. unfold V_merge.
      rewrite (map_ext_in _ (fun k => part (mul / factor * ir_dim ir) k (b i))).
      2:{ intros k Hk. unfold V_split. cbn [fst snd]. rewrite last_app1, removelast_app1. reflexivity. }
      apply concat_parts. rewrite Lb by exact Hi. unfold mi_dim. cbn [fst snd]. rewrite Nat.mul_assoc. f_equal. apply Nat.div_exact; assumption.
    + apply H.
    + intros [mul ir] b j Hin [Hj Hj'] Lb. rewrite Forall_forall in Hd. specialize (Hd _ Hin). cbn [fst] in Hd. unfold V_split, part, mi_dim. cbn [fst snd]. rewrite Hj', firstn_length, skipn_length, Lb by exact Hi.
      apply valid_app_inv in Hj as (j0 & q & -> & Hj0 & Hq). inversion Hq as [|f ? q' ? Hfq Hq']; subst. inversion Hq'; subst. rewrite last_app1. unfold mi_dim. cbn [fst snd].
      assert (Em : mul = factor * (mul / factor)) by (apply Nat.div_exact; assumption).
      assert (Es : mul * ir_dim ir = f * (mul / factor * ir_dim ir) + (mul / factor * ir_dim ir + (factor - f - 1) * (mul / factor * ir_dim ir))).
      { rewrite Em at 1. set (q := mul / factor). replace factor with (f + (1 + (factor - f - 1))) at 1 by lia. ring. }
      rewrite Es. clear. set (W := mul / factor * ir_dim ir). generalize (f * W) ((factor - f - 1) * W) W. intros. lia.
    + intros m c d E. apply VU. intros j Hj Hj'. apply E. auto.
Qed.

(* y.axis_to_mul().mul_to_axis(n) *)
Lemma axis_mul_roundtrip x s n : coherent x -> lead x = s ++ [n] -> n <> 0 ->
  yields (let! y := axis_to_mul x (-2) in mul_to_axis y (Some n) (-2)) (irr x) (lead x) (arr x).
Proof.
  intros H El Hn. destruct (axis_to_mul_yields x s n H El) as (y & -> & E1 & E2 & Hy & Ea). cbn [bind].
  assert (Hd : Forall (fun m => fst m mod n = 0) (irr y)).
  { rewrite E1. apply Forall_map, Forall_forall. intros [mul ir] _. cbn [fst]. rewrite Nat.mul_comm. apply Nat.mod_mul. exact Hn. }
  destruct (mul_to_axis_yields y n Hy Hn Hd) as (z & Ez & Z1 & Z2 & Hz & Za). exists z. split; [exact Ez|]. split.
  - rewrite Z1, E1, map_map. rewrite <- (map_id (irr x)) at 2. apply map_ext. intros [mul ir]. f_equal. rewrite Nat.mul_comm. apply Nat.div_mul, Hn.
  - rewrite El, <- E2. split; [exact Z2|]. split; [exact Hz|]. rewrite E2 in *. intros i' Hi'. rewrite Za by exact Hi'.
    apply valid_app_inv in Hi' as (i & q & -> & Hi & Hq). inversion Hq as [|f ? q' ? Hfq Hq']; subst. inversion Hq'; subst. rewrite E1.
    rewrite (blockwise_data (fun j => j = i) _ _ (arr y) (fun j => blockwise (fun m => V_merge n m j) (irr x) (arr x))).
    2:{ intros m c d E. unfold V_split. rewrite removelast_app1, E; reflexivity. }
    2:{ intros j ->. apply Ea, Hi. }
    rewrite (blockwise_comp (fun '(mul, ir) => (n * mul, ir)) (V_merge n) (fun m => V_split n m (i ++ [f])) (valid (lead x)) (fun j => j = i)).
    + assert (Vf : valid (lead x) (i ++ [f])) by (rewrite El; apply valid_app; [exact Hi|constructor; [exact Hfq|constructor]]).
      rewrite (blockwise_ext (valid (lead x)) _ (fun _ b => b (i ++ [f]))); [apply blockwise_id; apply H, Vf|apply H|].
      intros [mul ir] b Hin Lb. unfold V_split. cbn [fst snd]. rewrite last_app1, removelast_app1. unfold V_merge.
      rewrite (Nat.mul_comm n mul), Nat.div_mul by exact Hn. apply (part_concat n (mul * ir_dim ir) f (fun k => b (i ++ [k]))); [|exact Hfq].
      intros k Hk. apply Lb. rewrite El. apply valid_app; [exact Hi|constructor; [exact Hk|constructor]].
    + apply H.
    + intros [mul ir] b j Hin -> Lb. unfold V_merge. rewrite (concat_length_widths _ (mul * ir_dim ir)); [rewrite map_length, seq_length; unfold mi_dim; cbn [fst snd]; lia|].
      apply Forall_map, Forall_forall. intros k Hk. apply in_seq in Hk. apply Lb. rewrite El. apply valid_app; [exact Hi|constructor; [lia|constructor]].
    + intros m c d E. unfold V_split. rewrite removelast_app1, E; reflexivity.
Qed.
