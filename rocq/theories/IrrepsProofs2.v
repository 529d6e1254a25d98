From Verif Require Import PyBase PermModel PermProofs IrrepsModel IrrepsProofs.
From Coq Require Import Sorting.Permutation Sorting.Sorted.

(* ---------- sorting (C06) ---------- *)
Lemma insert_sorted_perm {A} (ltb : A -> A -> bool) a l : Permutation (insert_sorted ltb a l) (a :: l).
Proof.
  induction l as [|b l IH]; simpl; [reflexivity|]. destruct (ltb b a); [|reflexivity].
  rewrite IH. apply perm_swap.
Qed.

Lemma sorted_by_perm {A} (ltb : A -> A -> bool) l : Permutation (sorted_by ltb l) l.
Proof.
  unfold sorted_by. induction l as [|a l IH]; simpl; [reflexivity|].
  rewrite insert_sorted_perm. constructor. assumption.
Qed.

Section SortedBy.
  Context {A : Type} (ltb : A -> A -> bool).
  Hypothesis trans : forall a b c, ltb a b = true -> ltb b c = true -> ltb a c = true.
  Hypothesis total : forall a b, ltb a b = true \/ a = b \/ ltb b a = true.

  Lemma insert_sorted_sorted a l : ~ In a l ->
    StronglySorted (fun a b => ltb a b = true) l -> StronglySorted (fun a b => ltb a b = true) (insert_sorted ltb a l).
  Proof.
    intros Hn H. induction H as [|b l H IH Hb]; simpl; [repeat constructor|].
    destruct (ltb b a) eqn:E.
    - constructor; [apply IH; simpl in Hn; tauto|].
      rewrite Forall_forall in *. intros c Hc. apply (Permutation_in _ (insert_sorted_perm ltb a l)) in Hc.
      destruct Hc as [<-|Hc]; auto.
    - assert (Hab : ltb a b = true).
      { destruct (total a b) as [|[->|]]; [assumption| |congruence]. simpl in Hn; tauto. }
      constructor; [constructor; assumption|]. constructor; [assumption|].
      rewrite Forall_forall in *. intros c Hc. eauto.
  Qed.

  Lemma sorted_by_sorted l : NoDup l -> StronglySorted (fun a b => ltb a b = true) (sorted_by ltb l).
  Proof.
    induction 1 as [|a l Hn Hnd IH]; [constructor|]. cbn [sorted_by fold_right].
    apply insert_sorted_sorted; [|assumption].
    intros H. apply Hn. eapply Permutation_in; [apply sorted_by_perm|exact H].
  Qed.
End SortedBy.

Lemma entry_ltb_lt a b : entry_ltb a b = true <->
  (ir_ltb (fst (fst a)) (fst (fst b)) = true \/
   (fst (fst a) = fst (fst b) /\ (snd (fst a) < snd (fst b) \/ (snd (fst a) = snd (fst b) /\ snd a < snd b)))).
Proof.
  destruct a as [[ira ia] ma], b as [[irb ib] mb]. unfold entry_ltb; cbn [fst snd].
  destruct (irrep_eqb ira irb) eqn:E; cbn [negb].
  - apply irrep_eqb_eq in E; subst. rewrite ir_ltb_irrefl.
    destruct (Nat.eqb_spec ia ib) as [->|Hn]; cbn [negb].
    + rewrite Nat.ltb_lt. intuition; try discriminate; try lia.
    + rewrite Nat.ltb_lt. intuition; try discriminate; try lia.
  - apply irrep_eqb_neq in E. split; [auto|]. intros [H|[H _]]; [assumption|congruence].
Qed.

Lemma entry_ltb_trans a b c : entry_ltb a b = true -> entry_ltb b c = true -> entry_ltb a c = true.
Proof.
  rewrite !entry_ltb_lt. intros [H1|[E1 H1]] [H2|[E2 H2]].
  - left. eauto using ir_ltb_trans.
  - left. rewrite <- E2. assumption.
  - left. rewrite E1. assumption.
  - right. split; [congruence|]. lia.
Qed.

Lemma entry_ltb_total a b : entry_ltb a b = true \/ a = b \/ entry_ltb b a = true.
Proof.
  rewrite !entry_ltb_lt. destruct a as [[ira ia] ma], b as [[irb ib] mb]; cbn [fst snd].
  destruct (ir_ltb_total ira irb) as [H|[->|H]]; [left; left; exact H| |right; right; left; exact H].
  destruct (Nat.lt_trichotomy ia ib) as [H|[->|H]]; [left; right; auto| |right; right; right; auto].
  destruct (Nat.lt_trichotomy ma mb) as [H|[->|H]]; [left; right; auto|auto|right; right; right; auto].
Qed.

Definition dflt : mulirrep := (0, Irrep 0 Even).
Definition dent : sort_entry := (Irrep 0 Even, 0, 0).

Lemma sort_entries_length x : length (sort_entries x) = length x.
Proof. unfold sort_entries, enumerate. rewrite map_length, combine_length, seq_length. lia. Qed.

Lemma sort_entries_idx x : map (fun '(_, i, _) => i) (sort_entries x) = seq 0 (length x).
Proof.
  unfold sort_entries, enumerate. rewrite map_map. generalize 0. induction x as [|[m ir] x IH]; intros k; [reflexivity|].
  cbn [length seq combine map]. rewrite IH. reflexivity.
Qed.

Lemma sort_entries_vals x : map (fun '(ir, _, mul) => (mul, ir)) (sort_entries x) = x.
Proof.
  unfold sort_entries, enumerate. rewrite map_map. generalize 0. induction x as [|[m ir] x IH]; intros k; [reflexivity|].
  cbn [length seq combine map]. rewrite IH. reflexivity.
Qed.

Lemma sort_entries_In x ir i mul : In (ir, i, mul) (sort_entries x) <-> nth_error x i = Some (mul, ir).
Proof.
  unfold sort_entries, enumerate.
  enough (G : forall k, In (ir, i, mul) (map (fun '(i0, (mul0, ir0)) => (ir0, i0, mul0)) (combine (seq k (length x)) x)) <-> k <= i /\ nth_error x (i - k) = Some (mul, ir)).
  { rewrite G, Nat.sub_0_r. split; [intros [_ H]; exact H|intros H; split; [lia|exact H]]. }
  induction x as [|[m a] x IH]; intros k; cbn [length seq combine map].
  - simpl. split; [tauto|]. intros [_ H]. destruct (i - k); discriminate.
  - cbn [In]. rewrite IH. split.
    + intros [[= <- <- <-]|[H1 H2]].
      * rewrite Nat.sub_diag. split; [lia|reflexivity].
      * split; [lia|]. replace (i - k) with (S (i - S k)) by lia. exact H2.
    + intros [H1 H2]. destruct (Nat.eq_dec i k) as [->|Hn].
      * rewrite Nat.sub_diag in H2. injection H2 as -> ->. left; reflexivity.
      * right. split; [lia|]. replace (i - k) with (S (i - S k)) in H2 by lia. exact H2.
Qed.

Lemma sort_entries_NoDup x : NoDup (sort_entries x).
Proof.
  apply (NoDup_map_inv (fun '(_, i, _) => i)). rewrite sort_entries_idx. apply seq_NoDup.
Qed.

Definition sorted_entries (x : irreps) : list sort_entry := sorted_by entry_ltb (sort_entries x).
Definition sort_inv_list (x : irreps) : list nat := map (fun '(_, i, _) => i) (sorted_entries x).
Definition sort_irreps (x : irreps) : irreps := map (fun '(ir, _, mul) => (mul, ir)) (sorted_entries x).

Lemma sorted_entries_perm x : Permutation (sorted_entries x) (sort_entries x).
Proof. apply sorted_by_perm. Qed.

Lemma sorted_entries_length x : length (sorted_entries x) = length x.
Proof. rewrite (Permutation_length (sorted_entries_perm x)). apply sort_entries_length. Qed.

Lemma sorted_entries_sorted x : StronglySorted (fun a b => entry_ltb a b = true) (sorted_entries x).
Proof. apply sorted_by_sorted; [apply entry_ltb_trans|apply entry_ltb_total|apply sort_entries_NoDup]. Qed.

Lemma sort_inv_perm x : is_perm (sort_inv_list x) = true.
Proof.
  apply is_perm_iff. unfold sort_inv_list. rewrite map_length, sorted_entries_length, <- sort_entries_idx.
  apply Permutation_map, sorted_entries_perm.
Qed.

Lemma sort_inv_length x : length (sort_inv_list x) = length x.
Proof. unfold sort_inv_list. rewrite map_length. apply sorted_entries_length. Qed.

Lemma sort_Ok x : irreps_sort x = Ok (sort_irreps x, inv_nat (sort_inv_list x), sort_inv_list x).
Proof.
  unfold irreps_sort. fold (sorted_entries x). fold (sort_inv_list x). rewrite inverse_Ok by apply sort_inv_perm.
  reflexivity.
Qed.

Lemma sort_irreps_length x : length (sort_irreps x) = length x.
Proof. unfold sort_irreps. rewrite map_length. apply sorted_entries_length. Qed.

Lemma sort_irreps_perm x : Permutation (sort_irreps x) x.
Proof.
  unfold sort_irreps. rewrite <- (sort_entries_vals x) at 2. apply Permutation_map, sorted_entries_perm.
Qed.

Lemma nth_map' {A B} (f : A -> B) l i d d' : d' = f d -> nth i (map f l) d' = f (nth i l d).
Proof. intros ->. apply map_nth. Qed.

Lemma sort_irreps_nth x i : i < length x -> nth i (sort_irreps x) dflt = nth (nth i (sort_inv_list x) 0) x dflt.
Proof.
  intros Hi. destruct (nth i (sorted_entries x) dent) as [[ir j] mul] eqn:E.
  assert (Hin : In (ir, j, mul) (sort_entries x)).
  { eapply Permutation_in; [apply sorted_entries_perm|]. rewrite <- E. apply nth_In. rewrite sorted_entries_length. assumption. }
  apply sort_entries_In in Hin.
  assert (E1 : nth i (sort_irreps x) dflt = (mul, ir)).
  { unfold sort_irreps. rewrite (nth_map' _ _ _ dent) by reflexivity. rewrite E; reflexivity. }
  assert (E2 : nth i (sort_inv_list x) 0 = j).
  { unfold sort_inv_list. rewrite (nth_map' _ _ _ dent) by reflexivity. rewrite E; reflexivity. }
  rewrite E1, E2. symmetry. apply nth_error_nth. assumption.
Qed.

Lemma StronglySorted_nth {A} (R : A -> A -> Prop) l d i j : StronglySorted R l -> i < j < length l -> R (nth i l d) (nth j l d).
Proof.
  intros H. revert i j. induction H as [|a l H IH Ha]; intros i j Hij; [simpl in Hij; lia|].
  destruct j as [|j]; [lia|]. destruct i as [|i]; cbn [nth].
  - rewrite Forall_forall in Ha. apply Ha, nth_In. simpl in Hij. lia.
  - apply IH. simpl in Hij. lia.
Qed.

Definition ir_leb (a b : irrep) : bool := negb (ir_ltb b a).

Lemma sort_irreps_sorted x i j : i < j < length x ->
  let a := snd (nth i (sort_irreps x) dflt) in
  let b := snd (nth j (sort_irreps x) dflt) in
  ir_ltb a b = true \/ (a = b /\ nth i (sort_inv_list x) 0 < nth j (sort_inv_list x) 0).
Proof.
  intros Hij.
  pose proof (StronglySorted_nth _ _ dent i j (sorted_entries_sorted x)) as H.
  rewrite sorted_entries_length in H. specialize (H Hij). apply entry_ltb_lt in H.
  assert (E1 : forall k, nth k (sort_irreps x) dflt = (fun '(ir, _, mul) => (mul, ir)) (nth k (sorted_entries x) dent)).
  { intros k. apply (nth_map' (fun '(ir, _, mul) => (mul, ir)) (sorted_entries x) k dent dflt). reflexivity. }
  assert (E2 : forall k, nth k (sort_inv_list x) 0 = (fun '(_, i, _) => i) (nth k (sorted_entries x) dent)).
  { intros k. apply (nth_map' (fun '(_, i, _) => i) (sorted_entries x) k dent 0). reflexivity. }
  rewrite !E1, !E2.
  pose proof (sort_inv_perm x) as Hp.
  assert (Hne : snd (fst (nth i (sorted_entries x) dent)) <> snd (fst (nth j (sorted_entries x) dent))).
  { intros E. assert (i = j); [|lia].
    apply (perm_nth_inj (sort_inv_list x)); [assumption|rewrite sort_inv_length; lia|rewrite sort_inv_length; lia|].
    rewrite !E2.
    destruct (nth i (sorted_entries x) _) as [[? ?] ?], (nth j (sorted_entries x) _) as [[? ?] ?]. exact E. }
  destruct (nth i (sorted_entries x) _) as [[? ?] ?], (nth j (sorted_entries x) _) as [[? ?] ?]; cbn [fst snd] in *.
  destruct H as [H|[-> [H|[H _]]]]; auto.
Qed.

Lemma sort_p_inverse x i : i < length x ->
  nth (nth i (inv_nat (sort_inv_list x)) 0) (sort_inv_list x) 0 = i /\ nth (nth i (sort_inv_list x) 0) (inv_nat (sort_inv_list x)) 0 = i.
Proof.
  intros Hi. split; [apply inv_nat_r|apply inv_nat_l]; rewrite ?sort_inv_length; auto using sort_inv_perm.
Qed.

(* regroup *)
Lemma count_perm ir x y : Permutation x y -> count ir x = count ir y.
Proof.
  induction 1 as [|[m a] x y H IH|[m a] [n b] x|x y z H1 IH1 H2 IH2]; rewrite ?count_cons; try lia.
Qed.

Lemma dim_perm x y : Permutation x y -> dim x = dim y.
Proof. intros H. unfold dim. apply sum_perm, Permutation_map, H. Qed.

Lemma num_irreps_perm x y : Permutation x y -> num_irreps x = num_irreps y.
Proof. intros H. unfold num_irreps. apply sum_perm, Permutation_map, H. Qed.

Definition ir_le (a b : irrep) : Prop := ir_ltb a b = true \/ a = b.

Lemma sorted_flat x : StronglySorted (fun a b => ir_le (snd a) (snd b)) x -> StronglySorted ir_le (flat x).
Proof.
  induction 1 as [|[m a] x H IH Ha]; [constructor|]. rewrite flat_cons.
  apply StronglySorted_app; [|assumption|].
  - clear. induction m; simpl; constructor; auto. apply Forall_forall. intros b Hb. apply repeat_spec in Hb. right; auto.
  - intros b c Hb Hc. apply repeat_spec in Hb; subst b. unfold flat in Hc. apply in_flat_map in Hc.
    destruct Hc as ([n d] & Hd & Hc). apply repeat_spec in Hc; subst d. rewrite Forall_forall in Ha.
    apply (Ha _ Hd).
Qed.

Lemma sort_irreps_StronglySorted x : StronglySorted (fun a b => ir_le (snd a) (snd b)) (sort_irreps x).
Proof.
  unfold sort_irreps. pose proof (sorted_entries_sorted x) as H.
  induction H as [|[[a i] m] l H IH Ha]; simpl; constructor; [assumption|].
  rewrite Forall_map, Forall_forall in *. intros [[b j] n] Hb. apply Ha, entry_ltb_lt in Hb. cbn [fst snd] in *.
  unfold ir_le. destruct Hb as [|[]]; auto.
Qed.

(* a sorted list with alternating irreps is strictly sorted *)
Lemma sorted_normal_strict x : positive x -> alternating x -> StronglySorted ir_le (flat x) ->
  StronglySorted (fun a b => ir_ltb (snd a) (snd b) = true) x.
Proof.
  induction x as [|[m a] x IH]; intros Hp Ha Hs; constructor.
  - apply IH.
    + inversion Hp; assumption.
    + destruct x; [exact I|apply Ha].
    + rewrite flat_cons in Hs. clear -Hs. induction m; simpl in *; [assumption|]. inversion Hs; auto.
  - inversion_clear Hp as [|? ? Hm Hp']. cbn [fst] in Hm. destruct m as [|m]; [lia|].
    rewrite flat_cons in Hs. cbn [repeat app] in Hs. apply StronglySorted_inv in Hs. destruct Hs as [Hs Hall].
    rewrite Forall_app in Hall. destruct Hall as [_ Hall]. rewrite Forall_forall in Hall.
    destruct x as [|[n b] x]; [constructor|]. destruct Ha as [Hab Ha]. cbn [snd] in Hab.
    assert (Hs2 : StronglySorted ir_le (flat ((n, b) :: x))).
    { clear -Hs. induction m; simpl in *; [assumption|]. inversion Hs; auto. }
    assert (Hlt : ir_ltb a b = true).
    { inversion_clear Hp' as [|? ? Hn _]. cbn [fst] in Hn. destruct (Hall b) as [|E]; [|assumption|congruence].
      rewrite flat_cons. destruct n; [lia|]. left; reflexivity. }
    specialize (IH Hp' Ha Hs2). inversion_clear IH as [|? ? _ Hx].
    constructor; [exact Hlt|]. rewrite Forall_forall in *. intros c Hc. apply Hx in Hc. cbn [snd] in *.
    eauto using ir_ltb_trans.
Qed.

Definition regroup_irreps (x : irreps) : irreps := simplify (sort_irreps x).

Lemma regroup_Ok x : regroup x = Ok (regroup_irreps x).
Proof. unfold regroup. rewrite sort_Ok. reflexivity. Qed.

Lemma regroup_strict x : StronglySorted (fun a b => ir_ltb (snd a) (snd b) = true) (regroup_irreps x).
Proof.
  apply sorted_normal_strict; [apply positive_simplify|apply alternating_simplify|].
  unfold regroup_irreps. rewrite flat_simplify. apply sorted_flat, sort_irreps_StronglySorted.
Qed.

Lemma regroup_count ir x : count ir (regroup_irreps x) = count ir x.
Proof.
  unfold regroup_irreps. rewrite count_flat, flat_simplify, <- count_flat. apply count_perm, sort_irreps_perm.
Qed.

Lemma regroup_dim x : dim (regroup_irreps x) = dim x.
Proof. unfold regroup_irreps. rewrite dim_flat, flat_simplify, <- dim_flat. apply dim_perm, sort_irreps_perm. Qed.

Lemma sorted_perm_unique l1 l2 : StronglySorted ir_le l1 -> StronglySorted ir_le l2 -> Permutation l1 l2 -> l1 = l2.
Proof.
  intros H1. revert l2. induction H1 as [|a l1 H1 IH Ha]; intros l2 H2 Hp.
  - apply Permutation_nil in Hp. auto.
  - destruct H2 as [|b l2 H2 Hb]; [symmetry in Hp; apply Permutation_nil in Hp; discriminate|].
    assert (a = b) as <-.
    { rewrite Forall_forall in *.
      assert (In a (b :: l2)) as [->|Hin] by (eapply Permutation_in; [exact Hp|left; reflexivity]); [reflexivity|].
      assert (In b (a :: l1)) as [->|Hin'] by (eapply Permutation_in; [symmetry; exact Hp|left; reflexivity]); [reflexivity|].
      apply Hb in Hin. apply Ha in Hin'. destruct Hin as [Hin| ->], Hin' as [Hin'| E]; auto.
      apply ir_ltb_asym in Hin. congruence. }
    f_equal. apply IH; [assumption|]. eapply Permutation_cons_inv, Hp.
Qed.

Lemma regroup_iff x y : regroup_irreps x = regroup_irreps y <-> forall ir, count ir x = count ir y.
Proof.
  split.
  - intros H ir. rewrite <- (regroup_count ir x), <- (regroup_count ir y), H. reflexivity.
  - intros H. unfold regroup_irreps. apply simplify_iff.
    apply sorted_perm_unique; try apply sorted_flat, sort_irreps_StronglySorted.
    apply (Permutation_count_occ irrep_eq_dec). intros ir. rewrite <- !count_flat.
    rewrite !(count_perm ir _ _ (sort_irreps_perm _)). apply H.
Qed.

(* ---------- filter (C07) ---------- *)
(* indices of the entries satisfying P, in increasing order *)
Fixpoint positions_from {A} (k : nat) (P : A -> bool) (l : list A) : list nat :=
  match l with
  | [] => []
  | a :: l => if P a then k :: positions_from (S k) P l else positions_from (S k) P l
  end.

Lemma positions_spec {A} (P : A -> bool) (l : list A) k d :
  StronglySorted lt (positions_from k P l) /\
  (forall i, In i (positions_from k P l) <-> k <= i /\ i - k < length l /\ P (nth (i - k) l d) = true) /\
  map (fun i => nth (i - k) l d) (positions_from k P l) = filter P l.
Proof.
  revert k. induction l as [|a l IH]; intros k; cbn [positions_from filter].
  - split; [constructor|]. split; [|reflexivity]. intros i. simpl. split; [tauto|lia].
  - destruct (IH (S k)) as (H1 & H2 & H3).
    assert (Hm : map (fun i => nth (i - k) (a :: l) d) (positions_from (S k) P l) = filter P l).
    { rewrite <- H3. apply map_ext_in. intros i Hi. apply H2 in Hi.
      replace (i - k) with (S (i - S k)) by lia. reflexivity. }
    assert (Hin : forall i, In i (positions_from (S k) P l) <-> S k <= i /\ i - k < length (a :: l) /\ P (nth (i - k) (a :: l) d) = true).
    { intros i. rewrite H2. split.
      - intros (Ha & Hb & Hc). replace (i - k) with (S (i - S k)) by lia. simpl. repeat split; [lia|lia|assumption].
      - intros (Ha & Hb & Hc). replace (i - k) with (S (i - S k)) in Hc, Hb by lia. simpl in Hb, Hc. repeat split; [lia|lia|assumption]. }
    destruct (P a) eqn:E.
    + split; [|split].
      * constructor; [assumption|]. apply Forall_forall. intros i Hi. apply H2 in Hi. lia.
      * intros i. cbn [In]. rewrite Hin. split.
        -- intros [<-|H]; [|split; [lia|apply H]]. rewrite Nat.sub_diag. simpl. repeat split; [lia|lia|assumption].
        -- intros (Ha & Hb & Hc). destruct (Nat.eq_dec k i); [left; assumption|right]. split; [lia|auto].
      * cbn [map]. rewrite Hm, Nat.sub_diag. reflexivity.
    + split; [assumption|]. split; [|assumption].
      intros i. rewrite Hin. split.
      * intros H; split; [lia|apply H].
      * intros (Ha & Hb & Hc). split; [|auto]. destruct (Nat.eq_dec k i); [|lia]. subst. rewrite Nat.sub_diag in Hc. simpl in Hc. congruence.
Qed.

Lemma filter_partition {A} (P : A -> bool) l : Permutation (filter P l ++ filter (fun a => negb (P a)) l) l.
Proof.
  induction l as [|a l IH]; [reflexivity|]. cbn [filter]. destruct (P a); cbn [negb].
  - simpl. constructor. assumption.
  - rewrite <- Permutation_middle. constructor. assumption.
Qed.

(* ---------- slice_indices ---------- *)
Lemma slice_indices_bounds s n a b st : slice_indices s n = Ok (a, b, st) -> (0 < st)%Z ->
  (0 <= a <= Z.of_nat n)%Z /\ (0 <= b <= Z.of_nat n)%Z.
Proof.
  unfold slice_indices.
  set (step := match s_step s with None => 1%Z | Some k => k end).
  destruct (Z.eqb_spec step 0); [discriminate|]. intros [= <- <- <-] Hst.
  destruct (Z.ltb_spec 0 step); [|lia].
  destruct (s_start s) as [u|], (s_stop s) as [v|]; repeat match goal with |- context[if (?x <? ?y)%Z then _ else _] => destruct (Z.ltb_spec x y) end; lia.
Qed.

Lemma take_step_1 {A} (l : list A) a k : (0 <= a)%Z -> take_step l a 1 k = firstn k (skipn (Z.to_nat a) l).
Proof.
  revert a. induction k as [|k IH]; intros a Ha; cbn [take_step]; [reflexivity|].
  rewrite IH by lia. replace (Z.to_nat (a + 1)) with (S (Z.to_nat a)) by lia.
  generalize (Z.to_nat a). clear. intros n. revert n. induction l as [|b l IH]; intros [|n]; cbn; auto.
  apply IH.
Qed.

Lemma tuple_slice_1 {A} (l : list A) s a b : slice_indices s (length l) = Ok (a, b, 1%Z) ->
  tuple_slice l s = Ok (list_slice l (Z.to_nat a) (Z.to_nat b)).
Proof.
  intros H. unfold tuple_slice. rewrite H. cbn [bind]. f_equal.
  destruct (slice_indices_bounds _ _ _ _ _ H ltac:(lia)) as [Ha Hb].
  change (0 <? 1)%Z with true. cbv iota. rewrite take_step_1 by lia. unfold list_slice. f_equal.
  destruct (Z.ltb_spec a b); [rewrite Z.div_1_r|]; lia.
Qed.

(* ---------- slice_by_mul (C08) ---------- *)
Definition zflat (x : list (Z * irrep)) : list irrep := flat_map (fun '(m, ir) => repeat ir (Z.to_nat m)) x.

Lemma firstn_repeat {A} (a : A) n m : firstn n (repeat a m) = repeat a (Nat.min n m).
Proof. revert m. induction n; intros [|m]; simpl; [reflexivity..|]. f_equal. auto. Qed.
Lemma skipn_repeat {A} (a : A) n m : skipn n (repeat a m) = repeat a (m - n).
Proof. revert m. induction n; intros [|m]; simpl; auto. Qed.

Lemma mul_slice_loop_spec start stop x : forall i,
  (0 <= start)%Z -> (start <= stop)%Z ->
  Forall (fun m => (0 <= fst m)%Z) (mul_slice_loop start stop i x) /\
  zflat (mul_slice_loop start stop i x) =
    list_slice (flat x) (Z.to_nat start - i) (Z.to_nat stop - i).
Proof.
  induction x as [|[mul ir] x IH]; intros i H0 H1; cbn [mul_slice_loop].
  - split; [constructor|]. unfold list_slice. cbn. rewrite skipn_nil, firstn_nil. reflexivity.
  - destruct (IH (i + mul) H0 H1) as [IH1 IH2]. rewrite flat_cons.
    set (a := Z.to_nat start) in *. set (b := Z.to_nat stop) in *.
    assert (E : list_slice (repeat ir mul ++ flat x) (a - i) (b - i) =
       repeat ir (Nat.min (b - i) mul - (a - i)) ++ list_slice (flat x) (a - (i + mul)) (b - (i + mul))).
    { unfold list_slice. rewrite skipn_app, firstn_app, skipn_repeat, firstn_repeat, !repeat_length. f_equal; [f_equal; lia|].
      replace (a - i - mul) with (a - (i + mul)) by lia.
      f_equal. lia. }
    rewrite E, <- IH2. clear E.
    destruct ((start <=? Z.of_nat i)%Z && (Z.of_nat i + Z.of_nat mul <=? stop)%Z) eqn:C1.
    + split; [constructor; [cbn [fst]; lia|assumption]|]. cbn [zflat flat_map]. f_equal. f_equal. lia.
    + destruct ((start <? Z.of_nat i + Z.of_nat mul)%Z && (Z.of_nat i <? stop)%Z) eqn:C2.
      * split; [constructor; [cbn [fst]; lia|assumption]|]. cbn [zflat flat_map]. f_equal. f_equal. lia.
      * split; [assumption|].
        replace (Nat.min (b - i) mul - (a - i)) with 0 by lia. reflexivity.
Qed.

Lemma mk_irreps_flat l : Forall (fun m => (0 <= fst m)%Z) l -> exists r, mk_irreps l = Ok r /\ flat r = zflat l.
Proof.
  induction 1 as [|[m ir] l Hm H IH].
  - exists []. split; reflexivity.
  - destruct IH as (r & E & Er). cbn [fst] in Hm. exists ((Z.to_nat m, ir) :: r). unfold mk_irreps in *. cbn [mapM].
    destruct (Z.leb_spec 0 m); [|lia]. rewrite E. split; [reflexivity|]. rewrite flat_cons, Er. reflexivity.
Qed.

Lemma mk_irreps_cases l : (exists r, mk_irreps l = Ok r /\ flat r = zflat l) \/ mk_irreps l = Err ValueError.
Proof.
  unfold mk_irreps. induction l as [|[m ir] l IH]; [left; exists []; split; reflexivity|]. cbn [mapM].
  destruct (Z.leb_spec 0 m); [|right; reflexivity].
  destruct IH as [(r & -> & Er)| ->]; [left|right; reflexivity].
  eexists. split; [reflexivity|]. rewrite flat_cons, Er. reflexivity.
Qed.

Lemma mul_slice_loop_rev start stop x : forall i, (stop < start)%Z -> zflat (mul_slice_loop start stop i x) = [].
Proof.
  induction x as [|[mul ir] x IH]; intros i H; cbn [mul_slice_loop]; [reflexivity|].
  destruct ((start <=? Z.of_nat i)%Z && (Z.of_nat i + Z.of_nat mul <=? stop)%Z) eqn:C1; [lia|].
  destruct ((start <? Z.of_nat i + Z.of_nat mul)%Z && (Z.of_nat i <? stop)%Z) eqn:C2; [|auto].
  cbn [zflat flat_map]. fold (zflat (mul_slice_loop start stop (i + mul) x)). rewrite IH by assumption.
  replace (Z.to_nat _) with 0 by lia. reflexivity.
Qed.

Lemma slice_by_mul_spec x s a b : slice_indices s (num_irreps x) = Ok (a, b, 1%Z) -> (a <= b)%Z ->
  exists r, slice_by_mul x s = Ok r /\ tuple_slice (flat x) s = Ok (flat r).
Proof.
  intros H Hab. unfold slice_by_mul. rewrite H. cbn [bind]. rewrite Z.eqb_refl. cbn [negb].
  destruct (slice_indices_bounds _ _ _ _ _ H ltac:(lia)) as [Ha Hb].
  destruct (mul_slice_loop_spec a b x 0) as [H1 H2]; [lia|lia|].
  destruct (mk_irreps_flat _ H1) as (r & E & Er). exists r. split; [exact E|].
  rewrite (tuple_slice_1 _ _ a b) by (rewrite flat_length; exact H).
  rewrite Er, H2, !Nat.sub_0_r. reflexivity.
Qed.

Lemma slice_by_mul_rev x s a b : slice_indices s (num_irreps x) = Ok (a, b, 1%Z) -> (b < a)%Z ->
  (exists r, slice_by_mul x s = Ok r /\ flat r = []) \/ slice_by_mul x s = Err ValueError.
Proof.
  intros H Hab. unfold slice_by_mul. rewrite H. cbn [bind]. rewrite Z.eqb_refl. cbn [negb].
  destruct (mk_irreps_cases (mul_slice_loop a b 0 x)) as [(r & E & Er)|E]; [left|right; assumption].
  exists r. split; [assumption|]. rewrite Er. apply mul_slice_loop_rev. assumption.
Qed.

(* ---------- slice_by_dim ---------- *)
(* [aligned x k]: feature index k is a boundary between two irreps of the flattened list *)
Definition aligned (x : irreps) (k : nat) : Prop :=
  exists j, j <= num_irreps x /\ k = sum (map ir_dim (firstn j (flat x))).

Lemma firstn_app_le {A} (l1 l2 : list A) j : j <= length l1 -> firstn j (l1 ++ l2) = firstn j l1.
Proof. intros H. rewrite firstn_app. replace (j - length l1) with 0 by lia. simpl. apply app_nil_r. Qed.

Lemma aligned_head m ir x k : aligned ((m, ir) :: x) k ->
  (exists u, u <= m /\ k = u * ir_dim ir) \/ (m * ir_dim ir <= k /\ aligned x (k - m * ir_dim ir)).
Proof.
  intros (j & Hj & ->). rewrite flat_cons. rewrite num_irreps_cons in Hj.
  destruct (Nat.le_gt_cases j m) as [H|H].
  - left. exists j. split; [assumption|]. rewrite firstn_app_le by (rewrite repeat_length; assumption).
    rewrite firstn_repeat, map_repeat, sum_repeat. f_equal. lia.
  - right. rewrite firstn_app, repeat_length, firstn_repeat, map_app, sum_app, map_repeat, sum_repeat.
    replace (Nat.min j m) with m by lia. split; [lia|]. exists (j - m). split; [lia|]. lia.
Qed.

Lemma aligned_div ir x m k : aligned ((m, ir) :: x) k -> exists u, Nat.min k (m * ir_dim ir) = u * ir_dim ir.
Proof.
  intros H. apply aligned_head in H. destruct H as [(u & Hu & ->)|[H _]].
  - exists u. assert (u * ir_dim ir <= m * ir_dim ir) by (apply Nat.mul_le_mono_r; assumption). lia.
  - exists m. lia.
Qed.

Lemma aligned_0 x : aligned x 0.
Proof. exists 0. split; [lia|reflexivity]. Qed.

Lemma aligned_tail m ir x k : aligned ((m, ir) :: x) k -> aligned x (k - m * ir_dim ir).
Proof.
  intros H. apply aligned_head in H. destruct H as [(u & Hu & ->)|[_ H]]; [|assumption].
  assert (u * ir_dim ir <= m * ir_dim ir) by (apply Nat.mul_le_mono_r; assumption).
  replace (u * ir_dim ir - m * ir_dim ir) with 0 by lia. apply aligned_0.
Qed.

(* number of whole irreps below feature k *)
Fixpoint irreps_below (l : list irrep) (k : nat) : nat :=
  match l with
  | [] => 0
  | ir :: l => if ir_dim ir <=? k then S (irreps_below l (k - ir_dim ir)) else 0
  end.

Lemma irreps_below_firstn l j : j <= length l -> irreps_below l (sum (map ir_dim (firstn j l))) = j.
Proof.
  revert j. induction l as [|ir l IH]; intros j Hj; [simpl in Hj; simpl; lia|].
  destruct j as [|j].
  - cbn [firstn map sum fold_right irreps_below]. destruct (Nat.leb_spec (ir_dim ir) 0); [unfold ir_dim in *; lia|reflexivity].
  - cbn [firstn map irreps_below]. unfold sum; cbn [fold_right]. fold (sum (map ir_dim (firstn j l))).
    destruct (Nat.leb_spec (ir_dim ir) (ir_dim ir + sum (map ir_dim (firstn j l)))); [|lia].
    replace (ir_dim ir + sum (map ir_dim (firstn j l)) - ir_dim ir) with (sum (map ir_dim (firstn j l))) by lia.
    rewrite IH by (simpl in Hj; lia). reflexivity.
Qed.

Lemma sum_firstn_inj l j j' : j <= length l -> j' <= length l ->
  sum (map ir_dim (firstn j l)) = sum (map ir_dim (firstn j' l)) -> j = j'.
Proof. intros H H' E. rewrite <- (irreps_below_firstn l j H), <- (irreps_below_firstn l j' H'), E. reflexivity. Qed.

Lemma irreps_below_repeat ir m l k : irreps_below (repeat ir m ++ l) k =
  if m * ir_dim ir <=? k then m + irreps_below l (k - m * ir_dim ir) else k / ir_dim ir.
Proof.
  revert k. induction m as [|m IH]; intros k; cbn [repeat app irreps_below].
  - cbn. rewrite Nat.sub_0_r. reflexivity.
  - assert (Hd : 0 < ir_dim ir) by (unfold ir_dim; lia).
    destruct (Nat.leb_spec (ir_dim ir) k) as [H|H].
    + rewrite IH. destruct (Nat.leb_spec (m * ir_dim ir) (k - ir_dim ir)), (Nat.leb_spec (S m * ir_dim ir) k); try lia.
      * cbn [Nat.add]. f_equal. f_equal. f_equal. lia.
      * replace k with (k - ir_dim ir + 1 * ir_dim ir) at 2 by lia. rewrite Nat.div_add by lia. lia.
    + destruct (Nat.leb_spec (S m * ir_dim ir) k); [nia|]. rewrite Nat.div_small by assumption. reflexivity.
Qed.

Lemma dim_slice_loop_spec a b x : a <= b -> forall i,
  aligned x (a - i) -> aligned x (b - i) ->
  exists l, dim_slice_loop (Z.of_nat a) (Z.of_nat b) i x = Ok l /\
  Forall (fun m => (0 <= fst m)%Z) l /\
  zflat l = list_slice (flat x) (irreps_below (flat x) (a - i)) (irreps_below (flat x) (b - i)).
Proof.
  intros Hab. induction x as [|[mul ir] x IH]; intros i Ha Hb; cbn [dim_slice_loop].
  - exists []. split; [reflexivity|]. split; [constructor|reflexivity].
  - pose proof (aligned_div _ _ _ _ Ha) as [u Hu]. pose proof (aligned_div _ _ _ _ Hb) as [v Hv].
    apply aligned_tail in Ha. apply aligned_tail in Hb.
    set (D := mul * ir_dim ir) in *.
    assert (Hd : 0 < ir_dim ir) by (unfold ir_dim; lia).
    replace (a - i - D) with (a - (i + D)) in Ha by lia. replace (b - i - D) with (b - (i + D)) in Hb by lia.
    destruct (IH (i + D) Ha Hb) as (l & El & H1 & H2). rewrite El. clear IH.
    assert (Hum : u <= mul) by (unfold D in *; nia).
    assert (Hvm : v <= mul) by (unfold D in *; nia).
    assert (Ba : irreps_below (flat ((mul, ir) :: x)) (a - i) = if D <=? a - i then mul + irreps_below (flat x) (a - (i + D)) else u).
    { rewrite flat_cons, irreps_below_repeat. fold D. destruct (Nat.leb_spec D (a - i)).
      - f_equal. f_equal. lia.
      - replace (a - i) with (u * ir_dim ir) by lia. apply Nat.div_mul. lia. }
    assert (Bb : irreps_below (flat ((mul, ir) :: x)) (b - i) = if D <=? b - i then mul + irreps_below (flat x) (b - (i + D)) else v).
    { rewrite flat_cons, irreps_below_repeat. fold D. destruct (Nat.leb_spec D (b - i)).
      - f_equal. f_equal. lia.
      - replace (b - i) with (v * ir_dim ir) by lia. apply Nat.div_mul. lia. }
    assert (E : list_slice (flat ((mul, ir) :: x)) (irreps_below (flat ((mul, ir) :: x)) (a - i)) (irreps_below (flat ((mul, ir) :: x)) (b - i))
       = repeat ir (v - u) ++ list_slice (flat x) (irreps_below (flat x) (a - (i + D))) (irreps_below (flat x) (b - (i + D)))).
    { rewrite Ba, Bb, flat_cons. unfold list_slice.
      rewrite skipn_app, firstn_app, skipn_repeat, firstn_repeat, !repeat_length.
      destruct (Nat.leb_spec D (a - i)), (Nat.leb_spec D (b - i)); try lia.
      - assert (u = mul) by (unfold D in *; nia). assert (v = mul) by (unfold D in *; nia).
        f_equal; [f_equal; lia|].
        replace (mul + irreps_below (flat x) (a - (i + D)) - mul) with (irreps_below (flat x) (a - (i + D))) by lia.
        f_equal. lia.
      - assert (v = mul) by (unfold D in *; nia).
        replace (a - (i + D)) with 0 by lia.
        assert (Z0 : irreps_below (flat x) 0 = 0) by (apply (irreps_below_firstn _ 0); lia).
        rewrite Z0. replace (u - mul) with 0 by lia. cbn [skipn].
        f_equal; [f_equal; lia|]. f_equal. lia.
      - replace (a - (i + D)) with 0 by lia. replace (b - (i + D)) with 0 by lia.
        assert (Z0 : irreps_below (flat x) 0 = 0) by (apply (irreps_below_firstn _ 0); lia).
        rewrite Z0. replace (v - u - (mul - u)) with 0 by lia. cbn [firstn Nat.sub].
        f_equal; f_equal; lia. }
    rewrite E, <- H2. clear E.
    destruct ((Z.of_nat a <=? Z.of_nat i)%Z && (Z.of_nat i + Z.of_nat D <=? Z.of_nat b)%Z) eqn:C1.
    + cbn [rmap]. eexists. split; [reflexivity|].
      assert (u = 0) by (unfold D in *; nia). assert (v = mul) by (unfold D in *; nia).
      split; [constructor; [cbn [fst]; lia|assumption]|]. cbn [zflat flat_map]. f_equal. f_equal. lia.
    + destruct ((Z.of_nat a <? Z.of_nat i + Z.of_nat D)%Z && (Z.of_nat i <? Z.of_nat b)%Z) eqn:C2.
      * assert (Edm : (Z.min (Z.of_nat b) (Z.of_nat i + Z.of_nat D) - Z.max (Z.of_nat a) (Z.of_nat i))%Z = ((Z.of_nat v - Z.of_nat u) * Z.of_nat (ir_dim ir))%Z) by nia.
        rewrite Edm, Z.mod_mul, Z.div_mul by lia. cbn [Z.eqb negb rmap].
        eexists. split; [reflexivity|].
        assert (u <= v) by nia.
        split; [constructor; [cbn [fst]; lia|assumption]|]. cbn [zflat flat_map]. f_equal. f_equal. lia.
      * exists l. split; [reflexivity|]. split; [assumption|].
        assert (u * ir_dim ir >= v * ir_dim ir) by lia. assert (v <= u) by nia.
        replace (v - u) with 0 by lia. reflexivity.
Qed.

Lemma slice_by_dim_aligned x s a b : slice_indices s (dim x) = Ok (Z.of_nat a, Z.of_nat b, 1%Z) ->
  forall j k, j <= k <= num_irreps x ->
  a = sum (map ir_dim (firstn j (flat x))) -> b = sum (map ir_dim (firstn k (flat x))) ->
  exists r, slice_by_dim x s = Ok r /\ flat r = list_slice (flat x) j k.
Proof.
  intros H j k Hjk Ea Eb. unfold slice_by_dim. rewrite H. cbn [bind]. rewrite Z.eqb_refl. cbn [negb].
  assert (Hab : a <= b).
  { subst. replace k with (j + (k - j)) by lia. generalize (k - j). intros d.
    rewrite <- (firstn_skipn j (firstn (j + d) (flat x))), firstn_firstn, map_app, sum_app.
    replace (Nat.min j (j + d)) with j by lia. lia. }
  destruct (dim_slice_loop_spec a b x Hab 0) as (l & -> & H1 & H2).
  - rewrite Nat.sub_0_r. exists j. split; [lia|assumption].
  - rewrite Nat.sub_0_r. exists k. split; [lia|assumption].
  - cbn [bind]. destruct (mk_irreps_flat l H1) as (r & E & Er). exists r. split; [assumption|].
    rewrite Er, H2, !Nat.sub_0_r, Ea, Eb, !irreps_below_firstn by (rewrite flat_length; lia). reflexivity.
Qed.
