From Verif Require Import PyBase PermModel.
From Coq Require Import Sorting.Permutation Sorting.Sorted Factorial.

(* ---------- generic ---------- *)
Lemma mapM_Ok {A B} (f : A -> res B) (g : A -> B) l :
  (forall a, In a l -> f a = Ok (g a)) -> mapM f l = Ok (map g l).
Proof.
  induction l as [|a l IH]; intros H; [reflexivity|]. cbn [mapM map].
  rewrite H by (left; reflexivity). rewrite IH by (intros; apply H; right; assumption). reflexivity.
Qed.

Lemma mapM_length {A B} (f : A -> res B) l r : mapM f l = Ok r -> length r = length l.
Proof.
  revert r. induction l as [|a l IH]; intros r; cbn [mapM]; [intros [= <-]; reflexivity|].
  destruct (f a); [|discriminate]. destruct (mapM f l); [|discriminate]. intros [= <-]. simpl. f_equal. auto.
Qed.

Lemma mapM_In {A B} (f : A -> res B) l r : mapM f l = Ok r -> forall b, In b r <-> exists a, In a l /\ f a = Ok b.
Proof.
  revert r. induction l as [|a l IH]; intros r; cbn [mapM].
  - intros [= <-] b. simpl. split; [tauto|intros (? & [] & _)].
  - destruct (f a) as [b0|] eqn:E; [|discriminate]. destruct (mapM f l) as [bs|] eqn:E2; [|discriminate].
    intros [= <-] b. simpl. rewrite (IH bs eq_refl). split.
    + intros [<-|(a' & H & H')]; eauto.
    + intros (a' & [<-|H] & H'); [left; congruence|right; eauto].
Qed.

Lemma mapM_Err {A B} (f : A -> res B) l e : mapM f l = Err e -> exists a, In a l /\ f a = Err e.
Proof.
  induction l as [|a l IH]; cbn [mapM]; [discriminate|].
  destruct (f a) as [b0|] eqn:E.
  - destruct (mapM f l); [discriminate|]. intros [= ->]. destruct IH as (a' & ? & ?); auto. exists a'; simpl; auto.
  - intros [= ->]. exists a; simpl; auto.
Qed.

Lemma list_eqb_eq x y : list_eqb x y = true <-> x = y.
Proof.
  revert y. induction x as [|a x IH]; intros [|b y]; simpl; split; try congruence.
  - rewrite andb_true_iff, Nat.eqb_eq, IH. intros [-> ->]; reflexivity.
  - intros [= -> ->]. rewrite Nat.eqb_refl. apply IH. reflexivity.
Qed.

Lemma list_eqb_refl x : list_eqb x x = true.
Proof. apply list_eqb_eq; reflexivity. Qed.

(* ---------- is_perm ---------- *)
Lemma insert_uniq_In a l b : In b (insert_uniq a l) <-> b = a \/ In b l.
Proof.
  induction l as [|c l IH]; simpl; [intuition|].
  destruct (Nat.ltb_spec a c); [simpl; intuition|].
  destruct (Nat.eqb_spec a c); [subst; simpl; intuition|]. simpl. rewrite IH. intuition.
Qed.

Lemma sorted_set_In l b : In b (sorted_set l) <-> In b l.
Proof.
  unfold sorted_set. induction l as [|a l IH]; simpl; [tauto|]. rewrite insert_uniq_In, IH. intuition.
Qed.

Lemma insert_uniq_sorted a l : StronglySorted lt l -> StronglySorted lt (insert_uniq a l).
Proof.
  induction l as [|c l IH]; intros H; simpl; [repeat constructor|].
  inversion H as [|? ? H1 H2]; subst.
  destruct (Nat.ltb_spec a c); [constructor; [assumption|]|].
  - constructor; [assumption|]. rewrite Forall_forall in *. intros b Hb. apply H2 in Hb. lia.
  - destruct (Nat.eqb_spec a c); [assumption|]. constructor; [auto|].
    rewrite Forall_forall in *. intros b Hb. apply insert_uniq_In in Hb. destruct Hb as [->|Hb]; [lia|auto].
Qed.

Lemma sorted_set_sorted l : StronglySorted lt (sorted_set l).
Proof. induction l; [constructor|]. apply insert_uniq_sorted. assumption. Qed.

Lemma sorted_unique l1 l2 : StronglySorted lt l1 -> StronglySorted lt l2 ->
  (forall x, In x l1 <-> In x l2) -> l1 = l2.
Proof.
  intros H1. revert l2. induction H1 as [|a l1 H1 IH Ha]; intros l2 H2 E.
  - destruct l2 as [|b l2]; [reflexivity|]. exfalso. apply (E b). left; reflexivity.
  - destruct H2 as [|b l2 H2 Hb].
    + exfalso. apply (E a). left; reflexivity.
    + rewrite Forall_forall in *. assert (a = b) as <-.
      { destruct (proj1 (E a) (or_introl eq_refl)) as [->|Hin]; [reflexivity|].
        destruct (proj2 (E b) (or_introl eq_refl)) as [->|Hin']; [reflexivity|].
        apply Hb in Hin. apply Ha in Hin'. lia. }
      f_equal. apply IH; [assumption|]. intros x. split; intros Hx.
      * destruct (proj1 (E x) (or_intror Hx)) as [->|?]; [|assumption]. apply Ha in Hx. lia.
      * destruct (proj2 (E x) (or_intror Hx)) as [->|?]; [|assumption]. apply Hb in Hx. lia.
Qed.

Lemma seq_sorted n k : StronglySorted lt (seq k n).
Proof.
  revert k. induction n as [|n IH]; intros k; simpl; constructor; [apply IH|].
  apply Forall_forall. intros x Hx. apply in_seq in Hx. lia.
Qed.

Lemma is_perm_iff p : is_perm p = true <-> Permutation p (seq 0 (length p)).
Proof.
  unfold is_perm. rewrite list_eqb_eq. split; intros H.
  - symmetry. apply NoDup_Permutation_bis.
    + apply seq_NoDup.
    + rewrite seq_length. lia.
    + intros x Hx. rewrite <- H in Hx. exact (proj1 (sorted_set_In _ _) Hx).
  - apply sorted_unique; [apply sorted_set_sorted|apply seq_sorted|].
    intros x. rewrite sorted_set_In. split; intros Hx.
    + eapply Permutation_in; eassumption.
    + eapply Permutation_in; [symmetry|]; eassumption.
Qed.

Lemma perm_NoDup p : is_perm p = true -> NoDup p.
Proof. intros H. apply is_perm_iff in H. eapply Permutation_NoDup; [symmetry; eassumption|]. apply seq_NoDup. Qed.

Lemma perm_In p i : is_perm p = true -> (In i p <-> i < length p).
Proof.
  intros H. apply is_perm_iff in H. split; intros Hi.
  - apply (Permutation_in _ H) in Hi. apply in_seq in Hi. lia.
  - apply (Permutation_in _ (Permutation_sym H)). apply in_seq. lia.
Qed.

Lemma perm_intro p : NoDup p -> (forall i, In i p -> i < length p) -> is_perm p = true.
Proof.
  intros H1 H2. apply is_perm_iff. apply NoDup_Permutation_bis; [assumption|rewrite seq_length; lia|].
  intros i Hi. apply in_seq. apply H2 in Hi. lia.
Qed.

Lemma perm_nth_lt p i : is_perm p = true -> i < length p -> nth i p 0 < length p.
Proof. intros H Hi. apply (perm_In p); [assumption|]. apply nth_In. assumption. Qed.

Lemma perm_nth_inj p i j : is_perm p = true -> i < length p -> j < length p -> nth i p 0 = nth j p 0 -> i = j.
Proof. intros H Hi Hj E. apply perm_NoDup in H. rewrite (NoDup_nth p 0) in H. auto. Qed.

(* ---------- index ---------- *)
Lemma index_ok a l : In a l -> exists i, index a l = Ok i /\ i < length l /\ nth i l 0 = a.
Proof.
  induction l as [|b l IH]; [intros []|]. intros H. simpl. destruct (Nat.eqb_spec a b) as [->|Hn].
  - exists 0. repeat split; lia.
  - destruct H as [->|H]; [congruence|]. destruct (IH H) as (i & -> & Hi & E). exists (S i). simpl. repeat split; [lia|assumption].
Qed.

Lemma index_err a l : ~ In a l -> index a l = Err ValueError.
Proof.
  induction l as [|b l IH]; [reflexivity|]. simpl. intros H. destruct (Nat.eqb_spec a b); [subst; tauto|].
  rewrite IH by tauto. reflexivity.
Qed.

Definition index_nat (a : nat) (l : list nat) : nat := match index a l with Ok i => i | Err _ => 0 end.

Lemma index_nat_spec a l : In a l -> index_nat a l < length l /\ nth (index_nat a l) l 0 = a.
Proof. intros H. unfold index_nat. destruct (index_ok a l H) as (i & -> & ? & ?). auto. Qed.

Lemma index_nat_Ok a l : In a l -> index a l = Ok (index_nat a l).
Proof. intros H. unfold index_nat. destruct (index_ok a l H) as (i & -> & ? & ?). auto. Qed.

Lemma index_nat_nth l i : NoDup l -> i < length l -> index_nat (nth i l 0) l = i.
Proof.
  intros H Hi. destruct (index_nat_spec (nth i l 0) l (nth_In _ _ Hi)) as [H1 H2].
  rewrite (NoDup_nth l 0) in H. apply H; assumption.
Qed.

(* ---------- inverse ---------- *)
Definition inv_nat (p : list nat) : list nat := map (fun i => index_nat i p) (seq 0 (length p)).

Lemma inverse_Ok p : is_perm p = true -> inverse p = Ok (inv_nat p).
Proof.
  intros H. apply mapM_Ok. intros i Hi. apply in_seq in Hi. apply index_nat_Ok. apply perm_In; [assumption|lia].
Qed.

Lemma inv_nat_length p : length (inv_nat p) = length p.
Proof. unfold inv_nat. rewrite map_length, seq_length. reflexivity. Qed.

Lemma nth_map_seq {A} (f : nat -> A) n i d : i < n -> nth i (map f (seq 0 n)) d = f i.
Proof.
  intros H. rewrite (nth_indep _ _ (f 0)) by (rewrite map_length, seq_length; assumption).
  rewrite map_nth, seq_nth by assumption. reflexivity.
Qed.

Lemma inv_nat_nth p i : i < length p -> nth i (inv_nat p) 0 = index_nat i p.
Proof. intros. unfold inv_nat. apply (nth_map_seq (fun i => index_nat i p)). assumption. Qed.

Lemma inv_nat_r p i : is_perm p = true -> i < length p -> nth (nth i (inv_nat p) 0) p 0 = i.
Proof. intros H Hi. rewrite inv_nat_nth by assumption. apply index_nat_spec. apply perm_In; assumption. Qed.

Lemma inv_nat_l p i : is_perm p = true -> i < length p -> nth (nth i p 0) (inv_nat p) 0 = i.
Proof.
  intros H Hi. rewrite inv_nat_nth by (apply perm_nth_lt; assumption).
  apply index_nat_nth; [apply perm_NoDup|]; assumption.
Qed.

Lemma perm_of_inj (p : list nat) :
  (forall i, i < length p -> nth i p 0 < length p) ->
  (forall i j, i < length p -> j < length p -> nth i p 0 = nth j p 0 -> i = j) -> is_perm p = true.
Proof.
  intros H1 H2. apply perm_intro.
  - apply (NoDup_nth p 0). assumption.
  - intros i Hi. apply (In_nth _ _ 0) in Hi. destruct Hi as (j & Hj & <-). auto.
Qed.

Lemma inv_nat_perm p : is_perm p = true -> is_perm (inv_nat p) = true.
Proof.
  intros H. apply perm_of_inj; rewrite inv_nat_length.
  - intros i Hi. rewrite inv_nat_nth by assumption. apply index_nat_spec. apply perm_In; assumption.
  - intros i j Hi Hj E. rewrite <- (inv_nat_r p i H Hi), <- (inv_nat_r p j H Hj), E. reflexivity.
Qed.

(* ---------- compose ---------- *)
Definition comp_nat (p q : list nat) : list nat := map (fun i => nth (nth i q 0) p 0) (seq 0 (length p)).

Lemma getitem_Ok (l : list nat) i : i < length l -> getitem l i = Ok (nth i l 0).
Proof. intros H. unfold getitem. rewrite (nth_error_nth' _ 0) by assumption. reflexivity. Qed.

Lemma compose_Ok p q : is_perm p = true -> is_perm q = true -> length p = length q -> compose p q = Ok (comp_nat p q).
Proof.
  intros Hp Hq E. unfold compose. rewrite Hp, Hq, E, Nat.eqb_refl. cbn [andb negb].
  unfold comp_nat. rewrite E. apply mapM_Ok. intros i Hi. apply in_seq in Hi.
  rewrite getitem_Ok by lia. cbn [bind]. apply getitem_Ok. rewrite E. apply perm_nth_lt; [assumption|lia].
Qed.

Lemma compose_Err p q : is_perm p = false \/ is_perm q = false \/ length p <> length q ->
  compose p q = Err AssertionError.
Proof.
  intros H. unfold compose. destruct (is_perm p), (is_perm q); cbn; try reflexivity.
  destruct (Nat.eqb_spec (length p) (length q)); [|reflexivity].
  destruct H as [|[|]]; congruence.
Qed.

Lemma comp_nat_length p q : length (comp_nat p q) = length p.
Proof. unfold comp_nat. rewrite map_length, seq_length. reflexivity. Qed.

Lemma comp_nat_nth p q i : i < length p -> nth i (comp_nat p q) 0 = nth (nth i q 0) p 0.
Proof. intros H. unfold comp_nat. apply (nth_map_seq (fun i => nth (nth i q 0) p 0)). assumption. Qed.

Lemma comp_nat_perm p q : is_perm p = true -> is_perm q = true -> length p = length q -> is_perm (comp_nat p q) = true.
Proof.
  intros Hp Hq E. apply perm_of_inj; rewrite comp_nat_length.
  - intros i Hi. rewrite comp_nat_nth by assumption. apply perm_nth_lt; [assumption|]. rewrite E. apply perm_nth_lt; [assumption|lia].
  - intros i j Hi Hj. rewrite !comp_nat_nth by assumption. intros Heq.
    apply perm_nth_inj in Heq; [|assumption| |]; try (rewrite E; apply perm_nth_lt; [assumption|lia]).
    apply perm_nth_inj in Heq; [assumption|assumption|lia|lia].
Qed.

Lemma nth_ext0 (l l' : list nat) : length l = length l' -> (forall i, i < length l -> nth i l 0 = nth i l' 0) -> l = l'.
Proof. intros. apply (nth_ext _ _ 0 0); assumption. Qed.

Lemma identity_perm n : is_perm (identity n) = true.
Proof. unfold identity. apply is_perm_iff. rewrite seq_length. reflexivity. Qed.

Lemma comp_nat_assoc p q r : is_perm p = true -> is_perm q = true -> is_perm r = true ->
  length p = length q -> length q = length r ->
  comp_nat p (comp_nat q r) = comp_nat (comp_nat p q) r.
Proof.
  intros Hp Hq Hr E1 E2. apply nth_ext0; rewrite !comp_nat_length; [reflexivity|].
  intros i Hi. assert (Hr' : nth i r 0 < length r) by (apply perm_nth_lt; [assumption|lia]).
  rewrite (comp_nat_nth p), (comp_nat_nth q), (comp_nat_nth (comp_nat p q)), (comp_nat_nth p) by (rewrite ?comp_nat_length; lia).
  reflexivity.
Qed.

Lemma comp_nat_id_l p : is_perm p = true -> comp_nat (identity (length p)) p = p.
Proof.
  intros Hp. apply nth_ext0; rewrite comp_nat_length; unfold identity; rewrite seq_length; [reflexivity|].
  intros i Hi. rewrite comp_nat_nth by (rewrite seq_length; assumption).
  apply seq_nth. apply perm_nth_lt; assumption.
Qed.

Lemma comp_nat_id_r p : comp_nat p (identity (length p)) = p.
Proof.
  apply nth_ext0; rewrite comp_nat_length; [reflexivity|].
  intros i Hi. rewrite comp_nat_nth by assumption. unfold identity. rewrite seq_nth by assumption. reflexivity.
Qed.

Lemma comp_nat_inv_r p : is_perm p = true -> comp_nat p (inv_nat p) = identity (length p).
Proof.
  intros Hp. apply nth_ext0; rewrite comp_nat_length; unfold identity; rewrite ?seq_length; [reflexivity|].
  intros i Hi. rewrite comp_nat_nth, seq_nth by assumption. apply inv_nat_r; assumption.
Qed.

Lemma comp_nat_inv_l p : is_perm p = true -> comp_nat (inv_nat p) p = identity (length p).
Proof.
  intros Hp. apply nth_ext0; rewrite comp_nat_length, inv_nat_length; unfold identity; rewrite ?seq_length; [reflexivity|].
  intros i Hi. rewrite comp_nat_nth, seq_nth by (rewrite ?inv_nat_length; assumption). apply inv_nat_l; assumption.
Qed.

(* ---------- from_int / to_int ---------- *)
Lemma pop_Ok (l : list nat) k : k < length l ->
  pop l k = Ok (nth k l 0, firstn k l ++ skipn (S k) l).
Proof.
  revert k. induction l as [|a l IH]; intros k Hk; [simpl in Hk; lia|].
  destruct k as [|k]; [reflexivity|]. cbn [pop]. rewrite IH by (simpl in Hk; lia). reflexivity.
Qed.

Lemma pop_length (l : list nat) k : k < length l -> length (firstn k l ++ skipn (S k) l) = length l - 1.
Proof. intros H. rewrite app_length, firstn_length, skipn_length. lia. Qed.

Lemma pop_perm (l : list nat) k : k < length l -> Permutation l (nth k l 0 :: firstn k l ++ skipn (S k) l).
Proof.
  intros H. rewrite <- (firstn_skipn k l) at 1.
  assert (E : skipn k l = nth k l 0 :: skipn (S k) l).
  { revert k H. induction l as [|a l IH]; intros k H; [simpl in H; lia|]. destruct k; [reflexivity|].
    cbn [skipn nth]. apply IH. simpl in H; lia. }
  rewrite E. symmetry. apply Permutation_middle.
Qed.

Lemma from_int_loop_ok n : forall i pool, length pool = n ->
  exists p, from_int_loop n i n pool = Ok p /\ Permutation p pool.
Proof.
  induction n as [|n IH]; intros i pool E; cbn [from_int_loop].
  - exists []. split; [reflexivity|]. destruct pool; [constructor|discriminate].
  - cbn [Nat.eqb]. assert (Hj : i mod S n < length pool) by (rewrite E; apply Nat.mod_upper_bound; lia).
    rewrite pop_Ok by assumption. cbn [bind]. replace (S n - 1) with n by lia.
    destruct (IH (i / S n) (firstn (i mod S n) pool ++ skipn (S (i mod S n)) pool)) as (p & -> & Hp).
    { rewrite pop_length by assumption. lia. }
    eexists. split; [reflexivity|]. rewrite Hp. symmetry. apply pop_perm. assumption.
Qed.

Lemma from_int_ok i n : exists p, from_int i n = Ok p /\ is_perm p = true /\ length p = n.
Proof.
  destruct (from_int_loop_ok n i (seq 0 n) (seq_length _ _)) as (p & H & Hp).
  exists p. split; [exact H|]. assert (E : length p = n) by (rewrite (Permutation_length Hp); apply seq_length).
  split; [|assumption]. apply is_perm_iff. rewrite E. assumption.
Qed.

Lemma to_int_loop_acc p : forall pool i m, to_int_loop p pool i m = rmap (fun k => i + m * k) (to_int_loop p pool 0 1).
Proof.
  induction p as [|j p IH]; intros pool i m; cbn [to_int_loop].
  - simpl. f_equal. lia.
  - destruct (index j pool) as [k|]; [|reflexivity]. cbn [bind].
    destruct (pop pool k) as [[a pool']|]; [|reflexivity]. cbn [bind].
    rewrite (IH pool' (i + k * m)), (IH pool' (0 + k * 1)).
    destruct (to_int_loop p pool' 0 1); [|reflexivity]. simpl. f_equal. nia.
Qed.

Lemma to_int_loop_ok p : forall pool, NoDup pool -> Permutation p pool ->
  exists k, to_int_loop p pool 0 1 = Ok k /\ k < fact (length p) /\ from_int_loop (length p) k (length p) pool = Ok p.
Proof.
  induction p as [|j p IH]; intros pool Hnd Hp; cbn [to_int_loop].
  - exists 0. simpl. auto.
  - assert (Hin : In j pool) by (eapply Permutation_in; [exact Hp|left; reflexivity]).
    rewrite (index_nat_Ok j pool Hin). cbn [bind].
    destruct (index_nat_spec j pool Hin) as [Hk Ej]. set (k := index_nat j pool) in *.
    rewrite pop_Ok by assumption. cbn [bind].
    set (pool' := firstn k pool ++ skipn (S k) pool).
    pose proof (pop_perm pool k Hk) as Hpp. fold pool' in Hpp. rewrite Ej in Hpp.
    assert (Hnd' : NoDup pool').
    { apply (Permutation_NoDup Hpp) in Hnd. inversion Hnd; assumption. }
    assert (Hp' : Permutation p pool').
    { apply (Permutation_cons_inv (a := j)). rewrite Hp. exact Hpp. }
    destruct (IH pool' Hnd' Hp') as (q & E & Hq & Ef).
    rewrite to_int_loop_acc, E. cbn [rmap].
    assert (El : length pool = S (length p)) by (rewrite <- (Permutation_length Hp); reflexivity).
    eexists. split; [reflexivity|]. cbn [length]. split.
    + rewrite El. rewrite El in Hk. cbn [fact].
      assert (fact (length p) <> 0) by apply fact_neq_0. nia.
    + cbn [from_int_loop Nat.eqb]. rewrite El.
      replace ((0 + k * 1 + 1 * S (length p) * q) mod S (length p)) with k.
      2:{ replace (0 + k * 1 + 1 * S (length p) * q) with (k + q * S (length p)) by lia.
          rewrite Nat.mod_add by lia. symmetry. apply Nat.mod_small. lia. }
      replace ((0 + k * 1 + 1 * S (length p) * q) / S (length p)) with q.
      2:{ replace (0 + k * 1 + 1 * S (length p) * q) with (k + q * S (length p)) by lia.
          rewrite Nat.div_add by lia. rewrite Nat.div_small by lia. reflexivity. }
      rewrite pop_Ok by assumption. cbn [bind]. fold pool'. replace (S (length p) - 1) with (length p) by lia.
      rewrite Ef. cbn [rmap]. rewrite Ej. reflexivity.
Qed.

Lemma from_to_int p : is_perm p = true ->
  exists k, to_int p = Ok k /\ k < fact (length p) /\ from_int k (length p) = Ok p.
Proof.
  intros H. apply to_int_loop_ok; [apply seq_NoDup|]. apply is_perm_iff. assumption.
Qed.

Lemma to_int_loop_from n : forall i pool p, length pool = n -> NoDup pool -> i < fact n ->
  from_int_loop n i n pool = Ok p -> to_int_loop p pool 0 1 = Ok i.
Proof.
  induction n as [|n IH]; intros i pool p El Hnd Hi; cbn [from_int_loop].
  - intros [= <-]. simpl in Hi. simpl. f_equal. lia.
  - cbn [Nat.eqb].
    assert (Hj : i mod S n < length pool) by (rewrite El; apply Nat.mod_upper_bound; lia).
    rewrite pop_Ok by assumption. cbn [bind]. replace (S n - 1) with n by lia.
    set (k := i mod S n) in *. set (pool' := firstn k pool ++ skipn (S k) pool).
    destruct (from_int_loop n (i / S n) n pool') as [q|] eqn:E; [|discriminate]. intros [= <-].
    assert (Hnd' : NoDup pool').
    { apply (Permutation_NoDup (pop_perm pool k Hj)) in Hnd. inversion Hnd; assumption. }
    apply IH in E; [|subst pool'; rewrite pop_length by assumption; lia|assumption|].
    2:{ apply Nat.div_lt_upper_bound; [lia|]. exact Hi. }
    cbn [to_int_loop]. rewrite index_nat_Ok by (apply nth_In; assumption).
    rewrite index_nat_nth by assumption. cbn [bind]. rewrite pop_Ok by assumption. cbn [bind].
    fold pool'. rewrite to_int_loop_acc, E. cbn [rmap]. f_equal. rewrite El.
    pose proof (Nat.div_mod i (S n) ltac:(lia)) as Hd. fold k in Hd. nia.
Qed.

Lemma to_from_int i n p : i < fact n -> from_int i n = Ok p -> to_int p = Ok i.
Proof.
  intros Hi H. unfold to_int. destruct (from_int_ok i n) as (p' & H' & _ & El).
  rewrite H in H'. injection H' as <-. rewrite El. apply (to_int_loop_from n i (seq 0 n) p); auto; [apply seq_length|apply seq_NoDup].
Qed.

(* ---------- sets ---------- *)
Lemma mem_In p g : mem p g = true <-> In p g.
Proof.
  unfold mem. rewrite existsb_exists. split.
  - intros (q & Hq & E). apply list_eqb_eq in E. subst. assumption.
  - intros H. exists p. split; [assumption|apply list_eqb_refl].
Qed.

Lemma set_add_In p g q : In q (set_add p g) <-> q = p \/ In q g.
Proof.
  unfold set_add. destruct (mem p g) eqn:E.
  - apply mem_In in E. split; [auto|intros [->|]; auto].
  - rewrite in_app_iff. simpl. intuition.
Qed.

Lemma NoDup_app_snoc {A} (l : list A) a : NoDup l -> ~ In a l -> NoDup (l ++ [a]).
Proof.
  intros H Ha. apply (Permutation_NoDup (l := a :: l)); [|constructor; assumption].
  apply Permutation_cons_append.
Qed.

Lemma set_add_NoDup p g : NoDup g -> NoDup (set_add p g).
Proof.
  intros H. unfold set_add. destruct (mem p g) eqn:E; [assumption|].
  apply NoDup_app_snoc; [assumption|]. rewrite <- mem_In, E. discriminate.
Qed.

Lemma union_In g l q : In q (union g l) <-> In q g \/ In q l.
Proof.
  unfold union. revert g. induction l as [|p l IH]; intros g; simpl; [tauto|].
  rewrite IH, set_add_In. intuition.
Qed.

Lemma union_NoDup g l : NoDup g -> NoDup (union g l).
Proof.
  unfold union. revert g. induction l as [|p l IH]; intros g H; simpl; [assumption|].
  apply IH, set_add_NoDup, H.
Qed.

Lemma group_ok n : exists g, group n = Ok g /\ NoDup g /\ length g = fact n /\
  (forall p, In p g <-> is_perm p = true /\ length p = n).
Proof.
  unfold group.
  destruct (mapM (fun i => from_int i n) (seq 0 (fact n))) as [l|e] eqn:E.
  2:{ apply mapM_Err in E. destruct E as (i & _ & E). destruct (from_int_ok i n) as (p & H & _). congruence. }
  cbn [bind]. exists (union [] l). split; [reflexivity|].
  assert (Hnd : NoDup (union [] l)) by (apply union_NoDup; constructor).
  assert (Hin : forall p, In p (union [] l) <-> is_perm p = true /\ length p = n).
  { intros p. rewrite union_In, (mapM_In _ _ _ E). split.
    - intros [[]|(i & _ & H)]. destruct (from_int_ok i n) as (p' & H' & ? & ?). assert (p = p') by congruence. subst; auto.
    - intros [Hp El]. right. destruct (from_to_int p Hp) as (k & _ & Hk & Hf). rewrite El in *.
      exists k. split; [apply in_seq; lia|assumption]. }
  split; [assumption|]. split; [|assumption].
  (* l has no duplicates since to_int recovers the index *)
  assert (Hl : NoDup l).
  { apply (NoDup_map_inv (fun p => match to_int p with Ok k => k | Err _ => 0 end)).
    replace (map _ l) with (seq 0 (fact n)); [apply seq_NoDup|].
    assert (G : forall k, k <= fact n -> forall s l', s + k <= fact n -> mapM (fun i => from_int i n) (seq s k) = Ok l' ->
       seq s k = map (fun p => match to_int p with Ok k => k | Err _ => 0 end) l').
    { clear. induction k as [|k IH]; intros Hk s l' Hs; cbn [seq mapM].
      - intros [= <-]. reflexivity.
      - destruct (from_int s n) as [p|] eqn:Ep; [|discriminate].
        destruct (mapM _ (seq (S s) k)) as [l0|] eqn:El; [|discriminate].
        intros [= <-]. cbn [map]. rewrite (to_from_int s n p) by (lia || assumption).
        f_equal. apply IH; try lia. assumption. }
    apply (G (fact n)); auto. }
  apply mapM_length in E. rewrite seq_length in E. rewrite <- E. apply Permutation_length.
  apply NoDup_Permutation; [assumption|assumption|]. intros p. rewrite union_In. simpl. tauto.
Qed.

(* ---------- germinate ---------- *)
Inductive generated (S : list (list nat)) : list nat -> Prop :=
| gen_in p : In p S -> generated S p
| gen_inv p q : generated S p -> inverse p = Ok q -> generated S q
| gen_comp p q r : generated S p -> generated S q -> compose p q = Ok r -> generated S r.

Definition perms_of (n : nat) (g : list (list nat)) : Prop :=
  forall p, In p g -> is_perm p = true /\ length p = n.

Lemma germinate_step_ok n g : perms_of n g -> NoDup g ->
  exists g', germinate_step g = Ok g' /\ NoDup g' /\ perms_of n g' /\ incl g g' /\
    (forall S, (forall p, In p g -> generated S p) -> forall p, In p g' -> generated S p) /\
    (forall p q, In p g -> inverse p = Ok q -> In q g') /\
    (forall p q r, In p g -> In q g -> compose p q = Ok r -> In r g').
Proof.
  intros Hg Hnd. unfold germinate_step.
  rewrite (mapM_Ok inverse inv_nat) by (intros p Hp; apply inverse_Ok, Hg, Hp). cbn [bind].
  set (g1 := union g (map inv_nat g)).
  assert (Hg1 : perms_of n g1).
  { intros p Hp. apply union_In in Hp. destruct Hp as [Hp|Hp]; [auto|].
    apply in_map_iff in Hp. destruct Hp as (q & <- & Hq). destruct (Hg q Hq).
    split; [apply inv_nat_perm; assumption|rewrite inv_nat_length; assumption]. }
  assert (Hc : forall pq, In pq (list_prod g1 g1) -> (fun '(p1, p2) => compose p1 p2) pq = Ok (comp_nat (fst pq) (snd pq))).
  { intros [p q] Hpq. apply in_prod_iff in Hpq. destruct Hpq as [Hp Hq].
    destruct (Hg1 p Hp), (Hg1 q Hq). cbn [fst snd]. apply compose_Ok; congruence. }
  rewrite (mapM_Ok _ _ _ Hc). cbn [bind]. eexists. split; [reflexivity|].
  split; [apply union_NoDup, union_NoDup, Hnd|]. split.
  { intros p Hp. apply union_In in Hp. destruct Hp as [Hp|Hp]; [auto|].
    apply in_map_iff in Hp. destruct Hp as ([q r] & <- & Hqr). apply in_prod_iff in Hqr. destruct Hqr as [Hq Hr].
    destruct (Hg1 q Hq), (Hg1 r Hr). cbn [fst snd]. rewrite comp_nat_length.
    split; [apply comp_nat_perm; congruence|assumption]. }
  split. { intros p Hp. apply union_In. left. apply union_In. left. assumption. }
  split.
  { intros S HS.
    assert (HS1 : forall p, In p g1 -> generated S p).
    { intros p Hp. apply union_In in Hp. destruct Hp as [Hp|Hp]; [auto|].
      apply in_map_iff in Hp. destruct Hp as (q & <- & Hq). apply (gen_inv S q); [auto|].
      apply inverse_Ok, Hg, Hq. }
    intros p Hp. apply union_In in Hp. destruct Hp as [Hp|Hp]; [auto|].
    apply in_map_iff in Hp. destruct Hp as ([q r] & <- & Hqr). apply in_prod_iff in Hqr as Hqr'. destruct Hqr' as [Hq Hr].
    apply (gen_comp S q r); auto. apply (Hc (q, r)). assumption. }
  split.
  { intros p q Hp Hq. apply union_In. left. apply union_In. right.
    rewrite inverse_Ok in Hq by (apply Hg, Hp). injection Hq as <-. apply in_map. assumption. }
  intros p q r Hp Hq Hr. apply union_In. right. apply in_map_iff. exists (p, q).
  assert (Hpq : In (p, q) (list_prod g1 g1)) by (apply in_prod; apply union_In; left; assumption).
  split; [|assumption]. specialize (Hc _ Hpq). cbv beta iota in Hc. congruence.
Qed.

Lemma germinate_ok n S : perms_of n S -> NoDup S ->
  forall fuel, fact n < fuel + length S ->
  exists G, germinate_loop fuel S = Some (Ok G) /\ NoDup G /\ (forall p, In p G <-> generated S p).
Proof.
  intros HS Hnd.
  enough (Gen : forall fuel g, perms_of n g -> NoDup g -> incl S g -> (forall p, In p g -> generated S p) ->
     fact n < fuel + length g ->
     exists G, germinate_loop fuel g = Some (Ok G) /\ NoDup G /\ (forall p, In p G <-> generated S p)).
  { intros fuel Hf. apply (Gen fuel S); auto; [intros p; auto|]. intros p Hp. apply gen_in. assumption. }
  induction fuel as [|fuel IH]; intros g Hg Hnd' Hincl Hgen Hf.
  - exfalso. destruct (group_ok n) as (G & _ & HG & Hlen & HGin).
    assert (length g <= length G); [|lia]. apply NoDup_incl_length; [assumption|].
    intros p Hp. apply HGin. auto.
  - cbn [germinate_loop].
    destruct (germinate_step_ok n g Hg Hnd') as (g' & -> & Hnd'' & Hg' & Hi & Hsound & Hcinv & Hccomp).
    destruct (Nat.eqb_spec (length g') (length g)) as [E|E].
    + exists g'. split; [reflexivity|]. split; [assumption|].
      assert (Hback : incl g' g) by (apply NoDup_length_incl; [assumption|lia|assumption]).
      intros p. split; [apply Hsound; assumption|].
      intros Hp. induction Hp as [p Hp|p q Hp IHp Hq|p q r Hp IHp Hq IHq Hr].
      * apply Hi, Hincl, Hp.
      * eapply Hcinv; [|exact Hq]. apply Hback. assumption.
      * eapply Hccomp; [| |exact Hr]; apply Hback; assumption.
    + apply IH; auto.
      * intros p Hp. apply Hi, Hincl, Hp.
      * assert (length g <= length g') by (apply NoDup_incl_length; assumption). lia.
Qed.

(* ---------- is_group ---------- *)
Definition subgroup (n : nat) (g : list (list nat)) : Prop :=
  In (identity n) g /\ (forall p q, In p g -> inverse p = Ok q -> In q g) /\
  (forall p q r, In p g -> In q g -> compose p q = Ok r -> In r g).

Lemma forallb_mem l g : forallb (fun p => mem p g) l = true <-> incl l g.
Proof.
  rewrite forallb_forall. split; intros H p Hp.
  - apply mem_In, H, Hp.
  - apply mem_In, H, Hp.
Qed.

Lemma is_group_ok n g : g <> [] -> perms_of n g -> exists b, is_group g = Ok b /\ (b = true <-> subgroup n g).
Proof.
  intros Hne Hg. unfold is_group. destruct g as [|p0 g0] eqn:Eg; [congruence|]. rewrite <- Eg in *.
  assert (Hp0 : length p0 = n) by (apply Hg; rewrite Eg; left; reflexivity). rewrite Hp0.
  replace (forallb (fun p => length p =? n) g) with true.
  2:{ symmetry. apply forallb_forall. intros p Hp. apply Nat.eqb_eq, Hg, Hp. }
  cbn [negb].
  destruct (mem (identity n) g) eqn:E1; cbn [negb].
  2:{ exists false. split; [reflexivity|]. split; [discriminate|]. intros (H & _). apply mem_In in H. congruence. }
  apply mem_In in E1.
  rewrite (mapM_Ok inverse inv_nat) by (intros p Hp; apply inverse_Ok, Hg, Hp). cbn [bind].
  destruct (forallb (fun p => mem p g) (map inv_nat g)) eqn:E2; cbn [negb].
  2:{ exists false. split; [reflexivity|]. split; [discriminate|]. intros (_ & H & _).
      assert (forallb (fun p => mem p g) (map inv_nat g) = true); [|congruence].
      apply forallb_mem. intros q Hq. apply in_map_iff in Hq. destruct Hq as (p & <- & Hp).
      apply (H p); [assumption|]. apply inverse_Ok, Hg, Hp. }
  apply forallb_mem in E2.
  assert (Hc : forall pq, In pq (list_prod g g) -> (fun '(p1, p2) => compose p1 p2) pq = Ok (comp_nat (fst pq) (snd pq))).
  { intros [p q] Hpq. apply in_prod_iff in Hpq. destruct Hpq as [Hp Hq].
    destruct (Hg p Hp), (Hg q Hq). cbn [fst snd]. apply compose_Ok; congruence. }
  rewrite (mapM_Ok _ _ _ Hc). cbn [bind]. eexists. split; [reflexivity|].
  rewrite forallb_mem. split.
  - intros H. split; [assumption|]. split.
    + intros p q Hp Hq. rewrite inverse_Ok in Hq by (apply Hg, Hp). injection Hq as <-. apply E2, in_map, Hp.
    + intros p q r Hp Hq Hr. apply H. apply in_map_iff. exists (p, q). split; [|apply in_prod; assumption].
      specialize (Hc (p, q) (in_prod _ _ _ _ Hp Hq)). cbv beta iota in Hc. congruence.
  - intros (_ & _ & H) r Hr. apply in_map_iff in Hr. destruct Hr as ([p q] & <- & Hpq).
    pose proof (Hc _ Hpq) as Hc'. apply in_prod_iff in Hpq. destruct Hpq. exact (H p q _ H0 H1 Hc').
Qed.
