(* slice_by_mul and extend_with_zeros on IrrepsArray *)
From Verif Require Import PyBase PermModel PermProofs IrrepsModel IrrepsProofs IrrepsProofs2 ArrayModel ArrayProofs ArrayOps RechunkProofs.
From Coq Require Import Reals Permutation.
Open Scope nat_scope.

Lemma list_slice_app {A} (u v : list A) a b : list_slice (u ++ v) a b = list_slice u a b ++ list_slice v (a - length u) (b - length u).
Proof.
  unfold list_slice. rewrite skipn_app, firstn_app, skipn_length. f_equal.
  destruct (le_lt_dec (length u) a).
  - f_equal. lia.
  - replace (a - length u) with 0 by lia. cbn [skipn]. f_equal. lia.
Qed.
Lemma list_slice_all {A} (u : list A) b : length u <= b -> list_slice u 0 b = u.
Proof. intros H. unfold list_slice. cbn [skipn]. apply firstn_all2. lia. Qed.
Lemma list_slice_none {A} (u : list A) a b : length u <= a \/ b <= a -> list_slice u a b = [].
Proof. intros [H|H]; unfold list_slice; [rewrite skipn_all2 by exact H; apply firstn_nil|]. replace (b - a) with 0 by lia. reflexivity. Qed.
Lemma list_slice_min {A} (u : list A) a b : list_slice u a (Nat.min b (length u)) = list_slice u a b.
Proof.
  unfold list_slice. destruct (le_lt_dec b (length u)); [f_equal; lia|]. rewrite Nat.min_r by lia.
  rewrite !firstn_all2 by (rewrite skipn_length; lia). reflexivity.
Qed.
Lemma list_slice_length {A} (u : list A) a b : length (list_slice u a b) = Nat.min b (length u) - a.
Proof. unfold list_slice. rewrite firstn_length, skipn_length. lia. Qed.
Lemma list_slice_repeat {A} (c : A) n a b : list_slice (repeat c n) a b = repeat c (Nat.min b n - a).
Proof. unfold list_slice. rewrite skipn_repeat, firstn_repeat. f_equal. lia. Qed.
Lemma Forall_list_slice {A} (P : A -> Prop) u a b : Forall P u -> Forall P (list_slice u a b).
Proof. intros H. unfold list_slice. apply Forall_forall. intros c Hc. rewrite Forall_forall in H. apply H. assert (In c (skipn a u)) by (rewrite <- (firstn_skipn (b - a)); apply in_or_app; left; exact Hc). rewrite <- (firstn_skipn a u). apply in_or_app. right. assumption. Qed.

(* no entry without chunk is cut by the bounds a, b *)
Fixpoint cut_free (a b k : nat) (src : list (mulirrep * option chunk)) : Prop :=
  match src with
  | [] => True
  | ((mul, ir), c) :: src =>
      (c = None -> (a <= k /\ k + mul <= b) \/ k + mul <= a \/ b <= k) /\ cut_free a b (k + mul) src
  end.

Definition zpairs (l : list (mulirrep * option chunk)) : list (Z * irrep) := map (fun '((m, ir), _) => (Z.of_nat m, ir)) l.

Lemma ia_mul_slice_ok s a b : a <= b -> forall src k, Forall (wf_pair s) src -> cut_free a b k src ->
  exists L, ia_mul_slice_loop (Z.of_nat a) (Z.of_nat b) k src = Ok (zpairs L, map snd L) /\
    zpairs L = mul_slice_loop (Z.of_nat a) (Z.of_nat b) k (map fst src) /\
    Forall (wf_pair s) L /\
    flat (map fst L) = list_slice (flat (map fst src)) (a - k) (b - k) /\
    forall i, valid s i -> srows L i = list_slice (srows src i) (a - k) (b - k).
Proof.
  intros Hab. induction src as [|[[mul ir] c] src IH]; intros k W C.
  - exists []. cbn. unfold list_slice. rewrite !skipn_nil, !firstn_nil. repeat split; auto.
  - inversion W as [|? ? W1 W2]; subst. cbn [cut_free] in C. destruct C as [C1 C2]. destruct (IH (k + mul) W2 C2) as (L & E1 & E2 & E3 & E4 & E5).
    assert (Fl : forall X, repeat ir X ++ flat (map fst L) = repeat ir X ++ list_slice (flat (map fst src)) (a - k - mul) (b - k - mul)).
    { intros X. rewrite E4. f_equal. f_equal; lia. }
    assert (Rl : forall i, valid s i -> srows L i = list_slice (srows src i) (a - k - mul) (b - k - mul)).
    { intros i Hi. rewrite E5 by exact Hi. f_equal; lia. }
    assert (RL : forall i, valid s i -> length (rows_of (mul, ir) c i) = mul).
    { intros i Hi. apply (rows_of_wf _ _ _ _ W1 Hi). }
    cbn [ia_mul_slice_loop mul_slice_loop map fst].
    destruct ((Z.of_nat a <=? Z.of_nat k) && (Z.of_nat k + Z.of_nat mul <=? Z.of_nat b))%Z eqn:Full.
    + exists (((mul, ir), c) :: L). rewrite E1. cbn [bind zpairs map fst snd]. fold (zpairs L). rewrite E2. split; [reflexivity|]. split; [reflexivity|].
      split; [constructor; assumption|]. split.
      * rewrite !flat_cons, list_slice_app, repeat_length, Fl. f_equal. replace (a - k) with 0 by lia. rewrite list_slice_all by (rewrite repeat_length; lia). reflexivity.
      * intros i Hi. cbn [srows flat_map fst snd]. fold (srows L i) (srows src i). rewrite list_slice_app, (RL i Hi), (Rl i Hi). f_equal.
        replace (a - k) with 0 by lia. symmetry. apply list_slice_all. rewrite RL by exact Hi. lia.
    + destruct ((Z.of_nat a <? Z.of_nat k + Z.of_nat mul) && (Z.of_nat k <? Z.of_nat b))%Z eqn:Part.
      * destruct c as [c|]; [|destruct (C1 eq_refl); lia].
        set (m' := Nat.min (b - k) mul - (a - k)).
        assert (Em : (Z.min (Z.of_nat b) (Z.of_nat k + Z.of_nat mul) - Z.max (Z.of_nat a) (Z.of_nat k) = Z.of_nat m')%Z) by (unfold m'; lia).
        rewrite E1. cbn [bind]. rewrite Em.
        set (ca := (Z.max (Z.of_nat a) (Z.of_nat k) - Z.of_nat k)%Z). set (cb := (Z.min (Z.of_nat b) (Z.of_nat k + Z.of_nat mul) - Z.of_nat k)%Z).
        assert (Eca : Z.to_nat ca = a - k) by (unfold ca; lia). assert (Ecb : Z.to_nat cb = Nat.min (b - k) mul) by (unfold cb; lia).
        exists (((m', ir), Some (chunk_slice ca cb c)) :: L). cbn [zpairs map fst snd]. fold (zpairs L). rewrite E2. split; [reflexivity|]. split; [reflexivity|].
        destruct W1 as (V1 & V2 & V3 & V4). cbn [fst snd] in *.
        assert (CV : forall i, valid s i -> c_val (chunk_slice ca cb c) i = list_slice (c_val c i) (a - k) (b - k)).
        { intros i Hi. cbn. rewrite Eca, Ecb. destruct (V4 i Hi) as [LL _]. rewrite <- LL. apply list_slice_min. }
        split; [|split].
        { constructor; [|exact E3]. cbn. unfold wf_chunk. split; [exact V1|]. split; [cbn; rewrite Eca, Ecb, V2; unfold m'; lia|]. split; [exact V3|].
          intros i Hi. rewrite CV by exact Hi. destruct (V4 i Hi) as [LL FF]. cbn [fst snd]. split; [rewrite list_slice_length, LL; reflexivity|apply Forall_list_slice, FF]. }
        { rewrite !flat_cons, list_slice_app, repeat_length, list_slice_repeat. apply Fl. }
        { intros i Hi. cbn [srows flat_map fst snd]. fold (srows L i) (srows src i). rewrite list_slice_app, (RL i Hi), (Rl i Hi). f_equal. apply CV, Hi. }
      * exists L. rewrite E1. split; [reflexivity|]. split; [exact E2|]. split; [exact E3|]. split.
        { rewrite flat_cons, list_slice_app, repeat_length, list_slice_repeat. replace (Nat.min (b - k) mul - (a - k)) with 0 by lia. apply (Fl 0). }
        { intros i Hi. cbn [srows flat_map fst snd]. fold (srows src i). rewrite list_slice_app, (RL i Hi), (Rl i Hi), (list_slice_none (rows_of (mul, ir) c i)); [reflexivity|]. rewrite RL by exact Hi. lia. }
Qed.

Lemma ia_mul_slice_err s a b : a <= b -> forall src k, Forall (wf_pair s) src -> ~ cut_free a b k src ->
  ia_mul_slice_loop (Z.of_nat a) (Z.of_nat b) k src = Err TypeError.
Proof.
  intros Hab. induction src as [|[[mul ir] c] src IH]; intros k W C; [cbn in C; tauto|].
  inversion W as [|? ? W1 W2]; subst. cbn [cut_free] in C. cbn [ia_mul_slice_loop].
  assert (Dec : cut_free a b (k + mul) src \/ ~ cut_free a b (k + mul) src).
  { clear. generalize (k + mul). induction src as [|[[m i] c] src IH]; intros n; [left; exact I|]. cbn [cut_free].
    destruct (IH (n + m)) as [H|H]; [|right; tauto]. destruct c as [c|]; [left; split; [discriminate|exact H]|].
    destruct (le_lt_dec a n), (le_lt_dec (n + m) b), (le_lt_dec (n + m) a), (le_lt_dec b n); (left; split; [intros _; lia|exact H]) || (right; intros [X _]; specialize (X eq_refl); lia). }
  destruct ((Z.of_nat a <=? Z.of_nat k) && (Z.of_nat k + Z.of_nat mul <=? Z.of_nat b))%Z eqn:Full.
  - rewrite IH; [reflexivity|exact W2|]. intros H. apply C. split; [intros _; lia|exact H].
  - destruct ((Z.of_nat a <? Z.of_nat k + Z.of_nat mul) && (Z.of_nat k <? Z.of_nat b))%Z eqn:Part.
    + destruct c as [c|]; [|reflexivity]. rewrite IH; [reflexivity|exact W2|]. intros H. apply C. split; [discriminate|exact H].
    + apply IH; [exact W2|]. intros H. apply C. split; [intros _; lia|exact H].
Qed.

Lemma zpairs_mk l : mk_irreps (zpairs l) = Ok (map fst l).
Proof. rewrite <- (mk_irreps_ok (map fst l)). f_equal. unfold zpairs. rewrite map_map. apply map_ext. intros [[m ir] c]. reflexivity. Qed.

Lemma den_srows l i : concat (map (den_pair i) l) = concat (srows l i).
Proof. induction l as [|[m c] l IH]; [reflexivity|]. cbn [map concat srows flat_map fst snd]. fold (srows l i). rewrite concat_app, IH. unfold den_pair. cbn [fst snd]. rewrite den_rows. reflexivity. Qed.

(* the rows of length ir.dim of the array, one per irrep instance *)
Definition instances (x : irreps) (row : list R) : list (list R) :=
  flat_map (fun '(m, b) => group_rows (fst m) (ir_dim (snd m)) b) (combine x (blocks x row)).

Lemma instances_srows x : coherent x -> forall i, valid (lead x) i -> instances (irr x) (arr x i) = srows (pairs x) i.
Proof.
  intros H i Hi. unfold instances. rewrite (pairs_blocks x i H Hi). rewrite <- (pairs_fst x H) at 1. rewrite combine_of_map.
  pose proof (pairs_wf x H) as W. induction W as [|[m c] l W1 W2 IH]; [reflexivity|]. cbn [map flat_map srows fst snd]. fold (srows l i). rewrite <- IH. f_equal.
  unfold den_pair. cbn [fst snd]. rewrite den_rows. destruct (rows_of_wf _ _ _ _ W1 Hi) as [L F]. cbn [fst snd] in *. apply group_rows_concat; assumption.
Qed.
Lemma concat_instances x : coherent x -> forall i, valid (lead x) i -> concat (instances (irr x) (arr x i)) = arr x i.
Proof. intros H i Hi. rewrite (instances_srows x H i Hi). symmetry. apply srows_arr; assumption. Qed.

Lemma cut_free_iff a b : forall src k, cut_free a b k src <->
  forall n m ir, nth_error src n = Some ((m, ir), None) ->
    let lo := k + num_irreps (map fst (firstn n src)) in (a <= lo /\ lo + m <= b) \/ lo + m <= a \/ b <= lo.
Proof.
  induction src as [|[[mul ir] c] src IH]; intros k; cbn [cut_free].
  - split; [intros _ [|n] m ir H; discriminate|auto].
  - rewrite IH. split.
    + intros [H1 H2] [|n] m ir' E; cbn [nth_error firstn map] in *.
      * injection E as <- <- ->. change (num_irreps []) with 0. rewrite Nat.add_0_r. auto.
      * specialize (H2 n m ir' E). cbn [fst]. rewrite num_irreps_cons, Nat.add_assoc. exact H2.
    + intros H. split.
      * intros ->. specialize (H 0 mul ir eq_refl). cbn in H. rewrite Nat.add_0_r in H. exact H.
      * intros n m ir' E. specialize (H (S n) m ir' E). cbn [firstn map fst] in H. rewrite num_irreps_cons, Nat.add_assoc in H. exact H.
Qed.

(* a zero chunk is cut by the bounds *)
Definition cuts_zero_chunk (x : iarray) (a b : nat) : Prop :=
  exists n m, nth_error (irr x) n = Some m /\ nth_error (chunks x) n = Some None /\
    let lo := num_irreps (firstn n (irr x)) in ~ ((a <= lo /\ lo + fst m <= b) \/ lo + fst m <= a \/ b <= lo).

Lemma cuts_cut_free x a b : coherent x -> cut_free a b 0 (pairs x) <-> ~ cuts_zero_chunk x a b.
Proof.
  intros H. rewrite cut_free_iff. split.
  - intros C (n & [m ir] & E1 & E2 & N). apply N. specialize (C n m ir). unfold pairs in C at 1. rewrite nth_error_combine, E1, E2 in C. specialize (C eq_refl).
    rewrite <- firstn_map, (pairs_fst x H) in C. cbn in *. exact C.
  - intros N n m ir E. unfold pairs in E. rewrite nth_error_combine in E. destruct (nth_error (irr x) n) as [[m' ir']|] eqn:E1; [|discriminate].
    destruct (nth_error (chunks x) n) as [c|] eqn:E2; [|discriminate]. injection E as -> -> ->.
    rewrite <- firstn_map, (pairs_fst x H). cbn. set (lo := num_irreps (firstn n (irr x))).
    destruct (le_lt_dec a lo), (le_lt_dec (lo + m) b), (le_lt_dec (lo + m) a), (le_lt_dec b lo); try lia; exfalso; apply N; exists n, (m, ir); repeat split; auto; cbn; fold lo; lia.
Qed.

Lemma slice_by_mul_yields x sl a b : coherent x ->
  slice_indices sl (num_irreps (irr x)) = Ok (Z.of_nat a, Z.of_nat b, 1%Z) -> a <= b -> ~ cuts_zero_chunk x a b ->
  exists new, slice_by_mul (irr x) sl = Ok new /\
   yields (ia_slice_by_mul x sl) new (lead x) (fun i => concat (list_slice (instances (irr x) (arr x i)) a b)).
Proof.
  intros H Es Hab C. apply cuts_cut_free in C; [|exact H].
  destruct (ia_mul_slice_ok (lead x) a b Hab (pairs x) 0 (pairs_wf x H) C) as (L & E1 & E2 & E3 & E4 & E5).
  rewrite (pairs_fst x H) in E2. rewrite !Nat.sub_0_r in E5.
  exists (map fst L). unfold slice_by_mul, ia_slice_by_mul. rewrite Es. cbn [bind]. change (negb (1 =? 1)%Z) with false. cbv iota.
  fold (pairs x). rewrite E1. cbn [bind]. rewrite <- E2, zpairs_mk. cbn [bind]. split; [reflexivity|].
  eapply (yields_from_pairs L); [reflexivity|exact E3|reflexivity|].
  intros i Hi. rewrite den_srows, E5, instances_srows by assumption. reflexivity.
Qed.
Lemma slice_by_mul_cut x sl a b : coherent x ->
  slice_indices sl (num_irreps (irr x)) = Ok (Z.of_nat a, Z.of_nat b, 1%Z) -> a <= b -> cuts_zero_chunk x a b -> ia_slice_by_mul x sl = Err TypeError.
Proof.
  intros H Es Hab C. unfold ia_slice_by_mul. rewrite Es. cbn [bind]. change (negb (1 =? 1)%Z) with false. cbv iota. fold (pairs x).
  rewrite (ia_mul_slice_err (lead x)); [reflexivity|exact Hab|apply pairs_wf, H|]. intros F. apply (cuts_cut_free x a b H) in F. contradiction.
Qed.

(* ---------- extend_with_zeros ---------- *)
Inductive subseq {A} : list A -> list A -> Prop :=
| sub_nil l : subseq [] l
| sub_take a l l' : subseq l l' -> subseq (a :: l) (a :: l')
| sub_skip a l l' : subseq l l' -> subseq l (a :: l').

(* put the blocks at the selected places and zeros at the others *)
Fixpoint place (sel : list bool) (new : irreps) (bs : list (list R)) : list (list R) :=
  match sel, new with
  | true :: sel, _ :: new => match bs with b :: bs => b :: place sel new bs | [] => [] end
  | false :: sel, m :: new => zero_row (mi_dim m) :: place sel new bs
  | _, _ => []
  end.

Lemma mi_eqb_eq a b : mi_eqb a b = true <-> a = b.
Proof. destruct a, b. unfold mi_eqb. cbn. rewrite andb_true_iff, Nat.eqb_eq, irrep_eqb_eq. split; [intros [-> ->]; reflexivity|intros E; injection E; auto]. Qed.

Lemma subseq_cons_inv {A} (a : A) l l' : subseq (a :: l) l' -> subseq l l'.
Proof. intros H. remember (a :: l) as k. revert a l Heqk. induction H; intros; subst; try discriminate; [injection Heqk as -> ->; constructor; assumption|constructor; eapply IHsubseq; reflexivity]. Qed.

Lemma extend_loop_spec s : forall new cur cs ok, Forall (wf_pair s) cur -> extend_loop cur new = (cs, ok) ->
  (ok = true <-> subseq (map fst cur) new) /\
  (ok = true -> exists sel, length sel = length new /\ select sel new = map fst cur /\ Forall2 (wf_opt s) new cs /\
     forall i, map (fun '(m, c) => den m c i) (combine new cs) = place sel new (map (den_pair i) cur)).
Proof.
  induction new as [|m new IH]; intros cur cs ok W E; cbn [extend_loop] in E.
  - injection E as <- <-. destruct cur as [|p cur]; cbn.
    + split; [split; [constructor|reflexivity]|]. intros _. exists []. repeat split; constructor.
    + split; [split; [discriminate|intros H; inversion H]|discriminate].
  - destruct cur as [|[m' c] cur].
    + injection E as <- <-. split; [split; [constructor|reflexivity]|]. intros _. exists (repeat false (S (length new))). split; [apply repeat_length|].
      assert (G : forall n, Forall2 (wf_opt s) n (repeat None (length n)) /\ select (repeat false (length n)) n = [] /\
         forall i, map (fun '(m, c) => den m c i) (combine n (repeat None (length n))) = place (repeat false (length n)) n []).
      { induction n as [|p n (I1 & I2 & I3)]; [repeat split; constructor|]. cbn [length repeat]. split; [constructor; [exact I|exact I1]|]. split; [exact I2|].
        intros i. cbn [combine map place]. rewrite I3. reflexivity. }
      destruct (G (m :: new)) as (G1 & G2 & G3). split; [exact G2|]. split; [exact G1|exact G3].
    + inversion W as [|? ? W1 W2]; subst. destruct (mi_eqb m' m) eqn:Em.
      * apply mi_eqb_eq in Em. subst m'. destruct (extend_loop cur new) as [l ok'] eqn:El. injection E as <- <-. destruct (IH _ _ _ W2 El) as [I1 I2]. split.
        { rewrite I1. cbn [map fst]. split; [intros H; constructor; exact H|]. intros H. inversion H; subst; [assumption|]. eapply subseq_cons_inv; eassumption. }
        { intros Hok. destruct (I2 Hok) as (sel & S1 & S2 & S3 & S4). exists (true :: sel). cbn. split; [congruence|]. split; [congruence|]. split; [constructor; assumption|].
          intros i. rewrite S4. reflexivity. }
      * destruct (extend_loop ((m', c) :: cur) new) as [l ok'] eqn:El. injection E as <- <-. destruct (IH _ _ _ W El) as [I1 I2]. split.
        { rewrite I1. split; [intros H; constructor; exact H|]. intros H. cbn [map fst] in *. inversion H; subst; [|assumption].
          assert (mi_eqb m m = true) by (apply mi_eqb_eq; reflexivity). congruence. }
        { intros Hok. destruct (I2 Hok) as (sel & S1 & S2 & S3 & S4). exists (false :: sel). cbn [length select]. split; [congruence|]. split; [exact S2|]. split; [constructor; [exact I|exact S3]|].
          intros i. cbn [combine map place]. rewrite S4. reflexivity. }
Qed.

Lemma extend_with_zeros_yields x new : coherent x -> subseq (irr x) new ->
  exists sel, length sel = length new /\ select sel new = irr x /\
    yields (extend_with_zeros x new) new (lead x) (fun i => concat (place sel new (blocks (irr x) (arr x i)))).
Proof.
  intros H Hs. unfold extend_with_zeros. fold (pairs x). destruct (extend_loop (pairs x) new) as [cs ok] eqn:E.
  destruct (extend_loop_spec (lead x) _ _ _ _ (pairs_wf x H) E) as [I1 I2]. rewrite (pairs_fst x H) in *. apply I1 in Hs. subst ok.
  destruct (I2 eq_refl) as (sel & S1 & S2 & S3 & S4). exists sel. split; [exact S1|]. split; [exact S2|]. cbn [negb].
  destruct (from_chunks_ok new cs (lead x) true S3 (or_introl eq_refl)) as (y & F & F1 & F2 & F3 & F4 & _). exists y. repeat split; auto; try apply F3.
  intros i Hi. rewrite (F4 i Hi). unfold chunks_row. rewrite flat_map_concat_map, S4, (pairs_blocks x i H Hi). reflexivity.
Qed.
Lemma extend_with_zeros_rejects x new : coherent x -> ~ subseq (irr x) new -> extend_with_zeros x new = Err ValueError.
Proof.
  intros H Hs. unfold extend_with_zeros. fold (pairs x). destruct (extend_loop (pairs x) new) as [cs ok] eqn:E.
  destruct (extend_loop_spec (lead x) _ _ _ _ (pairs_wf x H) E) as [I1 _]. rewrite (pairs_fst x H) in *. destruct ok; [exfalso; apply Hs, I1; reflexivity|reflexivity].
Qed.
