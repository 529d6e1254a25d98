(* The optimised branch: the tuples of powers are the words up to order. *)
From Coq Require Import Reals Lra Lia List Arith Permutation Sorted ZArith.
From Verif Require Import PyBase PermModel PermProofs IrrepsModel IrrepsProofs IrrepsProofs2 ArrayModel ArrayProofs ArrayOps RechunkProofs LeadModel LeadProofs StackProofs ActProofs EquivProofs EntryProofs LinearProofs ScatterProps SumR S2Proofs3 TPModel TPProofs TPProofs2 RotationModel RotationProofs CGModel WignerModel WignerProofs WignerProofs2 WignerProps WignerProps2 CGComplete SymModel SymProofs SymProofs2 SymProps3 SchurProofs MultProofs CouplingProofs ReducedProofs ConstrainProofs RtpModel RtpSpace RtpTools RtpArr RtpMasks RtpPerm RtpSymModel RtpWords RtpSymmetrize RtpFamily.
From Verif Require GradProofs.
Import ListNotations.
Open Scope R_scope.

Definition word_of (p : list nat) : list nat := repeat_indices (non_zero_indices p) (non_zero_powers p).
Lemma nonzero_cons m p : non_zero_indices (m :: p) = (if (m =? 0)%nat then [] else [0%nat]) ++ map S (non_zero_indices p).
Proof.
  unfold non_zero_indices. cbn [length seq]. assert (E : filter (fun i => negb (nth i (m :: p) 0 =? 0)%nat) (seq 1 (length p)) = map S (filter (fun i => negb (nth i p 0 =? 0)%nat) (seq 0 (length p)))) by (rewrite <- seq_shift; apply filter_true_map; reflexivity).
  cbn [filter]. rewrite E. change (nth 0 (m :: p) 0%nat) with m. destruct (m =? 0)%nat; reflexivity.
Qed.
Lemma repeat_map_S idxs pows : repeat_indices (map S idxs) pows = map S (repeat_indices idxs pows).
Proof. unfold repeat_indices. revert pows. induction idxs as [|i idxs IH]; intros [|q pows]; try reflexivity. cbn [map combine flat_map]. rewrite IH, map_app, map_repeat. reflexivity. Qed.
Lemma word_cons m p : word_of (m :: p) = repeat 0%nat m ++ map S (word_of p).
Proof.
  unfold word_of. rewrite nonzero_cons. unfold non_zero_powers. cbn [filter]. destruct (Nat.eqb_spec m 0) as [-> |N]; cbn [negb app].
  - apply repeat_map_S.
  - unfold repeat_indices at 1. cbn [combine flat_map]. f_equal. apply repeat_map_S.
Qed.
Lemma word_length p : length (word_of p) = PyBase.sum p.
Proof. induction p as [|m p IH]; [reflexivity|]. rewrite word_cons, app_length, repeat_length, map_length, IH. reflexivity. Qed.
Lemma word_bound p i : In i (word_of p) -> (i < length p)%nat.
Proof.
  revert i. induction p as [|m p IH]; intros i H; [contradiction|]. rewrite word_cons in H. apply in_app_or in H as [H|H]; [apply repeat_spec in H; subst; cbn; lia|]. apply in_map_iff in H as (j & <- & H). specialize (IH j H). cbn. lia.
Qed.
Lemma count_map_S l i : count_occ Nat.eq_dec (map S l) (S i) = count_occ Nat.eq_dec l i.
Proof. symmetry. apply count_occ_map. intros x y E. congruence. Qed.
Lemma count_repeat0 m i : count_occ Nat.eq_dec (repeat 0%nat m) i = if (i =? 0)%nat then m else 0%nat.
Proof. destruct (Nat.eqb_spec i 0) as [-> |N]; [apply count_occ_repeat_eq; reflexivity|apply count_occ_repeat_neq; congruence]. Qed.
Lemma word_count p i : (i < length p)%nat -> count_occ Nat.eq_dec (word_of p) i = nth i p 0%nat.
Proof.
  revert i. induction p as [|m p IH]; intros i H; [cbn in H; lia|]. rewrite word_cons, count_occ_app, count_repeat0. destruct i as [|i].
  - cbn [Nat.eqb nth]. assert (E : count_occ Nat.eq_dec (map S (word_of p)) 0%nat = 0%nat) by (apply count_occ_not_In; intros Q; apply in_map_iff in Q as (j & Q & _); discriminate). rewrite E. lia.
  - cbn [Nat.eqb nth]. rewrite count_map_S. apply IH. cbn in H. lia.
Qed.
Lemma sum_counts l k : (forall i, In i l -> (i < k)%nat) -> PyBase.sum (map (count_occ Nat.eq_dec l) (seq 0 k)) = length l.
Proof.
  intros B. induction l as [|a l IH].
  - clear. induction (seq 0 k) as [|i s IH]; [reflexivity|]. exact IH.
  - specialize (IH (fun i H => B i (or_intror H))). cbn [length]. rewrite <- IH. assert (Ha : In a (seq 0 k)) by (apply in_seq; specialize (B a (or_introl eq_refl)); lia). clear IH B. revert Ha. pose proof (seq_NoDup k 0) as N. induction (seq 0 k) as [|i s IHs]; [contradiction|]. inversion N; subst. intros [-> |Ha].
    + unfold PyBase.sum in *. cbn [map fold_right]. rewrite (count_occ_cons_eq Nat.eq_dec l eq_refl). assert (E : map (count_occ Nat.eq_dec (a :: l)) s = map (count_occ Nat.eq_dec l) s) by (apply map_ext_in; intros j Hj; apply count_occ_cons_neq; intros ->; contradiction). rewrite E. lia.
    + unfold PyBase.sum in *. cbn [map fold_right]. rewrite (count_occ_cons_neq Nat.eq_dec l) by (intros ->; contradiction). rewrite IHs by assumption. lia.
Qed.
Lemma NoDup_map_on {A B} (f : A -> B) l : NoDup l -> (forall x y, In x l -> In y l -> f x = f y -> x = y) -> NoDup (map f l).
Proof. induction 1 as [|a l N H IH]; intros I; [constructor|]. cbn [map]. constructor; [|apply IH; intros; apply I; auto with datatypes]. intros Q. apply in_map_iff in Q as (b & Q & Hb). apply I in Q; [subst; contradiction|right; exact Hb|left; reflexivity]. Qed.
Lemma perm_permute (u w : list nat) : Permutation w u -> exists q, is_perm q = true /\ length q = length u /\ permute u q = w.
Proof.
  intros P. destruct (proj1 (Permutation_nth u w 0%nat) (Permutation_sym P)) as (L & f & Bf & If & E). exists (map f (seq 0 (length u))). assert (Lq : length (map f (seq 0 (length u))) = length u) by (rewrite map_length; apply seq_length). split; [|split; [exact Lq|]].
  - apply is_perm_iff. rewrite Lq. apply NoDup_Permutation_bis.
    + apply NoDup_map_on; [apply seq_NoDup|]. intros x y Hx Hy Q. apply in_seq in Hx, Hy. apply If; [lia|lia|exact Q].
    + rewrite seq_length, Lq. lia.
    + intros y Hy. apply in_map_iff in Hy as (x & <- & Hx). apply in_seq in Hx. apply in_seq. split; [lia|]. apply Bf. lia.
  - unfold permute. rewrite map_map. apply (nth_ext _ _ 0%nat 0%nat); [rewrite map_length, seq_length; congruence|]. intros j Hj. rewrite map_length, seq_length in Hj. rewrite (nth_map_at (fun x => nth (f x) u 0%nat) (seq 0 (length u)) j 0%nat 0%nat) by (rewrite seq_length; exact Hj). rewrite seq_nth by exact Hj. symmetry. apply E. exact Hj.
Qed.
Lemma arrangement s w : In w (map fst (distinct_permutations s)) <-> Permutation w s.
Proof.
  split.
  - intros H. apply in_map_iff in H as ([u p] & <- & H). apply distinct_in in H as (P & L & ->). cbn [fst]. unfold permute. apply is_perm_iff in P. rewrite L in P. apply (Permutation_map (fun i => nth i s 0%nat)) in P. rewrite map_nth_all in P. exact P.
  - intros P. destruct (perm_permute s w P) as (q & Pq & Lq & <-). apply distinct_all; assumption.
Qed.
Section Tuples.
Variables (cs : list irrep) (n : nat).
Hypothesis Hk : (1 <= length cs)%nat.
Notation ts := (tuples_with_sum (length cs) n).
Lemma tuple_word p : In p ts -> In (word_of p) (words cs n).
Proof. intros H. apply C50_tuples in H as [L E]; [|exact Hk]. apply in_words. split; [rewrite word_length; exact E|]. intros i Hi. apply word_bound in Hi. lia. Qed.
Lemma tuple_counts p w : length p = length cs -> Permutation w (word_of p) -> p = map (count_occ Nat.eq_dec w) (seq 0 (length cs)).
Proof.
  intros L P. apply (nth_ext _ _ 0%nat 0%nat); [rewrite map_length, seq_length; exact L|]. intros i Hi. rewrite L in Hi. rewrite (nth_map_at (count_occ Nat.eq_dec w) (seq 0 (length cs)) i 0%nat 0%nat) by (rewrite seq_length; exact Hi). rewrite seq_nth by exact Hi. cbn [Nat.add]. rewrite (proj1 (Permutation_count_occ Nat.eq_dec w (word_of p)) P i). symmetry. apply word_count. lia.
Qed.
Lemma tuple_words : (forall s, In s (map word_of ts) -> In s (words cs n)) /\ pairwise (fun s s' => forall w, In w (map fst (distinct_permutations s)) -> ~ In w (map fst (distinct_permutations s'))) (map word_of ts) /\ (forall w, In w (words cs n) -> exists s, In s (map word_of ts) /\ In w (map fst (distinct_permutations s))).
Proof.
  split; [|split].
  - intros s H. apply in_map_iff in H as (p & <- & H). apply tuple_word, H.
  - rewrite pairwise_map. apply (pairwise_impl (fun a b => a <> b)); [|apply pairwise_nodup, C50_tuples_once]. intros p p' Hp Hp' N w Hw Hw'. apply arrangement in Hw, Hw'. apply C50_tuples in Hp as [L _]; [|exact Hk]. apply C50_tuples in Hp' as [L' _]; [|exact Hk]. apply N. rewrite (tuple_counts p w L Hw), (tuple_counts p' w L' Hw'). reflexivity.
  - intros w Hw. apply in_words in Hw as [Lw Bw]. set (p := map (count_occ Nat.eq_dec w) (seq 0 (length cs))). assert (Lp : length p = length cs) by (unfold p; rewrite map_length; apply seq_length). exists (word_of p). split.
    + apply in_map. apply C50_tuples; [exact Hk|]. split; [exact Lp|]. unfold p. rewrite sum_counts by exact Bw. exact Lw.
    + apply arrangement. apply (Permutation_count_occ Nat.eq_dec). intros i. destruct (Nat.lt_ge_cases i (length cs)) as [H|H].
      * rewrite word_count by lia. unfold p. rewrite (nth_map_at (count_occ Nat.eq_dec w) (seq 0 (length cs)) i 0%nat 0%nat) by (rewrite seq_length; exact H). rewrite seq_nth by exact H. reflexivity.
      * transitivity 0%nat; [|symmetry]; apply count_occ_not_In; intros Q; [specialize (Bw i Q)|apply word_bound in Q]; lia.
Qed.
End Tuples.
