(* Sign and cycles of permutations.  A permutation of {0..n-1} is handled as a function f with [bij n f]. *)
From Verif Require Import PyBase PermModel PermProofs.
From Coq Require Import Permutation.

Definition bij (n : nat) (f : nat -> nat) : Prop := (forall i, i < n -> f i < n) /\ (forall i j, i < n -> j < n -> f i = f j -> i = j).
Notation iter := Nat.iter.

Lemma iter_add {A} (f : A -> A) a b x : iter (a + b) f x = iter a f (iter b f x).
Proof. induction a as [|a IH]; cbn [Nat.iter Nat.add]; [reflexivity|]. unfold Nat.iter in IH. cbn. unfold Nat.iter. rewrite IH. reflexivity. Qed.
Lemma iter_S {A} (f : A -> A) a x : iter (S a) f x = f (iter a f x).
Proof. reflexivity. Qed.
Lemma iter_lt n f k i : bij n f -> i < n -> iter k f i < n.
Proof. intros B H. induction k as [|k IH]; [exact H|]. rewrite iter_S. apply B, IH. Qed.
Lemma iter_inj n f k i j : bij n f -> i < n -> j < n -> iter k f i = iter k f j -> i = j.
Proof. intros B Hi Hj. induction k as [|k IH]; [trivial|]. rewrite !iter_S. intros E. apply IH. apply (proj2 B); [apply iter_lt; assumption|apply iter_lt; assumption|exact E]. Qed.

(* ---- periods ---- *)
Lemma pigeon n (l : list nat) : (forall x, In x l -> x < n) -> n < length l -> ~ NoDup l.
Proof.
  intros H L N. assert (I : incl l (seq 0 n)) by (intros x Hx; apply in_seq; specialize (H x Hx); lia).
  pose proof (NoDup_incl_length N I) as Q. rewrite seq_length in Q. lia.
Qed.
Lemma not_nodup_map (g : nat -> nat) k : ~ NoDup (map g (seq 0 k)) -> exists a b, a < b < k /\ g a = g b.
Proof.
  induction k as [|k IH]; intros N; [exfalso; apply N; constructor|]. rewrite seq_S, map_app in N. cbn [map] in N. rewrite Nat.add_0_l in N.
  destruct (in_dec Nat.eq_dec (g k) (map g (seq 0 k))) as [I|I].
  - apply in_map_iff in I as (a & E & Ha). apply in_seq in Ha. exists a, k. split; [lia|exact E].
  - destruct IH as (a & b & H & E); [|exists a, b; split; [lia|exact E]]. intros N'. apply N. apply NoDup_app_snoc; assumption.
Qed.
Lemma returns n f i : bij n f -> i < n -> exists k, 0 < k <= n /\ iter k f i = i.
Proof.
  intros B H. destruct (not_nodup_map (fun k => iter k f i) (n + 1)) as (a & b & Hab & E).
  - apply (pigeon n).
    + intros x Hx. apply in_map_iff in Hx as (k & <- & _). apply iter_lt; assumption.
    + rewrite map_length, seq_length. lia.
  - cbv beta in E. replace b with (a + (b - a)) in E by lia. rewrite iter_add in E. exists (b - a). split; [lia|]. symmetry. eapply (iter_inj n f a); [exact B|exact H|apply iter_lt; assumption|exact E].
Qed.
Definition period (n : nat) (f : nat -> nat) (i m : nat) : Prop := 0 < m <= n /\ iter m f i = i /\ forall k, 0 < k < m -> iter k f i <> i.
Lemma least (Q : nat -> Prop) (dec : forall k, {Q k} + {~ Q k}) k : Q k -> exists m, m <= k /\ Q m /\ forall j, j < m -> ~ Q j.
Proof.
  induction k as [k IH] using (well_founded_induction lt_wf). intros H.
  assert (D : {exists j, j < k /\ Q j} + {forall j, j < k -> ~ Q j}).
  { clear -dec. induction k as [|k [IH|IH]]; [right; intros; lia|left; destruct IH as (j & A & B); exists j; split; [lia|exact B]|].
    destruct (dec k) as [q|q]; [left; exists k; split; [lia|exact q]|right]. intros j Hj. destruct (Nat.eq_dec j k) as [->|]; [exact q|apply IH; lia]. }
  destruct D as [(j & A & B)|N]; [|exists k; repeat split; trivial]. destruct (IH j A B) as (m & C1 & C2 & C3). exists m. split; [lia|split; assumption].
Qed.
Lemma period_exists n f i : bij n f -> i < n -> exists m, period n f i m.
Proof.
  intros B H. destruct (returns n f i B H) as (k & Hk & E).
  destruct (least (fun k => 0 < k /\ iter k f i = i)) with (k := k) as (m & Hm & (A1 & A2) & A3).
  - intros j. destruct (lt_dec 0 j); [|right; tauto]. destruct (Nat.eq_dec (iter j f i) i); [left; tauto|right; tauto].
  - split; [lia|exact E].
  - exists m. split; [lia|split; [exact A2|]]. intros j Hj E'. apply (A3 j); [lia|split; [lia|exact E']].
Qed.
Lemma iter_mod n f i m : period n f i m -> forall k, iter k f i = iter (k mod m) f i.
Proof.
  intros ((Hm & _) & E & _) k. transitivity (iter (m * (k / m) + k mod m) f i); [f_equal; apply Nat.div_mod; lia|]. generalize (k / m) as q. intros q.
  induction q as [|q IH]; [rewrite Nat.mul_0_r; reflexivity|]. replace (m * S q + k mod m) with ((m * q + k mod m) + m) by lia. rewrite iter_add, E. exact IH.
Qed.

(* ---- products of signs ---- *)
Definition zprod {A} (h : A -> Z) (l : list A) : Z := fold_right (fun a s => (h a * s)%Z) 1%Z l.
Lemma zprod_perm {A} (h : A -> Z) l l' : Permutation l l' -> zprod h l = zprod h l'.
Proof. induction 1; cbn [zprod fold_right]; [reflexivity| | |congruence]. { unfold zprod in IHPermutation. now rewrite IHPermutation. } ring. Qed.
Lemma zprod_ext {A} (h g : A -> Z) l : (forall a, In a l -> h a = g a) -> zprod h l = zprod g l.
Proof. induction l as [|a l IH]; intros H; [reflexivity|]. cbn [zprod fold_right]. rewrite (H a (or_introl eq_refl)). f_equal. apply IH. intros; apply H; right; assumption. Qed.
Lemma zprod_mul {A} (h g : A -> Z) l : zprod (fun a => (h a * g a)%Z) l = (zprod h l * zprod g l)%Z.
Proof. induction l as [|a l IH]; [reflexivity|]. cbn [zprod fold_right]. unfold zprod in IH. rewrite IH. ring. Qed.
Lemma zprod_map {A B} (h : B -> Z) (g : A -> B) l : zprod h (map g l) = zprod (fun a => h (g a)) l.
Proof. induction l as [|a l IH]; [reflexivity|]. cbn [map zprod fold_right]. unfold zprod in IH. rewrite IH. reflexivity. Qed.

Definition sg (a b : nat) : Z := if a <? b then 1%Z else (-1)%Z.
Lemma sg_sym a b : a <> b -> sg b a = (- sg a b)%Z.
Proof. intros N. unfold sg. destruct (Nat.ltb_spec a b), (Nat.ltb_spec b a); try reflexivity; lia. Qed.
Lemma sg_sq a b : (sg a b * sg a b = 1)%Z.
Proof. unfold sg. destruct (a <? b); reflexivity. Qed.
Definition pairs (n : nat) : list (nat * nat) := filter (fun '(i, j) => i <? j) (list_prod (seq 0 n) (seq 0 n)).
Lemma in_pairs n i j : In (i, j) (pairs n) <-> i < j < n.
Proof. unfold pairs. rewrite filter_In, in_prod_iff, !in_seq, Nat.ltb_lt. lia. Qed.
Lemma nodup_list_prod {A B} (l : list A) (l' : list B) : NoDup l -> NoDup l' -> NoDup (list_prod l l').
Proof.
  intros N N'. induction N as [|a l Ha N IH]; cbn [list_prod]; [constructor|].
  assert (Q : NoDup (map (fun y => (a, y)) l')) by (clear -N'; induction N' as [|b l' Hb N IH]; cbn [map]; constructor; [rewrite in_map_iff; intros (y & E & Hy); injection E as <-; contradiction|exact IH]).
  revert Q. generalize (map (fun y : B => (a, y)) l') (fun p => proj1 (in_map_iff (fun y : B => (a, y)) l' p)). intros m Hm Q.
  induction Q as [|p m Hp Q IHm]; [exact IH|]. cbn [app]. constructor.
  - rewrite in_app_iff. intros [I|I]; [contradiction|]. destruct (Hm p (or_introl eq_refl)) as (y & <- & _). apply in_prod_iff in I. apply Ha, I.
  - apply IHm. intros q Hq. apply Hm. right. exact Hq.
Qed.
Lemma nodup_pairs n : NoDup (pairs n).
Proof. apply NoDup_filter, nodup_list_prod; apply seq_NoDup. Qed.
Definition eps (n : nat) (f : nat -> nat) : Z := zprod (fun '(i, j) => sg (f i) (f j)) (pairs n).
Lemma eps_ext n f g : (forall i, i < n -> f i = g i) -> eps n f = eps n g.
Proof. intros H. apply zprod_ext. intros [i j] I. apply in_pairs in I. now rewrite !H by lia. Qed.
Definition sort2 (p : nat * nat) : nat * nat := let '(a, b) := p in if a <? b then (a, b) else (b, a).
Lemma pairs_perm n g : bij n g -> Permutation (map (fun '(i, j) => sort2 (g i, g j)) (pairs n)) (pairs n).
Proof.
  intros B. apply NoDup_Permutation_bis.
  - assert (Q : forall l, NoDup l -> (forall p, In p l -> In p (pairs n)) -> NoDup (map (fun '(i, j) => sort2 (g i, g j)) l)).
    { induction 1 as [|[i j] l Hp N IH]; intros S0; cbn [map]; constructor; [|apply IH; intros; apply S0; right; assumption].
      rewrite in_map_iff. intros ([i' j'] & E & I). pose proof (S0 _ (or_introl eq_refl)) as P1. pose proof (S0 _ (or_intror I)) as P2. apply in_pairs in P1, P2.
      assert (D : (g i' = g i /\ g j' = g j) \/ (g i' = g j /\ g j' = g i)) by (unfold sort2 in E; destruct (g i' <? g j'), (g i <? g j); injection E; tauto).
      destruct D as [[D1 D2]|[D1 D2]]; apply (proj2 B) in D1, D2; try lia. subst. contradiction. }
    apply Q; [apply nodup_pairs|trivial].
  - rewrite map_length. lia.
  - intros [a b] I. apply in_map_iff in I as ([i j] & E & I). apply in_pairs in I. assert (g i <> g j) by (intros E'; apply (proj2 B) in E'; lia).
    pose proof (proj1 B i ltac:(lia)). pose proof (proj1 B j ltac:(lia)). apply in_pairs. unfold sort2 in E. destruct (Nat.ltb_spec (g i) (g j)); injection E as <- <-; lia.
Qed.
Lemma eps_comp n f g : bij n f -> bij n g -> eps n (fun i => f (g i)) = (eps n f * eps n g)%Z.
Proof.
  intros Bf Bg. unfold eps. set (h := fun '(a, b) => (sg (f a) (f b) * sg a b)%Z).
  rewrite (zprod_ext _ (fun p => (h (let '(i, j) := p in sort2 (g i, g j)) * (let '(i, j) := p in sg (g i) (g j)))%Z)).
  - rewrite zprod_mul. f_equal. rewrite <- (zprod_map h (fun '(i, j) => sort2 (g i, g j))). rewrite (zprod_perm h _ _ (pairs_perm n g Bg)). apply zprod_ext. intros [i j] I. apply in_pairs in I. unfold h. replace (sg i j) with 1%Z; [ring|]. unfold sg. destruct (Nat.ltb_spec i j); [reflexivity|lia].
  - intros [i j] I. apply in_pairs in I. assert (N : g i <> g j) by (intros E; apply (proj2 Bg) in E; lia). assert (N' : f (g i) <> f (g j)) by (intros E; apply (proj2 Bf) in E; [contradiction|apply Bg; lia|apply Bg; lia]).
    unfold sort2. destruct (Nat.ltb_spec (g i) (g j)) as [L|L]; unfold h.
    + rewrite <- Z.mul_assoc, sg_sq. ring.
    + rewrite (sg_sym (f (g i)) (f (g j)) N'), (sg_sym (g i) (g j) N). transitivity (sg (f (g i)) (f (g j)) * (sg (g i) (g j) * sg (g i) (g j)))%Z; [rewrite sg_sq; ring|ring].
Qed.
Lemma zprod_ones {A} (h : A -> Z) l : (forall a, In a l -> h a = 1%Z) -> zprod h l = 1%Z.
Proof. induction l as [|a l IH]; intros H; [reflexivity|]. cbn [zprod fold_right]. rewrite (H a (or_introl eq_refl)). unfold zprod in IH. rewrite IH; [reflexivity|]. intros; apply H; right; assumption. Qed.
Lemma zprod_one_neg {A} (h : A -> Z) l x : NoDup l -> In x l -> h x = (-1)%Z -> (forall a, In a l -> a <> x -> h a = 1%Z) -> zprod h l = (-1)%Z.
Proof.
  intros N I Hx H. apply in_split in I as (l1 & l2 & ->). rewrite (zprod_perm h _ (x :: l1 ++ l2)) by (symmetry; apply Permutation_middle). apply NoDup_remove_2 in N.
  cbn [zprod fold_right]. rewrite Hx. fold (zprod h (l1 ++ l2)). rewrite zprod_ones; [reflexivity|]. intros a Ha. apply H; [apply in_app_iff in Ha; apply in_app_iff; cbn; tauto|intros ->; contradiction].
Qed.
Lemma eps_id n : eps n (fun i => i) = 1%Z.
Proof. apply zprod_ones. intros [i j] I. apply in_pairs in I. unfold sg. destruct (Nat.ltb_spec i j); [reflexivity|lia]. Qed.
Definition swap (a b x : nat) : nat := if x =? a then b else if x =? b then a else x.
Lemma swap_l a b : swap a b a = b.
Proof. unfold swap. now rewrite Nat.eqb_refl. Qed.
Lemma swap_r a b : swap a b b = a.
Proof. unfold swap. rewrite Nat.eqb_refl. destruct (Nat.eqb_spec b a); congruence. Qed.
Lemma swap_o a b x : x <> a -> x <> b -> swap a b x = x.
Proof. intros A B. unfold swap. destruct (Nat.eqb_spec x a), (Nat.eqb_spec x b); congruence. Qed.
Lemma swap_swap a b x : swap a b (swap a b x) = x.
Proof. unfold swap. destruct (Nat.eqb_spec x a) as [->|]; [destruct (Nat.eqb_spec b a), (Nat.eqb_spec b b); congruence|]. destruct (Nat.eqb_spec x b) as [->|]; [now rewrite Nat.eqb_refl|]. destruct (Nat.eqb_spec x a), (Nat.eqb_spec x b); congruence. Qed.
Lemma swap_bij n a b : a < n -> b < n -> bij n (swap a b).
Proof.
  intros A B. split; [intros i Hi; unfold swap; destruct (i =? a), (i =? b); assumption|]. intros i j _ _ E. rewrite <- (swap_swap a b i), E. apply swap_swap.
Qed.
Lemma bij_comp n f g : bij n f -> bij n g -> bij n (fun i => f (g i)).
Proof. intros [A B] [C D]. split; [intros i Hi; apply A, C, Hi|]. intros i j Hi Hj E. apply D; [exact Hi|exact Hj|]. apply B; [apply C, Hi|apply C, Hj|exact E]. Qed.
Lemma eps_sq n f : (eps n f * eps n f = 1)%Z.
Proof. unfold eps. rewrite <- zprod_mul. apply zprod_ones. intros [i j] _. apply sg_sq. Qed.
Lemma eps_swap_adjacent n a : S a < n -> eps n (swap a (S a)) = (-1)%Z.
Proof.
  intros H. apply (zprod_one_neg _ _ (a, S a)); [apply nodup_pairs|apply in_pairs; lia| |].
  - rewrite swap_l, swap_r. unfold sg. destruct (Nat.ltb_spec (S a) a); [lia|reflexivity].
  - intros [i j] I N. apply in_pairs in I. unfold sg, swap. destruct (Nat.eqb_spec i a), (Nat.eqb_spec j a), (Nat.eqb_spec i (S a)), (Nat.eqb_spec j (S a)); subst; try lia;
      match goal with |- context[?a <? ?b] => destruct (Nat.ltb_spec a b); [reflexivity|] end; try lia; exfalso; apply N; reflexivity.
Qed.
Lemma eps_swap n a b : a < b < n -> eps n (swap a b) = (-1)%Z.
Proof.
  intros [H H']. remember (b - S a) as d eqn:E. revert b H H' E. induction d as [|d IH]; intros b H H' E; [replace b with (S a) by lia; apply eps_swap_adjacent; lia|].
  rewrite (eps_ext n _ (fun i => swap (b - 1) b (swap a (b - 1) (swap (b - 1) b i)))).
  - assert (B1 : bij n (swap (b - 1) b)) by (apply swap_bij; lia). assert (B2 : bij n (swap a (b - 1))) by (apply swap_bij; lia).
    rewrite (eps_comp n (swap (b - 1) b)); [|exact B1|apply bij_comp; assumption]. rewrite (eps_comp n (swap a (b - 1))) by assumption. rewrite (IH (b - 1)) by lia.
    transitivity (- (eps n (swap (b - 1) b) * eps n (swap (b - 1) b)))%Z; [ring|]. rewrite eps_sq. reflexivity.
  - intros i Hi. destruct (Nat.eq_dec i a) as [->|Na]; [|destruct (Nat.eq_dec i b) as [->|Nb]; [|destruct (Nat.eq_dec i (b - 1)) as [->|Nc]]].
    + rewrite (swap_o (b - 1) b a), !swap_l by lia. reflexivity.
    + rewrite !swap_r. symmetry. apply swap_o; lia.
    + rewrite swap_l, (swap_o a (b - 1) b), swap_r by lia. apply swap_o; lia.
    + rewrite (swap_o (b - 1) b i), (swap_o a (b - 1) i), (swap_o (b - 1) b i), (swap_o a b i) by lia. reflexivity.
Qed.

(* ---- the sign from the cycles: the number of points that are not the least of their cycle ---- *)
Definition least_in (n : nat) (f : nat -> nat) (i : nat) : bool := forallb (fun k => i <=? iter k f i) (seq 0 n).
Lemma least_in_spec n f i : bij n f -> i < n -> (least_in n f i = true <-> forall k, i <= iter k f i).
Proof.
  intros B H. unfold least_in. rewrite forallb_forall. destruct (period_exists n f i B H) as (m & Pm). pose proof Pm as ((Hm & Hm') & _). split.
  - intros A k. rewrite (iter_mod n f i m Pm). apply Nat.leb_le, A, in_seq. pose proof (Nat.mod_upper_bound k m). lia.
  - intros A k _. apply Nat.leb_le, A.
Qed.
Definition others (n : nat) (f : nat -> nat) : list nat := filter (fun i => negb (least_in n f i)) (seq 0 n).
Definition sgz (k : nat) : Z := if Nat.even k then 1%Z else (-1)%Z.
Lemma sgz_S k : sgz (S k) = (- sgz k)%Z.
Proof. unfold sgz. rewrite Nat.even_succ, <- Nat.negb_even. destruct (Nat.even k); reflexivity. Qed.
Lemma filter_drop {A} (P Q : A -> bool) l x : NoDup l -> In x l -> P x = true -> Q x = false -> (forall a, In a l -> a <> x -> P a = Q a) -> length (filter P l) = S (length (filter Q l)).
Proof.
  intros N I Px Qx H. apply in_split in I as (l1 & l2 & ->). apply NoDup_remove_2 in N. rewrite in_app_iff in N. rewrite !filter_app, !app_length. cbn [filter]. rewrite Px, Qx. cbn [length].
  rewrite (filter_ext_in P Q l1) by (intros a Ha; apply H; [apply in_app_iff; tauto|intros ->; tauto]). rewrite (filter_ext_in P Q l2) by (intros a Ha; apply H; [apply in_app_iff; cbn; tauto|intros ->; tauto]). lia.
Qed.
Lemma eps_others n f m : bij n f -> m <= n -> (forall i, m <= i < n -> f i = i) -> eps n f = sgz (length (others n f)).
Proof.
  revert f. induction m as [|m IH]; intros f B Hm Fix.
  - rewrite (eps_ext n f (fun i => i)) by (intros; apply Fix; lia). rewrite eps_id. replace (others n f) with (@nil nat); [reflexivity|]. symmetry. unfold others.
    rewrite (filter_ext_in _ (fun _ => false)); [induction (seq 0 n); [reflexivity|assumption]|]. intros i Hi. apply in_seq in Hi. assert (least_in n f i = true) as ->; [|reflexivity].
    apply least_in_spec; [exact B|lia|]. intros k. assert (E : iter k f i = i) by (induction k as [|k IHk]; [reflexivity|rewrite iter_S, IHk; apply Fix; lia]). lia.
  - destruct (Nat.eq_dec (f m) m) as [E|N]; [apply IH; [exact B|lia|]; intros i Hi; destruct (Nat.eq_dec i m) as [->|]; [exact E|apply Fix; lia]|].
    set (b := f m) in *. assert (Hb : b < n) by (apply B; lia). assert (bm : b < m) by (destruct (lt_dec b m) as [|L]; [assumption|]; exfalso; assert (Fb : f b = b) by (apply Fix; lia); apply N; symmetry; apply (proj2 B); try lia; fold b; congruence).
    set (g := fun i => swap b m (f i)). assert (Bg : bij n g) by (apply (bij_comp n (swap b m) f); [apply swap_bij; lia|exact B]).
    assert (Gm : g m = m) by (unfold g; fold b; apply swap_l). assert (Fixg : forall i, m <= i < n -> g i = i) by (intros i Hi; destruct (Nat.eq_dec i m) as [->|]; [exact Gm|unfold g; rewrite Fix by lia; apply swap_o; lia]).
    assert (E : eps n g = (- eps n f)%Z) by (unfold g; rewrite (eps_comp n (swap b m) f) by (assumption || (apply swap_bij; lia)); rewrite eps_swap by lia; ring).
    rewrite (IH g Bg ltac:(lia) Fixg) in E. unfold others.
    rewrite (filter_drop (fun i => negb (least_in n f i)) (fun i => negb (least_in n g i)) (seq 0 n) m); [|apply seq_NoDup|apply in_seq; lia| | |].
    + rewrite sgz_S. unfold others in E. rewrite E. ring.
    + destruct (least_in n f m) eqn:L; [|reflexivity]. exfalso. rewrite least_in_spec in L by (exact B || lia). specialize (L 1). change (m <= b) in L. lia.
    + assert (least_in n g m = true) as ->; [|reflexivity]. apply least_in_spec; [exact Bg|lia|]. intros k. assert (Q : iter k g m = m) by (induction k as [|k IHk]; [reflexivity|rewrite iter_S, IHk; exact Gm]). lia.
    + intros i Hi Nim. apply in_seq in Hi. f_equal. apply eq_true_iff_eq. rewrite !least_in_spec by (assumption || lia).
      assert (ne : forall k, iter k g i <> m /\ iter k g i < n). { intros k. split; [|apply iter_lt; [exact Bg|lia]]. induction k as [|k IHk]; [exact Nim|]. rewrite iter_S. intros Q. apply IHk. apply (proj2 Bg); [apply iter_lt; [exact Bg|lia]|lia|congruence]. }
      assert (stepg : forall x, x < n -> x <> m -> (f x = m /\ g x = b) \/ (f x <> m /\ g x = f x)).
      { intros x Hx Nx. destruct (Nat.eq_dec (f x) m) as [Q|Q]; [left; split; [exact Q|unfold g; rewrite Q; apply swap_r]|right]. split; [exact Q|]. unfold g. apply swap_o; [|exact Q]. intros Q'. apply Nx. apply (proj2 B); [exact Hx|lia|exact Q']. }
      split.
      * intros A k. assert (Q : exists k', iter k g i = iter k' f i); [|destruct Q as (k' & ->); apply A].
        induction k as [|k (k' & IHk)]; [exists 0; reflexivity|]. rewrite iter_S. destruct (ne k) as [Na Nb]. destruct (stepg _ Nb Na) as [[Q1 Q2]|[Q1 Q2]]; rewrite Q2.
        -- exists (S (S k')). rewrite !iter_S, <- IHk, Q1. reflexivity.
        -- exists (S k'). rewrite iter_S, <- IHk. reflexivity.
      * intros A k. destruct (lt_dec m i) as [L|L].
        { assert (Q : iter k f i = i) by (induction k as [|k IHk]; [reflexivity|rewrite iter_S, IHk; apply Fix; lia]). lia. }
        assert (Q : (iter k f i = m /\ exists k', iter k' g i = b) \/ (exists k', iter k f i = iter k' g i)).
        { induction k as [|k [(E1 & k' & E2)|(k' & E1)]]; [right; exists 0; reflexivity| |].
          - right. exists k'. rewrite iter_S, E1, E2. reflexivity.
          - rewrite iter_S, E1. destruct (ne k') as [Na Nb]. destruct (stepg _ Nb Na) as [[Q1 Q2]|[Q1 Q2]]; [left; split; [exact Q1|]|right]; exists (S k'); rewrite iter_S, Q2; reflexivity. }
        destruct Q as [(Q & _)|(k' & ->)]; [lia|apply A].
Qed.

(* ---- to_cycles ---- *)
Definition fun_of (p : list nat) : nat -> nat := fun i => nth i p 0.
Lemma fun_of_bij p : is_perm p = true -> bij (length p) (fun_of p).
Proof. intros H. split; [intros; apply perm_nth_lt; assumption|]. intros i j Hi Hj E. apply (perm_nth_inj p); assumption. Qed.
Definition path (f : nat -> nat) (i a k : nat) : list nat := map (fun j => iter j f i) (seq a k).
Lemma cycle_loop_ok p i m : is_perm p = true -> i < length p -> period (length p) (fun_of p) i m -> forall fuel j, j < m -> m - S j <= fuel ->
  cycle_loop fuel p i (iter j (fun_of p) i) = Some (Ok (path (fun_of p) i (S j) (m - S j))).
Proof.
  intros Hp Hi ((M0 & M1) & Em & Ne). pose proof (fun_of_bij p Hp) as B. intros fuel. induction fuel as [|fuel IH]; intros j Hj Hf.
  - cbn [cycle_loop]. rewrite getitem_Ok by (apply iter_lt; assumption). fold (fun_of p (iter j (fun_of p) i)). rewrite <- iter_S. replace (S j) with m by lia. rewrite Em, Nat.eqb_refl, Nat.sub_diag. reflexivity.
  - cbn [cycle_loop]. rewrite getitem_Ok by (apply iter_lt; assumption). fold (fun_of p (iter j (fun_of p) i)). rewrite <- iter_S. destruct (Nat.eq_dec (S j) m) as [E|N].
    + rewrite E, Em, Nat.eqb_refl, Nat.sub_diag. reflexivity.
    + destruct (Nat.eqb_spec (iter (S j) (fun_of p) i) i) as [Q|_]; [exfalso; apply (Ne (S j)); [lia|exact Q]|]. rewrite (IH (S j)) by lia. unfold path. replace (m - S j) with (S (m - S (S j))) by lia. reflexivity.
Qed.
Lemma cycle_of_ok p i m : is_perm p = true -> i < length p -> period (length p) (fun_of p) i m -> cycle_of p i = Some (Ok (path (fun_of p) i 0 m)).
Proof.
  intros Hp Hi Pm. pose proof Pm as ((M0 & M1) & _). unfold cycle_of.
  assert (E : cycle_loop (length p) p i i = Some (Ok (path (fun_of p) i 1 (m - 1)))) by (apply (cycle_loop_ok p i m Hp Hi Pm (length p) 0); lia). rewrite E. unfold path. destruct m as [|m']; [lia|]. cbn [seq map]. rewrite Nat.sub_succ, Nat.sub_0_r. reflexivity.
Qed.
Lemma list_min_ok c : c <> [] -> In (list_min c) c /\ forall a, In a c -> list_min c <= a.
Proof.
  destruct c as [|a c]; [congruence|]. intros _. cbn [list_min]. revert a. induction c as [|b c IH]; intros a; cbn [fold_left]; [split; [left; reflexivity|intros x [<-|[]]; lia]|].
  destruct (IH (Nat.min a b)) as [A B]. split.
  - destruct A as [A|A]; [|right; right; exact A]. destruct (Nat.min_spec a b) as [[_ E]|[_ E]]; rewrite E in A; [left; rewrite E|right; left; rewrite E]; exact A.
  - intros x [<-|[<-|Hx]]; [specialize (B _ (or_introl eq_refl)); lia|specialize (B _ (or_introl eq_refl)); lia|apply B; right; exact Hx].
Qed.
Lemma skipn_path f i k m : k <= m -> skipn k (path f i 0 m) = path f i k (m - k).
Proof. intros H. unfold path. replace m with (k + (m - k)) at 1 by lia. rewrite seq_app, map_app, skipn_app, map_length, seq_length, Nat.sub_diag, Nat.add_0_l. rewrite skipn_all2 by (rewrite map_length, seq_length; lia). reflexivity. Qed.
Lemma firstn_path f i k m : k <= m -> firstn k (path f i 0 m) = path f i 0 k.
Proof. intros H. unfold path. replace m with (k + (m - k)) at 1 by lia. rewrite seq_app, map_app, firstn_app, map_length, seq_length, Nat.sub_diag. cbn [firstn]. rewrite app_nil_r. apply firstn_all2. rewrite map_length, seq_length. lia. Qed.
Lemma path_shift f i a k : path f i a k = path f (iter a f i) 0 k.
Proof.
  unfold path. replace (seq a k) with (map (fun j => j + a) (seq 0 k)).
  - rewrite map_map. apply map_ext. intros j. apply iter_add.
  - clear i. revert a. induction k as [|k IH]; intros a; [reflexivity|]. cbn [seq map]. f_equal. rewrite <- (IH (S a)), <- (IH 1), map_map. apply map_ext. intros j. lia.
Qed.
Lemma rotate_path f i m k : iter m f i = i -> k <= m -> path f i k (m - k) ++ path f i 0 k = path f (iter k f i) 0 m.
Proof.
  intros E H. rewrite <- path_shift. replace (path f i 0 k) with (path f i m k) by (rewrite path_shift, E; reflexivity).
  unfold path. rewrite <- map_app. f_equal. replace (seq m k) with (seq (k + (m - k)) k) by (f_equal; lia). rewrite <- seq_app. f_equal. lia.
Qed.
Lemma path_nth f i m k : k < m -> nth k (path f i 0 m) 0 = iter k f i.
Proof. intros H. unfold path. exact (nth_map_seq (fun j => iter j f i) m k 0 H). Qed.
Lemma in_path f i m x : In x (path f i 0 m) <-> exists k, k < m /\ x = iter k f i.
Proof. unfold path. rewrite in_map_iff. split; [intros (k & E & H); apply in_seq in H; exists k; split; [lia|congruence]|intros (k & H & E); exists k; split; [congruence|apply in_seq; lia]]. Qed.
Lemma path_length f i a m : length (path f i a m) = m.
Proof. unfold path. rewrite map_length. apply seq_length. Qed.
(* the least point of a cycle *)
Definition leader (f : nat -> nat) (i k : nat) : Prop := iter k f i = i /\ forall j, 0 < j < k -> i < iter j f i.
Lemma period_iter n f i m k : bij n f -> i < n -> period n f i m -> period n f (iter k f i) m.
Proof.
  intros B Hi ((M0 & M1) & E & Ne). split; [lia|]. split; [rewrite <- iter_add, Nat.add_comm, iter_add, E; reflexivity|]. intros j Hj Q. apply (Ne j Hj). apply (iter_inj n f k); [exact B|apply iter_lt; assumption|exact Hi|].
  rewrite <- !iter_add. rewrite <- !iter_add in Q. rewrite Nat.add_comm. exact Q.
Qed.
Lemma rotate_ok p i m : is_perm p = true -> i < length p -> period (length p) (fun_of p) i m ->
  exists k, k < m /\ let a := iter k (fun_of p) i in rotate_min (path (fun_of p) i 0 m) = path (fun_of p) a 0 m /\ leader (fun_of p) a m /\ forall j, a <= iter j (fun_of p) i.
Proof.
  intros Hp Hi Pm. pose proof (fun_of_bij p Hp) as B. pose proof Pm as ((M0 & M1) & Em & Ne). set (f := fun_of p) in *. set (c := path f i 0 m).
  assert (cne : c <> []) by (intros E; apply (f_equal (@length nat)) in E; unfold c in E; rewrite path_length in E; cbn in E; lia).
  destruct (list_min_ok c cne) as [Hin Hmin]. destruct (index_ok _ _ Hin) as (k & Ek & Hk & Nk). unfold c in Hk. rewrite path_length in Hk. exists k. split; [exact Hk|]. cbv zeta.
  unfold c in Nk. rewrite path_nth in Nk by exact Hk. fold c in Nk. split; [|split].
  - unfold rotate_min. fold c. rewrite Ek. unfold c. rewrite skipn_path, firstn_path by lia. apply rotate_path; [exact Em|lia].
  - destruct (period_iter _ f i m k B Hi Pm) as (_ & E' & Ne'). split; [exact E'|]. intros j Hj. specialize (Ne' j Hj). assert (L : iter k f i <= iter j f (iter k f i)); [|lia]. rewrite Nk at 1. apply Hmin. unfold c. apply in_path.
    exists ((j + k) mod m). split; [apply Nat.mod_upper_bound; lia|]. rewrite <- iter_add. apply (iter_mod _ f i m Pm).
  - intros j. rewrite Nk. apply Hmin. unfold c. apply in_path. exists (j mod m). split; [apply Nat.mod_upper_bound; lia|]. apply (iter_mod _ f i m Pm).
Qed.
Lemma leader_period n f i k : 0 < k <= n -> leader f i k -> period n f i k.
Proof. intros H [E L]. split; [exact H|split; [exact E|]]. intros j Hj Q. specialize (L j Hj). lia. Qed.
Lemma period_unique n f i m m' : period n f i m -> period n f i m' -> m = m'.
Proof. intros ((A1 & A2) & A & A') ((B1 & B2) & B & B'). destruct (lt_eq_lt_dec m m') as [[L|E]|L]; [exfalso; apply (B' m); [lia|exact A]|exact E|exfalso; apply (A' m'); [lia|exact B]]. Qed.
Lemma leader_le n f i k : bij n f -> i < n -> leader f i k -> 0 < k -> k <= n.
Proof.
  intros B Hi [E L] K. destruct (period_exists n f i B Hi) as (m & (M0 & M1) & Em & _). destruct (le_dec k n) as [|N]; [assumption|]. specialize (L m ltac:(lia)). lia.
Qed.
Lemma to_cycles_loop_ok p : is_perm p = true -> forall is acc, (forall i, In i is -> i < length p) -> NoDup acc ->
  exists cs, to_cycles_loop p is acc = Some (Ok cs) /\ NoDup cs /\ (forall c, In c acc -> In c cs) /\
   (forall c, In c cs -> In c acc \/ exists a m, a < length p /\ 2 <= m /\ c = path (fun_of p) a 0 m /\ leader (fun_of p) a m) /\
   (forall a m, In a is -> 2 <= m -> leader (fun_of p) a m -> In (path (fun_of p) a 0 m) cs).
Proof.
  intros Hp is. pose proof (fun_of_bij p Hp) as B. induction is as [|i is IH]; intros acc Hi N; [exists acc; repeat split; auto; intros a m []|].
  assert (Li : i < length p) by (apply Hi; left; reflexivity). cbn [to_cycles_loop]. destruct (period_exists _ _ _ B Li) as (m & Pm). rewrite (cycle_of_ok p i m Hp Li Pm), path_length.
  destruct (rotate_ok p i m Hp Li Pm) as (k & Hk & Er & Ld & Mn). cbv zeta in Er, Ld, Mn.
  set (acc' := if 2 <=? m then set_add (rotate_min (path (fun_of p) i 0 m)) acc else acc).
  destruct (IH acc') as (cs & E & Ncs & H1 & H2 & H3); [intros; apply Hi; right; assumption|unfold acc'; destruct (2 <=? m); [apply set_add_NoDup|]; exact N|]. exists cs. split; [exact E|]. split; [exact Ncs|].
  split; [intros c Hc; apply H1; unfold acc'; destruct (2 <=? m); [apply set_add_In; right|]; exact Hc|]. split.
  - intros c Hc. apply H2 in Hc as [Hc|Hc]; [|right; exact Hc]. unfold acc' in Hc. destruct (Nat.leb_spec 2 m) as [L2|]; [|left; exact Hc]. apply set_add_In in Hc as [->|Hc]; [|left; exact Hc]. right. exists (iter k (fun_of p) i), m. split; [apply iter_lt; assumption|]. split; [exact L2|]. split; [exact Er|exact Ld].
  - intros a m' [<-|Ha] Hm' L'; [|apply H3; assumption]. assert (M' : m' = m) by (apply (period_unique (length p) (fun_of p) i); [apply leader_period; [split; [lia|apply (leader_le (length p) (fun_of p) i); try assumption; lia]|exact L']|exact Pm]). subst m'.
    assert (K0 : k = 0). { destruct (Nat.eq_dec k 0) as [|Nk]; [assumption|]. destruct L' as [_ L']. specialize (L' k ltac:(lia)). specialize (Mn 0). change (iter k (fun_of p) i <= i) in Mn. lia. }
    subst k. apply H1. unfold acc'. destruct (Nat.leb_spec 2 m); [|lia]. apply set_add_In. left. symmetry. exact Er.
Qed.
Lemma to_cycles_spec p : is_perm p = true -> exists cs, to_cycles p = Some (Ok cs) /\ NoDup cs /\
  forall c, In c cs <-> exists i k, i < length p /\ 2 <= k /\ c = path (fun_of p) i 0 k /\ leader (fun_of p) i k.
Proof.
  intros Hp. destruct (to_cycles_loop_ok p Hp (seq 0 (length p)) []) as (cs & E & N & _ & H2 & H3); [intros i Hi; apply in_seq in Hi; lia|constructor|]. exists cs. split; [exact E|split; [exact N|]]. intros c. split.
  - intros Hc. apply H2 in Hc as [[]|Hc]. exact Hc.
  - intros (i & k & Hi & Hk & -> & L). apply H3; [apply in_seq; lia|exact Hk|exact L].
Qed.

(* ---- sign ---- *)
Lemma tails_others p cs : is_perm p = true -> NoDup cs ->
  (forall c, In c cs <-> exists i k, i < length p /\ 2 <= k /\ c = path (fun_of p) i 0 k /\ leader (fun_of p) i k) ->
  Permutation (concat (map (@tl nat) cs)) (others (length p) (fun_of p)).
Proof.
  intros Hp N H. pose proof (fun_of_bij p Hp) as B. set (f := fun_of p) in *. set (n := length p) in *.
  assert (T : forall i k, tl (path f i 0 k) = path f i 1 (k - 1)) by (intros i [|k]; [reflexivity|]; unfold path; cbn [seq map tl]; replace (S k - 1) with k by lia; reflexivity).
  assert (InT : forall i k x, In x (path f i 1 (k - 1)) <-> exists j, 0 < j < k /\ x = iter j f i).
  { intros i k x. unfold path. rewrite in_map_iff. split; [intros (j & E & Hj); apply in_seq in Hj; exists j; split; [lia|congruence]|intros (j & Hj & E); exists j; split; [congruence|apply in_seq; lia]]. }
  apply NoDup_Permutation.
  - clearbody n. assert (S0 : forall c, In c cs -> exists i k, i < n /\ 2 <= k /\ c = path f i 0 k /\ leader f i k) by (intros c Hc; apply H, Hc). clear H. induction N as [|c cs Hc N IH]; [constructor|]. cbn [map concat].
    destruct (S0 c (or_introl eq_refl)) as (i & k & Hi & Hk & -> & L). rewrite T.
    assert (Q : NoDup (path f i 1 (k - 1))). { unfold path. apply NoDup_map_inv with (f := fun x => x). rewrite map_id. assert (G : forall l, NoDup l -> (forall j, In j l -> 0 < j < k) -> NoDup (map (fun j => iter j f i) l)).
      { induction 1 as [|j l Hj Nl IHl]; intros R; cbn [map]; constructor; [|apply IHl; intros; apply R; right; assumption]. rewrite in_map_iff. intros (j' & E & Hj'). pose proof (R j (or_introl eq_refl)) as R1. pose proof (R j' (or_intror Hj')) as R2.
        assert (D : forall u v, 0 < u < k -> 0 < v < k -> u < v -> iter u f i = iter v f i -> False). { intros u v Hu Hv Huv E'. replace v with (u + (v - u)) in E' by lia. rewrite iter_add in E'. apply (iter_inj n f u) in E'; [|exact B|exact Hi|apply iter_lt; assumption]. destruct L as [_ L]. specialize (L (v - u) ltac:(lia)). lia. }
        destruct (lt_eq_lt_dec j j') as [[G|G]|G]; [apply (D j j'); auto|subst; contradiction|apply (D j' j); auto]. }
      apply G; [apply seq_NoDup|intros j Hj; apply in_seq in Hj; lia]. }
    assert (IH' : NoDup (concat (map (@tl nat) cs))) by (apply IH; intros; apply S0; right; assumption).
    assert (Dj : forall x, In x (path f i 1 (k - 1)) -> ~ In x (concat (map (@tl nat) cs))).
    { intros x Hx Hx'. apply InT in Hx as (j & Hj & ->). apply in_concat in Hx' as (t & Ht & Hx'). apply in_map_iff in Ht as (c' & <- & Hc'). destruct (S0 c' (or_intror Hc')) as (i' & k' & Hi' & Hk' & -> & L'). rewrite T in Hx'. apply InT in Hx' as (j' & Hj' & E).
      assert (Ek : k = k'). { assert (P1 : period n f (iter j f i) k) by (apply period_iter; [exact B|exact Hi|apply leader_period; [split; [lia|apply (leader_le n f i); try assumption; lia]|exact L]]). assert (P2 : period n f (iter j f i) k') by (rewrite E; apply period_iter; [exact B|exact Hi'|apply leader_period; [split; [lia|apply (leader_le n f i'); try assumption; lia]|exact L']]). exact (period_unique _ _ _ _ _ P1 P2). }
      subst k'. assert (Ei : i = i'); [|subst i'; contradiction].
      assert (G : forall a b u v, a < n -> b < n -> leader f a k -> leader f b k -> 0 < u < k -> 0 < v < k -> iter u f a = iter v f b -> b <= a).
      { intros a b u v Ha Hb La Lb Hu Hv Q'. assert (Ea : a = iter (k - u) f (iter u f a)) by (rewrite <- iter_add; replace (k - u + u) with k by lia; symmetry; apply La). rewrite Q', <- iter_add in Ea.
        rewrite (iter_mod n f b k) in Ea by (apply leader_period; [split; [lia|apply (leader_le n f b); try assumption; lia]|exact Lb]). destruct ((k - u + v) mod k) as [|w] eqn:W; [cbn in Ea; lia|]. pose proof (Nat.mod_upper_bound (k - u + v) k ltac:(lia)). destruct Lb as [_ Lb]. specialize (Lb (S w) ltac:(lia)). lia. }
      pose proof (G i i' j j' Hi Hi' L L' Hj Hj' E). pose proof (G i' i j' j Hi' Hi L' L Hj' Hj (eq_sym E)). lia. }
    clear -Q IH' Dj. induction Q as [|x l Hx Q IHl]; [exact IH'|]. cbn [app]. constructor; [rewrite in_app_iff; intros [I|I]; [contradiction|apply (Dj x); [left; reflexivity|exact I]]|apply IHl; intros y Hy; apply Dj; right; exact Hy].
  - apply NoDup_filter, seq_NoDup.
  - intros x. rewrite in_concat. unfold others. rewrite filter_In, in_seq, negb_true_iff. split.
    + intros (t & Ht & Hx). apply in_map_iff in Ht as (c & <- & Hc). apply H in Hc as (i & k & Hi & Hk & -> & L). rewrite T in Hx. apply InT in Hx as (j & Hj & ->). assert (X : iter j f i < n) by (apply iter_lt; assumption). split; [lia|].
      destruct (least_in n f (iter j f i)) eqn:Q; [|reflexivity]. exfalso. rewrite least_in_spec in Q by assumption. specialize (Q (k - j)). rewrite <- iter_add in Q. replace (k - j + j) with k in Q by lia. destruct L as [L1 L2]. rewrite L1 in Q. specialize (L2 j Hj). lia.
    + intros [Hx Q]. assert (X : x < n) by lia. destruct (period_exists n f x B X) as (m & Pm). destruct (rotate_ok p x m Hp X Pm) as (k & Hk & _ & Ld & Mn). cbv zeta in Ld, Mn. fold f in Ld, Mn. set (a := iter k f x) in *.
      assert (Nax : x <> a). { intros E. assert (least_in n f x = true); [|congruence]. apply least_in_spec; [exact B|exact X|]. intros j. rewrite E at 1. apply Mn. }
      assert (K : k <> 0) by (intros ->; apply Nax; reflexivity). exists (tl (path f a 0 m)). split; [apply in_map, H; exists a, m; split; [apply iter_lt; assumption|split; [lia|split; [reflexivity|exact Ld]]]|]. rewrite T. apply InT. exists (m - k). split; [lia|]. unfold a. rewrite <- iter_add. replace (m - k + k) with m by lia. symmetry. apply Pm.
Qed.
Lemma sign_fold cs s : (forall c, In c cs -> c <> []) -> fold_left (fun s c => if Nat.even (length c) then (- s)%Z else s) cs s = (s * sgz (length (concat (map (@tl nat) cs))))%Z.
Proof.
  revert s. induction cs as [|c cs IH]; intros s H; cbn [fold_left map concat]; [cbn; lia|]. rewrite IH by (intros; apply H; right; assumption). rewrite app_length. destruct c as [|a c]; [exfalso; apply (H [] (or_introl eq_refl)); reflexivity|]. cbn [length tl].
  assert (Q : forall a b, sgz (a + b) = (sgz a * sgz b)%Z). { intros u v. unfold sgz. rewrite Nat.even_add. destruct (Nat.even u), (Nat.even v); reflexivity. }
  rewrite Q. rewrite Nat.even_succ, <- Nat.negb_even. unfold sgz. destruct (Nat.even (length c)); cbn [negb]; ring.
Qed.
Lemma sign_ok p : is_perm p = true -> sign p = Some (Ok (eps (length p) (fun_of p))).
Proof.
  intros Hp. destruct (to_cycles_spec p Hp) as (cs & E & N & H). unfold sign. rewrite E. f_equal. f_equal. rewrite sign_fold.
  - rewrite (Permutation_length (tails_others p cs Hp N H)). rewrite Z.mul_1_l. symmetry. apply (eps_others (length p) (fun_of p) (length p)); [apply fun_of_bij, Hp|lia|intros; lia].
  - intros c Hc. apply H in Hc as (i & k & _ & Hk & -> & _). intros Q. apply (f_equal (@length nat)) in Q. rewrite path_length in Q. cbn in Q. lia.
Qed.
Lemma zprod_count {A} (P : A -> bool) l : zprod (fun a => if P a then 1%Z else (-1)%Z) l = sgz (length (filter (fun a => negb (P a)) l)).
Proof. induction l as [|a l IH]; [reflexivity|]. cbn [zprod fold_right filter]. unfold zprod in IH. rewrite IH. destruct (P a); cbn [negb length]; [lia|rewrite sgz_S; lia]. Qed.
