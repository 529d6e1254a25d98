(* C50: fully symmetric and antisymmetric tensors, sub-groups of indices, enumeration of degrees, examples. *)
From Coq Require Import Reals Lra ZArith Ascii List Bool Arith Lia Permutation Sorted.
From Verif Require Import PyBase PermModel PermProofs PermProps IrrepsModel IrrepsStr ArrayModel LeadModel LeadProofs StackProofs SumR ScatterProps SymModel SymProofs SymProofs2 SymProps SymProps2.
From Verif Require PermSign.
Import ListNotations.

(* ---------- symmetric and antisymmetric ---------- *)
Lemma group_closed n : forall l, group n = Ok l -> forall p, In p l <-> is_perm p = true /\ length p = n.
Proof. intros l E. destruct (group_ok n) as (G & E' & _ & _ & H). rewrite E in E'. injection E' as <-. exact H. Qed.
Theorem C50_symmetric n dims : length dims = n -> (forall d, In d dims -> d = nth 0 dims 0) ->
  exists g base, symmetric_perm_repr n = Ok g /\ signed_group n g /\ reduce_permutation_base g dims = Ok base /\
  let Q := reduce_permutation_matrix base dims in
  let symmetric T := forall p x, is_perm p = true -> length p = n -> valid dims x -> T (permute x p) = T x in
  (forall r, In r Q -> symmetric r) /\
  (forall a b, a < length Q -> b < length Q -> lsum (all_idx dims) (fun i => nth a Q (fun _ => 0%R) i * nth b Q (fun _ => 0%R) i)%R = if a =? b then 1%R else 0%R) /\
  (forall T, symmetric T -> forall i, valid dims i -> T i = lsum Q (fun r => lsum (all_idx dims) (fun j => r j * T j) * r i)%R).
Proof.
  intros L D. destruct (group_ok n) as (G & EG & _ & _ & HG). unfold symmetric_perm_repr. rewrite EG. cbn [bind]. set (g := map (fun p => (1%Z, p)) G).
  assert (Hg : forall s p, In (s, p) g <-> s = 1%Z /\ is_perm p = true /\ length p = n).
  { intros s p. unfold g. rewrite in_map_iff. split; [intros (q & E & H); injection E as <- <-; split; [reflexivity|apply HG, H]|]. intros (-> & H). exists p. split; [reflexivity|apply HG, H]. }
  assert (Gg : signed_group n g).
  { split; [intros s p H; apply Hg in H as (-> & H); split; [left; reflexivity|exact H]|]. split; [apply Hg; split; [reflexivity|split; [apply identity_perm|apply seq_length]]|]. split.
    - intros s p q H E. apply Hg in H as (-> & P & Lp). rewrite inverse_Ok in E by exact P. injection E as <-. apply Hg. split; [reflexivity|split; [apply inv_nat_perm, P|rewrite inv_nat_length; exact Lp]].
    - intros s p t q r H H' E. apply Hg in H as (-> & P & Lp), H' as (-> & P' & Lp'). rewrite compose_Ok in E by congruence. injection E as <-. apply Hg. split; [reflexivity|split; [apply comp_nat_perm; congruence|rewrite comp_nat_length; exact Lp]]. }
  assert (Cd : forall s p, In (s, p) g -> permute dims p = dims).
  { intros s p H. apply Hg in H as (_ & P & Lp). apply nth_ext0; rewrite permute_length; [congruence|]. intros k Hk. rewrite permute_nth by exact Hk. rewrite (D (nth _ dims 0)), (D (nth k dims 0)); [reflexivity|apply nth_In; congruence|]. apply nth_In. rewrite L, <- Lp. apply perm_nth_lt; assumption. }
  destruct (reduction_basis n g dims Gg L Cd) as (base & Eb & R1 & R2 & R3). exists g, base. split; [reflexivity|]. split; [exact Gg|]. split; [exact Eb|]. cbv zeta.
  assert (I : forall T, invariant g dims T <-> forall p x, is_perm p = true -> length p = n -> valid dims x -> T (permute x p) = T x).
  { intros T. unfold invariant. split.
    - intros H p x P Lp V. rewrite (H 1%Z p x) by (try exact V; apply Hg; auto). ring.
    - intros H s p x Hp V. apply Hg in Hp as (-> & P & Lp). rewrite (H p x P Lp V). ring. }
  split; [intros r Hr; apply I, R1, Hr|]. split; [exact R2|]. intros T HT. apply R3, I, HT.
Qed.
(* the sign of a permutation, by counting inversions (PermProps.inversions) *)
Definition parity_sign (p : list nat) : Z := if Nat.even (length (inversions p)) then 1%Z else (-1)%Z.
Lemma parity_sign_spec p : is_perm p = true -> sign p = Some (Ok (parity_sign p)).
Proof. exact (C13_sign_is_inversion_parity p). Qed.
Lemma parity_sign_is_sign p : is_sign (parity_sign p).
Proof. unfold parity_sign. destruct (Nat.even _); [left|right]; reflexivity. Qed.
Lemma parity_sign_comp p q : is_perm p = true -> is_perm q = true -> length p = length q -> parity_sign (comp_nat p q) = (parity_sign p * parity_sign q)%Z.
Proof.
  intros P Q E. destruct (C13_sign_homomorphism p q _ P Q E (compose_Ok p q P Q E)) as (a & b & Ea & Eb & Ec). rewrite (parity_sign_spec p P) in Ea. rewrite (parity_sign_spec q Q) in Eb. rewrite (parity_sign_spec _ (comp_nat_perm p q P Q E)) in Ec. congruence.
Qed.
Lemma parity_sign_inv p : is_perm p = true -> parity_sign (inv_nat p) = parity_sign p.
Proof.
  intros P. assert (Q := inv_nat_perm p P). pose proof (parity_sign_comp p (inv_nat p) P Q ltac:(rewrite inv_nat_length; reflexivity)) as E. rewrite comp_nat_inv_r in E by exact P.
  assert (E1 : parity_sign (identity (length p)) = 1%Z) by (pose proof (C13_sign_identity (length p)) as H; rewrite (parity_sign_spec _ (identity_perm _)) in H; congruence). rewrite E1 in E.
  destruct (parity_sign_is_sign p) as [A|A], (parity_sign_is_sign (inv_nat p)) as [B|B]; rewrite A, B in *; lia.
Qed.
Theorem C50_antisymmetric n dims : length dims = n -> (forall d, In d dims -> d = nth 0 dims 0) ->
  exists g base, antisymmetric_perm_repr n = Ok g /\ signed_group n g /\ reduce_permutation_base g dims = Ok base /\
  let Q := reduce_permutation_matrix base dims in
  let antisymmetric T := forall p x, is_perm p = true -> length p = n -> valid dims x -> T (permute x p) = (IZR (parity_sign p) * T x)%R in
  (forall r, In r Q -> antisymmetric r) /\
  (forall a b, a < length Q -> b < length Q -> lsum (all_idx dims) (fun i => nth a Q (fun _ => 0%R) i * nth b Q (fun _ => 0%R) i)%R = if a =? b then 1%R else 0%R) /\
  (forall T, antisymmetric T -> forall i, valid dims i -> T i = lsum Q (fun r => lsum (all_idx dims) (fun j => r j * T j) * r i)%R).
Proof.
  intros L D. destruct (group_ok n) as (G & EG & _ & _ & HG). unfold antisymmetric_perm_repr. rewrite EG. cbn [bind]. set (g := map (fun p => (parity_sign p, p)) G).
  assert (Hg : forall s p, In (s, p) g <-> s = parity_sign p /\ is_perm p = true /\ length p = n).
  { intros s p. unfold g. rewrite in_map_iff. split; [intros (q & E & H); injection E as <- <-; split; [reflexivity|apply HG, H]|]. intros (-> & H). exists p. split; [reflexivity|apply HG, H]. }
  assert (Gg : signed_group n g).
  { split; [intros s p H; apply Hg in H as (-> & H); split; [apply parity_sign_is_sign|exact H]|]. split.
    { apply Hg. split; [|split; [apply identity_perm|apply seq_length]]. pose proof (C13_sign_identity n) as H. rewrite (parity_sign_spec _ (identity_perm _)) in H. congruence. } split.
    - intros s p q H E. apply Hg in H as (-> & P & Lp). rewrite inverse_Ok in E by exact P. injection E as <-. apply Hg. split; [symmetry; apply parity_sign_inv, P|split; [apply inv_nat_perm, P|rewrite inv_nat_length; exact Lp]].
    - intros s p t q r H H' E. apply Hg in H as (-> & P & Lp), H' as (-> & P' & Lp'). rewrite compose_Ok in E by congruence. injection E as <-. apply Hg. split; [symmetry; apply parity_sign_comp; congruence|split; [apply comp_nat_perm; congruence|rewrite comp_nat_length; exact Lp]]. }
  assert (Cd : forall s p, In (s, p) g -> permute dims p = dims).
  { intros s p H. apply Hg in H as (_ & P & Lp). apply nth_ext0; rewrite permute_length; [congruence|]. intros k Hk. rewrite permute_nth by exact Hk. rewrite (D (nth _ dims 0)), (D (nth k dims 0)); [reflexivity|apply nth_In; congruence|]. apply nth_In. rewrite L, <- Lp. apply perm_nth_lt; assumption. }
  destruct (reduction_basis n g dims Gg L Cd) as (base & Eb & R1 & R2 & R3). exists g, base. split.
  { unfold g. apply (mapM_Ok _ (fun p => (parity_sign p, p))). intros p H. apply HG in H as (P & _). rewrite (parity_sign_spec p P). reflexivity. }
  split; [exact Gg|]. split; [exact Eb|]. cbv zeta.
  assert (I : forall T, invariant g dims T <-> forall p x, is_perm p = true -> length p = n -> valid dims x -> T (permute x p) = (IZR (parity_sign p) * T x)%R).
  { intros T. unfold invariant. split.
    - intros H p x P Lp V. apply (H (parity_sign p) p x); [apply Hg; auto|exact V].
    - intros H s p x Hp V. apply Hg in Hp as (-> & P & Lp). exact (H p x P Lp V). }
  split; [intros r Hr; apply I, R1, Hr|]. split; [exact R2|]. intros T HT. apply R3, I, HT.
Qed.

(* ---------- sub-groups ---------- *)
Lemma nth_mapn (h : nat -> nat) l k : k < length l -> nth k (map h l) 0 = h (nth k l 0).
Proof. intros H. rewrite (nth_indep _ 0 (h 0)) by (rewrite map_length; exact H). apply map_nth. Qed.
Section sub.
Variables (n : nat) (g : list signed) (sub : list nat).
Hypothesis Gg : signed_group n g.
Hypothesis Ss : StronglySorted lt sub.
Hypothesis Sn : forall i, In i sub -> i < n.
(* the elements that move only the indices of sub *)
Definition only (p : list nat) : Prop := forall j, j < n -> ~ In j sub -> nth j p 0 = j.
(* q is p read on sub *)
Definition restriction (p q : list nat) : Prop := length q = length sub /\ forall k, k < length sub -> nth (nth k sub 0) p 0 = nth (nth k q 0) sub 0 /\ nth k q 0 < length sub.

Lemma inb_In i : existsb (Nat.eqb i) sub = true <-> In i sub.
Proof. rewrite existsb_exists. split; [intros (j & H & E); apply Nat.eqb_eq in E; subst; exact H|intros H; exists i; split; [exact H|apply Nat.eqb_refl]]. Qed.
Lemma sub_nodup : NoDup sub.
Proof. clear Sn. induction Ss as [|a l H IH F]; constructor; [|apply IH; assumption]. intros Hin. rewrite Forall_forall in F. apply F in Hin. lia. Qed.
Lemma enum_nth (p : list nat) : enumerate p = combine (seq 0 (length p)) p.
Proof. reflexivity. Qed.
Lemma condition_iff p : is_perm p = true -> length p = n -> (forallb (fun '(j, i) => existsb (Nat.eqb i) sub || (i =? j)) (enumerate p) = true <-> only p).
Proof.
  intros P L. rewrite forallb_forall. split.
  - intros H j Hj Nj. (* j outside sub occurs in p at some position k, which must be j *)
    destruct (In_nth p j 0) as (k & Hk & Ek); [apply perm_In; [exact P|lia]|].
    assert (Q : In (k, nth k p 0) (enumerate p)) by (rewrite enum_nth; replace (k, nth k p 0) with (nth k (combine (seq 0 (length p)) p) (0, 0)); [apply nth_In; rewrite combine_length, seq_length; lia|]; rewrite combine_nth by apply seq_length; rewrite seq_nth by exact Hk; reflexivity).
    apply H in Q. cbv beta iota in Q. rewrite Ek in Q. apply orb_true_iff in Q as [Q|Q]; [apply inb_In in Q; contradiction|]. apply Nat.eqb_eq in Q. subst k. exact Ek.
  - intros H [j i] Q. rewrite enum_nth in Q. apply (In_nth _ _ (0, 0)) in Q as (k & Hk & E). rewrite combine_length, seq_length in Hk. rewrite combine_nth in E by apply seq_length. rewrite seq_nth in E by lia. cbn [plus] in E. injection E as <- <-.
    apply orb_true_iff. destruct (existsb (Nat.eqb (nth k p 0)) sub) eqn:E; [left; reflexivity|right]. apply Nat.eqb_eq.
    assert (Ni : ~ In (nth k p 0) sub) by (rewrite <- inb_In, E; discriminate). assert (Hi : nth k p 0 < n) by (rewrite <- L; apply perm_nth_lt; [exact P|lia]). pose proof (H _ Hi Ni) as Q. apply (perm_nth_inj p); [exact P|lia|lia|exact Q].
Qed.
Lemma only_sub p j : is_perm p = true -> length p = n -> only p -> j < n -> (In (nth j p 0) sub <-> In j sub).
Proof.
  intros P L O Hj. split; intros H.
  - destruct (in_dec Nat.eq_dec j sub) as [|N]; [assumption|]. rewrite (O j Hj N) in H. contradiction.
  - destruct (in_dec Nat.eq_dec (nth j p 0) sub) as [|N]; [assumption|]. exfalso. assert (Hi : nth j p 0 < n) by (rewrite <- L; apply perm_nth_lt; [exact P|lia]). pose proof (O _ Hi N) as Q. apply (perm_nth_inj p) in Q; [|exact P|lia|lia]. rewrite Q in N. contradiction.
Qed.
Lemma filter_positions p : is_perm p = true -> length p = n -> only p -> filter (fun i => existsb (Nat.eqb i) sub) p = map (fun j => nth j p 0) sub.
Proof.
  intros P L O. assert (Ep : p = map (fun j => nth j p 0) (seq 0 n)) by (apply nth_ext0; [rewrite map_length, seq_length; exact L|]; intros k Hk; rewrite (nth_map_seq (fun j => nth j p 0)) by lia; reflexivity).
  rewrite Ep at 1. assert (F : forall (l : list nat) (h : nat -> nat) (b : nat -> bool), filter b (map h l) = map h (filter (fun j => b (h j)) l)) by (intros l h b; induction l as [|a l IH]; [reflexivity|]; cbn [map filter]; destruct (b (h a)); cbn [map]; rewrite IH; reflexivity).
  rewrite F. f_equal. apply PermProofs.sorted_unique; [|exact Ss|].
  - assert (FS : forall b l, StronglySorted lt l -> StronglySorted lt (filter b l)) by (intros b l; induction 1 as [|a l' H IH Fa]; cbn [filter]; [constructor|]; destruct (b a); [constructor; [exact IH|]|exact IH]; rewrite Forall_forall in *; intros x Hx; apply filter_In in Hx as [Hx _]; exact (Fa x Hx)).
    apply FS, seq_sorted.
  - intros j. rewrite filter_In, in_seq, inb_In. split; [intros [Hj H]; apply (only_sub p j P L O ltac:(lia)), H|]. intros H. pose proof (Sn j H). split; [lia|]. apply (only_sub p j P L O ltac:(lia)), H.
Qed.
Definition restrict (p : list nat) : list nat := map (fun j => index_nat (nth j p 0) sub) sub.
Lemma restrict_spec p : is_perm p = true -> length p = n -> only p -> restriction p (restrict p).
Proof.
  intros P L O. unfold restriction, restrict. rewrite map_length. split; [reflexivity|]. intros k Hk. replace (nth k (map (fun j => index_nat (nth j p 0) sub) sub) 0) with (index_nat (nth (nth k sub 0) p 0) sub) by (symmetry; apply (nth_mapn (fun j => index_nat (nth j p 0) sub)); exact Hk).
  assert (Hj : In (nth k sub 0) sub) by (apply nth_In, Hk). destruct (index_nat_spec (nth (nth k sub 0) p 0) sub) as [A B]; [apply (only_sub p _ P L O (Sn _ Hj)), Hj|]. split; [symmetry; exact B|exact A].
Qed.
Lemma restriction_unique p q q' : restriction p q -> restriction p q' -> q = q'.
Proof.
  intros [L H] [L' H']. apply nth_ext0; [congruence|]. intros k Hk. destruct (H k ltac:(lia)) as [E B], (H' k ltac:(lia)) as [E' B']. rewrite E in E'. exact (proj1 (NoDup_nth sub 0) sub_nodup _ _ B B' E').
Qed.
Lemma restriction_perm p q : is_perm p = true -> length p = n -> restriction p q -> is_perm q = true.
Proof.
  intros P L [Lq H]. apply perm_of_inj; rewrite Lq; [intros i Hi; apply H, Hi|]. intros i j Hi Hj E. destruct (H i Hi) as [A _], (H j Hj) as [B _]. rewrite E in A. rewrite <- A in B.
  assert (Bi : nth i sub 0 < n) by (apply Sn, nth_In, Hi). assert (Bj : nth j sub 0 < n) by (apply Sn, nth_In, Hj). apply (perm_nth_inj p) in B; [|exact P|lia|lia]. exact (proj1 (NoDup_nth sub 0) sub_nodup i j Hi Hj (eq_sym B)).
Qed.
Lemma subrepr_ok : exists h, subrepr_permutation sub g = Ok h /\ NoDup h /\ signed_group (length sub) h /\ (forall s q, In (s, q) h <-> exists p, In (s, p) g /\ only p /\ restriction p q).
Proof.
  destruct Gg as (Pg & Ig & Vg & Cg). unfold subrepr_permutation. set (kept := filter _ g).
  assert (Hk : forall s p, In (s, p) kept <-> In (s, p) g /\ only p).
  { intros s p. unfold kept. rewrite filter_In. split; intros [H C]; (split; [exact H|]); destruct (Pg s p H) as (_ & P & L); apply (condition_iff p P L); exact C. }
  rewrite (mapM_Ok _ (fun '(s, p) => (s, restrict p))).
  2:{ intros [s p] H. apply Hk in H as [H O]. destruct (Pg s p H) as (_ & P & L). rewrite (filter_positions p P L O). 
      assert (E : mapM (fun i => index i sub) (map (fun j => nth j p 0) sub) = Ok (map (fun i => index_nat i sub) (map (fun j => nth j p 0) sub))).
      { apply mapM_Ok. intros i Hi. apply in_map_iff in Hi as (j & <- & Hj). apply index_nat_Ok. apply (only_sub p j P L O (Sn j Hj)), Hj. }
      rewrite E, map_map. reflexivity. }
  cbn [bind]. eexists. split; [reflexivity|]. split; [apply sunion_NoDup; constructor|].
  assert (Hh : forall s q, In (s, q) (sunion [] (map (fun '(s, p) => (s, restrict p)) kept)) <-> exists p, In (s, p) g /\ only p /\ restriction p q).
  { intros s q. rewrite sunion_In, in_map_iff. split.
    - intros [[]|([t p] & E & H)]. injection E as <- <-. apply Hk in H as [H O]. destruct (Pg t p H) as (_ & P & L). exists p. split; [exact H|]. split; [exact O|]. apply restrict_spec; assumption.
    - intros (p & H & O & Rq). right. destruct (Pg s p H) as (_ & P & L). exists (s, p). split; [|apply Hk; split; assumption]. f_equal. apply (restriction_unique p); [apply restrict_spec; assumption|exact Rq]. }
  split; [|exact Hh]. split; [|split; [|split]].
  - intros s q H. apply Hh in H as (p & H & O & Rq). destruct (Pg s p H) as (Ss' & P & L). split; [exact Ss'|]. split; [exact (restriction_perm p q P L Rq)|apply Rq].
  - apply Hh. exists (identity n). split; [exact Ig|]. assert (Id : forall j, j < n -> nth j (identity n) 0 = j) by (intros j Hj; unfold identity; rewrite seq_nth by exact Hj; reflexivity). split; [intros j Hj _; exact (Id j Hj)|]. split; [apply seq_length|].
    intros k Hk'. unfold identity at 2 3. rewrite seq_nth by exact Hk'. cbn [plus]. split; [apply Id, Sn, nth_In, Hk'|exact Hk'].
  - intros s q q' H E. apply Hh in H as (p & H & O & Rq). destruct (Pg s p H) as (_ & P & L). pose proof (restriction_perm p q P L Rq) as Pq. rewrite inverse_Ok in E by exact Pq. injection E as <-.
    apply Hh. exists (inv_nat p). split; [apply (Vg s p); [exact H|apply inverse_Ok, P]|].
    assert (Oi : only (inv_nat p)). { intros j Hj Nj. pose proof (O j Hj Nj) as Q. rewrite <- Q at 1. apply inv_nat_l; [exact P|lia]. }
    split; [exact Oi|]. destruct Rq as [Lq Rq]. split; [rewrite inv_nat_length; exact Lq|]. intros k Hk'. rewrite (inv_nat_nth q) by lia. destruct (index_nat_spec k q) as [A B]; [apply perm_In; [exact Pq|lia]|]. split; [|lia].
    destruct (Rq (index_nat k q) ltac:(lia)) as [C _]. rewrite B in C. rewrite <- C. apply inv_nat_l; [exact P|]. rewrite L. apply Sn, nth_In. lia.
  - intros s q t q' r H H' E. apply Hh in H as (p & H & O & Rq), H' as (p' & H' & O' & Rq'). destruct (Pg s p H) as (_ & P & L), (Pg t p' H') as (_ & P' & L'). pose proof (restriction_perm p q P L Rq) as Pq. pose proof (restriction_perm p' q' P' L' Rq') as Pq'.
    destruct Rq as [Lq Rq], Rq' as [Lq' Rq']. rewrite compose_Ok in E by congruence. injection E as <-. apply Hh. exists (comp_nat p p'). split; [apply (Cg s p t p'); [exact H|exact H'|apply compose_Ok; congruence]|].
    split; [intros j Hj Nj; rewrite comp_nat_nth by lia; rewrite (O' j Hj Nj); exact (O j Hj Nj)|]. split; [rewrite comp_nat_length; exact Lq|]. intros k Hk'. rewrite !comp_nat_nth by (try lia; rewrite L; apply Sn, nth_In, Hk').
    destruct (Rq' k Hk') as [A A']. rewrite A. destruct (Rq (nth k q' 0) A') as [B B']. rewrite B. split; [reflexivity|exact B'].
Qed.
End sub.
(* subrepr_permutation: the elements of the group that leave the other indices in place, read on the sub-set of indices (in increasing order); it is a group *)
Theorem C50_subgroup n g sub : signed_group n g -> StronglySorted lt sub -> (forall i, In i sub -> i < n) ->
  exists h, subrepr_permutation sub g = Ok h /\ NoDup h /\ signed_group (length sub) h /\ (forall s q, In (s, q) h <-> exists p, In (s, p) g /\ only n sub p /\ restriction sub p q).
Proof. intros G S H. exact (subrepr_ok n g sub G S H). Qed.

(* ---------- degrees ---------- *)
Lemma tuples_S len total : tuples_with_sum (S (S len)) total = if total =? 0 then [repeat 0 (S (S len))] else flat_map (fun first => map (cons first) (tuples_with_sum (S len) (total - first))) (rev (seq 0 (S total))).
Proof. reflexivity. Qed.
Theorem C50_tuples len total t : 1 <= len -> (In t (tuples_with_sum len total) <-> length t = len /\ sum t = total).
Proof.
  intros H. destruct len as [|len]; [lia|]. clear H. revert total t. induction len as [|len IH]; intros total t.
  - cbn [tuples_with_sum]. cbn [In]. split; [intros [<-|[]]; split; [reflexivity|cbn; lia]|]. intros [L E]. left. destruct t as [|a [|]]; try discriminate. cbn in E. f_equal. lia.
  - rewrite tuples_S. destruct (Nat.eqb_spec total 0) as [->|N].
    + cbn [In]. split.
      * intros [<-|[]]. split; [apply repeat_length|]. generalize (S (S len)). induction n as [|n IHn]; [reflexivity|]. cbn. exact IHn.
      * intros [L E]. left. revert t L E. generalize (S (S len)). induction n as [|n IHn]; intros [|a t] L E; try discriminate; [reflexivity|]. change (PyBase.sum (a :: t)) with (a + PyBase.sum t) in E. cbn in L. cbn [repeat]. f_equal; [lia|]. apply IHn; lia.
    + rewrite in_flat_map. split.
      * intros (a & Ha & Ht). apply in_rev, in_seq in Ha. apply in_map_iff in Ht as (u & <- & Hu). apply IH in Hu as [L E]. split; [cbn; lia|]. change (PyBase.sum (a :: u)) with (a + PyBase.sum u). lia.
      * intros [L E]. destruct t as [|a t]; [discriminate|]. exists a. cbn in L. change (PyBase.sum (a :: t)) with (a + PyBase.sum t) in E. split; [rewrite <- in_rev; apply in_seq; lia|]. apply in_map_iff. exists t. split; [reflexivity|]. apply IH. split; [lia|]. lia.
Qed.
Theorem C50_tuples_once len total : NoDup (tuples_with_sum len total).
Proof.
  destruct len as [|len]; [constructor|]. revert total. induction len as [|len IH]; intros total; [repeat constructor; intros []|]. rewrite tuples_S. destruct (total =? 0); [repeat constructor; intros []|].
  assert (N : NoDup (rev (seq 0 (S total)))) by apply NoDup_rev, seq_NoDup. induction (rev (seq 0 (S total))) as [|a l IHl]; [constructor|]. apply NoDup_cons_iff in N as [Na Nl]. cbn [flat_map].
  assert (D : NoDup (map (cons a) (tuples_with_sum (S len) (total - a)))) by (apply FinFun.Injective_map_NoDup; [intros x y E; congruence|apply IH]).
  specialize (IHl Nl). revert D IHl. generalize (map (cons a) (tuples_with_sum (S len) (total - a))) (flat_map (fun first => map (cons first) (tuples_with_sum (S len) (total - first))) l) (fun t => proj1 (in_map_iff (cons a) (tuples_with_sum (S len) (total - a)) t)) (fun t => proj1 (in_flat_map (fun first => map (cons first) (tuples_with_sum (S len) (total - first))) l t)).
  intros u v Hu Hv Nu Nv. induction u as [|t u IHu]; [exact Nv|]. apply NoDup_cons_iff in Nu as [Nt Nu]. cbn [app]. constructor; [|apply IHu; [intros x Hx; apply Hu; right; exact Hx|exact Nu]].
  intros Hin. apply in_app_iff in Hin as [Hin|Hin]; [contradiction|]. destruct (Hu t (or_introl eq_refl)) as (x & E & _). destruct (Hv t Hin) as (b & Hb & Ht). apply in_map_iff in Ht as (y & E' & _). assert (a = b) by congruence. subst b. contradiction.
Qed.

(* ---------- examples ---------- *)
(* ijk = -jik = jki *)
Local Open Scope char_scope.
Definition example_formula : chars := ["i"; "j"; "k"; "="; "-"; "j"; "i"; "k"; "="; "j"; "k"; "i"].
Example C50_nonvacuous : sides_of example_formula = [(1%Z, ["i"; "j"; "k"]); ((-1)%Z, ["j"; "i"; "k"]); (1%Z, ["j"; "k"; "i"])] /\ arrangements ["i"; "j"; "k"] (sides_of example_formula) /\
  same_dims (fun _ => 3) ["i"; "j"; "k"] (sides_of example_formula) /\
  (exists g base, germinate_perm_repr 13 example_formula = Some (Ok (["i"; "j"; "k"], g)) /\ length g = 6 /\ reduce_permutation_base g [3; 3; 3] = Ok base /\ length base = 1).
Proof.
  split; [reflexivity|]. split; [|split].
  - split; [repeat constructor; cbn; intuition discriminate|]. intros s f [H|[H|[H|[]]]]; injection H as <- <-; [reflexivity|apply perm_swap|].
    transitivity ["j"; "i"; "k"]; [apply perm_skip, perm_swap|apply perm_swap].
  - intros s f [H|[H|[H|[]]]]; injection H as <- <-; reflexivity.
  - eexists. eexists. split; [vm_compute; reflexivity|]. split; [reflexivity|]. split; [vm_compute; reflexivity|reflexivity].
Qed.
(* ij = -ij is not rejected *)
Theorem C50_contradictory_not_rejected : exists formula g, germinate_perm_repr 5 formula = Some (Ok (["i"; "j"], g)) /\ In ((-1)%Z, identity 2) g /\ reduce_permutation_base g [2; 2] = Ok [].
Proof. exists ["i"; "j"; "="; "-"; "i"; "j"]. eexists. split; [vm_compute; reflexivity|]. split; [cbn; tauto|vm_compute; reflexivity]. Qed.
