(* The legacy tensor product: every connection mode is a table of coefficients between copies *)
From Coq Require Import Reals Lra Lia List.
From Verif Require Import PyBase PermModel PermProofs IrrepsModel IrrepsProofs IrrepsProofs2 ArrayModel ArrayProofs ArrayOps RechunkProofs ArithProofs BlockProofs LeadModel LeadProofs StackProofs BilinProofs ActProofs EquivProofs EquivProofs2 SumR TPModel LinearModel LinearProofs TPProofs TPProofs2 LinearProps TPProps3 TPProps4 SymProofs2 LegacyModel GSProofs.
From Verif Require Import EntryProofs.
Import ListNotations.
Open Scope nat_scope.

(* ---------- the specification of the modes ---------- *)
(* the coefficient of (copy u of input 1) x (copy v of input 2) in copy z of the output; w holds the weights in row-major order *)
Definition coefficient (mode : tmode) (hw : bool) (m1 m2 mo : nat) (w : list R) (u v z : nat) : R :=
  let wt q := if hw then nth q w 0%R else 1%R in
  match mode with
  | Uvw => nth ((u * m2 + v) * mo + z) w 0%R
  | Uvu => if z =? u then wt (u * m2 + v) else 0%R
  | Uvv => if z =? v then wt (u * m2 + v) else 0%R
  | Uuw => if u =? v then wt (u * mo + z) else 0%R
  | Uuu => if (u =? v) && (z =? u) then wt u else 0%R
  | Uvuv => if z =? u * m2 + v then wt z else 0%R
  | UvuLtv => if (u <? v) && (z =? pair_rank m1 u v) then wt z else 0%R
  | ULtvw => if u <? v then nth (pair_rank m1 u v * mo + z) w 0%R else 0%R
  | MBad => 0%R
  end.
(* what a mode asks of the multiplicities *)
Definition mode_ok (mode : tmode) (hw : bool) (m1 m2 mo : nat) : Prop :=
  match mode with
  | Uvw => hw = true
  | Uvu => m1 = mo
  | Uvv => m2 = mo
  | Uuw => m1 = m2 /\ (hw = true \/ mo = 1)
  | Uuu => m1 = m2 /\ m2 = mo
  | Uvuv => m1 * m2 = mo
  | UvuLtv => m1 = m2 /\ m1 * (m1 - 1) / 2 = mo
  | ULtvw => m1 = m2 /\ hw = true
  | MBad => False
  end.

(* ---------- row-major arrays ---------- *)
Lemma flat2_tab n d f : flat2 n d f = concat (tab2 n d f).
Proof. reflexivity. Qed.
Lemma flat2_length n d f : length (flat2 n d f) = n * d.
Proof. rewrite flat2_tab. destruct (tab2_wf n d f) as [L W]. rewrite (concat_length_uniform d) by exact W. rewrite L. reflexivity. Qed.
Lemma flat2_nth n d f a k : a < n -> k < d -> nth (a * d + k) (flat2 n d f) 0%R = f a k.
Proof. intros Ha Hk. rewrite flat2_tab. destruct (tab2_wf n d f) as [L W]. rewrite nth_concat; [|exact W|exact Hk|rewrite L; exact Ha]. unfold tab2. rewrite nth_tab by exact Ha. apply nth_tab, Hk. Qed.
Lemma flat3 n1 n2 d f : concat (map (fun u => flat2 n2 d (f u)) (seq 0 n1)) = flat2 (n1 * n2) d (fun z k => f (z / n2) (z mod n2) k).
Proof.
  apply (nth_ext _ _ 0%R 0%R).
  - rewrite flat2_length. rewrite (concat_length_uniform (n2 * d)) by (apply Forall_map, Forall_forall; intros; apply flat2_length). rewrite map_length, seq_length. lia.
  - intros q Hq. rewrite (concat_length_uniform (n2 * d)) in Hq by (apply Forall_map, Forall_forall; intros; apply flat2_length). rewrite map_length, seq_length in Hq.
    assert (D : d <> 0) by (intros ->; lia). assert (N : n2 <> 0) by (intros ->; lia).
    set (z := q / d). set (k := q mod d). assert (Eq : q = z * d + k) by (unfold z, k; pose proof (Nat.div_mod q d D); lia). assert (Hk : k < d) by (apply Nat.mod_upper_bound, D).
    assert (Hz : z < n1 * n2) by (unfold z; apply Nat.div_lt_upper_bound; [exact D|]; lia).
    set (u := z / n2). set (v := z mod n2). assert (Ez : z = u * n2 + v) by (unfold u, v; pose proof (Nat.div_mod z n2 N); lia). assert (Hv : v < n2) by (apply Nat.mod_upper_bound, N). assert (Hu : u < n1) by (unfold u; apply Nat.div_lt_upper_bound; [exact N|]; lia).
    rewrite Eq at 2. rewrite flat2_nth by assumption. fold u v. replace q with (u * (n2 * d) + (v * d + k)) by (rewrite Eq, Ez; ring).
    rewrite nth_concat; [|apply Forall_map, Forall_forall; intros; apply flat2_length|pose proof (Nat.mul_le_mono_r (S v) n2 d Hv); lia|rewrite map_length, seq_length; exact Hu].
    change (map ?f (seq 0 n1)) with (tab n1 f). rewrite nth_tab by exact Hu. apply flat2_nth; assumption.
Qed.

(* ---------- pairs u < v ---------- *)
Lemma pairs_lt_nodup m : NoDup (pairs_lt m).
Proof.
  unfold pairs_lt. apply nodup_flat_map; [apply seq_NoDup| |].
  - intros u _. apply FinFun.Injective_map_NoDup; [intros a b E; congruence|apply seq_NoDup].
  - intros u u' p _ _ H H'. apply in_map_iff in H as (v & <- & _). apply in_map_iff in H' as (v' & E & _). congruence.
Qed.
Lemma rank_of m q u v : q < length (pairs_lt m) -> nth q (pairs_lt m) (0, 0) = (u, v) -> u < v < m /\ q = pair_rank m u v.
Proof.
  intros Hq E. assert (H : u < v < m) by (apply pairs_lt_in; rewrite <- E; apply nth_In, Hq). split; [exact H|]. destruct (pairs_lt_nth m u v H) as [E' B]. rewrite <- pairs_lt_length in B.
  apply (proj1 (NoDup_nth (pairs_lt m) (0, 0)) (pairs_lt_nodup m)); [exact Hq|exact B|congruence].
Qed.
Lemma sum_pairs m (f : nat -> nat -> nat -> R) : lsum (enumerate (pairs_lt m)) (fun '(q, (u, v)) => f q u v) = rsum m (fun u => rsum m (fun v => if u <? v then f (pair_rank m u v) u v else 0%R)).
Proof.
  rewrite (lsum_ext _ _ (fun '(q, p) => (fun q p => f q (fst p) (snd p)) q p)) by (intros [q [u v]] _; reflexivity).
  rewrite (lsum_enumerate (pairs_lt m) (0, 0) (fun q p => f q (fst p) (snd p))).
  transitivity (lsum (pairs_lt m) (fun '(u, v) => f (pair_rank m u v) u v)).
  - rewrite (lsum_nth (pairs_lt m) (0, 0)). apply rsum_ext. intros q Hq. destruct (nth q (pairs_lt m) (0, 0)) as [u v] eqn:E. destruct (rank_of m q u v Hq E) as [_ ->]. reflexivity.
  - transitivity (lsum (pairs_lt m) (fun p => if fst p <? snd p then f (pair_rank m (fst p) (snd p)) (fst p) (snd p) else 0%R)).
    + apply lsum_ext. intros [u v] H. apply pairs_lt_in in H. cbn [fst snd]. destruct (Nat.ltb_spec u v); [reflexivity|lia].
    + rewrite <- (lsum_support (pairs_all m m)).
      * apply lsum_pairs_all.
      * unfold pairs_all. apply nodup_flat_map; [apply seq_NoDup| |]; [intros u _; apply FinFun.Injective_map_NoDup; [intros a b E; congruence|apply seq_NoDup]|]. intros u u' p _ _ H H'. apply in_map_iff in H as (v & <- & _). apply in_map_iff in H' as (v' & E & _). congruence.
      * apply pairs_lt_nodup.
      * intros [u v] H. apply pairs_lt_in in H. apply pairs_all_in. lia.
      * intros [u v] H N. cbn [fst snd]. apply pairs_all_in in H. destruct (Nat.ltb_spec u v); [|reflexivity]. exfalso. apply N. apply pairs_lt_in. lia.
Qed.

(* ---------- one instruction ---------- *)
Lemma rsum_diag m a (f : nat -> R) : a < m -> rsum m (fun u => if a =? u then f u else 0%R) = f a.
Proof. intros H. rewrite <- (rsum_delta m a f H). apply rsum_ext. intros u _. rewrite Nat.eqb_sym. reflexivity. Qed.
Lemma delta2 m (f : nat -> nat -> R) : rsum m (fun u => rsum m (fun v => if u =? v then f u v else 0%R)) = rsum m (fun u => f u u).
Proof. apply rsum_ext. intros u Hu. rewrite (rsum_diag m u (fun v => f u v) Hu). reflexivity. Qed.

(* the einsum of every mode computes the table of coefficients *)
Lemma block_value_ok mode hw m1 m2 mo d w C : mode_ok mode hw m1 m2 mo ->
  exists l, block_value mode hw m1 m2 mo d w C = Ok l /\ length l = mo * d /\
    forall z k, z < mo -> k < d -> nth (z * d + k) l 0%R = rsum m1 (fun u => rsum m2 (fun v => coefficient mode hw m1 m2 mo w u v z * C u v k))%R.
Proof.
  intros M. unfold block_value. destruct mode; cbn [mode_ok] in M.
  - rewrite M. cbn [assert bind]. eexists. split; [reflexivity|]. split; [apply flat2_length|]. intros z k Hz Hk. rewrite flat2_nth by assumption. reflexivity.
  - rewrite <- M, Nat.eqb_refl. cbn [assert bind]. eexists. split; [reflexivity|]. split; [apply flat2_length|]. intros z k Hz Hk. rewrite flat2_nth by assumption. cbn [coefficient].
    rewrite (rsum_ext m1 _ (fun u => if z =? u then rsum m2 (fun v => (if hw then nth (u * m2 + v) w 0 else 1) * C u v k) else 0)%R) by (intros u Hu; destruct (z =? u); [reflexivity|apply rsum_zero; intros; ring]).
    rewrite (rsum_diag m1 z) by exact Hz. apply rsum_ext. intros v _. destruct hw; ring.
  - rewrite <- M, Nat.eqb_refl. cbn [assert bind]. eexists. split; [reflexivity|]. split; [apply flat2_length|]. intros z k Hz Hk. rewrite flat2_nth by assumption. cbn [coefficient]. apply rsum_ext. intros u Hu.
    rewrite (rsum_ext m2 _ (fun v => if z =? v then (if hw then nth (u * m2 + v) w 0 else 1) * C u v k else 0)%R) by (intros v Hv; destruct (z =? v); [reflexivity|ring]). rewrite (rsum_diag m2 z) by exact Hz. destruct hw; ring.
  - destruct M as [<- M]. rewrite Nat.eqb_refl. cbn [assert bind]. assert (G : forall z k, rsum m1 (fun u => rsum m1 (fun v => coefficient Uuw hw m1 m1 mo w u v z * C u v k))%R = rsum m1 (fun u => (if hw then nth (u * mo + z) w 0 else 1) * C u u k)%R).
    { intros z k. rewrite <- (delta2 m1 (fun u v => (if hw then nth (u * mo + z) w 0 else 1) * C u v k)%R). apply rsum_ext. intros u _. apply rsum_ext. intros v _. cbn [coefficient]. destruct (u =? v); [reflexivity|ring]. }
    destruct hw.
    + eexists. split; [reflexivity|]. split; [apply flat2_length|]. intros z k Hz Hk. rewrite flat2_nth by assumption. rewrite G. reflexivity.
    + destruct M as [M|M]; [discriminate|]. rewrite M in *. cbn [assert bind Nat.eqb]. eexists. split; [reflexivity|]. split; [rewrite map_length, seq_length; lia|]. intros z k Hz Hk. replace z with 0 by lia. cbn [Nat.mul Nat.add]. change (map ?f (seq 0 d)) with (tab d f). rewrite nth_tab by exact Hk. rewrite G. apply rsum_ext. intros; ring.
  - destruct M as [<- <-]. rewrite Nat.eqb_refl. cbn [assert bind andb]. eexists. split; [reflexivity|]. split; [apply flat2_length|]. intros z k Hz Hk. rewrite flat2_nth by assumption. cbn [coefficient].
    rewrite (rsum_ext m1 _ (fun u => if z =? u then (if hw then nth u w 0 else 1) * C u u k else 0)%R). 2:{ intros u Hu. transitivity (rsum m1 (fun v => if u =? v then (if z =? u then (if hw then nth u w 0 else 1) * C u v k else 0) else 0)%R); [apply rsum_ext; intros v _; destruct (u =? v), (z =? u); cbn [andb]; ring|]. rewrite (rsum_diag m1 u) by exact Hu. reflexivity. }
    rewrite (rsum_diag m1 z) by exact Hz. destruct hw; ring.
  - rewrite M, Nat.eqb_refl. cbn [assert bind]. rewrite (flat3 m1 m2 d (fun u v k => if hw then (nth (u * m2 + v) w 0 * C u v k)%R else C u v k)). eexists. split; [reflexivity|]. split; [rewrite flat2_length, M; reflexivity|]. intros z k Hz Hk. rewrite <- M in Hz. rewrite flat2_nth by assumption. cbn [coefficient].
    assert (N : m2 <> 0) by (intros ->; lia). set (u0 := z / m2). set (v0 := z mod m2). assert (Ez : z = u0 * m2 + v0) by (unfold u0, v0; pose proof (Nat.div_mod z m2 N); lia). assert (Hv : v0 < m2) by (apply Nat.mod_upper_bound, N). assert (Hu : u0 < m1) by (unfold u0; apply Nat.div_lt_upper_bound; [exact N|]; lia).
    rewrite (rsum_ext m1 _ (fun u => if u0 =? u then (if hw then nth z w 0 else 1) * C u v0 k else 0)%R).
    + rewrite (rsum_diag m1 u0) by exact Hu. rewrite <- Ez. destruct hw; ring.
    + intros u Hu'. rewrite (rsum_ext m2 _ (fun v => if v0 =? v then (if u0 =? u then (if hw then nth z w 0 else 1) * C u v k else 0) else 0)%R).
      * rewrite (rsum_diag m2 v0) by exact Hv. reflexivity.
      * intros v Hv'. destruct (Nat.eqb_spec z (u * m2 + v)) as [E|E].
        -- assert (u0 = u /\ v0 = v) as [Eu Ev]. { unfold u0, v0. rewrite E. rewrite Nat.div_add_l, Nat.div_small by assumption. split; [lia|]. rewrite Nat.add_comm, Nat.mod_add by exact N. apply Nat.mod_small, Hv'. } rewrite Eu, Ev, !Nat.eqb_refl. reflexivity.
        -- destruct (Nat.eqb_spec v0 v) as [Ev|], (Nat.eqb_spec u0 u) as [Eu|]; try ring. exfalso. apply E. rewrite Ez, Eu, Ev. reflexivity.
  - destruct M as [<- M]. rewrite Nat.eqb_refl. unfold half_pairs. rewrite M, Nat.eqb_refl. cbn [assert bind]. assert (F : Forall (fun r => length r = d) (map (fun '(q, (u, v)) => map (fun k => if hw then (nth q w 0 * C u v k)%R else C u v k) (seq 0 d)) (enumerate (pairs_lt m1)))) by (apply Forall_map, Forall_forall; intros [q [u v]] _; rewrite map_length, seq_length; reflexivity).
    eexists. split; [reflexivity|]. assert (L : length (enumerate (pairs_lt m1)) = mo) by (unfold enumerate; rewrite combine_length, seq_length, pairs_lt_length, M; apply Nat.min_id). split; [rewrite (concat_length_uniform d) by exact F; rewrite map_length, L; reflexivity|].
    intros z k Hz Hk. rewrite nth_concat; [|exact F|exact Hk|rewrite map_length, L; exact Hz]. rewrite (nth_map_in _ _ _ (0, (0, 0))) by (rewrite L; exact Hz). rewrite nth_enumerate by (rewrite pairs_lt_length, M; exact Hz). cbn [snd]. destruct (nth z (pairs_lt m1) (0, 0)) as [u0 v0] eqn:E.
    destruct (rank_of m1 z u0 v0) as [H0 Hr]; [rewrite pairs_lt_length, M; exact Hz|exact E|]. change (map ?f (seq 0 d)) with (tab d f). rewrite nth_tab by exact Hk. cbn [coefficient].
    rewrite (rsum_ext m1 _ (fun u => if u0 =? u then (if hw then nth z w 0 else 1) * C u v0 k else 0)%R).
    + rewrite (rsum_diag m1 u0) by lia. destruct hw; ring.
    + intros u Hu'. rewrite (rsum_ext m1 _ (fun v => if v0 =? v then (if u0 =? u then (if hw then nth z w 0 else 1) * C u v k else 0) else 0)%R).
      * rewrite (rsum_diag m1 v0) by lia. reflexivity.
      * intros v Hv'. destruct (Nat.ltb_spec u v) as [Luv|Luv]; cbn [andb].
        -- destruct (Nat.eqb_spec z (pair_rank m1 u v)) as [Ez|Ez].
           ++ assert (u0 = u /\ v0 = v) as [-> ->]. { destruct (pairs_lt_nth m1 u v ltac:(lia)) as [E' _]. rewrite <- Ez, E in E'. split; congruence. } rewrite !Nat.eqb_refl. reflexivity.
           ++ destruct (Nat.eqb_spec v0 v), (Nat.eqb_spec u0 u); subst; try ring; congruence.
        -- destruct (Nat.eqb_spec v0 v), (Nat.eqb_spec u0 u); subst; try ring; lia.
  - destruct M as [<- ->]. rewrite Nat.eqb_refl. cbn [assert bind]. eexists. split; [reflexivity|]. split; [apply flat2_length|]. intros z k Hz Hk. rewrite flat2_nth by assumption.
    rewrite (sum_pairs m1 (fun q u v => nth (q * mo + z) w 0 * C u v k)%R). cbn [coefficient]. apply rsum_ext. intros u _. apply rsum_ext. intros v _. destruct (u <? v); ring.
  - destruct M.
Qed.
