(* Sub-tuples of indices: masks, the identity bases and the reshaped recursive results. *)
From Coq Require Import Reals Lra Lia List Arith Permutation Sorted.
From Verif Require Import PyBase PermModel PermProofs IrrepsModel IrrepsProofs IrrepsProofs2 ArrayModel ArrayProofs ArrayOps RechunkProofs LeadModel LeadProofs StackProofs ActProofs EquivProofs EntryProofs LinearProofs ScatterProps SumR S2Proofs3 TPModel TPProofs TPProofs2 RotationModel RotationProofs CGModel WignerModel WignerProofs WignerProofs2 WignerProps WignerProps2 CGComplete SchurProofs MultProofs CouplingProofs ReducedProofs ConstrainProofs RtpModel RtpSpace RtpTools RtpArr.
Import ListNotations.
Open Scope R_scope.

(* ---------- the selected coordinates ---------- *)
Fixpoint unsel (m : list bool) (z : list nat) : list nat :=
  match m with
  | [] => []
  | true :: m => match z with k :: z => k :: unsel m z | [] => 0%nat :: unsel m [] end
  | false :: m => 0%nat :: unsel m z
  end.
Lemma all_idx_one s : all_idx (1%nat :: s) = map (cons 0%nat) (all_idx s).
Proof. cbn [all_idx seq flat_map]. apply app_nil_r. Qed.
Lemma map_flat_map' {A B C} (g : B -> C) (f : A -> list B) l : map g (flat_map f l) = flat_map (fun a => map g (f a)) l.
Proof. induction l as [|a l IH]; [reflexivity|]. cbn [flat_map]. rewrite map_app, IH. reflexivity. Qed.
Lemma select_space m ls : length ls = length m -> space (select m ls) = map (select m) (space (mk m ls)).
Proof.
  revert ls. induction m as [|b m IH]; intros [|l ls] L; try discriminate; [reflexivity|]. injection L as L. cbn [select mk]. unfold space in *. destruct b; cbn [tdims map].
  - cbn [all_idx]. rewrite map_flat_map'. apply flat_map_ext. intros k. fold (tdims (select m ls)) (tdims (mk m ls)). rewrite (IH ls L), !map_map. reflexivity.
  - change (dims [e0]) with 1%nat. rewrite all_idx_one, map_map. cbn [select]. exact (IH ls L).
Qed.
Lemma unsel_select m ls z : length ls = length m -> In z (space (mk m ls)) -> unsel m (select m z) = z.
Proof.
  revert ls z. induction m as [|b m IH]; intros [|l ls] z L Hz; try discriminate; [destruct Hz as [<-|[]]; reflexivity|]. injection L as L. cbn [mk] in Hz. apply in_all_idx_inv in Hz as (k & i & -> & Hk & Hi). destruct b; cbn [select unsel].
  - f_equal. apply (IH ls); assumption.
  - change (dims [e0]) with 1%nat in Hk. f_equal; [lia|]. apply (IH ls); assumption.
Qed.
Lemma rho_select m ls r z z' : length ls = length m -> orthogonal3 r -> In z (space (mk m ls)) -> In z' (space (mk m ls)) -> rho (mk m ls) r z z' = rho (select m ls) r (select m z) (select m z').
Proof.
  intros L O. revert ls z z' L. induction m as [|b m IH]; intros [|l ls] z z' L Hz Hz'; try discriminate; [destruct Hz as [<-|[]], Hz' as [<-|[]]; reflexivity|]. injection L as L. cbn [mk] in Hz, Hz'. apply in_all_idx_inv in Hz as (k & i & -> & Hk & Hi). apply in_all_idx_inv in Hz' as (k' & i' & -> & Hk' & Hi').
  cbn [mk select]. destruct b; cbn [rho].
  - rewrite (IH ls i i' L Hi Hi'). reflexivity.
  - change (dims [e0]) with 1%nat in Hk, Hk'. rewrite bd_scalar by assumption. rewrite (IH ls i i' L Hi Hi'). ring.
Qed.
Lemma ravel_select m ls z : length ls = length m -> In z (space (mk m ls)) -> prod (tdims (mk m ls)) = prod (tdims (select m ls)) /\ ravel (tdims (mk m ls)) z = ravel (tdims (select m ls)) (select m z).
Proof.
  revert ls z. induction m as [|b m IH]; intros [|l ls] z L Hz; try discriminate; [split; reflexivity|]. injection L as L. cbn [mk] in Hz. apply in_all_idx_inv in Hz as (k & i & -> & Hk & Hi). destruct (IH ls i L Hi) as [H1 H2]. cbn [mk select]. unfold tdims in *. destruct b; cbn [map ravel].
  - rewrite !prod_cons, H1, H2. split; reflexivity.
  - change (dims [e0]) with 1%nat in *. rewrite prod_cons, H1, H2. split; lia.
Qed.
Lemma prod_select m ls : length ls = length m -> prod (tdims (mk m ls)) = prod (tdims (select m ls)).
Proof.
  revert ls. induction m as [|b m IH]; intros [|l ls] L; try discriminate; [reflexivity|]. injection L as L. cbn [mk select]. pose proof (IH ls L) as H. unfold tdims in *. destruct b; cbn [map]; rewrite !prod_cons, H; [reflexivity|change (dims [e0]) with 1%nat; lia].
Qed.
Definition lifted (m : list bool) (W : (idx -> R) -> Prop) (f : idx -> R) : Prop := W (fun y => f (unsel m y)).
Theorem good_reshape m ls K W b : length ls = length m -> good (select m ls) K W b -> exists y, ia_reshape b (tdims (mk m ls)) = Ok y /\ good (mk m ls) K (lifted m W) y.
Proof.
  intros L (C & Lb & SW & HR). destruct (reshape_yields b (tdims (mk m ls)) C) as (y & E & Iy & Ly & Cy & Vy); [rewrite Lb; apply prod_select, L|].
  exists y. split; [exact E|]. split; [exact Cy|]. split; [exact Ly|].
  pose proof (select_space m ls L) as H1. assert (H2 : forall z, In z (space (mk m ls)) -> unsel m (select m z) = z) by (intros; apply (unsel_select m ls); assumption).
  assert (SL : subspace (space (mk m ls)) (lifted m W)) by (apply (subspace_iso _ _ (select m) (unsel m) H1 H2); exact SW). split; [exact SL|].
  refine (reduced_sames _ _ K (lifted m W) _ (family y) SL _ (reduced_iso _ _ _ (rho (select m ls)) (select m) (unsel m) H1 H2 (fun r z z' O Hz Hz' => rho_select m ls r z z' L O Hz Hz') K W (family b) SW HR)).
  unfold family. rewrite Iy. assert (PM : forall l off, map (pulled (select m)) (plets l off (arr b)) = plets l off (fun z => arr b (select m z))) by (induction l as [|ir l IH]; intros off; [reflexivity|]; cbn [plets map]; rewrite IH; reflexivity).
  rewrite PM. apply plets_ext. intros z Hz. rewrite (Vy z (in_valid _ _ Hz)), Lb. f_equal. destruct (ravel_select m ls z L Hz) as [_ Q]. rewrite Q. symmetry. apply unravel_ravel. apply in_valid.  fold (space (select m ls)). rewrite H1. apply in_map, Hz.
Qed.

(* ---------- index sets ---------- *)
Definition maskof (n : nat) (f : list nat) : list bool := map (inb f) (seq 0 n).
(* an increasing list of indices below n *)
Definition iset (n : nat) (f : list nat) : Prop := f = filter (inb f) (seq 0 n).
Lemma inb_iff f i : inb f i = true <-> In i f.
Proof. unfold inb. rewrite existsb_exists. split; [intros (j & H & E); apply Nat.eqb_eq in E; subst; exact H|intros H; exists i; split; [exact H|apply Nat.eqb_refl]]. Qed.
Lemma inb_false f i : inb f i = false <-> ~ In i f.
Proof. rewrite <- inb_iff. destruct (inb f i); split; intros H; congruence. Qed.
Lemma maskof_length n f : length (maskof n f) = n. Proof. unfold maskof. rewrite map_length, seq_length. reflexivity. Qed.
Lemma maskof_nth n f i : (i < n)%nat -> nth i (maskof n f) false = inb f i.
Proof. intros H. unfold maskof. rewrite (nth_map_at (inb f) _ _ 0%nat) by (rewrite seq_length; exact H). rewrite seq_nth by exact H. reflexivity. Qed.
Lemma iset_filter n k : iset n (filter k (seq 0 n)).
Proof.
  unfold iset. apply filter_ext_in. intros i Hi. destruct (k i) eqn:E; symmetry; [apply inb_iff, filter_In; auto|apply inb_false; rewrite filter_In, E; intros [_ Q]; discriminate].
Qed.
Lemma iset_in n f i : iset n f -> In i f -> (i < n)%nat.
Proof. intros H Hi. rewrite H in Hi. apply filter_In in Hi as [Hi _]. apply in_seq in Hi. lia. Qed.
Lemma sorted_seq n a : StronglySorted lt (seq a n).
Proof. revert a. induction n as [|n IH]; intros a; [constructor|]. cbn [seq]. constructor; [apply IH|]. apply Forall_forall. intros i Hi. apply in_seq in Hi. lia. Qed.
Lemma sorted_filter k l : StronglySorted lt l -> StronglySorted lt (filter k l).
Proof. induction 1 as [|a l H IH F]; [constructor|]. cbn [filter]. destruct (k a); [|exact IH]. constructor; [exact IH|]. apply Forall_forall. intros i Hi. apply filter_In in Hi as [Hi _]. rewrite Forall_forall in F. apply F, Hi. Qed.
Lemma iset_sorted n f : iset n f -> StronglySorted lt f.
Proof. intros ->. apply sorted_filter, sorted_seq. Qed.
Lemma iset_nodup n f : iset n f -> NoDup f.
Proof. intros ->. apply NoDup_filter, seq_NoDup. Qed.
Lemma iset_seq n : iset n (seq 0 n).
Proof. unfold iset. symmetry. rewrite (filter_ext_in _ (fun _ => true)); [induction (seq 0 n) as [|a l IH]; [reflexivity|cbn [filter]; rewrite IH; reflexivity]|]. intros i Hi. apply inb_iff, Hi. Qed.
Lemma iset_one n i : (i < n)%nat -> iset n [i].
Proof.
  intros H. unfold iset. assert (P : Permutation [i] (filter (inb [i]) (seq 0 n))).
  { apply NoDup_Permutation; [repeat constructor; intros []|apply NoDup_filter, seq_NoDup|]. intros j. rewrite filter_In, inb_iff, in_seq. cbn [In]. intuition lia. }
  apply Permutation_length_1_inv in P. symmetry. exact P.
Qed.
Lemma iset_union n f g : iset n (set_union n f g).
Proof. apply iset_filter. Qed.
Lemma union_perm n f g : iset n f -> iset n g -> (forall i, In i f -> ~ In i g) -> Permutation (set_union n f g) (f ++ g).
Proof.
  intros Hf Hg D. apply NoDup_Permutation; [apply (iset_nodup n), iset_union| |].
  - assert (Nd : forall l l' : list nat, NoDup l -> NoDup l' -> (forall i, In i l -> ~ In i l') -> NoDup (l ++ l')); [|apply Nd; [apply (iset_nodup n), Hf|apply (iset_nodup n), Hg|exact D]].
    clear. induction l as [|a l IH]; intros l' N N' D; [exact N'|]. inversion N; subst. cbn [app]. constructor; [rewrite in_app_iff; intros [Q|Q]; [auto|exact (D a (or_introl eq_refl) Q)]|]. apply IH; auto. intros i Hi. apply D. right. exact Hi.
  - intros i. unfold set_union. rewrite filter_In, Bool.orb_true_iff, !inb_iff, in_app_iff, in_seq. split; [intuition|]. intros [H|H]; (split; [|auto]); [pose proof (iset_in n f i Hf H)|pose proof (iset_in n g i Hg H)]; lia.
Qed.
Lemma picked_select {T} f (l : list T) d : iset (length l) f -> picked f l d = select (maskof (length l) f) l.
Proof.
  intros H. unfold picked, maskof. rewrite (select_index (inb f) (seq 0 (length l)) 0%nat l d) by (rewrite seq_length; reflexivity). f_equal. rewrite H at 1. rewrite seq_length. apply filter_ext_in. intros i Hi. apply in_seq in Hi. rewrite seq_nth by lia. reflexivity.
Qed.
Lemma masked_mk f (irs : list irreps) : masked f (map dim irs) = tdims (mk (maskof (length irs) f) (map flat irs)).
Proof.
  unfold masked, maskof. rewrite map_length. assert (G : forall (irs : list irreps) a F, (forall i, (i < length irs)%nat -> F (a + i)%nat = nth i (map dim irs) 0%nat) -> map (fun i => if inb f i then F i else 1%nat) (seq a (length irs)) = tdims (mk (map (inb f) (seq a (length irs))) (map flat irs))).
  { clear. induction irs as [|x irs IH]; intros a F H; [reflexivity|]. cbn [length seq map mk tdims]. f_equal.
    - destruct (inb f a); [|reflexivity]. rewrite dims_flat. pose proof (H 0%nat ltac:(cbn; lia)) as Q. rewrite Nat.add_0_r in Q. exact Q.
    - apply IH. intros i Hi. pose proof (H (S i) ltac:(cbn; lia)) as Q. replace (S a + i)%nat with (a + S i)%nat by lia. exact Q. }
  apply G. reflexivity.
Qed.
Lemma mask_union n f g : (forall i, In i f -> ~ In i g) -> disjoint_masks (maskof n f) (maskof n g) (maskof n (set_union n f g)).
Proof.
  intros D. unfold maskof. assert (G : forall a m, (a + m <= n)%nat -> disjoint_masks (map (inb f) (seq a m)) (map (inb g) (seq a m)) (map (inb (set_union n f g)) (seq a m))); [|apply G; lia].
  intros a m. revert a. induction m as [|m IH]; intros a H; [constructor|]. cbn [seq map]. specialize (IH (S a) ltac:(lia)).
  assert (U : inb (set_union n f g) a = inb f a || inb g a).
  { apply Bool.eq_true_iff_eq. rewrite inb_iff. unfold set_union. rewrite filter_In, in_seq. intuition lia. }
  rewrite U. destruct (inb f a) eqn:F, (inb g a) eqn:Q; cbn [orb]; try constructor; try exact IH. apply inb_iff in F, Q. exfalso. exact (D a F Q).
Qed.
Lemma mask_negb n f g : (forall i, (i < n)%nat -> (In i f <-> ~ In i g)) -> maskof n g = map negb (maskof n f).
Proof.
  intros H. unfold maskof. rewrite map_map. apply map_ext_in. intros i Hi. apply in_seq in Hi. destruct (H i ltac:(lia)) as [H1 H2]. destruct (inb g i) eqn:G, (inb f i) eqn:F; try reflexivity.
  - apply inb_iff in G, F. exfalso. exact (H1 F G).
  - apply inb_false in G, F. exfalso. apply F, H2, G.
Qed.
Lemma mask_seq n : maskof n (seq 0 n) = repeat true n.
Proof. unfold maskof. rewrite (map_ext_in _ (fun _ => true)) by (intros i Hi; apply inb_iff, Hi). generalize 0%nat. induction n as [|n IH]; intros a; [reflexivity|]. cbn [seq map repeat]. rewrite IH. reflexivity. Qed.
Lemma mk_all ls : mk (repeat true (length ls)) ls = ls.
Proof. induction ls as [|l ls IH]; [reflexivity|]. cbn [length repeat mk]. rewrite IH. reflexivity. Qed.

(* ---------- the identity basis of one index ---------- *)
Lemma maskof_one_select {T} n i (l : list T) d : (i < n)%nat -> length l = n -> select (maskof n [i]) l = [nth i l d].
Proof. intros H <-. rewrite <- (picked_select [i] l d) by (apply iset_one, H). reflexivity. Qed.
Lemma no_flags s (x : irreps) h : flags_ok s x (repeat false (length x)) h.
Proof. revert h. induction x as [|q y IH]; intros h; [exact Logic.I|]. cbn [length repeat flags_ok]. split; [discriminate|apply IH]. Qed.
Theorem eye_good irs i : (i < length irs)%nat -> exists b, eye_basis irs i = Ok b /\ good (mk (maskof (length irs) [i]) (map flat irs)) (fun _ => True) (fun _ => True) b.
Proof.
  intros Hi. set (n := length irs) in *. set (ls := map flat irs). set (m := maskof n [i]). set (x := nth i irs []). assert (Ll : length ls = length m) by (unfold m, ls; rewrite maskof_length, map_length; reflexivity).
  assert (Sl : select m ls = [flat x]) by (unfold m; rewrite (maskof_one_select n i ls []) by (unfold ls; rewrite ?map_length; auto); unfold ls; rewrite (nth_map_at flat irs _ []) by exact Hi; reflexivity).
  set (a := fun z : idx => map (fun q => if nth i z 0%nat =? q then 1 else 0) (seq 0 (dim x))).
  unfold eye_basis. fold x a. rewrite mkIA_ok by (try exact Logic.I; reflexivity). eexists. split; [reflexivity|].
  assert (Ta : subspace (space (mk m ls)) (fun _ => True)) by (constructor; auto).
  split; [|split; [|split; [exact Ta|]]].
  - unfold coherent. cbn [irr lead arr chs]. unfold zero_flags. cbn [zf chs]. split; [|split; [|exact Logic.I]].
    + intros z _. unfold a. rewrite map_length, seq_length. reflexivity.
    + apply no_flags.
  - cbn [lead]. rewrite masked_mk. reflexivity.
  - pose proof (select_space m ls Ll) as H1. assert (H2 : forall z, In z (space (mk m ls)) -> unsel m (select m z) = z) by (intros; apply (unsel_select m ls); assumption).
    assert (E1 : seq 0 (dims (flat x)) = map (hd 0%nat) (space [flat x])).
    { unfold space. cbn [tdims map all_idx]. rewrite map_flat_map'. cbn [map hd]. generalize (seq 0 (dims (flat x))). intros l. induction l as [|k l IH]; [reflexivity|]. cbn [flat_map app]. rewrite <- IH. reflexivity. }
    assert (E2 : forall z, In z (space [flat x]) -> [hd 0%nat z] = z) by (intros z Hz; apply in_all_idx_inv in Hz as (k & j & -> & Hk & [<-|[]]); reflexivity).
    assert (E3 : forall r z z', orthogonal3 r -> In z (space [flat x]) -> In z' (space [flat x]) -> rho [flat x] r z z' = axis (flat x) r (hd 0%nat z) (hd 0%nat z')) by (intros r z z' _ Hz Hz'; apply in_all_idx_inv in Hz as (k & j & -> & Hk & [<-|[]]); apply in_all_idx_inv in Hz' as (k' & j' & -> & Hk' & [<-|[]]); cbn [rho hd]; unfold axis; ring).
    assert (T1 : subspace (seq 0 (dims (flat x))) (fun _ => True)) by (constructor; auto). assert (T2 : subspace (space [flat x]) (fun _ => True)) by (constructor; auto).
    pose proof (reduced_iso _ _ _ (axis (flat x)) (hd 0%nat) (fun k => [k]) E1 E2 E3 _ _ _ T1 (full_reduced _ _ _ (eyes_full (flat x)))) as R1. rewrite <- Sl in R1, T2.
    pose proof (reduced_iso _ _ _ (rho (select m ls)) (select m) (unsel m) H1 H2 (fun r z z' O Hz Hz' => rho_select m ls r z z' Ll O Hz Hz') _ _ _ T2 R1) as R2.
    refine (reduced_sames _ _ _ _ _ _ Ta _ R2). unfold family. cbn [irr arr].
    assert (G : forall l off, (off + dims l <= dim x)%nat -> sames (space (mk m ls)) (map (pulled (select m)) (map (pulled (hd 0%nat)) (eyes l off))) (plets l off a)).
    { induction l as [|ir l IH]; intros off H; [constructor|]. rewrite dims_cons in H. cbn [eyes map plets]. constructor; [|apply IH; lia]. split; [reflexivity|]. cbn [pulled fst snd]. intros z c Hz Hc. unfold a. change (map ?f (seq 0 (dim x))) with (tab (dim x) f). rewrite nth_tab by lia.
      replace (hd 0%nat (select m z)) with (nth i z 0%nat); [reflexivity|]. unfold m. rewrite (maskof_one_select n i z 0%nat); [reflexivity|exact Hi|]. apply in_valid in Hz. apply valid_length in Hz. rewrite Hz. rewrite tdims_length, mk_length by exact Ll. apply maskof_length. }
    apply G. rewrite dims_flat. lia.
Qed.

(* ---------- the irreps that can still be useful ---------- *)
Lemma passes_in l c : passes (Some l) c = true <-> In c l.
Proof. cbn [passes]. rewrite existsb_exists. split; [intros (d & H & E); apply irrep_eqb_eq in E; subst; exact H|intros H; exists c; split; [exact H|apply irrep_eqb_refl]]. Qed.
Lemma ir_mul_e0 a d : In d (ir_mul a e0) -> d = a.
Proof. intros H. apply ir_mul_in in H as [P Q]. cbn [e0 ir_l ir_p] in *. destruct a as [la pa], d as [lc pc]. cbn [ir_l ir_p] in *. destruct pa; cbn in P; subst pc; f_equal; lia. Qed.
Lemma in_flat x v : In v (flat x) -> exists m, In m x /\ snd m = v.
Proof. rewrite flat_mflat. intros H. apply in_flat_map in H as (m & Hm & Hv). exists m. split; [exact Hm|]. symmetry. exact (repeat_spec _ _ _ Hv). Qed.
Theorem keep_reach f irs keep a c : passes keep a = true -> reach a (mk (map negb (maskof (length irs) f)) (map flat irs)) c -> passes (keep_without f irs keep) c = true.
Proof.
  unfold keep_without, maskof, enumerate. generalize 0%nat. revert keep a. induction irs as [|x irs IH]; intros keep a o Pa Hr.
  - cbn in *. subst c. exact Pa.
  - cbn [length seq map combine fold_left mk] in *. cbn [reach] in Hr. destruct Hr as (v & d & Hv & Hd & Hr). destruct (inb f o); cbn [negb] in Hv.
    + destruct Hv as [<-|[]]. apply ir_mul_e0 in Hd. subst d. exact (IH keep a _ Pa Hr).
    + apply (IH (tp_ir_seq keep x) d _); [|exact Hr]. destruct keep as [l|]; [|reflexivity]. cbn [tp_ir_seq]. apply passes_in. apply passes_in in Pa. apply in_flat_map. exists a. split; [exact Pa|]. apply in_flat in Hv as (m & Hm & <-). apply in_flat_map. exists m. split; assumption.
Qed.
