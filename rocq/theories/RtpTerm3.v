(* The optimised branch: the product of the powers of the irreps of one tuple. *)
From Coq Require Import Reals Lra Lia List Arith Permutation Sorted ZArith.
From Verif Require Import PyBase PermModel PermProofs IrrepsModel IrrepsProofs IrrepsProofs2 ArrayModel ArrayProofs ArrayOps RechunkProofs LeadModel LeadProofs StackProofs ActProofs EquivProofs EntryProofs LinearProofs ScatterProps SumR S2Proofs3 TPModel TPProofs TPProofs2 RotationModel RotationProofs CGModel WignerModel WignerProofs WignerProofs2 WignerProps WignerProps2 CGComplete MathModel GSProofs BasisProofs MathProps2 BasisProofs2 SymModel SymProofs SymProofs2 SymProps SymProps2 SymProps3 SchurProofs MultProofs CouplingProofs ReducedProofs ConstrainProofs RtpModel RtpSpace RtpTools RtpArr RtpMasks RtpPerm RtpSymModel RtpWords RtpSymmetrize RtpFamily RtpTuples RtpChain RtpMain RtpTerm RtpTerm2.
From Verif Require GradProofs RtpProps.
Import ListNotations.
Open Scope R_scope.
Local Notation one := (map (fun ir : irrep => (1%nat, ir))).

Lemma dm_block a p b : disjoint_masks (repeat true a ++ repeat false (p + b)) (repeat false a ++ repeat true p ++ repeat false b) (repeat true (a + p) ++ repeat false b).
Proof.
  induction a as [|a IH]; [|cbn [Nat.add repeat app]; constructor; exact IH]. cbn [repeat app Nat.add]. induction p as [|p IH]; [|cbn [Nat.add repeat app]; constructor; exact IH]. cbn [repeat app Nat.add]. induction b as [|b IH]; [constructor|cbn [repeat]; constructor; exact IH].
Qed.
Definition letters (gs : list (nat * nat)) : list nat := flat_map (fun '(i, p) => repeat i p) gs.
Lemma letters_app a b : letters (a ++ b) = letters a ++ letters b. Proof. apply flat_map_app. Qed.
Lemma letters_length gs : length (letters gs) = PyBase.sum (map snd gs).
Proof. induction gs as [|[i p] gs IH]; [reflexivity|]. cbn [letters flat_map map snd]. fold (letters gs). rewrite app_length, repeat_length, IH. reflexivity. Qed.
Lemma letters_in gs i : In i (letters gs) -> In i (map fst gs).
Proof. unfold letters. rewrite in_flat_map. intros ([j p] & H & Q). apply repeat_spec in Q. subst. apply in_map_iff. exists (j, p). auto. Qed.
Lemma nth_split' {T} (l : list T) k d : (k < length l)%nat -> l = firstn k l ++ nth k l d :: skipn (S k) l.
Proof. revert k. induction l as [|a l IH]; intros [|k] H; cbn in H; try lia; [reflexivity|]. cbn [firstn nth skipn app]. f_equal. apply IH. lia. Qed.
Lemma lw_app cs a b : lw cs (a ++ b) = lw cs a ++ lw cs b. Proof. apply map_app. Qed.
Lemma lw_repeat cs i p : lw cs (repeat i p) = repeat [piece cs i] p. Proof. unfold lw. rewrite map_repeat. reflexivity. Qed.
Lemma lw_length cs w : length (lw cs w) = length w. Proof. apply map_length. Qed.
Lemma coords_perm i s z z' : Permutation (combine s z) (combine s z') -> Permutation (coords i s z) (coords i s z').
Proof.
  intros P. unfold coords. apply Permutation_map. induction P as [|x l l' P IH|x y l|]; [constructor| |cbn [filter]; destruct (fst x =? i)%nat, (fst y =? i)%nat; [apply perm_swap|reflexivity|reflexivity|reflexivity]|etransitivity; eassumption]. cbn [filter]. destruct (fst x =? i)%nat; [constructor|]; exact IH.
Qed.

Section Term.
Variables (cs : list irrep) (n : nat) (keep : option (list irrep)) (gs : list (nat * nat)) (ts : list iarray) (dt : iarray).
Notation g0 := (0%nat, 0%nat).
Hypothesis Nd : NoDup (map fst gs).
Hypothesis Bd : forall i, In i (map fst gs) -> (i < length cs)%nat.
Hypothesis Ln : length (letters gs) = n.
Hypothesis Ne : gs <> [].
Hypothesis Lt : length ts = length gs.
Hypothesis Gt : forall k, (k < length gs)%nat -> good (repeat [piece cs (fst (nth k gs g0))] (snd (nth k gs g0))) (kept cs n keep (snd (nth k gs g0))) (insens (piece cs (fst (nth k gs g0))) (snd (nth k gs g0))) (nth k ts dt).
Notation s := (letters gs).
Notation L := (lw cs (letters gs)).
Definition pre (k : nat) : list nat := letters (firstn k gs).
Definition post (k : nat) : list nat := letters (skipn k gs).
Definition msk (k : nat) : list bool := repeat false (length (pre k)) ++ repeat true (snd (nth k gs g0)) ++ repeat false (length (post (S k))).
Definition vis (k : nat) : list bool := repeat true (length (pre k)) ++ repeat false (length (post k)).
Lemma split_word k : (k < length gs)%nat -> s = pre k ++ repeat (fst (nth k gs g0)) (snd (nth k gs g0)) ++ post (S k).
Proof.
  intros H. rewrite (nth_split' gs k g0 H) at 1. rewrite letters_app. unfold pre, post. f_equal. destruct (nth k gs g0) as [i p]. reflexivity.
Qed.
Lemma post_step k : (k < length gs)%nat -> length (post k) = (snd (nth k gs g0) + length (post (S k)))%nat.
Proof.
  intros H. pose proof (f_equal (@length nat) (split_word k H)) as Q. rewrite !app_length, repeat_length in Q. assert (E : s = pre k ++ post k) by (unfold pre, post; rewrite <- letters_app, firstn_skipn; reflexivity). apply (f_equal (@length nat)) in E. rewrite app_length in E. lia.
Qed.
Lemma pre_post k : (length (pre k) + length (post k) = n)%nat.
Proof. rewrite <- Ln, <- app_length. f_equal. unfold pre, post. rewrite <- letters_app, firstn_skipn. reflexivity. Qed.
Lemma pre_step k : (k < length gs)%nat -> length (pre (S k)) = (length (pre k) + snd (nth k gs g0))%nat.
Proof. intros H. pose proof (pre_post k). pose proof (pre_post (S k)). pose proof (post_step k H). lia. Qed.
Lemma vis_step k : (k < length gs)%nat -> disjoint_masks (vis k) (msk k) (vis (S k)).
Proof. intros H. unfold vis, msk. rewrite (post_step k H), (pre_step k H). apply dm_block. Qed.
Lemma vis_length k : length (vis k) = n.
Proof. unfold vis. rewrite app_length, !repeat_length. apply pre_post. Qed.
Lemma vis_all : vis (length gs) = repeat true n.
Proof. unfold vis. assert (E : post (length gs) = []) by (unfold post; rewrite skipn_all; reflexivity). pose proof (pre_post (length gs)) as Q. rewrite E in *. cbn [length repeat] in *. rewrite app_nil_r. f_equal. lia. Qed.
Lemma vis_one : vis 1 = msk 0.
Proof. assert (H : (0 < length gs)%nat) by (destruct gs; [contradiction|cbn; lia]). unfold vis, msk. rewrite (pre_step 0 H). reflexivity. Qed.
Lemma fst_disjoint k : (k < length gs)%nat -> ~ In (fst (nth k gs g0)) (pre k) /\ ~ In (fst (nth k gs g0)) (post (S k)).
Proof.
  intros H. pose proof Nd as N. rewrite (nth_split' gs k g0 H), map_app in N. cbn [map] in N. apply NoDup_remove_2 in N. split; intros Q; apply N, in_or_app; apply letters_in in Q; auto.
Qed.
Lemma select_msk k z : (k < length gs)%nat -> length z = n -> select (msk k) z = coords (fst (nth k gs g0)) s z.
Proof.
  intros H Lz. destruct (fst_disjoint k H) as [N1 N2]. unfold msk. rewrite (coords_select (pre k) (fst (nth k gs g0))); [|exact N1|exact N2|rewrite Lz, <- (pre_post k), (post_step k H); lia]. rewrite <- (split_word k H). reflexivity.
Qed.
Lemma in_s j : In j s -> (j < length cs)%nat. Proof. intros H. apply Bd, letters_in, H. Qed.
Lemma s_word : In s (words cs n). Proof. apply in_words. split; [exact Ln|exact in_s]. Qed.
Lemma group_k k : (k < length gs)%nat -> exists y, ia_reshape (nth k ts dt) (repeat 1%nat (nth k (cumsum_before (map snd gs)) 0%nat) ++ lead (nth k ts dt) ++ repeat 1%nat (nth k (cumsum_after (map snd gs)) 0%nat)) = Ok y /\
  state L keep (fixed cs n s) (msk k) (fun _ => True) (Rep L (msk k) y) [msk k] y.
Proof.
  intros H. set (i := fst (nth k gs g0)) in *. set (p := snd (nth k gs g0)) in *. pose proof (split_word k H) as Sw. fold i p in Sw. assert (EL : L = lw cs (pre k) ++ repeat [piece cs i] p ++ lw cs (post (S k))) by (rewrite (split_word k H) at 1; rewrite !lw_app, lw_repeat; reflexivity).
  assert (C1 : nth k (cumsum_before (map snd gs)) 0%nat = length (lw cs (pre k))) by (rewrite cumsum_before_nth by (rewrite map_length; exact H); rewrite firstn_map, lw_length; symmetry; apply letters_length).
  assert (C2 : nth k (cumsum_after (map snd gs)) 0%nat = length (lw cs (post (S k)))). { pose proof (cumsum_after_nth (map snd gs) k ltac:(rewrite map_length; exact H)) as Q. rewrite firstn_map, <- !letters_length in Q. pose proof (pre_post (S k)) as Q'. fold (pre (S k)) in Q. rewrite lw_length. rewrite Ln in Q. unfold pre in *. lia. }
  assert (Em : msk k = repeat false (length (lw cs (pre k))) ++ repeat true p ++ repeat false (length (lw cs (post (S k))))) by (rewrite !lw_length; reflexivity).
  rewrite C1, C2, Em, EL. apply (group_state (lw cs (pre k)) (lw cs (post (S k))) (piece cs i) p keep (fixed cs n s) (kept cs n keep p) (insens (piece cs i) p) (nth k ts dt)).
  - apply Gt, H.
  - intros f. reflexivity.
  - intros a u d Pa Hu Hd. unfold kept. apply (keep_group cs keep (pre k) i p (post (S k)) n a u d); try assumption; [rewrite <- Sw; exact in_s|rewrite <- Sw; exact Ln].
  - intros f b1 y y' b3 Hf L1 L2 P I1 I2. rewrite <- EL in I1, I2. apply (fixed_pairs cs n s f s_word Hf); [exact I1|exact I2|]. rewrite (split_word k H). fold i p. rewrite lw_length in L1. rewrite <- L2. rewrite !combine_app' by (rewrite ?repeat_length; auto). apply Permutation_app_head. rewrite (Permutation_length P) at 2. rewrite !combine_app' by (rewrite ?repeat_length; auto). rewrite !combine_repeat'. apply Permutation_app_tail, Permutation_map, P.
Qed.
Lemma reshape_ok : exists ys, reshape_terms ts (map snd gs) = Ok ys /\ length ys = length gs /\ forall k, (k < length gs)%nat -> state L keep (fixed cs n s) (msk k) (fun _ => True) (Rep L (msk k) (nth k ys dt)) [msk k] (nth k ys dt).
Proof.
  unfold reshape_terms. destruct (mapM_ok (fun '(k, t) => ia_reshape t (repeat 1%nat (nth k (cumsum_before (map snd gs)) 0%nat) ++ lead t ++ repeat 1%nat (nth k (cumsum_after (map snd gs)) 0%nat))) (fun e y => state L keep (fixed cs n s) (msk (fst e)) (fun _ => True) (Rep L (msk (fst e)) y) [msk (fst e)] y) (enumerate ts)) as (ys & Ey & Fy).
  - intros e He. rewrite (enumerate_map ts dt) in He. apply in_map_iff in He as (k & <- & Hk). apply in_seq in Hk. cbn [fst]. apply group_k. lia.
  - exists ys. split; [exact Ey|]. rewrite (enumerate_map ts dt) in Fy. pose proof (Forall2_length _ _ _ Fy) as Ly. rewrite map_length, seq_length in Ly. split; [congruence|]. intros k Hk. assert (Q : forall (l : list nat) ys, Forall2 (fun e y => state L keep (fixed cs n s) (msk (fst e)) (fun _ => True) (Rep L (msk (fst e)) y) [msk (fst e)] y) (map (fun k => (k, nth k ts dt)) l) ys -> forall k, (k < length l)%nat -> state L keep (fixed cs n s) (msk (nth k l 0%nat)) (fun _ => True) (Rep L (msk (nth k l 0%nat)) (nth k ys dt)) [msk (nth k l 0%nat)] (nth k ys dt)).
    { clear. intros l. induction l as [|a l IH]; intros ys F k Hk; [cbn in Hk; lia|]. inversion F as [|? y ? ys' Fa F' E1 E2]; subst. destruct k as [|k]; [exact Fa|]. cbn [nth]. apply IH; [exact F'|cbn in Hk; lia]. }
    specialize (Q _ _ Fy k). rewrite seq_length, seq_nth in Q by lia. apply Q. lia.
Qed.
Lemma chained_from ys j k : length ys = length gs -> (forall k, (k < length gs)%nat -> state L keep (fixed cs n s) (msk k) (fun _ => True) (Rep L (msk k) (nth k ys dt)) [msk k] (nth k ys dt)) -> (k + j <= length gs)%nat ->
  chained L keep (fixed cs n s) (vis k) (map (fun k => (msk k, vis (S k), nth k ys dt)) (seq k j)) (vis (k + j)).
Proof.
  intros Ly St. revert k. induction j as [|j IH]; intros k H; [cbn; f_equal; lia|]. cbn [seq map chained]. split; [apply vis_step; lia|]. split; [exists (Rep L (msk k) (nth k ys dt)); apply St; lia|]. replace (k + S j)%nat with (S k + j)%nat by lia. apply IH. lia.
Qed.
(* a state on all the axes that is insensitive inside the groups: the tensors fixed by the permutations that fix the word *)
Lemma final b W ms : state L keep (fixed cs n s) (repeat true n) (fun c => passes keep c = true) W ms b -> (forall m, In m ms -> exists k, (k < length gs)%nat /\ m = msk k) -> good L (fun c => passes keep c = true) (fixed cs n s) b.
Proof.
  intros [Gb Sl Is _] Hms. assert (LL : length L = n) by (rewrite lw_length; exact Ln). assert (Em : mk (repeat true n) L = L) by (rewrite <- LL; apply mk_all). unfold slices_in, insensitive in *. rewrite Em in Gb, Is. destruct Gb as (Cb & Ld & SW & HR). split; [exact Cb|]. split; [exact Ld|]. split; [apply fixed_subspace, s_word|].
  assert (Lz : forall z, In z (space L) -> length z = n) by (intros z Hz; apply in_lw in Hz; destruct Hz; congruence).
  constructor; [apply (red_cov _ _ _ _ _ HR)|apply (red_unit _ _ _ _ _ HR)|apply (red_orth _ _ _ _ _ HR)|apply (red_keep _ _ _ _ _ HR)| |].
  - intros t m Ht Hm q a Pq Lq Eq Ha. pose proof (red_in _ _ _ _ _ HR t m Ht Hm) as Wt. assert (Ha' : In (permute a q) (space L)) by (rewrite <- Eq; apply permute_lw; [exact Pq|congruence|exact Ha]). apply (Is _ Wt); [exact Ha'|exact Ha|]. intros mm Hmm. destruct (Hms mm Hmm) as (k & Hk & ->). rewrite !select_msk by (try exact Hk; apply Lz; assumption). apply coords_perm. symmetry. apply pairs_permute; [exact Pq|congruence|rewrite (Lz a Ha); congruence|exact Eq].
  - intros t Ct Kt Ft m Hm. apply (red_all _ _ _ _ _ HR t Ct Kt); [|exact Hm]. intros k Hk. refine (sub_ext _ _ SW _ _ _ (Sl t Ct Kt Ft (repeat 0%nat n) k _ Hk)).
    + intros x Hx. cbn beta. rewrite joinz_true; [reflexivity|apply Lz, Hx|apply repeat_length].
    + rewrite map_repeat. cbn [negb]. rewrite <- LL at 2. rewrite mk_none. rewrite LL. unfold space. apply all_idx_valid, valid_iff. unfold tdims. rewrite map_repeat, !repeat_length. split; [reflexivity|]. intros j Hj. rewrite !RtpProps.nth_repeat_at by exact Hj. cbn. lia.
Qed.
Theorem term_ok : exists b, (let! ys := reshape_terms ts (map snd gs) in product_basis ys keep) = Ok b /\ good L (fun c => passes keep c = true) (fixed cs n s) b.
Proof.
  destruct reshape_ok as (ys & Ey & Ly & St). rewrite Ey. cbn [bind]. assert (H0 : (0 < length gs)%nat) by (destruct gs; [contradiction|cbn; lia]). assert (LL : length L = n) by (rewrite lw_length; exact Ln).
  assert (Eys : ys = nth 0 ys dt :: map (fun k => nth k ys dt) (seq 1 (length gs - 1))). { rewrite <- (map_nth_all ys dt) at 1. rewrite Ly. replace (length gs) with (S (length gs - 1)) at 1 by lia. reflexivity. }
  destruct (Nat.eq_dec (length gs) 1) as [E1|N1].
  - rewrite E1 in Eys. cbn in Eys. rewrite Eys. cbn [product_basis]. pose proof (St 0%nat H0) as [Gb Sl Is Sb]. rewrite <- vis_one, <- E1, vis_all in Gb, Sl, Is, Sb. set (t := nth 0 ys dt) in *. assert (Em : mk (repeat true n) L = L) by (rewrite <- LL; apply mk_all). rewrite Em in Gb.
    set (irs := map (fun i => [(1%nat, piece cs i)]) s). assert (EF : flats irs = L) by (unfold flats, irs, lw; rewrite map_map; reflexivity). destruct (keep_step irs keep (fun _ => True) (Rep L (repeat true n) t) t) as (b & Eb & Gb'); [rewrite EF; exact Gb|trivial|]. exists b. split; [exact Eb|]. rewrite EF in Gb'. apply (final b (Rep L (repeat true n) t) [repeat true n]).
    + constructor; [rewrite Em; exact Gb'|exact Sl|exact Is|exact Sb].
    + intros m [<-|[]]. exists 0%nat. split; [exact H0|]. rewrite <- vis_one, <- E1, vis_all. reflexivity.
  - set (steps := map (fun k => (msk k, vis (S k), nth k ys dt)) (seq 1 (length gs - 1))). destruct (multiply_state L keep (fixed cs n s) (vis 1) steps (vis (length gs)) (Rep L (msk 0) (nth 0 ys dt)) [msk 0] (nth 0 ys dt)) as (b & W & Eb & Sb).
    + rewrite vis_length. exact LL.
    + intros Q. apply (f_equal (@length _)) in Q. unfold steps in Q. rewrite map_length, seq_length in Q. cbn in Q. lia.
    + assert (Q : (1 + (length gs - 1))%nat = length gs) by lia. pose proof (chained_from ys (length gs - 1) 1 Ly St ltac:(lia)) as C. rewrite Q in C. exact C.
    + rewrite vis_one. apply St, H0.
    + exists b. split.
      * rewrite Eys. assert (Es : map snd steps = map (fun k => nth k ys dt) (seq 1 (length gs - 1))) by (unfold steps; rewrite map_map; reflexivity). rewrite <- Es. destruct steps as [|st steps'] eqn:Q; [apply (f_equal (@length _)) in Es; rewrite !map_length, seq_length in Es; cbn in Es; lia|]. exact Eb.
      * rewrite vis_all in Sb. apply (final b W _ Sb). intros m Hm. apply in_app_or in Hm as [[<-|[]]|Hm]; [exists 0%nat; auto|]. unfold steps in Hm. rewrite map_map in Hm. cbn [fst] in Hm. apply in_map_iff in Hm as (k & <- & Hk). apply in_seq in Hk. exists k. split; [lia|reflexivity].
Qed.
End Term.
