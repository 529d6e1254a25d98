(* The optimised branch: the basis of one tuple of powers. *)
From Coq Require Import Reals Lra Lia List Arith Permutation Sorted ZArith.
From Verif Require Import PyBase PermModel PermProofs IrrepsModel IrrepsProofs IrrepsProofs2 ArrayModel ArrayProofs ArrayOps RechunkProofs LeadModel LeadProofs StackProofs ActProofs EquivProofs EntryProofs LinearProofs ScatterProps SumR S2Proofs3 TPModel TPProofs TPProofs2 RotationModel RotationProofs CGModel WignerModel WignerProofs WignerProofs2 WignerProps WignerProps2 CGComplete SymModel SymProofs SymProofs2 SymProps SymProps2 SymProps3 SchurProofs MultProofs CouplingProofs ReducedProofs ConstrainProofs RtpModel RtpSpace RtpTools RtpArr RtpMasks RtpPerm RtpSymModel RtpWords RtpSymmetrize RtpFamily RtpTuples RtpChain RtpMain.
From Verif Require GradProofs RtpProps.
Import ListNotations.
Open Scope R_scope.

(* ---------- permutations of any list ---------- *)
Lemma perm_pick {T} (u w : list T) d : Permutation w u -> exists q, is_perm q = true /\ length q = length u /\ map (fun i => nth i u d) q = w.
Proof.
  intros P. destruct (proj1 (Permutation_nth u w d) (Permutation_sym P)) as (L & f & Bf & If & E). exists (map f (seq 0 (length u))). assert (Lq : length (map f (seq 0 (length u))) = length u) by (rewrite map_length; apply seq_length). split; [|split; [exact Lq|]].
  - apply is_perm_iff. rewrite Lq. apply NoDup_Permutation_bis.
    + apply NoDup_map_on; [apply seq_NoDup|]. intros x y Hx Hy Q. apply in_seq in Hx, Hy. apply If; [lia|lia|exact Q].
    + rewrite seq_length, Lq. lia.
    + intros y Hy. apply in_map_iff in Hy as (x & <- & Hx). apply in_seq in Hx. apply in_seq. split; [lia|]. apply Bf. lia.
  - rewrite map_map. apply (nth_ext _ _ d d); [rewrite map_length, seq_length; congruence|]. intros j Hj. rewrite map_length, seq_length in Hj. rewrite (nth_map_at (fun x => nth (f x) u d) (seq 0 (length u)) j 0%nat d) by (rewrite seq_length; exact Hj). rewrite seq_nth by exact Hj. symmetry. apply E. exact Hj.
Qed.
Lemma combine_fst {T U} (s : list T) (z : list U) : length s = length z -> map fst (combine s z) = s.
Proof. revert z. induction s as [|a s IH]; intros [|b z] E; try discriminate; [reflexivity|]. injection E as E. cbn [combine map fst]. rewrite IH by exact E. reflexivity. Qed.
Lemma combine_snd {T U} (s : list T) (z : list U) : length s = length z -> map snd (combine s z) = z.
Proof. revert z. induction s as [|a s IH]; intros [|b z] E; try discriminate; [reflexivity|]. injection E as E. cbn [combine map snd]. rewrite IH by exact E. reflexivity. Qed.
Lemma nth_pairs (s z : list nat) i : length s = length z -> nth i (combine s z) (0, 0)%nat = (nth i s 0%nat, nth i z 0%nat).
Proof. apply combine_nth. Qed.
Lemma fixed_pairs cs n s f : In s (words cs n) -> fixed cs n s f -> forall z z', In z (space (lw cs s)) -> In z' (space (lw cs s)) -> Permutation (combine s z) (combine s z') -> f z = f z'.
Proof.
  intros Hs Hf z z' Hz Hz' P. apply in_words in Hs as [Ls _]. apply in_lw in Hz as Hz1. apply in_lw in Hz' as Hz1'. destruct Hz1 as [Lz _], Hz1' as [Lz' _].
  destruct (perm_pick (combine s z) (combine s z') (0, 0)%nat (Permutation_sym P)) as (q & Pq & Lq & E). assert (Lq' : length q = n) by (rewrite Lq, combine_length; lia).
  assert (E1 : permute s q = s).
  { transitivity (map fst (combine s z')); [|apply combine_fst; auto]. rewrite <- E, map_map. unfold permute. apply map_ext. intros i. rewrite nth_pairs by auto. reflexivity. }
  assert (E2 : permute z q = z').
  { transitivity (map snd (combine s z')); [|apply combine_snd; auto]. rewrite <- E, map_map. unfold permute. apply map_ext. intros i. rewrite nth_pairs by auto. reflexivity. }
  rewrite <- E2. symmetry. apply Hf; auto.
Qed.
Lemma combine_pairs (s a q : list nat) : length a = length s -> combine (permute s q) (permute a q) = map (fun i => nth i (combine s a) (0, 0)%nat) q.
Proof. intros L. induction q as [|i q IH]; [reflexivity|]. cbn [permute map combine]. rewrite nth_pairs by auto. f_equal. exact IH. Qed.
Lemma pairs_permute (s a q : list nat) : is_perm q = true -> length q = length s -> length a = length s -> permute s q = s -> Permutation (combine s a) (combine s (permute a q)).
Proof.
  intros Pq Lq La E. rewrite <- E at 2. rewrite combine_pairs by exact La. apply is_perm_iff in Pq. rewrite Lq in Pq. apply (Permutation_map (fun i => nth i (combine s a) (0, 0)%nat)) in Pq. symmetry. assert (Lc : length (combine s a) = length s) by (rewrite combine_length; lia). rewrite <- Lc in Pq. rewrite map_nth_all in Pq. exact Pq.
Qed.
Lemma combine_app' {T U} (s1 s2 : list T) (z1 z2 : list U) : length s1 = length z1 -> combine (s1 ++ s2) (z1 ++ z2) = combine s1 z1 ++ combine s2 z2.
Proof. revert z1. induction s1 as [|a s1 IH]; intros [|b z1] E; try discriminate; [reflexivity|]. injection E as E. cbn [app combine]. rewrite IH by exact E. reflexivity. Qed.
Lemma combine_repeat' {T} (i : nat) (y : list T) : combine (repeat i (length y)) y = map (pair i) y.
Proof. induction y as [|k y IH]; [reflexivity|]. cbn [length repeat combine map]. rewrite IH. reflexivity. Qed.
(* the coordinates of the letter i *)
Definition coords (i : nat) (s z : list nat) : list nat := map snd (filter (fun e => (fst e =? i)%nat) (combine s z)).
Lemma coords_none i s z : ~ In i s -> coords i s z = [].
Proof.
  revert z. induction s as [|a s IH]; intros [|k z] H; try reflexivity. unfold coords. cbn [combine filter fst]. destruct (Nat.eqb_spec a i) as [-> |N]; [exfalso; apply H; left; reflexivity|]. apply IH. intros Q. apply H. right. exact Q.
Qed.
Lemma coords_app i s1 s2 z1 z2 : length s1 = length z1 -> coords i (s1 ++ s2) (z1 ++ z2) = coords i s1 z1 ++ coords i s2 z2.
Proof. intros E. unfold coords. rewrite combine_app' by exact E. rewrite filter_app, map_app. reflexivity. Qed.
Lemma coords_all i y : coords i (repeat i (length y)) y = y.
Proof. unfold coords. induction y as [|k y IH]; [reflexivity|]. cbn [length repeat combine filter fst]. rewrite Nat.eqb_refl. cbn [map snd]. rewrite IH. reflexivity. Qed.
Lemma coords_select s1 i p s3 z : ~ In i s1 -> ~ In i s3 -> length z = (length s1 + p + length s3)%nat -> select (repeat false (length s1) ++ repeat true p ++ repeat false (length s3)) z = coords i (s1 ++ repeat i p ++ s3) z.
Proof.
  intros N1 N3 Lz. rewrite <- (firstn_skipn (length s1) z). rewrite <- (firstn_skipn p (skipn (length s1) z)). assert (L1 : length (firstn (length s1) z) = length s1) by (rewrite firstn_length; lia). assert (L2 : length (firstn p (skipn (length s1) z)) = p) by (rewrite firstn_length, skipn_length; lia). assert (L3 : length (skipn p (skipn (length s1) z)) = length s3) by (rewrite !skipn_length; lia).
  set (z1 := firstn (length s1) z) in *. set (z2 := firstn p (skipn (length s1) z)) in *. set (z3 := skipn p (skipn (length s1) z)) in *. rewrite !coords_app by (rewrite ?repeat_length; auto). rewrite (coords_none i s1), (coords_none i s3) by assumption. rewrite app_nil_r. cbn [app]. rewrite <- L2 at 2. rewrite coords_all.
  rewrite select_app' by (rewrite repeat_length; auto). rewrite <- L1 at 1. rewrite select_false. cbn [app]. rewrite select_app' by (rewrite repeat_length; auto). rewrite <- L2 at 1. rewrite select_true. rewrite <- L3, select_false. apply app_nil_r.
Qed.
Lemma fixed_subspace cs n s : In s (words cs n) -> subspace (space (lw cs s)) (fixed cs n s).
Proof.
  intros Hs. assert (Ls : length s = n) by (apply in_words in Hs; apply Hs). constructor.
  - intros f g E Hf q a P L Q Ha. rewrite <- (E a Ha). rewrite <- E; [apply Hf; assumption|]. rewrite <- Q. apply permute_lw; [exact P|congruence|exact Ha].
  - intros q a P L Q Ha. reflexivity.
  - intros f g Hf Hg q a P L Q Ha. rewrite (Hf q a P L Q Ha), (Hg q a P L Q Ha). reflexivity.
  - intros c f Hf q a P L Q Ha. rewrite (Hf q a P L Q Ha). reflexivity.
Qed.
(* ---------- the irreps kept in the powers ---------- *)
Local Notation one := (map (fun ir : irrep => (1%nat, ir))).
Lemma reach_app a l1 l2 c : reach a (l1 ++ l2) c <-> exists d, reach a l1 d /\ reach d l2 c.
Proof.
  revert a. induction l1 as [|l l1 IH]; intros a; cbn [app reach].
  - split; [intros H; exists a; auto|]. intros (d & -> & H). exact H.
  - split; [intros (v & d & Hv & Hd & H); apply IH in H as (e & H1 & H2); exists e; split; [exists v, d; auto|exact H2]|]. intros (e & (v & d & Hv & Hd & H1) & H2). exists v, d. split; [exact Hv|]. split; [exact Hd|]. apply IH. exists e. auto.
Qed.
Lemma reach_scalars a p c : reach a (repeat [e0] p) c -> c = a.
Proof. revert a. induction p as [|p IH]; intros a H; [exact H|]. cbn [repeat reach] in H. destruct H as (v & d & [<-|[]] & Hd & H). apply ir_mul_e0 in Hd. subst d. apply IH, H. Qed.
Lemma reach_pieces cs w a c k : (forall i, In i w -> (i < length cs)%nat) -> In a (tp_ir_seq_pow (one cs) k) -> reach a (lw cs w) c -> In c (tp_ir_seq_pow (one cs) (length w + k)).
Proof.
  revert a k. induction w as [|i w IH]; intros a k B Ha H; [cbn in H; subst; exact Ha|]. rewrite lw_cons in H. cbn [reach] in H. destruct H as (v & d & [<-|[]] & Hd & H). cbn [length]. replace (S (length w) + k)%nat with (length w + S k)%nat by lia. apply (IH d); [intros j Hj; apply B; right; exact Hj| |exact H].
  unfold tp_ir_seq_pow. cbn [Nat.iter]. change (Nat.iter k _ [Irrep 0 Even]) with (tp_ir_seq_pow (one cs) k). apply in_flat_map. exists a. split; [exact Ha|]. apply in_flat_map. exists (1%nat, piece cs i). split; [apply in_map_iff; exists (piece cs i); split; [reflexivity|apply nth_In, B; left; reflexivity]|exact Hd].
Qed.
Lemma keep_power cs keep k a u d : passes keep a = true -> In u (tp_ir_seq_pow (one cs) k) -> In d (ir_mul a u) -> passes (tp_ir_seq keep (one (tp_ir_seq_pow (one cs) k))) d = true.
Proof.
  intros Pa Hu Hd. destruct keep as [l|]; [|reflexivity]. cbn [tp_ir_seq]. apply passes_in. apply passes_in in Pa. apply in_flat_map. exists a. split; [exact Pa|]. apply in_flat_map. exists (1%nat, u). split; [apply in_map_iff; exists u; auto|exact Hd].
Qed.
Lemma keep_group cs keep s1 i p s3 n a u d : (forall j, In j (s1 ++ repeat i p ++ s3) -> (j < length cs)%nat) -> length (s1 ++ repeat i p ++ s3) = n -> passes keep a = true ->
  reach e0 (mk (map negb (repeat false (length (lw cs s1)) ++ repeat true p ++ repeat false (length (lw cs s3)))) (lw cs s1 ++ repeat [piece cs i] p ++ lw cs s3)) u -> In d (ir_mul a u) ->
  passes (tp_ir_seq keep (one (tp_ir_seq_pow (one cs) (n - p)))) d = true.
Proof.
  intros B Ln Pa H Hd. apply (keep_power cs keep (n - p) a u d Pa); [|exact Hd]. rewrite !map_app, !map_repeat in H. cbn [negb] in H. rewrite mk_app in H by apply repeat_length. rewrite mk_app in H by (rewrite !repeat_length; reflexivity). rewrite !mk_all in H. rewrite <- (repeat_length [piece cs i] p) in H at 1. rewrite mk_none, repeat_length in H.
  apply reach_app in H as (v & H1 & H2). apply reach_app in H2 as (w & H2 & H3). apply reach_scalars in H2. subst w. rewrite !app_length, repeat_length in Ln. replace (n - p)%nat with (length s3 + (length s1 + 0))%nat by lia.
  apply (reach_pieces cs s3 v); [intros j Hj; apply B; rewrite !in_app_iff; auto| |exact H3]. apply (reach_pieces cs s1 e0); [intros j Hj; apply B; rewrite !in_app_iff; auto|left; reflexivity|exact H1].
Qed.
