(* A tensor power of a direct sum of irreps is the direct sum, over the words in the irreps, of products of irreps. *)
From Coq Require Import Reals Lra Lia List Arith Permutation Sorted ZArith.
From Verif Require Import PyBase PermModel PermProofs IrrepsModel IrrepsProofs IrrepsProofs2 ArrayModel ArrayProofs ArrayOps RechunkProofs LeadModel LeadProofs StackProofs ActProofs EquivProofs EntryProofs LinearProofs ScatterProps SumR S2Proofs3 TPModel TPProofs TPProofs2 RotationModel RotationProofs CGModel WignerModel WignerProofs WignerProofs2 WignerProps WignerProps2 CGComplete SymModel SymProofs SymProofs2 SymProps3 SchurProofs MultProofs CouplingProofs ReducedProofs ConstrainProofs RtpModel RtpSpace RtpTools RtpArr RtpMasks RtpPerm RtpSymModel.
From Verif Require NormProofs.
Import ListNotations.
Open Scope R_scope.

Section Words.
Variable cs : list irrep.
Let k := length cs.
Definition piece (i : nat) : irrep := nth i cs e0.
Definition off (i : nat) : nat := dims (firstn i cs).
(* the tuple of irreps of a word *)
Definition lw (w : list nat) : list (list irrep) := map (fun i => [piece i]) w.
Definition iota (w a : list nat) : list nat := map (fun '(i, r) => (off i + r)%nat) (combine w a).
Definition words (n : nat) : list (list nat) := all_idx (repeat k n).
End Words.

Lemma off_0 cs : off cs 0 = 0%nat. Proof. reflexivity. Qed.
Lemma off_cons c cs i : off (c :: cs) (S i) = (ir_dim c + off cs i)%nat.
Proof. unfold off. cbn [firstn]. apply dims_cons. Qed.
Lemma piece_cons c cs i : piece (c :: cs) (S i) = piece cs i. Proof. reflexivity. Qed.
Lemma sum_pieces cs h : rsum (dims cs) h = rsum (length cs) (fun i => rsum (ir_dim (piece cs i)) (fun r => h (off cs i + r)%nat)).
Proof.
  revert h. induction cs as [|c cs IH]; intros h; [reflexivity|]. rewrite dims_cons, rsum_add. change (length (c :: cs)) with (1 + length cs)%nat. rewrite rsum_add. cbn [rsum]. rewrite Rplus_0_l. f_equal. rewrite IH. apply rsum_ext. intros i _. apply rsum_ext. intros r _. f_equal. change (1 + i)%nat with (S i). rewrite off_cons. lia.
Qed.
Lemma off_lt cs i r : (i < length cs)%nat -> (r < ir_dim (piece cs i))%nat -> (off cs i + r < dims cs)%nat.
Proof. revert i. induction cs as [|c cs IH]; intros [|i] Hi Hr; cbn [length] in Hi; try lia; rewrite dims_cons; [cbn in *; lia|]. rewrite off_cons. rewrite piece_cons in Hr. specialize (IH i ltac:(lia) Hr). lia. Qed.
Lemma bd_pieces r cs i j p q : (i < length cs)%nat -> (j < length cs)%nat -> (p < ir_dim (piece cs i))%nat -> (q < ir_dim (piece cs j))%nat ->
  bd r cs (off cs i + p) (off cs j + q) = if (i =? j)%nat then bd r [piece cs i] p q else 0.
Proof.
  revert i j. induction cs as [|c cs IH]; intros [|i] [|j] Hi Hj Hp Hq; cbn [length] in Hi, Hj; try lia; rewrite ?off_cons, ?off_0, ?Nat.add_0_l.
  - cbn [Nat.eqb]. rewrite !bd_low by assumption. reflexivity.
  - rewrite <- Nat.add_assoc. rewrite bd_low_high by exact Hp. reflexivity.
  - rewrite <- Nat.add_assoc. rewrite bd_high_low by exact Hq. reflexivity.
  - rewrite <- !Nat.add_assoc, bd_high. rewrite !piece_cons in *. change (S i =? S j)%nat with (i =? j)%nat. apply IH; try assumption; lia.
Qed.
Section Words2.
Variable cs : list irrep.
Notation k := (length cs).
Lemma lw_cons i w : lw cs (i :: w) = [piece cs i] :: lw cs w. Proof. reflexivity. Qed.
Lemma dims_one c : dims [c] = ir_dim c. Proof. unfold dims. cbn. lia. Qed.
Lemma iota_cons i w r a : iota cs (i :: w) (r :: a) = (off cs i + r)%nat :: iota cs w a. Proof. reflexivity. Qed.
Lemma words_S n : words cs (S n) = flat_map (fun i => map (cons i) (words cs n)) (seq 0 k).
Proof. unfold words. cbn [repeat all_idx]. reflexivity. Qed.
Lemma sum_words n h : lsum (space (repeat cs n)) h = lsum (words cs n) (fun w => lsum (space (lw cs w)) (fun a => h (iota cs w a))).
Proof.
  revert h. induction n as [|n IH]; intros h; [unfold space, words, lsum; cbn [repeat tdims map all_idx fold_right]; cbn; ring|]. unfold space, words in *. cbn [repeat tdims map] in *. rewrite !lsum_all_idx, lsum_seq, lsum_seq, sum_pieces. apply rsum_ext. intros i Hi.
  rewrite (rsum_ext (ir_dim (piece cs i)) _ (fun r => lsum (all_idx (repeat k n)) (fun w => lsum (all_idx (tdims (lw cs w))) (fun a => h ((off cs i + r)%nat :: iota cs w a))))) by (intros r _; apply (IH (fun z => h ((off cs i + r)%nat :: z)))).
  rewrite <- lsum_seq, lsum_swap. apply lsum_ext. intros w _. rewrite lw_cons. cbn [tdims map]. rewrite lsum_all_idx, dims_one. reflexivity.
Qed.
Lemma in_words n w : In w (words cs n) <-> length w = n /\ forall i, In i w -> (i < k)%nat.
Proof.
  unfold words. rewrite all_idx_valid. revert w. induction n as [|n IH]; intros w; split.
  - intros H. inversion H. split; [reflexivity|intros i []].
  - intros [L _]. destruct w; [constructor|discriminate].
  - intros H. cbn [repeat] in H. inversion H as [|i ? w' ? Hi Hw]. subst. apply IH in Hw as [L B]. split; [cbn; lia|]. intros j [<-|Hj]; auto.
  - intros [L B]. destruct w as [|i w]; [discriminate|]. cbn [repeat]. constructor; [apply B; left; reflexivity|]. apply IH. split; [cbn in L; lia|]. intros j Hj. apply B. right. exact Hj.
Qed.
Lemma in_lw w a : In a (space (lw cs w)) <-> length a = length w /\ forall j, (j < length w)%nat -> (nth j a 0 < ir_dim (piece cs (nth j w 0)))%nat.
Proof.
  unfold space. rewrite all_idx_valid, valid_iff. unfold tdims, lw. rewrite map_map, map_length. split; intros [L B]; (split; [exact L|]); intros j Hj; specialize (B j Hj).
  - rewrite (nth_map_at (fun i => dims [piece cs i]) w j 0%nat) in B by exact Hj. rewrite dims_one in B. exact B.
  - rewrite (nth_map_at (fun i => dims [piece cs i]) w j 0%nat) by exact Hj. rewrite dims_one. exact B.
Qed.
Lemma iota_length w a : length a = length w -> length (iota cs w a) = length w.
Proof. intros L. unfold iota. rewrite map_length, combine_length. lia. Qed.
Lemma iota_nth w a j : length a = length w -> (j < length w)%nat -> nth j (iota cs w a) 0%nat = (off cs (nth j w 0) + nth j a 0)%nat.
Proof. revert a j. induction w as [|i w IH]; intros [|r a] j L Hj; try discriminate; cbn in Hj; [lia|]. injection L as L. rewrite iota_cons. destruct j as [|j]; [reflexivity|]. cbn [nth]. apply IH; [exact L|lia]. Qed.
Lemma iota_in n w a : In w (words cs n) -> In a (space (lw cs w)) -> In (iota cs w a) (space (repeat cs n)).
Proof.
  intros Hw Ha. apply in_words in Hw as [L B]. apply in_lw in Ha as [La Ba]. unfold space. rewrite all_idx_valid, valid_iff. unfold tdims. rewrite map_repeat, repeat_length. split; [rewrite iota_length by exact La; exact L|]. intros j Hj. rewrite (NormProofs.nth_repeat_lt (dims cs) 0%nat j n) by exact Hj. rewrite iota_nth by lia. apply off_lt; [apply B, nth_In; lia|apply Ba; lia].
Qed.
Lemma split_index q : (q < dims cs)%nat -> exists i r, (i < k)%nat /\ (r < ir_dim (piece cs i))%nat /\ q = (off cs i + r)%nat.
Proof.
  revert q. induction cs as [|c l IH]; intros q H; [cbn in H; lia|]. rewrite dims_cons in H. destruct (Nat.lt_ge_cases q (ir_dim c)) as [Q|Q].
  - exists 0%nat, q. split; [cbn; lia|]. split; [exact Q|reflexivity].
  - destruct (IH (q - ir_dim c)%nat ltac:(lia)) as (i & r & Hi & Hr & E). exists (S i), r. split; [cbn; lia|]. split; [exact Hr|]. rewrite off_cons. lia.
Qed.
Lemma split_space n z : In z (space (repeat cs n)) -> exists w a, In w (words cs n) /\ In a (space (lw cs w)) /\ z = iota cs w a.
Proof.
  revert z. induction n as [|n IH]; intros z Hz.
  - destruct Hz as [<-|[]]. exists [], []. split; [left; reflexivity|]. split; [left; reflexivity|reflexivity].
  - cbn [repeat] in Hz. apply in_all_idx_inv in Hz as (q & y & -> & Hq & Hy). destruct (IH y Hy) as (w & a & Hw & Ha & ->). destruct (split_index q Hq) as (i & r & Hi & Hr & ->). exists (i :: w), (r :: a). split; [|split; [|reflexivity]].
    + unfold words. cbn [repeat]. apply in_all_idx_cons. split; [exact Hi|exact Hw].
    + rewrite lw_cons. unfold space. cbn [tdims map]. apply in_all_idx_cons. rewrite dims_one. split; [exact Hr|exact Ha].
Qed.
Lemma rho_words n r w w' a a' : In w (words cs n) -> In w' (words cs n) -> In a (space (lw cs w)) -> In a' (space (lw cs w')) ->
  rho (repeat cs n) r (iota cs w a) (iota cs w' a') = if list_eqb w w' then rho (lw cs w) r a a' else 0.
Proof.
  revert w w' a a'. induction n as [|n IH]; intros w w' a a' Hw Hw' Ha Ha'.
  - destruct Hw as [<-|[]], Hw' as [<-|[]], Ha as [<-|[]], Ha' as [<-|[]]. reflexivity.
  - unfold words in Hw, Hw'. cbn [repeat] in Hw, Hw'. apply in_all_idx_inv in Hw as (i & u & -> & Hi & Hu). apply in_all_idx_inv in Hw' as (i' & u' & -> & Hi' & Hu'). rewrite lw_cons in Ha, Ha'. unfold space in Ha, Ha'. cbn [tdims map] in Ha, Ha'. rewrite dims_one in Ha, Ha'. apply in_all_idx_inv in Ha as (p & b & -> & Hp & Hb). apply in_all_idx_inv in Ha' as (p' & b' & -> & Hp' & Hb').
    rewrite !iota_cons. cbn [repeat]. change (rho (?l :: ?t) r (?p :: ?z) (?q :: ?z')) with (bd r l p q * rho t r z z'). rewrite (IH u u' b b' Hu Hu' Hb Hb'), bd_pieces by assumption. cbn [list_eqb]. destruct (i =? i')%nat; cbn [andb]; [|ring]. rewrite lw_cons. destruct (list_eqb u u'); [reflexivity|ring].
Qed.
(* ---------- permutations ---------- *)
Lemma permute_word n w q : In w (words cs n) -> is_perm q = true -> length q = n -> In (permute w q) (words cs n).
Proof.
  intros Hw Hq L. apply in_words in Hw as [Lw B]. apply in_words. split; [rewrite permute_length; exact L|]. intros i Hi. apply in_map_iff in Hi as (j & <- & Hj). apply (proj1 (perm_In q j Hq)) in Hj. apply B, nth_In. lia.
Qed.
Lemma permute_lw w a q : is_perm q = true -> length q = length w -> In a (space (lw cs w)) -> In (permute a q) (space (lw cs (permute w q))).
Proof.
  intros Hq L Ha. apply in_lw in Ha as [La B]. apply in_lw. rewrite !permute_length. split; [reflexivity|]. intros j Hj. rewrite !permute_nth by exact Hj. apply B. rewrite <- L. apply perm_nth_lt; assumption.
Qed.
Lemma permute_iota w a q : is_perm q = true -> length q = length w -> length a = length w -> permute (iota cs w a) q = iota cs (permute w q) (permute a q).
Proof.
  intros Hq L La. apply nth_ext0; [rewrite permute_length, iota_length; rewrite ?permute_length; reflexivity|]. rewrite permute_length. intros j Hj. assert (B : (nth j q 0 < length w)%nat) by (rewrite <- L; apply perm_nth_lt; assumption). rewrite permute_nth by exact Hj. rewrite iota_nth by (try exact La; exact B). rewrite iota_nth by (rewrite ?permute_length; auto). rewrite !permute_nth by exact Hj. reflexivity.
Qed.
Lemma permute_back x q : is_perm q = true -> length q = length x -> permute (permute x q) (inv_nat q) = x.
Proof. intros Hq L. rewrite permute_comp by (try apply inv_nat_perm; try rewrite inv_nat_length; auto). rewrite comp_nat_inv_r by exact Hq. apply permute_id. symmetry. exact L. Qed.
Lemma permute_forth x q : is_perm q = true -> length q = length x -> permute (permute x (inv_nat q)) q = x.
Proof. intros Hq L. rewrite permute_comp by (try exact Hq; rewrite inv_nat_length; reflexivity). rewrite comp_nat_inv_l by exact Hq. apply permute_id. symmetry. exact L. Qed.
Lemma permute_space w q : is_perm q = true -> length q = length w -> Permutation (map (fun a => permute a q) (space (lw cs w))) (space (lw cs (permute w q))).
Proof.
  intros Hq L. assert (Back : forall a, In a (space (lw cs w)) -> permute (permute a q) (inv_nat q) = a) by (intros a Ha; apply in_lw in Ha as [La _]; apply permute_back; [exact Hq|lia]).
  apply NoDup_Permutation.
  - assert (G : forall l, (forall y, In y l -> In y (space (lw cs w))) -> NoDup l -> NoDup (map (fun y => permute y q) l)); [|apply G; [auto|apply all_idx_nodup]].
    induction l as [|y l IH]; intros H N; [constructor|]. inversion N; subst. cbn [map]. constructor; [|apply IH; [intros; apply H; right; assumption|assumption]]. intros Q. apply in_map_iff in Q as (y' & Q & Hy'). assert (y' = y) by (rewrite <- (Back y), <- (Back y') by (apply H; cbn; auto); rewrite Q; reflexivity). subst. contradiction.
  - apply all_idx_nodup.
  - intros b. rewrite in_map_iff. split; [intros (a & <- & Ha); apply permute_lw; assumption|]. intros Hb. exists (permute b (inv_nat q)). assert (Lb : length b = length q) by (apply in_lw in Hb as [Lb _]; rewrite permute_length in Lb; exact Lb). split; [apply permute_forth; [exact Hq|lia]|].
    rewrite <- (permute_back w q Hq L). apply permute_lw; [apply inv_nat_perm, Hq|rewrite inv_nat_length, permute_length; reflexivity|exact Hb].
Qed.
Lemma lsum_permute w q h : is_perm q = true -> length q = length w -> lsum (space (lw cs w)) (fun a => h (permute a q)) = lsum (space (lw cs (permute w q))) h.
Proof. intros Hq L. rewrite <- (lsum_perm _ _ h (permute_space w q Hq L)). rewrite lsum_map. reflexivity. Qed.
Lemma rho_permute_word r w a a' q : is_perm q = true -> length q = length w -> length a = length w -> length a' = length w -> rho (lw cs (permute w q)) r (permute a q) (permute a' q) = rho (lw cs w) r a a'.
Proof.
  intros Hq L La La'. assert (Ll : forall w, length (lw cs w) = length w) by (intros; apply map_length). rewrite !rho_index by (rewrite Ll, ?permute_length; auto). rewrite !Ll, permute_length.
  set (G := fun j => bd r (nth j (lw cs w) []) (nth j a 0%nat) (nth j a' 0%nat)). transitivity (prodR (map G q)).
  - f_equal. transitivity (map G (map (fun j => nth j q 0%nat) (seq 0 (length q)))); [|rewrite map_nth_all; reflexivity]. rewrite map_map. apply map_ext_in. intros j Hj. apply in_seq in Hj. unfold G. rewrite !permute_nth by lia. f_equal. unfold lw. assert (B : (nth j q 0 < length w)%nat) by (rewrite <- L; apply perm_nth_lt; [assumption|lia]). rewrite (nth_map_at (fun i => [piece cs i]) (permute w q) j 0%nat) by (rewrite permute_length; lia). rewrite (nth_map_at (fun i => [piece cs i]) w _ 0%nat) by exact B. rewrite permute_nth by lia. reflexivity.
  - apply prodR_perm, Permutation_map. rewrite <- L. apply is_perm_iff, Hq.
Qed.
End Words2.
