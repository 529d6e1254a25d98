(* The symmetrisation of the optimised branch: an isometry that commutes with the rotations, onto the symmetric tensors carried by the arrangements of a word. *)
From Coq Require Import Reals Lra Lia List Arith Permutation Sorted ZArith.
From Verif Require Import PyBase PermModel PermProofs IrrepsModel IrrepsProofs IrrepsProofs2 ArrayModel ArrayProofs ArrayOps RechunkProofs LeadModel LeadProofs StackProofs ActProofs EquivProofs EntryProofs LinearProofs ScatterProps SumR S2Proofs3 TPModel TPProofs TPProofs2 RotationModel RotationProofs CGModel WignerModel WignerProofs WignerProofs2 WignerProps WignerProps2 CGComplete SymModel SymProofs SymProofs2 SymProps3 SchurProofs MultProofs CouplingProofs ReducedProofs ConstrainProofs RtpModel RtpSpace RtpTools RtpArr RtpMasks RtpPerm RtpSymModel RtpWords.
From Verif Require GradProofs.
Import ListNotations.
Open Scope R_scope.

(* ---------- itertools.permutations ---------- *)
Lemma picks_perm l a r : In (a, r) (picks l) -> Permutation (a :: r) l.
Proof.
  revert a r. induction l as [|b l IH]; intros a r H; [contradiction|]. cbn [picks] in H. destruct H as [E|H]; [injection E as <- <-; reflexivity|]. apply in_map_iff in H as ([c s] & E & H). injection E as <- <-. specialize (IH c s H). etransitivity; [apply perm_swap|]. constructor. exact IH.
Qed.
Lemma picks_all l a : In a l -> exists r, In (a, r) (picks l).
Proof.
  induction l as [|b l IH]; intros H; [contradiction|]. cbn [picks]. destruct H as [-> |H]; [exists l; left; reflexivity|]. destruct (IH H) as (r & Hr). exists (b :: r). right. apply in_map_iff. exists (a, r). split; [reflexivity|exact Hr].
Qed.
Lemma permutations_in n l p : length l = n -> In p (permutations n l) <-> Permutation p l.
Proof.
  revert l p. induction n as [|n IH]; intros l p L.
  - destruct l; [|discriminate]. cbn. split; [intros [<-|[]]; reflexivity|]. intros H. apply Permutation_sym, Permutation_nil in H. left. symmetry. exact H.
  - cbn [permutations]. rewrite in_flat_map. split.
    + intros ([a r] & Ha & Hp). apply in_map_iff in Hp as (q & <- & Hq). apply picks_perm in Ha. assert (Lr : length r = n) by (apply Permutation_length in Ha; cbn in Ha; lia). apply (IH r q Lr) in Hq. etransitivity; [|exact Ha]. constructor. exact Hq.
    + intros P. destruct p as [|a q]; [apply Permutation_length in P; cbn in P; lia|]. destruct (picks_all l a) as (r & Hr); [apply (Permutation_in _ P); left; reflexivity|]. exists (a, r). split; [exact Hr|]. apply in_map. pose proof (picks_perm l a r Hr) as Q. assert (Lr : length r = n) by (apply Permutation_length in Q; cbn in Q; lia). apply (IH r q Lr). apply (Permutation_cons_inv (a := a)). rewrite P. symmetry. exact Q.
Qed.
Lemma existsb_word u seen : existsb (list_eqb u) seen = true <-> In u seen.
Proof. rewrite existsb_exists. split; [intros (v & H & E); apply list_eqb_eq in E; subst; exact H|]. intros H. exists u. split; [exact H|]. apply list_eqb_eq. reflexivity. Qed.
Lemma first_seen_in seen s ps u p : In (u, p) (first_seen seen s ps) -> In p ps /\ u = permute s p /\ ~ In u seen.
Proof.
  revert seen. induction ps as [|q ps IH]; intros seen H; [contradiction|]. cbn [first_seen] in H. fold (permute s q) in H. destruct (existsb (list_eqb (permute s q)) seen) eqn:E.
  - destruct (IH _ H) as (H1 & H2 & H3). split; [right; exact H1|auto].
  - destruct H as [Q|H].
    + injection Q as <- <-. split; [left; reflexivity|]. split; [reflexivity|]. intros Q. apply existsb_word in Q. congruence.
    + destruct (IH _ H) as (H1 & H2 & H3). split; [right; exact H1|]. split; [exact H2|]. intros Q. apply H3. right. exact Q.
Qed.
Lemma first_seen_nodup seen s ps : NoDup (map fst (first_seen seen s ps)).
Proof.
  revert seen. induction ps as [|q ps IH]; intros seen; [constructor|]. cbn [first_seen]. fold (permute s q). destruct (existsb (list_eqb (permute s q)) seen) eqn:E; [apply IH|]. cbn [map fst]. constructor; [|apply IH]. intros H. apply in_map_iff in H as ([u p] & Q & H). cbn [fst] in Q. subst u. apply first_seen_in in H as (_ & _ & H). apply H. left. reflexivity.
Qed.
Lemma first_seen_all seen s ps p : In p ps -> In (permute s p) seen \/ In (permute s p) (map fst (first_seen seen s ps)).
Proof.
  revert seen. induction ps as [|q ps IH]; intros seen H; [contradiction|]. cbn [first_seen]. fold (permute s q). destruct (existsb (list_eqb (permute s q)) seen) eqn:E.
  - destruct H as [-> |H]; [left; apply existsb_word, E|]. apply IH, H.
  - destruct H as [-> |H]; [right; left; reflexivity|]. destruct (IH (permute s q :: seen) H) as [[Q|Q]|Q]; [right; left; exact Q|left; exact Q|right; right; exact Q].
Qed.
Lemma distinct_in s u p : In (u, p) (distinct_permutations s) -> is_perm p = true /\ length p = length s /\ u = permute s p.
Proof.
  intros H. apply first_seen_in in H as (H & E & _). apply permutations_in in H; [|apply seq_length]. assert (L : length p = length s) by (apply Permutation_length in H; rewrite seq_length in H; exact H). split; [apply is_perm_iff; rewrite L; exact H|]. auto.
Qed.
Lemma distinct_all s q : is_perm q = true -> length q = length s -> In (permute s q) (map fst (distinct_permutations s)).
Proof. intros Hq L. destruct (first_seen_all [] s (permutations (length s) (seq 0 (length s))) q) as [[]|H]; [|exact H]. apply permutations_in; [apply seq_length|]. rewrite <- L. apply is_perm_iff, Hq. Qed.
Lemma distinct_nodup s : NoDup (map fst (distinct_permutations s)). Proof. apply first_seen_nodup. Qed.

Lemma lsum_among {T} (dec : forall a b : T, {a = b} + {a <> b}) (l l' : list T) h : NoDup l -> NoDup l' -> incl l' l -> lsum l (fun w => if in_dec dec w l' then h w else 0) = lsum l' h.
Proof.
  intros N N' I. rewrite (lsum_ext l _ (fun w => if (if in_dec dec w l' then true else false) then h w else 0)) by (intros w _; destruct (in_dec dec w l'); reflexivity). rewrite <- (lsum_filter (fun w => if in_dec dec w l' then true else false)). apply lsum_perm, NoDup_Permutation; [apply NoDup_filter, N|exact N'|]. intros w. rewrite filter_In. destruct (in_dec dec w l') as [H|H]; [split; [intros _; exact H|intros _; split; [apply I, H|reflexivity]]|split; [intros [_ Q]; discriminate|contradiction]].
Qed.
(* ---------- slices ---------- *)
Lemma position_spec m l : In m l -> (position m l < length l)%nat /\ nth (position m l) l 0%nat = m.
Proof.
  induction l as [|a l IH]; intros H; [contradiction|]. cbn [position length]. destruct (Nat.eqb_spec a m) as [E|N]; [cbn; split; [lia|exact E]|]. destruct H as [Q|H]; [contradiction|]. destruct (IH H). cbn [nth]. split; [lia|assumption].
Qed.
Lemma transposed_permute p a : is_perm p = true -> transposed p a = permute a (inv_nat p).
Proof.
  intros Hp. unfold transposed, permute. assert (E : inv_nat p = map (fun m => position m p) (seq 0 (length p))).
  { unfold inv_nat. apply map_ext_in. intros m Hm. apply in_seq in Hm. assert (I : In m p) by (apply (perm_In p m Hp); lia). destruct (position_spec m p I) as [H1 H2], (index_nat_spec m p I) as [H3 H4]. apply is_perm_iff in Hp. assert (N : NoDup p) by (apply (Permutation_NoDup (Permutation_sym Hp)), seq_NoDup). apply (proj1 (NoDup_nth p 0%nat) N); [exact H3|exact H1|congruence]. }
  rewrite E, map_map. reflexivity.
Qed.
Lemma cumsum_before_nth l i : (i < length l)%nat -> nth i (cumsum_before l) 0%nat = PyBase.sum (firstn i l).
Proof. intros H. unfold cumsum_before. rewrite (nth_map_at (fun i => PyBase.sum (firstn i l)) _ i 0%nat) by (rewrite seq_length; exact H). rewrite seq_nth by exact H. reflexivity. Qed.
Lemma sum_app' l l' : PyBase.sum (l ++ l') = (PyBase.sum l + PyBase.sum l')%nat.
Proof. unfold PyBase.sum. induction l as [|a l IH]; [reflexivity|]. cbn [app fold_right] in *. lia. Qed.
Lemma sum_rev l : PyBase.sum (rev l) = PyBase.sum l.
Proof. induction l as [|a l IH]; [reflexivity|]. cbn [rev]. rewrite sum_app', IH. unfold PyBase.sum. cbn. lia. Qed.
Lemma cumsum_after_nth l i : (i < length l)%nat -> (nth i (cumsum_after l) 0 + PyBase.sum (firstn (S i) l) = PyBase.sum l)%nat.
Proof.
  intros H. unfold cumsum_after. assert (L : length (cumsum_before (rev l)) = length l) by (unfold cumsum_before; rewrite map_length, seq_length; apply rev_length). rewrite rev_nth by (rewrite L; exact H). rewrite L. rewrite cumsum_before_nth by (rewrite rev_length; lia). rewrite firstn_rev, sum_rev. replace (length l - (length l - S i))%nat with (S i) by lia. rewrite <- (firstn_skipn (S i) l) at 3. rewrite sum_app'. lia.
Qed.
Section Sym.
Variables (cs : list irrep) (n : nat) (s : list nat).
Hypothesis Hs : In s (words cs n).
Notation k := (length cs).
Notation dms := (map ir_dim cs).
Notation ps := (distinct_permutations s).
Notation X := (space (repeat cs n)).
Notation Xs := (space (lw cs s)).
Let Ls : length s = n. Proof. apply in_words in Hs. apply Hs. Qed.
Lemma off_before i : (i < k)%nat -> nth i (cumsum_before dms) 0%nat = off cs i.
Proof. intros H. rewrite cumsum_before_nth by (rewrite map_length; exact H). unfold off, dims. rewrite firstn_map. reflexivity. Qed.
Lemma off_after i : (i < k)%nat -> (PyBase.sum dms - nth i (cumsum_after dms) 0 = off cs i + ir_dim (piece cs i))%nat.
Proof.
  intros H. pose proof (cumsum_after_nth dms i ltac:(rewrite map_length; exact H)) as E. assert (F : PyBase.sum (firstn (S i) dms) = (off cs i + ir_dim (piece cs i))%nat); [|lia].
  unfold off, dims. rewrite firstn_map. clear -H. revert i H. induction cs as [|c l IH]; intros i H; [cbn in H; lia|]. destruct i as [|i]; [cbn; lia|]. change (firstn (S (S i)) (c :: l)) with (c :: firstn (S i) l). change (firstn (S i) (c :: l)) with (c :: firstn i l). cbn [map PyBase.sum fold_right]. specialize (IH i ltac:(cbn in H; lia)). rewrite piece_cons. unfold PyBase.sum in *. cbn [fold_right] in *. lia.
Qed.
Lemma off_mono i j : (i < j <= k)%nat -> (off cs i + ir_dim (piece cs i) <= off cs j)%nat.
Proof.
  clear. revert i j. induction cs as [|c l IH]; intros i j H; [cbn in H; lia|]. destruct j as [|j]; [lia|]. rewrite off_cons. destruct i as [|i]; [rewrite off_0; unfold piece; cbn [nth]; lia|]. rewrite off_cons, piece_cons. specialize (IH i j ltac:(cbn in H; lia)). lia.
Qed.
Lemma slices_iota w u a : length u = length w -> (forall i, In i w -> (i < k)%nat) -> (forall i, In i u -> (i < k)%nat) -> In a (space (lw cs w)) -> in_slices dms u (iota cs w a) = list_eqb u w.
Proof.
  revert u a. induction w as [|i w IH]; intros [|j u] a L Bw Bu Ha; try discriminate; [reflexivity|]. injection L as L. rewrite lw_cons in Ha. unfold space in Ha. cbn [tdims map] in Ha. rewrite dims_one in Ha. apply in_all_idx_inv in Ha as (r & b & -> & Hr & Hb). rewrite iota_cons. unfold in_slices. cbn [combine forallb list_eqb]. fold (in_slices dms u (iota cs w b)). rewrite (IH u b L) by (try exact Hb; intros; auto with datatypes).
  assert (Bi : (i < k)%nat) by (apply Bw; left; reflexivity). assert (Bj : (j < k)%nat) by (apply Bu; left; reflexivity). rewrite off_before, off_after by exact Bj. f_equal. destruct (Nat.eqb_spec j i) as [-> |N].
  - apply andb_true_intro. split; [apply Nat.leb_le; lia|apply Nat.ltb_lt; lia].
  - apply Bool.andb_false_iff. destruct (Nat.lt_ge_cases i j) as [Q|Q]; [left; apply Nat.leb_gt; pose proof (off_mono i j ltac:(lia)); lia|right; apply Nat.ltb_ge; pose proof (off_mono j i ltac:(lia)); lia].
Qed.
Lemma local_iota w a : (forall i, In i w -> (i < k)%nat) -> length a = length w -> local dms w (iota cs w a) = a.
Proof.
  revert a. induction w as [|i w IH]; intros [|r a] B L; try discriminate; [reflexivity|]. injection L as L. rewrite iota_cons. unfold local. cbn [combine map]. fold (local dms w (iota cs w a)). rewrite (IH a) by (try exact L; intros; apply B; right; assumption). f_equal. rewrite off_before by (apply B; left; reflexivity). lia.
Qed.

(* ---------- the symmetrisation ---------- *)
Definition spread (f : idx -> R) (z : idx) : R := lsum ps (fun '(u, p) => if in_slices dms u z then f (transposed p (local dms u z)) else 0) / sqrt (INR (length ps)).
(* unchanged by the permutations that do not change the word *)
Definition fixed (f : idx -> R) : Prop := forall q a, is_perm q = true -> length q = n -> permute s q = s -> In a Xs -> f (permute a q) = f a.
Notation root := (sqrt (INR (length ps))).
Lemma ps_word u p : In (u, p) ps -> In u (words cs n) /\ is_perm p = true /\ length p = n /\ u = permute s p /\ permute u (inv_nat p) = s.
Proof.
  intros H. apply distinct_in in H as (P & L & ->). rewrite Ls in L. split; [apply permute_word; auto|]. split; [exact P|]. split; [exact L|]. split; [reflexivity|]. apply permute_back; [exact P|rewrite Ls; exact L].
Qed.
Lemma ps_pos : 0 < INR (length ps).
Proof. apply lt_0_INR. pose proof (distinct_all s (identity n) (identity_perm n) ltac:(unfold identity; rewrite seq_length; auto)) as H. destruct ps; [contradiction|cbn; lia]. Qed.
Lemma root_pos : 0 < root. Proof. apply sqrt_lt_R0, ps_pos. Qed.
Lemma root_sq : root * root = INR (length ps). Proof. apply sqrt_sqrt. left. apply ps_pos. Qed.
Lemma spread_at f w p a : In (w, p) ps -> In a (space (lw cs w)) -> spread f (iota cs w a) = f (permute a (inv_nat p)) / root.
Proof.
  intros Hw Ha. unfold spread. f_equal. destruct (ps_word w p Hw) as (Ww & Pp & Lp & _). apply in_words in Ww as [Lw Bw].
  rewrite (GradProofs.lsum_one ps _ (w, p)).
  - rewrite slices_iota by auto. rewrite (proj2 (list_eqb_eq w w) eq_refl). rewrite local_iota by (try exact Bw; apply in_lw in Ha; apply Ha). rewrite transposed_permute by exact Pp. reflexivity.
  - apply (NoDup_map_inv fst), distinct_nodup.
  - exact Hw.
  - intros [u q] Hu N. destruct (ps_word u q Hu) as (Wu & _). apply in_words in Wu as [Lu Bu]. rewrite slices_iota by (try exact Ha; auto; congruence). destruct (list_eqb u w) eqn:E; [|reflexivity]. apply list_eqb_eq in E. subst u. exfalso. apply N. pose proof (distinct_nodup s) as Nd. clear -Nd Hu Hw. induction ps as [|[v r] l IH]; [contradiction|]. cbn [map fst] in Nd. inversion Nd as [|? ? N1 N2]. subst. destruct Hu as [Hu|Hu], Hw as [Hw|Hw].
    + congruence.
    + injection Hu as -> ->. exfalso. apply N1. apply in_map_iff. exists (w, p). auto.
    + injection Hw as -> ->. exfalso. apply N1. apply in_map_iff. exists (w, q). auto.
    + apply IH; assumption.
Qed.
Lemma spread_out f w a : In w (words cs n) -> ~ In w (map fst ps) -> In a (space (lw cs w)) -> spread f (iota cs w a) = 0.
Proof.
  intros Hw N Ha. unfold spread. rewrite lsum_zero; [unfold Rdiv; ring|]. intros [u p] Hu. destruct (ps_word u p Hu) as (Wu & _). apply in_words in Wu as [Lu Bu]. apply in_words in Hw as [Lw Bw]. rewrite slices_iota by (try exact Ha; auto; congruence). destruct (list_eqb u w) eqn:E; [|reflexivity]. apply list_eqb_eq in E. subst u. exfalso. apply N, in_map_iff. exists (w, p). auto.
Qed.
Lemma ps_cases w : In w (words cs n) -> (exists p, In (w, p) ps) \/ ~ In w (map fst ps).
Proof. intros Hw. destruct (in_dec (list_eq_dec Nat.eq_dec) w (map fst ps)) as [H|H]; [left|right; exact H]. apply in_map_iff in H as ([u p] & <- & H). exists p. exact H. Qed.
(* it does not matter which permutation is chosen *)
Lemma fixed_any f w a p q : fixed f -> In w (words cs n) -> In a (space (lw cs w)) -> is_perm p = true -> length p = n -> is_perm q = true -> length q = n -> permute w p = s -> permute w q = s -> f (permute a p) = f (permute a q).
Proof.
  intros Hf Hw Ha Pp Lp Pq Lq E E'. assert (Lw : length w = n) by (apply in_words in Hw; apply Hw). assert (La : length a = n) by (apply in_lw in Ha; destruct Ha; congruence).
  set (r := comp_nat (inv_nat p) q). assert (Pr : is_perm r = true) by (apply comp_nat_perm; rewrite ?inv_nat_length; try apply inv_nat_perm; auto; congruence). assert (Lr : length r = n) by (unfold r; rewrite comp_nat_length, inv_nat_length; exact Lp).
  assert (Q : forall x, length x = n -> permute (permute x p) r = permute x q).
  { intros x Lx. unfold r. rewrite <- permute_comp by (rewrite ?inv_nat_length; auto; congruence). rewrite permute_back by (auto; congruence). reflexivity. }
  rewrite <- (Q a La). symmetry. apply Hf; auto; [rewrite <- E at 1; rewrite (Q w Lw); exact E'|]. rewrite <- E. apply permute_lw; auto. congruence.
Qed.
Lemma spread_any f w a q : fixed f -> In w (words cs n) -> In a (space (lw cs w)) -> is_perm q = true -> length q = n -> permute w q = s -> spread f (iota cs w a) = f (permute a q) / root.
Proof.
  intros Hf Hw Ha Pq Lq E. assert (Lw : length w = n) by (apply in_words in Hw; apply Hw). destruct (ps_cases w Hw) as [[p Hp]|N].
  - rewrite (spread_at f w p a Hp Ha). f_equal. destruct (ps_word w p Hp) as (_ & P & L & _ & E'). apply (fixed_any f w a); auto; [apply inv_nat_perm, P|rewrite inv_nat_length; exact L].
  - exfalso. apply N. rewrite <- (permute_back w q Pq ltac:(congruence)), E. apply distinct_all; [apply inv_nat_perm, Pq|rewrite inv_nat_length; congruence].
Qed.
Lemma spread_symmetric f q z : fixed f -> is_perm q = true -> length q = n -> In z X -> spread f (permute z q) = spread f z.
Proof.
  intros Hf Pq Lq Hz. destruct (split_space cs n z Hz) as (w & a & Hw & Ha & ->). assert (Lw : length w = n) by (apply in_words in Hw; apply Hw). assert (La : length a = length w) by (apply in_lw in Ha; apply Ha).
  rewrite permute_iota by (auto; congruence). assert (Hwq : In (permute w q) (words cs n)) by (apply permute_word; auto). assert (Haq : In (permute a q) (space (lw cs (permute w q)))) by (apply permute_lw; auto; congruence).
  destruct (ps_cases (permute w q) Hwq) as [[p Hp]|N].
  - destruct (ps_word _ p Hp) as (_ & P & L & _ & E). assert (Li : length (inv_nat p) = n) by (rewrite inv_nat_length; exact L). rewrite (spread_at f _ p _ Hp Haq). rewrite permute_comp by (try apply inv_nat_perm; auto; congruence). symmetry. apply spread_any; auto.
    + apply comp_nat_perm; [exact Pq|apply inv_nat_perm, P|congruence].
    + rewrite comp_nat_length. exact Lq.
    + rewrite <- permute_comp by (try apply inv_nat_perm; auto; congruence). exact E.
  - rewrite spread_out by assumption. rewrite spread_out; [reflexivity|exact Hw| |exact Ha]. intros H. apply N. apply in_map_iff in H as ([u p] & E & H). cbn [fst] in E. subst u. destruct (ps_word w p H) as (_ & P & L & -> & _). rewrite permute_comp by (auto; congruence). apply distinct_all; [apply comp_nat_perm; auto; congruence|rewrite comp_nat_length; congruence].
Qed.
Lemma spread_dot f g : dot X (spread f) (spread g) = dot Xs f g.
Proof.
  unfold dot. rewrite sum_words. pose proof root_pos as Rp. rewrite (lsum_ext (words cs n) _ (fun w => if in_dec (list_eq_dec Nat.eq_dec) w (map fst ps) then lsum Xs (fun a => f a * g a) / INR (length ps) else 0)).
  - rewrite (lsum_among _ (words cs n) (map fst ps) (fun _ => lsum Xs (fun a => f a * g a) / INR (length ps))); [|apply all_idx_nodup|apply distinct_nodup|].
    + rewrite lsum_const, map_length. field. pose proof ps_pos. lra.
    + intros w H. apply in_map_iff in H as ([u p] & <- & H). apply ps_word in H. apply H.
  - intros w Hw. destruct (in_dec _ w (map fst ps)) as [H|H].
    + apply in_map_iff in H as ([u p] & E & H). cbn [fst] in E. subst u. destruct (ps_word w p H) as (_ & P & L & _ & E). rewrite (lsum_ext (space (lw cs w)) _ (fun a => (fun b => f b * g b / INR (length ps)) (permute a (inv_nat p)))).
      * rewrite (lsum_permute cs w (inv_nat p) (fun b => f b * g b / INR (length ps))) by (try apply inv_nat_perm; auto; rewrite inv_nat_length; apply in_words in Hw; destruct Hw; congruence). rewrite E. unfold Rdiv. rewrite <- lsum_scal_r. reflexivity.
      * intros a Ha. rewrite !(spread_at _ w p a H Ha). transitivity (f (permute a (inv_nat p)) * g (permute a (inv_nat p)) / (root * root)); [field; lra|rewrite root_sq; reflexivity].
    + apply lsum_zero. intros a Ha. rewrite spread_out by assumption. ring.
Qed.
Lemma spread_ext f g z : (forall a, In a Xs -> f a = g a) -> In z X -> spread f z = spread g z.
Proof.
  intros H Hz. destruct (split_space cs n z Hz) as (w & a & Hw & Ha & ->). destruct (ps_cases w Hw) as [[p Hp]|N]; [|rewrite !spread_out by assumption; reflexivity]. rewrite !(spread_at _ w p a Hp Ha). f_equal. apply H. destruct (ps_word w p Hp) as (_ & P & L & _ & E). rewrite <- E. apply permute_lw; [apply inv_nat_perm, P|rewrite inv_nat_length; apply in_words in Hw; destruct Hw; congruence|exact Ha].
Qed.
Lemma spread_lsum {T} (l : list T) c (h : T -> idx -> R) z : spread (fun a => lsum l (fun t => c t * h t a)) z = lsum l (fun t => c t * spread (h t) z).
Proof.
  unfold spread, Rdiv. rewrite (lsum_ext l _ (fun t => lsum ps (fun '(u, p) => if in_slices dms u z then c t * h t (transposed p (local dms u z)) else 0) * / root)).
  - rewrite lsum_scal_r. f_equal. rewrite lsum_swap. apply lsum_ext. intros [u p] _. destruct (in_slices dms u z); [reflexivity|]. symmetry. apply lsum_zero. reflexivity.
  - intros t _. rewrite <- Rmult_assoc. f_equal. rewrite <- lsum_scal. apply lsum_ext. intros [u p] _. destruct (in_slices dms u z); ring.
Qed.
Lemma spread_rsum m c (h : nat -> idx -> R) z : spread (fun a => rsum m (fun t => c t * h t a)) z = rsum m (fun t => c t * spread (h t) z).
Proof. rewrite <- lsum_seq, <- spread_lsum. unfold spread. f_equal. apply lsum_ext. intros [u p] _. rewrite lsum_seq. reflexivity. Qed.
Lemma spread_rot r f z : In z X -> rot X (rho (repeat cs n)) r (spread f) z = spread (rot Xs (rho (lw cs s)) r f) z.
Proof.
  intros Hz. destruct (split_space cs n z Hz) as (w & a & Hw & Ha & ->). unfold rot at 1. rewrite sum_words.
  transitivity (lsum (words cs n) (fun w' => if list_eq_dec Nat.eq_dec w w' then lsum (space (lw cs w)) (fun a' => rho (lw cs w) r a a' * spread f (iota cs w a')) else 0)).
  { apply lsum_ext. intros w' Hw'. destruct (list_eq_dec Nat.eq_dec w w') as [<-|N].
    - apply lsum_ext. intros a' Ha'. rewrite rho_words by assumption. rewrite (proj2 (list_eqb_eq w w) eq_refl). reflexivity.
    - apply lsum_zero. intros a' Ha'. rewrite rho_words by assumption. destruct (list_eqb w w') eqn:E; [apply list_eqb_eq in E; contradiction|ring]. }
  rewrite (GradProofs.lsum_one (words cs n) _ w); [|apply all_idx_nodup|exact Hw|intros w' _ N; destruct (list_eq_dec Nat.eq_dec w w'); [congruence|reflexivity]]. destruct (list_eq_dec Nat.eq_dec w w) as [_|N]; [|contradiction].
  destruct (ps_cases w Hw) as [[p Hp]|N].
  - rewrite (spread_at _ w p a Hp Ha). destruct (ps_word w p Hp) as (_ & P & L & _ & E). unfold rot, Rdiv. rewrite <- lsum_scal_r. assert (Lw : length w = n) by (apply in_words in Hw; apply Hw). assert (La : length a = length w) by (apply in_lw in Ha; apply Ha).
    set (rt := root). rewrite <- E. rewrite <- (lsum_permute cs w (inv_nat p) (fun y => rho (lw cs (permute w (inv_nat p))) r (permute a (inv_nat p)) y * f y * / rt)) by (try apply inv_nat_perm; auto; rewrite inv_nat_length; congruence). apply lsum_ext. intros a' Ha'. rewrite rho_permute_word by (try apply inv_nat_perm; try rewrite inv_nat_length; try congruence; apply in_lw in Ha'; apply Ha'). rewrite (spread_at f w p a' Hp Ha'). change root with rt. unfold Rdiv. ring.
  - rewrite spread_out by assumption. apply lsum_zero. intros a' Ha'. rewrite spread_out by assumption. ring.
Qed.
(* ---------- back from the symmetric tensors ---------- *)
Definition symm (f : idx -> R) : Prop := forall q z, is_perm q = true -> length q = n -> In z X -> f (permute z q) = f z.
Definition pull (f : idx -> R) (a : idx) : R := root * f (iota cs s a).
Lemma pull_fixed f : symm f -> fixed (pull f).
Proof.
  intros Hf q a Pq Lq E Ha. unfold pull. f_equal. assert (La : length a = length s) by (apply in_lw in Ha; apply Ha). rewrite <- E at 1. rewrite <- permute_iota by (auto; congruence). apply Hf; auto. apply iota_in; assumption.
Qed.
Lemma spread_pull f w a : symm f -> In w (map fst ps) -> In a (space (lw cs w)) -> spread (pull f) (iota cs w a) = f (iota cs w a).
Proof.
  intros Hf H Ha. apply in_map_iff in H as ([u p] & E & H). cbn [fst] in E. subst u. rewrite (spread_at _ w p a H Ha). destruct (ps_word w p H) as (Hw & P & L & _ & E). assert (Lw : length w = n) by (apply in_words in Hw; apply Hw). assert (La : length a = length w) by (apply in_lw in Ha; apply Ha).
  unfold pull. rewrite <- E at 2. rewrite <- permute_iota by (try apply inv_nat_perm; auto; rewrite inv_nat_length; congruence). rewrite (Hf (inv_nat p) (iota cs w a)) by (try apply inv_nat_perm; try rewrite inv_nat_length; auto; apply iota_in; assumption). field. pose proof root_pos. lra.
Qed.
Lemma dot_pull f g : symm f -> dot X f (spread g) = dot Xs (pull f) g.
Proof.
  intros Hf. rewrite <- spread_dot. apply lsum_ext. intros z Hz. destruct (split_space cs n z Hz) as (w & a & Hw & Ha & ->). destruct (in_dec (list_eq_dec Nat.eq_dec) w (map fst ps)) as [H|H]; [rewrite spread_pull by assumption; reflexivity|]. rewrite !(spread_out _ w a Hw H Ha). ring.
Qed.
Lemma pull_rot r f a : In a Xs -> rot Xs (rho (lw cs s)) r (pull f) a = pull (rot X (rho (repeat cs n)) r f) a.
Proof.
  intros Ha. unfold pull, rot. rewrite sum_words. rewrite (GradProofs.lsum_one (words cs n) _ s); [|apply all_idx_nodup|exact Hs|].
  - rewrite <- lsum_scal. apply lsum_ext. intros a' Ha'. rewrite rho_words by assumption. rewrite (proj2 (list_eqb_eq s s) eq_refl). ring.
  - intros w Hw N. apply lsum_zero. intros a' Ha'. rewrite rho_words by assumption. destruct (list_eqb s w) eqn:E; [apply list_eqb_eq in E; congruence|ring].
Qed.
End Sym.
Lemma spread_disjoint cs n s s' f g : In s (words cs n) -> In s' (words cs n) -> (forall w, In w (map fst (distinct_permutations s)) -> ~ In w (map fst (distinct_permutations s'))) -> dot (space (repeat cs n)) (spread cs s f) (spread cs s' g) = 0.
Proof.
  intros Hs Hs' D. unfold dot. apply lsum_zero. intros z Hz. destruct (split_space cs n z Hz) as (w & a & Hw & Ha & ->). destruct (in_dec (list_eq_dec Nat.eq_dec) w (map fst (distinct_permutations s))) as [H|H].
  - rewrite (spread_out cs n s' Hs' g w a Hw (D w H) Ha). ring.
  - rewrite (spread_out cs n s Hs f w a Hw H Ha). ring.
Qed.
