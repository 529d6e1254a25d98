(* The grid transforms entry by entry. *)
From Coq Require Import Reals Lra ZArith Lia FunctionalExtensionality.
From Coquelicot Require Import Coquelicot.
From Verif Require Import PyBase IrrepsModel IrrepsProofs IrrepsProofs2 ArrayModel ArrayProofs ArrayOps ArithProofs RechunkProofs SumR CGModel TrigProofs PolyProofs S2Model LegendreProofs S2Proofs.
From Verif Require Import EntryProofs.
Open Scope R_scope.

Notation none := (0%nat, Irrep 0 Even).
Definition mult (x : irreps) (k : nat) : nat := fst (nth k x none).
Definition deg (x : irreps) (k : nat) : nat := ir_l (snd (nth k x none)).
(* where entry (k, u, j) sits in a row *)
Fixpoint pos (x : irreps) (k u j : nat) : nat :=
  match x, k with
  | [], _ => 0
  | (mul, ir) :: _, 0%nat => u * (2 * ir_l ir + 1) + j
  | (mul, ir) :: x, S k => mul * (2 * ir_l ir + 1) + pos x k u j
  end%nat.
Lemma inside_cases x k u j : inside x k u j <-> (k < length x)%nat /\ (u < mult x k)%nat /\ (j < 2 * deg x k + 1)%nat.
Proof.
  unfold inside, mult, deg. split.
  - intros (mul & ir & E & Hu & Hj). assert (L : (k < length x)%nat) by (apply nth_error_Some; rewrite E; discriminate). rewrite (nth_error_nth _ _ none E). repeat split; assumption.
  - intros (L & Hu & Hj). destruct (nth k x none) as [mul ir] eqn:E. exists mul, ir. repeat split; [|exact Hu|exact Hj]. rewrite <- E. apply nth_error_nth', L.
Qed.
Lemma num_ls x : num_coeffs (ls x) = dim x.
Proof.
  induction x as [|[mul ir] x IH]; [reflexivity|]. change (ls ((mul, ir) :: x)) with (repeat (ir_l ir) mul ++ ls x). rewrite num_coeffs_app, IH, dim_cons. unfold mi_dim, ir_dim. cbn [fst snd]. f_equal.
  induction mul as [|mul I]; [reflexivity|]. cbn [repeat]. change (num_coeffs (ir_l ir :: repeat (ir_l ir) mul)) with (2 * ir_l ir + 1 + num_coeffs (repeat (ir_l ir) mul))%nat. rewrite I. lia.
Qed.
Lemma decode_app a b i : decode (a ++ b) i = if (i <? num_coeffs a)%nat then decode a i else decode b (i - num_coeffs a).
Proof.
  revert i. induction a as [|l a IH]; intros i; [cbn; rewrite Nat.sub_0_r; reflexivity|]. cbn [app decode]. change (num_coeffs (l :: a)) with (2 * l + 1 + num_coeffs a)%nat. rewrite IH.
  destruct (Nat.ltb_spec i (2 * l + 1)) as [L|L].
  - replace (i <? 2 * l + 1 + num_coeffs a)%nat with true by (symmetry; apply Nat.ltb_lt; lia). reflexivity.
  - destruct (Nat.ltb_spec (i - (2 * l + 1)) (num_coeffs a)), (Nat.ltb_spec i (2 * l + 1 + num_coeffs a)); try lia; [reflexivity|f_equal; lia].
Qed.
Lemma num_repeat l mul : num_coeffs (repeat l mul) = (mul * (2 * l + 1))%nat.
Proof. induction mul as [|mul I]; [reflexivity|]. cbn [repeat]. change (num_coeffs (l :: repeat l mul)) with (2 * l + 1 + num_coeffs (repeat l mul))%nat. rewrite I. lia. Qed.
Lemma decode_repeat l mul u j : (u < mul)%nat -> (j < 2 * l + 1)%nat -> decode (repeat l mul) (u * (2 * l + 1) + j) = (l, j).
Proof.
  revert u. induction mul as [|mul IH]; intros u Hu Hj; [lia|]. cbn [repeat decode]. destruct u as [|u].
  - replace (0 * (2 * l + 1) + j <? 2 * l + 1)%nat with true by (symmetry; apply Nat.ltb_lt; lia). reflexivity.
  - replace (S u * (2 * l + 1) + j <? 2 * l + 1)%nat with false by (symmetry; apply Nat.ltb_ge; lia). rewrite <- (IH u) by lia. f_equal. lia.
Qed.
Lemma block_bound u mul w j : (u < mul)%nat -> (j < w)%nat -> (u * w + j < mul * w)%nat.
Proof. intros. nia. Qed.
Lemma pos_decode x : forall k u j, inside x k u j -> (pos x k u j < num_coeffs (ls x))%nat /\ decode (ls x) (pos x k u j) = (deg x k, j).
Proof.
  induction x as [|[mul ir] x IH]; intros k u j H; apply inside_cases in H as (K & Hu & Hj); [cbn in K; lia|].
  change (ls ((mul, ir) :: x)) with (repeat (ir_l ir) mul ++ ls x). rewrite num_coeffs_app, num_repeat, decode_app, num_repeat. destruct k as [|k].
  - cbn [pos]. change (mult ((mul, ir) :: x) 0) with mul in Hu. change (deg ((mul, ir) :: x) 0) with (ir_l ir) in *. pose proof (block_bound u mul (2 * ir_l ir + 1) j Hu Hj) as B.
    replace (u * (2 * ir_l ir + 1) + j <? mul * (2 * ir_l ir + 1))%nat with true by (symmetry; apply Nat.ltb_lt; exact B). split; [lia|]. apply decode_repeat; assumption.
  - cbn [pos]. change (mult ((mul, ir) :: x) (S k)) with (mult x k) in Hu. change (deg ((mul, ir) :: x) (S k)) with (deg x k) in *.
    destruct (IH k u j) as [A B]; [apply inside_cases; cbn [length] in K; repeat split; try assumption; lia|]. split; [lia|].
    replace (mul * (2 * ir_l ir + 1) + pos x k u j <? mul * (2 * ir_l ir + 1))%nat with false by (symmetry; apply Nat.ltb_ge; lia). rewrite <- B. f_equal. lia.
Qed.
Lemma pos_entry x : forall row k u j, length row = dim x -> inside x k u j -> nth (pos x k u j) row 0 = entry x row k u j.
Proof.
  intros row k u j L H. rewrite <- (rowof_entry x row L) at 1. generalize (entry x row) as E. clear row L. revert k u j H.
  induction x as [|[mul ir] x IH]; intros k u j H E; pose proof H as H0; apply inside_cases in H0 as (K & Hu & Hj); [cbn in K; lia|]. cbn [rowof fst snd]. unfold ir_dim.
  destruct (tab2_wf mul (2 * ir_l ir + 1) (E 0%nat)) as [Lt Wt]. pose proof (concat_length_uniform _ _ Wt) as LC. rewrite Lt in LC. destruct k as [|k].
  - change (mult ((mul, ir) :: x) 0) with mul in Hu. change (deg ((mul, ir) :: x) 0) with (ir_l ir) in *. cbn [pos]. rewrite app_nth1 by (rewrite LC; apply block_bound; assumption).
    rewrite (nth_concat (2 * ir_l ir + 1)) by (try exact Wt; try exact Hj; rewrite Lt; exact Hu). unfold tab2. rewrite nth_tab by exact Hu. rewrite nth_tab by exact Hj. reflexivity.
  - cbn [pos]. rewrite app_nth2 by (rewrite LC; lia). rewrite LC. replace (mul * (2 * ir_l ir + 1) + pos x k u j - mul * (2 * ir_l ir + 1))%nat with (pos x k u j) by lia.
    apply (IH k u j). apply inside_cases. cbn [length] in K. change (mult ((mul, ir) :: x) (S k)) with (mult x k) in Hu. change (deg ((mul, ir) :: x) (S k)) with (deg x k) in Hj. repeat split; try assumption; lia.
Qed.
Lemma rsum_pos x (f : nat -> R) : rsum (num_coeffs (ls x)) f = rsum (length x) (fun k => rsum (mult x k) (fun u => rsum (2 * deg x k + 1) (fun j => f (pos x k u j)))).
Proof.
  revert f. induction x as [|[mul ir] x IH]; intros f; [reflexivity|]. change (ls ((mul, ir) :: x)) with (repeat (ir_l ir) mul ++ ls x). rewrite num_coeffs_app, num_repeat, rsum_add, rsum_mul. cbn [length]. rewrite rsum_S_l. f_equal.
  rewrite IH. reflexivity.
Qed.
(* sums over the coefficients of a row *)
Lemma rsum_entries x row (F : nat * nat -> R -> R) : length row = dim x ->
  rsum (num_coeffs (ls x)) (fun i => F (decode (ls x) i) (nth i row 0)) = rsum (length x) (fun k => rsum (mult x k) (fun u => rsum (2 * deg x k + 1) (fun j => F (deg x k, j) (entry x row k u j)))).
Proof.
  intros L. rewrite rsum_pos. apply rsum_ext. intros k Hk. apply rsum_ext. intros u Hu. apply rsum_ext. intros j Hj.
  assert (H : inside x k u j) by (apply inside_cases; auto). rewrite (proj2 (pos_decode x k u j H)), (pos_entry x row k u j L H). reflexivity.
Qed.
Lemma entry_tab x (G : nat * nat -> R) k u j : inside x k u j -> entry x (tab (num_coeffs (ls x)) (fun i => G (decode (ls x) i))) k u j = G (deg x k, j).
Proof.
  intros H. destruct (pos_decode x k u j H) as [A B]. rewrite <- pos_entry by (try exact H; rewrite tab_length; apply num_ls). rewrite nth_tab by exact A. rewrite B. reflexivity.
Qed.

(* degrees of a list of irreps are at most its largest one *)
Lemma fold_max l : forall a, (a <= fold_left Nat.max l a)%nat /\ Forall (fun z => (z <= fold_left Nat.max l a)%nat) l.
Proof.
  induction l as [|b l IH]; intros a; [split; [cbn; lia|constructor]|]. cbn [fold_left]. destruct (IH (Nat.max a b)) as [A B]. split; [lia|]. constructor; [lia|exact B].
Qed.
Lemma max_of_bound l m : max_of l = Ok m -> Forall (fun z => (z <= m)%nat) l.
Proof. destruct l as [|a l]; intros E; [discriminate|]. injection E as <-. destruct (fold_max l a). constructor; assumption. Qed.
Lemma max_of_in l m : max_of l = Ok m -> In m l.
Proof.
  destruct l as [|a l]; intros E; [discriminate|]. injection E as <-. revert a. induction l as [|b l IH]; intros a; [left; reflexivity|]. cbn [fold_left]. specialize (IH (Nat.max a b)). destruct IH as [E|I].
  - destruct (Nat.max_spec a b) as [[_ M]|[_ M]]; rewrite M in E at 1; [right; left; exact E|left; exact E].
  - right. right. exact I.
Qed.
