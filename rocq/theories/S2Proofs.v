(* Index plumbing of s2grid.py: what the matrices of _expand_matrix and _rollout_sh, the two einsums and the two real Fourier transforms compute. *)
From Coq Require Import Reals Lra ZArith Lia FunctionalExtensionality.
From Coquelicot Require Import Coquelicot.
From Verif Require Import PyBase IrrepsModel ArrayModel SumR CGModel CGProofs3 TrigProofs EntryProofs S2Model.
Open Scope R_scope.

(* column i of a list of degrees: its degree, and its position in the block *)
Fixpoint decode (ls : list nat) (i : nat) : nat * nat :=
  match ls with [] => (0, 0)%nat | l :: r => if (i <? 2 * l + 1)%nat then (l, i) else decode r (i - (2 * l + 1)) end.
Lemma decode_spec ls : forall i, (i < num_coeffs ls)%nat -> In (fst (decode ls i)) ls /\ (snd (decode ls i) < 2 * fst (decode ls i) + 1)%nat.
Proof.
  induction ls as [|l r IH]; intros i H; [cbn in H; lia|]. cbn [decode]. change (num_coeffs (l :: r)) with (2 * l + 1 + num_coeffs r)%nat in H.
  destruct (Nat.ltb_spec i (2 * l + 1)) as [L|L]; [split; [left; reflexivity|exact L]|]. destruct (IH (i - (2 * l + 1))%nat) as [A B]; [lia|]. split; [right; exact A|exact B].
Qed.
Lemma rsum_decode ls (F : nat * nat -> R) : rsum (num_coeffs ls) (fun i => F (decode ls i)) = lsum ls (fun l => rsum (2 * l + 1) (fun j => F (l, j))).
Proof.
  induction ls as [|l r IH]; [reflexivity|]. change (num_coeffs (l :: r)) with (2 * l + 1 + num_coeffs r)%nat. rewrite rsum_add, lsum_cons, <- IH. f_equal.
  - apply rsum_ext. intros k Hk. cbn [decode]. replace (k <? 2 * l + 1)%nat with true by (symmetry; apply Nat.ltb_lt; exact Hk). reflexivity.
  - apply rsum_ext. intros k _. cbn [decode]. replace (2 * l + 1 + k <? 2 * l + 1)%nat with false by (symmetry; apply Nat.ltb_ge; lia). do 2 f_equal. lia.
Qed.

(* what _expand_matrix contains *)
Definition at_block (lmax l c : nat) (p : nat * nat) : bool := ((l =? fst p) && (c =? lmax - fst p + snd p))%nat.
Lemma expand_loop_spec lmax ls : forall off M l c k, (forall l c k, (off <= k)%nat -> M l c k = 0) -> Forall (fun l => (l <= lmax)%nat) ls -> (k < off + num_coeffs ls)%nat ->
  expand_loop lmax ls off M l c k = if (k <? off)%nat then M l c k else if at_block lmax l c (decode ls (k - off)) then 1 else 0.
Proof.
  induction ls as [|a ls IH]; intros off M l c k Z B H.
  - cbn in H. cbn [expand_loop]. replace (k <? off)%nat with true by (symmetry; apply Nat.ltb_lt; lia). reflexivity.
  - inversion_clear B as [|? ? Ba B']. change (num_coeffs (a :: ls)) with (2 * a + 1 + num_coeffs ls)%nat in H. cbn [expand_loop]. rewrite IH; [| |exact B'|lia].
    2:{ intros l' c' k' Hk. rewrite Z by lia. replace (k' <? off + (2 * a + 1))%nat with false by (symmetry; apply Nat.ltb_ge; lia). rewrite !andb_false_r. reflexivity. }
    destruct (Nat.ltb_spec k off) as [L|L].
    + replace (k <? off + (2 * a + 1))%nat with true by (symmetry; apply Nat.ltb_lt; lia). replace (off <=? k)%nat with false by (symmetry; apply Nat.leb_gt; lia). rewrite andb_false_r, andb_false_l. reflexivity.
    + destruct (Nat.ltb_spec k (off + (2 * a + 1))) as [L2|L2].
      * cbn [decode]. replace (k - off <? 2 * a + 1)%nat with true by (symmetry; apply Nat.ltb_lt; lia). unfold at_block. cbn [fst snd]. rewrite (Z l c k) by exact L. replace (off <=? k)%nat with true by (symmetry; apply Nat.leb_le; lia). rewrite !andb_true_r.
        destruct (Nat.eqb_spec l a) as [->|N]; cbn [andb]; [|reflexivity].
        destruct (Nat.leb_spec (lmax - a) c) as [C1|C1]; cbn [andb].
        -- destruct (Nat.ltb_spec c (lmax + a + 1)) as [C2|C2].
           ++ replace (c - (lmax - a) =? k - off)%nat with (c =? lmax - a + (k - off))%nat; [reflexivity|]. destruct (Nat.eqb_spec c (lmax - a + (k - off))), (Nat.eqb_spec (c - (lmax - a)) (k - off)); lia.
           ++ replace (c =? lmax - a + (k - off))%nat with false by (symmetry; apply Nat.eqb_neq; lia). reflexivity.
        -- replace (c =? lmax - a + (k - off))%nat with false by (symmetry; apply Nat.eqb_neq; lia). reflexivity.
      * cbn [decode]. replace (k - off <? 2 * a + 1)%nat with false by (symmetry; apply Nat.ltb_ge; lia). replace (k - (off + (2 * a + 1)))%nat with (k - off - (2 * a + 1))%nat by lia. reflexivity.
Qed.
Lemma expand_matrix_spec lmax ls l c k : Forall (fun l => (l <= lmax)%nat) ls -> (k < num_coeffs ls)%nat -> expand_matrix lmax ls l c k = if at_block lmax l c (decode ls k) then 1 else 0.
Proof. intros B H. unfold expand_matrix. rewrite expand_loop_spec by (auto; lia). cbn [Nat.ltb Nat.leb]. rewrite Nat.sub_0_r. reflexivity. Qed.

Lemma num_coeffs_app a b : num_coeffs (a ++ b) = (num_coeffs a + num_coeffs b)%nat.
Proof. induction a as [|x a IH]; [reflexivity|]. change (num_coeffs ((x :: a) ++ b)) with (2 * x + 1 + num_coeffs (a ++ b))%nat. rewrite IH. change (num_coeffs (x :: a)) with (2 * x + 1 + num_coeffs a)%nat. lia. Qed.
Lemma num_coeffs_seq n : num_coeffs (seq 0 n) = (n * n)%nat.
Proof. induction n as [|n IH]; [reflexivity|]. rewrite seq_S, num_coeffs_app, IH. cbn [num_coeffs map sum fold_right Nat.add]. lia. Qed.
(* _rollout_sh *)
Definition order_of (p : nat * nat) : Z := (Z.of_nat (snd p) - Z.of_nat (fst p))%Z.
Lemma flat_decode {A} (F : nat -> nat -> A) ls d : forall j, (j < num_coeffs ls)%nat -> nth j (flat_map (fun l => map (F l) (seq 0 (2 * l + 1))) ls) d = F (fst (decode ls j)) (snd (decode ls j)).
Proof.
  induction ls as [|l r IH]; intros j H; [cbn in H; lia|]. cbn [flat_map decode]. change (num_coeffs (l :: r)) with (2 * l + 1 + num_coeffs r)%nat in H.
  destruct (Nat.ltb_spec j (2 * l + 1)) as [L|L].
  - rewrite app_nth1 by (rewrite map_length, seq_length; exact L). rewrite (nth_indep _ d (F l 0%nat)) by (rewrite map_length, seq_length; exact L). rewrite map_nth, seq_nth by exact L. reflexivity.
  - rewrite app_nth2; rewrite map_length, seq_length; [|exact L]. apply IH. lia.
Qed.
Lemma rollout_spec f lmax j : (j < (lmax + 1) ^ 2)%nat -> rollout f lmax j = f (fst (decode (seq 0 (lmax + 1)) j)) (Z.abs_nat (order_of (decode (seq 0 (lmax + 1)) j))).
Proof.
  intros H. assert (H' : (j < num_coeffs (seq 0 (lmax + 1)))%nat) by (rewrite num_coeffs_seq; cbn [Nat.pow] in H; lia).
  unfold rollout, rollout_ls, rollout_ms. rewrite (flat_decode (fun l _ => l)) by exact H'. rewrite (flat_decode (fun l k => Z.to_nat (Z.abs (Z.of_nat k - Z.of_nat l)))) by exact H'. f_equal. unfold order_of. lia.
Qed.

(* real spherical harmonics on the grid: order m, degree l *)
Definition Ylm (l : nat) (m : Z) (y alpha : R) : R := sh_beta l (Z.abs_nat m) y * trig m alpha.

Lemma beta_matrix_spec lmax ls n y c b i : Forall (fun l => (l <= lmax)%nat) ls -> (i < num_coeffs ls)%nat ->
  beta_matrix lmax ls n y c b i = let p := decode ls i in if (c =? lmax - fst p + snd p)%nat then n (fst p) * sh_beta (fst p) (Z.abs_nat (order_of p)) (y b) else 0.
Proof.
  intros B H. cbv zeta. set (p := decode ls i). destruct (decode_spec ls i H) as [Hp1 Hp2]. fold p in Hp1, Hp2. assert (Hl : (fst p <= lmax)%nat) by (rewrite Forall_forall in B; apply B, Hp1).
  unfold beta_matrix.
  rewrite (rsum_ext (lmax + 1) _ (fun l => if (l =? fst p)%nat then (if (c =? lmax - fst p + snd p)%nat then n l * rsum ((lmax + 1) ^ 2) (fun j => expand_matrix lmax (seq 0 (lmax + 1)) l c j * rollout (fun l m => sh_beta l m (y b)) lmax j) else 0) else 0)).
  2:{ intros l _. destruct (Nat.eqb_spec l (fst p)) as [E|N].
      - destruct (Nat.eqb_spec c (lmax - fst p + snd p)) as [E2|N2].
        + rewrite <- rsum_scal. apply rsum_ext. intros j _. rewrite (expand_matrix_spec lmax ls) by assumption. fold p. unfold at_block. rewrite <- E, Nat.eqb_refl. rewrite E in *. rewrite <- E2, Nat.eqb_refl. cbn [andb]. ring.
        + apply rsum_zero. intros j _. rewrite (expand_matrix_spec lmax ls) by assumption. fold p. unfold at_block. replace (c =? lmax - fst p + snd p)%nat with false by (symmetry; apply Nat.eqb_neq; exact N2). rewrite andb_false_r. ring.
      - apply rsum_zero. intros j _. rewrite (expand_matrix_spec lmax ls) by assumption. fold p. unfold at_block. replace (l =? fst p)%nat with false by (symmetry; apply Nat.eqb_neq; exact N). cbn [andb]. ring. }
  rewrite (rsum_delta (lmax + 1) (fst p) (fun l => if (c =? lmax - fst p + snd p)%nat then n l * rsum ((lmax + 1) ^ 2) (fun j => expand_matrix lmax (seq 0 (lmax + 1)) l c j * rollout (fun l m => sh_beta l m (y b)) lmax j) else 0)) by lia.
  destruct (Nat.eqb_spec c (lmax - fst p + snd p)) as [E|N]; [|reflexivity]. f_equal.
  rewrite (rsum_ext ((lmax + 1) ^ 2) _ (fun j => (fun q => if at_block lmax (fst p) c q then sh_beta (fst q) (Z.abs_nat (order_of q)) (y b) else 0) (decode (seq 0 (lmax + 1)) j))).
  2:{ intros j Hj. rewrite rollout_spec by exact Hj. rewrite expand_matrix_spec; [|apply Forall_forall; intros z Hz; apply in_seq in Hz; lia|rewrite num_coeffs_seq; cbn [Nat.pow] in Hj; lia]. destruct (at_block _ _ _ _); ring. }
  replace ((lmax + 1) ^ 2)%nat with (num_coeffs (seq 0 (lmax + 1))) by (rewrite num_coeffs_seq; cbn [Nat.pow]; lia).
  etransitivity; [apply (rsum_decode (seq 0 (lmax + 1)) (fun q => if at_block lmax (fst p) c q then sh_beta (fst q) (Z.abs_nat (order_of q)) (y b) else 0))|]. rewrite lsum_seq. unfold at_block. cbn [fst snd].
  rewrite (rsum_ext (lmax + 1) _ (fun l => if (l =? fst p)%nat then sh_beta (fst p) (Z.abs_nat (order_of p)) (y b) else 0)).
  - apply (rsum_delta (lmax + 1) (fst p) (fun _ => sh_beta (fst p) (Z.abs_nat (order_of p)) (y b))). lia.
  - intros l _. destruct (Nat.eqb_spec l (fst p)) as [->|N].
    + rewrite Nat.eqb_refl. cbn [andb]. rewrite (rsum_ext (2 * fst p + 1) _ (fun j => if (j =? snd p)%nat then sh_beta (fst p) (Z.abs_nat (order_of p)) (y b) else 0)).
      * apply (rsum_delta _ (snd p) (fun _ => sh_beta (fst p) (Z.abs_nat (order_of p)) (y b))). exact Hp2.
      * intros j Hj. destruct (Nat.eqb_spec c (lmax - fst p + j)), (Nat.eqb_spec j (snd p)); try lia; [|reflexivity]. subst j. reflexivity.
    + apply rsum_zero. intros j _. replace (fst p =? l)%nat with false by (symmetry; apply Nat.eqb_neq; congruence). reflexivity.
Qed.

(* ---- _sh_alpha ---- *)
Lemma sh_alpha_length l a : length (sh_alpha l a) = (2 * l + 1)%nat.
Proof. unfold sh_alpha. rewrite !app_length, !map_length, rev_length, seq_length. cbn [length]. lia. Qed.
Lemma nth_map_gen {A B} (f : A -> B) l k d d' : (k < length l)%nat -> nth k (map f l) d = f (nth k l d').
Proof. intros H. rewrite (nth_indep _ d (f d')) by (rewrite map_length; exact H). apply map_nth. Qed.
Lemma nth_rev_seq l j d : (j < l)%nat -> nth j (rev (seq 1 l)) d = (l - j)%nat.
Proof. intros H. rewrite rev_nth by (rewrite seq_length; exact H). rewrite seq_length, seq_nth by lia. lia. Qed.
Lemma trig_neg k a : (0 < k)%nat -> trig (- Z.of_nat k) a = sqrt 2 * sin (INR k * a).
Proof. intros H. destruct k as [|k]; [lia|]. cbn [Z.of_nat Z.opp trig]. rewrite INR_IZR_INZ. reflexivity. Qed.
Lemma trig_pos k a : (0 < k)%nat -> trig (Z.of_nat k) a = sqrt 2 * cos (INR k * a).
Proof. intros H. destruct k as [|k]; [lia|]. cbn [Z.of_nat trig]. rewrite INR_IZR_INZ. reflexivity. Qed.
Lemma three_parts {A} (f g : nat -> A) (e : A) l j d : (j < 2 * l + 1)%nat ->
  nth j (map f (rev (seq 1 l)) ++ [e] ++ map g (seq 1 l)) d = if (j <? l)%nat then f (l - j)%nat else if (j =? l)%nat then e else g (j - l)%nat.
Proof.
  intros H. destruct (Nat.ltb_spec j l) as [L|L].
  - rewrite app_nth1 by (rewrite map_length, rev_length, seq_length; exact L). rewrite (nth_map_gen f _ j d 0%nat) by (rewrite rev_length, seq_length; exact L). rewrite nth_rev_seq by exact L. reflexivity.
  - rewrite app_nth2; rewrite map_length, rev_length, seq_length; [|exact L]. destruct (Nat.eqb_spec j l) as [->|N]; [rewrite Nat.sub_diag; reflexivity|].
    rewrite app_nth2 by (cbn [length]; lia). cbn [length]. rewrite (nth_map_gen g _ _ d 0%nat) by (rewrite seq_length; lia). rewrite seq_nth by lia. f_equal. lia.
Qed.
Lemma trig_cases l j a : (j < 2 * l + 1)%nat -> trig (Z.of_nat j - Z.of_nat l) a = if (j <? l)%nat then sqrt 2 * sin (INR (l - j) * a) else if (j =? l)%nat then 1 else sqrt 2 * cos (INR (j - l) * a).
Proof.
  intros H. destruct (Nat.ltb_spec j l) as [L|L].
  - rewrite <- trig_neg by lia. f_equal. lia.
  - destruct (Nat.eqb_spec j l) as [->|N]; [rewrite Z.sub_diag; reflexivity|]. rewrite <- trig_pos by lia. f_equal. lia.
Qed.
Lemma sh_alpha_nth l a j : (j < 2 * l + 1)%nat -> nth j (sh_alpha l a) 0 = trig (Z.of_nat j - Z.of_nat l) a.
Proof. intros H. unfold sh_alpha. rewrite three_parts, trig_cases by exact H. reflexivity. Qed.
Lemma alpha_points n i : alpha_grid n i = points n i.
Proof. unfold alpha_grid, points. unfold Rdiv. ring. Qed.

(* ---- the two Fourier transforms ---- *)
Lemma Re_csum n f : Re (csum n f) = rsum n (fun k => Re (f k)).
Proof. induction n as [|n IH]; [reflexivity|]. cbn [csum rsum]. rewrite <- IH. reflexivity. Qed.
Lemma Im_csum n f : Im (csum n f) = rsum n (fun k => Im (f k)).
Proof. induction n as [|n IH]; [reflexivity|]. cbn [csum rsum]. rewrite <- IH. reflexivity. Qed.
Lemma rfft_length x : length (rfft x) = (length x / 2 + 1)%nat.
Proof. unfold rfft. rewrite map_length, seq_length. reflexivity. Qed.
Lemma rfft_nth x k : (k < length x / 2 + 1)%nat -> let z := nth k (rfft x) (RtoC 0) in
  Re z = rsum (length x) (fun j => nth j x 0 * cos (INR k * points (length x) j)) /\ Im z = - rsum (length x) (fun j => nth j x 0 * sin (INR k * points (length x) j)).
Proof.
  intros H. cbv zeta. unfold rfft. rewrite (nth_map_gen _ _ k _ 0%nat) by (rewrite seq_length; exact H). rewrite seq_nth by exact H. cbn [Nat.add].
  assert (A : forall j, 2 * PI * INR k * INR j / INR (length x) = INR k * points (length x) j) by (intros j; unfold points, Rdiv; ring).
  rewrite Re_csum, Im_csum. split.
  - apply rsum_ext. intros j _. unfold cis. rewrite A, cos_neg. cbn [Re Im fst snd Cmult RtoC]. ring.
  - rewrite <- rsum_opp. apply rsum_ext. intros j _. unfold cis. rewrite A, sin_neg. cbn [Re Im fst snd Cmult RtoC]. ring.
Qed.
Lemma nth_skipn {A} k (l : list A) j d : nth j (skipn k l) d = nth (k + j) l d.
Proof. revert l. induction k as [|k IH]; intros [|a l]; try reflexivity; [cbn; destruct j; reflexivity|]. cbn [skipn]. rewrite IH. reflexivity. Qed.
Lemma list_slice_map {A} (l : list A) d k n : (k + n <= length l)%nat -> list_slice l k (k + n) = map (fun j => nth j l d) (seq k n).
Proof.
  intros H. unfold list_slice. replace (k + n - k)%nat with n by lia. apply (nth_ext _ _ d d); [rewrite firstn_length, skipn_length, map_length, seq_length; lia|].
  intros j Hj. rewrite firstn_length, skipn_length in Hj. rewrite (nth_map_gen _ _ j _ 0%nat) by (rewrite seq_length; lia). rewrite seq_nth by lia.
  transitivity (nth j (skipn k l) d); [|rewrite nth_skipn; reflexivity]. rewrite <- (firstn_skipn n (skipn k l)) at 2. rewrite app_nth1 by (rewrite firstn_length, skipn_length; lia). reflexivity.
Qed.
(* _rfft computes the inner products with the trigonometric functions *)
Lemma rfft_row_spec l x : (l <= length x / 2)%nat -> rfft_row l x = Ok (tab (2 * l + 1) (fun c => rsum (length x) (fun j => nth j x 0 * trig (Z.of_nat c - Z.of_nat l) (points (length x) j)))).
Proof.
  intros H. unfold rfft_row. replace (l + 1)%nat with (1 + l)%nat by lia. rewrite (list_slice_map _ (RtoC 0)) by (rewrite rfft_length; lia).
  replace (firstn 1 (rfft x)) with [nth 0 (rfft x) (RtoC 0)] by (pose proof (rfft_length x) as L; destruct (rfft x); [cbn in L; lia|reflexivity]).
  rewrite <- map_rev, !map_map. cbn [map]. set (r := _ ++ _). assert (L : length r = (2 * l + 1)%nat) by (unfold r; rewrite !app_length, !map_length, rev_length, seq_length; cbn [length]; lia).
  rewrite L, Nat.eqb_refl. f_equal. apply (nth_ext _ _ 0 0); [rewrite L, tab_length; reflexivity|]. intros j Hj. rewrite L in Hj. rewrite nth_tab by exact Hj. unfold r. rewrite three_parts by exact Hj.
  rewrite (rsum_ext _ _ (fun k => nth k x 0 * (if (j <? l)%nat then sqrt 2 * sin (INR (l - j) * points (length x) k) else if (j =? l)%nat then 1 else sqrt 2 * cos (INR (j - l) * points (length x) k)))) by (intros k _; rewrite <- trig_cases by exact Hj; reflexivity).
  destruct (Nat.ltb_spec j l) as [J|J].
  - rewrite (proj2 (rfft_nth x (l - j) ltac:(lia))). rewrite Rmult_opp_opp, <- rsum_scal_r. apply rsum_ext. intros; ring.
  - destruct (Nat.eqb_spec j l) as [->|N].
    + rewrite (proj1 (rfft_nth x 0 ltac:(lia))). apply rsum_ext. intros k _. cbn [INR]. rewrite Rmult_0_l, cos_0. reflexivity.
    + rewrite (proj1 (rfft_nth x (j - l) ltac:(lia))). rewrite <- rsum_scal_r. apply rsum_ext. intros; ring.
Qed.
(* _irfft sums the trigonometric functions *)
Lemma rsum_three l f : rsum (2 * l + 1) f = f l + rsum l (fun k => f (l - S k)%nat + f (l + S k)%nat).
Proof.
  replace (2 * l + 1)%nat with (l + S l)%nat by lia. rewrite rsum_add, rsum_S_l, Nat.add_0_r, rsum_plus, (rsum_rev l f). rewrite (rsum_ext l (fun k => f (l - 1 - k)%nat) (fun k => f (l - S k)%nat)) by (intros k Hk; f_equal; lia). ring.
Qed.
Lemma irfft_row_spec l res x : length x = (2 * l + 1)%nat -> (res mod 2 = 1)%nat -> (2 * l + 1 <= res)%nat ->
  exists v, irfft_row res x = Ok v /\ length v = res /\ forall a, (a < res)%nat -> nth a v 0 * INR res = rsum (2 * l + 1) (fun c => nth c x 0 * trig (Z.of_nat c - Z.of_nat l) (points res a)).
Proof.
  intros L O H. unfold irfft_row. rewrite O. cbn [Nat.eqb negb]. replace ((length x - 1) / 2)%nat with l by (rewrite L; replace (2 * l + 1 - 1)%nat with (l * 2)%nat by lia; rewrite Nat.div_mul; lia).
  eexists. split; [reflexivity|]. set (X := _ ++ _ ++ _).
  assert (X0 : nth 0 X (RtoC 0) = RtoC (nth l x 0)).
  { unfold X. rewrite (list_slice_map x 0 l 1) by lia. reflexivity. }
  assert (XS : forall k, (k < l)%nat -> nth (S k) X (RtoC 0) = Cdiv (Cplus (RtoC (nth (l + S k) x 0)) (Cmult (RtoC (nth (l - S k) x 0)) (Cmult (RtoC (-1)) Ci))) (RtoC (sqrt 2))).
  { intros k Hk. unfold X. rewrite (list_slice_map x 0 l 1) by lia. cbn [seq map app nth]. rewrite app_nth1 by (rewrite map_length, combine_length, skipn_length, rev_length, firstn_length; lia).
    rewrite (nth_map_gen _ _ k _ (0, 0)) by (rewrite combine_length, skipn_length, rev_length, firstn_length; lia). rewrite combine_nth by (rewrite skipn_length, rev_length, firstn_length; lia).
    rewrite nth_skipn. rewrite rev_nth by (rewrite firstn_length; lia). rewrite firstn_length, Nat.min_l by lia. replace (l + 1 + k)%nat with (l + S k)%nat by lia.
    replace (nth (l - S k) (firstn l x) 0) with (nth (l - S k) x 0); [reflexivity|]. rewrite <- (firstn_skipn l x) at 1. rewrite app_nth1 by (rewrite firstn_length; lia). reflexivity. }
  assert (XZ : forall k, (l < k)%nat -> nth k X (RtoC 0) = RtoC 0).
  { intros k Hk. unfold X. rewrite (list_slice_map x 0 l 1) by lia. rewrite app_assoc, app_nth2; [apply nth_repeat|]. rewrite app_length, !map_length, combine_length, skipn_length, rev_length, firstn_length, seq_length. lia. }
  split; [unfold irfft; rewrite map_length, seq_length; reflexivity|].
  intros a Ha. unfold irfft. rewrite (nth_map_gen _ _ a _ 0%nat) by (rewrite seq_length; exact Ha). rewrite seq_nth by exact Ha. cbn [Nat.add].
  replace (res mod 2 =? 0)%nat with false by (rewrite O; reflexivity). assert (N : INR res <> 0) by (apply not_0_INR; lia). rewrite Rplus_0_r, X0.
  rewrite rsum_three. replace (Z.of_nat l - Z.of_nat l)%Z with 0%Z by lia. cbn [trig]. rewrite Rmult_1_r.
  replace (/ INR res * (Re (RtoC (nth l x 0)) + rsum ((res - 1) / 2) (fun k => 2 * Re (Cmult (nth (S k) X (RtoC 0)) (cis (2 * PI * INR (S k) * INR a / INR res))))) * INR res)
    with (nth l x 0 + rsum ((res - 1) / 2) (fun k => 2 * Re (Cmult (nth (S k) X (RtoC 0)) (cis (2 * PI * INR (S k) * INR a / INR res))))) by (rewrite Re_RtoC; field; exact N).
  f_equal. assert (D : (l <= (res - 1) / 2)%nat) by (apply Nat.div_le_lower_bound; lia).
  replace ((res - 1) / 2)%nat with (l + ((res - 1) / 2 - l))%nat by lia. rewrite rsum_add, (rsum_zero ((res - 1) / 2 - l)), Rplus_0_r.
  2:{ intros k _. rewrite XZ by lia. rewrite Cmult_0_l. cbn [Re RtoC fst]. ring. }
  apply rsum_ext. intros k Hk. rewrite XS by exact Hk. replace (2 * PI * INR (S k) * INR a / INR res) with (INR (S k) * points res a) by (unfold points, Rdiv; ring).
  replace (Z.of_nat (l - S k) - Z.of_nat l)%Z with (- Z.of_nat (S k))%Z by lia. replace (Z.of_nat (l + S k) - Z.of_nat l)%Z with (Z.of_nat (S k)) by lia. rewrite trig_neg, trig_pos by lia.
  assert (Q : sqrt 2 * sqrt 2 = 2) by (apply sqrt_sqrt; lra). assert (Q0 : sqrt 2 <> 0) by (intros E; rewrite E in Q; lra).
  set (A := nth (l + S k) x 0). set (B := nth (l - S k) x 0). set (c := cos _). set (s := sin _).
  replace (Re (Cmult (Cdiv (Cplus (RtoC A) (Cmult (RtoC B) (Cmult (RtoC (-1)) Ci))) (RtoC (sqrt 2))) (cis (INR (S k) * points res a)))) with ((A * c + B * s) / sqrt 2).
  2:{ unfold cis. fold c s. unfold Cdiv, Cinv. cbn [Re Im fst snd Cmult Cplus RtoC Ci]. field. exact Q0. }
  transitivity ((sqrt 2 * sqrt 2) * ((A * c + B * s) / sqrt 2)); [rewrite Q; reflexivity|]. field. exact Q0.
Qed.
