(* The spectral theorem for real symmetric matrices, by the intermediate value theorem: the hypothesis made on numpy.linalg.eigh (eigen_ok) can be met. *)
From Coq Require Import Reals Ranalysis5 Lra Lia Arith List.
From Verif Require Import PyBase SumR CGProofs CGProofs7 MathModel GSProofs BasisProofs.
Import ListNotations.
Open Scope R_scope.

Definition dd (i j : nat) : R := if (i =? j)%nat then 1 else 0.
Lemma dd_same i : dd i i = 1. Proof. unfold dd. rewrite Nat.eqb_refl. reflexivity. Qed.
Lemma dd_diff i j : i <> j -> dd i j = 0. Proof. intros H. unfold dd. destruct (Nat.eqb_spec i j); [contradiction|reflexivity]. Qed.
Lemma dd_sym i j : dd i j = dd j i. Proof. unfold dd. rewrite Nat.eqb_sym. reflexivity. Qed.
Lemma dd_sum n a f : (a < n)%nat -> rsum n (fun k => dd a k * f k) = f a. Proof. apply rsum_delta_r. Qed.
Lemma dd_sum_r n a f : (a < n)%nat -> rsum n (fun k => f k * dd k a) = f a.
Proof. intros H. rewrite <- (dd_sum n a f H). apply rsum_ext. intros k _. rewrite dd_sym. ring. Qed.
Definition mm (n : nat) (A B : nat -> nat -> R) (i j : nat) : R := rsum n (fun k => A i k * B k j).
Lemma mm_assoc n A B C i j : mm n (mm n A B) C i j = mm n A (mm n B C) i j.
Proof.
  unfold mm. rewrite (rsum_ext n _ (fun k => rsum n (fun l => A i l * B l k * C k j))) by (intros k _; rewrite <- rsum_scal_r; reflexivity).
  rewrite rsum_swap. apply rsum_ext. intros l _. rewrite <- rsum_scal. apply rsum_ext. intros k _. ring.
Qed.
Lemma mm_ext n A A' B B' i j : (forall k, (k < n)%nat -> A i k = A' i k) -> (forall k, (k < n)%nat -> B k j = B' k j) -> mm n A B i j = mm n A' B' i j.
Proof. intros H H'. apply rsum_ext. intros k Hk. rewrite H, H' by exact Hk. reflexivity. Qed.

(* ---------- a root of the secular equation ---------- *)
Definition secular (n : nat) (b c : nat -> R) (d x : R) : R := x - d - rsum n (fun i => c i * c i / (x - b i)).
Lemma secular_continuous n b c d x : (forall i, (i < n)%nat -> b i < x) -> continuity_pt (secular n b c d) x.
Proof.
  intros H. unfold secular. apply (continuity_pt_minus (fun x => x - d) (fun x => rsum n (fun i => c i * c i / (x - b i)))).
  - apply (continuity_pt_minus (fun x => x) (fun _ => d)); [apply derivable_continuous_pt, derivable_pt_id|apply continuity_pt_const; intros ? ?; reflexivity].
  - induction n as [|n IH]; [apply continuity_pt_const; intros ? ?; reflexivity|]. cbn [rsum].
    apply (continuity_pt_plus (fun x => rsum n (fun i => c i * c i / (x - b i))) (fun x => c n * c n / (x - b n))); [apply IH; intros; apply H; lia|].
    apply (continuity_pt_div (fun _ => c n * c n) (fun x => x - b n)); [apply continuity_pt_const; intros ? ?; reflexivity| |].
    + apply (continuity_pt_minus (fun x => x) (fun _ => b n)); [apply derivable_continuous_pt, derivable_pt_id|apply continuity_pt_const; intros ? ?; reflexivity].
    + specialize (H n ltac:(lia)). lra.
Qed.
Lemma argmax n (b : nat -> R) : { m | (m <= n)%nat /\ forall i, (i <= n)%nat -> b i <= b m }.
Proof.
  induction n as [|n [m [Hm IH]]]; [exists 0%nat; split; [lia|]; intros i Hi; replace i with 0%nat by lia; lra|].
  destruct (Rle_dec (b (S n)) (b m)) as [L|L].
  - exists m. split; [lia|]. intros i Hi. destruct (Nat.eq_dec i (S n)) as [->|N]; [exact L|apply IH; lia].
  - exists (S n). split; [lia|]. intros i Hi. destruct (Nat.eq_dec i (S n)) as [->|N]; [lra|]. specialize (IH i ltac:(lia)). lra.
Qed.
Lemma secular_root n b c d : (0 < n)%nat -> (forall i, (i < n)%nat -> c i <> 0) -> { x | (forall i, (i < n)%nat -> b i < x) /\ secular n b c d x = 0 }.
Proof.
  intros Hn Hc. destruct (argmax (n - 1) b) as [m [Hm Hb]]. assert (Hb' : forall i, (i < n)%nat -> b i <= b m) by (intros i Hi; apply Hb; lia).
  assert (Cm : 0 < c m * c m) by (apply Rsqr_pos_lt, Hc; lia). set (q := Rabs (b m - d) + 2). assert (Hq : 0 < q) by (unfold q; pose proof (Rabs_pos (b m - d)); lra).
  set (t := Rmin 1 (c m * c m / q)). assert (Ht : 0 < t <= 1) by (unfold t; split; [apply Rmin_glb_lt; [lra|apply Rdiv_lt_0_compat; assumption]|apply Rmin_l]).
  assert (Hct : q <= c m * c m / t).
  { apply (Rmult_le_reg_r t); [apply Ht|]. unfold Rdiv. rewrite Rmult_assoc, Rinv_l by (destruct Ht; lra). rewrite Rmult_1_r. pose proof (Rmin_r 1 (c m * c m / q)) as Q. fold t in Q. apply (Rmult_le_compat_l q) in Q; [|lra]. replace (q * (c m * c m / q)) with (c m * c m) in Q by (field; lra). exact Q. }
  set (s := rsum n (fun i => c i * c i)). set (r := Rmax (b m + 1) (d + s + 1)). set (l := b m + t).
  assert (Gl : secular n b c d l < 0).
  { unfold secular. assert (P : c m * c m / t <= rsum n (fun i => c i * c i / (l - b i))).
    { replace (c m * c m / t) with (c m * c m / (l - b m)) by (unfold l; f_equal; ring). apply (rsum_single n (fun i => c i * c i / (l - b i)) m); [|lia]. intros i Hi. specialize (Hb' i Hi). apply Rlt_le, Rdiv_lt_0_compat; [apply Rsqr_pos_lt, Hc, Hi|unfold l; lra]. }
    unfold l at 1. pose proof (Rle_abs (b m - d)). unfold q in Hct. lra. }
  assert (Gr : 0 < secular n b c d r).
  { unfold secular. assert (P : rsum n (fun i => c i * c i / (r - b i)) <= s).
    { apply rsum_le. intros i Hi. specialize (Hb' i Hi). pose proof (Rmax_l (b m + 1) (d + s + 1)) as Q. fold r in Q. apply (Rmult_le_reg_r (r - b i)); [lra|]. unfold Rdiv. rewrite Rmult_assoc, Rinv_l by lra. assert (0 <= c i * c i) by apply Rle_0_sqr. nra. }
    pose proof (Rmax_r (b m + 1) (d + s + 1)) as Q. fold r in Q. lra. }
  assert (Lr : l < r).
  { pose proof (Rmax_l (b m + 1) (d + s + 1)) as Q. fold r in Q. destruct (Rtotal_order l r) as [L|[E|L]]; [exact L|rewrite E in Gl; lra|unfold l in L; lra]. }
  destruct (IVT_interv (secular n b c d) l r) as (x & [X1 X2] & Ex); [|exact Lr|exact Gl|exact Gr|].
  - intros x [X1 X2]. apply secular_continuous. intros i Hi. specialize (Hb' i Hi). unfold l in X1. lra.
  - exists x. split; [|exact Ex]. intros i Hi. specialize (Hb' i Hi). unfold l in X1. lra.
Qed.
(* an eigenvector of the arrow matrix [diag b, c; c^T, d] of size n + 1 *)
Lemma find_zero n (c : nat -> R) : { i | (i < n)%nat /\ c i = 0 } + { forall i, (i < n)%nat -> c i <> 0 }.
Proof.
  induction n as [|n [[i [Hi E]]|H]]; [right; intros; lia|left; exists i; split; [lia|exact E]|]. destruct (Req_EM_T (c n) 0) as [E|N]; [left; exists n; split; [lia|exact E]|]. right. intros i Hi. destruct (Nat.eq_dec i n) as [->|Q]; [exact N|apply H; lia].
Qed.
Lemma arrow_eigenvector n b c d : { xl : (nat -> R) * R | let '(x, l) := xl in (exists i, (i <= n)%nat /\ x i <> 0) /\ (forall i, (i < n)%nat -> b i * x i + c i * x n = l * x i) /\ rsum n (fun i => c i * x i) + d * x n = l * x n }.
Proof.
  destruct (find_zero n c) as [[i [Hi E]]|H].
  - exists (dd i, b i). split; [exists i; split; [lia|rewrite dd_same; lra]|]. split.
    + intros j Hj. rewrite (dd_diff i n) by lia. destruct (Nat.eq_dec i j) as [->|N]; [ring|rewrite (dd_diff i j) by exact N; ring].
    + rewrite (dd_diff i n) by lia. rewrite (rsum_ext n _ (fun j => dd i j * c j)) by (intros; ring). rewrite dd_sum by exact Hi. rewrite E. ring.
  - destruct (Nat.eq_dec n 0) as [->|N].
    + exists (fun _ => 1, d). split; [exists 0%nat; split; [lia|lra]|]. split; [intros; lia|cbn; ring].
    + destruct (secular_root n b c d ltac:(lia) H) as (l & Hb & El). exists (fun i => if (i =? n)%nat then 1 else c i / (l - b i), l). split; [exists n; split; [lia|]; rewrite Nat.eqb_refl; lra|]. rewrite Nat.eqb_refl. split.
      * intros i Hi. specialize (Hb i Hi). destruct (Nat.eqb_spec i n); [lia|]. field. lra.
      * unfold secular in El. rewrite (rsum_ext n _ (fun i => c i * c i / (l - b i))); [lra|]. intros i Hi. specialize (Hb i Hi). destruct (Nat.eqb_spec i n); [lia|]. field. lra.
Qed.

(* ---------- orthogonal diagonalisation ---------- *)
Record diagonal (n : nat) (A V : nat -> nat -> R) (w : nat -> R) : Prop := {
  dg_cols : forall j j', (j < n)%nat -> (j' < n)%nat -> rsum n (fun i => V i j * V i j') = dd j j';
  dg_rows : forall i i', (i < n)%nat -> (i' < n)%nat -> rsum n (fun j => V i j * V i' j) = dd i i';
  dg_eigen : forall i j, (i < n)%nat -> (j < n)%nat -> mm n A V i j = w j * V i j }.
(* the reflection that exchanges e_n and the unit vector u *)
Section Reflection.
Variables (n : nat) (u : nat -> R).
Hypothesis U1 : rsum (S n) (fun i => u i * u i) = 1.
Definition away (i : nat) : R := u i - dd n i.
Definition norm2 : R := rsum (S n) (fun i => away i * away i).
Definition house (i j : nat) : R := dd i j - away i * away j * (2 / norm2).
Lemma norm2_val : norm2 = 2 - 2 * u n.
Proof.
  unfold norm2. rewrite (rsum_ext (S n) _ (fun i => u i * u i + (dd n i * (dd n i - 2 * u i)))) by (intros; unfold away; ring). rewrite rsum_plus, U1, dd_sum by lia. rewrite dd_same. ring.
Qed.
Lemma house_sym i j : house i j = house j i. Proof. unfold house. rewrite dd_sym. ring. Qed.
Lemma away_zero : norm2 = 0 -> forall i, (i <= n)%nat -> away i = 0.
Proof.
  intros E i Hi. pose proof (rsum_single (S n) (fun i => away i * away i) i (fun k _ => Rle_0_sqr (away k)) ltac:(lia)) as Q. fold norm2 in Q. rewrite E in Q. cbv beta in Q. nra.
Qed.
Lemma house_inv i j : (i <= n)%nat -> (j <= n)%nat -> mm (S n) house house i j = dd i j.
Proof.
  intros Hi Hj. unfold mm. rewrite (rsum_ext (S n) _ (fun k => dd i k * house k j + (- (away i * (2 / norm2)) * (away k * dd k j) + away i * away j * (2 / norm2) * (2 / norm2) * (away k * away k)))) by (intros k _; unfold house; ring).
  rewrite !rsum_plus, !rsum_scal. rewrite dd_sum by lia. rewrite dd_sum_r by lia. fold norm2. unfold house. destruct (Req_EM_T norm2 0) as [E|N]; [rewrite (away_zero E i Hi); ring|]. field. exact N.
Qed.
Lemma house_last i : (i <= n)%nat -> house i n = u i.
Proof.
  intros Hi. unfold house. destruct (Req_EM_T norm2 0) as [E|N].
  - pose proof (away_zero E i Hi) as Q. rewrite Q. unfold away in Q. rewrite dd_sym. lra.
  - rewrite norm2_val in *. unfold away at 2. rewrite dd_same. unfold away. rewrite (dd_sym n i). field. lra.
Qed.
End Reflection.

Section Step.
Variable n : nat.
Hypothesis IH : forall A : nat -> nat -> R, (forall i j, (i < n)%nat -> (j < n)%nat -> A i j = A j i) -> { Vw : (nat -> nat -> R) * (nat -> R) | diagonal n A (fst Vw) (snd Vw) }.
Variable A : nat -> nat -> R.
Hypothesis Sy : forall i j, (i <= n)%nat -> (j <= n)%nat -> A i j = A j i.
Lemma eigenvector : { ul : (nat -> R) * R | let '(u, l) := ul in rsum (S n) (fun i => u i * u i) = 1 /\ forall i, (i <= n)%nat -> rsum (S n) (fun k => A i k * u k) = l * u i }.
Proof.
  destruct (IH A) as [[V b] [C Rw E]]; [intros; apply Sy; lia|]. cbn [fst snd] in *. set (c := fun j => rsum n (fun i => V i j * A i n)).
  destruct (arrow_eigenvector n b c (A n n)) as [[x l] (Nz & E1 & E2)].
  set (y := fun i => if (i =? n)%nat then x n else rsum n (fun j => V i j * x j)).
  assert (Yn : y n = x n) by (unfold y; rewrite Nat.eqb_refl; reflexivity). assert (Yi : forall i, (i < n)%nat -> y i = rsum n (fun j => V i j * x j)) by (intros i Hi; unfold y; destruct (Nat.eqb_spec i n); [lia|reflexivity]).
  assert (Ey : forall i, (i <= n)%nat -> rsum (S n) (fun k => A i k * y k) = l * y i).
  { intros i Hi. cbn [rsum]. rewrite Yn. rewrite (rsum_ext n _ (fun k => rsum n (fun j => A i k * V k j * x j))) by (intros k Hk; rewrite Yi by exact Hk; rewrite <- rsum_scal; apply rsum_ext; intros; ring). rewrite rsum_swap.
    destruct (Nat.eq_dec i n) as [->|N].
    - rewrite Yn. rewrite <- E2. f_equal. apply rsum_ext. intros j Hj. rewrite rsum_scal_r. f_equal. apply rsum_ext. intros k Hk. rewrite (Sy n k) by lia. ring.
    - rewrite Yi by lia. rewrite <- rsum_scal. rewrite (rsum_ext n _ (fun j => b j * V i j * x j)) by (intros j Hj; rewrite rsum_scal_r; f_equal; apply (E i j); lia).
      assert (Ain : A i n = rsum n (fun j => V i j * c j)).
      { unfold c. rewrite (rsum_ext n (fun j => V i j * rsum n (fun i0 => V i0 j * A i0 n)) (fun j => rsum n (fun k => V i j * V k j * A k n))) by (intros j _; rewrite <- rsum_scal; apply rsum_ext; intros; ring). rewrite rsum_swap. rewrite (rsum_ext n _ (fun k => dd i k * A k n)) by (intros k Hk; rewrite rsum_scal_r; rewrite Rw by lia; reflexivity). symmetry. apply (dd_sum n i (fun k => A k n)). lia. }
      rewrite Ain, <- rsum_scal_r, <- rsum_plus. apply rsum_ext. intros j Hj. transitivity (V i j * (b j * x j + c j * x n)); [ring|rewrite (E1 j Hj); ring]. }
  assert (Np : 0 < rsum (S n) (fun i => y i * y i)).
  { destruct (Rle_lt_or_eq_dec 0 (rsum (S n) (fun i => y i * y i)) (rsum_nonneg _ _ (fun k _ => Rle_0_sqr (y k)))) as [L|Q]; [exact L|]. exfalso.
    assert (Z : forall i, (i <= n)%nat -> y i = 0).
    { intros i Hi. pose proof (rsum_single (S n) (fun i => y i * y i) i (fun k _ => Rle_0_sqr (y k)) ltac:(lia)) as P. rewrite <- Q in P. cbv beta in P. nra. }
    destruct Nz as (i & Hi & Xi). apply Xi. destruct (Nat.eq_dec i n) as [->|N]; [rewrite <- Yn; apply Z; lia|].
    (* x_i = sum_k V_ki y_k *)
    transitivity (rsum n (fun k => V k i * y k)); [|apply rsum_zero; intros k Hk; rewrite Z by lia; ring].
    rewrite (rsum_ext n (fun k => V k i * y k) (fun k => rsum n (fun j => V k i * V k j * x j))) by (intros k Hk; rewrite Yi by exact Hk; rewrite <- rsum_scal; apply rsum_ext; intros; ring). rewrite rsum_swap. rewrite (rsum_ext n _ (fun j => dd i j * x j)) by (intros j Hj; rewrite rsum_scal_r; rewrite C by lia; reflexivity). symmetry. apply (dd_sum n i x). lia. }
  set (m := sqrt (rsum (S n) (fun i => y i * y i))). assert (Mp : 0 < m) by (apply sqrt_lt_R0, Np). assert (Mm : m * m = rsum (S n) (fun i => y i * y i)) by (apply sqrt_sqrt; lra).
  exists (fun i => y i / m, l). split.
  - rewrite (rsum_ext (S n) _ (fun i => y i * y i * (/ m * / m))) by (intros; field; lra). rewrite rsum_scal_r, <- Mm. field. lra.
  - intros i Hi. rewrite (rsum_ext (S n) _ (fun k => A i k * y k * / m)) by (intros; unfold Rdiv; ring). rewrite rsum_scal_r, Ey by exact Hi. unfold Rdiv. ring.
Qed.
Lemma spectral_step : { Vw : (nat -> nat -> R) * (nat -> R) | diagonal (S n) A (fst Vw) (snd Vw) }.
Proof.
  destruct eigenvector as [[u l] [U1 Eu]]. set (H := house n u). set (B := mm (S n) H (mm (S n) A H)).
  assert (HH : forall i j, (i <= n)%nat -> (j <= n)%nat -> mm (S n) H H i j = dd i j) by (intros; apply house_inv; assumption).
  assert (SB : forall i j, (i <= n)%nat -> (j <= n)%nat -> B i j = B j i).
  { intros i j Hi Hj. unfold B, mm. rewrite (rsum_ext (S n) _ (fun k => rsum (S n) (fun m => H i k * A k m * H m j))) by (intros k _; rewrite <- rsum_scal; apply rsum_ext; intros; ring). rewrite rsum_swap. apply rsum_ext. intros k Hk. rewrite <- rsum_scal. apply rsum_ext. intros m Hm. rewrite (Sy m k) by lia. unfold H. rewrite (house_sym n u i m), (house_sym n u k j). ring. }
  assert (Bn : forall i, (i <= n)%nat -> B i n = l * dd i n).
  { intros i Hi. unfold B. transitivity (mm (S n) H (fun k j => l * H k j) i n).
    - apply mm_ext; [reflexivity|]. intros k Hk. unfold mm. rewrite (rsum_ext (S n) _ (fun m => A k m * u m)) by (intros m Hm; unfold H; rewrite (house_last n u U1 m) by lia; reflexivity). rewrite Eu by lia. unfold H. rewrite (house_last n u U1 k) by lia. reflexivity.
    - unfold mm. rewrite (rsum_ext (S n) _ (fun k => l * (H i k * H k n))) by (intros; ring). rewrite rsum_scal. f_equal. apply HH; lia. }
  destruct (IH B) as [[V w] [C Rw E]]; [intros; apply SB; lia|]. cbn [fst snd] in *.
  set (V1 := fun i j : nat => if (i =? n)%nat then dd n j else if (j =? n)%nat then 0 else V i j). set (w1 := fun j : nat => if (j =? n)%nat then l else w j).
  assert (V1n : forall j, V1 n j = dd n j) by (intros; unfold V1; rewrite Nat.eqb_refl; reflexivity).
  assert (V1j : forall i, V1 i n = dd i n) by (intros i; unfold V1, dd; rewrite !Nat.eqb_refl; destruct (i =? n)%nat; reflexivity).
  assert (V1V : forall i j, (i < n)%nat -> (j < n)%nat -> V1 i j = V i j) by (intros i j Hi Hj; unfold V1; destruct (Nat.eqb_spec i n), (Nat.eqb_spec j n); try lia; reflexivity).
  assert (D1 : diagonal (S n) B V1 w1).
  { constructor.
    - intros j j' Hj Hj'. cbn [rsum]. rewrite !V1n. destruct (Nat.eq_dec j n) as [->|N].
      + rewrite (rsum_zero n) by (intros k Hk; rewrite V1j, dd_diff by lia; ring). rewrite dd_same. ring.
      + destruct (Nat.eq_dec j' n) as [->|N'].
        * rewrite (rsum_zero n) by (intros k Hk; rewrite (V1j k), dd_diff by lia; ring). rewrite (dd_diff n j), (dd_diff j n) by lia. ring.
        * rewrite (rsum_ext n _ (fun i => V i j * V i j')) by (intros k Hk; rewrite !V1V by lia; reflexivity). rewrite C by lia. rewrite (dd_diff n j) by lia. ring.
    - intros i i' Hi Hi'. cbn [rsum]. rewrite !V1j. destruct (Nat.eq_dec i n) as [->|N].
      + rewrite (rsum_zero n) by (intros k Hk; rewrite V1n, dd_diff by lia; ring). rewrite dd_same, dd_sym. ring.
      + destruct (Nat.eq_dec i' n) as [->|N'].
        * rewrite (rsum_zero n) by (intros k Hk; rewrite (V1n k), dd_diff by lia; ring). rewrite (dd_diff i n) by lia. ring.
        * rewrite (rsum_ext n _ (fun j => V i j * V i' j)) by (intros k Hk; rewrite !V1V by lia; reflexivity). rewrite Rw by lia. rewrite (dd_diff i n) by lia. ring.
    - intros i j Hi Hj. unfold mm. cbn [rsum]. rewrite V1n. rewrite Bn by lia. destruct (Nat.eq_dec j n) as [->|N].
      + rewrite (rsum_zero n) by (intros k Hk; rewrite V1j, dd_diff by lia; ring). rewrite V1j, dd_same. unfold w1. rewrite Nat.eqb_refl. ring.
      + unfold w1. destruct (Nat.eqb_spec j n); [contradiction|]. rewrite (dd_diff n j) by lia. destruct (Nat.eq_dec i n) as [->|N'].
        * rewrite V1n, (dd_diff n j) by lia. rewrite (rsum_zero n); [ring|]. intros k Hk. rewrite (SB n k), Bn, dd_diff by lia. ring.
        * rewrite (rsum_ext n _ (fun k => B i k * V k j)) by (intros k Hk; rewrite V1V by lia; reflexivity). rewrite V1V by lia. pose proof (E i j ltac:(lia) ltac:(lia)) as Q. unfold mm in Q. rewrite Q. ring. }
  destruct D1 as [C1 R1 E1]. exists (mm (S n) H V1, w1). cbn [fst snd]. constructor.
  - intros j j' Hj Hj'. transitivity (rsum (S n) (fun k => V1 k j * V1 k j')); [|apply C1; assumption].
    unfold mm at 1. rewrite (rsum_ext (S n) _ (fun i => rsum (S n) (fun k => V1 k j * (H k i * mm (S n) H V1 i j')))) by (intros i _; rewrite <- rsum_scal_r; apply rsum_ext; intros k _; unfold H; rewrite (house_sym n u i k); ring). rewrite rsum_swap. apply rsum_ext. intros k Hk. rewrite rsum_scal. f_equal. change (mm (S n) H (mm (S n) H V1) k j' = V1 k j'). rewrite <- mm_assoc. transitivity (mm (S n) dd V1 k j'); [apply mm_ext; [intros; apply HH; lia|reflexivity]|]. apply (dd_sum (S n) k (fun k => V1 k j')). exact Hk.
  - intros i i' Hi Hi'. transitivity (mm (S n) H H i i'); [|apply HH; lia].
    unfold mm at 1. rewrite (rsum_ext (S n) _ (fun j => rsum (S n) (fun k => H i k * (V1 k j * mm (S n) H V1 i' j)))) by (intros j _; rewrite <- rsum_scal_r; apply rsum_ext; intros k _; ring). rewrite rsum_swap. unfold mm at 2. apply rsum_ext. intros k Hk. rewrite rsum_scal. f_equal.
    unfold mm. rewrite (rsum_ext (S n) _ (fun j => rsum (S n) (fun m => V1 k j * V1 m j * H i' m))) by (intros j _; rewrite <- rsum_scal; apply rsum_ext; intros; ring). rewrite rsum_swap. rewrite (rsum_ext (S n) _ (fun m => dd k m * H i' m)) by (intros m Hm; rewrite rsum_scal_r; rewrite R1 by assumption; reflexivity). rewrite (dd_sum (S n) k (fun m => H i' m)) by exact Hk. unfold H. apply house_sym.
  - intros i j Hi Hj. (* A H V1 = H (H A H) V1 = H V1 w1 *)
    rewrite <- mm_assoc. transitivity (mm (S n) (mm (S n) H B) V1 i j).
    + apply mm_ext; [|reflexivity]. intros k Hk. unfold B. rewrite <- mm_assoc. symmetry. transitivity (mm (S n) dd (mm (S n) A H) i k); [apply mm_ext; [intros; apply HH; lia|reflexivity]|]. apply (dd_sum (S n) i (fun m => mm (S n) A H m k)). exact Hi.
    + rewrite mm_assoc. transitivity (mm (S n) H (fun k j => w1 j * V1 k j) i j); [apply mm_ext; [reflexivity|intros; apply E1; assumption]|]. unfold mm. rewrite <- rsum_scal. apply rsum_ext. intros; ring.
Qed.
End Step.
Theorem spectral n : forall A : nat -> nat -> R, (forall i j, (i < n)%nat -> (j < n)%nat -> A i j = A j i) -> { Vw : (nat -> nat -> R) * (nat -> R) | diagonal n A (fst Vw) (snd Vw) }.
Proof.
  induction n as [|n IH]; intros A Sy; [exists (dd, fun _ => 0); constructor; intros; lia|]. apply spectral_step; [exact IH|]. intros i j Hi Hj. apply Sy; lia.
Qed.

(* ---------- a function that meets the specification of eigh ---------- *)
Definition upper (p : list (list R)) (i j : nat) : R := at_ p (Nat.min i j) (Nat.max i j).
Lemma upper_sym p i j : upper p i j = upper p j i. Proof. unfold upper. rewrite Nat.min_comm, Nat.max_comm. reflexivity. Qed.
Definition eigh_of (p : list (list R)) : list R * list (list R) :=
  let n := length p in
  let Vw := proj1_sig (spectral n (upper p) (fun i j _ _ => upper_sym p i j)) in
  (map (snd Vw) (seq 0 n), map (fun i => map (fst Vw i) (seq 0 n)) (seq 0 n)).
Lemma nth_tabR (f : nat -> R) n j : (j < n)%nat -> nth j (map f (seq 0 n)) 0 = f j.
Proof. intros H. rewrite (nth_indep _ 0 (f 0%nat)) by (rewrite map_length, seq_length; exact H). rewrite map_nth, seq_nth by exact H. reflexivity. Qed.
Theorem eigh_of_ok p : (forall i j, (i < length p)%nat -> (j < length p)%nat -> at_ p i j = at_ p j i) -> eigen_ok (length p) p (fst (eigh_of p)) (snd (eigh_of p)).
Proof.
  intros Sy. unfold eigh_of. destruct (spectral (length p) (upper p) (fun i j _ _ => upper_sym p i j)) as [[V w] [C Rw E]]. cbn [proj1_sig fst snd] in *. set (n := length p) in *.
  assert (At : forall i j, (i < n)%nat -> (j < n)%nat -> at_ (map (fun i => map (V i) (seq 0 n)) (seq 0 n)) i j = V i j).
  { intros i j Hi Hj. unfold at_. rewrite (nth_indep _ [] (map (V 0%nat) (seq 0 n))) by (rewrite map_length, seq_length; exact Hi). rewrite (map_nth (fun i => map (V i) (seq 0 n))), seq_nth by exact Hi. apply nth_tabR, Hj. }
  constructor.
  - rewrite map_length, seq_length. reflexivity.
  - rewrite map_length, seq_length. reflexivity.
  - apply Forall_forall. intros r Hr. apply in_map_iff in Hr as (i & <- & _). rewrite map_length, seq_length. reflexivity.
  - intros j j' Hj Hj'. rewrite (rsum_ext n _ (fun i => V i j * V i j')) by (intros i Hi; rewrite !At by assumption; reflexivity). apply C; assumption.
  - intros i j Hi Hj. rewrite nth_tabR by exact Hj. rewrite At by assumption. rewrite <- (E i j Hi Hj). unfold mm. apply rsum_ext. intros k Hk. rewrite At by assumption. f_equal. unfold upper. destruct (Nat.le_gt_cases i k) as [L|L].
    + rewrite Nat.min_l, Nat.max_r by lia. reflexivity.
    + rewrite Nat.min_r, Nat.max_l by lia. apply Sy; assumption.
Qed.
Theorem eigh_of_overlap d b1 b2 : of_width d b1 -> of_width d b2 -> eigen_ok (length b1 + length b2) (overlap b1 b2) (fst (eigh_of (overlap b1 b2))) (snd (eigh_of (overlap b1 b2))).
Proof.
  intros W1 W2. rewrite <- overlap_length. apply eigh_of_ok. rewrite overlap_length. intros i j Hi Hj. rewrite !(overlap_entry d) by assumption. apply rsum_ext. intros; ring.
Qed.
