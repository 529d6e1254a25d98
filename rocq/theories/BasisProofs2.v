(* basis_intersection of two orthonormal bases with commuting projectors: the eigenvalues are 0, 1 and 2, and gram_schmidt drops nothing *)
From Coq Require Import Reals Lra Lia List.
From Verif Require Import PyBase PermModel IrrepsModel ArrayModel LeadModel SumR MathModel ArrayProofs LeadProofs ActProofs EntryProofs CGProofs7 CGComplete GSProofs BasisProofs MathProps MathProps2.
Import ListNotations.
Open Scope nat_scope.

Lemma rsum_cauchy n f g : (rsum n (fun k => f k * g k) * rsum n (fun k => f k * g k) <= rsum n (fun k => f k * f k) * rsum n (fun k => g k * g k))%R.
Proof.
  induction n as [|n IH]; [cbn [rsum]; lra|]. cbn [rsum]. set (s := rsum n (fun k => f k * g k)%R) in *. set (a := rsum n (fun k => f k * f k)%R) in *. set (b := rsum n (fun k => g k * g k)%R) in *.
  assert (Ha : (0 <= a)%R) by (apply rsum_nonneg; intros; nra). assert (Hb : (0 <= b)%R) by (apply rsum_nonneg; intros; nra).
  assert (Q : (2 * s * (f n * g n) <= a * (g n * g n) + b * (f n * f n))%R).
  { destruct (Req_dec a 0) as [E|E].
    - assert (Z : (s * s <= 0)%R) by (rewrite E, Rmult_0_l in IH; exact IH). assert (Z' : s = 0%R) by (clear - Z; nra). rewrite Z', E. assert (0 <= b * (f n * f n))%R by (apply Rmult_le_pos; [exact Hb|apply Rle_0_sqr]). lra.
    - assert (P : (0 <= (a * g n - s * f n) * (a * g n - s * f n))%R) by apply Rle_0_sqr. assert (Pa : (0 < a)%R) by lra.
      apply (Rmult_le_reg_l a _ _ Pa). assert (T : (s * s * (f n * f n) <= a * b * (f n * f n))%R) by (apply Rmult_le_compat_r; [apply Rle_0_sqr|exact IH]). lra. }
  lra.
Qed.
(* the rows of G with G G = G / 2 *)
Section Half.
Variables (n : nat) (eps : R) (G : list (list R)).
Hypothesis LG : length G = n.
Hypothesis WG : of_width n G.
Hypothesis Sym : forall i k, i < n -> k < n -> at_ G i k = at_ G k i.
Hypothesis Half : forall i k, i < n -> k < n -> rsum n (fun j => at_ G i j * at_ G j k)%R = (at_ G i k / 2)%R.
Hypothesis He : (0 <= eps)%R.
Hypothesis Small : (4 * INR n * (eps * eps) < 1)%R.
Lemma half_lossless : lossless n eps G.
Proof.
  destruct (gs_loop_ok n eps G He WG []) as (Q & A' & EQ & H); [constructor|intros i j Hi; cbn in Hi; lia|]. cbn [app] in EQ. destruct H as [H1 H2 _ H4 H5 H6 H7 H8]. cbn [app] in *.
  assert (E0 : fst (gram_schmidt (fun v => v) eps G) = Q) by (unfold gram_schmidt; change (fun v : list R => v) with same; rewrite EQ; reflexivity). unfold lossless. rewrite E0. clear E0.
  set (r := fun i k => nth k (residual Q (nth i G [])) 0%R).
  assert (Lr : forall i, i < n -> length (nth i G []) = n) by (intros i Hi; apply width_row; [exact WG|lia]).
  assert (Er : forall i k, i < n -> k < n -> r i k = (at_ G i k - rsum (length Q) (fun q => inner n (nth q Q []) (nth i G []) * at_ Q q k))%R) by (intros i k Hi Hk; unfold r; rewrite (residual_nth n Q _ k H1 H2 (Lr i Hi) Hk); reflexivity).
  (* orthogonal to what is spanned *)
  assert (Or : forall i v, i < n -> spanned n Q v -> rsum n (fun k => v k * r i k)%R = 0%R).
  { intros i v Hi (c & Hc). rewrite (rsum_ext _ _ (fun k => rsum (length Q) (fun q => c q * (at_ Q q k * r i k)))%R) by (intros k Hk; rewrite Hc by exact Hk; rewrite <- rsum_scal_r; apply rsum_ext; intros; ring). rewrite rsum_swap. apply rsum_zero. intros q Hq. rewrite rsum_scal.
    pose proof (residual_orth n Q (nth i G []) q H1 H2 (Lr i Hi) Hq) as O. unfold inner in O. fold (r i) in O. change (rsum n (fun k => at_ Q q k * r i k)%R = 0%R) in O. rewrite O. ring. }
  assert (Sp : forall i, i < n -> spanned n Q (fun k => at_ G i k - r i k)%R).
  { intros i Hi. exists (fun q => inner n (nth q Q []) (nth i G [])). intros k Hk. rewrite Er by assumption. ring. }
  (* short *)
  assert (Sh : forall i, i < n -> (rsum n (fun k => r i k * r i k) <= eps * eps)%R).
  { intros i Hi. set (a := at_ A' i). assert (S1 : spanned n Q (fun k => at_ G i k - a k)%R) by (apply H7; lia).
    assert (S2 : spanned n Q (fun k => a k - r i k)%R). { apply (spanned_ext n Q (fun k => 1 * (at_ G i k - r i k) + (-1) * (at_ G i k - a k))%R); [intros; ring|]. apply spanned_comb; auto. }
    assert (P : rsum n (fun k => r i k * r i k)%R = rsum n (fun k => a k * r i k)%R).
    { pose proof (Or i _ Hi S2) as O. cbv beta in O. rewrite (rsum_ext n _ (fun k => a k * r i k + - (r i k * r i k))%R) in O by (intros; ring). rewrite rsum_plus, rsum_opp in O. lra. }
    destruct (H8 i ltac:(lia)) as [S3|N].
    - rewrite P. fold a in S3. rewrite (Or i a Hi S3). nra.
    - pose proof (rsum_cauchy n a (r i)) as C. rewrite <- P in C. assert (La : length (nth i A' []) = n) by (apply width_row; [exact H5|lia]). pose proof (norm2_sq n (nth i A' []) La) as Na. unfold inner in Na. fold a in Na. change (rsum n (fun k => nth k (nth i A' []) 0 * nth k (nth i A' []) 0)%R) with (rsum n (fun k => a k * a k)%R) in Na.
      set (p := rsum n (fun k => r i k * r i k)%R) in *. assert (Hp : (0 <= p)%R) by (apply rsum_nonneg; intros; nra). assert (Nn : (0 <= norm2 (nth i A' []))%R) by apply sqrt_pos. rewrite <- Na in C.
      destruct (Req_dec p 0) as [Z|Z]; [rewrite Z; nra|]. assert ((p <= norm2 (nth i A' []) * norm2 (nth i A' []))%R) by (apply (Rmult_le_reg_r p); [lra|exact C]). nra. }
  (* eigenvectors *)
  assert (Ei : forall i k, i < n -> k < n -> rsum n (fun j => at_ G k j * r i j)%R = (r i k / 2)%R).
  { assert (V : forall v, spanned n G v -> forall k, k < n -> rsum n (fun j => at_ G k j * v j)%R = (v k / 2)%R).
    { intros v (c & Hc) k Hk. rewrite LG in Hc. rewrite (rsum_ext n _ (fun j => rsum n (fun i => c i * (at_ G k j * at_ G i j)))%R) by (intros j Hj; rewrite Hc by exact Hj; rewrite <- rsum_scal; apply rsum_ext; intros; ring). rewrite rsum_swap, Hc by exact Hk. unfold Rdiv. rewrite <- rsum_scal_r. apply rsum_ext. intros i Hi. rewrite rsum_scal.
      rewrite (rsum_ext n _ (fun j => at_ G k j * at_ G j i)%R) by (intros j Hj; rewrite (Sym i j) by assumption; reflexivity). rewrite Half by assumption. rewrite (Sym k i) by assumption. unfold Rdiv. ring. }
    intros i k Hi Hk. apply V; [|exact Hk]. destruct (Sp i Hi) as (c & Hc). apply (spanned_ext n G (fun k => 1 * at_ G i k + (-1) * rsum (length Q) (fun q => c q * at_ Q q k))%R); [intros j Hj; rewrite <- Hc by exact Hj; ring|]. apply spanned_comb; [apply spanned_row; lia|]. apply spanned_sum. exact H6. }
  assert (Fi : forall i k, i < n -> k < n -> rsum n (fun j => r k j * r i j)%R = (r i k / 2)%R).
  { intros i k Hi Hk. rewrite <- (Ei i k Hi Hk). pose proof (Or i _ Hi (Sp k Hk)) as O. cbv beta in O. rewrite (rsum_ext n _ (fun j => at_ G k j * r i j + - (r k j * r i j))%R) in O by (intros; ring). rewrite rsum_plus, rsum_opp in O. lra. }
  intros i Hi. rewrite LG in Hi. assert (Z : rsum n (fun k => r i k * r i k)%R = 0%R).
  { set (p := rsum n (fun k => r i k * r i k)%R). assert (Hp : (0 <= p)%R) by (apply rsum_nonneg; intros; nra).
    assert (B : (p <= 4 * INR n * (eps * eps) * p)%R).
    { unfold p at 1. apply Rle_trans with (rsum n (fun _ => 4 * (eps * eps) * p)%R); [|rewrite rsum_const; lra]. apply rsum_le. intros k Hk. pose proof (Fi i k Hi Hk) as F. pose proof (rsum_cauchy n (r k) (r i)) as C. fold p in C. rewrite F in C. pose proof (Sh k Hk) as S. assert ((rsum n (fun j => r k j * r k j) * p <= eps * eps * p)%R) by (apply Rmult_le_compat_r; assumption). unfold Rdiv in C. nra. }
    destruct (Req_dec p 0) as [E|E]; [exact E|]. exfalso. assert ((4 * INR n * (eps * eps) * p < 1 * p)%R) by (apply Rmult_lt_compat_r; lra). lra. }
  destruct (Sp i Hi) as (c & Hc). exists c. intros k Hk. rewrite <- Hc by exact Hk.
  assert (Zk : (0 = r i k)%R). { pose proof (rsum_single n (fun k => r i k * r i k)%R k ltac:(intros; nra) Hk) as B. cbv beta in B. rewrite Z in B. nra. } lra.
Qed.
End Half.

Lemma split_stacked (b1 b2 : list (list R)) k (f : nat -> R) : rsum (length b1 + length b2) (fun i => stacked b1 b2 i k * f i)%R = (rsum (length b1) (fun i => at_ b1 i k * f i) - rsum (length b2) (fun i => at_ b2 i k * f (length b1 + i)%nat))%R.
Proof.
  rewrite rsum_add. unfold Rminus. rewrite <- rsum_opp. f_equal; apply rsum_ext; intros i Hi; unfold stacked.
  - destruct (Nat.ltb_spec i (length b1)); [reflexivity|lia].
  - destruct (Nat.ltb_spec (length b1 + i) (length b1)); [lia|]. replace (length b1 + i - length b1) with i by lia. ring.
Qed.
Section Commuting.
Variables (d : nat) (b1 b2 : list (list R)).
Let n1 := length b1.
Let n2 := length b2.
Hypothesis W1 : of_width d b1.
Hypothesis W2 : of_width d b2.
Hypothesis O1 : orthonormal d b1.
Hypothesis O2 : orthonormal d b2.
(* projecting a row of b1 on the span of b2 stays in the span of b1 *)
Hypothesis Stay : forall i, i < n1 -> spanned d b1 (fun k => rsum n2 (fun j => inner d (nth j b2 []) (nth i b1 []) * at_ b2 j k))%R.
Let M i j := inner d (nth i b1 []) (nth j b2 []).
Lemma combine_dot b c e : orthonormal d b -> rsum d (fun k => rsum (length b) (fun i => c i * at_ b i k) * rsum (length b) (fun i => e i * at_ b i k))%R = rsum (length b) (fun i => c i * e i)%R.
Proof.
  intros O. set (n := length b) in *. rewrite (rsum_ext d _ (fun k => rsum n (fun i => rsum n (fun j => c i * e j * (at_ b i k * at_ b j k))))%R) by (intros k _; rewrite rsum_prod; apply rsum_ext; intros i _; apply rsum_ext; intros j _; ring).
  rewrite rsum_swap. apply rsum_ext. intros i Hi. rewrite rsum_swap. rewrite (rsum_ext n _ (fun j => (if i =? j then 1 else 0) * (c i * e j))%R).
  - apply (rsum_delta_r n i (fun j => c i * e j)%R Hi).
  - intros j Hj. rewrite rsum_scal. pose proof (O i j Hi Hj) as Q. unfold inner in Q. change (rsum d (fun k => at_ b i k * at_ b j k)%R = (if i =? j then 1 else 0)%R) in Q. rewrite Q. ring.
Qed.
(* E = M M^T is a projector *)
Lemma project_twice (a : nat -> R) i : i < n1 -> let E := fun i i' => rsum n2 (fun j => M i j * M i' j)%R in rsum n1 (fun i' => E i i' * rsum n1 (fun l => E i' l * a l))%R = rsum n1 (fun i' => E i i' * a i')%R.
Proof.
  intros Hi E.
  (* the projection of row i on b2, written in b1 *)
  assert (R : forall i, i < n1 -> forall k, k < d -> rsum n2 (fun j => M i j * at_ b2 j k)%R = rsum n1 (fun l => E i l * at_ b1 l k)%R).
  { intros p Hp. destruct (Stay p Hp) as (c & Hc). fold n1 in Hc. assert (Ec : forall l, l < n1 -> c l = E p l).
    { intros l Hl. transitivity (rsum d (fun k => at_ b1 l k * rsum n1 (fun q => c q * at_ b1 q k))%R).
      - rewrite (rsum_ext d _ (fun k => rsum n1 (fun q => (if l =? q then 1 else 0) * at_ b1 q k) * rsum n1 (fun q => c q * at_ b1 q k))%R) by (intros k _; rewrite (rsum_delta_r n1 l (fun q => at_ b1 q k) Hl); reflexivity).
        unfold n1 at 1 2. rewrite (combine_dot b1 (fun q => if l =? q then 1 else 0)%R c O1). symmetry. apply (rsum_delta_r n1 l c Hl).
      - rewrite (rsum_ext d _ (fun k => rsum n2 (fun j => M p j * (at_ b1 l k * at_ b2 j k)))%R).
        + rewrite rsum_swap. apply rsum_ext. intros j _. rewrite rsum_scal. reflexivity.
        + intros k Hk. rewrite <- (Hc k Hk), <- rsum_scal. apply rsum_ext. intros j _. unfold M. rewrite (inner_comm d (nth j b2 [])). ring. }
    intros k Hk. transitivity (rsum n1 (fun l => c l * at_ b1 l k)%R); [|apply rsum_ext; intros l Hl; rewrite Ec by exact Hl; reflexivity]. rewrite <- (Hc k Hk). apply rsum_ext. intros j _. unfold M. rewrite (inner_comm d (nth j b2 [])). reflexivity. }
  assert (EE : forall l, l < n1 -> rsum n1 (fun i' => E i i' * E i' l)%R = E i l).
  { intros l Hl. transitivity (rsum d (fun k => rsum n1 (fun p => E i p * at_ b1 p k) * rsum n1 (fun p => E l p * at_ b1 p k))%R).
    - unfold n1 at 2 3. rewrite (combine_dot b1 (E i) (E l) O1). apply rsum_ext. intros p _. f_equal. unfold E. apply rsum_ext. intros; ring.
    - rewrite (rsum_ext d _ (fun k => rsum n2 (fun j => M i j * at_ b2 j k) * rsum n2 (fun j => M l j * at_ b2 j k))%R) by (intros k Hk; rewrite !R by assumption; reflexivity). unfold n2. rewrite (combine_dot b2 (M i) (M l) O2). reflexivity. }
  rewrite (rsum_ext n1 _ (fun i' => rsum n1 (fun l => E i i' * E i' l * a l))%R) by (intros i' _; rewrite <- rsum_scal; apply rsum_ext; intros; ring). rewrite rsum_swap. apply rsum_ext. intros l Hl. rewrite rsum_scal_r, EE by exact Hl. reflexivity.
Qed.
Variables (eps : R) (w : list R) (v : list (list R)).
Hypothesis Ev : eigen_ok (n1 + n2) (overlap b1 b2) w v.
Hypothesis E1 : (0 < eps <= 1)%R.
Lemma commuting_gap j : j < n1 + n2 -> (nth j w 0 < eps)%R -> nth j w 0%R = 0%R.
Proof.
  intros Hj Hl. set (lam := nth j w 0%R) in *. set (a := fun i => at_ v i j). set (b := fun i => at_ v (n1 + i) j).
  assert (S : forall k, rsum (n1 + n2) (fun i => stacked b1 b2 i k * at_ v i j)%R = (rsum n1 (fun i => a i * at_ b1 i k) - rsum n2 (fun i => b i * at_ b2 i k))%R).
  { intros k. unfold n1, n2. rewrite (split_stacked b1 b2 k (fun i => at_ v i j)). fold n1 n2. unfold a, b. f_equal; apply rsum_ext; intros; ring. }
  assert (P1 : forall i f, i < n1 -> rsum d (fun k => at_ b1 i k * rsum n1 (fun l => f l * at_ b1 l k))%R = f i).
  { intros i f Hi. rewrite (rsum_ext d _ (fun k => rsum n1 (fun q => (if i =? q then 1 else 0) * at_ b1 q k) * rsum n1 (fun q => f q * at_ b1 q k))%R) by (intros k _; rewrite (rsum_delta_r n1 i (fun q => at_ b1 q k) Hi); reflexivity). unfold n1 at 1 2. rewrite (combine_dot b1 (fun q => if i =? q then 1 else 0)%R f O1). apply (rsum_delta_r n1 i f Hi). }
  assert (P2 : forall i f, i < n2 -> rsum d (fun k => at_ b2 i k * rsum n2 (fun l => f l * at_ b2 l k))%R = f i).
  { intros i f Hi. rewrite (rsum_ext d _ (fun k => rsum n2 (fun q => (if i =? q then 1 else 0) * at_ b2 q k) * rsum n2 (fun q => f q * at_ b2 q k))%R) by (intros k _; rewrite (rsum_delta_r n2 i (fun q => at_ b2 q k) Hi); reflexivity). unfold n2 at 1 2. rewrite (combine_dot b2 (fun q => if i =? q then 1 else 0)%R f O2). apply (rsum_delta_r n2 i f Hi). }
  assert (Ea : forall i, i < n1 -> ((1 - lam) * a i = rsum n2 (fun l => M i l * b l))%R).
  { intros i Hi. pose proof (eo_eigen _ _ _ _ Ev i j ltac:(lia) Hj) as Q. fold lam in Q. unfold n1 at 1 in Q. unfold n2 at 1 in Q. rewrite (overlap_apply d b1 b2 W1 W2 i (fun k => at_ v k j)) in Q by (fold n1 n2; lia). fold n1 n2 in Q.
    rewrite (rsum_ext d _ (fun k => at_ b1 i k * rsum n1 (fun i => a i * at_ b1 i k) + - (rsum n2 (fun l => b l * (at_ b1 i k * at_ b2 l k))))%R) in Q.
    2: { intros k _. rewrite S. unfold stacked. fold n1. destruct (Nat.ltb_spec i n1); [|lia]. rewrite (rsum_ext n2 (fun l => b l * (at_ b1 i k * at_ b2 l k))%R (fun l => at_ b1 i k * (b l * at_ b2 l k))%R) by (intros; ring). rewrite rsum_scal. ring. }
    rewrite rsum_plus, (P1 i a Hi), rsum_opp, rsum_swap in Q. rewrite (rsum_ext n2 _ (fun l => M i l * b l)%R) in Q by (intros l _; rewrite rsum_scal; unfold M, inner, at_; ring). change (at_ v i j) with (a i) in Q. lra. }
  assert (Eb : forall i, i < n2 -> ((1 - lam) * b i = rsum n1 (fun l => M l i * a l))%R).
  { intros i Hi. pose proof (eo_eigen _ _ _ _ Ev (n1 + i) j ltac:(lia) Hj) as Q. fold lam in Q. unfold n1 at 1 in Q. unfold n2 at 1 in Q. rewrite (overlap_apply d b1 b2 W1 W2 (n1 + i) (fun k => at_ v k j)) in Q by (fold n1 n2; lia). fold n1 n2 in Q.
    rewrite (rsum_ext d _ (fun k => at_ b2 i k * rsum n2 (fun i => b i * at_ b2 i k) + - (rsum n1 (fun l => a l * (at_ b2 i k * at_ b1 l k))))%R) in Q.
    2: { intros k _. rewrite S. unfold stacked. fold n1. destruct (Nat.ltb_spec (n1 + i) n1); [lia|]. replace (n1 + i - n1) with i by lia. rewrite (rsum_ext n1 (fun l => a l * (at_ b2 i k * at_ b1 l k))%R (fun l => at_ b2 i k * (a l * at_ b1 l k))%R) by (intros; ring). rewrite rsum_scal. ring. }
    rewrite rsum_plus, (P2 i b Hi), rsum_opp, rsum_swap in Q. rewrite (rsum_ext n1 _ (fun l => M l i * a l)%R) in Q by (intros l _; rewrite rsum_scal; unfold M; rewrite (inner_comm d (nth l b1 [])); unfold inner, at_; ring). change (at_ v (n1 + i) j) with (b i) in Q. lra. }
  set (mu := (1 - lam)%R) in *.
  set (E := fun i i' => rsum n2 (fun j => M i j * M i' j)%R).
  assert (Ec : forall i, i < n1 -> (mu * mu * a i = rsum n1 (fun l => E i l * a l))%R).
  { intros i Hi. rewrite Rmult_assoc, Ea by exact Hi. rewrite <- rsum_scal. rewrite (rsum_ext n2 _ (fun l => rsum n1 (fun p => M i l * M p l * a p))%R).
    - rewrite rsum_swap. apply rsum_ext. intros p _. rewrite rsum_scal_r. reflexivity.
    - intros l Hll. transitivity (M i l * (mu * b l))%R; [ring|]. rewrite Eb, <- rsum_scal by exact Hll. apply rsum_ext. intros; ring. }
  assert (Ed : forall i, i < n1 -> (mu * mu * (mu * mu * a i) = mu * mu * a i)%R).
  { intros i Hi. rewrite (Ec i Hi). transitivity (rsum n1 (fun i' => E i i' * rsum n1 (fun l => E i' l * a l)))%R; [|exact (project_twice a i Hi)]. rewrite <- rsum_scal. apply rsum_ext. intros l Hll. rewrite <- (Ec l Hll). ring. }
  pose proof (eo_orth _ _ _ _ Ev j j Hj Hj) as N. rewrite Nat.eqb_refl in N. rewrite rsum_add in N.
  assert (Hmu : (0 < mu)%R) by (unfold mu; lra).
  assert (A0 : exists i, i < n1 /\ a i <> 0%R).
  { destruct (Classical_Prop.classic (exists i, i < n1 /\ a i <> 0%R)) as [H|H]; [exact H|exfalso]. assert (Z : forall i, i < n1 -> a i = 0%R) by (intros i Hi; apply Classical_Prop.NNPP; intros C; apply H; exists i; auto).
    rewrite (rsum_zero n1) in N by (intros i Hi; change (a i * a i = 0)%R; rewrite Z by exact Hi; ring). rewrite (rsum_zero n2) in N; [lra|]. intros i Hi. assert (B0 : (mu * b i = 0)%R) by (rewrite Eb by exact Hi; apply rsum_zero; intros l Hll; rewrite Z by exact Hll; ring). change (b i * b i = 0)%R. apply Rmult_integral in B0 as [B0|B0]; [lra|rewrite B0; ring]. }
  destruct A0 as (i & Hi & Ai). specialize (Ed i Hi). assert (F : ((mu - 1) * (mu + 1) * (mu * mu * a i) = 0)%R) by lra. apply Rmult_integral in F as [F|F].
  - apply Rmult_integral in F as [F|F]; [unfold mu in F; lra|lra].
  - apply Rmult_integral in F as [F|F]; [apply Rmult_integral in F as [F|F]; lra|contradiction].
Qed.
Let x1 := firstn n1 (small_columns eps w v).
Let x2 := skipn n1 (small_columns eps w v).
Let m := length (low eps w).
Lemma half_columns c c' : c < m -> c' < m -> rsum n1 (fun i => at_ x1 i c * at_ x1 i c')%R = (if c =? c' then 1 / 2 else 0)%R.
Proof.
  intros Hc Hc'. set (u := fun c k => rsum n1 (fun i => at_ x1 i c * at_ b1 i k)%R).
  assert (T1 : rsum d (fun k => u c k * u c' k)%R = rsum n1 (fun i => at_ x1 i c * at_ x1 i c')%R) by (apply (combine_dot b1 (fun i => at_ x1 i c) (fun i => at_ x1 i c') O1)).
  assert (T2 : rsum d (fun k => u c k * u c' k)%R = rsum n2 (fun i => at_ x2 i c * at_ x2 i c')%R).
  { rewrite (rsum_ext d _ (fun k => rsum n2 (fun i => at_ x2 i c * at_ b2 i k) * rsum n2 (fun i => at_ x2 i c' * at_ b2 i k))%R).
    - apply (combine_dot b2 (fun i => at_ x2 i c) (fun i => at_ x2 i c') O2).
    - intros k Hk. unfold u, x1, x2, n1, n2. rewrite !(column_shared d b1 b2 eps w v W1 W2 Ev commuting_gap) by assumption. reflexivity. }
  assert (T3 : (rsum n1 (fun i => at_ x1 i c * at_ x1 i c') + rsum n2 (fun i => at_ x2 i c * at_ x2 i c'))%R = (if c =? c' then 1 else 0)%R).
  { pose proof (low_column b1 b2 eps w v Ev c Hc) as [L1 _]. pose proof (low_column b1 b2 eps w v Ev c' Hc') as [L2 _]. pose proof (eo_orth _ _ _ _ Ev _ _ L1 L2) as N. rewrite rsum_add in N.
    rewrite (rsum_ext n1 (fun i => at_ x1 i c * at_ x1 i c')%R (fun i => at_ v i (nth c (low eps w) 0%nat) * at_ v i (nth c' (low eps w) 0%nat))%R) by (intros i Hi; unfold x1, n1; rewrite !(x1_at b1 b2 eps w v Ev commuting_gap) by assumption; reflexivity).
    rewrite (rsum_ext n2 (fun i => at_ x2 i c * at_ x2 i c')%R (fun i => at_ v (n1 + i) (nth c (low eps w) 0%nat) * at_ v (n1 + i) (nth c' (low eps w) 0%nat))%R) by (intros i Hi; unfold x2, n1; rewrite !(x2_at b1 b2 eps w v Ev commuting_gap) by assumption; reflexivity).
    rewrite N. destruct (Nat.eqb_spec c c') as [-> |Ne]; [rewrite Nat.eqb_refl; reflexivity|]. destruct (Nat.eqb_spec (nth c (low eps w) 0) (nth c' (low eps w) 0)) as [Q|Q]; [|reflexivity]. exfalso. apply Ne. exact (proj1 (NoDup_nth (low eps w) 0) (low_nodup eps w) c c' Hc Hc' Q). }
  rewrite <- T2, T1 in T3. destruct (c =? c'); lra.
Qed.
Hypothesis Small : (4 * INR n1 * (eps * eps) < 1)%R.
Lemma commuting_lossless : lossless n1 eps (gram x1 x1).
Proof.
  assert (L1 : length x1 = n1) by (apply (x1_length b1 b2 eps w v Ev commuting_gap)). assert (Wx : of_width m x1) by (apply (x1_width b1 b2 eps w v Ev)).
  assert (Eg : forall i k, i < n1 -> k < n1 -> at_ (gram x1 x1) i k = rsum m (fun c => at_ x1 i c * at_ x1 k c)%R) by (intros; apply gram_at; [exact Wx|lia|lia]).
  apply half_lossless.
  - rewrite gram_length. exact L1.
  - rewrite <- L1. apply gram_width.
  - intros i k Hi Hk. rewrite !Eg by assumption. apply rsum_ext. intros; ring.
  - intros i k Hi Hk. rewrite (rsum_ext n1 _ (fun j => rsum m (fun c => rsum m (fun c' => at_ x1 i c * at_ x1 k c' * (at_ x1 j c * at_ x1 j c'))))%R).
    + rewrite rsum_swap. rewrite (rsum_ext m _ (fun c => at_ x1 i c * at_ x1 k c / 2)%R).
      * unfold Rdiv. rewrite rsum_scal_r. rewrite Eg by assumption. reflexivity.
      * intros c Hc. rewrite rsum_swap. rewrite (rsum_ext m _ (fun c' => (if c =? c' then 1 else 0) * (at_ x1 i c * at_ x1 k c' / 2))%R).
        -- apply (rsum_delta_r m c (fun c' => at_ x1 i c * at_ x1 k c' / 2)%R Hc).
        -- intros c' Hc'. rewrite rsum_scal, half_columns by assumption. destruct (c =? c'); lra.
    + intros j Hj. rewrite !Eg by assumption. rewrite rsum_prod. apply rsum_ext. intros c _. apply rsum_ext. intros c' _. ring.
  - lra.
  - exact Small.
Qed.
End Commuting.

(* basis_intersection of two orthonormal bases with commuting projectors, for every epsilon with 0 < epsilon <= 1 and 4 n epsilon^2 < 1 *)
Theorem C54_intersection_of_commuting eigh eps d b1 b2 : of_width d b1 -> of_width d b2 -> orthonormal d b1 -> orthonormal d b2 ->
  (forall i, i < length b1 -> spanned d b1 (fun k => rsum (length b2) (fun j => inner d (nth j b2 []) (nth i b1 []) * at_ b2 j k))%R) ->
  eigen_ok (length b1 + length b2) (overlap b1 b2) (fst (eigh (overlap b1 b2))) (snd (eigh (overlap b1 b2))) -> (0 < eps <= 1)%R -> (4 * INR (length b1) * (eps * eps) < 1)%R ->
  exists P1 P2, basis_intersection eigh eps (fun v => v) d d b1 b2 = Ok (P1, P2) /\ of_width (length b1) P1 /\ orthonormal (length b1) P1 /\
    forall u, produced d (length b1) P1 b1 u <-> spanned d b1 u /\ spanned d b2 u.
Proof.
  intros W1 W2 O1 O2 Stay Ev E1 Small.
  destruct (C54_basis_intersection eigh eps d b1 b2 W1 W2 ltac:(lra) Ev) as (P1 & P2 & H1 & H2 & H3 & _ & _ & _ & H4 & _).
  - exact (commuting_gap d b1 b2 W1 W2 O1 O2 Stay eps _ _ Ev E1).
  - exists P1, P2. split; [exact H1|]. split; [exact H2|]. split; [exact H3|]. apply H4. exact (commuting_lossless d b1 b2 W1 W2 O1 O2 Stay eps _ _ Ev E1 Small).
Qed.
