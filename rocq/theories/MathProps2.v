(* C54, basis_intersection: the matrices returned produce exactly the intersection of the two row spaces *)
From Coq Require Import Reals Lra Lia List.
From Verif Require Import PyBase PermModel IrrepsModel ArrayModel LeadModel SumR MathModel ArrayProofs LeadProofs ActProofs EntryProofs CGProofs7 CGComplete GSProofs BasisProofs MathProps.
Import ListNotations.
Open Scope nat_scope.

(* row i of P @ b *)
Definition product_row (n : nat) (P b : list (list R)) (i k : nat) : R := rsum n (fun j => at_ P i j * at_ b j k)%R.
(* u is a combination of the rows of P @ b *)
Definition produced (d n : nat) (P b : list (list R)) (u : nat -> R) : Prop := exists c : nat -> R, forall k, k < d -> u k = rsum (length P) (fun i => c i * product_row n P b i k)%R.

Lemma map_same {A} (l : list A) : map (fun v => v) l = l.
Proof. apply map_id. Qed.
Lemma gram_schmidt_facts w eps A : (0 <= eps)%R -> of_width w A -> of_width w (fst (gram_schmidt (fun v => v) eps A)) /\ orthonormal w (fst (gram_schmidt (fun v => v) eps A)) /\ (forall i, i < length (fst (gram_schmidt (fun v => v) eps A)) -> spanned w A (at_ (fst (gram_schmidt (fun v => v) eps A)) i)).
Proof. intros He HA. pose proof (C54_gram_schmidt w eps A He HA) as H. destruct (gram_schmidt (fun v => v) eps A) as [Q A']. cbn [fst]. tauto. Qed.
Lemma combine_range m n x b (a : nat -> R) e k : (forall i, i < n -> a i = rsum m (fun c => e c * at_ x i c)%R) -> rsum n (fun i => a i * at_ b i k)%R = rsum m (fun c => e c * rsum n (fun i => at_ x i c * at_ b i k))%R.
Proof.
  intros H. rewrite (rsum_ext _ _ (fun i => rsum m (fun c => e c * (at_ x i c * at_ b i k)))%R) by (intros i Hi; rewrite H by exact Hi; rewrite <- rsum_scal_r; apply rsum_ext; intros; ring). rewrite rsum_swap. apply rsum_ext. intros c _. apply rsum_scal.
Qed.
Lemma produced_range d n m x P b u : length x = n -> (forall i, i < length P -> in_range n m x (at_ P i)) -> produced d n P b u ->
  exists e, forall k, k < d -> u k = rsum m (fun c => e c * rsum n (fun i => at_ x i c * at_ b i k))%R.
Proof.
  intros Lx HP (c & Hc).
  assert (G : forall N, N <= length P -> exists e, forall k, rsum N (fun i => c i * product_row n P b i k)%R = rsum m (fun q => e q * rsum n (fun i => at_ x i q * at_ b i k))%R).
  { induction N as [|N IH]; intros HN; [exists (fun _ => 0%R); intros k; cbn [rsum]; symmetry; apply rsum_zero; intros; ring|]. destruct (IH ltac:(lia)) as (e1 & H1). destruct (HP N ltac:(lia)) as (e2 & H2).
    exists (fun q => e1 q + c N * e2 q)%R. intros k. cbn [rsum]. rewrite H1. unfold product_row. rewrite (combine_range m n x b (at_ P N) e2 k H2). rewrite <- rsum_scal, <- rsum_plus. apply rsum_ext. intros; ring. }
  destruct (G (length P) (le_n _)) as (e & He). exists e. intros k Hk. rewrite Hc by exact Hk. apply He.
Qed.
Lemma produced_of d n P b (a u : nat -> R) : spanned n P a -> (forall k, k < d -> u k = rsum n (fun i => a i * at_ b i k)%R) -> produced d n P b u.
Proof.
  intros (c & Hc) Hu. exists c. intros k Hk. rewrite Hu by exact Hk. unfold product_row.
  rewrite (rsum_ext _ _ (fun i => rsum (length P) (fun q => c q * (at_ P q i * at_ b i k)))%R) by (intros i Hi; rewrite Hc by exact Hi; rewrite <- rsum_scal_r; apply rsum_ext; intros; ring).
  rewrite rsum_swap. apply rsum_ext. intros q _. apply rsum_scal.
Qed.

(* For all bases b1 (n1 rows) and b2 (n2 rows) of the same width d, and any eigh that is right about the Gram matrix of the rows of b1
   and -b2: when no eigenvalue lies strictly between 0 and epsilon, the projections returned have orthonormal rows, and every
   combination of the rows of P1 @ b1 (and of P2 @ b2) lies in both row spaces; when moreover gram_schmidt drops no direction, these
   combinations are all the vectors common to both row spaces. *)
Theorem C54_basis_intersection eigh eps d b1 b2 : of_width d b1 -> of_width d b2 -> (0 < eps)%R ->
  let n1 := length b1 in let n2 := length b2 in
  let w := fst (eigh (overlap b1 b2)) in let v := snd (eigh (overlap b1 b2)) in
  eigen_ok (n1 + n2) (overlap b1 b2) w v -> (forall j, j < n1 + n2 -> (nth j w 0 < eps)%R -> nth j w 0%R = 0%R) ->
  exists P1 P2, basis_intersection eigh eps (fun v => v) d d b1 b2 = Ok (P1, P2) /\
    of_width n1 P1 /\ orthonormal n1 P1 /\ of_width n2 P2 /\ orthonormal n2 P2 /\
    (forall u, produced d n1 P1 b1 u \/ produced d n2 P2 b2 u -> spanned d b1 u /\ spanned d b2 u) /\
    (lossless n1 eps (gram (firstn n1 (small_columns eps w v)) (firstn n1 (small_columns eps w v))) -> forall u, produced d n1 P1 b1 u <-> spanned d b1 u /\ spanned d b2 u) /\
    (lossless n2 eps (gram (skipn n1 (small_columns eps w v)) (skipn n1 (small_columns eps w v))) -> forall u, produced d n2 P2 b2 u <-> spanned d b1 u /\ spanned d b2 u).
Proof.
  intros W1 W2 He n1 n2 w v Ev Gap. set (m := length (low eps w)).
  set (x1 := firstn n1 (small_columns eps w v)). set (x2 := skipn n1 (small_columns eps w v)).
  assert (L1 : length x1 = n1) by (apply (x1_length b1 b2 eps w v Ev Gap)). assert (L2 : length x2 = n2) by (apply (x2_length b1 b2 eps w v Ev); assumption).
  assert (Wx1 : of_width m x1) by (apply (x1_width b1 b2 eps w v Ev)). assert (Wx2 : of_width m x2) by (apply (x2_width b1 b2 eps w v Ev)).
  assert (G1 : of_width n1 (gram x1 x1)) by (rewrite <- L1; apply gram_width). assert (G2 : of_width n2 (gram x2 x2)) by (rewrite <- L2; apply gram_width).
  destruct (gram_schmidt_facts n1 eps (gram x1 x1) ltac:(lra) G1) as (A1 & B1 & C1). destruct (gram_schmidt_facts n2 eps (gram x2 x2) ltac:(lra) G2) as (A2 & B2 & C2).
  exists (fst (gram_schmidt (fun v => v) eps (gram x1 x1))), (fst (gram_schmidt (fun v => v) eps (gram x2 x2))).
  split. { unfold basis_intersection. rewrite Nat.eqb_refl. cbn [negb]. rewrite map_same. fold (overlap b1 b2). rewrite (surjective_pairing (eigh (overlap b1 b2))). reflexivity. }
  set (P1 := fst (gram_schmidt (fun v => v) eps (gram x1 x1))) in *. set (P2 := fst (gram_schmidt (fun v => v) eps (gram x2 x2))) in *.
  assert (R1 : forall u, produced d n1 P1 b1 u -> spanned d b1 u /\ spanned d b2 u).
  { intros u Hu. destruct (produced_range d n1 m x1 P1 b1 u L1) as (e & E); [intros i Hi; rewrite <- L1; apply gram_in_range; [exact Wx1|rewrite L1; apply C1, Hi]|exact Hu|].
    destruct (shared_spans d b1 b2 eps w v W1 W2 Ev Gap e) as [S1 S2]. split; eapply spanned_ext; [|exact S1| |exact S2]; intros k Hk; symmetry; apply E, Hk. }
  assert (R2 : forall u, produced d n2 P2 b2 u -> spanned d b1 u /\ spanned d b2 u).
  { intros u Hu. destruct (produced_range d n2 m x2 P2 b2 u L2) as (e & E); [intros i Hi; rewrite <- L2; apply gram_in_range; [exact Wx2|rewrite L2; apply C2, Hi]|exact Hu|].
    assert (E' : forall k, k < d -> u k = rsum m (fun c => e c * rsum n1 (fun i => at_ x1 i c * at_ b1 i k))%R). { intros k Hk. rewrite E by exact Hk. apply rsum_ext. intros c Hc. f_equal. symmetry. apply (column_shared d b1 b2 eps w v W1 W2 Ev Gap c k Hc Hk). }
    destruct (shared_spans d b1 b2 eps w v W1 W2 Ev Gap e) as [S1 S2]. split; eapply spanned_ext; [|exact S1| |exact S2]; intros k Hk; symmetry; apply E', Hk. }
  split; [exact A1|]. split; [exact B1|]. split; [exact A2|]. split; [exact B2|]. split; [intros u [H|H]; [apply R1, H|apply R2, H]|]. split.
  - intros H u. split; [apply R1|]. intros [U1 U2]. destruct (intersection_in_range d b1 b2 eps w v W1 W2 Ev He Gap u U1 U2) as (e & E1 & _).
    eapply produced_of; [|exact E1]. unfold P1. fold n1. rewrite <- L1 at 1. apply (range_in_gram m); [lra|exact Wx1|rewrite L1; exact H|]. exists e. intros i _. reflexivity.
  - intros H u. split; [apply R2|]. intros [U1 U2]. destruct (intersection_in_range d b1 b2 eps w v W1 W2 Ev He Gap u U1 U2) as (e & _ & E2).
    eapply produced_of; [|exact E2]. unfold P2. fold n2. rewrite <- L2 at 1. apply (range_in_gram m); [lra|exact Wx2|rewrite L2; exact H|]. exists e. intros i _. reflexivity.
Qed.
(* bases of different widths are refused *)
Theorem C54_basis_intersection_mismatch eigh eps f d1 d2 b1 b2 : d1 <> d2 -> basis_intersection eigh eps f d1 d2 b1 b2 = Err AssertionError.
Proof. intros N. unfold basis_intersection. destruct (Nat.eqb_spec d1 d2); [contradiction|reflexivity]. Qed.

(* the hypotheses are met: basis1 = basis2 = [[1, 0]], with the eigenvectors (1, 1)/sqrt 2 and (1, -1)/sqrt 2 *)
Definition ex_r : R := (1 / sqrt 2)%R.
Lemma ex_rr : (ex_r * ex_r)%R = (1 / 2)%R.
Proof. unfold ex_r. pose proof (sqrt_sqrt 2 ltac:(lra)) as S. assert (0 < sqrt 2)%R by (apply sqrt_lt_R0; lra). apply (Rmult_eq_reg_r (sqrt 2 * sqrt 2)%R); [|rewrite S; lra]. rewrite S at 2. field_simplify; [|lra]. lra. Qed.
Definition ex_basis : list (list R) := [[1; 0]]%R.
Definition ex_eigh (_ : list (list R)) : list R * list (list R) := ([0; 2]%R, [[ex_r; ex_r]; [ex_r; - ex_r]]%R).
Lemma ex_overlap : overlap ex_basis ex_basis = [[1; -1]; [-1; 1]]%R.
Proof. unfold overlap, ex_basis, gram, mat_opp, hstack, dotR, zipR. cbn [map combine app fold_right]. match goal with |- [[?a; ?b]; [?c; ?e]] = _ => replace a with 1%R by ring; replace b with (-1)%R by ring; replace c with (-1)%R by ring; replace e with 1%R by ring end. reflexivity. Qed.
Lemma two_cases j : j < 2 -> j = 0 \/ j = 1.
Proof. lia. Qed.
Example C54_basis_intersection_witness :
  let w := fst (ex_eigh (overlap ex_basis ex_basis)) in let v := snd (ex_eigh (overlap ex_basis ex_basis)) in
  let x1 := firstn 1 (small_columns (1 / 10000) w v) in let x2 := skipn 1 (small_columns (1 / 10000) w v) in
  eigen_ok 2 (overlap ex_basis ex_basis) w v /\ (forall j, j < 2 -> (nth j w 0 < 1 / 10000)%R -> nth j w 0%R = 0%R) /\
  lossless 1 (1 / 10000) (gram x1 x1) /\ lossless 1 (1 / 10000) (gram x2 x2) /\
  basis_intersection ex_eigh (1 / 10000) (fun v => v) 2 2 ex_basis ex_basis = Ok ([[1]], [[1]])%R.
Proof.
  pose proof ex_rr as E. cbv zeta. cbn [ex_eigh fst snd]. rewrite ex_overlap.
  assert (X : small_columns (1 / 10000) [0; 2]%R [[ex_r; ex_r]; [ex_r; - ex_r]]%R = [[ex_r]; [ex_r]]).
  { unfold small_columns. cbn [combine map filter]. destruct (Rlt_dec 0 (1 / 10000)); [|lra]. destruct (Rlt_dec 2 (1 / 10000)); [lra|]. reflexivity. }
  rewrite X. cbn [firstn skipn].
  assert (G : gram [[ex_r]] [[ex_r]] = [[1 / 2]]%R). { unfold gram, dotR, zipR. cbn [map combine fold_right]. rewrite E, Rplus_0_r. reflexivity. }
  rewrite G. assert (N : norm2 [1 / 2]%R = (1 / 2)%R). { unfold norm2, dotR, zipR. cbn [combine map fold_right]. replace (1 / 2 * (1 / 2) + 0)%R with ((1 / 2) * (1 / 2))%R by ring. apply sqrt_square. lra. }
  assert (Q : fst (gram_schmidt (fun v => v) (1 / 10000) [[1 / 2]]%R) = [[1]]%R). { unfold gram_schmidt. rewrite (gs_keep _ _ [1 / 2]%R _ [] [1 / 2]%R (1 / 2)%R eq_refl N) by lra. cbn [gs_loop app map fst]. replace (1 / 2 / (1 / 2))%R with 1%R by field. reflexivity. }
  assert (L : lossless 1 (1 / 10000) [[1 / 2]]%R). { intros i Hi. cbn in Hi. rewrite Q. exists (fun _ => 1 / 2)%R. intros k Hk. replace i with 0 by lia. replace k with 0 by lia. unfold at_. cbn [length rsum nth]. ring. }
  split; [|split; [|split; [exact L|split; [exact L|]]]].
  - constructor; try reflexivity.
    + repeat constructor.
    + intros j j' Hj Hj'. destruct (two_cases j Hj) as [-> | ->], (two_cases j' Hj') as [-> | ->]; unfold at_; cbn [rsum nth Nat.eqb]; lra.
    + intros i j Hi Hj. destruct (two_cases i Hi) as [-> | ->], (two_cases j Hj) as [-> | ->]; unfold at_; cbn [rsum nth]; lra.
  - intros j Hj H. destruct (two_cases j Hj) as [-> | ->]; cbn [nth] in *; [reflexivity|lra].
  - unfold basis_intersection. cbn [Nat.eqb negb]. rewrite map_same. fold (overlap ex_basis ex_basis). cbn [ex_eigh]. rewrite X. cbn [length ex_basis firstn skipn]. rewrite G, Q. reflexivity.
Qed.
