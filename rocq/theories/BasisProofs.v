(* basis_intersection: the kernel of the Gram matrix of two stacked bases is their intersection *)
From Coq Require Import Reals Lra Lia List.
From Verif Require Import PyBase PermModel IrrepsModel ArrayModel LeadModel SumR MathModel ArrayProofs LeadProofs ActProofs EntryProofs CGProofs7 CGComplete GSProofs.
Import ListNotations.
Open Scope nat_scope.

(* ---------- entries of the matrices ---------- *)
Lemma gram_entry A B i j : i < length A -> j < length B -> at_ (gram A B) i j = dotR (nth i A []) (nth j B []).
Proof. intros Hi Hj. unfold at_, gram. rewrite (nth_map_in _ _ _ []) by exact Hi. rewrite (nth_map_in _ _ _ []) by exact Hj. reflexivity. Qed.
Lemma gram_length A B : length (gram A B) = length A.
Proof. apply map_length. Qed.
Lemma gram_width A B : of_width (length B) (gram A B).
Proof. unfold of_width, gram. apply Forall_map, Forall_forall. intros a _. apply map_length. Qed.
Lemma width_row d A i : of_width d A -> i < length A -> length (nth i A []) = d.
Proof. intros H Hi. unfold of_width in H. rewrite Forall_forall in H. apply H, nth_In, Hi. Qed.
Lemma opp_row A i : i < length A -> nth i (mat_opp A) [] = map Ropp (nth i A []).
Proof. intros Hi. unfold mat_opp. apply nth_map_in, Hi. Qed.
Lemma opp_width d A : of_width d A -> of_width d (mat_opp A).
Proof. intros H. unfold of_width, mat_opp in *. apply Forall_map. eapply Forall_impl; [|exact H]. intros a L. cbn. rewrite map_length. exact L. Qed.
Lemma nth_opp (a : list R) k : nth k (map Ropp a) 0%R = (- nth k a 0)%R.
Proof. destruct (Nat.lt_ge_cases k (length a)) as [H|H]; [apply (nth_map_in Ropp a k 0%R 0%R H)|]. rewrite !nth_overflow by (try rewrite map_length; exact H). ring. Qed.
Lemma hstack_row A B i : length A = length B -> i < length A -> nth i (hstack A B) [] = nth i A [] ++ nth i B [].
Proof. intros L Hi. unfold hstack. rewrite (nth_map_in _ _ _ ([], [])) by (rewrite combine_length; lia). rewrite combine_nth by exact L. reflexivity. Qed.
Lemma hstack_length A B : length A = length B -> length (hstack A B) = length A.
Proof. intros L. unfold hstack. rewrite map_length, combine_length. lia. Qed.

(* row i of the stacked bases, the second one with a minus sign *)
Definition stacked (b1 b2 : list (list R)) (i k : nat) : R := if i <? length b1 then at_ b1 i k else (- at_ b2 (i - length b1) k)%R.
Definition overlap (b1 b2 : list (list R)) : list (list R) := hstack (gram b1 b1) (gram (mat_opp b1) b2) ++ hstack (gram (mat_opp b2) b1) (gram b2 b2).
Lemma overlap_length b1 b2 : length (overlap b1 b2) = length b1 + length b2.
Proof. unfold overlap. rewrite app_length, !hstack_length; rewrite !gram_length; unfold mat_opp; rewrite ?map_length; reflexivity. Qed.
Lemma overlap_entry d b1 b2 i j : of_width d b1 -> of_width d b2 -> i < length b1 + length b2 -> j < length b1 + length b2 ->
  at_ (overlap b1 b2) i j = rsum d (fun k => stacked b1 b2 i k * stacked b1 b2 j k)%R.
Proof.
  intros W1 W2 Hi Hj. assert (LO : forall b, length (mat_opp b) = length b) by (intros; apply map_length).
  assert (D : forall a b : list R, length a = d -> length b = d -> dotR a b = rsum d (fun k => nth k a 0 * nth k b 0)%R) by (intros; apply dotR_rsum; assumption).
  unfold at_, overlap, stacked. destruct (Nat.ltb_spec i (length b1)) as [L|L].
  - rewrite app_nth1 by (rewrite hstack_length; rewrite !gram_length, ?LO; auto). rewrite hstack_row; rewrite ?gram_length, ?LO; auto.
    assert (Lg : length (nth i (gram b1 b1) []) = length b1) by (apply width_row; [apply gram_width|rewrite gram_length; exact L]).
    destruct (Nat.ltb_spec j (length b1)) as [L'|L'].
    + rewrite app_nth1 by lia. fold (at_ (gram b1 b1) i j). rewrite gram_entry by assumption. apply D; apply width_row; assumption.
    + rewrite app_nth2 by lia. rewrite Lg. fold (at_ (gram (mat_opp b1) b2) i (j - length b1)). rewrite gram_entry by (rewrite ?LO; lia). rewrite opp_row by exact L. rewrite D; [|rewrite map_length; apply width_row; assumption|apply width_row; [assumption|lia]].
      apply rsum_ext. intros k _. rewrite nth_opp. unfold at_. ring.
  - rewrite app_nth2 by (rewrite hstack_length; rewrite !gram_length, ?LO; auto). rewrite hstack_length by (rewrite !gram_length, ?LO; reflexivity). rewrite gram_length. rewrite hstack_row; rewrite ?gram_length, ?LO; auto; [|lia].
    assert (Lg : length (nth (i - length b1) (gram (mat_opp b2) b1) []) = length b1) by (apply width_row; [apply gram_width|rewrite gram_length, LO; lia]).
    destruct (Nat.ltb_spec j (length b1)) as [L'|L'].
    + rewrite app_nth1 by lia. fold (at_ (gram (mat_opp b2) b1) (i - length b1) j). rewrite gram_entry by (rewrite ?LO; lia). rewrite opp_row by lia. rewrite D; [|rewrite map_length; apply width_row; [assumption|lia]|apply width_row; assumption].
      apply rsum_ext. intros k _. rewrite nth_opp. unfold at_. ring.
    + rewrite app_nth2 by lia. rewrite Lg. fold (at_ (gram b2 b2) (i - length b1) (j - length b1)). rewrite gram_entry by lia. rewrite D by (apply width_row; [assumption|lia]).
      apply rsum_ext. intros k _. unfold at_. ring.
Qed.

(* ---------- eigenvectors ---------- *)
(* what np.linalg.eigh promises for a symmetric matrix of shape (n, n): orthonormal columns that are eigenvectors *)
Record eigen_ok (n : nat) (p : list (list R)) (w : list R) (v : list (list R)) : Prop := {
  eo_w : length w = n;
  eo_v : length v = n;
  eo_width : of_width n v;
  eo_orth : forall j j', j < n -> j' < n -> rsum n (fun i => at_ v i j * at_ v i j')%R = if j =? j' then 1%R else 0%R;
  eo_eigen : forall i j, i < n -> j < n -> rsum n (fun k => at_ p i k * at_ v k j)%R = (nth j w 0 * at_ v i j)%R }.
Definition low (eps : R) (w : list R) : list nat := filter (fun j => if Rlt_dec (nth j w 0%R) eps then true else false) (seq 0 (length w)).
Lemma select_row eps (w row : list R) : length row = length w -> map snd (filter (fun '(x, _) => if Rlt_dec x eps then true else false) (combine w row)) = map (fun j => nth j row 0%R) (low eps w).
Proof.
  unfold low. revert row. induction w as [|x w IH]; intros [|r row] L; try discriminate; [reflexivity|]. cbn [combine length seq]. rewrite <- seq_shift. cbn [filter]. change (nth 0 (x :: w) 0%R) with x.
  assert (F : map (fun j => nth j (r :: row) 0%R) (filter (fun j => if Rlt_dec (nth j (x :: w) 0%R) eps then true else false) (map S (seq 0 (length w)))) = map snd (filter (fun '(x, _) => if Rlt_dec x eps then true else false) (combine w row))).
  { rewrite IH by (cbn in L; lia). generalize (seq 0 (length w)) as l. induction l as [|j l IHl]; [reflexivity|]. cbn [map filter]. change (nth (S j) (x :: w) 0%R) with (nth j w 0%R). destruct (Rlt_dec (nth j w 0%R) eps); cbn [map]; rewrite IHl; reflexivity. }
  destruct (Rlt_dec x eps); cbn [map snd]; rewrite F; reflexivity.
Qed.
Lemma small_entry n eps w v i c : length w = n -> of_width n v -> i < length v -> c < length (low eps w) -> at_ (small_columns eps w v) i c = at_ v i (nth c (low eps w) 0).
Proof.
  intros Lw Wv Hi Hc. unfold at_ at 1, small_columns. rewrite (nth_map_in _ _ _ []) by exact Hi. rewrite select_row by (rewrite (width_row n) by assumption; symmetry; exact Lw). rewrite (nth_map_in _ _ _ 0) by exact Hc. reflexivity.
Qed.
Lemma small_width n eps w v : length w = n -> of_width n v -> of_width (length (low eps w)) (small_columns eps w v).
Proof.
  intros Lw Wv. unfold of_width, small_columns in *. apply Forall_map. eapply Forall_impl; [|exact Wv]. intros row L. cbn. rewrite select_row by congruence. apply map_length.
Qed.
Lemma small_length eps w v : length (small_columns eps w v) = length v.
Proof. apply map_length. Qed.
Lemma in_low eps w j : In j (low eps w) <-> j < length w /\ (nth j w 0 < eps)%R.
Proof. unfold low. rewrite filter_In, in_seq. destruct (Rlt_dec (nth j w 0%R) eps); split; intros [A B]; try discriminate; try contradiction; split; try lia; auto. Qed.
Lemma low_nodup eps w : NoDup (low eps w).
Proof. apply NoDup_filter, seq_NoDup. Qed.

(* ---------- ranges ---------- *)
(* the columns of x combine to a *)
Definition in_range (n m : nat) (x : list (list R)) (a : nat -> R) : Prop := exists e : nat -> R, forall i, i < n -> a i = rsum m (fun c => e c * at_ x i c)%R.
(* gram_schmidt drops no direction because of its tolerance *)
Definition lossless (w : nat) (eps : R) (A : list (list R)) : Prop := forall i, i < length A -> spanned w (fst (gram_schmidt (fun v => v) eps A)) (at_ A i).

Lemma gram_at m x i j : of_width m x -> i < length x -> j < length x -> at_ (gram x x) i j = rsum m (fun c => at_ x i c * at_ x j c)%R.
Proof. intros Wx Hi Hj. rewrite gram_entry by assumption. apply dotR_rsum; apply width_row; assumption. Qed.
Lemma gram_in_range m x a : of_width m x -> spanned (length x) (gram x x) a -> in_range (length x) m x a.
Proof.
  intros Wx (c & H). exists (fun k => rsum (length x) (fun j => c j * at_ x j k))%R. intros i Hi. rewrite H by exact Hi. rewrite gram_length.
  transitivity (rsum (length x) (fun j => rsum m (fun k => c j * (at_ x j k * at_ x i k)))%R).
  - apply rsum_ext. intros j Hj. rewrite gram_at with (m := m) by assumption. rewrite rsum_scal. reflexivity.
  - rewrite rsum_swap. apply rsum_ext. intros k _. rewrite <- rsum_scal_r. apply rsum_ext. intros j _. ring.
Qed.
Lemma range_in_gram m x a eps : (0 <= eps)%R -> of_width m x -> lossless (length x) eps (gram x x) -> in_range (length x) m x a -> spanned (length x) (fst (gram_schmidt (fun v => v) eps (gram x x))) a.
Proof.
  intros He Wx HL (e & Ha). set (n := length x) in *. destruct (gs_loop_ok n eps (gram x x) He) with (Q := @nil (list R)) as (Q & A' & E & G); [apply gram_width|constructor|intros i j Hi; cbn in Hi; lia|].
  assert (EQ : fst (gram_schmidt (fun v => v) eps (gram x x)) = Q) by (unfold gram_schmidt; change (fun v : list R => v) with same; rewrite E; reflexivity). unfold lossless in HL. rewrite EQ in *. rewrite gram_length in HL. destruct G as [G1 G2 _ _ _ G6 _ _]. cbn [app] in *.
  set (l := tab n a). assert (Ll : length l = n) by apply tab_length. assert (Nl : forall k, k < n -> nth k l 0%R = a k) by (intros k Hk; apply nth_tab, Hk).
  set (r := residual Q l). assert (Hr : forall k, k < n -> nth k r 0%R = (a k - rsum (length Q) (fun i => inner n (nth i Q []) l * at_ Q i k))%R). { intros k Hk. unfold r. rewrite (residual_nth n Q l k G1 G2 Ll Hk), Nl by exact Hk. reflexivity. }
  (* r is orthogonal to the rows of the gram matrix *)
  assert (Or : forall i, i < n -> rsum n (fun k => at_ (gram x x) i k * nth k r 0)%R = 0%R).
  { intros i Hi. destruct (HL i Hi) as (c & Hc). rewrite (rsum_ext _ _ (fun k => rsum (length Q) (fun q => c q * (at_ Q q k * nth k r 0)))%R) by (intros k Hk; rewrite Hc by exact Hk; rewrite <- rsum_scal_r; apply rsum_ext; intros; ring).
    rewrite rsum_swap. apply rsum_zero. intros q Hq. rewrite rsum_scal. change (rsum n (fun k => at_ Q q k * nth k r 0)%R) with (inner n (nth q Q []) r). unfold r. rewrite residual_orth by assumption. ring. }
  (* hence to the columns of x *)
  assert (Oc : forall c, c < m -> rsum n (fun k => at_ x k c * nth k r 0)%R = 0%R).
  { assert (Z : rsum m (fun c => rsum n (fun k => at_ x k c * nth k r 0) * rsum n (fun k => at_ x k c * nth k r 0))%R = 0%R).
    { transitivity (rsum n (fun i => nth i r 0 * rsum n (fun k => at_ (gram x x) i k * nth k r 0))%R); [|apply rsum_zero; intros i Hi; rewrite Or by exact Hi; ring].
      transitivity (rsum m (fun c => rsum n (fun i => rsum n (fun k => nth i r 0 * nth k r 0 * (at_ x i c * at_ x k c)))))%R; [apply rsum_ext; intros c _; rewrite rsum_prod; apply rsum_ext; intros i _; apply rsum_ext; intros k _; ring|].
      rewrite rsum_swap. apply rsum_ext. intros i Hi. rewrite rsum_swap, <- rsum_scal. apply rsum_ext. intros k Hk. rewrite gram_at with (m := m) by assumption. rewrite rsum_scal. ring. }
    intros c Hc. set (g := fun c => rsum n (fun k => at_ x k c * nth k r 0)%R) in *. change (g c = 0%R). pose proof (rsum_single m (fun c => g c * g c)%R c ltac:(intros; nra) Hc) as B. cbv beta in B. change (rsum m (fun c => g c * g c)%R = 0%R) in Z. nra. }
  (* and r lies in the range, so it is zero *)
  assert (Rr : in_range n m x (fun k => nth k r 0%R)).
  { assert (RQ : forall q, q < length Q -> in_range n m x (at_ Q q)) by (intros q Hq; apply gram_in_range; [exact Wx|apply G6, Hq]).
    assert (RS : forall N c, N <= length Q -> in_range n m x (fun k => rsum N (fun i => c i * at_ Q i k))%R).
    { intros N c. induction N as [|N IH]; intros HN; [exists (fun _ => 0%R); intros k _; cbn [rsum]; symmetry; apply rsum_zero; intros; ring|]. destruct (IH ltac:(lia)) as (e1 & H1). destruct (RQ N ltac:(lia)) as (e2 & H2). exists (fun j => e1 j + c N * e2 j)%R. intros k Hk. cbn [rsum]. rewrite H1, H2 by exact Hk. rewrite <- rsum_scal, <- rsum_plus. apply rsum_ext. intros; ring. }
    destruct (RS (length Q) (fun i => inner n (nth i Q []) l) (le_n _)) as (e2 & H2). exists (fun j => e j - e2 j)%R. intros k Hk. rewrite Hr, Ha, H2 by exact Hk. unfold Rminus. rewrite <- rsum_opp, <- rsum_plus. apply rsum_ext. intros; ring. }
  assert (R0 : inner n r r = 0%R).
  { destruct Rr as (f & Hf). unfold inner. rewrite (rsum_ext _ _ (fun k => rsum m (fun c => f c * (at_ x k c * nth k r 0)))%R) by (intros k Hk; rewrite Hf at 1 by exact Hk; rewrite <- rsum_scal_r; apply rsum_ext; intros; ring). rewrite rsum_swap. apply rsum_zero. intros c Hc. rewrite rsum_scal, Oc by exact Hc. ring. }
  exists (fun i => inner n (nth i Q []) l). intros k Hk. pose proof (inner_zero n r R0 k Hk) as Zk. rewrite Hr in Zk by exact Hk. lra.
Qed.

(* ---------- the kernel ---------- *)
Lemma lsum_of_nth (l : list nat) f : lsum l f = rsum (length l) (fun c => f (nth c l 0)).
Proof. apply lsum_nth. Qed.
Section Kernel.
Variables (d : nat) (b1 b2 : list (list R)) (eps : R) (w : list R) (v : list (list R)).
Let n1 := length b1.
Let n2 := length b2.
Let n := n1 + n2.
Hypothesis W1 : of_width d b1.
Hypothesis W2 : of_width d b2.
Hypothesis Ev : eigen_ok n (overlap b1 b2) w v.
Hypothesis Heps : (0 < eps)%R.
Hypothesis Gap : forall j, j < n -> (nth j w 0 < eps)%R -> nth j w 0%R = 0%R.
Let s := stacked b1 b2.

Lemma stacked_split k (f : nat -> R) : rsum n (fun i => s i k * f i)%R = (rsum n1 (fun i => at_ b1 i k * f i) - rsum n2 (fun i => at_ b2 i k * f (n1 + i)%nat))%R.
Proof.
  unfold n. rewrite rsum_add. unfold Rminus. rewrite <- rsum_opp. f_equal; apply rsum_ext; intros i Hi; unfold s, stacked; fold n1.
  - destruct (Nat.ltb_spec i n1); [reflexivity|lia].
  - destruct (Nat.ltb_spec (n1 + i) n1); [lia|]. replace (n1 + i - n1) with i by lia. ring.
Qed.
Lemma overlap_apply i (f : nat -> R) : i < n -> rsum n (fun k => at_ (overlap b1 b2) i k * f k)%R = rsum d (fun k => s i k * rsum n (fun i' => s i' k * f i'))%R.
Proof.
  intros Hi. rewrite (rsum_ext _ _ (fun i' => rsum d (fun k => s i k * (s i' k * f i')))%R) by (intros i' Hi'; rewrite (overlap_entry d) by assumption; rewrite <- rsum_scal_r; apply rsum_ext; intros; unfold s; ring).
  rewrite rsum_swap. apply rsum_ext. intros k _. rewrite rsum_scal. reflexivity.
Qed.
Lemma kernel_column j k : j < n -> (nth j w 0 < eps)%R -> k < d -> rsum n (fun i => s i k * at_ v i j)%R = 0%R.
Proof.
  intros Hj Hl Hk. set (g := fun k => rsum n (fun i => s i k * at_ v i j)%R). assert (Z : rsum d (fun k => g k * g k)%R = 0%R).
  { transitivity (rsum n (fun i => at_ v i j * rsum d (fun k => s i k * g k))%R).
    - transitivity (rsum d (fun k => rsum n (fun i => at_ v i j * (s i k * g k)))%R); [apply rsum_ext; intros k' _; unfold g at 1; rewrite <- rsum_scal_r; apply rsum_ext; intros; ring|]. rewrite rsum_swap. apply rsum_ext. intros i _. apply rsum_scal.
    - apply rsum_zero. intros i Hi. unfold g. rewrite <- (overlap_apply i (fun i' => at_ v i' j)) by exact Hi. rewrite (eo_eigen _ _ _ _ Ev) by assumption. rewrite Gap by assumption. ring. }
  pose proof (rsum_single d (fun k => g k * g k)%R k ltac:(intros; nra) Hk) as B. cbv beta in B. change (g k = 0%R). nra.
Qed.
Lemma rows_orthonormal i i' : i < n -> i' < n -> rsum n (fun j => at_ v i j * at_ v i' j)%R = if i =? i' then 1%R else 0%R.
Proof.
  intros Hi Hi'. pose proof (square_columns Nat.eq_dec Nat.eq_dec (seq 0 n) (seq 0 n) (fun j i => at_ v i j) (seq_NoDup _ _) (seq_NoDup _ _) eq_refl) as S.
  assert (O : forall j j', In j (seq 0 n) -> In j' (seq 0 n) -> lsum (seq 0 n) (fun i => at_ v i j * at_ v i j')%R = dl Nat.eq_dec j j').
  { intros j j' Hj Hj'. apply in_seq in Hj, Hj'. rewrite lsum_seq. rewrite (eo_orth _ _ _ _ Ev) by lia. unfold dl. destruct (Nat.eqb_spec j j'), (Nat.eq_dec j j'); try contradiction; reflexivity. }
  specialize (S O i i' ltac:(apply in_seq; lia) ltac:(apply in_seq; lia)). rewrite lsum_seq in S. rewrite S. unfold dl. destruct (Nat.eqb_spec i i'), (Nat.eq_dec i i'); try contradiction; reflexivity.
Qed.
(* a kernel vector is a combination of the selected columns *)
Lemma kernel_low (z : nat -> R) : (forall k, k < d -> rsum n (fun i => s i k * z i)%R = 0%R) ->
  exists e, forall i, i < n -> z i = rsum (length (low eps w)) (fun c => e c * at_ v i (nth c (low eps w) 0%nat))%R.
Proof.
  intros Hz. set (c := fun j => rsum n (fun i => at_ v i j * z i)%R).
  assert (Zc : forall j, j < n -> ~ (nth j w 0 < eps)%R -> c j = 0%R).
  { intros j Hj N. assert (Q : (nth j w 0 * c j)%R = 0%R).
    { unfold c. rewrite <- rsum_scal. rewrite (rsum_ext _ _ (fun i => z i * rsum n (fun k => at_ (overlap b1 b2) i k * at_ v k j))%R) by (intros i Hi; rewrite (eo_eigen _ _ _ _ Ev) by assumption; ring).
      rewrite (rsum_ext _ _ (fun i => rsum d (fun k => z i * s i k * rsum n (fun i' => s i' k * at_ v i' j)))%R) by (intros i Hi; rewrite (overlap_apply i (fun i' => at_ v i' j)) by exact Hi; rewrite <- rsum_scal; apply rsum_ext; intros; ring).
      rewrite rsum_swap. apply rsum_zero. intros k Hk. rewrite rsum_scal_r. rewrite (rsum_ext _ _ (fun i => s i k * z i)%R) by (intros; ring). rewrite Hz by exact Hk. ring. }
    apply Rmult_integral in Q as [Q|Q]; [lra|exact Q]. }
  exists (fun q => c (nth q (low eps w) 0)). intros i Hi.
  rewrite <- (lsum_of_nth (low eps w) (fun j => c j * at_ v i j)%R). unfold low. rewrite lsum_filter, (eo_w _ _ _ _ Ev), lsum_seq.
  transitivity (rsum n (fun j => c j * at_ v i j)%R).
  - unfold c. transitivity (rsum n (fun i' => z i' * rsum n (fun j => at_ v i j * at_ v i' j))%R).
    + rewrite (rsum_ext _ _ (fun i' => (if Nat.eqb i i' then 1 else 0) * z i')%R) by (intros i' Hi'; rewrite rows_orthonormal by assumption; ring). symmetry. apply rsum_delta_r, Hi.
    + rewrite (rsum_ext _ _ (fun i' => rsum n (fun j => at_ v i' j * z i' * at_ v i j))%R) by (intros i' _; rewrite <- rsum_scal; apply rsum_ext; intros; ring). rewrite rsum_swap. apply rsum_ext. intros j _. apply rsum_scal_r.
  - apply rsum_ext. intros j Hj. destruct (Rlt_dec (nth j w 0%R) eps) as [L|L]; [reflexivity|]. rewrite Zc by assumption. ring.
Qed.

(* ---------- both halves ---------- *)
Let x1 := firstn n1 (small_columns eps w v).
Let x2 := skipn n1 (small_columns eps w v).
Let m := length (low eps w).
Lemma x1_length : length x1 = n1.
Proof. unfold x1. rewrite firstn_length, small_length, (eo_v _ _ _ _ Ev). unfold n. lia. Qed.
Lemma x2_length : length x2 = n2.
Proof. unfold x2. rewrite skipn_length, small_length, (eo_v _ _ _ _ Ev). unfold n. lia. Qed.
Lemma x1_width : of_width m x1.
Proof. pose proof (small_width n eps w v (eo_w _ _ _ _ Ev) (eo_width _ _ _ _ Ev)) as H. unfold of_width, x1 in *. rewrite <- (firstn_skipn n1) in H. apply Forall_app in H. apply H. Qed.
Lemma x2_width : of_width m x2.
Proof. pose proof (small_width n eps w v (eo_w _ _ _ _ Ev) (eo_width _ _ _ _ Ev)) as H. unfold of_width, x2 in *. rewrite <- (firstn_skipn n1) in H. apply Forall_app in H. apply H. Qed.
Lemma x1_at i c : i < n1 -> c < m -> at_ x1 i c = at_ v i (nth c (low eps w) 0).
Proof.
  intros Hi Hc. rewrite <- (small_entry n eps w v i c); [|apply (eo_w _ _ _ _ Ev)|apply (eo_width _ _ _ _ Ev)|rewrite (eo_v _ _ _ _ Ev); unfold n; lia|exact Hc].
  unfold at_, x1. f_equal. rewrite <- (firstn_skipn n1 (small_columns eps w v)) at 2. rewrite app_nth1; [reflexivity|]. fold x1. rewrite x1_length. exact Hi.
Qed.
Lemma x2_at i c : i < n2 -> c < m -> at_ x2 i c = at_ v (n1 + i) (nth c (low eps w) 0).
Proof.
  intros Hi Hc. rewrite <- (small_entry n eps w v (n1 + i) c); [|apply (eo_w _ _ _ _ Ev)|apply (eo_width _ _ _ _ Ev)|rewrite (eo_v _ _ _ _ Ev); unfold n; lia|exact Hc].
  unfold at_, x2. f_equal. rewrite <- (firstn_skipn n1 (small_columns eps w v)) at 2. fold x1. rewrite app_nth2; rewrite x1_length; [|lia]. f_equal. lia.
Qed.
Lemma low_column c : c < m -> nth c (low eps w) 0 < n /\ (nth (nth c (low eps w) 0%nat) w 0 < eps)%R.
Proof. intros Hc. assert (I : In (nth c (low eps w) 0) (low eps w)) by (apply nth_In, Hc). apply in_low in I as [I1 I2]. rewrite (eo_w _ _ _ _ Ev) in I1. auto. Qed.
(* combining the rows of a basis with the coefficients of a range vector gives a vector of the other basis *)
Lemma column_shared c k : c < m -> k < d -> rsum n1 (fun i => at_ x1 i c * at_ b1 i k)%R = rsum n2 (fun i => at_ x2 i c * at_ b2 i k)%R.
Proof.
  intros Hc Hk. destruct (low_column c Hc) as [Hj Hl]. pose proof (kernel_column _ k Hj Hl Hk) as K. rewrite stacked_split in K.
  rewrite (rsum_ext n1 _ (fun i => at_ b1 i k * at_ v i (nth c (low eps w) 0%nat))%R) by (intros i Hi; rewrite x1_at by assumption; ring). rewrite (rsum_ext n2 _ (fun i => at_ b2 i k * at_ v (n1 + i) (nth c (low eps w) 0%nat))%R) by (intros i Hi; rewrite x2_at by assumption; ring). lra.
Qed.
Lemma range_combination nn x b (Lx : length x = nn) (a : nat -> R) e : (forall i, i < nn -> a i = rsum m (fun c => e c * at_ x i c)%R) -> forall k, rsum nn (fun i => a i * at_ b i k)%R = rsum m (fun c => e c * rsum nn (fun i => at_ x i c * at_ b i k))%R.
Proof.
  intros H k. rewrite (rsum_ext _ _ (fun i => rsum m (fun c => e c * (at_ x i c * at_ b i k)))%R) by (intros i Hi; rewrite H by exact Hi; rewrite <- rsum_scal_r; apply rsum_ext; intros; ring). rewrite rsum_swap. apply rsum_ext. intros c _. apply rsum_scal.
Qed.
Lemma shared_spans e : spanned d b1 (fun k => rsum m (fun c => e c * rsum n1 (fun i => at_ x1 i c * at_ b1 i k)))%R /\ spanned d b2 (fun k => rsum m (fun c => e c * rsum n1 (fun i => at_ x1 i c * at_ b1 i k)))%R.
Proof.
  split.
  - exists (fun i => rsum m (fun c => e c * at_ x1 i c))%R. intros k Hk. symmetry. apply (range_combination n1 x1 b1 x1_length (fun i => rsum m (fun c => e c * at_ x1 i c))%R e). reflexivity.
  - exists (fun i => rsum m (fun c => e c * at_ x2 i c))%R. intros k Hk. fold n2. rewrite (range_combination n2 x2 b2 x2_length (fun i => rsum m (fun c => e c * at_ x2 i c))%R e) by reflexivity. apply rsum_ext. intros c Hc. rewrite column_shared by assumption. reflexivity.
Qed.
Lemma intersection_in_range (u : nat -> R) : spanned d b1 u -> spanned d b2 u -> exists e, (forall k, k < d -> u k = rsum n1 (fun i => rsum m (fun c => e c * at_ x1 i c) * at_ b1 i k)%R) /\ (forall k, k < d -> u k = rsum n2 (fun i => rsum m (fun c => e c * at_ x2 i c) * at_ b2 i k)%R).
Proof.
  intros (a & Ha) (b & Hb). set (z := fun i => if i <? n1 then a i else b (i - n1)). destruct (kernel_low z) as (e & He).
  - intros k Hk. rewrite stacked_split. assert (Q1 : rsum n1 (fun i => at_ b1 i k * z i)%R = u k). { rewrite Ha by exact Hk. apply rsum_ext. intros i Hi. unfold z. fold n1 in Hi. destruct (Nat.ltb_spec i n1); [ring|lia]. }
    assert (Q2 : rsum n2 (fun i => at_ b2 i k * z (n1 + i)%nat)%R = u k). { rewrite Hb by exact Hk. apply rsum_ext. intros i Hi. unfold z. destruct (Nat.ltb_spec (n1 + i) n1); [lia|]. replace (n1 + i - n1) with i by lia. ring. } rewrite Q1, Q2. ring.
  - exists e. split; intros k Hk.
    + rewrite Ha by exact Hk. apply rsum_ext. intros i Hi. f_equal. fold n1 in Hi. rewrite (rsum_ext _ _ (fun c => e c * at_ v i (nth c (low eps w) 0%nat))%R) by (intros c Hc; rewrite x1_at by assumption; reflexivity). unfold m. rewrite <- He by (unfold n; lia). unfold z. destruct (Nat.ltb_spec i n1); [reflexivity|lia].
    + rewrite Hb by exact Hk. apply rsum_ext. intros i Hi. f_equal. fold n2 in Hi. rewrite (rsum_ext _ _ (fun c => e c * at_ v (n1 + i) (nth c (low eps w) 0%nat))%R) by (intros c Hc; rewrite x2_at by assumption; reflexivity). unfold m. rewrite <- He by (unfold n; lia). unfold z. destruct (Nat.ltb_spec (n1 + i) n1); [lia|]. f_equal. lia.
Qed.
End Kernel.
