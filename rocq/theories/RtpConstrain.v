(* constrain_rotation_basis_by_permutation_basis on a reduced family of multiplets. *)
From Coq Require Import Reals Lra Lia List Arith Permutation.
From Verif Require Import PyBase PermModel PermProofs IrrepsModel IrrepsProofs IrrepsProofs2 ArrayModel ArrayProofs ArrayOps RechunkProofs LeadModel LeadProofs StackProofs ActProofs EquivProofs EntryProofs LinearProofs ScatterProps SumR S2Proofs3 TPModel TPProofs TPProofs2 RotationModel RotationProofs CGModel WignerModel WignerProofs WignerProofs2 WignerProps WignerProps2 CGComplete MathModel GSProofs BasisProofs MathProps2 BasisProofs2 SchurProofs MultProofs CouplingProofs ReducedProofs ConstrainProofs RtpModel RtpSpace RtpTools RtpArr.
Import ListNotations.
Open Scope R_scope.

(* ---------- functions on X as rows ---------- *)
Section Rows.
Context {A : Type}.
Variables (X : list A).
Definition row_of (f : A -> R) : list R := map f X.
Lemma lsum_index d (h : A -> R) : lsum X h = rsum (length X) (fun k => h (nth k X d)).
Proof. rewrite <- (map_nth_all X d) at 1. rewrite lsum_map. apply lsum_seq. Qed.
Lemma row_nth f d k : (k < length X)%nat -> nth k (row_of f) 0 = f (nth k X d).
Proof. intros H. unfold row_of. apply nth_map_at, H. Qed.
Lemma row_inner (f g : A -> R) : inner (length X) (row_of f) (row_of g) = dot X f g.
Proof.
  unfold dot, inner. destruct X as [|x0 X'] eqn:E; [reflexivity|]. rewrite <- E in *. rewrite (lsum_index x0). apply rsum_ext. intros k Hk. rewrite !(row_nth _ x0) by exact Hk. reflexivity.
Qed.
Lemma row_width (S : list (A -> R)) : of_width (length X) (map row_of S).
Proof. apply Forall_map, Forall_forall. intros f _. apply map_length. Qed.
Lemma row_orthonormal (S : list (A -> R)) : orthonormal_list X S -> orthonormal (length X) (map row_of S).
Proof.
  intros [U P] i j Hi Hj. rewrite map_length in Hi, Hj. rewrite !(nth_map_at row_of S _ (fun _ => 0)) by assumption. rewrite row_inner. rewrite Forall_forall in U. destruct (Nat.eqb_spec i j) as [-> |N]; [apply U, nth_In, Hj|].
  destruct (Nat.lt_ge_cases i j) as [L|L]; [apply (pairwise_nth (fun s s' => dot X s s' = 0)); auto|]. rewrite dot_sym. apply (pairwise_nth (fun s s' => dot X s s' = 0)); [exact P|lia].
Qed.
Lemma row_at (S : list (A -> R)) d i k : (i < length S)%nat -> (k < length X)%nat -> at_ (map row_of S) i k = nth i S (fun _ => 0) (nth k X d).
Proof. intros Hi Hk. unfold at_. rewrite (nth_map_at row_of S _ (fun _ => 0)) by exact Hi. apply row_nth, Hk. Qed.
Lemma row_spanned (S : list (A -> R)) d (f : A -> R) : spanned (length X) (map row_of S) (fun k => f (nth k X d)) <-> exists c : nat -> R, forall x, In x X -> f x = rsum (length S) (fun i => c i * nth i S (fun _ => 0) x).
Proof.
  split; intros (c & H); exists c.
  - intros x Hx. destruct (In_nth X x d Hx) as (k & Hk & <-). rewrite (H k Hk), map_length. apply rsum_ext. intros i Hi. rewrite (row_at S d) by assumption. reflexivity.
  - intros k Hk. rewrite map_length. rewrite H by (apply nth_In, Hk). apply rsum_ext. intros i Hi. rewrite (row_at S d) by assumption. reflexivity.
Qed.
Lemma expand_index (S : list (A -> R)) f x : expand X S f x = rsum (length S) (fun i => dot X f (nth i S (fun _ => 0)) * nth i S (fun _ => 0) x).
Proof. unfold expand. rewrite <- (map_nth_all S (fun _ => 0)) at 1. rewrite lsum_map. apply lsum_seq. Qed.
Lemma orthonormal_filter k (S : list (A -> R)) : orthonormal_list X S -> orthonormal_list X (filter k S).
Proof. intros [U P]. split; [apply Forall_forall; intros s Hs; apply filter_In in Hs as [Hs _]; rewrite Forall_forall in U; apply U, Hs|apply pairwise_filter, P]. Qed.
End Rows.

(* ---------- one irrep ---------- *)
Section One.
Context {A : Type}.
Variables (X : list A) (rho : mat -> A -> A -> R).
Hypothesis Pr : preserving X rho.
Hypothesis Adj : adjoint X rho.
Variables (W : (A -> R) -> Prop) (S : list (A -> R)).
Hypothesis OS : orthonormal_list X S.
Hypothesis WS : forall f, W f <-> repro X S f.
Hypothesis Inv : forall r f, orthogonal3 r -> W f -> W (rot X rho r f).
Variables (K : irrep -> Prop) (W0 : (A -> R) -> Prop) (L : list (mult A)).
Hypothesis RL : reduced X rho K W0 L.
Hypothesis Sub : forall f, W f -> W0 f.
Variables (dA : A) (ir : irrep) (k : (A -> R) -> bool).
Hypothesis Kir : K ir.
Let n := count L ir.
Let m0 (u : nat) : A -> R := fun x => member L ir u x 0%nat.
Hypothesis Drop : forall p u, In p S -> k p = false -> (u < n)%nat -> dot X p (m0 u) = 0.
Let M : list (A -> R) := map m0 (seq 0 n).
Let S' := filter k S.
Variables (eigh : list (list R) -> list R * list (list R)) (eps : R).
Hypothesis Ev : forall b1 b2, of_width (length X) b1 -> of_width (length X) b2 -> eigen_ok (length b1 + length b2) (overlap b1 b2) (fst (eigh (overlap b1 b2))) (snd (eigh (overlap b1 b2))).
Hypothesis E1 : 0 < eps <= 1.
Hypothesis Small : 4 * INR (length X) * (eps * eps) < 1.

Lemma dim_pos : (0 < ir_dim ir)%nat. Proof. unfold ir_dim. lia. Qed.
Lemma m0_dot u u' : (u < n)%nat -> (u' < n)%nat -> dot X (m0 u) (m0 u') = delta u u'.
Proof. intros Hu Hu'. unfold m0. rewrite (member_dot X rho K W0 L RL ir u u' 0 0 Hu Hu' dim_pos dim_pos). cbn [Nat.eqb]. ring. Qed.
Lemma M_orthonormal : orthonormal_list X M.
Proof.
  split.
  - apply Forall_forall. intros f Hf. apply in_map_iff in Hf as (u & <- & Hu). apply in_seq in Hu. rewrite m0_dot by lia. rewrite Nat.eqb_refl. reflexivity.
  - unfold M. rewrite pairwise_map. apply (pairwise_impl (fun a b => a <> b)); [|apply pairwise_nodup, seq_NoDup]. intros u u' Hu Hu' N. apply in_seq in Hu, Hu'. rewrite m0_dot by lia. apply Nat.eqb_neq in N. rewrite N. reflexivity.
Qed.
Lemma M_length : length M = n. Proof. unfold M. rewrite map_length, seq_length. reflexivity. Qed.
Lemma M_nth u : (u < n)%nat -> nth u M (fun _ => 0) = m0 u.
Proof. intros H. unfold M. rewrite (nth_map_at m0 _ _ 0%nat) by (rewrite seq_length; exact H). rewrite seq_nth by exact H. reflexivity. Qed.
Lemma drop_expand (f : A -> R) x : (forall p, In p S -> k p = false -> dot X f p = 0) -> expand X S' f x = expand X S f x.
Proof. intros H. unfold expand, S'. rewrite lsum_filter. apply lsum_ext. intros p Hp. destruct (k p) eqn:E; [reflexivity|]. rewrite (H p Hp E). ring. Qed.
Lemma stay u : (u < n)%nat -> exists c : nat -> R, forall x, In x X -> expand X S (m0 u) x = rsum n (fun i => c i * m0 i x).
Proof.
  intros Hu. set (t := (ir, member L ir u) : mult A). set (N := (ir, fun x m => expand X S (comp t m) x) : mult A).
  pose proof (red_cov _ _ _ _ _ RL) as C. rewrite Forall_forall in C. pose proof (C _ (in_member L ir u Hu)) as Ct. fold t in Ct.
  assert (CN : covariant X rho N).
  { intros r x m O Hx Hm. cbn [fst snd N] in *. transitivity (rot X rho r (expand X S (comp t m)) x); [reflexivity|]. rewrite (project_commutes X rho Adj W S OS WS Inv r (comp t m) x O Hx).
    rewrite (expand_ext X S _ (fun y => rsum (ir_dim ir) (fun k' => D_from_matrix r ir k' m * snd t y k'))) by (intros y Hy; apply (Ct r y m O Hy Hm)).
    rewrite (expand_ext X S _ (fun y => lsum (seq 0 (ir_dim ir)) (fun k' => D_from_matrix r ir k' m * snd t y k'))) by (intros; symmetry; apply lsum_seq).
    rewrite (expand_lsum X S (seq 0 (ir_dim ir)) (fun k' => D_from_matrix r ir k' m) (fun k' y => snd t y k')). apply lsum_seq. }
  assert (WN : forall m, (m < ir_dim (fst N))%nat -> W0 (comp N m)) by (intros m Hm; apply Sub, WS, expand_repro, OS).
  exists (fun i => dot X (comp N 0%nat) (fun y => member L (fst N) i y 0%nat)). intros x Hx. exact (by_members X rho Pr K W0 L RL N 0%nat x CN Kir WN dim_pos Hx).
Qed.
Theorem one_irrep : exists P1 P2, basis_intersection eigh eps (fun v => v) (length X) (length X) (map (row_of X) M) (map (row_of X) S') = Ok (P1, P2) /\
  of_width n P1 /\ orthonormal n P1 /\
  (forall p, In p P1 -> W (fun x => rsum n (fun u => nth u p 0 * m0 u x))) /\
  (forall c, W (fun x => rsum n (fun u => c u * m0 u x)) -> spanned n P1 c).
Proof.
  destruct (C54_intersection_of_commuting eigh eps (length X) (map (row_of X) M) (map (row_of X) S')) as (P1 & P2 & H1 & H2 & H3 & H4).
  - apply row_width.
  - apply row_width.
  - apply row_orthonormal, M_orthonormal.
  - apply row_orthonormal, orthonormal_filter, OS.
  - intros u Hu. rewrite map_length, M_length in Hu. rewrite (nth_map_at (row_of X) M _ (fun _ => 0)) by (rewrite M_length; exact Hu). rewrite M_nth by exact Hu. destruct (stay u Hu) as (c & Hc).
    destruct (proj2 (row_spanned X M dA (expand X S (m0 u)))) as (c' & Hc').
    { exists c. intros x Hx. rewrite (Hc x Hx), M_length. apply rsum_ext. intros i Hi. rewrite M_nth by exact Hi. reflexivity. }
    exists c'. intros q Hq. rewrite <- (Hc' q Hq). rewrite <- (drop_expand (m0 u)) by (intros p Hp Ep; rewrite dot_sym; apply Drop; assumption). rewrite expand_index, map_length. apply rsum_ext. intros j Hj. rewrite (row_at X S' dA) by assumption. rewrite (nth_map_at (row_of X) S' _ (fun _ => 0)) by exact Hj. rewrite row_inner, dot_sym. reflexivity.
  - apply Ev; apply row_width.
  - exact E1.
  - eapply Rle_lt_trans; [|exact Small]. apply Rmult_le_compat_r; [nra|]. apply Rmult_le_compat_l; [lra|]. apply le_INR.
    apply (orthonormal_count (length X)); [apply row_width|apply row_orthonormal, M_orthonormal].
  - rewrite map_length, M_length in *. exists P1, P2. split; [exact H1|]. split; [exact H2|]. split; [exact H3|].
    assert (PR : forall (e : nat -> R) q, (q < length X)%nat -> rsum n (fun j => e j * at_ (map (row_of X) M) j q) = rsum n (fun u => e u * m0 u (nth q X dA))).
    { intros e q Hq. apply rsum_ext. intros j Hj. rewrite (row_at X M dA) by (rewrite ?M_length; assumption). rewrite M_nth by exact Hj. reflexivity. }
    split.
    + intros p Hp. destruct (In_nth P1 p [] Hp) as (i & Hi & <-). destruct (proj1 (H4 (fun q => (fun x => rsum n (fun u => nth u (nth i P1 []) 0 * m0 u x)) (nth q X dA)))) as [_ HS].
      { exists (fun j => delta i j). intros q Hq. rewrite (rsum_delta_r (length P1) i (fun i => product_row n P1 (map (row_of X) M) i q) Hi). unfold product_row. rewrite (PR (at_ P1 i) q Hq). reflexivity. }
      destruct (proj1 (row_spanned X S' dA (fun x => rsum n (fun u => nth u (nth i P1 []) 0 * m0 u x))) HS) as (c & Hc). apply WS. apply (repro_ext X S (fun x => lsum (seq 0 (length S')) (fun j => c j * nth j S' (fun _ => 0) x))); [intros x Hx; rewrite lsum_seq; symmetry; apply Hc, Hx|].
      apply (repro_lsum X S (seq 0 (length S')) c (fun j => nth j S' (fun _ => 0))). intros j Hj. apply in_seq in Hj. apply repro_member; [exact OS|]. assert (I' : In (nth j S' (fun _ => 0)) S') by (apply nth_In; lia). apply filter_In in I' as [I' _]. exact I'.
    + intros c Hc. set (f := fun x => rsum n (fun u => c u * m0 u x)) in *. destruct (proj2 (H4 (fun q => f (nth q X dA)))) as (e & He).
      { split.
        - apply row_spanned. exists c. intros x _. unfold f. rewrite M_length. apply rsum_ext. intros u Hu. rewrite M_nth by exact Hu. reflexivity.
        - apply row_spanned. exists (fun i => dot X f (nth i S' (fun _ => 0))). intros x Hx. rewrite <- expand_index, drop_expand.
          + symmetry. apply WS; assumption.
          + intros p Hp Ep. unfold f. rewrite (dot_rsum X n c m0). apply rsum_zero. intros u Hu. rewrite dot_sym, (Drop p u Hp Ep Hu). ring. }
      exists e. intros j Hj.
      assert (Z : forall x, In x X -> f x = rsum n (fun u => rsum (length P1) (fun i => e i * at_ P1 i u) * m0 u x)).
      { intros x Hx. destruct (In_nth X x dA Hx) as (q & Hq & <-). rewrite (He q Hq). rewrite (rsum_ext (length P1) _ (fun i => rsum n (fun u => e i * at_ P1 i u * m0 u (nth q X dA)))) by (intros i _; unfold product_row; rewrite (PR (at_ P1 i) q Hq), <- rsum_scal; apply rsum_ext; intros; ring). rewrite rsum_swap. apply rsum_ext. intros u _. apply rsum_scal_r. }
      assert (Dj : forall h : nat -> R, dot X (fun x => rsum n (fun u => h u * m0 u x)) (m0 j) = h j).
      { intros h. rewrite (dot_rsum X n h m0). rewrite (rsum_ext n _ (fun u => delta j u * h u)) by (intros u Hu; rewrite m0_dot by assumption; rewrite (Nat.eqb_sym u j); ring). apply (rsum_delta_r n j h Hj). }
      rewrite <- (Dj c). change (fun x => rsum n (fun u => c u * m0 u x)) with f. rewrite (dot_ext X f _ (m0 j) (m0 j) Z (fun _ _ => eq_refl)). apply (Dj (fun u => rsum (length P1) (fun i => e i * at_ P1 i u))).
Qed.
End One.
