(* Gram-Schmidt on lists of rows *)
From Coq Require Import Reals Lra Lia List.
From Verif Require Import PyBase PermModel IrrepsModel ArrayModel LeadModel SumR MathModel ArrayProofs LeadProofs ActProofs EntryProofs.
Import ListNotations.
Open Scope nat_scope.

(* ---------- specification ---------- *)
(* rows of the same width *)
Definition of_width (w : nat) (Q : list (list R)) : Prop := Forall (fun q => length q = w) Q.
(* component k of row i *)
Definition at_ (Q : list (list R)) (i k : nat) : R := nth k (nth i Q []) 0%R.
(* the standard inner product *)
Definition inner (w : nat) (u v : list R) : R := rsum w (fun k => nth k u 0 * nth k v 0)%R.
Definition orthonormal (w : nat) (Q : list (list R)) : Prop := forall i j, i < length Q -> j < length Q -> inner w (nth i Q []) (nth j Q []) = if i =? j then 1%R else 0%R.
(* v is a linear combination of the rows of Q *)
Definition spanned (w : nat) (Q : list (list R)) (v : nat -> R) : Prop := exists c : nat -> R, forall k, k < w -> v k = rsum (length Q) (fun i => c i * at_ Q i k)%R.

(* ---------- inner products ---------- *)
Lemma inner_dotR w u v : length u = w -> length v = w -> dotR u v = inner w u v.
Proof. intros. apply dotR_rsum; assumption. Qed.
Lemma inner_comm w u v : inner w u v = inner w v u.
Proof. apply rsum_ext. intros. ring. Qed.
Lemma inner_lin w u v q r : (forall k, k < w -> nth k r 0%R = (nth k v 0 - q * nth k u 0)%R) -> forall z, inner w z r = (inner w z v - q * inner w z u)%R.
Proof.
  intros H z. unfold inner. rewrite <- rsum_scal. transitivity (rsum w (fun k => nth k z 0 * nth k v 0 + - (q * (nth k z 0 * nth k u 0))))%R; [apply rsum_ext; intros k Hk; rewrite H by exact Hk; ring|]. rewrite rsum_plus, rsum_opp. reflexivity.
Qed.
Lemma inner_pos w v : (0 <= inner w v v)%R.
Proof. apply rsum_nonneg. intros k _. nra. Qed.
Lemma inner_zero w v : inner w v v = 0%R -> forall k, k < w -> nth k v 0%R = 0%R.
Proof.
  unfold inner. induction w as [|w IH]; intros H k Hk; [lia|]. cbn [rsum] in H. assert (P : (0 <= rsum w (fun k => nth k v 0 * nth k v 0))%R) by (apply rsum_nonneg; intros; nra).
  destruct (Nat.eq_dec k w) as [-> |N]; [nra|]. apply IH; [nra|lia].
Qed.
Lemma nth_map_in {A B} (f : A -> B) l k d d' : k < length l -> nth k (map f l) d' = f (nth k l d).
Proof. intros H. rewrite (nth_indep _ d' (f d)) by (rewrite map_length; exact H). apply map_nth. Qed.
Lemma subtract_length v q w : length v = w -> length q = w -> length (subtract_along v q) = w.
Proof. intros Lv Lq. unfold subtract_along, zipR. rewrite map_length, combine_length. lia. Qed.
Lemma subtract_nth v q w k : length v = w -> length q = w -> k < w -> nth k (subtract_along v q) 0%R = (nth k v 0 - inner w q v * nth k q 0)%R.
Proof.
  intros Lv Lq Hk. rewrite <- (inner_dotR w q v) by assumption. unfold subtract_along, zipR. rewrite (nth_map_in _ _ _ (0%R, 0%R)) by (rewrite combine_length; lia). rewrite combine_nth by congruence. reflexivity.
Qed.
Lemma residual_snoc Q q v : residual (Q ++ [q]) v = subtract_along (residual Q v) q.
Proof. unfold residual. rewrite fold_left_app. reflexivity. Qed.
Lemma residual_length w Q v : of_width w Q -> length v = w -> length (residual Q v) = w.
Proof.
  intros HQ Lv. induction Q as [|q Q IH] using rev_ind; [exact Lv|]. apply Forall_app in HQ as [HQ Hq]. inversion Hq; subst. rewrite residual_snoc. apply subtract_length; auto.
Qed.
Lemma orthonormal_prefix w Q q : orthonormal w (Q ++ [q]) -> orthonormal w Q /\ (forall i, i < length Q -> inner w (nth i Q []) q = 0%R) /\ inner w q q = 1%R.
Proof.
  intros H. split; [|split].
  - intros i j Hi Hj. specialize (H i j). rewrite app_length in H. rewrite !app_nth1 in H by assumption. apply H; cbn; lia.
  - intros i Hi. specialize (H i (length Q)). rewrite app_length in H. rewrite app_nth1 in H by assumption. rewrite app_nth2, Nat.sub_diag in H by lia. cbn [nth] in H. rewrite H by (cbn; lia). destruct (Nat.eqb_spec i (length Q)); [lia|reflexivity].
  - specialize (H (length Q) (length Q)). rewrite app_length in H. rewrite app_nth2, Nat.sub_diag in H by lia. cbn [nth] in H. rewrite H by (cbn; lia). rewrite Nat.eqb_refl. reflexivity.
Qed.
Lemma orthonormal_snoc w Q q : orthonormal w Q -> (forall i, i < length Q -> inner w (nth i Q []) q = 0%R) -> inner w q q = 1%R -> orthonormal w (Q ++ [q]).
Proof.
  intros HQ H1 H2 i j Hi Hj. rewrite app_length in Hi, Hj. cbn in Hi, Hj. destruct (Nat.eq_dec i (length Q)) as [-> |Ni], (Nat.eq_dec j (length Q)) as [-> |Nj].
  - rewrite app_nth2, Nat.sub_diag, Nat.eqb_refl by lia. exact H2.
  - rewrite app_nth2, Nat.sub_diag by lia. rewrite app_nth1 by lia. cbn [nth]. rewrite inner_comm, H1 by lia. destruct (Nat.eqb_spec (length Q) j); [lia|reflexivity].
  - rewrite app_nth1 by lia. rewrite app_nth2, Nat.sub_diag by lia. cbn [nth]. rewrite H1 by lia. destruct (Nat.eqb_spec i (length Q)); [lia|reflexivity].
  - rewrite !app_nth1 by lia. apply HQ; lia.
Qed.
(* the residual is v minus its projection on the rows of Q *)
Lemma residual_nth w Q v k : of_width w Q -> orthonormal w Q -> length v = w -> k < w -> nth k (residual Q v) 0%R = (nth k v 0 - rsum (length Q) (fun i => inner w (nth i Q []) v * at_ Q i k))%R.
Proof.
  intros HQ HO Lv. revert k. induction Q as [|q Q IH] using rev_ind; intros k Hk; [cbn; ring|]. apply Forall_app in HQ as [HQ Hq]. inversion Hq as [|? ? Lq _]; subst. destruct (orthonormal_prefix _ _ _ HO) as (HO' & H1 & H2). specialize (IH HQ HO').
  rewrite residual_snoc, (subtract_nth _ _ (length v)); [|apply residual_length; auto|exact Lq|exact Hk]. rewrite IH by exact Hk. rewrite app_length. cbn [length]. rewrite Nat.add_1_r. cbn [rsum].
  assert (E : inner (length v) q (residual Q v) = inner (length v) q v).
  { unfold inner at 1. transitivity (rsum (length v) (fun k => nth k q 0 * nth k v 0 - rsum (length Q) (fun i => inner (length v) (nth i Q []) v * (nth k (nth i Q []) 0 * nth k q 0)))%R).
    - apply rsum_ext. intros k' Hk'. rewrite IH by exact Hk'. rewrite Rmult_minus_distr_l. f_equal. rewrite <- rsum_scal. apply rsum_ext. intros i _. unfold at_. ring.
    - unfold Rminus. rewrite rsum_plus, rsum_opp, rsum_swap. rewrite (rsum_zero (length Q)); [fold (inner (length v) q v); ring|]. intros i Hi. rewrite rsum_scal. fold (inner (length v) (nth i Q []) q). rewrite H1 by exact Hi. ring. }
  rewrite E. rewrite (rsum_ext (length Q) (fun i => inner (length v) (nth i (Q ++ [q]) []) v * at_ (Q ++ [q]) i k)%R (fun i => inner (length v) (nth i Q []) v * at_ Q i k)%R) by (intros i Hi; unfold at_; rewrite app_nth1 by exact Hi; reflexivity).
  unfold at_. rewrite app_nth2, Nat.sub_diag by lia. cbn [nth]. ring.
Qed.
Lemma residual_orth w Q v j : of_width w Q -> orthonormal w Q -> length v = w -> j < length Q -> inner w (nth j Q []) (residual Q v) = 0%R.
Proof.
  intros HQ HO Lv Hj. unfold inner. transitivity (rsum w (fun k => nth k (nth j Q []) 0 * nth k v 0 - rsum (length Q) (fun i => inner w (nth i Q []) v * (nth k (nth j Q []) 0 * nth k (nth i Q []) 0)))%R).
  - apply rsum_ext. intros k Hk. rewrite (residual_nth w) by assumption. rewrite Rmult_minus_distr_l. f_equal. rewrite <- rsum_scal. apply rsum_ext. intros i _. unfold at_. ring.
  - unfold Rminus. rewrite rsum_plus, rsum_opp, rsum_swap. rewrite (rsum_ext (length Q) _ (fun i => (if Nat.eqb j i then 1 else 0) * inner w (nth i Q []) v)%R).
    + rewrite (rsum_delta_r _ j (fun i => inner w (nth i Q []) v)) by exact Hj. fold (inner w (nth j Q []) v). ring.
    + intros i Hi. rewrite rsum_scal. fold (inner w (nth j Q []) (nth i Q [])). rewrite HO by assumption. ring.
Qed.
Definition unit_of (v : list R) : list R := map (fun r => r / norm2 v)%R v.
Lemma unit_nth v k : nth k (unit_of v) 0%R = (nth k v 0 / norm2 v)%R.
Proof.
  unfold unit_of. destruct (Nat.lt_ge_cases k (length v)) as [H|H].
  - rewrite (nth_indep _ 0%R (0 / norm2 v)%R) by (rewrite map_length; exact H). apply (map_nth (fun r => (r / norm2 v)%R)).
  - rewrite !nth_overflow by (try rewrite map_length; exact H). unfold Rdiv. ring.
Qed.
Lemma norm2_sq w v : length v = w -> (norm2 v * norm2 v)%R = inner w v v.
Proof. intros L. unfold norm2. rewrite (inner_dotR w) by assumption. apply sqrt_sqrt, inner_pos. Qed.
Lemma inner_unit_r w u v : inner w u (unit_of v) = (inner w u v / norm2 v)%R.
Proof. unfold inner. unfold Rdiv. rewrite <- rsum_scal_r. apply rsum_ext. intros k _. rewrite unit_nth. unfold Rdiv. ring. Qed.
Lemma unit_extends w Q v : of_width w Q -> orthonormal w Q -> length v = w -> (0 < norm2 (residual Q v))%R -> of_width w (Q ++ [unit_of (residual Q v)]) /\ orthonormal w (Q ++ [unit_of (residual Q v)]).
Proof.
  intros HQ HO Lv Hn. pose proof (residual_length w Q v HQ Lv) as Lr. split.
  - apply Forall_app. split; [exact HQ|]. constructor; [|constructor]. unfold unit_of. rewrite map_length. exact Lr.
  - apply orthonormal_snoc; [exact HO| |].
    + intros i Hi. rewrite inner_unit_r, residual_orth by assumption. unfold Rdiv. ring.
    + rewrite inner_unit_r, inner_comm, inner_unit_r. rewrite <- (norm2_sq w) by exact Lr. field. lra.
Qed.

(* ---------- spans ---------- *)
Lemma spanned_ext w Q v v' : (forall k, k < w -> v k = v' k) -> spanned w Q v -> spanned w Q v'.
Proof. intros E (c & H). exists c. intros k Hk. rewrite <- E by exact Hk. apply H, Hk. Qed.
Lemma spanned_row w Q i : i < length Q -> spanned w Q (at_ Q i).
Proof. intros Hi. exists (fun j => if j =? i then 1 else 0)%R. intros k _. symmetry. apply (rsum_delta_l _ i (fun j => at_ Q j k) Hi). Qed.
Lemma spanned_comb w Q a u b v : spanned w Q u -> spanned w Q v -> spanned w Q (fun k => a * u k + b * v k)%R.
Proof. intros (c & Hc) (d & Hd). exists (fun i => a * c i + b * d i)%R. intros k Hk. rewrite Hc, Hd by exact Hk. rewrite <- !rsum_scal, <- rsum_plus. apply rsum_ext. intros. ring. Qed.
Lemma spanned_sum w Q n (f : nat -> nat -> R) c : (forall i, i < n -> spanned w Q (f i)) -> spanned w Q (fun k => rsum n (fun i => c i * f i k))%R.
Proof.
  intros H. induction n as [|n IH]; [exists (fun _ => 0%R); intros k _; cbn; rewrite rsum_zero; [reflexivity|intros; ring]|].
  apply (spanned_ext w Q (fun k => 1 * rsum n (fun i => c i * f i k) + c n * f n k)%R); [intros k _; cbn [rsum]; ring|]. apply spanned_comb; [apply IH; auto|apply H; lia].
Qed.
Lemma spanned_trans w P Q v : (forall i, i < length P -> spanned w Q (at_ P i)) -> spanned w P v -> spanned w Q v.
Proof. intros H (c & Hc). apply (spanned_ext w Q (fun k => rsum (length P) (fun i => c i * at_ P i k))%R); [intros k Hk; symmetry; apply Hc, Hk|]. apply spanned_sum, H. Qed.
Lemma spanned_app_l w P Q v : spanned w P v -> spanned w (P ++ Q) v.
Proof. apply spanned_trans. intros i Hi. apply (spanned_ext w _ (at_ (P ++ Q) i)); [intros k _; unfold at_; rewrite app_nth1 by exact Hi; reflexivity|]. apply spanned_row. rewrite app_length. lia. Qed.
Lemma spanned_app_r w P Q v : spanned w Q v -> spanned w (P ++ Q) v.
Proof. apply spanned_trans. intros i Hi. apply (spanned_ext w _ (at_ (P ++ Q) (length P + i))); [intros k _; unfold at_; rewrite app_nth2_plus; reflexivity|]. apply spanned_row. rewrite app_length. lia. Qed.

(* ---------- the loop ---------- *)
Definition same (v : list R) : list R := v.
Lemma residual_spanned w Q v : of_width w Q -> orthonormal w Q -> length v = w -> spanned w Q (fun k => nth k v 0 - nth k (residual Q v) 0)%R.
Proof. intros HQ HO Lv. exists (fun i => inner w (nth i Q []) v). intros k Hk. rewrite (residual_nth w) by assumption. ring. Qed.
Lemma unit_spanned w Q v : spanned w Q (fun k => nth k v 0%R) -> spanned w Q (fun k => nth k (unit_of v) 0%R).
Proof. intros H. apply (spanned_ext w Q (fun k => / norm2 v * nth k v 0 + 0 * nth k v 0)%R); [intros k _; rewrite unit_nth; unfold Rdiv; ring|]. apply spanned_comb; exact H. Qed.
Lemma spanned_unit w Q v : norm2 v <> 0%R -> spanned w Q (fun k => nth k (unit_of v) 0%R) -> spanned w Q (fun k => nth k v 0%R).
Proof. intros N H. apply (spanned_ext w Q (fun k => norm2 v * nth k (unit_of v) 0 + 0 * nth k (unit_of v) 0)%R); [intros k _; rewrite unit_nth; field; exact N|]. apply spanned_comb; exact H. Qed.
Record gs_ok (w : nat) (eps : R) (A Q : list (list R)) (E A' : list (list R)) : Prop := {
  go_width : of_width w (Q ++ E);
  go_orth : orthonormal w (Q ++ E);
  go_count : length E <= length A;
  go_rows : length A' = length A;
  go_mut : of_width w A';
  go_new : forall i, i < length E -> spanned w (Q ++ A) (at_ E i);
  go_proj : forall i, i < length A -> spanned w (Q ++ E) (fun k => at_ A i k - at_ A' i k)%R;
  go_res : forall i, i < length A -> spanned w (Q ++ E) (at_ A' i) \/ (norm2 (nth i A' []) <= eps)%R }.
Lemma gs_loop_ok w eps A : (0 <= eps)%R -> of_width w A -> forall Q, of_width w Q -> orthonormal w Q -> exists E A', gs_loop same eps A Q = (Q ++ E, A') /\ gs_ok w eps A Q E A'.
Proof.
  intros He. induction A as [|a A IH]; intros HA Q HQ HO.
  - exists [], []. cbn [gs_loop]. rewrite app_nil_r. split; [reflexivity|]. constructor; rewrite ?app_nil_r; auto; try (intros i Hi; cbn in Hi; lia).
  - inversion HA as [|? ? La HA']; subst. set (w := length a) in *. cbn [gs_loop]. set (v := residual Q a). assert (Lv : length v = w) by (apply residual_length; auto). pose proof (residual_spanned w Q a HQ HO eq_refl) as Sr. fold v in Sr.
    destruct (Rlt_dec eps (norm2 v)) as [Hn|Hn].
    + change (same (map (fun r => r / norm2 v)%R v)) with (unit_of v). destruct (unit_extends w Q a HQ HO eq_refl) as [HQ1 HO1]; [fold v; lra|]. fold v in HQ1, HO1. destruct (IH HA' (Q ++ [unit_of v]) HQ1 HO1) as (E & A' & -> & G). exists (unit_of v :: E), (v :: A'). split; [rewrite <- app_assoc; reflexivity|].
      destruct G as [G1 G2 G3 G4 G5 G6 G7 G8]. rewrite <- app_assoc in *. cbn [app] in *.
      assert (Sv : spanned w (Q ++ a :: A) (fun k => nth k v 0%R)).
      { apply (spanned_ext w _ (fun k => 1 * nth k a 0 + -1 * (nth k a 0 - nth k v 0))%R); [intros k _; ring|]. apply spanned_comb; [|apply spanned_app_l; exact Sr]. apply spanned_app_r. apply (spanned_row w (a :: A) 0). cbn. lia. }
      assert (Sq : spanned w (Q ++ unit_of v :: E) (fun k => nth k v 0%R)). { apply spanned_unit; [lra|]. apply spanned_app_r. apply (spanned_row w (unit_of v :: E) 0). cbn. lia. }
      constructor; auto.
      * cbn. lia.
      * cbn. lia.
      * constructor; assumption.
      * intros [|i] Hi; [apply unit_spanned; exact Sv|]. cbn in Hi. eapply spanned_trans; [|apply (G6 i); lia]. intros j Hj. rewrite app_length in Hj. cbn [length] in Hj. destruct (Nat.lt_trichotomy j (length Q)) as [L|[-> |L]].
        -- apply (spanned_ext w _ (at_ Q j)); [intros k _; unfold at_; rewrite app_nth1 by exact L; reflexivity|]. apply spanned_app_l, spanned_row, L.
        -- apply (spanned_ext w _ (fun k => nth k (unit_of v) 0%R)); [intros k _; unfold at_; rewrite app_nth2, Nat.sub_diag by lia; reflexivity|]. apply unit_spanned, Sv.
        -- apply (spanned_ext w _ (at_ (Q ++ a :: A) j)); [intros k _; unfold at_; rewrite !app_nth2 by lia; replace (j - length Q) with (S (j - length Q - 1)) by lia; reflexivity|]. apply spanned_row. rewrite app_length. cbn [length]. lia.
      * intros [|i] Hi; [|apply (G7 i); cbn in Hi; lia]. apply (spanned_ext w _ (fun k => (nth k a 0 - nth k v 0))%R); [intros; reflexivity|]. apply spanned_app_l. exact Sr.
      * intros [|i] Hi; [left; exact Sq|]. apply (G8 i). cbn in Hi. lia.
    + destruct (IH HA' Q HQ HO) as (E & A' & -> & G). exists E, (v :: A'). split; [reflexivity|]. destruct G as [G1 G2 G3 G4 G5 G6 G7 G8]. constructor; auto.
      * cbn. lia.
      * cbn. lia.
      * constructor; assumption.
      * intros i Hi. eapply spanned_trans; [|apply (G6 i Hi)]. intros j Hj. rewrite app_length in Hj. destruct (Nat.lt_ge_cases j (length Q)) as [L|L].
        -- apply (spanned_ext w _ (at_ Q j)); [intros k _; unfold at_; rewrite app_nth1 by exact L; reflexivity|]. apply spanned_app_l, spanned_row, L.
        -- apply (spanned_ext w _ (at_ (Q ++ a :: A) (S j))); [intros k _; unfold at_; rewrite !app_nth2 by lia; replace (S j - length Q) with (S (j - length Q)) by lia; reflexivity|]. apply spanned_row. rewrite app_length. cbn [length]. lia.
      * intros [|i] Hi; [|apply (G7 i); cbn in Hi; lia]. apply (spanned_ext w _ (fun k => (nth k a 0 - nth k v 0))%R); [intros; reflexivity|]. apply spanned_app_l. exact Sr.
      * intros [|i] Hi; [right; cbn [nth]; lra|]. apply (G8 i). cbn in Hi. lia.
Qed.

(* ---------- an orthonormal family of rows of width w has at most w of them (Bessel) ---------- *)
Lemma bessel w Q k : of_width w Q -> orthonormal w Q -> k < w -> (rsum (length Q) (fun i => at_ Q i k * at_ Q i k) <= 1)%R.
Proof.
  intros HQ HO Hk. set (e := tab w (fun j => if j =? k then 1 else 0)%R). assert (Le : length e = w) by apply tab_length.
  assert (Ie : forall u, inner w u e = nth k u 0%R). { intros u. unfold inner. rewrite (rsum_ext _ _ (fun j => (if Nat.eqb j k then 1 else 0) * nth j u 0)%R); [apply (rsum_delta_l w k (fun j => nth j u 0%R) Hk)|]. intros j Hj. unfold e. rewrite nth_tab by exact Hj. ring. }
  pose proof (inner_pos w (residual Q e)) as P.
  assert (X : inner w (residual Q e) (residual Q e) = (1 - rsum (length Q) (fun i => at_ Q i k * at_ Q i k))%R).
  { transitivity (inner w (residual Q e) e).
    - unfold inner. rewrite (rsum_ext w (fun k0 => nth k0 (residual Q e) 0 * nth k0 (residual Q e) 0)%R (fun k0 => nth k0 (residual Q e) 0 * nth k0 e 0 - rsum (length Q) (fun i => inner w (nth i Q []) e * (nth k0 (nth i Q []) 0 * nth k0 (residual Q e) 0)))%R).
      + unfold Rminus. rewrite rsum_plus, rsum_opp, rsum_swap. rewrite (rsum_zero (length Q)); [ring|]. intros i Hi. rewrite rsum_scal. fold (inner w (nth i Q []) (residual Q e)). rewrite residual_orth by assumption. ring.
      + intros j Hj. rewrite (residual_nth w Q e j) at 2 by assumption. rewrite Rmult_minus_distr_l. f_equal. rewrite <- rsum_scal. apply rsum_ext. intros i _. unfold at_. ring.
    - rewrite Ie, (residual_nth w) by assumption. unfold e. rewrite nth_tab by exact Hk. rewrite Nat.eqb_refl. f_equal. apply rsum_ext. intros i _. fold e. rewrite Ie. reflexivity. }
  lra.
Qed.
Lemma orthonormal_count w Q : of_width w Q -> orthonormal w Q -> length Q <= w.
Proof.
  intros HQ HO. apply INR_le. assert (E : rsum (length Q) (fun i => rsum w (fun k => at_ Q i k * at_ Q i k)%R) = INR (length Q)).
  { rewrite (rsum_ext _ _ (fun _ => 1%R)); [rewrite rsum_const; ring|]. intros i Hi. specialize (HO i i Hi Hi). rewrite Nat.eqb_refl in HO. exact HO. }
  rewrite <- E, rsum_swap. rewrite <- (Rmult_1_r (INR w)), <- rsum_const. assert (W : forall n f g, (forall k, k < n -> (f k <= g k)%R) -> (rsum n f <= rsum n g)%R).
  { induction n as [|n IHn]; intros f g H; cbn [rsum]; [lra|]. specialize (H n ltac:(lia)) as Hn. specialize (IHn f g (fun k Hk => H k ltac:(lia))). lra. }
  apply W. intros k Hk. apply (bessel w Q k); assumption.
Qed.
(* rows that are already orthonormal *)
Lemma residual_orthonormal w Q q : of_width w Q -> orthonormal w (Q ++ [q]) -> length q = w -> residual Q q = q.
Proof.
  intros HQ HO Lq. destruct (orthonormal_prefix _ _ _ HO) as (HO' & H1 & _). apply (nth_ext _ _ 0%R 0%R); [rewrite (residual_length w); auto|]. intros k Hk. rewrite (residual_length w) in Hk by auto. rewrite (residual_nth w) by assumption. rewrite rsum_zero; [ring|]. intros i Hi. rewrite H1 by exact Hi. ring.
Qed.
Lemma gs_loop_orthonormal w eps A : (eps < 1)%R -> of_width w A -> forall Q, of_width w Q -> orthonormal w (Q ++ A) -> gs_loop same eps A Q = (Q ++ A, A).
Proof.
  intros He. induction A as [|a A IH]; intros HA Q HQ HO; [cbn [gs_loop]; rewrite app_nil_r; reflexivity|]. inversion HA as [|? ? La HA']; subst. set (w := length a) in *.
  assert (HO1 : orthonormal w (Q ++ [a])). { intros i j Hi Hj. rewrite app_length in Hi, Hj. cbn in Hi, Hj. specialize (HO i j). rewrite app_length in HO. cbn [length] in HO. rewrite <- HO by lia. replace (Q ++ a :: A) with ((Q ++ [a]) ++ A) by (rewrite <- app_assoc; reflexivity). rewrite !(app_nth1 (Q ++ [a]) A) by (rewrite app_length; cbn; lia). reflexivity. }
  cbn [gs_loop]. rewrite (residual_orthonormal w) by (auto; reflexivity). destruct (orthonormal_prefix _ _ _ HO1) as (_ & _ & N1). assert (N : norm2 a = 1%R) by (unfold norm2; rewrite (inner_dotR w) by reflexivity; rewrite N1; apply sqrt_1). rewrite N. destruct (Rlt_dec eps 1) as [_|C]; [|contradiction].
  assert (Ea : same (map (fun r => r / 1)%R a) = a) by (unfold same; rewrite <- (map_id a) at 2; apply map_ext; intros r; field). rewrite Ea. rewrite IH; [rewrite <- app_assoc; reflexivity|exact HA'|apply Forall_app; split; [exact HQ|constructor; [reflexivity|constructor]]|rewrite <- app_assoc; exact HO].
Qed.
Lemma gs_keep f eps a A Q v n : residual Q a = v -> norm2 v = n -> (eps < n)%R -> gs_loop f eps (a :: A) Q = (fst (gs_loop f eps A (Q ++ [f (map (fun r => r / n)%R v)])), v :: snd (gs_loop f eps A (Q ++ [f (map (fun r => r / n)%R v)]))).
Proof. intros Ev En H. cbn [gs_loop]. rewrite Ev, En. destruct (Rlt_dec eps n) as [_|C]; [|contradiction]. destruct (gs_loop f eps A _); reflexivity. Qed.
Lemma gs_drop f eps a A Q v n : residual Q a = v -> norm2 v = n -> (n <= eps)%R -> gs_loop f eps (a :: A) Q = (fst (gs_loop f eps A Q), v :: snd (gs_loop f eps A Q)).
Proof. intros Ev En H. cbn [gs_loop]. rewrite Ev, En. destruct (Rlt_dec eps n) as [C|_]; [lra|]. destruct (gs_loop f eps A _); reflexivity. Qed.
