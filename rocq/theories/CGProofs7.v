(* The matrix exponential: convergence, products of commuting exponentials, and intertwiners *)
From Coq Require Import Reals ZArith Arith Bool Lia Lra Psatz.
From Coquelicot Require Import Rcomplements Series PSeries Hierarchy ElemFct.
From Verif Require Import SumR CGModel CGProofs.
Open Scope R_scope.

Definition mnorm (d : nat) (a : rmat) : R := rsum d (fun i => rsum d (fun j => Rabs (a i j))).
Lemma rsum_le n f g : (forall k, (k < n)%nat -> f k <= g k) -> rsum n f <= rsum n g.
Proof. induction n as [|n IH]; intro H; cbn [rsum]; [lra|]. apply Rplus_le_compat; [apply IH; auto|apply H; lia]. Qed.
Lemma rsum_abs n f : Rabs (rsum n f) <= rsum n (fun k => Rabs (f k)).
Proof. induction n as [|n IH]; cbn [rsum]; [rewrite Rabs_R0; lra|]. eapply Rle_trans; [apply Rabs_triang|]. lra. Qed.
Lemma rsum_single n f k : (forall i, (i < n)%nat -> 0 <= f i) -> (k < n)%nat -> f k <= rsum n f.
Proof.
  induction n as [|n IH]; intros H L; [lia|]. cbn [rsum]. assert (0 <= rsum n f) by (apply rsum_nonneg; auto). destruct (Nat.eq_dec k n) as [->|N]; [lra|].
  specialize (IH ltac:(auto) ltac:(lia)). specialize (H n ltac:(lia)). lra.
Qed.
Lemma mnorm_pos d a : 0 <= mnorm d a.
Proof. apply rsum_nonneg. intros. apply rsum_nonneg. intros. apply Rabs_pos. Qed.
Lemma mpow_bound d a n : forall i j, (i < d)%nat -> (j < d)%nat -> Rabs (mpow d a n i j) <= mnorm d a ^ n.
Proof.
  induction n as [|n IH]; intros i j Hi Hj.
  - cbn [mpow pow]. unfold mone. destruct (i =? j)%nat; [rewrite Rabs_R1|rewrite Rabs_R0]; lra.
  - cbn [mpow]. unfold mmul. eapply Rle_trans; [apply rsum_abs|]. rewrite <- tech_pow_Rmult.
    eapply Rle_trans with (rsum d (fun k => Rabs (a i k) * mnorm d a ^ n)).
    + apply rsum_le. intros k Hk. rewrite Rabs_mult. apply Rmult_le_compat_l; [apply Rabs_pos|auto].
    + rewrite rsum_scal_r. apply Rmult_le_compat_r; [apply pow_le, mnorm_pos|]. unfold mnorm. apply (rsum_single d (fun i => rsum d (fun j => Rabs (a i j))) i); [|assumption]. intros. apply rsum_nonneg. intros. apply Rabs_pos.
Qed.
Lemma exp_ex x : ex_series (fun n => x ^ n / INR (fact n)).
Proof.
  exists (exp x). apply (is_series_ext (fun n => scal (pow_n x n) (/ INR (fact n)))); [|exact (is_exp_Reals x)].
  intro n. change (pow_n x n * / INR (fact n) = x ^ n / INR (fact n)). rewrite pow_n_pow. reflexivity.
Qed.
Definition xp (d : nat) (a : rmat) (n : nat) : rmat := fun i j => mpow d a n i j / INR (fact n).
Lemma xp_abs_ex d a i j : (i < d)%nat -> (j < d)%nat -> ex_series (fun n => Rabs (xp d a n i j)).
Proof.
  intros Hi Hj. apply (ex_series_le (K := R_AbsRing) (V := R_CompleteNormedModule)) with (2 := exp_ex (mnorm d a)). intro n. unfold xp.
  change (Rabs (Rabs (mpow d a n i j / INR (fact n))) <= mnorm d a ^ n / INR (fact n)). rewrite Rabs_Rabsolu. assert (0 < INR (fact n)) by apply INR_fact_lt_0. unfold Rdiv. rewrite Rabs_mult, Rabs_inv, (Rabs_pos_eq (INR _)) by lra.
  apply Rmult_le_compat_r; [left; now apply Rinv_0_lt_compat|now apply mpow_bound].
Qed.
Lemma expm_is d a i j : (i < d)%nat -> (j < d)%nat -> is_series (fun n => xp d a n i j) (expm d a i j).
Proof. intros Hi Hj. apply Series_correct, ex_series_Rabs. now apply xp_abs_ex. Qed.
Lemma is_series_rsum d (f : nat -> nat -> R) (s : nat -> R) : (forall i, (i < d)%nat -> is_series (f i) (s i)) -> is_series (fun n => rsum d (fun i => f i n)) (rsum d s).
Proof.
  induction d as [|d IH]; intro H; cbn [rsum].
  - assert (E : is_series (fun n => 0 * 0 ^ n) (0 * / (1 - 0))).
    { apply (is_series_scal (V := R_NormedModule) 0 (fun n => 0 ^ n)). apply is_series_geom. rewrite Rabs_R0. lra. }
    rewrite Rmult_0_l in E. apply (is_series_ext (fun n => 0 * 0 ^ n)); [intro; apply Rmult_0_l|exact E].
  - apply (is_series_plus (V := R_NormedModule)); [apply IH; auto|apply H; lia].
Qed.
Lemma is_series_scalR c f s : is_series f s -> is_series (fun n => c * f n) (c * s).
Proof. exact (is_series_scal (V := R_NormedModule) c f s). Qed.
Lemma sum_f_rsum f n : sum_f_R0 f n = rsum (S n) f.
Proof. induction n as [|n IH]; [cbn; lra|]. cbn [sum_f_R0]. rewrite IH. reflexivity. Qed.

Lemma xp_S d a n i j : mmul d a (xp d a n) i j = INR (S n) * xp d a (S n) i j.
Proof.
  unfold xp. rewrite fact_simpl, mult_INR. assert (INR (fact n) <> 0) by apply INR_fact_neq_0. assert (INR (S n) <> 0) by (apply not_0_INR; lia).
  transitivity (mpow d a (S n) i j / INR (fact n)); [|field; auto]. cbn [mpow]. unfold mmul, Rdiv. rewrite <- rsum_scal_r. apply rsum_ext. intros; ring.
Qed.
(* an index-free Cauchy sum: f p q with p + q = n *)
Definition conv (n : nat) (f : nat -> nat -> R) : R := rsum (S n) (fun p => f p (n - p)%nat).
Lemma conv_step n (f g h : nat -> nat -> R) : (forall p q, f p q = INR (S p) * h (S p) q) -> (forall p q, g p q = INR (S q) * h p (S q)) ->
  conv n f + conv n g = INR (S n) * conv (S n) h.
Proof.
  intros Hf Hg. unfold conv. rewrite <- rsum_scal.
  transitivity (rsum (S (S n)) (fun p => INR p * h p (S n - p)%nat) + rsum (S (S n)) (fun p => INR (S n - p) * h p (S n - p)%nat)).
  - f_equal.
    + rewrite (rsum_S_l (S n)). change (INR 0) with 0. rewrite Rmult_0_l, Rplus_0_l. apply rsum_ext. intros p Hp. rewrite Hf. reflexivity.
    + change (rsum (S (S n)) (fun p => INR (S n - p) * h p (S n - p)%nat)) with (rsum (S n) (fun p => INR (S n - p) * h p (S n - p)%nat) + INR (S n - S n) * h (S n) (S n - S n)%nat).
      replace (S n - S n)%nat with 0%nat by lia. change (INR 0) with 0. rewrite Rmult_0_l, Rplus_0_r.
      apply rsum_ext. intros p Hp. rewrite Hg. replace (S n - p)%nat with (S (n - p)) by lia. reflexivity.
  - rewrite <- rsum_plus. apply rsum_ext. intros p Hp. rewrite minus_INR by lia. ring.
Qed.

(* an intertwiner of the algebra intertwines the exponentials *)
Section Coupling.
  Variables (d1 d2 d3 : nat) (c : nat -> nat -> nat -> R) (A1 A2 A3 : rmat).
  Hypothesis H : forall a b k, (a < d1)%nat -> (b < d2)%nat -> (k < d3)%nat ->
    rsum d1 (fun i => c i b k * A1 i a) + rsum d2 (fun j => c a j k * A2 j b) = rsum d3 (fun m => A3 k m * c a b m).
  Let W (k a b p q : nat) : R := rsum d1 (fun i => rsum d2 (fun j => c i j k * xp d1 A1 p i a * xp d2 A2 q j b)).
  Lemma W_step k a b p q : (a < d1)%nat -> (b < d2)%nat -> (k < d3)%nat ->
    rsum d3 (fun m => A3 k m * W m a b p q) = INR (S p) * W k a b (S p) q + INR (S q) * W k a b p (S q).
  Proof.
    intros Ha Hb Hk. unfold W.
    transitivity (rsum d1 (fun i => rsum d2 (fun j => rsum d3 (fun m => A3 k m * c i j m) * xp d1 A1 p i a * xp d2 A2 q j b))).
    { rewrite (rsum_ext d3 _ (fun m => rsum d1 (fun i => rsum d2 (fun j => A3 k m * c i j m * xp d1 A1 p i a * xp d2 A2 q j b)))).
      - rewrite rsum_swap. apply rsum_ext. intros i Hi. rewrite rsum_swap. apply rsum_ext. intros j Hj. rewrite <- !rsum_scal_r. reflexivity.
      - intros m Hm. rewrite <- rsum_scal. apply rsum_ext. intros i Hi. rewrite <- rsum_scal. apply rsum_ext. intros; ring. }
    transitivity (rsum d1 (fun i => rsum d2 (fun j => rsum d1 (fun i' => c i' j k * A1 i' i) * xp d1 A1 p i a * xp d2 A2 q j b)) + rsum d1 (fun i => rsum d2 (fun j => rsum d2 (fun j' => c i j' k * A2 j' j) * xp d1 A1 p i a * xp d2 A2 q j b))).
    { rewrite <- rsum_plus. apply rsum_ext. intros i Hi. rewrite <- rsum_plus. apply rsum_ext. intros j Hj. rewrite <- H by assumption. ring. }
    f_equal.
    - rewrite rsum_swap. rewrite <- rsum_scal. rewrite (rsum_ext d1 (fun k0 => INR (S p) * _) (fun i => rsum d2 (fun j => c i j k * mmul d1 A1 (xp d1 A1 p) i a * xp d2 A2 q j b))).
      2: { intros i Hi. rewrite <- rsum_scal. apply rsum_ext. intros j Hj. rewrite xp_S. ring. }
      rewrite (rsum_swap d1 d2). apply rsum_ext. intros j Hj.
      rewrite (rsum_ext d1 _ (fun i => rsum d1 (fun i' => c i' j k * A1 i' i * xp d1 A1 p i a * xp d2 A2 q j b))) by (intros; rewrite <- !rsum_scal_r; reflexivity).
      rewrite rsum_swap. apply rsum_ext. intros i Hi. unfold mmul. rewrite <- rsum_scal, <- rsum_scal_r. apply rsum_ext. intros; ring.
    - rewrite <- rsum_scal. apply rsum_ext. intros i Hi. rewrite <- rsum_scal.
      rewrite (rsum_ext d2 (fun k0 => INR (S q) * _) (fun j => c i j k * xp d1 A1 p i a * mmul d2 A2 (xp d2 A2 q) j b)) by (intros; rewrite xp_S; ring).
      rewrite (rsum_ext d2 _ (fun j => rsum d2 (fun j' => c i j' k * A2 j' j * xp d1 A1 p i a * xp d2 A2 q j b))) by (intros; rewrite <- !rsum_scal_r; reflexivity).
      rewrite rsum_swap. apply rsum_ext. intros j Hj. unfold mmul. rewrite <- rsum_scal. apply rsum_ext. intros; ring.
  Qed.
  Lemma W_0 k a b : (a < d1)%nat -> (b < d2)%nat -> W k a b 0 0 = c a b k.
  Proof.
    intros Ha Hb. unfold W, xp, mpow, mone. change (INR (fact 0)) with 1.
    rewrite (rsum_ext d1 _ (fun i => (if (i =? a)%nat then 1 else 0) * rsum d2 (fun j => (if (j =? b)%nat then 1 else 0) * c i j k))).
    - rewrite rsum_delta_l by assumption. now rewrite rsum_delta_l.
    - intros i Hi. rewrite <- rsum_scal. apply rsum_ext. intros j Hj. field.
  Qed.
  Lemma coupling_power n : forall k a b, (a < d1)%nat -> (b < d2)%nat -> (k < d3)%nat ->
    rsum d3 (fun m => xp d3 A3 n k m * c a b m) = conv n (fun p q => W k a b p q).
  Proof.
    induction n as [|n IH]; intros k a b Ha Hb Hk.
    - unfold conv. cbn [rsum]. change (0 - 0)%nat with 0%nat. rewrite W_0, Rplus_0_l by assumption. unfold xp, mpow, mone. change (INR (fact 0)) with 1.
      rewrite (rsum_ext d3 _ (fun m => (if (k =? m)%nat then 1 else 0) * c a b m)) by (intros; field). now apply rsum_delta_r.
    - assert (N : INR (S n) <> 0) by (apply not_0_INR; lia). apply (Rmult_eq_reg_l (INR (S n))); [|assumption].
      transitivity (rsum d3 (fun m => A3 k m * rsum d3 (fun m' => xp d3 A3 n m m' * c a b m'))).
      + rewrite <- rsum_scal. rewrite (rsum_ext d3 _ (fun m => mmul d3 A3 (xp d3 A3 n) k m * c a b m)) by (intros; rewrite xp_S; ring).
        rewrite (rsum_ext d3 (fun m => A3 k m * _) (fun m => rsum d3 (fun m' => A3 k m * xp d3 A3 n m m' * c a b m'))) by (intros; rewrite <- rsum_scal; apply rsum_ext; intros; ring).
        rewrite rsum_swap. apply rsum_ext. intros m Hm. unfold mmul. rewrite <- rsum_scal_r. apply rsum_ext. intros; ring.
      + rewrite (rsum_ext d3 _ (fun m => A3 k m * conv n (fun p q => W m a b p q))) by (intros; rewrite IH by assumption; reflexivity).
        rewrite <- (conv_step n (fun p q => INR (S p) * W k a b (S p) q) (fun p q => INR (S q) * W k a b p (S q)) (fun p q => W k a b p q)) by reflexivity.
        unfold conv. rewrite (rsum_ext d3 _ (fun m => rsum (S n) (fun p => A3 k m * W m a b p (n - p)%nat))) by (intros; rewrite <- rsum_scal; reflexivity).
        rewrite rsum_swap, <- rsum_plus. apply rsum_ext. intros p Hp. now apply W_step.
  Qed.
  Theorem coupling_exp k a b : (a < d1)%nat -> (b < d2)%nat -> (k < d3)%nat ->
    rsum d3 (fun m => expm d3 A3 k m * c a b m) = rsum d1 (fun i => rsum d2 (fun j => c i j k * expm d1 A1 i a * expm d2 A2 j b)).
  Proof.
    intros Ha Hb Hk.
    assert (S1 : is_series (fun n => rsum d3 (fun m => xp d3 A3 n k m * c a b m)) (rsum d3 (fun m => expm d3 A3 k m * c a b m))).
    { apply (is_series_rsum d3 (fun m n => xp d3 A3 n k m * c a b m)). intros m Hm. rewrite Rmult_comm. apply (is_series_ext (fun n => c a b m * xp d3 A3 n k m)); [intro; apply Rmult_comm|]. apply is_series_scalR. now apply expm_is. }
    assert (S2 : is_series (fun n => conv n (fun p q => W k a b p q)) (rsum d1 (fun i => rsum d2 (fun j => c i j k * expm d1 A1 i a * expm d2 A2 j b)))).
    { apply (is_series_ext (fun n => rsum d1 (fun i => rsum d2 (fun j => c i j k * conv n (fun p q => xp d1 A1 p i a * xp d2 A2 q j b))))).
      - intro n. unfold conv, W. symmetry.
        rewrite (rsum_swap (S n) d1). apply rsum_ext. intros i Hi. rewrite (rsum_swap (S n) d2). apply rsum_ext. intros j Hj. rewrite <- rsum_scal. apply rsum_ext. intros; ring.
      - apply (is_series_rsum d1 (fun i n => rsum d2 (fun j => c i j k * conv n (fun p q => xp d1 A1 p i a * xp d2 A2 q j b)))). intros i Hi.
        apply (is_series_rsum d2 (fun j n => c i j k * conv n (fun p q => xp d1 A1 p i a * xp d2 A2 q j b))). intros j Hj. rewrite Rmult_assoc. apply is_series_scalR.
        apply (is_series_ext (fun n => sum_f_R0 (fun p => xp d1 A1 p i a * xp d2 A2 (n - p) j b) n)); [intro n; apply sum_f_rsum|].
        apply (is_series_mult (fun p => xp d1 A1 p i a) (fun q => xp d2 A2 q j b)); try (now apply expm_is); now apply xp_abs_ex. }
    rewrite <- (is_series_unique _ _ S1), <- (is_series_unique _ _ S2). apply Series_ext. intro n. now apply coupling_power.
  Qed.
End Coupling.

(* exponentials of commuting matrices multiply *)
Lemma mmul_ext d a a' b b' i j : (forall p, (p < d)%nat -> a i p = a' i p) -> (forall p, (p < d)%nat -> b p j = b' p j) -> mmul d a b i j = mmul d a' b' i j.
Proof. intros H1 H2. apply rsum_ext. intros p Hp. now rewrite H1, H2. Qed.
Lemma mmul_assoc d a b c i j : mmul d (mmul d a b) c i j = mmul d a (mmul d b c) i j.
Proof.
  unfold mmul. rewrite (rsum_ext d _ (fun p => rsum d (fun q => a i q * b q p * c p j))) by (intros; rewrite <- rsum_scal_r; reflexivity).
  rewrite rsum_swap. apply rsum_ext. intros q Hq. rewrite <- rsum_scal. apply rsum_ext. intros; ring.
Qed.
Lemma mone_l d a i j : (i < d)%nat -> mmul d mone a i j = a i j.
Proof. intro Hi. unfold mmul, mone. now apply (rsum_delta_r d i (fun k => a k j)). Qed.
Lemma mone_r d a i j : (j < d)%nat -> mmul d a mone i j = a i j.
Proof. intro Hj. unfold mmul, mone. rewrite (rsum_ext d _ (fun k => (if (k =? j)%nat then 1 else 0) * a i k)) by (intros; ring). now apply (rsum_delta_l d j (fun k => a i k)). Qed.
Section Commuting.
  Variables (d : nat) (A B : rmat).
  Hypothesis H : forall i j, (i < d)%nat -> (j < d)%nat -> mmul d A B i j = mmul d B A i j.
  Lemma xp_commute p : forall i j, (i < d)%nat -> (j < d)%nat -> mmul d B (xp d A p) i j = mmul d (xp d A p) B i j.
  Proof.
    assert (G : forall i j, (i < d)%nat -> (j < d)%nat -> mmul d B (mpow d A p) i j = mmul d (mpow d A p) B i j).
    { induction p as [|p IH]; intros i j Hi Hj; cbn [mpow].
      - rewrite mone_l, mone_r by assumption. reflexivity.
      - rewrite <- mmul_assoc. rewrite (mmul_ext d _ (mmul d A B) _ (mpow d A p)) by (intros; rewrite ?H by assumption; reflexivity).
        rewrite !mmul_assoc. apply mmul_ext; [reflexivity|]. intros q Hq. now apply IH. }
    intros i j Hi Hj. unfold xp. transitivity (mmul d B (mpow d A p) i j / INR (fact p)); [unfold mmul, Rdiv; rewrite <- rsum_scal_r; apply rsum_ext; intros; ring|].
    rewrite G by assumption. unfold mmul, Rdiv. rewrite <- rsum_scal_r. apply rsum_ext. intros; ring.
  Qed.
  Lemma commuting_power n : forall i j, (i < d)%nat -> (j < d)%nat -> xp d (fun i j => A i j + B i j) n i j = conv n (fun p q => mmul d (xp d A p) (xp d B q) i j).
  Proof.
    induction n as [|n IH]; intros i j Hi Hj.
    - unfold conv. cbn [rsum]. change (0 - 0)%nat with 0%nat. rewrite Rplus_0_l. unfold xp, mpow. change (INR (fact 0)) with 1. rewrite Rdiv_1. 
      transitivity (mmul d mone mone i j); [now rewrite mone_l|]. apply mmul_ext; intros; now rewrite Rdiv_1.
    - assert (N : INR (S n) <> 0) by (apply not_0_INR; lia). apply (Rmult_eq_reg_l (INR (S n))); [|assumption]. rewrite <- xp_S.
      rewrite (mmul_ext d _ (fun i j => A i j + B i j) _ (fun i j => conv n (fun p q => mmul d (xp d A p) (xp d B q) i j))) by (intros; rewrite ?IH by assumption; reflexivity).
      rewrite <- (conv_step n (fun p q => mmul d A (mmul d (xp d A p) (xp d B q)) i j) (fun p q => mmul d B (mmul d (xp d A p) (xp d B q)) i j)).
      + unfold mmul at 1. unfold conv. rewrite <- rsum_plus.
        rewrite (rsum_ext d _ (fun k => rsum (S n) (fun p => (A i k + B i k) * mmul d (xp d A p) (xp d B (n - p)%nat) k j))) by (intros; rewrite <- rsum_scal; reflexivity).
        rewrite rsum_swap. apply rsum_ext. intros p Hp. unfold mmul at 2 4. rewrite <- rsum_plus. apply rsum_ext. intros; ring.
      + intros p q. rewrite <- mmul_assoc. unfold mmul at 1. rewrite (rsum_ext d _ (fun k => INR (S p) * (xp d A (S p) i k * xp d B q k j))) by (intros; rewrite xp_S; ring). now rewrite rsum_scal.
      + intros p q. rewrite <- mmul_assoc. rewrite (mmul_ext d _ (mmul d (xp d A p) B) _ (xp d B q)) by (intros; rewrite ?xp_commute by assumption; reflexivity).
        rewrite mmul_assoc. unfold mmul at 1. rewrite (rsum_ext d _ (fun k => INR (S q) * (xp d A p i k * xp d B (S q) k j))) by (intros; rewrite xp_S; ring). now rewrite rsum_scal.
  Qed.
  Theorem expm_plus i j : (i < d)%nat -> (j < d)%nat -> expm d (fun i j => A i j + B i j) i j = mmul d (expm d A) (expm d B) i j.
  Proof.
    intros Hi Hj. apply is_series_unique. apply (is_series_ext (fun n => rsum d (fun k => conv n (fun p q => xp d A p i k * xp d B q k j)))).
    - intro n. change (mpow d (fun i j => A i j + B i j) n i j / INR (fact n)) with (xp d (fun i j => A i j + B i j) n i j). rewrite commuting_power by assumption. unfold conv, mmul. apply rsum_swap.
    - apply (is_series_rsum d (fun k n => conv n (fun p q => xp d A p i k * xp d B q k j))). intros k Hk.
      apply (is_series_ext (fun n => sum_f_R0 (fun p => xp d A p i k * xp d B (n - p) k j) n)); [intro n; apply sum_f_rsum|].
      apply (is_series_mult (fun p => xp d A p i k) (fun q => xp d B q k j)); try (now apply expm_is); now apply xp_abs_ex.
  Qed.
End Commuting.
Lemma mpow_ext d a a' n : (forall i j, (i < d)%nat -> (j < d)%nat -> a i j = a' i j) -> forall i j, (i < d)%nat -> (j < d)%nat -> mpow d a n i j = mpow d a' n i j.
Proof. intro H. induction n as [|n IH]; intros i j Hi Hj; [reflexivity|]. cbn [mpow]. apply mmul_ext; auto. Qed.
Lemma expm_ext d a a' i j : (forall i j, (i < d)%nat -> (j < d)%nat -> a i j = a' i j) -> (i < d)%nat -> (j < d)%nat -> expm d a i j = expm d a' i j.
Proof. intros H Hi Hj. apply Series_ext. intro n. now rewrite (mpow_ext d a a' n H i j Hi Hj). Qed.
Lemma expm_zero d i j : (i < d)%nat -> (j < d)%nat -> expm d (fun _ _ => 0) i j = mone i j.
Proof.
  intros Hi Hj. apply is_series_unique. apply (is_series_ext (fun n => mone i j * 0 ^ n)).
  - intro n. change (mone i j * 0 ^ n = mpow d (fun _ _ => 0) n i j / INR (fact n)). destruct n as [|n]; cbn [mpow pow]; [change (INR (fact 0)) with 1; field|]. unfold mmul. rewrite rsum_zero by (intros; ring). unfold Rdiv. ring.
  - assert (E : is_series (fun n => mone i j * 0 ^ n) (mone i j * / (1 - 0))).
    { apply is_series_scalR, is_series_geom. rewrite Rabs_R0. lra. }
    replace (mone i j * / (1 - 0)) with (mone i j) in E by field. exact E.
Qed.
Lemma mpow_right d a n : forall i j, (i < d)%nat -> (j < d)%nat -> mpow d a (S n) i j = mmul d (mpow d a n) a i j.
Proof.
  induction n as [|n IH]; intros i j Hi Hj; [cbn [mpow]; now rewrite mone_l, mone_r|].
  change (mpow d a (S (S n)) i j) with (mmul d a (mpow d a (S n)) i j). rewrite (mmul_ext d a a _ (mmul d (mpow d a n) a)) by auto. rewrite <- mmul_assoc. reflexivity.
Qed.
Lemma expm_transpose d a i j : (i < d)%nat -> (j < d)%nat -> expm d (fun i j => a j i) i j = expm d a j i.
Proof.
  intros Hi Hj. apply Series_ext. intro n. f_equal. revert i j Hi Hj. induction n as [|n IH]; intros i j Hi Hj; [cbn [mpow]; unfold mone; now rewrite Nat.eqb_sym|].
  rewrite mpow_right by assumption. cbn [mpow]. unfold mmul. apply rsum_ext. intros k Hk. rewrite IH by assumption. ring.
Qed.
