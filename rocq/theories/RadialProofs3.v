(* Envelopes, one-hot windows and bessel functions *)
From Coq Require Import Reals ZArith Arith Bool Lia Lra Psatz List.
From Coquelicot Require Import Coquelicot.
From Verif Require Import PyBase SumR RotationModel ActivationModel NormActProofs RadialModel RadialProofs RadialProofs2.
Import ListNotations.
Open Scope R_scope.

(* ---------- sus ---------- *)
Lemma sus_zero x : x <= 0 -> sus x = 0.
Proof. intros H. unfold sus. rewrite (Rltb_false 0 x); [reflexivity|exact H]. Qed.
Lemma sus_pos x : 0 < x -> sus x = exp (- 1 / x).
Proof. intros H. unfold sus. rewrite (Rltb_true 0 x); [reflexivity|exact H]. Qed.
Lemma sus_mono x y : x <= y -> sus x <= sus y.
Proof.
  intros H. destruct (Rle_dec x 0) as [A|A]; [rewrite (sus_zero x A); apply sus_nonneg|]. rewrite !sus_pos by lra. destruct (Req_dec x y) as [->|N]; [lra|]. left. apply exp_increasing. unfold Rdiv. assert (/ y < / x) by (apply Rinv_lt_contravar; [apply Rmult_lt_0_compat; lra|lra]). lra.
Qed.
Lemma sus_strict x y : 0 <= x -> x < y -> sus x < sus y.
Proof.
  intros A H. destruct (Req_dec x 0) as [->|N]; [rewrite sus_zero, sus_pos by lra; apply exp_pos|]. rewrite !sus_pos by lra. apply exp_increasing. unfold Rdiv. assert (/ y < / x) by (apply Rinv_lt_contravar; [apply Rmult_lt_0_compat; lra|lra]). lra.
Qed.
Lemma sus_lt1 x : sus x < 1.
Proof. destruct (Rle_dec x 0) as [A|A]; [rewrite sus_zero; lra|]. rewrite sus_pos by lra. rewrite <- exp_0. apply exp_increasing. unfold Rdiv. assert (0 < / x) by (apply Rinv_0_lt_compat; lra). lra. Qed.
Lemma sus_smooth n x : ex_derive_n sus n x.
Proof. apply (ex_derive_n_ext (flat_fun [1])); [intros t; symmetry; apply sus_flat|]. apply flat_smooth. Qed.
Lemma sus_derivatives_at_0 n : Derive_n sus n 0 = 0.
Proof. rewrite (Derive_n_ext _ (flat_fun [1])) by (intros t; apply sus_flat). rewrite (proj2 (flat_smooth n _ 0)). unfold flat_fun. destruct (Rlt_dec 0 0); [lra|reflexivity]. Qed.

(* ---------- a smooth function cut to 0 from b on ---------- *)
Definition cut_at (b : R) (h : R -> R) (x : R) : R := if Rlt_dec x b then h x else 0.
Lemma cut_below b h l x : x < b -> is_derive h x l -> is_derive (cut_at b h) x l.
Proof.
  intros Hx D. apply (is_derive_ext_loc h); [|exact D]. assert (Hd : 0 < b - x) by lra. exists (mkposreal _ Hd). intros y Hy. unfold ball in Hy; cbn in Hy; unfold AbsRing_ball, abs, minus, plus, opp in Hy; cbn in Hy. apply Rabs_def2 in Hy. unfold cut_at. destruct (Rlt_dec y b); [reflexivity|lra].
Qed.
Lemma cut_above b h x : b < x -> is_derive (cut_at b h) x 0.
Proof.
  intros Hx. apply (is_derive_ext_loc (fun _ => 0)); [|exact (der_const 0 x)]. assert (Hd : 0 < x - b) by lra. exists (mkposreal _ Hd). intros y Hy. unfold ball in Hy; cbn in Hy; unfold AbsRing_ball, abs, minus, plus, opp in Hy; cbn in Hy. apply Rabs_def2 in Hy. unfold cut_at. destruct (Rlt_dec y b); [lra|reflexivity].
Qed.
Lemma cut_joint b h : h b = 0 -> is_derive h b 0 -> is_derive (cut_at b h) b 0.
Proof.
  intros Z D. apply is_derive_Reals. apply is_derive_Reals in D. intros eps He. destruct (D eps He) as (d & B). exists d. intros t Ht Hd. specialize (B t Ht Hd). rewrite Z, !Rminus_0_r in B. unfold cut_at at 2. destruct (Rlt_dec b b) as [?|_]; [lra|]. unfold cut_at. destruct (Rlt_dec (b + t) b) as [_|_]; [rewrite !Rminus_0_r; exact B|].
  replace ((0 - 0) / t - 0) with 0 by (field; exact Ht). rewrite Rabs_R0. exact He.
Qed.
Lemma cut_derive b h h' x : (forall t, is_derive h t (h' t)) -> h b = 0 -> h' b = 0 -> is_derive (cut_at b h) x (cut_at b h' x).
Proof.
  intros D Z Z'. unfold cut_at at 2. destruct (Rlt_dec x b) as [L|L]; [apply cut_below; [exact L|apply D]|]. destruct (Req_dec x b) as [->|N]; [|apply cut_above; lra]. apply cut_joint; [exact Z|]. specialize (D b). rewrite Z' in D. exact D.
Qed.
(* the derivatives of x |-> p(x / m - 1/2) *)
Definition rescaled (m : R) (c : list R) (k : nat) (x : R) : R := (/ m) ^ k * poly_at (Nat.iter k poly_der c) (x / m - 1 / 2).
Lemma rescaled_derive m c k x : m <> 0 -> is_derive (rescaled m c k) x (rescaled m c (S k) x).
Proof.
  intros Hm. unfold rescaled. set (q := Nat.iter k poly_der c). change (Nat.iter (S k) poly_der c) with (poly_der q).
  replace ((/ m) ^ S k * poly_at (poly_der q) (x / m - 1 / 2)) with (0 * poly_at q (x / m - 1 / 2) + (/ m) ^ k * (/ m * poly_at (poly_der q) (x / m - 1 / 2))) by (cbn [pow]; ring).
  apply (der_mult (fun _ => (/ m) ^ k) (fun x => poly_at q (x / m - 1 / 2))); [apply der_const|]. apply is_derive_Reals. assert (D := poly_derive q (x / m - 1 / 2)). apply is_derive_Reals in D. rewrite Rmult_comm.
  apply (derivable_pt_lim_comp (fun x => x / m - 1 / 2) (poly_at q)); [|exact D]. apply is_derive_Reals. auto_derive; [exact I|field; exact Hm].
Qed.
Lemma rescaled_smooth m c k : m <> 0 -> forall x, ex_derive_n (rescaled m c 0) k x /\ Derive_n (rescaled m c 0) k x = rescaled m c k x.
Proof.
  intros Hm. induction k as [|k IH]; intros x; [split; reflexivity|]. split.
  - cbn [ex_derive_n]. apply (ex_derive_ext (rescaled m c k)); [intros t; symmetry; apply IH|]. eexists. apply rescaled_derive, Hm.
  - cbn [Derive_n]. rewrite (Derive_ext _ (rescaled m c k)) by (intros t; apply IH). apply is_derive_unique, rescaled_derive, Hm.
Qed.
Lemma envelope_cut c m x : poly_envelope c m x = cut_at m (rescaled m c 0) x.
Proof. unfold poly_envelope, cut_at, rescaled. destruct (Rlt_dec x m) as [L|L]; [rewrite (Rltb_true x m L)|rewrite (Rltb_false x m) by lra; reflexivity]. change (Nat.iter 0 poly_der c) with c. cbn [pow]. ring. Qed.
Lemma envelope_derivatives n0 n1 c m k : solves (envelope_constraints n0 n1) c -> 0 < m -> (k <= n1)%nat -> forall x, ex_derive_n (poly_envelope c m) k x /\ Derive_n (poly_envelope c m) k x = cut_at m (rescaled m c k) x.
Proof.
  intros H Hm. apply solves_spec in H. destruct H as (L & A & B & C0 & C1).
  assert (V : forall j, (j <= n1)%nat -> rescaled m c j m = 0).
  { intros j Hj. unfold rescaled. replace (m / m - 1 / 2) with (1 / 2) by (field; lra). rewrite <- (proj2 (poly_smooth j c (1 / 2))). destruct j as [|j]; [cbn [Derive_n]; rewrite B; ring|]. rewrite C1 by lia. ring. }
  induction k as [|k IH]; intros Hk x; [split; [exact I|apply envelope_cut]|].
  assert (D : is_derive (Derive_n (poly_envelope c m) k) x (cut_at m (rescaled m c (S k)) x)).
  { apply (der_ext (cut_at m (rescaled m c k))); [intros t; symmetry; apply IH; lia|]. apply cut_derive; [intros t; apply rescaled_derive; lra|apply V; lia|apply V; lia]. }
  split; [cbn [ex_derive_n]; eexists; exact D|]. cbn [Derive_n]. apply is_derive_unique, D.
Qed.
Lemma envelope_at_origin n0 n1 c m k : solves (envelope_constraints n0 n1) c -> 0 < m -> (1 <= k <= n0)%nat -> ex_derive_n (poly_envelope c m) k 0 /\ Derive_n (poly_envelope c m) k 0 = 0.
Proof.
  intros H Hm Hk. apply solves_spec in H. destruct H as (L & A & B & C0 & C1).
  assert (E : locally 0 (fun t => rescaled m c 0 t = poly_envelope c m t)).
  { exists (mkposreal _ Hm). intros y Hy. unfold ball in Hy; cbn in Hy; unfold AbsRing_ball, abs, minus, plus, opp in Hy; cbn in Hy. apply Rabs_def2 in Hy. rewrite envelope_cut. unfold cut_at. destruct (Rlt_dec y m); [reflexivity|lra]. }
  split; [apply (ex_derive_n_ext_loc _ _ k 0 E); apply rescaled_smooth; lra|]. rewrite <- (Derive_n_ext_loc _ _ k 0 E). rewrite (proj2 (rescaled_smooth m c k ltac:(lra) 0)). unfold rescaled. replace (0 / m - 1 / 2) with (- (1 / 2)) by (field; lra). rewrite <- (proj2 (poly_smooth k c _)), C0 by exact Hk. ring.
Qed.
Lemma solution_strict n0 n1 c s t : solves (envelope_constraints n0 n1) c -> - (1 / 2) <= s -> s < t -> t <= 1 / 2 -> poly_at c t < poly_at c s.
Proof.
  intros H Hs Hst Ht. destruct (solution_decreases n0 n1 c H) as (K & HK & D). destruct (MVT_cor2 (poly_at c) (fun t => - (K * ((t + 1 / 2) ^ n0 * (1 / 2 - t) ^ n1))) s t) as (z & Ez & Hz); [exact Hst|intros u _; apply is_derive_Reals, D|].
  assert (P : 0 < K * ((z + 1 / 2) ^ n0 * (1 / 2 - z) ^ n1)) by (apply Rmult_lt_0_compat; [exact HK|]; apply Rmult_lt_0_compat; apply pow_lt; lra). assert (Q : 0 < K * ((z + 1 / 2) ^ n0 * (1 / 2 - z) ^ n1) * (t - s)) by (apply Rmult_lt_0_compat; [exact P|lra]). lra.
Qed.
Lemma solution_range n0 n1 c t : solves (envelope_constraints n0 n1) c -> - (1 / 2) <= t <= 1 / 2 -> 0 <= poly_at c t <= 1.
Proof.
  intros H Ht. pose proof (proj1 (solves_spec n0 n1 c) H) as (L & A & B & _). split.
  - destruct (Req_dec t (1 / 2)) as [->|N]; [lra|]. rewrite <- B. left. apply (solution_strict n0 n1 c); [exact H|lra|lra|lra].
  - destruct (Req_dec t (- (1 / 2))) as [->|N]; [lra|]. rewrite <- A. left. apply (solution_strict n0 n1 c); [exact H|lra|lra|lra].
Qed.
(* ---------- u ---------- *)
Lemma u_derive p x : is_derive (u_envelope (S p)) x (- (INR (S p) * (INR (S p) + 1) * (INR (S p) + 2) / 2 * (x ^ p * (1 - x) ^ 2))).
Proof.
  set (P := INR (S p)). apply (der_ext (fun t => 1 + ((- ((P + 1) * (P + 2) / 2)) * t ^ S p + ((P * (P + 2)) * t ^ S (S p) + (- (P * (P + 1) / 2)) * t ^ S (S (S p)))))).
  - intros t. unfold u_envelope. fold P. replace (S p + 1)%nat with (S (S p)) by lia. replace (S p + 2)%nat with (S (S (S p))) by lia. ring.
  - replace (- (P * (P + 1) * (P + 2) / 2 * (x ^ p * (1 - x) ^ 2))) with (0 + ((- ((P + 1) * (P + 2) / 2)) * (INR (S p) * x ^ p) + ((P * (P + 2)) * (INR (S (S p)) * x ^ S p) + (- (P * (P + 1) / 2)) * (INR (S (S (S p))) * x ^ S (S p))))).
    + apply der_plus; [apply der_const|]. apply der_plus; [apply der_monomial|]. apply der_plus; apply der_monomial.
    + rewrite (S_INR (S (S p))), (S_INR (S p)). fold P. cbn [pow]. field.
Qed.
Lemma u_at_0 p : u_envelope (S p) 0 = 1.
Proof. unfold u_envelope. cbn [pow Nat.add]. ring. Qed.
Lemma u_at_1 p : u_envelope p 1 = 0.
Proof. unfold u_envelope. rewrite !pow1. field. Qed.
Lemma solution_is_u p c t : solves (envelope_constraints p 2) c -> poly_at c t = u_envelope (S p) (t + 1 / 2).
Proof.
  intros H. destruct (solution_decreases p 2 c H) as (K & HK & D). apply solves_spec in H. destruct H as (L & A & B & _). set (K2 := INR (S p) * (INR (S p) + 1) * (INR (S p) + 2) / 2). assert (HP : 0 < INR (S p)) by (apply lt_0_INR; lia). assert (HK2 : 0 < K2). { unfold K2. apply Rdiv_lt_0_compat; [|lra]. apply Rmult_lt_0_compat; [apply Rmult_lt_0_compat|]; lra. }
  assert (Du : forall s, is_derive (fun s => u_envelope (S p) (s + 1 / 2)) s (- (K2 * ((s + 1 / 2) ^ p * (1 / 2 - s) ^ 2)))).
  { intros s. apply is_derive_Reals. assert (E := u_derive p (s + 1 / 2)). apply is_derive_Reals in E. fold K2 in E. replace (1 - (s + 1 / 2)) with (1 / 2 - s) in E by lra. replace (- (K2 * ((s + 1 / 2) ^ p * (1 / 2 - s) ^ 2))) with (- (K2 * ((s + 1 / 2) ^ p * (1 / 2 - s) ^ 2)) * 1) by ring. apply (derivable_pt_lim_comp (fun s => s + 1 / 2) (u_envelope (S p))); [|exact E]. apply is_derive_Reals. auto_derive; [exact I|ring]. }
  set (f := fun s => poly_at c s + (- (K / K2)) * u_envelope (S p) (s + 1 / 2)).
  assert (Df : forall s, derivable_pt_lim f s 0).
  { intros s. apply is_derive_Reals. replace 0 with (- (K * ((s + 1 / 2) ^ p * (1 / 2 - s) ^ 2)) + (0 * u_envelope (S p) (s + 1 / 2) + (- (K / K2)) * (- (K2 * ((s + 1 / 2) ^ p * (1 / 2 - s) ^ 2))))) by (field; lra). apply (der_plus (poly_at c) (fun s => (- (K / K2)) * u_envelope (S p) (s + 1 / 2))); [apply D|]. apply (der_mult (fun _ => - (K / K2)) (fun s => u_envelope (S p) (s + 1 / 2))); [apply der_const|apply Du]. }
  assert (Cf : forall a b, a < b -> f a = f b). { intros a b Hab. destruct (MVT_cor2 f (fun _ => 0) a b Hab) as (z & Ez & _); [intros s _; apply Df|]. lra. }
  assert (F1 : f (1 / 2) = 0) by (unfold f; rewrite B; replace (1 / 2 + 1 / 2) with 1 by lra; rewrite u_at_1; ring).
  assert (F0 : f (- (1 / 2)) = 1 - K / K2) by (unfold f; rewrite A; replace (- (1 / 2) + 1 / 2) with 0 by lra; rewrite u_at_0; ring).
  assert (KK : K / K2 = 1) by (rewrite (Cf (- (1 / 2)) (1 / 2)), F1 in F0; lra).
  assert (Ft : f t = 0). { destruct (total_order_T t (1 / 2)) as [[Ht|Ht]|Ht]; [rewrite (Cf _ _ Ht)|rewrite Ht|rewrite <- (Cf _ _ Ht)]; exact F1. }
  unfold f in Ft. rewrite KK in Ft. lra.
Qed.
