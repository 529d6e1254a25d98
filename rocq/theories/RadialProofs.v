(* Smoothness of sus, and the integrals of the bessel functions *)
From Coq Require Import Reals ZArith Arith Bool Lia Lra Psatz List.
From Coquelicot Require Import Coquelicot.
From Verif Require Import PyBase RotationModel ActivationModel RadialModel.
Import ListNotations.
Open Scope R_scope.

Lemma der_ext (f g : R -> R) x l : (forall t, f t = g t :> R) -> is_derive f x l -> is_derive g x l.
Proof. intros E. apply is_derive_ext, E. Qed.
Lemma der_plus (f g : R -> R) x a b : is_derive f x a -> is_derive g x b -> is_derive (fun t => f t + g t) x (a + b).
Proof. intros Hf Hg. exact (is_derive_plus f g x a b Hf Hg). Qed.
Lemma der_const (k x : R) : is_derive (fun _ : R => k) x 0.
Proof. exact (is_derive_const k x). Qed.
Lemma der_monomial (a : R) n x : is_derive (fun t => a * t ^ S n) x (a * (INR (S n) * x ^ n)).
Proof. apply is_derive_Reals. apply (derivable_pt_lim_scal (fun t => t ^ S n)). apply (derivable_pt_lim_pow x (S n)). Qed.
Lemma der_mult (f g : R -> R) x a b : is_derive f x a -> is_derive g x b -> is_derive (fun t => f t * g t) x (a * g x + f x * b).
Proof. intros Hf Hg. apply is_derive_Reals. apply is_derive_Reals in Hf, Hg. exact (derivable_pt_lim_mult f g x a b Hf Hg). Qed.
(* ---------- t^n exp(-t) is bounded ---------- *)
Lemma pow_exp_bound n t : 0 < t -> t ^ n <= INR n ^ n * exp t.
Proof.
  intros Ht. destruct n as [|n]; [cbn; rewrite !Rmult_1_l; pose proof (exp_ineq1_le t); lra|]. set (k := INR (S n)). assert (Hk : 0 < k) by (apply lt_0_INR; lia).
  assert (E : exp t = exp (t / k) ^ S n). { rewrite <- Rpower_pow by apply exp_pos. unfold Rpower. rewrite ln_exp. f_equal. fold k. field. lra. }
  rewrite E, <- Rpow_mult_distr. apply pow_incr. split; [lra|]. pose proof (exp_ineq1_le (t / k)) as B. apply Rle_trans with (k * (t / k)); [right; field; lra|]. apply Rmult_le_compat_l; lra.
Qed.
(* P(1/x) exp(-1/x) for x > 0 and 0 for x <= 0 *)
Definition flat_fun (c : list R) (x : R) : R := if Rlt_dec 0 x then poly_at c (/ x) * exp (- / x) else 0.
Lemma poly_bound c : exists K, 0 <= K /\ forall t, 1 <= t -> Rabs (poly_at c t) <= K * t ^ length c.
Proof.
  induction c as [|a c (K & HK & IH)]; [exists 0; split; [lra|]; intros; cbn; rewrite Rabs_R0; lra|]. exists (Rabs a + K). split; [pose proof (Rabs_pos a); lra|]. intros t Ht. cbn [poly_at length pow].
  eapply Rle_trans; [apply Rabs_triang|]. rewrite Rabs_mult, (Rabs_pos_eq t) by lra. specialize (IH t Ht). assert (P : 1 <= t ^ length c) by (apply pow_R1_Rle; exact Ht). pose proof (Rabs_pos a) as Ha. set (p := t ^ length c) in *. set (A := Rabs a) in *. assert (H1 : t * Rabs (poly_at c t) <= t * (K * p)) by (apply Rmult_le_compat_l; lra). assert (H2 : 1 <= t * p) by (rewrite <- (Rmult_1_r 1); apply Rmult_le_compat; lra). assert (H3 : A * 1 <= A * (t * p)) by (apply Rmult_le_compat_l; assumption). lra.
Qed.
(* near 0 it is smaller than a multiple of x^2 *)
Lemma flat_small c : exists K, 0 <= K /\ forall x, Rabs x <= 1 -> Rabs (flat_fun c x) <= K * x ^ 2.
Proof.
  destruct (poly_bound c) as (K & HK & B). set (n := (length c + 2)%nat). exists (K * INR n ^ n). split; [apply Rmult_le_pos; [exact HK|apply pow_le, pos_INR]|]. intros x Hx. unfold flat_fun. destruct (Rlt_dec 0 x) as [Hp|_].
  - rewrite Rabs_pos_eq in Hx by lra. set (t := / x). assert (Ht : 1 <= t) by (unfold t; rewrite <- Rinv_1; apply Rinv_le_contravar; lra). rewrite Rabs_mult, (Rabs_pos_eq (exp _)) by (left; apply exp_pos). specialize (B t Ht).
    assert (P := pow_exp_bound n t ltac:(lra)). unfold n in P at 1. rewrite pow_add in P. assert (Ex : exp t * exp (- t) = 1) by (rewrite <- exp_plus, Rplus_opp_r; apply exp_0). pose proof (exp_pos (- t)) as E1. pose proof (exp_pos t) as E2. assert (Exx : x * t = 1) by (unfold t; field; lra).
    assert (Q : t ^ length c * exp (- t) <= INR n ^ n * x ^ 2).
    { apply (Rmult_le_reg_r (t ^ 2)); [apply pow_lt; lra|]. replace (t ^ length c * exp (- t) * t ^ 2) with (t ^ length c * t ^ 2 * exp (- t)) by ring. replace (INR n ^ n * x ^ 2 * t ^ 2) with (INR n ^ n * (x * t) ^ 2) by ring. rewrite Exx, pow1, Rmult_1_r. apply Rle_trans with (INR n ^ n * exp t * exp (- t)); [apply Rmult_le_compat_r; lra|]. rewrite Rmult_assoc, Ex. lra. }
    apply Rle_trans with (K * t ^ length c * exp (- t)); [apply Rmult_le_compat_r; lra|]. rewrite !Rmult_assoc. apply Rmult_le_compat_l; assumption.
  - rewrite Rabs_R0. apply Rmult_le_pos; [apply Rmult_le_pos; [exact HK|apply pow_le, pos_INR]|apply pow2_ge_0].
Qed.
Lemma small_derive f K : f 0 = 0 -> 0 <= K -> (forall x, Rabs x <= 1 -> Rabs (f x) <= K * x ^ 2) -> is_derive f 0 0.
Proof.
  intros F0 HK B. apply is_derive_Reals. intros eps He. assert (Hd : 0 < Rmin 1 (eps / (K + 1))) by (apply Rmin_pos; [lra|apply Rdiv_lt_0_compat; lra]). exists (mkposreal _ Hd). intros h Hh Hlt. cbn in Hlt. rewrite Rplus_0_l, F0, !Rminus_0_r.
  assert (H1 : Rabs h <= 1) by (left; eapply Rlt_le_trans; [exact Hlt|apply Rmin_l]). assert (H2 : Rabs h < eps / (K + 1)) by (eapply Rlt_le_trans; [exact Hlt|apply Rmin_r]). specialize (B h H1). pose proof (Rabs_pos_lt h Hh) as P.
  unfold Rdiv. rewrite Rabs_mult, Rabs_inv. apply (Rmult_lt_reg_r (Rabs h)); [exact P|]. rewrite Rmult_assoc, Rinv_l by lra. rewrite Rmult_1_r. apply Rle_lt_trans with (K * h ^ 2); [exact B|]. rewrite <- (pow2_abs h). replace (K * Rabs h ^ 2) with (K * Rabs h * Rabs h) by ring. apply Rmult_lt_compat_r; [exact P|].
  apply Rle_lt_trans with ((K + 1) * Rabs h); [nra|]. apply (Rmult_lt_reg_r (/ (K + 1))); [apply Rinv_0_lt_compat; lra|]. replace ((K + 1) * Rabs h * / (K + 1)) with (Rabs h) by (field; lra). exact H2.
Qed.
(* polynomial arithmetic on coefficient lists *)
Fixpoint poly_sub (a b : list R) : list R := match a, b with [], b => map Ropp b | a, [] => a | x :: a, y :: b => (x - y) :: poly_sub a b end.
Fixpoint poly_der_aux (n : nat) (c : list R) : list R := match c with [] => [] | a :: c => INR n * a :: poly_der_aux (S n) c end.
Definition poly_der (c : list R) : list R := match c with [] => [] | _ :: c => poly_der_aux 1 c end.
Lemma poly_opp_at c x : poly_at (map Ropp c) x = - poly_at c x.
Proof. induction c as [|a c IH]; cbn [map poly_at]; [ring|]. rewrite IH. ring. Qed.
Lemma poly_sub_at a b x : poly_at (poly_sub a b) x = poly_at a x - poly_at b x.
Proof. revert b. induction a as [|p a IH]; intros b; [cbn [poly_sub poly_at]; rewrite poly_opp_at; ring|]. destruct b as [|q b]; cbn [poly_sub poly_at]; [ring|]. rewrite IH. ring. Qed.
Lemma poly_derive_aux c : forall n x, is_derive (fun t => t ^ S n * poly_at c t) x (x ^ n * poly_at (poly_der_aux (S n) c) x).
Proof.
  induction c as [|a c IH]; intros n x.
  - cbn [poly_at poly_der_aux]. rewrite Rmult_0_r. apply (der_ext (fun _ => 0)); [intros; cbn; ring|]. apply der_const.
  - cbn [poly_at poly_der_aux]. apply (der_ext (fun t => a * t ^ S n + t ^ S (S n) * poly_at c t)); [intros t; cbn [pow]; ring|].
    replace (x ^ n * (INR (S n) * a + x * poly_at (poly_der_aux (S (S n)) c) x)) with (a * (INR (S n) * x ^ n) + x ^ S n * poly_at (poly_der_aux (S (S n)) c) x) by (cbn [pow]; ring).
    apply der_plus; [apply der_monomial|apply IH].
Qed.
Lemma poly_derive c x : is_derive (poly_at c) x (poly_at (poly_der c) x).
Proof.
  destruct c as [|a c]; cbn [poly_der]; [apply der_const|]. apply (der_ext (fun t => a + t ^ 1 * poly_at c t)); [intros t; cbn [poly_at]; ring|]. replace (poly_at (poly_der_aux 1 c) x) with (0 + x ^ 0 * poly_at (poly_der_aux 1 c) x) by (cbn; ring). apply der_plus; [apply der_const|apply poly_derive_aux].
Qed.
(* the derivative of P(1/x) e^(-1/x) is Q(1/x) e^(-1/x) with Q(t) = t^2 (P(t) - P'(t)) *)
Definition flat_der (c : list R) : list R := 0 :: 0 :: poly_sub c (poly_der c).
Lemma flat_derive c x : is_derive (flat_fun c) x (flat_fun (flat_der c) x).
Proof.
  destruct (total_order_T x 0) as [[Hx|Hx]|Hx].
  - replace (flat_fun (flat_der c) x) with 0 by (unfold flat_fun; destruct (Rlt_dec 0 x); [lra|reflexivity]). apply (is_derive_ext_loc (fun _ => 0)); [|apply der_const].
    assert (Hd : 0 < - x) by lra. exists (mkposreal _ Hd). intros y Hy. unfold ball in Hy; cbn in Hy; unfold AbsRing_ball, abs, minus, plus, opp in Hy; cbn in Hy. apply Rabs_def2 in Hy. unfold flat_fun. destruct (Rlt_dec 0 y); [lra|reflexivity].
  - subst x. replace (flat_fun (flat_der c) 0) with 0 by (unfold flat_fun; destruct (Rlt_dec 0 0); [lra|reflexivity]). destruct (flat_small c) as (K & HK & B). apply (small_derive _ K); [unfold flat_fun; destruct (Rlt_dec 0 0); [lra|reflexivity]|exact HK|exact B].
  - unfold flat_fun at 2. destruct (Rlt_dec 0 x) as [_|]; [|lra]. apply (is_derive_ext_loc (fun y => poly_at c (/ y) * exp (- / y))).
    + exists (mkposreal _ Hx). intros y Hy. unfold ball in Hy; cbn in Hy; unfold AbsRing_ball, abs, minus, plus, opp in Hy; cbn in Hy. apply Rabs_def2 in Hy. unfold flat_fun. destruct (Rlt_dec 0 y); [reflexivity|lra].
    + unfold flat_der. cbn [poly_at]. rewrite poly_sub_at. assert (D1 : is_derive (fun y => poly_at c (/ y)) x (- / x ^ 2 * poly_at (poly_der c) (/ x))).
      { apply (is_derive_comp (poly_at c) (fun y => / y)); [apply poly_derive|]. auto_derive; [lra|]. field. lra. }
      assert (D2 : is_derive (fun y => exp (- / y)) x (/ x ^ 2 * exp (- / x))). { auto_derive; [lra|]. field. lra. }
      replace ((0 + / x * (0 + / x * (poly_at c (/ x) - poly_at (poly_der c) (/ x)))) * exp (- / x)) with (- / x ^ 2 * poly_at (poly_der c) (/ x) * exp (- / x) + poly_at c (/ x) * (/ x ^ 2 * exp (- / x))) by (field; lra).
      exact (der_mult _ _ x _ _ D1 D2).
Qed.
Lemma flat_smooth n : forall c x, ex_derive_n (flat_fun c) n x /\ Derive_n (flat_fun c) n x = flat_fun (Nat.iter n flat_der c) x.
Proof.
  induction n as [|n IH]; intros c x; [split; reflexivity|].
  assert (E : forall y, Derive_n (flat_fun c) n y = flat_fun (Nat.iter n flat_der c) y) by (intros y; apply IH). split.
  - cbn [ex_derive_n]. apply (ex_derive_ext (flat_fun (Nat.iter n flat_der c))); [intros t; symmetry; apply E|]. eexists. apply flat_derive.
  - cbn [Derive_n Nat.iter]. rewrite (Derive_ext _ _ x E). apply is_derive_unique, flat_derive.
Qed.
Lemma sus_flat x : sus x = flat_fun [1] x.
Proof. unfold sus, flat_fun, Rltb. destruct (Rlt_dec 0 x) as [H|H]; [|reflexivity]. cbn [poly_at]. rewrite Rmult_0_r, Rplus_0_r, Rmult_1_l. f_equal. field. lra. Qed.
