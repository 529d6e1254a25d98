(* soft_one_hot_linspace and bessel *)
From Coq Require Import Reals ZArith Arith Bool Lia Lra Psatz List.
From Coquelicot Require Import Coquelicot.
From Verif Require Import PyBase SumR RotationModel ActivationModel ActivationProofs NormActProofs RadialModel RadialProofs RadialProofs2 RadialProofs3.
Import ListNotations.
Open Scope R_scope.

Lemma Rltb_lt a b : Rltb a b = true -> a < b.
Proof. unfold Rltb. destruct (Rlt_dec a b); [auto|discriminate]. Qed.
Definition b2n (b : bool) : nat := if b then 1 else 0.
(* the number of intervals between the two ends *)
Definition intervals (number : nat) (s e : bool) : nat := number + b2n s + b2n e - 1.
Definition spacing (a b : R) (number : nat) (s e : bool) : R := (b - a) / INR (intervals number s e).
Definition center (a b : R) (number : nat) (s e : bool) (i : nat) : R := a + INR (i + b2n s) * spacing a b number s e.
Lemma removelast_map_seq {A} (f : nat -> A) m n : removelast (map f (seq m (S n))) = map f (seq m n).
Proof. rewrite seq_S, map_app. cbn [map]. apply removelast_last. Qed.
Lemma seq_from m n : seq m n = map (fun i => (i + m)%nat) (seq 0 n).
Proof. induction m as [|m IH]; [rewrite (map_ext _ (fun i => i)) by (intros; lia); rewrite map_id; reflexivity|]. rewrite <- seq_shift, IH, map_map. apply map_ext. intros. lia. Qed.
Lemma one_hot_values_eq a b number s e : (1 <= intervals number s e)%nat -> one_hot_values a b number s e = (map (center a b number s e) (seq 0 number), spacing a b number s e).
Proof.
  intros H. remember (intervals number s e) as k eqn:Ek.
  assert (Ce : forall i, center a b number s e i = a + INR (i + b2n s) * ((b - a) / INR k)) by (intros; unfold center, spacing; rewrite <- Ek; reflexivity).
  assert (Sp : spacing a b number s e = (b - a) / INR k) by (unfold spacing; rewrite <- Ek; reflexivity). rewrite Sp, (map_ext _ _ Ce). set (st := (b - a) / INR k).
  assert (G : forall m, m = S k -> linspace a b m = map (fun i => a + INR i * st) (seq 0 (S k)) /\ nth (Nat.min 1 (length (linspace a b m) - 1)) (linspace a b m) 0 - nth 0 (linspace a b m) 0 = st).
  { intros m ->. assert (E : linspace a b (S k) = map (fun i => a + INR i * st) (seq 0 (S k))) by (unfold linspace; rewrite Nat.sub_succ, Nat.sub_0_r; reflexivity). split; [exact E|]. rewrite E, map_length, seq_length. replace (Nat.min 1 (S k - 1)) with 1%nat by lia. destruct k as [|k']; [lia|]. cbn [seq map nth INR]. ring. }
  unfold one_hot_values, b2n. unfold intervals, b2n in Ek. destruct s, e.
  - destruct (G (number + 2)%nat ltac:(lia)) as (E1 & E2). rewrite E2, E1. f_equal. replace (S k) with (S (S number)) by lia. change (tl (map (fun i => a + INR i * st) (seq 0 (S (S number))))) with (map (fun i => a + INR i * st) (seq 1 (S number))). rewrite removelast_map_seq, seq_from, map_map. reflexivity.
  - destruct (G (number + 1)%nat ltac:(lia)) as (E1 & E2). rewrite E2, E1. f_equal. replace (S k) with (S number) by lia. change (tl (map (fun i => a + INR i * st) (seq 0 (S number)))) with (map (fun i => a + INR i * st) (seq 1 number)). rewrite seq_from, map_map. reflexivity.
  - destruct (G (number + 1)%nat ltac:(lia)) as (E1 & E2). rewrite E2, E1. f_equal. replace (S k) with (S number) by lia. rewrite removelast_map_seq. apply map_ext. intros i. rewrite Nat.add_0_r. reflexivity.
  - destruct (G number ltac:(lia)) as (E1 & E2). rewrite E2, E1. f_equal. replace (S k) with number by lia. apply map_ext. intros i. rewrite Nat.add_0_r. reflexivity.
Qed.
(* ---------- the windows ---------- *)
Definition cos_window (d : R) : R := if Rltb (-1) d && Rltb d 1 then cos (PI / 2 * d) else 0.
Definition sus_window (d : R) : R := 114136 / 100000 * exp 2 * sus (d + 1) * sus (1 - d).
Lemma cos_window_out d : 1 <= Rabs d -> cos_window d = 0.
Proof.
  intros H. unfold cos_window. destruct (Rltb (-1) d) eqn:E1; [|reflexivity]. destruct (Rltb d 1) eqn:E2; [|reflexivity]. apply Rltb_lt in E1, E2. exfalso. pose proof (Rabs_def1 d 1 E2 ltac:(lra)). lra.
Qed.
Lemma cos_window_in d : Rabs d < 1 -> cos_window d = cos (PI / 2 * d).
Proof. intros H. apply Rabs_def2 in H. unfold cos_window. rewrite (Rltb_true (-1) d), (Rltb_true d 1) by lra. reflexivity. Qed.
Lemma sus_window_out d : 1 <= Rabs d -> sus_window d = 0.
Proof.
  intros H. unfold sus_window. destruct (Rle_dec 0 d) as [P|P]; [rewrite Rabs_pos_eq in H by exact P; rewrite (sus_zero (1 - d)) by lra; ring|]. rewrite Rabs_left in H by lra. rewrite (sus_zero (d + 1)) by lra. ring.
Qed.
Lemma sus_window_in d : Rabs d < 1 -> 0 < sus_window d.
Proof.
  intros H. apply Rabs_def2 in H. unfold sus_window. rewrite !sus_pos by lra. apply Rmult_lt_0_compat; [|apply exp_pos]. apply Rmult_lt_0_compat; [|apply exp_pos]. apply Rmult_lt_0_compat; [|apply exp_pos]. lra.
Qed.
Lemma spacing_pos a b number s e : a < b -> (1 <= intervals number s e)%nat -> 0 < spacing a b number s e.
Proof. intros H K. apply Rdiv_lt_0_compat; [lra|]. apply lt_0_INR. lia. Qed.
Lemma center_last a b number s e : (1 <= intervals number s e)%nat -> a + INR (intervals number s e) * spacing a b number s e = b.
Proof. intros K. unfold spacing. field. apply not_0_INR. lia. Qed.
(* left of a with start_zero, right of b with end_zero: at least one step away from every center *)
Lemma far_left a b number s e x i : a < b -> (1 <= intervals number s e)%nat -> s = true -> x <= a -> 1 <= Rabs ((x - center a b number s e i) / spacing a b number s e).
Proof.
  intros H K -> Hx. pose proof (spacing_pos a b number true e H K) as P. unfold center. set (st := spacing a b number true e) in *. replace ((x - (a + INR (i + b2n true) * st)) / st) with (- ((a - x) / st + INR (i + 1))) by (cbn [b2n]; field; lra).
  rewrite Rabs_Ropp, plus_INR. assert (0 <= (a - x) / st) by (apply Rmult_le_pos; [lra|left; apply Rinv_0_lt_compat; exact P]). pose proof (pos_INR i). cbn [INR]. rewrite Rabs_pos_eq; lra.
Qed.
Lemma far_right a b number s e x i : a < b -> (1 <= intervals number s e)%nat -> e = true -> b <= x -> (i < number)%nat -> 1 <= Rabs ((x - center a b number s e i) / spacing a b number s e).
Proof.
  intros H K -> Hx Hi. pose proof (spacing_pos a b number s true H K) as P. pose proof (center_last a b number s true K) as E. unfold center. set (st := spacing a b number s true) in *. set (k := intervals number s true) in *. assert (Q : (i + b2n s + 1 <= k)%nat) by (unfold k, intervals; cbn [b2n]; lia).
  replace ((x - (a + INR (i + b2n s) * st)) / st) with ((x - b) / st + (INR k - INR (i + b2n s))) by (rewrite <- E; field; lra). assert (0 <= (x - b) / st) by (apply Rmult_le_pos; [lra|left; apply Rinv_0_lt_compat; exact P]). apply le_INR in Q. rewrite plus_INR in Q. cbn [INR] in Q. rewrite Rabs_pos_eq; lra.
Qed.
(* ---------- cos^2 + sin^2 ---------- *)
Fixpoint sum_sq (l : list R) : R := match l with [] => 0 | x :: l => x ^ 2 + sum_sq l end.
Lemma sum_sq_app l l' : sum_sq (l ++ l') = sum_sq l + sum_sq l'.
Proof. induction l as [|x l IH]; cbn [app sum_sq]; [ring|]. rewrite IH. ring. Qed.
Lemma sum_sq_zero l : Forall (fun x => x = 0) l -> sum_sq l = 0.
Proof. induction 1 as [|x l -> _ IH]; cbn [sum_sq]; [reflexivity|]. rewrite IH. ring. Qed.
Lemma cos_window_pair t : 0 <= t <= 1 -> cos_window t ^ 2 + cos_window (t - 1) ^ 2 = 1.
Proof.
  intros H. destruct (Req_dec t 1) as [->|N1]; [|destruct (Req_dec t 0) as [->|N0]].
  - rewrite cos_window_out by (rewrite Rabs_R1; lra). replace (1 - 1) with 0 by ring. rewrite cos_window_in by (rewrite Rabs_R0; lra). rewrite Rmult_0_r, cos_0. ring.
  - rewrite cos_window_in by (rewrite Rabs_R0; lra). rewrite cos_window_out by (replace (0 - 1) with (- (1)) by ring; rewrite Rabs_Ropp, Rabs_R1; lra). rewrite Rmult_0_r, cos_0. ring.
  - rewrite !cos_window_in by (apply Rabs_def1; lra). replace (PI / 2 * (t - 1)) with (- (PI / 2 - PI / 2 * t)) by field. rewrite cos_neg, cos_shift. pose proof (sin2_cos2 (PI / 2 * t)) as E. unfold Rsqr in E. lra.
Qed.
Lemma cos_window_sum n : forall t, 0 <= t <= INR n -> sum_sq (map (fun i => cos_window (t - INR i)) (seq 0 (S n))) = 1.
Proof.
  induction n as [|n IH]; intros t Ht.
  - cbn [INR] in Ht. assert (t = 0) as -> by lra. cbn [seq map sum_sq INR]. rewrite Rminus_0_r. rewrite cos_window_in by (rewrite Rabs_R0; lra). rewrite Rmult_0_r, cos_0. ring.
  - rewrite seq_S, map_app, sum_sq_app. cbn [map sum_sq]. rewrite Nat.add_0_l, Rplus_0_r. destruct (Rle_dec t (INR n)) as [L|L].
    + rewrite IH by lra. rewrite cos_window_out; [ring|]. rewrite S_INR. rewrite Rabs_left1 by lra. lra.
    + rewrite seq_S, map_app, sum_sq_app. cbn [map sum_sq]. rewrite Nat.add_0_l, Rplus_0_r. rewrite sum_sq_zero.
      * rewrite Rplus_0_l. rewrite S_INR in *. replace (t - (INR n + 1)) with (t - INR n - 1) by ring. apply cos_window_pair. lra.
      * apply Forall_map. apply Forall_forall. intros i Hi. apply in_seq in Hi. apply cos_window_out. assert (INR i + 1 <= INR n) by (rewrite <- S_INR; apply le_INR; lia). rewrite Rabs_pos_eq; lra.
Qed.
(* ---------- bessel ---------- *)
Lemma bessel_end m k : 0 < m -> bessel_at m m k = 0.
Proof. intros H. unfold bessel_at. destruct (Req_EM_T m 0) as [E|_]; [lra|]. replace (INR k * PI / m * m) with (0 + INR k * PI) by (field; lra). replace (sin (0 + INR k * PI)) with 0; [unfold Rdiv; ring|]. rewrite Rplus_0_l. symmetry. apply sin_eq_0_1. exists (Z.of_nat k). rewrite INR_IZR_INZ. reflexivity. Qed.
Lemma bessel_times m x k : x * bessel_at m x k = sqrt (2 / m) * sin (INR k * PI / m * x).
Proof. unfold bessel_at. destruct (Req_EM_T x 0) as [->|N]; [rewrite !Rmult_0_r, Rmult_0_l, sin_0; ring|field; exact N]. Qed.
Lemma int_cos w c : w <> 0 -> is_RInt (fun x => cos (w * x)) 0 c (sin (w * c) / w).
Proof.
  intros N. replace (sin (w * c) / w) with (minus (sin (w * c) / w) (sin (w * 0) / w)) by (rewrite Rmult_0_r, sin_0; unfold minus, plus, opp; cbn; unfold Rdiv; ring).
  apply (is_RInt_derive (fun x => sin (w * x) / w)).
  - intros x _. auto_derive; [exact I|]. field. exact N.
  - intros x _. apply (ex_derive_continuous (fun x => cos (w * x))). auto_derive. exact I.
Qed.
Lemma bessel_orthonormal m j k : 0 < m -> (1 <= j)%nat -> (1 <= k)%nat -> is_RInt (fun r => r ^ 2 * bessel_at m r j * bessel_at m r k) 0 m (if Nat.eq_dec j k then 1 else 0).
Proof.
  intros Hm Hj Hk. pose proof PI_RGT_0 as HPI. set (u := (INR j - INR k) * PI / m). set (v := (INR j + INR k) * PI / m).
  assert (S2 : sqrt (2 / m) * sqrt (2 / m) = 2 / m) by (apply sqrt_sqrt; apply Rmult_le_pos; [lra|left; apply Rinv_0_lt_compat; exact Hm]).
  assert (Pt : forall r, r ^ 2 * bessel_at m r j * bessel_at m r k = / m * cos (u * r) - / m * cos (v * r)).
  { intros r. replace (r ^ 2 * bessel_at m r j * bessel_at m r k) with ((r * bessel_at m r j) * (r * bessel_at m r k)) by ring. rewrite !bessel_times. set (A := INR j * PI / m * r). set (B := INR k * PI / m * r). replace (u * r) with (A - B) by (unfold u, A, B; field; lra). replace (v * r) with (A + B) by (unfold v, A, B; field; lra).
    rewrite cos_minus, cos_plus. replace (sqrt (2 / m) * sin A * (sqrt (2 / m) * sin B)) with (sqrt (2 / m) * sqrt (2 / m) * (sin A * sin B)) by ring. rewrite S2. field. lra. }
  assert (Hv : v <> 0). { unfold v. apply Rmult_integral_contrapositive. split; [|apply Rinv_neq_0_compat; lra]. apply Rmult_integral_contrapositive. split; [|lra]. apply (le_INR 1) in Hj. apply (le_INR 1) in Hk. cbn [INR] in *. lra. }
  assert (Sv : sin (v * m) = 0). { apply sin_eq_0_1. exists (Z.of_nat (j + k)). rewrite <- INR_IZR_INZ, plus_INR. unfold v. field. lra. }
  assert (Iv : is_RInt (fun r => / m * cos (v * r)) 0 m 0). { assert (J : is_RInt (fun r => / m * cos (v * r)) 0 m (/ m * (sin (v * m) / v))) by (apply (is_RInt_scal (fun r => cos (v * r))); apply int_cos, Hv). replace (/ m * (sin (v * m) / v)) with 0 in J by (rewrite Sv; unfold Rdiv; ring). exact J. }
  assert (Iu : is_RInt (fun r => / m * cos (u * r)) 0 m (if Nat.eq_dec j k then 1 else 0)).
  { destruct (Nat.eq_dec j k) as [->|N].
    - apply (is_RInt_ext (fun _ => / m)); [intros r _; unfold u; replace ((INR k - INR k) * PI / m * r) with 0 by (field; lra); rewrite cos_0, Rmult_1_r; reflexivity|]. assert (J := is_RInt_const (V := R_NormedModule) 0 m (/ m)). assert (Z : (m - 0) * / m = 1) by (field; lra). rewrite <- Z. exact J.
    - assert (Hu : u <> 0). { unfold u. apply Rmult_integral_contrapositive. split; [|apply Rinv_neq_0_compat; lra]. apply Rmult_integral_contrapositive. split; [|lra]. intros E. apply N. apply INR_eq. lra. }
      assert (Su : sin (u * m) = 0). { apply sin_eq_0_1. exists (Z.of_nat j - Z.of_nat k)%Z. rewrite minus_IZR, <- !INR_IZR_INZ. unfold u. field. lra. }
      assert (J : is_RInt (fun r => / m * cos (u * r)) 0 m (/ m * (sin (u * m) / u))) by (apply (is_RInt_scal (fun r => cos (u * r))); apply int_cos, Hu). replace (/ m * (sin (u * m) / u)) with 0 in J by (rewrite Su; unfold Rdiv; ring). exact J. }
  apply (is_RInt_ext (fun r => minus (/ m * cos (u * r)) (/ m * cos (v * r)))); [intros r _; symmetry; rewrite Pt; reflexivity|].
  match goal with |- is_RInt _ _ _ ?z => assert (Z : z - 0 = z) by apply Rminus_0_r; rewrite <- Z end. exact (is_RInt_minus (V := R_NormedModule) _ _ _ _ _ _ Iu Iv).
Qed.
(* the value at 0 is the limit: bessel is continuous there *)
Lemma bessel_continuous m k : 0 < m -> continuous (fun x => bessel_at m x k) 0.
Proof.
  intros Hm. set (w := INR k * PI / m). assert (D : derivable_pt_lim (fun x => sin (w * x)) 0 (w * cos (w * 0))).
  { apply is_derive_Reals. auto_derive; [exact I|ring]. }
  apply continuity_pt_filterlim. intros eps He. set (s := sqrt (2 / m)). assert (Hs : 0 < s) by (apply sqrt_lt_R0; apply Rdiv_lt_0_compat; lra).
  destruct (D (eps / s)) as (d & B); [apply Rdiv_lt_0_compat; assumption|]. exists d. split; [apply cond_pos|]. intros x ((_ & Nx) & Hx). cbn in Hx. unfold R_dist in *. cbn. unfold R_dist. rewrite Rminus_0_r in Hx.
  unfold bessel_at. fold s. destruct (Req_EM_T 0 0) as [_|C]; [|lra]. destruct (Req_EM_T x 0) as [->|N]; [rewrite Rminus_diag_eq, Rabs_R0 by reflexivity; exact He|]. fold w. specialize (B x N Hx). rewrite Rplus_0_l, Rmult_0_r, sin_0, cos_0, Rminus_0_r, Rmult_1_r in B.
  replace (s * (sin (w * x) / x) - s * w) with (s * (sin (w * x) / x - w)) by ring. rewrite Rabs_mult, (Rabs_pos_eq s) by lra. apply (Rmult_lt_compat_l s) in B; [|exact Hs]. replace (s * (eps / s)) with eps in B by (field; lra). exact B.
Qed.
