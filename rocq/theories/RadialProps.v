(* C48: the windows of radial.py *)
From Coq Require Import Reals ZArith Arith Bool Lia Lra Psatz List.
From Coquelicot Require Import Coquelicot.
From Verif Require Import PyBase SumR RotationModel ActivationModel ActivationProofs NormActProofs RadialModel RadialProofs RadialProofs2 RadialProofs3 RadialProofs4.
Import ListNotations.
Open Scope R_scope.

(* all derivatives exist everywhere *)
Definition smooth (f : R -> R) : Prop := forall n x, ex_derive_n f n x.
Lemma smooth_ext f g : (forall x, f x = g x) -> smooth f -> smooth g.
Proof. intros E H n x. apply (ex_derive_n_ext f); [exact E|apply H]. Qed.
Lemma smooth_derivable f : smooth f -> forall x, is_derive f x (Derive f x).
Proof. intros H x. apply Derive_correct. apply (H 1%nat x). Qed.
Lemma ex_derive_n_shift f n x : (forall y, ex_derive f y) -> ex_derive_n (Derive f) n x -> ex_derive_n f (S n) x.
Proof.
  intros D H. destruct n as [|n]; [apply D|]. change (ex_derive (Derive_n f (S n)) x). change (ex_derive (Derive_n (Derive f) n) x) in H. apply (ex_derive_ext (Derive_n (Derive f) n)); [|exact H]. intros t. assert (E := Derive_n_comp f n 1 t). change (Derive_n f 1) with (Derive f) in E. rewrite Nat.add_1_r in E. exact E.
Qed.
Lemma smooth_Derive f : smooth f -> smooth (Derive f).
Proof.
  intros H n x. destruct n as [|n]; [exact I|]. change (ex_derive (Derive_n (Derive f) n) x). apply (ex_derive_ext (Derive_n f (S n))); [|apply (H (S (S n)))]. intros t. assert (E := Derive_n_comp f n 1 t). change (Derive_n f 1) with (Derive f) in E. rewrite Nat.add_1_r in E. symmetry. exact E.
Qed.
Lemma all_near (P : R -> Prop) x : (forall y, P y) -> locally x P.
Proof. intros H. exists (mkposreal 1 Rlt_0_1). intros y _. apply H. Qed.
Lemma smooth_mult f g : smooth f -> smooth g -> smooth (fun x => f x * g x).
Proof.
  intros Hf Hg n. revert f g Hf Hg. induction n as [n IH] using lt_wf_ind. intros f g Hf Hg x. destruct n as [|n]; [exact I|].
  assert (D : forall y, is_derive (fun x => f x * g x) y (Derive f y * g y + f y * Derive g y)) by (intros y; apply der_mult; apply smooth_derivable; assumption).
  apply ex_derive_n_shift; [intros y; eexists; apply D|]. apply (ex_derive_n_ext (fun y => Derive f y * g y + f y * Derive g y)); [intros t; symmetry; apply is_derive_unique, D|].
  apply (ex_derive_n_plus (fun y => Derive f y * g y) (fun y => f y * Derive g y)); apply all_near; intros y k Hk; apply IH; try lia; try assumption; apply smooth_Derive; assumption.
Qed.
Lemma smooth_scal (k : R) f : smooth f -> smooth (fun x => k * f x).
Proof. intros H n x. apply ex_derive_n_scal_l, H. Qed.
Lemma smooth_affine f u v : smooth f -> smooth (fun x => f (u * x + v)).
Proof.
  intros H n x. assert (G : smooth (fun y => f (y + v))). { intros m y. apply (ex_derive_n_comp_trans f m y v). apply H. } apply (ex_derive_n_comp_scal (fun y => f (y + v)) u n x). apply all_near. intros y k _. apply G.
Qed.

(* ---------- sus ---------- *)
(* 0 exactly on x <= 0, exp(-1/x) in (0, 1) elsewhere, increasing, infinitely differentiable *)
Theorem C48_sus : (forall x, x <= 0 -> sus x = 0) /\ (forall x, 0 < x -> sus x = exp (- (1 / x)) /\ 0 < sus x < 1) /\
  (forall x y, x <= y -> sus x <= sus y) /\ (forall x y, 0 <= x -> x < y -> sus x < sus y) /\ smooth sus /\ (forall n, Derive_n sus n 0 = 0).
Proof.
  split; [apply sus_zero|split; [|split; [apply sus_mono|split; [apply sus_strict|split; [intros n x; apply sus_smooth|apply sus_derivatives_at_0]]]]].
  intros x H. split; [rewrite sus_pos by exact H; f_equal; field; lra|]. split; [rewrite sus_pos by exact H; apply exp_pos|apply sus_lt1].
Qed.
(* and it tends to 1 *)
Theorem C48_sus_limit : forall eps, 0 < eps -> exists A, forall x, A < x -> 1 - eps < sus x < 1.
Proof.
  intros eps He. exists (/ eps). intros x Hx. assert (P : 0 < / eps) by (apply Rinv_0_lt_compat, He). split; [|apply sus_lt1]. rewrite sus_pos by lra. assert (Q : / x < eps) by (rewrite <- (Rinv_inv eps); apply Rinv_lt_contravar; [apply Rmult_lt_0_compat; lra|exact Hx]).
  pose proof (exp_ineq1_le (-1 / x)) as B. unfold Rdiv in *. lra.
Qed.
(* ---------- soft_envelope ---------- *)
Theorem C48_soft_envelope : forall x_max m v, 0 < x_max -> 0 < m ->
  soft_envelope 0 x_max m v = v /\
  (forall x, x_max <= x -> soft_envelope x x_max m v = 0) /\
  (0 < v -> forall x, x < x_max -> 0 < soft_envelope x x_max m v) /\
  (0 <= v -> forall x y, x <= y -> soft_envelope y x_max m v <= soft_envelope x x_max m v) /\
  smooth (fun x => soft_envelope x x_max m v).
Proof.
  intros M m v HM Hm. assert (S0 : 0 < sus m) by (rewrite sus_pos by exact Hm; apply exp_pos). assert (I : 0 < / M) by (apply Rinv_0_lt_compat, HM).
  unfold soft_envelope. split; [|split; [|split; [|split]]].
  - replace (m * (1 - 0 / M)) with m by (field; lra). field. lra.
  - intros x Hx. rewrite (sus_zero (m * (1 - x / M))); [ring|]. assert (1 <= x / M) by (apply (Rmult_le_reg_r M); [exact HM|]; unfold Rdiv; rewrite Rmult_assoc, Rinv_l by lra; lra). assert (0 <= m * (x / M - 1)) by (apply Rmult_le_pos; lra). lra.
  - intros Hv x Hx. assert (x / M < 1) by (apply (Rmult_lt_reg_r M); [exact HM|]; unfold Rdiv; rewrite Rmult_assoc, Rinv_l by lra; lra). assert (Hp : 0 < m * (1 - x / M)) by (apply Rmult_lt_0_compat; lra). rewrite (sus_pos (m * _)) by exact Hp. apply Rmult_lt_0_compat; [apply Rdiv_lt_0_compat; assumption|apply exp_pos].
  - intros Hv x y Hxy. apply Rmult_le_compat_l; [apply Rmult_le_pos; [exact Hv|left; apply Rinv_0_lt_compat, S0]|]. apply sus_mono. apply Rmult_le_compat_l; [lra|]. assert (x / M <= y / M) by (apply Rmult_le_compat_r; lra). lra.
  - apply smooth_scal. apply (smooth_ext (fun x => sus ((- m * / M) * x + m))); [intros x; f_equal; field; lra|]. apply smooth_affine. intros n x. apply sus_smooth.
Qed.
(* ---------- poly_envelope ---------- *)
(* the linear system has exactly one solution, whatever n0 and n1: poly_envelope always succeeds *)
Theorem C48_envelope_system_regular : forall n0 n1, exists c, solves (envelope_constraints n0 n1) c /\ forall c', solves (envelope_constraints n0 n1) c' -> c' = c.
Proof. intros n0 n1. destruct (solution_exists n0 n1) as (c & H). exists c. split; [exact H|]. intros c' H'. apply (solution_unique n0 n1); assumption. Qed.
Theorem C48_poly_envelope : forall n0 n1 c x_max, solves (envelope_constraints n0 n1) c -> 0 < x_max ->
  let f := poly_envelope c x_max in
  f 0 = 1 /\
  (forall x, x_max <= x -> f x = 0) /\
  (forall x, 0 <= x -> 0 <= f x <= 1) /\
  (forall x y, 0 <= x -> x < y -> y <= x_max -> f y < f x) /\
  (forall k, (1 <= k <= n0)%nat -> ex_derive_n f k 0 /\ Derive_n f k 0 = 0) /\
  (forall k, (k <= n1)%nat -> (forall x, ex_derive_n f k x) /\ forall x, x_max <= x -> Derive_n f k x = 0).
Proof.
  intros n0 n1 c M H HM. cbv zeta. pose proof (proj1 (solves_spec n0 n1 c) H) as (L & A & B & _).
  assert (In : forall x, 0 <= x -> x < M -> - (1 / 2) <= x / M - 1 / 2 < 1 / 2).
  { intros x H0 H1. assert (0 <= x / M) by (apply Rmult_le_pos; [exact H0|left; apply Rinv_0_lt_compat, HM]). assert (x / M < 1) by (apply (Rmult_lt_reg_r M); [exact HM|]; unfold Rdiv; rewrite Rmult_assoc, Rinv_l by lra; lra). lra. }
  assert (V : forall x, x < M -> poly_envelope c M x = poly_at c (x / M - 1 / 2)) by (intros x Hx; unfold poly_envelope; rewrite (Rltb_true x M) by exact Hx; reflexivity).
  assert (Z : forall x, M <= x -> poly_envelope c M x = 0) by (intros x Hx; unfold poly_envelope; rewrite (Rltb_false x M) by exact Hx; reflexivity).
  split; [rewrite V by exact HM; replace (0 / M - 1 / 2) with (- (1 / 2)) by (field; lra); exact A|]. split; [exact Z|]. split; [|split; [|split]].
  - intros x Hx. destruct (Rlt_dec x M) as [Q|Q]; [|rewrite Z by lra; lra]. rewrite V by exact Q. apply (solution_range n0 n1); [exact H|]. specialize (In x Hx Q). lra.
  - intros x y H0 Hxy Hy. assert (D : x / M < y / M) by (apply Rmult_lt_compat_r; [apply Rinv_0_lt_compat, HM|exact Hxy]). pose proof (In x H0 ltac:(lra)). destruct (Rlt_dec y M) as [Q|Q].
    + rewrite !V by lra. pose proof (In y ltac:(lra) Q). apply (solution_strict n0 n1); [exact H|lra|lra|lra].
    + assert (y = M) as -> by lra. rewrite Z by lra. rewrite V by lra. rewrite <- B. apply (solution_strict n0 n1); [exact H|lra|lra|lra].
  - intros k Hk. apply (envelope_at_origin n0 n1); assumption.
  - intros k Hk. split; [intros x; apply (envelope_derivatives n0 n1); assumption|]. intros x Hx. rewrite (proj2 (envelope_derivatives n0 n1 c M k H HM Hk x)). unfold cut_at. destruct (Rlt_dec x M); [lra|reflexivity].
Qed.
(* "equivalent to u_p(x) when n0 = p-1 and n1 = 2" *)
Theorem C48_poly_envelope_is_u : forall p c x_max x, (1 <= p)%nat -> solves (envelope_constraints (p - 1) 2) c -> 0 < x_max -> x <= x_max -> poly_envelope c x_max x = u_envelope p (x / x_max).
Proof.
  intros p c M x Hp H HM Hx. destruct p as [|p]; [lia|]. rewrite Nat.sub_succ, Nat.sub_0_r in H. unfold poly_envelope. destruct (Rlt_dec x M) as [Q|Q].
  - rewrite (Rltb_true x M) by exact Q. rewrite (solution_is_u p c _ H). f_equal. field. lra.
  - rewrite (Rltb_false x M) by lra. assert (x = M) as -> by lra. replace (M / M) with 1 by (field; lra). rewrite u_at_1. reflexivity.
Qed.
Theorem C48_u : forall p, (1 <= p)%nat -> u_envelope p 0 = 1 /\ u_envelope p 1 = 0 /\
  forall x, is_derive (u_envelope p) x (- (INR p * (INR p + 1) * (INR p + 2) / 2 * (x ^ (p - 1) * (1 - x) ^ 2))).
Proof. intros [|p] H; [lia|]. split; [apply u_at_0|split; [apply u_at_1|]]. intros x. rewrite Nat.sub_succ, Nat.sub_0_r. apply u_derive. Qed.

(* ---------- soft_one_hot_linspace ---------- *)
(* what is accepted: either cutoff alone, or both start_zero and end_zero; a known basis; equal flags for fourier *)
Theorem C48_one_hot_accepts : forall x a b number bs cutoff s e,
  (exists l, soft_one_hot_linspace x a b number bs cutoff s e = Ok l) <->
  exists fs fe, (cutoff = Some fs /\ fe = fs /\ s = None /\ e = None \/ cutoff = None /\ s = Some fs /\ e = Some fe) /\ bs <> OtherBasis /\ (bs = Fourier -> fs = fe).
Proof.
  intros. unfold soft_one_hot_linspace, one_hot_flags. split.
  - intros (l & H). destruct cutoff as [c|].
    + destruct s, e; try discriminate H. exists c, c. split; [left; repeat split; reflexivity|]. split; [|reflexivity]. intros ->. cbn -[one_hot_values] in H. destruct (one_hot_values a b number c c). discriminate H.
    + destruct s as [s|], e as [e|]; try discriminate H. exists s, e. split; [right; repeat split; reflexivity|]. cbn -[one_hot_values] in H. destruct (one_hot_values a b number s e). split; [intros ->; discriminate H|]. intros ->. destruct s, e; try reflexivity; discriminate H.
  - intros (fs & fe & [(-> & -> & -> & ->)|(-> & -> & ->)] & N & F); cbn -[one_hot_values]; destruct (one_hot_values a b number _ _) as (v & st); destruct bs; try (eexists; reflexivity); try congruence; pose proof (F eq_refl) as F'; rewrite ?F'; match goal with |- context [negb ?q] => destruct q end; cbn; eexists; reflexivity.
Qed.
(* a call with resolved flags; cutoff=c means start_zero=c and end_zero=c *)
Theorem C48_cutoff_means_both : forall x a b number bs c, soft_one_hot_linspace x a b number bs (Some c) None None = soft_one_hot_linspace x a b number bs None (Some c) (Some c).
Proof. reflexivity. Qed.
Lemma removelast_length {A} (l : list A) : length (removelast l) = (length l - 1)%nat.
Proof. induction l as [|x l IH]; [reflexivity|]. destruct l as [|y l]; [reflexivity|]. cbn [removelast length] in *. rewrite IH. lia. Qed.
Lemma tl_length {A} (l : list A) : length (tl l) = (length l - 1)%nat.
Proof. destruct l; cbn; lia. Qed.
Theorem C48_one_hot_length : forall x a b number bs cutoff s e l, soft_one_hot_linspace x a b number bs cutoff s e = Ok l -> length l = number.
Proof.
  intros x a b number bs cutoff s e l H. unfold soft_one_hot_linspace in H. destruct (one_hot_flags cutoff s e) as [(s', e')|]; [|discriminate]. cbn [bind] in H.
  assert (L : length (fst (one_hot_values a b number s' e')) = number) by (unfold one_hot_values; destruct s', e'; cbn [fst]; rewrite ?removelast_length, ?tl_length; unfold linspace; rewrite map_length, seq_length; lia).
  destruct (one_hot_values a b number s' e') as (v & st). cbn [fst] in L. destruct bs; try discriminate H.
  - injection H as <-. rewrite !map_length. exact L.
  - injection H as <-. rewrite !map_length. exact L.
  - injection H as <-. rewrite !map_length. exact L.
  - destruct (s' && e'); [injection H as <-; rewrite map_length, seq_length; reflexivity|]. destruct (negb s' && negb e'); [injection H as <-; rewrite map_length, seq_length; reflexivity|discriminate].
Qed.
Definition one_hot_window (bs : basis) (d : R) : R :=
  match bs with
  | Gaussian => exp (- d ^ 2) / (112 / 100)
  | Cosine => if Rlt_dec (Rabs d) 1 then cos (PI / 2 * d) else 0
  | SmoothFinite => if Rlt_dec (Rabs d) 1 then 114136 / 100000 * exp 2 * exp (- (1 / (1 + d))) * exp (- (1 / (1 - d))) else 0
  | _ => 0
  end.
(* the i-th function is one window centered at the i-th of the equally spaced centers; start_zero / end_zero leave out the ends of [a, b] *)
Theorem C48_one_hot_entries : forall x a b number bs s e l i, soft_one_hot_linspace x a b number bs None (Some s) (Some e) = Ok l -> bs <> Fourier -> (i < number)%nat ->
  let gaps := (number - 1 + (if s then 1 else 0) + (if e then 1 else 0))%nat in (1 <= gaps)%nat -> a <> b ->
  let step := (b - a) / INR gaps in let c := a + INR (i + (if s then 1 else 0)) * step in
  nth i l 0 = one_hot_window bs ((x - c) / step).
Proof.
  intros x a b number bs s e l i H NF Hi. cbv zeta. intros G Hab. assert (K : intervals number s e = (number - 1 + (if s then 1 else 0) + (if e then 1 else 0))%nat) by (unfold intervals, b2n; destruct s, e; lia). rewrite <- K in *. fold (spacing a b number s e). change (if s then 1%nat else 0%nat) with (b2n s). fold (center a b number s e i).
  unfold soft_one_hot_linspace in H. cbn [one_hot_flags bind] in H. rewrite one_hot_values_eq in H by exact G.
  assert (N : forall (f : R -> R), nth i (map f (map (fun v => (x - v) / spacing a b number s e) (map (center a b number s e) (seq 0 number)))) 0 = f ((x - center a b number s e i) / spacing a b number s e)).
  { intros f. rewrite !map_map. rewrite (nth_indep _ 0 (f ((x - center a b number s e (nth i (seq 0 number) 0%nat)) / spacing a b number s e))) by (rewrite map_length, seq_length; exact Hi). rewrite (nth_indep _ _ ((fun j => f ((x - center a b number s e j) / spacing a b number s e)) 0%nat)) by (rewrite map_length, seq_length; exact Hi). rewrite (map_nth (fun j => f ((x - center a b number s e j) / spacing a b number s e)) (seq 0 number) 0%nat i). rewrite seq_nth by exact Hi. reflexivity. }
  set (d := (x - center a b number s e i) / spacing a b number s e) in *. destruct bs; try discriminate H; try congruence; injection H as <-; rewrite N.
  - reflexivity.
  - fold (cos_window d). cbn [one_hot_window]. destruct (Rlt_dec (Rabs d) 1) as [Q|Q]; [apply cos_window_in, Q|apply cos_window_out; lra].
  - fold (sus_window d). cbn [one_hot_window]. destruct (Rlt_dec (Rabs d) 1) as [Q|Q]; [|apply sus_window_out; lra]. apply Rabs_def2 in Q. unfold sus_window. rewrite !sus_pos by lra. replace (-1 / (d + 1)) with (- (1 / (1 + d))) by (field; lra). replace (-1 / (1 - d)) with (- (1 / (1 - d))) by (field; lra). reflexivity.
Qed.
Lemma nth_Forall0 (l : list R) n : length l = n -> (forall i, (i < n)%nat -> nth i l 0 = 0) -> Forall (fun y => y = 0) l.
Proof. intros L H. apply Forall_forall. intros y Hy. apply (In_nth l y 0) in Hy. destruct Hy as (i & Hi & <-). apply H. lia. Qed.
(* support: with start_zero everything is 0 up to a, with end_zero everything is 0 from b on - for the bases with finite support *)
Theorem C48_one_hot_support : forall x a b number bs s e l, a < b -> soft_one_hot_linspace x a b number bs None (Some s) (Some e) = Ok l ->
  (bs = Cosine \/ bs = SmoothFinite \/ bs = Fourier) -> (s = true -> x <= a -> Forall (fun y => y = 0) l) /\ (e = true -> b <= x -> Forall (fun y => y = 0) l).
Proof.
  intros x a b number bs s e l Hab H B. assert (L := C48_one_hot_length _ _ _ _ _ _ _ _ _ H).
  assert (F : bs = Fourier -> s = true \/ e = true -> x <= a \/ b <= x -> Forall (fun y => y = 0) l).
  { intros -> Hse Hx. unfold soft_one_hot_linspace in H. cbn [one_hot_flags bind] in H. destruct (one_hot_values a b number s e). assert (s && e = true) as E by (destruct s, e; try reflexivity; try discriminate H; destruct Hse; discriminate). rewrite E in H. injection H as <-. apply Forall_map. apply Forall_forall. intros i _.
    assert (Q : Rltb 0 ((x - a) / (b - a)) && Rltb ((x - a) / (b - a)) 1 = false). { apply andb_false_iff. destruct Hx as [Hx|Hx]; [left; apply Rltb_false|right; apply Rltb_false].
      - assert (0 <= (a - x) / (b - a)) by (apply Rmult_le_pos; [lra|left; apply Rinv_0_lt_compat; lra]). replace ((x - a) / (b - a)) with (- ((a - x) / (b - a))) by (field; lra). lra.
      - apply (Rmult_le_reg_r (b - a)); [lra|]. unfold Rdiv. rewrite Rmult_assoc, Rinv_l by lra. lra. }
    rewrite Q. reflexivity. }
  destruct B as [B|[B|B]].
  - split.
    + intros -> Hx. apply (nth_Forall0 l number L). intros i Hi. rewrite (C48_one_hot_entries x a b number bs true e l i H) by (subst; try discriminate; try lia; try lra; destruct e; lia). subst bs. cbn [one_hot_window]. destruct (Rlt_dec _ 1) as [Q|Q]; [exfalso|reflexivity].
      assert (K : intervals number true e = (number - 1 + 1 + (if e then 1 else 0))%nat) by (unfold intervals, b2n; destruct e; lia). pose proof (far_left a b number true e x i Hab ltac:(unfold intervals, b2n; lia) eq_refl Hx) as W. unfold center, spacing in W. rewrite K in W. change (b2n true) with 1%nat in W. lra.
    + intros -> Hx. apply (nth_Forall0 l number L). intros i Hi. rewrite (C48_one_hot_entries x a b number bs s true l i H) by (subst; try discriminate; try lia; try lra; destruct s; lia). subst bs. cbn [one_hot_window]. destruct (Rlt_dec _ 1) as [Q|Q]; [exfalso|reflexivity].
      assert (K : intervals number s true = (number - 1 + (if s then 1 else 0) + 1)%nat) by (unfold intervals, b2n; destruct s; lia). pose proof (far_right a b number s true x i Hab ltac:(unfold intervals, b2n; lia) eq_refl Hx Hi) as W. unfold center, spacing in W. rewrite K in W. unfold b2n in W. lra.
  - split.
    + intros -> Hx. apply (nth_Forall0 l number L). intros i Hi. rewrite (C48_one_hot_entries x a b number bs true e l i H) by (subst; try discriminate; try lia; try lra; destruct e; lia). subst bs. cbn [one_hot_window]. destruct (Rlt_dec _ 1) as [Q|Q]; [exfalso|reflexivity].
      assert (K : intervals number true e = (number - 1 + 1 + (if e then 1 else 0))%nat) by (unfold intervals, b2n; destruct e; lia). pose proof (far_left a b number true e x i Hab ltac:(unfold intervals, b2n; lia) eq_refl Hx) as W. unfold center, spacing in W. rewrite K in W. change (b2n true) with 1%nat in W. lra.
    + intros -> Hx. apply (nth_Forall0 l number L). intros i Hi. rewrite (C48_one_hot_entries x a b number bs s true l i H) by (subst; try discriminate; try lia; try lra; destruct s; lia). subst bs. cbn [one_hot_window]. destruct (Rlt_dec _ 1) as [Q|Q]; [exfalso|reflexivity].
      assert (K : intervals number s true = (number - 1 + (if s then 1 else 0) + 1)%nat) by (unfold intervals, b2n; destruct s; lia). pose proof (far_right a b number s true x i Hab ltac:(unfold intervals, b2n; lia) eq_refl Hx Hi) as W. unfold center, spacing in W. rewrite K in W. unfold b2n in W. lra.
  - split; intros; apply F; auto.
Qed.
(* the gaussian basis is not cut off: cutoff=True does not make it vanish anywhere *)
Theorem C48_gaussian_cutoff_refuted : forall x a b number l, soft_one_hot_linspace x a b number Gaussian (Some true) None None = Ok l -> Forall (fun y => 0 < y) l.
Proof.
  intros x a b number l H. unfold soft_one_hot_linspace in H. cbn [one_hot_flags bind] in H. destruct (one_hot_values a b number true true). injection H as <-. apply Forall_map. apply Forall_forall. intros d _. apply Rdiv_lt_0_compat; [apply exp_pos|lra].
Qed.
(* the cosine functions: the squares sum to 1 between the first and the last center *)
Theorem C48_cosine_squares : forall x a b number s e l, a < b -> (1 <= number)%nat -> soft_one_hot_linspace x a b number Cosine None (Some s) (Some e) = Ok l ->
  let gaps := (number - 1 + (if s then 1 else 0) + (if e then 1 else 0))%nat in (1 <= gaps)%nat ->
  let step := (b - a) / INR gaps in a + (if s then step else 0) <= x <= b - (if e then step else 0) -> fold_right (fun y acc => y ^ 2 + acc) 0 l = 1.
Proof.
  intros x a b number s e l Hab Hn H. cbv zeta. intros G Hx. assert (K : intervals number s e = (number - 1 + (if s then 1 else 0) + (if e then 1 else 0))%nat) by (unfold intervals, b2n; destruct s, e; lia). rewrite <- K in *. fold (spacing a b number s e) in Hx.
  pose proof (spacing_pos a b number s e Hab G) as P. pose proof (center_last a b number s e G) as E. unfold soft_one_hot_linspace in H. cbn [one_hot_flags bind] in H. rewrite one_hot_values_eq in H by exact G. injection H as <-. set (st := spacing a b number s e) in *.
  assert (F : forall l, fold_right (fun y acc => y ^ 2 + acc) 0 l = sum_sq l) by (induction l as [|y l IH]; [reflexivity|cbn [fold_right sum_sq]; rewrite IH; reflexivity]). rewrite F. clear F. rewrite !map_map.
  set (t := (x - a) / st - INR (b2n s)). rewrite (map_ext _ (fun i => cos_window (t - INR i))).
  - destruct number as [|n]; [lia|]. apply cos_window_sum. unfold t. destruct Hx as (H1 & H2). split.
    + apply (Rmult_le_reg_r st); [exact P|]. rewrite Rmult_0_l. replace (((x - a) / st - INR (b2n s)) * st) with (x - a - INR (b2n s) * st) by (field; lra). destruct s; cbn [b2n INR]; lra.
    + apply (Rmult_le_reg_r st); [exact P|]. replace (((x - a) / st - INR (b2n s)) * st) with (x - a - INR (b2n s) * st) by (field; lra). rewrite <- E in H2. assert (K2 : INR (intervals (S n) s e) = INR n + INR (b2n s) + INR (b2n e)) by (rewrite <- !plus_INR; f_equal; unfold intervals; lia). rewrite K2 in H2. destruct e; cbn [b2n INR] in *; lra.
  - intros i. change (cos_window ((x - center a b number s e i) / st) = cos_window (t - INR i)). f_equal. unfold t, center. fold st. rewrite plus_INR. field. lra.
Qed.
(* the smooth_finite functions are infinitely differentiable *)
Theorem C48_smooth_finite_smooth : forall a b number (s e : bool) i, let gaps := (number - 1 + (if s then 1 else 0) + (if e then 1 else 0))%nat in (i < number)%nat -> (1 <= gaps)%nat -> a <> b ->
  smooth (fun x => match soft_one_hot_linspace x a b number SmoothFinite None (Some s) (Some e) with Ok l => nth i l 0 | Err _ => 0 end).
Proof.
  intros a b number s e i. cbv zeta. intros Hi G Hab. assert (K : intervals number s e = (number - 1 + (if s then 1 else 0) + (if e then 1 else 0))%nat) by (unfold intervals, b2n; destruct s, e; lia). rewrite <- K in G. assert (Hst : spacing a b number s e <> 0) by (unfold spacing; apply Rmult_integral_contrapositive; split; [lra|apply Rinv_neq_0_compat, not_0_INR; lia]).
  set (st := spacing a b number s e) in *. set (c := center a b number s e i).
  apply (smooth_ext (fun x => 114136 / 100000 * exp 2 * (sus ((/ st) * x + (1 - c / st)) * sus ((- / st) * x + (1 + c / st))))).
  - intros x. unfold soft_one_hot_linspace. cbn [one_hot_flags bind]. rewrite one_hot_values_eq by exact G. fold st. rewrite !map_map.
    rewrite (nth_indep _ 0 ((fun j => 114136 / 100000 * exp 2 * sus ((x - center a b number s e j) / st + 1) * sus (1 - (x - center a b number s e j) / st)) 0%nat)) by (rewrite map_length, seq_length; exact Hi).
    rewrite (map_nth (fun j => 114136 / 100000 * exp 2 * sus ((x - center a b number s e j) / st + 1) * sus (1 - (x - center a b number s e j) / st)) (seq 0 number) 0%nat i). rewrite seq_nth by exact Hi. cbn [Nat.add]. fold c. replace ((x - c) / st + 1) with (/ st * x + (1 - c / st)) by (field; exact Hst). replace (1 - (x - c) / st) with (- / st * x + (1 + c / st)) by (field; exact Hst). ring.
  - apply smooth_scal. apply smooth_mult; apply smooth_affine; intros n x; apply sus_smooth.
Qed.

(* ---------- bessel ---------- *)
Theorem C48_bessel : forall n x_max, 0 < x_max ->
  (forall x : R, length (bessel x n x_max) = n) /\
  (forall k, (1 <= k <= n)%nat -> nth (k - 1) (bessel x_max n x_max) 0 = 0) /\
  (forall k, (1 <= k <= n)%nat -> continuous (fun x => nth (k - 1) (bessel x n x_max) 0) 0) /\
  (forall j k, (1 <= j <= n)%nat -> (1 <= k <= n)%nat -> is_RInt (fun r => r ^ 2 * nth (j - 1) (bessel r n x_max) 0 * nth (k - 1) (bessel r n x_max) 0) 0 x_max (if Nat.eq_dec j k then 1 else 0)).
Proof.
  intros n M HM. assert (N : forall x k, (1 <= k <= n)%nat -> nth (k - 1) (bessel x n M) 0 = bessel_at M x k).
  { intros x k Hk. unfold bessel. rewrite (nth_indep _ 0 (bessel_at M x 0)) by (rewrite map_length, seq_length; lia). rewrite map_nth, seq_nth by lia. f_equal. lia. }
  split; [intros x; unfold bessel; rewrite map_length, seq_length; reflexivity|]. split; [|split].
  - intros k Hk. rewrite N by exact Hk. apply bessel_end, HM.
  - intros k Hk. apply (continuous_ext (fun x => bessel_at M x k)); [intros x; symmetry; apply N, Hk|]. apply bessel_continuous, HM.
  - intros j k Hj Hk. apply (is_RInt_ext (fun r => r ^ 2 * bessel_at M r j * bessel_at M r k)); [intros r _; rewrite !N by assumption; reflexivity|]. apply bessel_orthonormal; [exact HM|lia|lia].
Qed.

(* examples *)
Example C48_example_system : solves (envelope_constraints 0 0) [1 / 2; -1].
Proof. apply solves_spec. repeat split; try (cbn; lra); intros k Hk; lia. Qed.
Example C48_example_envelope : poly_envelope [1 / 2; -1] 2 1 = 1 / 2.
Proof. unfold poly_envelope. rewrite (Rltb_true 1 2) by lra. cbn [poly_at]. lra. Qed.
Example C48_example_one_hot : exists l, soft_one_hot_linspace (1 / 2) 0 1 3 Cosine (Some true) None None = Ok l /\ length l = 3%nat /\ nth 1 l 0 = 1 /\ nth 0 l 0 = 0.
Proof.
  assert (E : exists l, soft_one_hot_linspace (1 / 2) 0 1 3 Cosine None (Some true) (Some true) = Ok l) by (apply C48_one_hot_accepts; exists true, true; split; [right; repeat split|split; [discriminate|discriminate]]). destruct E as (l & E). exists l. rewrite C48_cutoff_means_both. split; [exact E|]. split; [apply (C48_one_hot_length _ _ _ _ _ _ _ _ _ E)|].
  split; rewrite (C48_one_hot_entries _ _ _ _ _ _ _ _ _ E) by (try discriminate; try lia; lra); cbn [one_hot_window]; cbn [Nat.sub Nat.add INR]; destruct (Rlt_dec _ 1) as [Q|Q]; try reflexivity.
  - match goal with |- cos (_ * ?u) = 1 => replace u with 0 by field end. rewrite Rmult_0_r. apply cos_0.
  - exfalso. apply Q. match goal with |- Rabs ?u < 1 => replace u with 0 by field end. rewrite Rabs_R0. lra.
  - exfalso. match type of Q with Rabs ?u < 1 => replace u with 1 in Q by field end. rewrite Rabs_R1 in Q. lra.
Qed.
