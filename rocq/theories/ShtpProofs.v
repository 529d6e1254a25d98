(* The maps between two representations that keep the order m, and their commutation with the rotations that fix the pole. *)
From Coq Require Import Reals ZArith Arith Lia Lra Bool List.
From Verif Require Import PyBase IrrepsModel SumR CGModel CGProofs8 CGProofs10 TpshCG.
From Verif Require Import RotationModel RotationProofs RotationProofs2 RotationProofs3 WignerModel WignerProofs WignerProofs2.
Import ListNotations.
Open Scope R_scope.

(* channel c of the symmetric (antisymmetric) kind, from degree lx to degree lz: component j of the output, component i of the input *)
Definition band (sym : bool) (lx lz c j i : nat) : R :=
  if sym then if ((j =? lz + c) && (i =? lx + c))%nat || ((j + c =? lz) && (i + c =? lx))%nat then 1 else 0
  else if ((j + S c =? lz) && (i =? lx + S c))%nat then 1 else if ((j =? lz + S c) && (i + S c =? lx))%nat then -1 else 0.
Definition nchan (sym : bool) (lx lz : nat) : nat := if sym then S (Nat.min lx lz) else Nat.min lx lz.
Ltac nb := repeat match goal with |- context [Nat.eqb ?a ?b] => destruct (Nat.eqb_spec a b); try lia end; cbn [andb orb].

(* ---- the rotations about the pole ---- *)
Lemma W_matrix_y t l i j : (i < 2 * l + 1)%nat -> (j < 2 * l + 1)%nat -> W (matrix_y t) l i j = rot_y l t i j.
Proof. intros Hi Hj. rewrite rot_y_is_wD by assumption. rewrite W_log by assumption. now rewrite rodrigues_y. Qed.
Lemma rsum_pick n a f : (a < n)%nat -> (forall k, (k < n)%nat -> k <> a -> f k = 0) -> rsum n f = f a.
Proof. intros Ha H. rewrite <- (rsum_delta n a f Ha). apply rsum_ext. intros k Hk. destruct (Nat.eqb_spec k a) as [->|N]; [reflexivity|now apply H]. Qed.
(* sums against a channel *)
Lemma band_sum_l sym lx lz c i f : (c < nchan sym lx lz)%nat -> (i < 2 * lx + 1)%nat ->
  rsum (2 * lz + 1) (fun j => f j * band sym lx lz c j i) =
  if sym then if (i =? lx + c)%nat then f (lz + c)%nat else if (i + c =? lx)%nat then f (lz - c)%nat else 0
  else if (i =? lx + S c)%nat then f (lz - S c)%nat else if (i + S c =? lx)%nat then - f (lz + S c)%nat else 0.
Proof.
  intros Hc Hi. unfold nchan in Hc. unfold band. destruct sym.
  - destruct (Nat.eqb_spec i (lx + c)) as [E|N1]; [|destruct (Nat.eqb_spec (i + c) lx) as [E|N2]].
    + rewrite (rsum_pick _ (lz + c)); [nb; ring|lia|]. intros k Hk N. nb; ring.
    + rewrite (rsum_pick _ (lz - c)); [nb; ring|lia|]. intros k Hk N. nb; ring.
    + apply rsum_zero. intros k Hk. rewrite !andb_false_r. cbn [orb]. ring.
  - destruct (Nat.eqb_spec i (lx + S c)) as [E|N1]; [|destruct (Nat.eqb_spec (i + S c) lx) as [E|N2]].
    + rewrite (rsum_pick _ (lz - S c)); [nb; ring|lia|]. intros k Hk N. nb; ring.
    + rewrite (rsum_pick _ (lz + S c)); [nb; ring|lia|]. intros k Hk N. nb; ring.
    + apply rsum_zero. intros k Hk. rewrite !andb_false_r. ring.
Qed.
Lemma band_sum_r sym lx lz c j f : (c < nchan sym lx lz)%nat -> (j < 2 * lz + 1)%nat ->
  rsum (2 * lx + 1) (fun i => band sym lx lz c j i * f i) =
  if sym then if (j =? lz + c)%nat then f (lx + c)%nat else if (j + c =? lz)%nat then f (lx - c)%nat else 0
  else if (j + S c =? lz)%nat then f (lx + S c)%nat else if (j =? lz + S c)%nat then - f (lx - S c)%nat else 0.
Proof.
  intros Hc Hi. unfold nchan in Hc. unfold band. destruct sym.
  - destruct (Nat.eqb_spec j (lz + c)) as [E|N1]; [|destruct (Nat.eqb_spec (j + c) lz) as [E|N2]].
    + rewrite (rsum_pick _ (lx + c)); [nb; ring|lia|]. intros k Hk N. nb; ring.
    + rewrite (rsum_pick _ (lx - c)); [nb; ring|lia|]. intros k Hk N. nb; ring.
    + apply rsum_zero. intros k Hk. cbn [andb orb]. ring.
  - destruct (Nat.eqb_spec (j + S c) lz) as [E|N1]; [|destruct (Nat.eqb_spec j (lz + S c)) as [E|N2]].
    + rewrite (rsum_pick _ (lx + S c)); [nb; ring|lia|]. intros k Hk N. nb; ring.
    + rewrite (rsum_pick _ (lx - S c)); [nb; ring|lia|]. intros k Hk N. nb; ring.
    + apply rsum_zero. intros k Hk. cbn [andb]. ring.
Qed.
Lemma band_rot_y sym lx lz c t j i : (c < nchan sym lx lz)%nat -> (j < 2 * lz + 1)%nat -> (i < 2 * lx + 1)%nat ->
  rsum (2 * lz + 1) (fun k => rot_y lz t j k * band sym lx lz c k i) = rsum (2 * lx + 1) (fun k => band sym lx lz c j k * rot_y lx t k i).
Proof.
  intros Hc Hj Hi. rewrite (band_sum_l sym lx lz c i (fun k => rot_y lz t j k)) by assumption. rewrite (band_sum_r sym lx lz c j (fun k => rot_y lx t k i)) by assumption. unfold nchan in Hc. unfold rot_y.
  destruct sym.
  - assert (M : forall a b a' b' : nat, (Z.of_nat a - Z.of_nat b = Z.of_nat a' - Z.of_nat b')%Z -> INR a - INR b = INR a' - INR b') by (intros a b a' b' E; rewrite !INR_IZR_INZ, <- !minus_IZR; now f_equal).
    nb; try reflexivity; try (do 2 f_equal; apply M; lia).
  - assert (M : forall b b', (Z.of_nat lz - Z.of_nat b = Z.of_nat b' - Z.of_nat lx)%Z -> INR lz - INR b = - (INR lx - INR b')) by (intros b b' E; rewrite !INR_IZR_INZ, <- !minus_IZR, <- opp_IZR; f_equal; lia).
    nb; try reflexivity; try ring; first [rewrite (M j (lx + S c)%nat) by lia|rewrite (M j (lx - S c)%nat) by lia]; rewrite Ropp_mult_distr_l_reverse, ?cos_neg, ?sin_neg; ring.
Qed.
(* ---- the half turn about the first axis ---- *)
Definition half_x : mat := Mx 1 0 0 0 (-1) 0 0 0 (-1).
Lemma half_x_rotation : rotation half_x.
Proof. repeat split; try (apply mat_eq; cbn; ring). unfold det, half_x. cbn. ring. Qed.
Lemma wfam_half : wfam (fun l i j => if (i =? j)%nat then (-1) ^ l * side l i else 0).
Proof.
  split; [cbn; ring|]. intros l1 l2 l3 k a b Ha Hb Hk. rewrite (rsum_pick _ k); [|exact Hk|intros m Hm N; destruct (Nat.eqb_spec k m); [lia|ring]]. rewrite Nat.eqb_refl.
  rewrite (rsum_pick _ a); [|exact Ha|]. 2: { intros i Hi N. apply rsum_zero. intros j Hj. destruct (Nat.eqb_spec i a); [lia|ring]. }
  rewrite (rsum_pick _ b); [|exact Hb|]. 2: { intros i Hi N. destruct (Nat.eqb_spec i b); [lia|ring]. }
  rewrite !Nat.eqb_refl. rewrite (cg_mirror l1 l2 l3 a b k Ha Hb Hk) at 1. assert (S2 : side l3 k * side l3 k = 1) by (unfold side; destruct (_ <=? _)%nat; ring). assert (P : (-1) ^ l3 * (-1) ^ l3 = 1) by (rewrite <- pow_add; replace (l3 + l3)%nat with (2 * l3)%nat by lia; rewrite pow_mult; replace ((-1) ^ 2) with 1 by ring; apply pow1).
  rewrite !pow_add. transitivity (clebsch_gordan l1 l2 l3 a b k * ((-1) ^ l1 * side l1 a) * ((-1) ^ l2 * side l2 b) * ((-1) ^ l3 * (-1) ^ l3) * (side l3 k * side l3 k)); [ring|rewrite P, S2; ring].
Qed.
Lemma W_half l i j : (i < 2 * l + 1)%nat -> (j < 2 * l + 1)%nat -> W half_x l i j = if (i =? j)%nat then (-1) ^ l * side l i else 0.
Proof.
  revert l i j. apply (wfam_unique (W half_x)); [apply wfam_W|apply wfam_half|]. intros i j Hi Hj. rewrite W_l1 by (auto; apply half_x_rotation). unfold side. do 3 (destruct i as [|i]; [do 3 (destruct j as [|j]; [cbn; ring|]); lia|]). lia.
Qed.
(* ---- the rotations that fix or reverse the pole ---- *)
Lemma fixes_pole g : rotation g -> mapply g (V 0 1 0) = V 0 1 0 -> exists t, g = matrix_y t.
Proof.
  intros (A & B & D) E. destruct g as [a b c d e f x y z]. unfold mapply in E. cbn in E. injection E as E1 E2 E3. assert (b = 0) by lra. assert (e = 1) by lra. assert (y = 0) by lra. subst b e y. clear E1 E2 E3.
  unfold mmul, mtr, mone in A, B. cbn in A, B. injection A as A1 A2 A3 A4 A5 A6 A7 A8 A9. injection B as B1 B2 B3 B4 B5 B6 B7 B8 B9. unfold det in D. cbn in D.
  assert (D0 : d * d = 0) by nra. assert (F0 : f * f = 0) by nra. assert (d = 0) by (apply Rmult_integral in D0; tauto). assert (f = 0) by (apply Rmult_integral in F0; tauto). subst d f. clear D0 F0.
  assert (P1 : a * z - c * x = 1) by lra. assert (P2 : a * x + c * z = 0) by lra. assert (P3 : x * x + z * z = 1) by lra.
  assert (x = - c). { transitivity (x * (a * z - c * x)); [rewrite P1; ring|]. transitivity (z * (a * x + c * z) - c * (x * x + z * z)); [ring|rewrite P2, P3; ring]. }
  assert (a = z). { transitivity (a * (x * x + z * z)); [rewrite P3; ring|]. transitivity (z * (a * z - c * x) + x * (a * x + c * z)); [ring|rewrite P1, P2; ring]. }
  subst x a.
  exists (arctan2 c z). destruct (arctan2_spec c z) as [C Sn]; [lra|]. unfold matrix_y. rewrite C, Sn. apply mat_eq; cbn; ring.
Qed.
Lemma reverses_pole g : rotation g -> mapply g (V 0 1 0) = V 0 (-1) 0 -> exists t, g = mmul (matrix_y t) half_x.
Proof.
  intros Rg E. destruct (fixes_pole (mmul g half_x)) as [t Et]; [apply rotation_mul; [exact Rg|apply half_x_rotation]| |].
  - destruct g as [a b c d e f x y z]. unfold mapply in *. cbn in *. injection E as E1 E2 E3. apply vec_eq; cbn; lra.
  - exists t. rewrite <- Et. apply mat_eq; cbn; ring.
Qed.
