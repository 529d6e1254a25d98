(* The y-rotation block, Euler angles, and the link with 3x3 rotation matrices *)
From Coq Require Import Reals ZArith Arith Bool Lia Lra Psatz.
From Coquelicot Require Import Rcomplements Series PSeries Hierarchy ElemFct.
From Verif Require Import SumR CGModel CGProofs CGProofs5 CGProofs7 CGProofs8 CGProofs9.
From Verif Require RotationModel RotationProofs RotationProofs2 RotationProofs3.
Open Scope R_scope.
Arguments wigner_D_from_log_coordinates l%nat_scope (v0 v1 v2)%R_scope _%nat_scope _%nat_scope.
Arguments generators l%nat_scope a%nat_scope i%nat_scope j%nat_scope.

Lemma trig_series (p q x : R) : is_series (fun n => (p * fst (eo x n) + q * snd (eo x n)) / INR (fact n)) (p * cos x + q * sin x).
Proof.
  set (a := fun n => (if Nat.even n then p else q) * (-1) ^ (n / 2) / INR (fact n)).
  destruct (RotationProofs3.sin_series x) as (l & SL & SE).
  assert (E : is_pseries (fun k => a (2 * k)%nat) (x ^ 2) (p * cos x)).
  { unfold is_pseries. apply (is_series_ext (fun k => p * ((x ^ 2) ^ k * ((-1) ^ k / INR (fact (2 * k)))))).
    - intro k. unfold a. replace (Nat.even (2 * k)) with true by (symmetry; apply Nat.even_spec; exists k; lia). replace (2 * k / 2)%nat with k by (rewrite Nat.mul_comm, Nat.div_mul; lia).
      change (p * ((x ^ 2) ^ k * ((-1) ^ k / INR (fact (2 * k)))) = (x ^ 2) ^ k * (p * (-1) ^ k / INR (fact (2 * k)))). unfold Rdiv. ring.
    - apply is_series_scalR, RotationProofs3.cos_series. }
  assert (O : is_pseries (fun k => a (2 * k + 1)%nat) (x ^ 2) (q * l)).
  { unfold is_pseries. apply (is_series_ext (fun k => q * ((x ^ 2) ^ k * ((-1) ^ k / INR (fact (2 * k + 1)))))).
    - intro k. unfold a. replace (Nat.even (2 * k + 1)) with false by (symmetry; rewrite Nat.even_add, Nat.even_mul; reflexivity). replace ((2 * k + 1) / 2)%nat with k by (rewrite Nat.mul_comm, Nat.div_add_l; [cbn; lia|lia]).
      change (q * ((x ^ 2) ^ k * ((-1) ^ k / INR (fact (2 * k + 1)))) = (x ^ 2) ^ k * (q * (-1) ^ k / INR (fact (2 * k + 1)))). unfold Rdiv. ring.
    - now apply is_series_scalR. }
  generalize (is_pseries_odd_even a x _ _ E O). unfold is_pseries. intro P.
  replace (p * cos x + q * sin x) with (p * cos x + x * (q * l)) by (rewrite SE; ring).
  eapply is_series_ext; [|exact P]. intro n. cbn beta.
  change (x ^ n * a n = (p * fst (eo x n) + q * snd (eo x n)) / INR (fact n)). unfold a.
  destruct (Nat.Even_or_Odd n) as [[k ->]|[k ->]].
  - destruct (eo_even x k) as [-> _]. cbn [fst snd]. replace (Nat.even (2 * k)) with true by (symmetry; apply Nat.even_spec; exists k; lia). replace (2 * k / 2)%nat with k by (rewrite Nat.mul_comm, Nat.div_mul; lia). unfold Rdiv. ring.
  - destruct (eo_even x k) as [_ ->]. cbn [fst snd]. replace (Nat.even (2 * k + 1)) with false by (symmetry; rewrite Nat.even_add, Nat.even_mul; reflexivity). replace ((2 * k + 1) / 2)%nat with k by (rewrite Nat.mul_comm, Nat.div_add_l; [cbn; lia|lia]). unfold Rdiv. ring.
Qed.
Lemma mpow_y l phi n : forall i j, (i < 2 * l + 1)%nat -> (j < 2 * l + 1)%nat ->
  mpow (2 * l + 1) (gen3 l 0 phi 0) n i j = (if (i =? j)%nat then 1 else 0) * fst (eo ((INR l - INR i) * phi) n) + (if (j =? 2 * l - i)%nat then 1 else 0) * snd (eo ((INR l - INR i) * phi) n).
Proof.
  induction n as [|n IH]; intros i j Hi Hj.
  - cbn [mpow eo fst snd]. unfold mone. ring.
  - cbn [mpow]. unfold mmul. rewrite (rsum_ext _ _ (fun k => (if (k =? 2 * l - i)%nat then 1 else 0) * ((INR l - INR i) * phi * mpow (2 * l + 1) (gen3 l 0 phi 0) n k j))).
    2: { intros k Hk. unfold gen3 at 1. rewrite (generators_y l i k) by assumption. destruct (k =? 2 * l - i)%nat; ring. }
    rewrite (rsum_delta_l _ (2 * l - i) (fun k => (INR l - INR i) * phi * mpow (2 * l + 1) (gen3 l 0 phi 0) n k j)) by lia. rewrite IH by lia.
    replace (INR l - INR (2 * l - i)) with (- (INR l - INR i)) by (rewrite minus_INR, mult_INR by lia; change (INR 2) with 2; ring).
    replace (- (INR l - INR i) * phi) with (- ((INR l - INR i) * phi)) by ring. destruct (eo_neg ((INR l - INR i) * phi) n) as [-> ->]. replace (2 * l - (2 * l - i))%nat with i by lia.
    rewrite (Nat.eqb_sym (2 * l - i) j), (Nat.eqb_sym j i). cbn [eo fst snd]. destruct (j =? 2 * l - i)%nat, (i =? j)%nat; ring.
Qed.
Theorem rot_y_is_wD l phi i j : (i < 2 * l + 1)%nat -> (j < 2 * l + 1)%nat -> rot_y l phi i j = wD l 0 phi 0 i j.
Proof.
  intros Hi Hj. symmetry. rewrite wD_expm. apply is_series_unique.
  apply (is_series_ext (fun n => ((if (i =? j)%nat then 1 else 0) * fst (eo ((INR l - INR i) * phi) n) + (if (j =? 2 * l - i)%nat then 1 else 0) * snd (eo ((INR l - INR i) * phi) n)) / INR (fact n))).
  - intro n. now rewrite mpow_y.
  - pose proof (trig_series (if (i =? j)%nat then 1 else 0) (if (j =? 2 * l - i)%nat then 1 else 0) ((INR l - INR i) * phi)) as T.
    replace (rot_y l phi i j) with ((if (i =? j)%nat then 1 else 0) * cos ((INR l - INR i) * phi) + (if (j =? 2 * l - i)%nat then 1 else 0) * sin ((INR l - INR i) * phi)); [exact T|].
    unfold rot_y. cbv zeta. destruct (Nat.eqb_spec i j) as [<-|N].
    + destruct (Nat.eqb_spec i (2 * l - i)) as [E|]; [|ring]. assert (i = l) by lia. subst i. replace (INR l - INR l) with 0 by ring. rewrite Rmult_0_l, sin_0. ring.
    + destruct (j =? 2 * l - i)%nat; ring.
Qed.

(* ---- the defining representation ---- *)
Definition entry3 (m : RotationModel.mat) (i j : nat) : R :=
  match i, j with
  | 0%nat, 0%nat => RotationModel.m00 m | 0%nat, 1%nat => RotationModel.m01 m | 0%nat, _ => RotationModel.m02 m
  | 1%nat, 0%nat => RotationModel.m10 m | 1%nat, 1%nat => RotationModel.m11 m | 1%nat, _ => RotationModel.m12 m
  | _, 0%nat => RotationModel.m20 m | _, 1%nat => RotationModel.m21 m | _, _ => RotationModel.m22 m
  end.
Ltac three i := destruct i as [|[|[|i]]]; [| | |lia].
Lemma entry3_mul a b i j : (i < 3)%nat -> (j < 3)%nat -> entry3 (RotationModel.mmul a b) i j = mmul 3 (entry3 a) (entry3 b) i j.
Proof. intros Hi Hj. three i; three j; unfold mmul; cbn [entry3 rsum RotationModel.mmul RotationModel.m00 RotationModel.m01 RotationModel.m02 RotationModel.m10 RotationModel.m11 RotationModel.m12 RotationModel.m20 RotationModel.m21 RotationModel.m22]; ring. Qed.
Lemma entry3_inj a b : (forall i j, (i < 3)%nat -> (j < 3)%nat -> entry3 a i j = entry3 b i j) -> a = b.
Proof.
  intro H. destruct a, b. f_equal; [apply (H 0%nat 0%nat)|apply (H 0%nat 1%nat)|apply (H 0%nat 2%nat)|apply (H 1%nat 0%nat)|apply (H 1%nat 1%nat)|apply (H 1%nat 2%nat)|apply (H 2%nat 0%nat)|apply (H 2%nat 1%nat)|apply (H 2%nat 2%nat)]; lia.
Qed.
Lemma gen3_l1 v0 v1 v2 i j : (i < 3)%nat -> (j < 3)%nat -> gen3 1 v0 v1 v2 i j = entry3 (RotationModel.log_generator (RotationModel.V v0 v1 v2)) i j.
Proof. intros Hi Hj. unfold gen3. rewrite !generators_l1 by lia. three i; three j; cbn [eps entry3 RotationModel.log_generator RotationModel.vx RotationModel.vy RotationModel.vz RotationModel.m00 RotationModel.m01 RotationModel.m02 RotationModel.m10 RotationModel.m11 RotationModel.m12 RotationModel.m20 RotationModel.m21 RotationModel.m22]; ring. Qed.
Lemma mpow_l1 v0 v1 v2 n : forall i j, (i < 3)%nat -> (j < 3)%nat -> mpow 3 (gen3 1 v0 v1 v2) n i j = entry3 (RotationModel.mpow (RotationModel.log_generator (RotationModel.V v0 v1 v2)) n) i j.
Proof.
  induction n as [|n IH]; intros i j Hi Hj.
  - cbn [mpow RotationModel.mpow]. three i; three j; reflexivity.
  - cbn [mpow RotationModel.mpow]. rewrite entry3_mul by assumption. apply mmul_ext; intros; [now apply gen3_l1|now apply IH].
Qed.
Theorem wD_l1 v0 v1 v2 i j : (i < 3)%nat -> (j < 3)%nat -> wD 1 v0 v1 v2 i j = entry3 (RotationModel.log_coordinates_to_matrix (RotationModel.V v0 v1 v2)) i j.
Proof.
  intros Hi Hj. rewrite wD_expm. unfold expm. rewrite (Series_ext _ (fun n => entry3 (RotationModel.mpow (RotationModel.log_generator (RotationModel.V v0 v1 v2)) n) i j / INR (fact n))) by (intro n; now rewrite mpow_l1).
  three i; three j; reflexivity.
Qed.
Theorem wD_hom u0 u1 u2 v0 v1 v2 w0 w1 w2 :
  RotationModel.mmul (RotationModel.log_coordinates_to_matrix (RotationModel.V u0 u1 u2)) (RotationModel.log_coordinates_to_matrix (RotationModel.V v0 v1 v2)) = RotationModel.log_coordinates_to_matrix (RotationModel.V w0 w1 w2) ->
  forall l i j, (i < 2 * l + 1)%nat -> (j < 2 * l + 1)%nat -> mmul (2 * l + 1) (wD l u0 u1 u2) (wD l v0 v1 v2) i j = wD l w0 w1 w2 i j.
Proof.
  intros E. apply (wfam_unique (fun l => mmul (2 * l + 1) (wD l u0 u1 u2) (wD l v0 v1 v2)) (fun l => wD l w0 w1 w2)).
  - apply wfam_mul; apply wfam_wD.
  - apply wfam_wD.
  - intros i j Hi Hj. rewrite wD_l1 by assumption. rewrite <- E, entry3_mul by assumption. apply mmul_ext; intros; now apply wD_l1.
Qed.
Theorem wD_of_matrix v0 v1 v2 w0 w1 w2 :
  RotationModel.log_coordinates_to_matrix (RotationModel.V v0 v1 v2) = RotationModel.log_coordinates_to_matrix (RotationModel.V w0 w1 w2) ->
  forall l i j, (i < 2 * l + 1)%nat -> (j < 2 * l + 1)%nat -> wD l v0 v1 v2 i j = wD l w0 w1 w2 i j.
Proof.
  intros E. apply (wfam_unique (fun l => wD l v0 v1 v2) (fun l => wD l w0 w1 w2)); try apply wfam_wD. intros i j Hi Hj. rewrite !wD_l1, E by assumption. reflexivity.
Qed.
(* elementary rotations *)
Lemma rodrigues_y t : RotationModel.log_coordinates_to_matrix (RotationModel.V 0 t 0) = RotationModel.matrix_y t.
Proof.
  unfold RotationModel.log_coordinates_to_matrix. replace (RotationModel.log_generator (RotationModel.V 0 t 0)) with (RotationProofs3.mscale t (RotationModel.log_generator (RotationModel.V 0 1 0))) by (apply RotationProofs.mat_eq; cbn; ring).
  rewrite RotationProofs3.expm_unit by (unfold RotationProofs.unit_vec; cbn; ring). apply RotationProofs.mat_eq; cbn; ring.
Qed.
Lemma rodrigues_x t : RotationModel.log_coordinates_to_matrix (RotationModel.V t 0 0) = RotationModel.matrix_x t.
Proof.
  unfold RotationModel.log_coordinates_to_matrix. replace (RotationModel.log_generator (RotationModel.V t 0 0)) with (RotationProofs3.mscale t (RotationModel.log_generator (RotationModel.V 1 0 0))) by (apply RotationProofs.mat_eq; cbn; ring).
  rewrite RotationProofs3.expm_unit by (unfold RotationProofs.unit_vec; cbn; ring). apply RotationProofs.mat_eq; cbn; ring.
Qed.
