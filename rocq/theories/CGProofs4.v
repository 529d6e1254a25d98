(* The so(3) algebra of the SU(2) generators and of the real generators *)
From Coq Require Import Reals ZArith Arith Bool Lia Lra Psatz.
From Coquelicot Require Import Complex.
From Verif Require Import SumR CGModel CGProofs CGProofs2 CGProofs3.
Open Scope C_scope.
Arguments change_basis_real_to_complex l%nat_scope r%nat_scope c%nat_scope.
Arguments su2_generators n%nat_scope a%nat_scope i%nat_scope k%nat_scope.
Arguments generators l%nat_scope a%nat_scope i%nat_scope j%nat_scope.
Arguments generators_complex l%nat_scope a%nat_scope i%nat_scope j%nat_scope.

Lemma alt_1 : alt 1 = - RtoC 1.
Proof. unfold alt. rewrite <- RtoC_opp. f_equal. ring. Qed.
Lemma raise_lower n i k : (i < S n)%nat -> (k < S n)%nat -> rsum (S n) (fun p => su2_raising n i p * su2_lowering n p k)%R = if (i =? k)%nat then (- (INR i * (INR n - INR i + 1)))%R else 0%R.
Proof.
  intros Hi Hk. rewrite (rsum_pick _ (i - 1)).
  2: { intros p Hp N. rewrite raising_lad by lia. rewrite (proj2 (Nat.eqb_neq i (S p))) by lia. ring. }
  rewrite (proj2 (Nat.ltb_lt (i - 1) (S n))) by lia. rewrite raising_lad, lowering_lad by lia. destruct i as [|i].
  - change (0 =? S (0 - 1))%nat with false. cbv iota. destruct (0 =? k)%nat; [|ring]. change (INR 0) with 0%R. ring.
  - replace (S i - 1)%nat with i by lia. rewrite Nat.eqb_refl. rewrite (Nat.eqb_sym k). destruct (S i =? k)%nat; [|ring].
    unfold lad. rewrite S_INR. transitivity (- (sqrt (IZR ((Z.of_nat n - Z.of_nat i) * (Z.of_nat i + 1))) * sqrt (IZR ((Z.of_nat n - Z.of_nat i) * (Z.of_nat i + 1)))))%R; [ring|].
    rewrite sqrt_sqrt by (apply IZR_le; nia). rewrite mult_IZR, minus_IZR, plus_IZR, <- !INR_IZR_INZ. ring.
Qed.
Lemma lower_raise n i k : (i < S n)%nat -> (k < S n)%nat -> rsum (S n) (fun p => su2_lowering n i p * su2_raising n p k)%R = if (i =? k)%nat then (- ((INR n - INR i) * (INR i + 1)))%R else 0%R.
Proof.
  intros Hi Hk. rewrite (rsum_pick _ (S i)).
  2: { intros p Hp N. rewrite lowering_lad by lia. rewrite (proj2 (Nat.eqb_neq p (S i))) by lia. ring. }
  rewrite raising_lad, lowering_lad by lia. rewrite Nat.eqb_refl. change (S i =? S k)%nat with (i =? k)%nat.
  destruct (Nat.eqb_spec i k) as [<-|].
  - destruct (Nat.ltb_spec (S i) (S n)).
    + unfold lad. transitivity (- (sqrt (IZR ((Z.of_nat n - Z.of_nat i) * (Z.of_nat i + 1))) * sqrt (IZR ((Z.of_nat n - Z.of_nat i) * (Z.of_nat i + 1)))))%R; [ring|].
      rewrite sqrt_sqrt by (apply IZR_le; nia). rewrite mult_IZR, minus_IZR, plus_IZR, <- !INR_IZR_INZ. ring.
    + replace n with i by lia. ring.
  - destruct (S i <? S n)%nat; ring.
Qed.

Definition cmmul (d : nat) (a b : cmat) : cmat := fun i k => csum d (fun p => a i p * b p k).
Definition wgt (n i : nat) : R := (- (INR n / 2) + INR i)%R.
Lemma gen0 n i k : su2_generators n 0 i k = RtoC (1 / 2 * (su2_raising n i k + su2_lowering n i k)). Proof. reflexivity. Qed.
Lemma gen1 n i k : su2_generators n 1 i k = if (i =? k)%nat then Ci * RtoC (wgt n i) else RtoC 0. Proof. reflexivity. Qed.
Lemma gen2 n i k : su2_generators n 2 i k = - RtoC (1 / 2) * Ci * RtoC (su2_raising n i k - su2_lowering n i k). Proof. reflexivity. Qed.
Lemma wgt_raising n i k : ((wgt n k - wgt n i) * su2_raising n i k)%R = (- su2_raising n i k)%R.
Proof. unfold su2_raising, wgt. cbv zeta. destruct (Nat.eqb_spec i (S k)) as [->|]; [rewrite S_INR; ring|ring]. Qed.
Lemma wgt_lowering n i k : ((wgt n k - wgt n i) * su2_lowering n i k)%R = su2_lowering n i k.
Proof. unfold su2_lowering, wgt. cbv zeta. destruct (Nat.eqb_spec k (S i)) as [->|]; [rewrite S_INR; ring|ring]. Qed.

Lemma gen1_l n (f : cmat) i k : (i < S n)%nat -> csum (S n) (fun p => su2_generators n 1 i p * f p k) = Ci * RtoC (wgt n i) * f i k.
Proof.
  intro Hi. rewrite (csum_pick1 _ i) by (try lia; intros p Hp N; rewrite gen1, (proj2 (Nat.eqb_neq i p)) by lia; ring). rewrite gen1, Nat.eqb_refl. reflexivity.
Qed.
Lemma gen1_r n (f : cmat) i k : (k < S n)%nat -> csum (S n) (fun p => f i p * su2_generators n 1 p k) = Ci * RtoC (wgt n k) * f i k.
Proof.
  intro Hi. rewrite (csum_pick1 _ k) by (try lia; intros p Hp N; rewrite gen1, (proj2 (Nat.eqb_neq p k)) by lia; ring). rewrite gen1, Nat.eqb_refl. ring.
Qed.
Lemma su2_comm01 n i k : (i < S n)%nat -> (k < S n)%nat -> cmmul (S n) (su2_generators n 0) (su2_generators n 1) i k - cmmul (S n) (su2_generators n 1) (su2_generators n 0) i k = su2_generators n 2 i k.
Proof.
  intros Hi Hk. unfold cmmul. rewrite gen1_l, gen1_r by assumption. rewrite gen0, gen2.
  transitivity (Ci * RtoC (1 / 2 * ((wgt n k - wgt n i) * su2_raising n i k + (wgt n k - wgt n i) * su2_lowering n i k))).
  - rewrite !RtoC_mult, !RtoC_plus, !RtoC_mult, !RtoC_minus. ring.
  - rewrite wgt_raising, wgt_lowering. rewrite !RtoC_mult, !RtoC_plus, RtoC_opp, RtoC_minus. ring.
Qed.
Lemma su2_comm12 n i k : (i < S n)%nat -> (k < S n)%nat -> cmmul (S n) (su2_generators n 1) (su2_generators n 2) i k - cmmul (S n) (su2_generators n 2) (su2_generators n 1) i k = su2_generators n 0 i k.
Proof.
  intros Hi Hk. unfold cmmul. rewrite gen1_l, gen1_r by assumption. rewrite gen0, gen2.
  transitivity (Ci * Ci * RtoC (1 / 2 * ((wgt n k - wgt n i) * su2_raising n i k - (wgt n k - wgt n i) * su2_lowering n i k))).
  - rewrite !RtoC_mult, !RtoC_minus, !RtoC_mult, !RtoC_minus. ring.
  - rewrite wgt_raising, wgt_lowering, Ci_sq. rewrite !RtoC_mult, !RtoC_plus, RtoC_minus, RtoC_opp. ring.
Qed.
Lemma gen_prod n (f g : nat -> R) (u v : C) : csum (S n) (fun p => (u * RtoC (f p)) * (v * RtoC (g p))) = u * v * RtoC (rsum (S n) (fun p => f p * g p)%R).
Proof. rewrite <- csum_RtoC, <- csum_scal. apply csum_ext. intros p _. rewrite RtoC_mult. ring. Qed.
Lemma su2_comm20 n i k : (i < S n)%nat -> (k < S n)%nat -> cmmul (S n) (su2_generators n 2) (su2_generators n 0) i k - cmmul (S n) (su2_generators n 0) (su2_generators n 2) i k = su2_generators n 1 i k.
Proof.
  intros Hi Hk. unfold cmmul.
  rewrite (csum_ext _ _ (fun p => (- RtoC (1 / 2) * Ci * RtoC (su2_raising n i p - su2_lowering n i p)) * (RtoC (1 / 2) * RtoC (su2_raising n p k + su2_lowering n p k)))) by (intros p _; rewrite gen0, gen2, RtoC_mult; reflexivity).
  rewrite (csum_ext _ (fun p => su2_generators n 0 i p * su2_generators n 2 p k) (fun p => (RtoC (1 / 2) * RtoC (su2_raising n i p + su2_lowering n i p)) * ( - RtoC (1 / 2) * Ci * RtoC (su2_raising n p k - su2_lowering n p k)))) by (intros p _; rewrite gen0, gen2, RtoC_mult; reflexivity).
  rewrite !gen_prod. cbv beta.
  transitivity (- RtoC (1 / 2) * RtoC (1 / 2) * Ci * RtoC (rsum (S n) (fun p => (su2_raising n i p - su2_lowering n i p) * (su2_raising n p k + su2_lowering n p k))%R - rsum (S n) (fun p => (su2_raising n i p + su2_lowering n i p) * (su2_raising n p k - su2_lowering n p k))%R)); [rewrite RtoC_minus; ring|].
  rewrite <- rsum_minus. rewrite (rsum_ext _ _ (fun p => 2 * (su2_raising n i p * su2_lowering n p k) - 2 * (su2_lowering n i p * su2_raising n p k))%R) by (intros; ring).
  rewrite rsum_minus, !rsum_scal, raise_lower, lower_raise by assumption. rewrite gen1. destruct (i =? k)%nat.
  - transitivity (Ci * RtoC (- (1 / 2) * (1 / 2) * (2 * - (INR i * (INR n - INR i + 1)) - 2 * - ((INR n - INR i) * (INR i + 1))))).
    + rewrite !RtoC_mult, RtoC_opp. ring.
    + do 2 f_equal. unfold wgt. field.
  - transitivity (RtoC (2 * 0 - 2 * 0) * (- RtoC (1 / 2) * RtoC (1 / 2) * Ci)); [ring|]. replace (2 * 0 - 2 * 0)%R with 0%R by ring. ring.
Qed.
Lemma su2_casimir n i k : (i < S n)%nat -> (k < S n)%nat ->
  cmmul (S n) (su2_generators n 0) (su2_generators n 0) i k + cmmul (S n) (su2_generators n 1) (su2_generators n 1) i k + cmmul (S n) (su2_generators n 2) (su2_generators n 2) i k
  = if (i =? k)%nat then - RtoC (INR n / 2 * (INR n / 2 + 1)) else RtoC 0.
Proof.
  intros Hi Hk. unfold cmmul. rewrite gen1_l by assumption. rewrite gen1.
  rewrite (csum_ext _ _ (fun p => (RtoC (1 / 2) * RtoC (su2_raising n i p + su2_lowering n i p)) * (RtoC (1 / 2) * RtoC (su2_raising n p k + su2_lowering n p k)))) by (intros p _; rewrite !gen0, !RtoC_mult; reflexivity).
  rewrite (csum_ext _ (fun p => su2_generators n 2 i p * su2_generators n 2 p k) (fun p => (- RtoC (1 / 2) * Ci * RtoC (su2_raising n i p - su2_lowering n i p)) * ( - RtoC (1 / 2) * Ci * RtoC (su2_raising n p k - su2_lowering n p k)))) by (intros p _; rewrite !gen2; reflexivity).
  rewrite !gen_prod. cbv beta.
  replace (- RtoC (1 / 2) * Ci * (- RtoC (1 / 2) * Ci)) with (- (RtoC (1 / 2) * RtoC (1 / 2))) by (transitivity (RtoC (1 / 2) * RtoC (1 / 2) * (Ci * Ci)); [rewrite Ci_sq; ring|ring]).
  transitivity (RtoC (1 / 2) * RtoC (1 / 2) * RtoC (rsum (S n) (fun p => (su2_raising n i p + su2_lowering n i p) * (su2_raising n p k + su2_lowering n p k))%R - rsum (S n) (fun p => (su2_raising n i p - su2_lowering n i p) * (su2_raising n p k - su2_lowering n p k))%R)
    + Ci * RtoC (wgt n i) * (if (i =? k)%nat then Ci * RtoC (wgt n i) else RtoC 0)); [rewrite RtoC_minus; ring|].
  rewrite <- rsum_minus. rewrite (rsum_ext _ _ (fun p => 2 * (su2_raising n i p * su2_lowering n p k) + 2 * (su2_lowering n i p * su2_raising n p k))%R) by (intros; ring).
  rewrite rsum_plus, !rsum_scal, raise_lower, lower_raise by assumption. destruct (i =? k)%nat.
  - transitivity (RtoC (1 / 2 * (1 / 2) * (2 * - (INR i * (INR n - INR i + 1)) + 2 * - ((INR n - INR i) * (INR i + 1)))) + (Ci * Ci) * RtoC (wgt n i * wgt n i)).
    + rewrite !RtoC_mult. ring.
    + rewrite Ci_sq. transitivity (RtoC (1 / 2 * (1 / 2) * (2 * - (INR i * (INR n - INR i + 1)) + 2 * - ((INR n - INR i) * (INR i + 1))) - wgt n i * wgt n i)); [rewrite RtoC_minus; ring|].
      rewrite <- RtoC_opp. f_equal. unfold wgt. field.
  - replace (2 * 0 + 2 * 0)%R with 0%R by ring. ring.
Qed.
(* anti-Hermitian *)
Lemma su2_antiherm n a i k : (i < S n)%nat -> (k < S n)%nat -> Cconj (su2_generators n a k i) = - su2_generators n a i k.
Proof.
  intros Hi Hk. assert (E1 : su2_lowering n i k = (- su2_raising n k i)%R) by (apply lowering_raising; lia). assert (E2 : su2_lowering n k i = (- su2_raising n i k)%R) by (apply lowering_raising; lia).
  destruct a as [|[|a]]; cbn [su2_generators]; rewrite ?E1, ?E2.
  - rewrite Cconj_R, <- RtoC_opp. f_equal. ring.
  - rewrite (Nat.eqb_sym k). destruct (Nat.eqb_spec i k) as [<-|]; [|rewrite Cconj_R; ring]. rewrite Cmult_conj, Cconj_i, Cconj_R. ring.
  - rewrite !Cmult_conj, Cconj_opp, Cconj_i, !Cconj_R. replace (su2_raising n k i - - su2_raising n i k)%R with (su2_raising n i k - - su2_raising n k i)%R by ring. ring.
Qed.
(* reversal: conj X[n-i, n-k] = (-1)^(i+k) X[i, k] *)
Lemma lad_rev n k : lad n (n - k) = lad n (k - 1).
Proof. unfold lad. do 2 f_equal. ring. Qed.
Lemma raising_rev n i k : (i < S n)%nat -> (k < S n)%nat -> su2_raising n (n - i) (n - k) = (- su2_lowering n i k)%R.
Proof.
  intros Hi Hk. rewrite raising_lad, lowering_lad by lia. destruct (Nat.eqb_spec k (S i)) as [->|N].
  - rewrite (proj2 (Nat.eqb_eq (n - i) (S (n - S i)))) by lia. rewrite Nat2Z.inj_sub by lia. rewrite lad_rev. do 2 f_equal. lia.
  - rewrite (proj2 (Nat.eqb_neq (n - i) (S (n - k)))) by lia. ring.
Qed.
Lemma lowering_rev n i k : (i < S n)%nat -> (k < S n)%nat -> su2_lowering n (n - i) (n - k) = (- su2_raising n i k)%R.
Proof.
  intros Hi Hk. rewrite lowering_raising by lia. rewrite raising_rev by lia. rewrite lowering_raising by lia. ring.
Qed.
Lemma su2_rev_gen n a i k : (i < S n)%nat -> (k < S n)%nat -> Cconj (su2_generators n a (n - i) (n - k)) = alt (i + k) * su2_generators n a i k.
Proof.
  intros Hi Hk.
  assert (AR : alt (i + k) * RtoC (su2_raising n i k) = - RtoC (su2_raising n i k)).
  { unfold su2_raising. cbv zeta. destruct (Nat.eqb_spec i (S k)) as [->|]; [|ring]. replace (S k + k)%nat with (1 + (k + k))%nat by lia. rewrite !alt_add, alt_sq. rewrite alt_1. ring. }
  assert (AL : alt (i + k) * RtoC (su2_lowering n i k) = - RtoC (su2_lowering n i k)).
  { unfold su2_lowering. cbv zeta. destruct (Nat.eqb_spec k (S i)) as [->|]; [|ring]. replace (i + S i)%nat with (1 + (i + i))%nat by lia. rewrite !alt_add, alt_sq. rewrite alt_1. ring. }
  destruct a as [|[|a]]; cbn [su2_generators]; rewrite ?raising_rev, ?lowering_rev by assumption.
  - rewrite Cconj_R. transitivity (RtoC (1 / 2) * (alt (i + k) * RtoC (su2_raising n i k) + alt (i + k) * RtoC (su2_lowering n i k))).
    + rewrite AR, AL. rewrite !RtoC_mult, !RtoC_plus, !RtoC_opp. ring.
    + rewrite !RtoC_mult, !RtoC_plus. ring.
  - destruct (Nat.eqb_spec i k) as [<-|N].
    + rewrite Nat.eqb_refl, alt_add, alt_sq. rewrite Cmult_conj, Cconj_i, Cconj_R. rewrite minus_INR by lia. replace (- (INR n / 2) + (INR n - INR i))%R with (- (- (INR n / 2) + INR i))%R by field. rewrite RtoC_opp. ring.
    + rewrite (proj2 (Nat.eqb_neq (n - i) (n - k))) by lia. rewrite Cconj_R. ring.
  - rewrite !Cmult_conj, Cconj_opp, Cconj_i, !Cconj_R. transitivity (- RtoC (1 / 2) * Ci * (alt (i + k) * RtoC (su2_raising n i k) - alt (i + k) * RtoC (su2_lowering n i k))).
    + rewrite AR, AL. rewrite !RtoC_minus, !RtoC_opp. ring.
    + rewrite !RtoC_minus. ring.
Qed.
