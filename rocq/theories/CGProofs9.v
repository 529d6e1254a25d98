(* l = 1 is the defining representation; rotations about y; Euler angles *)
From Coq Require Import Reals ZArith Arith Bool Lia Lra Psatz.
From Coquelicot Require Import Rcomplements Series PSeries Hierarchy ElemFct Complex.
From Verif Require Import SumR CGModel CGProofs CGProofs2 CGProofs3 CGProofs4 CGProofs5 CGProofs6 CGProofs7 CGProofs8.
Open Scope C_scope.
Arguments change_basis_real_to_complex l%nat_scope r%nat_scope c%nat_scope.
Arguments su2_generators n%nat_scope a%nat_scope i%nat_scope k%nat_scope.
Arguments generators l%nat_scope a%nat_scope i%nat_scope j%nat_scope.
Arguments generators_complex l%nat_scope a%nat_scope i%nat_scope j%nat_scope.

Lemma half_sqrt2 : (1 / 2 * sqrt 2 = 1 / sqrt 2)%R.
Proof. pose proof (sqrt_sqrt 2 ltac:(lra)). assert (sqrt 2 <> 0)%R by (apply Rgt_not_eq, sqrt_lt_R0; lra). transitivity ((sqrt 2 * sqrt 2) * / (2 * sqrt 2))%R; [field; assumption|]. rewrite H. field. assumption. Qed.
Lemma lad_20 : lad 2 0 = sqrt 2. Proof. unfold lad. f_equal. Qed.
Lemma lad_21 : lad 2 1 = sqrt 2. Proof. unfold lad. f_equal. Qed.
Lemma X0_table i k : (i < 3)%nat -> (k < 3)%nat -> su2_generators 2 0 i k = if (k =? S i)%nat then sq2 else if (i =? S k)%nat then - sq2 else RtoC 0.
Proof.
  intros Hi Hk. rewrite gen0, raising_lad, lowering_lad by lia. unfold sq2. rewrite <- half_sqrt2, <- RtoC_opp.
  destruct i as [|[|[|i]]]; try lia; destruct k as [|[|[|k]]]; try lia; cbn [Nat.eqb]; change (Z.of_nat 2) with 2%Z; change (Z.of_nat 1) with 1%Z; change (Z.of_nat 0) with 0%Z; rewrite ?lad_20, ?lad_21; f_equal; ring.
Qed.
Lemma X2_table i k : (i < 3)%nat -> (k < 3)%nat -> su2_generators 2 2 i k = if ((k =? S i) || (i =? S k))%nat then Ci * sq2 else RtoC 0.
Proof.
  intros Hi Hk. rewrite gen2, raising_lad, lowering_lad by lia. unfold sq2. rewrite <- half_sqrt2.
  destruct i as [|[|[|i]]]; try lia; destruct k as [|[|[|k]]]; try lia; cbn [Nat.eqb orb]; change (Z.of_nat 2) with 2%Z; change (Z.of_nat 1) with 1%Z; change (Z.of_nat 0) with 0%Z; rewrite ?lad_20, ?lad_21; rewrite ?RtoC_mult, ?RtoC_minus, ?RtoC_opp; ring.
Qed.
Lemma X1_table i k : (i < 3)%nat -> (k < 3)%nat -> su2_generators 2 1 i k = if (i =? k)%nat then (match i with 0%nat => - Ci | 1%nat => RtoC 0 | _ => Ci end) else RtoC 0.
Proof.
  intros Hi Hk. rewrite gen1. destruct (i =? k)%nat; [|reflexivity]. unfold wgt. change (INR 2) with 2%R. destruct i as [|[|[|i]]]; try lia.
  - change (INR 0) with 0%R. replace (- (2 / 2) + 0)%R with (Ropp 1) by field. rewrite RtoC_opp. ring.
  - change (INR 1) with 1%R. replace (- (2 / 2) + 1)%R with 0%R by field. ring.
  - change (INR 2) with 2%R. replace (- (2 / 2) + 2)%R with 1%R by field. ring.
Qed.
Lemma Q1_table i k : (i < 3)%nat -> (k < 3)%nat -> Q 1 i k = match i, k with 0%nat, 0%nat => - (Ci * om 1 * sq2) | 0%nat, 2%nat => om 1 * sq2 | 1%nat, 1%nat => om 1 | 2%nat, 0%nat => - (Ci * om 1 * sq2) | 2%nat, 2%nat => - (om 1 * sq2) | _, _ => RtoC 0 end.
Proof.
  intros Hi Hk. destruct i as [|[|[|i]]]; try lia; destruct k as [|[|[|k]]]; try lia; try (apply Q_out; lia).
  - exact (Q_ll 1 1 ltac:(lia)).
  - exact (Q_lu 1 1 ltac:(lia)).
  - exact (Q_mid 1).
  - etransitivity; [exact (Q_ul 1 1 ltac:(lia))|]. rewrite alt_1. ring.
  - etransitivity; [exact (Q_uu 1 1 ltac:(lia))|]. rewrite alt_1. ring.
Qed.
(* entry (i, j) of the generator of rotations about axis a: - epsilon_{a i j} *)
Definition eps (a i j : nat) : R := match a, i, j with 0%nat, 1%nat, 2%nat | 1%nat, 2%nat, 0%nat | 2%nat, 0%nat, 1%nat => 1%R | 0%nat, 2%nat, 1%nat | 1%nat, 0%nat, 2%nat | 2%nat, 1%nat, 0%nat => (-1)%R | _, _, _ => 0%R end.
Lemma gen_l1_upper a i j : (a < 3)%nat -> (i < j)%nat -> (j < 3)%nat -> generators 1 a i j = (- eps a i j)%R.
Proof.
  intros Ha Hij Hj. apply RtoC_inj. rewrite <- generators_real by lia. unfold generators_complex. change (2 * 1 + 1)%nat with 3%nat. change (2 * 1)%nat with 2%nat. cbn [csum].
  rewrite !Q1_table by lia. pose proof (om_conj 1) as W. pose proof sq2_sq as S2. pose proof Ci_sq as I2. assert (CS : Cconj sq2 = sq2) by apply Cconj_R.
  assert (SS : sq2 * sq2 = RtoC (1 / 2)). { transitivity (RtoC (1 / 2) * (sq2 * sq2 + sq2 * sq2)); [|rewrite S2; ring]. transitivity ((RtoC (1/2) + RtoC (1/2)) * (sq2 * sq2)); [|ring]. rewrite <- RtoC_plus. replace (1 / 2 + 1 / 2)%R with 1%R by field. ring. }
  assert (HH : RtoC 1 = RtoC (1 / 2) + RtoC (1 / 2)) by (rewrite <- RtoC_plus; f_equal; field).
  destruct a as [|[|[|a]]]; try lia; (destruct i as [|[|[|i]]]; try lia); (destruct j as [|[|[|j]]]; try lia); rewrite ?X0_table, ?X1_table, ?X2_table by lia; cbn [Nat.eqb orb eps];
    rewrite ?Cconj_opp, ?Cmult_conj, ?Cconj_i, ?CS, ?Cconj_R; rewrite ?Ropp_0, ?RtoC_opp, ?HH;
    try (replace (RtoC (-1)) with (- RtoC 1) by (rewrite <- RtoC_opp; f_equal; ring); rewrite ?HH);
    set (h := RtoC (1 / 2)) in *; set (w := om 1) in *; set (w' := Cconj w) in *; ring [W I2 SS].
Qed.
Theorem generators_l1 a i j : (a < 3)%nat -> (i < 3)%nat -> (j < 3)%nat -> generators 1 a i j = (- eps a i j)%R.
Proof.
  intros Ha Hi Hj. destruct (Nat.lt_trichotomy i j) as [L|[->|L]].
  - now apply gen_l1_upper.
  - pose proof (generators_antisym 1 a j j Hj Hj). assert (eps a j j = 0%R) by (destruct a as [|[|[|a]]]; try lia; destruct j as [|[|[|j]]]; try lia; reflexivity). lra.
  - rewrite (generators_antisym 1 a i j Hi Hj). rewrite gen_l1_upper by lia. assert (eps a i j = (- eps a j i)%R) by (destruct a as [|[|[|a]]]; try lia; (destruct i as [|[|[|i]]]; try lia); (destruct j as [|[|[|j]]]; try lia); cbn [eps]; ring). lra.
Qed.

Open Scope R_scope.
(* ---- rotations about y ---- *)
Theorem generators_y l i j : (i < 2 * l + 1)%nat -> (j < 2 * l + 1)%nat -> generators l 1 i j = if (j =? 2 * l - i)%nat then INR l - INR i else 0.
Proof.
  assert (U : forall d j, (0 < d <= l)%nat -> (j < 2 * l + 1)%nat -> j <> (l - d)%nat -> generators l 1 (l - d) j = if (j =? l + d)%nat then INR d else 0).
  { clear i j. intros d j Hd Hj N. apply RtoC_inj. rewrite <- generators_real by lia. unfold generators_complex.
    rewrite (csum_ext _ _ (fun p => (Cconj (Q l p (l - d)) * (Ci * RtoC (wgt (2 * l) p)) * Q l p j)%C)).
    2: { intros p Hp. rewrite (csum_pick1 _ p) by (try assumption; intros q Hq M; rewrite gen1, (proj2 (Nat.eqb_neq p q)) by lia; ring). rewrite gen1, Nat.eqb_refl. reflexivity. }
    rewrite (csum_pick2 _ (l - d) (l + d)) by (try lia; intros c Hc N1 N2; rewrite (Q_out l c (l - d)) by lia; rewrite Cconj_R; ring).
    replace (wgt (2 * l) (l - d)) with (- INR d) by (unfold wgt; rewrite mult_INR, minus_INR by lia; change (INR 2) with 2; field).
    replace (wgt (2 * l) (l + d)) with (INR d) by (unfold wgt; rewrite mult_INR, plus_INR; change (INR 2) with 2; field).
    destruct (Nat.eqb_spec j (l + d)) as [->|N'].
    - rewrite Q_ll, Q_lu, Q_ul, Q_uu by assumption. rewrite Cconj_opp, !Cmult_conj, Cconj_i. assert (CS : Cconj sq2 = sq2) by apply Cconj_R. assert (CA : Cconj (alt d) = alt d) by apply Cconj_R. rewrite CS, CA, RtoC_opp.
      transitivity (- (Ci * Ci) * (om l * Cconj (om l)) * RtoC (INR d) * (sq2 * sq2 + sq2 * sq2 * (alt d * alt d)))%C; [ring|]. rewrite alt_sq, Ci_sq, om_conj. rewrite <- (Cmult_1_r (RtoC (INR d))) at 2. rewrite <- sq2_sq at 4. ring.
    - rewrite !(Q_out l _ j) by lia. ring. }
  intros Hi Hj. destruct (index_cases l i Hi) as [->|[(d & Hd & ->)|(d & Hd & ->)]].
  - replace (2 * l - l)%nat with l by lia. destruct (Nat.eqb_spec j l) as [->|N].
    + pose proof (generators_antisym l 1 l l Hi Hi). lra.
    + rewrite generators_antisym by assumption. destruct (index_cases l j Hj) as [->|[(e & He & ->)|(e & He & ->)]]; [lia| |].
      * rewrite U by lia. rewrite (proj2 (Nat.eqb_neq l (l + e))) by lia. ring.
      * apply Ropp_eq_0_compat. rewrite <- (Ropp_involutive (generators l 1 (l + e) l)). rewrite <- generators_antisym by assumption.
        apply RtoC_inj. rewrite RtoC_opp, <- generators_real by assumption. unfold generators_complex.
        assert (Z : csum (2 * l + 1) (fun p => csum (2 * l + 1) (fun q => (Cconj (Q l p l) * su2_generators (2 * l) 1 p q * Q l q (l + e)))%C) = RtoC 0).
        { apply csum_zero. intros p Hp. apply csum_zero. intros q Hq. rewrite gen1. destruct (Nat.eqb_spec p q) as [<-|]; [|ring]. destruct (Nat.eq_dec p l) as [->|]; [rewrite (Q_out l l (l + e)) by lia|rewrite (Q_out l p l) by lia; rewrite Cconj_R]; ring. }
        rewrite Z. ring.
  - replace (2 * l - (l - d))%nat with (l + d)%nat by lia. rewrite minus_INR by lia. replace (INR l - (INR l - INR d)) with (INR d) by ring. destruct (Nat.eq_dec j (l - d)) as [->|N]; [|now apply U].
    rewrite (proj2 (Nat.eqb_neq (l - d) (l + d))) by lia. pose proof (generators_antisym l 1 (l - d) (l - d) Hi Hi). lra.
  - replace (2 * l - (l + d))%nat with (l - d)%nat by lia. rewrite plus_INR. replace (INR l - (INR l + INR d)) with (- INR d) by ring. destruct (Nat.eqb_spec j (l - d)) as [->|N].
    + rewrite generators_antisym, U by lia. rewrite Nat.eqb_refl. reflexivity.
    + destruct (Nat.eq_dec j (l + d)) as [->|N']; [pose proof (generators_antisym l 1 (l + d) (l + d) Hi Hi); lra|].
      apply RtoC_inj. rewrite <- generators_real by assumption. unfold generators_complex. apply csum_zero. intros p Hp. apply csum_zero. intros q Hq. rewrite gen1. destruct (Nat.eqb_spec p q) as [<-|]; [|ring].
      destruct (Nat.eq_dec p (l + d)) as [->|]; [rewrite (Q_out l (l + d) j) by lia; ring|]. destruct (Nat.eq_dec p (l - d)) as [->|]; [rewrite (Q_out l (l - d) j) by lia; ring|]. rewrite (Q_out l p (l + d)) by lia. rewrite Cconj_R. ring.
Qed.
Fixpoint eo (x : R) (n : nat) : R * R := match n with O => (1, 0) | S n => (- x * snd (eo x n), x * fst (eo x n)) end.
Lemma eo_neg x n : fst (eo (- x) n) = fst (eo x n) /\ snd (eo (- x) n) = - snd (eo x n).
Proof. induction n as [|n [E1 E2]]; cbn [eo fst snd]; [split; ring|]. rewrite E1, E2. split; ring. Qed.
Lemma eo_even x k : eo x (2 * k) = ((-1) ^ k * x ^ (2 * k), 0) /\ eo x (2 * k + 1) = (0, (-1) ^ k * x ^ (2 * k + 1)).
Proof.
  assert (E : eo x (2 * k) = ((-1) ^ k * x ^ (2 * k), 0)).
  { induction k as [|k IH]; [cbn [Nat.mul eo pow]; now rewrite Rmult_1_l|]. replace (2 * S k)%nat with (S (S (2 * k))) by lia. cbn [eo]. rewrite IH. cbn [fst snd]. apply injective_projections; cbn [fst snd]; rewrite <- ?tech_pow_Rmult; ring. }
  split; [exact E|]. replace (2 * k + 1)%nat with (S (2 * k)) by lia. cbn [eo]. rewrite E. cbn [fst snd]. apply injective_projections; cbn [fst snd]; rewrite <- ?tech_pow_Rmult; ring.
Qed.
