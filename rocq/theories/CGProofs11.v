(* Rotations about x in the real basis: the entries of the first generator *)
From Coq Require Import Reals ZArith Arith Bool Lia Lra Psatz.
From Coquelicot Require Import Complex.
From Verif Require Import SumR CGModel CGProofs CGProofs2 CGProofs3 CGProofs4 CGProofs5 CGProofs7 CGProofs8 CGProofs9.
Open Scope R_scope.
Arguments generators l%nat_scope a%nat_scope i%nat_scope j%nat_scope.

Definition ladn (n i : nat) : R := sqrt (INR (n - i) * INR (i + 1)).
Lemma ladn_lad n i : (i <= n)%nat -> lad (Z.of_nat n) (Z.of_nat i) = ladn n i.
Proof. intro H. unfold lad, ladn. f_equal. rewrite !INR_IZR_INZ, <- mult_IZR. f_equal. rewrite Nat2Z.inj_sub, Nat2Z.inj_add by lia. reflexivity. Qed.
Lemma ladn_rev n i : (i < n)%nat -> ladn n (n - 1 - i) = ladn n i.
Proof. intro H. unfold ladn. f_equal. replace (n - (n - 1 - i))%nat with (i + 1)%nat by lia. replace (n - 1 - i + 1)%nat with (n - i)%nat by lia. ring. Qed.
Lemma g0_up n p q : (p <= n)%nat -> q = S p -> su2_generators n 0 p q = RtoC (1 / 2 * ladn n p).
Proof.
  intros H ->. rewrite gen0. f_equal. unfold su2_raising. cbv zeta. rewrite (proj2 (Nat.eqb_neq p (S (S p)))) by lia. rewrite lowering_lad, Nat.eqb_refl, ladn_lad by lia. ring.
Qed.
Lemma g0_down n p q : (q <= n)%nat -> p = S q -> su2_generators n 0 p q = RtoC (- (1 / 2) * ladn n q).
Proof.
  intros H ->. rewrite gen0. f_equal. unfold su2_lowering. cbv zeta. rewrite (proj2 (Nat.eqb_neq q (S (S q)))) by lia. rewrite raising_lad, Nat.eqb_refl, ladn_lad by lia. ring.
Qed.
Lemma g0_out n p q : q <> S p -> p <> S q -> su2_generators n 0 p q = RtoC 0.
Proof. intros H1 H2. rewrite gen0. f_equal. unfold su2_raising, su2_lowering. cbv zeta. rewrite (proj2 (Nat.eqb_neq _ _) H1), (proj2 (Nat.eqb_neq _ _) H2). ring. Qed.

Lemma sum4 l a i j p1 p2 q1 q2 : (p1 < 2 * l + 1)%nat -> (p2 < 2 * l + 1)%nat -> (q1 < 2 * l + 1)%nat -> (q2 < 2 * l + 1)%nat -> p1 <> p2 -> q1 <> q2 ->
  (forall p, (p < 2 * l + 1)%nat -> p <> p1 -> p <> p2 -> Q l p i = RtoC 0) -> (forall q, (q < 2 * l + 1)%nat -> q <> q1 -> q <> q2 -> Q l q j = RtoC 0) ->
  generators_complex l a i j = (Cconj (Q l p1 i) * su2_generators (2 * l) a p1 q1 * Q l q1 j + Cconj (Q l p1 i) * su2_generators (2 * l) a p1 q2 * Q l q2 j
    + (Cconj (Q l p2 i) * su2_generators (2 * l) a p2 q1 * Q l q1 j + Cconj (Q l p2 i) * su2_generators (2 * l) a p2 q2 * Q l q2 j))%C.
Proof.
  intros P1 P2 Q1 Q2 NP NQ HP HQ. unfold generators_complex. rewrite (csum_pick2 _ p1 p2) by (try assumption; intros p Hp N1 N2; apply csum_zero; intros q Hq; rewrite (HP p Hp N1 N2), Cconj_R; ring).
  rewrite !(csum_pick2 _ q1 q2) by (try assumption; intros q Hq N1 N2; rewrite (HQ q Hq N1 N2); ring). reflexivity.
Qed.
Lemma alt_S d : alt (S d) = (- alt d)%C.
Proof. unfold alt. rewrite <- RtoC_opp. f_equal. cbn [pow]. ring. Qed.

Definition x0_up (l i : nat) : R :=
  if (S i <? l)%nat then 1 / 2 * ladn (2 * l) i else if (S i =? l)%nat then 0 else if (i =? l)%nat then - (1 / sqrt 2 * ladn (2 * l) l) else - (1 / 2 * ladn (2 * l) i).
Ltac conjs := rewrite ?Cconj_opp, ?Cmult_conj, ?Cconj_i; assert (CS : Cconj sq2 = sq2) by apply Cconj_R; assert (CA : forall d, Cconj (alt d) = alt d) by (intro; apply Cconj_R); rewrite ?CS, ?CA.
Lemma generators_x_up l i j : (i < j)%nat -> (j < 2 * l + 1)%nat -> generators l 0 i j = if (j =? S i)%nat then x0_up l i else 0.
Proof.
  intros Hij Hj. apply RtoC_inj. rewrite <- generators_real by lia. pose proof (om_conj l) as W. pose proof sq2_sq as S2. pose proof Ci_sq as I2.
  destruct (index_cases l i ltac:(lia)) as [->|[(d & Hd & ->)|(d & Hd & ->)]]; destruct (index_cases l j Hj) as [->|[(e & He & ->)|(e & He & ->)]]; try lia.
  - (* l, l+e *)
    unfold generators_complex. rewrite (csum_pick1 _ l) by (try lia; intros p Hp N1; apply csum_zero; intros q Hq; rewrite (Q_out l p l) by lia; rewrite Cconj_R; ring).
    rewrite (csum_pick2 _ (l - e) (l + e)) by (try lia; intros q Hq N1 N2; rewrite (Q_out l q (l + e)) by lia; ring). rewrite Q_mid, Q_lu, Q_uu by lia.
    destruct (Nat.eq_dec e 1) as [->|N].
    + rewrite (g0_down _ l (l - 1)), (g0_up _ l (l + 1)) by lia. replace (l + 1 =? S l)%nat with true by (symmetry; apply Nat.eqb_eq; lia).
      unfold x0_up. rewrite (proj2 (Nat.ltb_ge (S l) l)), (proj2 (Nat.eqb_neq (S l) l)), Nat.eqb_refl by lia.
      replace (ladn (2 * l) (l - 1)) with (ladn (2 * l) l) by (rewrite <- (ladn_rev (2 * l) (l - 1)) by lia; f_equal; lia).
      replace (alt 1) with (- RtoC 1)%C by (unfold alt; rewrite <- RtoC_opp; f_equal; cbn [pow]; ring).
      replace (RtoC (- (1 / sqrt 2 * ladn (2 * l) l))) with (- (sq2 * RtoC (ladn (2 * l) l)))%C by (unfold sq2; rewrite <- RtoC_mult, <- RtoC_opp; reflexivity).
      rewrite !RtoC_mult, !RtoC_opp. assert (H2 : (RtoC (1 / 2) + RtoC (1 / 2) = RtoC 1)%C) by (rewrite <- RtoC_plus; f_equal; field).
      transitivity (- (sq2 * RtoC (ladn (2 * l) l)) * (om l * Cconj (om l)) * (RtoC (1 / 2) + RtoC (1 / 2)))%C; [ring|]. rewrite W, H2. ring.
    + rewrite !g0_out by lia. rewrite (proj2 (Nat.eqb_neq (l + e) (S l))) by lia. ring.
  - (* l-d, l *)
    unfold generators_complex. rewrite (csum_pick2 _ (l - d) (l + d)) by (try lia; intros p Hp N1 N2; apply csum_zero; intros q Hq; rewrite (Q_out l p (l - d)) by lia; rewrite Cconj_R; ring).
    rewrite !(csum_pick1 _ l) by (try lia; intros q Hq N1; rewrite (Q_out l q l) by lia; ring). rewrite Q_mid, Q_ll, Q_ul by lia. conjs.
    destruct (Nat.eq_dec d 1) as [->|N].
    + rewrite (g0_up _ (l - 1) l), (g0_down _ (l + 1) l) by lia. replace (l =? S (l - 1))%nat with true by (symmetry; apply Nat.eqb_eq; lia).
      unfold x0_up. rewrite (proj2 (Nat.ltb_ge (S (l - 1)) l)) by lia. replace (S (l - 1) =? l)%nat with true by (symmetry; apply Nat.eqb_eq; lia).
      replace (ladn (2 * l) (l - 1)) with (ladn (2 * l) l) by (rewrite <- (ladn_rev (2 * l) (l - 1)) by lia; f_equal; lia).
      replace (alt 1) with (- RtoC 1)%C by (unfold alt; rewrite <- RtoC_opp; f_equal; cbn [pow]; ring). rewrite !RtoC_mult, !RtoC_opp. ring.
    + rewrite !g0_out by lia. rewrite (proj2 (Nat.eqb_neq l (S (l - d)))) by lia. ring.
  - (* l-d, l-e *)
    rewrite (sum4 l 0 (l - d) (l - e) (l - d) (l + d) (l - e) (l + e)) by (try lia; intros p Hp N1 N2; apply Q_out; lia).
    rewrite !Q_ll, !Q_ul by lia. conjs. rewrite (g0_out _ (l - d) (l + e)), (g0_out _ (l + d) (l - e)) by lia.
    destruct (Nat.eq_dec d (S e)) as [->|N].
    + rewrite (g0_up _ (l - S e) (l - e)), (g0_down _ (l + S e) (l + e)) by lia. replace (l - e =? S (l - S e))%nat with true by (symmetry; apply Nat.eqb_eq; lia).
      unfold x0_up. rewrite (proj2 (Nat.ltb_lt (S (l - S e)) l)) by lia.
      replace (ladn (2 * l) (l + e)) with (ladn (2 * l) (l - S e)) by (rewrite <- (ladn_rev (2 * l) (l - S e)) by lia; f_equal; lia).
      rewrite alt_S, !RtoC_mult, !RtoC_opp.
      transitivity (- (Ci * Ci) * (om l * Cconj (om l)) * (RtoC (1 / 2) * RtoC (ladn (2 * l) (l - S e))) * (sq2 * sq2 + sq2 * sq2 * (alt e * alt e)))%C; [ring|]. rewrite alt_sq, I2, W, (Cmult_1_r (sq2 * sq2)%C), S2. ring.
    + rewrite !g0_out by lia. rewrite (proj2 (Nat.eqb_neq (l - e) (S (l - d)))) by lia. ring.
  - (* l-d, l+e *)
    rewrite (sum4 l 0 (l - d) (l + e) (l - d) (l + d) (l - e) (l + e)) by (try lia; intros p Hp N1 N2; apply Q_out; lia).
    rewrite !Q_ll, !Q_ul, !Q_uu, !Q_lu by lia. conjs. rewrite (g0_out _ (l - d) (l + e)), (g0_out _ (l + d) (l - e)) by lia.
    rewrite (proj2 (Nat.eqb_neq (l + e) (S (l - d)))) by lia.
    destruct (Nat.eq_dec d (S e)) as [->|N].
    + rewrite (g0_up _ (l - S e) (l - e)), (g0_down _ (l + S e) (l + e)) by lia.
      replace (ladn (2 * l) (l + e)) with (ladn (2 * l) (l - S e)) by (rewrite <- (ladn_rev (2 * l) (l - S e)) by lia; f_equal; lia).
      rewrite alt_S, !RtoC_mult, !RtoC_opp. 
      transitivity (Ci * Cconj (om l) * om l * sq2 * sq2 * RtoC (1 / 2) * RtoC (ladn (2 * l) (l - S e)) * (1 - alt e * alt e))%C; [ring|]. rewrite alt_sq. ring.
    + destruct (Nat.eq_dec e (S d)) as [->|N'].
      * rewrite (g0_down _ (l - d) (l - S d)), (g0_up _ (l + d) (l + S d)) by lia.
        replace (ladn (2 * l) (l + d)) with (ladn (2 * l) (l - S d)) by (rewrite <- (ladn_rev (2 * l) (l - S d)) by lia; f_equal; lia).
        rewrite alt_S, !RtoC_mult, !RtoC_opp.
        transitivity (- Ci * Cconj (om l) * om l * sq2 * sq2 * RtoC (1 / 2) * RtoC (ladn (2 * l) (l - S d)) * (1 - alt d * alt d))%C; [ring|]. rewrite alt_sq. ring.
      * rewrite !g0_out by lia. ring.
  - (* l+d, l+e *)
    rewrite (sum4 l 0 (l + d) (l + e) (l - d) (l + d) (l - e) (l + e)) by (try lia; intros p Hp N1 N2; apply Q_out; lia).
    rewrite !Q_uu, !Q_lu by lia. conjs. rewrite (g0_out _ (l - d) (l + e)), (g0_out _ (l + d) (l - e)) by lia.
    destruct (Nat.eq_dec e (S d)) as [->|N].
    + rewrite (g0_down _ (l - d) (l - S d)), (g0_up _ (l + d) (l + S d)) by lia. replace (l + S d =? S (l + d))%nat with true by (symmetry; apply Nat.eqb_eq; lia).
      unfold x0_up. rewrite (proj2 (Nat.ltb_ge (S (l + d)) l)), (proj2 (Nat.eqb_neq (S (l + d)) l)), (proj2 (Nat.eqb_neq (l + d) l)) by lia.
      replace (ladn (2 * l) (l - S d)) with (ladn (2 * l) (l + d)) by (rewrite <- (ladn_rev (2 * l) (l - S d)) by lia; f_equal; lia).
      rewrite alt_S, !RtoC_opp, !RtoC_mult, !RtoC_opp.
      transitivity (- ((om l * Cconj (om l)) * (RtoC (1 / 2) * RtoC (ladn (2 * l) (l + d))) * (sq2 * sq2 + sq2 * sq2 * (alt d * alt d))))%C; [ring|]. rewrite alt_sq, W, (Cmult_1_r (sq2 * sq2)%C), S2. ring.
    + rewrite !g0_out by lia. rewrite (proj2 (Nat.eqb_neq (l + e) (S (l + d)))) by lia. ring.
Qed.
Theorem generators_x l i j : (i < 2 * l + 1)%nat -> (j < 2 * l + 1)%nat ->
  generators l 0 i j = if (j =? S i)%nat then x0_up l i else if (i =? S j)%nat then - x0_up l j else 0.
Proof.
  intros Hi Hj. destruct (Nat.lt_trichotomy i j) as [L|[->|L]].
  - rewrite generators_x_up by lia. rewrite (proj2 (Nat.eqb_neq i (S j))) by lia. reflexivity.
  - rewrite (proj2 (Nat.eqb_neq j (S j))) by lia. pose proof (generators_antisym l 0 j j Hj Hj). lra.
  - rewrite generators_antisym, generators_x_up by lia. rewrite (proj2 (Nat.eqb_neq j (S i))) by lia. destruct (i =? S j)%nat; ring.
Qed.
