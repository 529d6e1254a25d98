(* Orthonormality and scalar couplings in the real basis *)
From Coq Require Import Reals ZArith Arith Bool Lia Lra Psatz.
From Coquelicot Require Import Complex.
From Verif Require Import SumR CGModel CGProofs CGProofs2 CGProofs3 CGProofs4 CGProofs5.
Open Scope C_scope.
Arguments change_basis_real_to_complex l%nat_scope r%nat_scope c%nat_scope.

Definition cgram d1 d2 (c : nat -> nat -> nat -> C) (k k' : nat) : C := csum d1 (fun a => csum d2 (fun b => c a b k * Cconj (c a b k'))).
Lemma contract_pair d q (f g : nat -> C) : unitary_rows d q -> csum d (fun a => csum d (fun i => q i a * f i) * Cconj (csum d (fun i => q i a * g i))) = csum d (fun i => f i * Cconj (g i)).
Proof.
  intro U.
  rewrite (csum_ext d _ (fun a => csum d (fun i => csum d (fun p => f i * Cconj (g p) * (q i a * cadj q a p))))).
  - rewrite csum_swap. apply csum_ext. intros i Hi. rewrite csum_swap. rewrite (csum_ext d _ (fun p => cdelta i p * (f i * Cconj (g p)))).
    + now rewrite cdelta_sum.
    + intros p Hp. rewrite csum_scal. change (csum d (fun j => q i j * cadj q j p)) with (cmmul d q (cadj q) i p). rewrite U by assumption. ring.
  - intros a Ha. rewrite csum_conj, <- csum_scal_r. apply csum_ext. intros i Hi. rewrite <- csum_scal. apply csum_ext. intros p Hp. rewrite Cmult_conj. unfold cadj. ring.
Qed.
Lemma t1_gram d1 d2 q c k k' : unitary_rows d1 q -> cgram d1 d2 (t1 d1 q c) k k' = cgram d1 d2 c k k'.
Proof. intro U. unfold cgram, t1. rewrite csum_swap, (csum_swap d1 d2 (fun a b => c a b k * _)). apply csum_ext. intros b Hb. now apply contract_pair. Qed.
Lemma t2_gram d1 d2 q c k k' : unitary_rows d2 q -> cgram d1 d2 (t2 d2 q c) k k' = cgram d1 d2 c k k'.
Proof. intro U. unfold cgram, t2. apply csum_ext. intros a Ha. now apply contract_pair. Qed.
Lemma t3_gram d1 d2 d3 q c k k' : cgram d1 d2 (t3 d3 q c) k k' = csum d3 (fun m => csum d3 (fun m' => Cconj (q m k) * q m' k' * cgram d1 d2 c m m')).
Proof.
  unfold cgram, t3.
  rewrite (csum_ext d1 _ (fun a => csum d3 (fun m => csum d3 (fun m' => csum d2 (fun b => Cconj (q m k) * q m' k' * (c a b m * Cconj (c a b m'))))))).
  - rewrite csum_swap. apply csum_ext. intros m Hm. rewrite csum_swap. apply csum_ext. intros m' Hm'. rewrite <- csum_scal. apply csum_ext. intros a Ha. apply csum_scal.
  - intros a Ha. rewrite (csum_ext d2 _ (fun b => csum d3 (fun m => csum d3 (fun m' => Cconj (q m k) * q m' k' * (c a b m * Cconj (c a b m')))))).
    + rewrite csum_swap. apply csum_ext. intros m Hm. apply csum_swap.
    + intros b Hb. rewrite csum_conj, <- csum_scal_r. apply csum_ext. intros m Hm. rewrite <- csum_scal. apply csum_ext. intros m' Hm'. rewrite Cmult_conj, Cconj_invol. ring.
Qed.
Theorem cg_gram l1 l2 l3 k k' : triangle (2 * l1) (2 * l2) (2 * l3) = true -> (k < 2 * l3 + 1)%nat -> (k' < 2 * l3 + 1)%nat ->
  rsum (2 * l1 + 1) (fun a => rsum (2 * l2 + 1) (fun b => clebsch_gordan l1 l2 l3 a b k * clebsch_gordan l1 l2 l3 a b k'))%R = if (k =? k')%nat then (/ INR (2 * l3 + 1))%R else 0%R.
Proof.
  intros T Hk Hk'. apply RtoC_inj. rewrite <- csum_RtoC.
  transitivity (cgram (2 * l1 + 1) (2 * l2 + 1) (clebsch_gordan_complex l1 l2 l3) k k').
  { apply csum_ext. intros a Ha. rewrite <- csum_RtoC. apply csum_ext. intros b Hb. rewrite !cg_real, Cconj_R, RtoC_mult by assumption. reflexivity. }
  transitivity (cgram (2 * l1 + 1) (2 * l2 + 1) (t1 (2 * l1 + 1) (Q l1) (t2 (2 * l2 + 1) (Q l2) (t3 (2 * l3 + 1) (Q l3) (fun i j m => RtoC (su2_clebsch_gordan (2 * l1) (2 * l2) (2 * l3) i j m))))) k k').
  { apply csum_ext. intros a Ha. apply csum_ext. intros b Hb. now rewrite !cg_transform. }
  rewrite t1_gram by exact (Q_unitary_rows l1). rewrite t2_gram by exact (Q_unitary_rows l2). rewrite t3_gram.
  rewrite (csum_ext _ _ (fun m => RtoC (/ INR (2 * l3 + 1)) * (Cconj (Q l3 m k) * Q l3 m k'))).
  - rewrite csum_scal, Q_cols by assumption. destruct (k =? k')%nat; ring.
  - intros m Hm. rewrite (csum_ext _ _ (fun m' => cdelta m m' * (RtoC (/ INR (2 * l3 + 1)) * (Cconj (Q l3 m k) * Q l3 m' k')))).
    + now rewrite cdelta_sum.
    + intros m' Hm'. unfold cgram.
      rewrite (csum_ext _ _ (fun a => RtoC (rsum (2 * l2 + 1) (fun b => su2_clebsch_gordan (2 * l1) (2 * l2) (2 * l3) a b m * su2_clebsch_gordan (2 * l1) (2 * l2) (2 * l3) a b m')%R))).
      * rewrite csum_RtoC. pose proof (su2_gram (2 * l1) (2 * l2) (2 * l3) m m' T ltac:(lia) ltac:(lia)) as G. unfold gram in G. rewrite <- !d_eq in G. rewrite G. unfold cdelta. destruct (m =? m')%nat; ring.
      * intros a Ha. rewrite <- csum_RtoC. apply csum_ext. intros b Hb. rewrite Cconj_R, RtoC_mult. reflexivity.
Qed.

(* coupling with a scalar *)
Lemma norm_factor_n (n : nat) : sqrt (ff (Z.of_nat n) * rf (Z.of_nat n + 1)) = (/ sqrt (INR n + 1))%R.
Proof.
  rewrite rf_nonneg by lia. rewrite ff_succ by lia. rewrite plus_IZR, <- INR_IZR_INZ. pose proof (ff_pos (Z.of_nat n)). assert (0 <= INR n)%R by apply pos_INR.
  rewrite <- sqrt_inv. f_equal. field. lra.
Qed.
Lemma wt_in_out n a : (0 <= a <= n)%Z -> (wt_in n a * wt_out n a = 1)%R.
Proof.
  intro H. unfold wt_in, wt_out. rewrite !rf_nonneg by lia. pose proof (ff_pos a). pose proof (ff_pos (n - a)). rewrite <- sqrt_mult_alt.
  - rewrite <- sqrt_1. f_equal. field. lra.
  - apply Rmult_le_pos; left; now apply Rinv_0_lt_compat.
Qed.
Lemma su2_n0n n a k : (a <= n)%nat -> (k <= n)%nat -> su2_clebsch_gordan n 0 n a 0 k = if (a =? k)%nat then (/ sqrt (INR n + 1))%R else 0%R.
Proof.
  intros Ha Hk. pose proof (su2_closed 0 n 0 a 0 k ltac:(lia) ltac:(lia) ltac:(lia)) as E. replace (n + 0)%nat with n in E by lia. change (0 + n)%nat with n in E. change (0 + 0)%nat with 0%nat in E. rewrite E.
  destruct (Nat.eqb_spec a k) as [<-|N]; [|apply cgz_out; lia]. rewrite cgz_in by lia. change (Z.of_nat 0) with 0%Z. rewrite !Z.add_0_r, !Z.add_0_l.
  pose proof (wt_in_out (Z.of_nat n) (Z.of_nat a) ltac:(lia)) as W. unfold norm_factor. rewrite !Z.add_0_l, Z.add_0_r. change (ff 0) with 1%R. change (sgn 0) with 1%R.
  assert (W0 : wt_in 0 0 = 1%R). { unfold wt_in. change (rf (0 - 0)) with (rf 0). rewrite rf_nonneg by lia. change (ff 0) with 1%R. replace (/ 1 * / 1)%R with 1%R by field. apply sqrt_1. }
  assert (R0 : racah 0 (Z.of_nat n) 0 (Z.of_nat a) (Z.of_nat a) = 1%R).
  { unfold racah. change (S (Z.to_nat 0)) with 1%nat. unfold rsum, term. change (Z.of_nat 0) with 0%Z. rewrite !Z.sub_0_r, !Z.add_0_l, !Z.add_0_r. rewrite !rf_nonneg by lia. change (ff 0) with 1%R. change (sgn 0) with 1%R. pose proof (ff_pos (Z.of_nat a)). pose proof (ff_pos (Z.of_nat n - Z.of_nat a)). field. lra. }
  rewrite W0, R0. rewrite <- norm_factor_n. transitivity (sqrt (1 * ff (Z.of_nat n) * 1 * rf (Z.of_nat n + 1)) * (wt_in (Z.of_nat n) (Z.of_nat a) * wt_out (Z.of_nat n) (Z.of_nat a)))%R; [ring|]. rewrite W, Rmult_1_r. f_equal. ring.
Qed.
Lemma su2_0nn n b k : (b <= n)%nat -> (k <= n)%nat -> su2_clebsch_gordan 0 n n 0 b k = if (b =? k)%nat then (/ sqrt (INR n + 1))%R else 0%R.
Proof.
  intros Hb Hk. pose proof (su2_closed 0 0 n 0 b k ltac:(lia) ltac:(lia) ltac:(lia)) as E. change (0 + n)%nat with n in E. change (0 + 0)%nat with 0%nat in E. rewrite E.
  destruct (Nat.eqb_spec b k) as [<-|N]; [|apply cgz_out; lia]. rewrite cgz_in by lia. change (Z.of_nat 0) with 0%Z. rewrite !Z.add_0_l.
  pose proof (wt_in_out (Z.of_nat n) (Z.of_nat b) ltac:(lia)) as W. unfold norm_factor. rewrite !Z.add_0_l. change (ff 0) with 1%R.
  assert (W0 : wt_in 0 0 = 1%R). { unfold wt_in. change (rf (0 - 0)) with (rf 0). rewrite rf_nonneg by lia. change (ff 0) with 1%R. replace (/ 1 * / 1)%R with 1%R by field. apply sqrt_1. }
  assert (R0 : racah 0 0 (Z.of_nat n) 0 (Z.of_nat b) = sgn (Z.of_nat b)).
  { unfold racah. rewrite (rsum_pick _ b).
    - rewrite (proj2 (Nat.ltb_lt _ _)) by lia. unfold term. rewrite !Z.add_0_l, !Z.add_0_r, !Z.sub_diag. rewrite !rf_nonneg by lia. change (ff 0) with 1%R. pose proof (ff_pos (Z.of_nat b)). pose proof (ff_pos (Z.of_nat n - Z.of_nat b)). replace (0 - 0 + Z.of_nat b)%Z with (Z.of_nat b) by lia. field. lra.
    - intros v Hv N. unfold term. destruct (Nat.lt_ge_cases v b); [rewrite (rf_neg (_ + 0 - _)) by lia|rewrite (rf_neg (Z.of_nat b - _)) by lia]; ring. }
  rewrite W0, R0. rewrite <- norm_factor_n. pose proof (sgn_sq (Z.of_nat b)) as SS. transitivity (sqrt (1 * 1 * ff (Z.of_nat n) * rf (Z.of_nat n + 1)) * (wt_in (Z.of_nat n) (Z.of_nat b) * wt_out (Z.of_nat n) (Z.of_nat b)) * (sgn (Z.of_nat b) * sgn (Z.of_nat b)))%R; [ring|]. rewrite W, SS, !Rmult_1_r. f_equal. ring.
Qed.
Lemma su2_nn0 n a b : (a <= n)%nat -> (b <= n)%nat -> su2_clebsch_gordan n n 0 a b 0 = if (a + b =? n)%nat then (sgn (Z.of_nat b) * / sqrt (INR n + 1))%R else 0%R.
Proof.
  intros Ha Hb. pose proof (su2_closed n 0 0 a b 0 ltac:(lia) ltac:(lia) ltac:(lia)) as E. replace (n + 0)%nat with n in E by lia. change (0 + 0)%nat with 0%nat in E. rewrite E.
  destruct (Nat.eqb_spec (a + b) n) as [S0|N]; [|apply cgz_out; lia]. rewrite cgz_in by lia. change (Z.of_nat 0) with 0%Z. rewrite !Z.add_0_r. change (0 + 0)%Z with 0%Z.
  assert (W0 : wt_out 0 0 = 1%R). { unfold wt_out. change (0 - 0)%Z with 0%Z. change (ff 0) with 1%R. rewrite Rmult_1_r. apply sqrt_1. }
  rewrite racah_0 by lia. rewrite !Z.add_0_r. rewrite Z.add_0_l.
  assert (E1 : (Z.of_nat n - Z.of_nat a = Z.of_nat b)%Z) by lia. assert (E2 : (Z.of_nat n - Z.of_nat b = Z.of_nat a)%Z) by lia.
  unfold norm_factor, wt_in. rewrite !Z.add_0_r, E1, E2. rewrite !(rf_nonneg 0) by lia. rewrite !ff_0, W0.
  rewrite <- norm_factor_n. pose proof (ff_pos (Z.of_nat a)). pose proof (ff_pos (Z.of_nat b)). rewrite !(rf_nonneg (Z.of_nat _)) by lia.
  assert (SQ : (sqrt (/ ff (Z.of_nat a) * / ff (Z.of_nat b)) * sqrt (/ ff (Z.of_nat b) * / ff (Z.of_nat a)) = / ff (Z.of_nat a) * / ff (Z.of_nat b))%R).
  { rewrite (Rmult_comm (/ ff (Z.of_nat b))). apply sqrt_sqrt. apply Rmult_le_pos; left; now apply Rinv_0_lt_compat. }
  rewrite SQ. replace (ff (Z.of_nat n) * 1 * 1 * rf (Z.of_nat n + 1))%R with (ff (Z.of_nat n) * rf (Z.of_nat n + 1))%R by ring. field. lra.
Qed.
Lemma Q_0 : Q 0 0 0 = RtoC 1. Proof. rewrite Q_mid. reflexivity. Qed.
Theorem cg_scalar_right l i k : (i < 2 * l + 1)%nat -> (k < 2 * l + 1)%nat -> clebsch_gordan l 0 l i 0 k = if (i =? k)%nat then (/ sqrt (INR (2 * l + 1)))%R else 0%R.
Proof.
  intros Hi Hk. apply RtoC_inj. rewrite <- cg_real by lia. unfold clebsch_gordan_complex.
  rewrite (csum_ext _ _ (fun p => RtoC (/ sqrt (INR (2 * l + 1))) * (Cconj (Q l p k) * Q l p i))).
  - rewrite csum_scal, Q_cols by assumption. rewrite Nat.eqb_sym. destruct (i =? k)%nat; ring.
  - intros p Hp. change (2 * 0 + 1)%nat with 1%nat. cbn [csum]. rewrite Cplus_0_l. rewrite Q_0. change (2 * 0)%nat with 0%nat. rewrite (csum_ext _ _ (fun n => cdelta p n * (RtoC (/ sqrt (INR (2 * l + 1))) * (Cconj (Q l n k) * Q l p i)))).
    + rewrite cdelta_sum by assumption. ring.
    + intros n Hn. rewrite su2_n0n by lia. unfold cdelta. replace (INR (2 * l) + 1)%R with (INR (2 * l + 1)) by (rewrite plus_INR; reflexivity). destruct (p =? n)%nat; ring.
Qed.
Theorem cg_scalar_left l i k : (i < 2 * l + 1)%nat -> (k < 2 * l + 1)%nat -> clebsch_gordan 0 l l 0 i k = if (i =? k)%nat then (/ sqrt (INR (2 * l + 1)))%R else 0%R.
Proof.
  intros Hi Hk. apply RtoC_inj. rewrite <- cg_real by lia. unfold clebsch_gordan_complex.
  change (2 * 0 + 1)%nat with 1%nat. cbn [csum]. rewrite Cplus_0_l.
  rewrite (csum_ext _ _ (fun p => RtoC (/ sqrt (INR (2 * l + 1))) * (Cconj (Q l p k) * Q l p i))).
  - rewrite csum_scal, Q_cols by assumption. rewrite Nat.eqb_sym. destruct (i =? k)%nat; ring.
  - intros p Hp. rewrite Q_0. rewrite (csum_ext _ _ (fun n => cdelta p n * (RtoC (/ sqrt (INR (2 * l + 1))) * (Cconj (Q l n k) * Q l p i)))).
    + rewrite cdelta_sum by assumption. ring.
    + intros n Hn. change (2 * 0)%nat with 0%nat. rewrite su2_0nn by lia. unfold cdelta. replace (INR (2 * l) + 1)%R with (INR (2 * l + 1)) by (rewrite plus_INR; reflexivity). destruct (p =? n)%nat; ring.
Qed.
Theorem cg_invariant l i j : (i < 2 * l + 1)%nat -> (j < 2 * l + 1)%nat -> clebsch_gordan l l 0 i j 0 = if (i =? j)%nat then (/ sqrt (INR (2 * l + 1)))%R else 0%R.
Proof.
  intros Hi Hj. apply RtoC_inj. rewrite <- cg_real by lia. unfold clebsch_gordan_complex.
  rewrite (csum_ext _ _ (fun p => RtoC (/ sqrt (INR (2 * l + 1))) * (Cconj (Q l p j) * Q l p i))).
  - rewrite csum_scal, Q_cols by assumption. rewrite Nat.eqb_sym. destruct (i =? j)%nat; ring.
  - intros p Hp. rewrite (csum_pick1 _ (2 * l - p)).
    + change (2 * 0 + 1)%nat with 1%nat. cbn [csum]. rewrite Cplus_0_l, Q_0, Cconj_R. change (2 * 0)%nat with 0%nat. rewrite su2_nn0 by lia. rewrite (proj2 (Nat.eqb_eq _ _)) by lia. rewrite Q_rev by lia.
      replace (INR (2 * l) + 1)%R with (INR (2 * l + 1)) by (rewrite plus_INR; reflexivity). rewrite RtoC_mult.
      replace (RtoC (sgn (Z.of_nat (2 * l - p)))) with (alt p).
      * transitivity (alt p * alt p * (RtoC (/ sqrt (INR (2 * l + 1))) * (Cconj (Q l p j) * Q l p i))); [ring|]. rewrite alt_sq. ring.
      * unfold alt. f_equal. rewrite pow_powerRZ, powerRZ_sgn. replace (Z.of_nat (2 * l - p)) with (2 * Z.of_nat l + - Z.of_nat p)%Z by lia. rewrite sgn_add, sgn_even, sgn_opp. ring.
    + lia.
    + intros q Hq N. refine (csum_zero (2 * 0 + 1) _ _). intros n Hn. replace n with 0%nat by lia. change (2 * 0)%nat with 0%nat. rewrite su2_nn0 by lia. rewrite (proj2 (Nat.eqb_neq _ _)) by lia. ring.
Qed.
