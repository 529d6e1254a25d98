(* Exchange symmetry of the coupling coefficients *)
From Coq Require Import Reals ZArith Arith Bool Lia Lra Psatz.
From Coquelicot Require Import Complex.
From Verif Require Import SumR CGModel CGProofs CGProofs2 CGProofs3 CGProofs4 CGProofs5.
Open Scope R_scope.
Lemma rsum_tail n m f : (n <= m)%nat -> (forall i, (n <= i < m)%nat -> f i = 0) -> rsum m f = rsum n f.
Proof.
  intros L H. induction m as [|m IH]; [now replace n with 0%nat by lia|]. destruct (Nat.eq_dec n (S m)) as [->|N]; [reflexivity|]. cbn [rsum]. rewrite IH, (H m) by (intros; try apply H; lia). ring.
Qed.
Lemma racah_k A B C a k : (0 <= C)%Z -> (0 <= k)%Z -> racah A B C a k = rsum (S (Z.to_nat k)) (fun i => term A B C a k (Z.of_nat i)).
Proof.
  intros HC Hk. unfold racah. destruct (Z.le_ge_cases C k) as [L|L]; [symmetry|]; apply rsum_tail; try lia; intros i Hi; unfold term.
  - rewrite (rf_neg (C - _)) by lia. ring.
  - rewrite (rf_neg (k - _)) by lia. ring.
Qed.
Lemma racah_swap A B C a b k : (0 <= B)%Z -> (0 <= C)%Z -> (0 <= k)%Z -> (a + b = k + A)%Z -> racah A C B b k = sgn k * racah A B C a k.
Proof.
  intros HB HC Hk E. rewrite !racah_k by assumption. rewrite <- rsum_scal, rsum_rev. apply rsum_ext. intros i Hi.
  replace (Z.of_nat (S (Z.to_nat k) - 1 - i)) with (k - Z.of_nat i)%Z by lia. set (v := Z.of_nat i). unfold term.
  replace (B + b - (k - v))%Z with (A + B - a + v)%Z by lia. replace (A + C - b + (k - v))%Z with (C + a - v)%Z by lia. replace (k - (k - v))%Z with v by ring.
  replace (B - (k - v))%Z with (v + B - k)%Z by ring. replace (k - v + C - k)%Z with (C - v)%Z by ring. unfold Z.sub at 1. rewrite sgn_add, sgn_opp. ring.
Qed.
Lemma cgz_swap A B C a b k : (0 <= B)%Z -> (0 <= C)%Z -> cgz A C B b a k = sgn A * cgz A B C a b k.
Proof.
  intros HB HC. unfold cgz. rewrite (Z.add_comm b a), (Z.add_comm C B). destruct (Z.eqb_spec (a + b) (k + A)) as [E|E]; [|cbn [andb]; ring]. destruct (Z.leb_spec 0 k) as [K|K]; [|cbn [andb]; ring]. destruct (k <=? B + C)%Z; [|cbn [andb]; ring]. cbn [andb].
  rewrite (racah_swap A B C a b k) by assumption. replace (norm_factor A C B) with (norm_factor A B C).
  - assert (S1 : sgn a * sgn k = sgn A * sgn b). { replace A with (a + b + k + 2 * (- k))%Z by lia. rewrite !sgn_add. rewrite (sgn_even (- k)). transitivity (sgn a * sgn k * (sgn b * sgn b)); [rewrite sgn_sq; ring|ring]. }
    transitivity (norm_factor A B C * (wt_in (A + B) a * wt_in (A + C) b) * wt_out (B + C) k * (sgn a * sgn k) * racah A B C a k); [ring|]. rewrite S1. ring.
  - unfold norm_factor. f_equal. replace (A + C + B)%Z with (A + B + C)%Z by ring. ring.
Qed.
Theorem su2_swap n1 n2 n3 a b k : (a <= n1)%nat -> (b <= n2)%nat -> (k <= n3)%nat -> su2_clebsch_gordan n2 n1 n3 b a k = (-1) ^ ((n1 + n2 - n3) / 2) * su2_clebsch_gordan n1 n2 n3 a b k.
Proof.
  intros Ha Hb Hk. destruct (triangle n1 n2 n3) eqn:T.
  - destruct (triangle_split _ _ _ T) as (A & B & C & -> & -> & ->). rewrite (su2_closed A B C) by assumption. rewrite (Nat.add_comm B C), (su2_closed A C B) by lia. rewrite (cgz_swap (Z.of_nat A) (Z.of_nat B) (Z.of_nat C)) by lia. f_equal.
    replace (A + B + (A + C) - (C + B))%nat with (A * 2)%nat by lia. rewrite Nat.div_mul by lia. now rewrite pow_powerRZ, powerRZ_sgn.
  - assert (T' : triangle n2 n1 n3 = false). { rewrite <- T. unfold triangle. cbv zeta. replace (Z.abs (Z.of_nat n2 - Z.of_nat n1)) with (Z.abs (Z.of_nat n1 - Z.of_nat n2)) by lia. now rewrite (Z.add_comm (Z.of_nat n2)). }
    rewrite !not_triangle by assumption. ring.
Qed.
Theorem cg_swap l1 l2 l3 i j k : (i < 2 * l1 + 1)%nat -> (j < 2 * l2 + 1)%nat -> (k < 2 * l3 + 1)%nat ->
  clebsch_gordan l2 l1 l3 j i k = (-1) ^ (l1 + l2 - l3) * clebsch_gordan l1 l2 l3 i j k.
Proof.
  intros Hi Hj Hk. apply RtoC_inj. rewrite RtoC_mult. rewrite <- !cg_real by lia. unfold clebsch_gordan_complex. rewrite csum_swap. rewrite <- csum_scal. apply csum_ext. intros p Hp. rewrite <- csum_scal. apply csum_ext. intros q Hq. rewrite <- csum_scal. apply csum_ext. intros m Hm.
  rewrite (su2_swap (2 * l1) (2 * l2) (2 * l3) p q m) by lia. replace ((2 * l1 + 2 * l2 - 2 * l3) / 2)%nat with (l1 + l2 - l3)%nat by (replace (2 * l1 + 2 * l2 - 2 * l3)%nat with ((l1 + l2 - l3) * 2)%nat by lia; now rewrite Nat.div_mul by lia).
  rewrite RtoC_mult. ring.
Qed.
