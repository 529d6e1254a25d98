(* The ladder relations of the SU(2) Clebsch-Gordan coefficients: combinatorics of Racah's sum *)
From Coq Require Import Reals ZArith Arith Bool Lia Lra Psatz.
From Verif Require Import SumR.
Open Scope R_scope.

(* factorial and reciprocal factorial on the integers (1/z! = 0 for z < 0) *)
Definition ff (z : Z) : R := INR (fact (Z.to_nat z)).
Definition rf (z : Z) : R := if (z <? 0)%Z then 0 else / ff z.
Definition sgn (z : Z) : R := if Z.even z then 1 else -1.

Lemma ff_pos z : 0 < ff z.
Proof. apply INR_fact_lt_0. Qed.
Lemma ff_succ z : (0 <= z)%Z -> ff (z + 1) = IZR (z + 1) * ff z.
Proof.
  intro H. unfold ff. replace (Z.to_nat (z + 1)) with (S (Z.to_nat z)) by lia. rewrite fact_simpl, mult_INR. f_equal. rewrite INR_IZR_INZ. f_equal. lia.
Qed.
Lemma ff_0 : ff 0 = 1. Proof. reflexivity. Qed.
Lemma rf_neg z : (z < 0)%Z -> rf z = 0.
Proof. intro H. unfold rf. destruct (Z.ltb_spec z 0); [reflexivity|lia]. Qed.
Lemma rf_nonneg z : (0 <= z)%Z -> rf z = / ff z.
Proof. intro H. unfold rf. destruct (Z.ltb_spec z 0); [lia|reflexivity]. Qed.
Lemma ff_pred z : (0 < z)%Z -> ff z = IZR z * ff (z - 1).
Proof. intro H. transitivity (ff (z - 1 + 1)); [f_equal; lia|]. rewrite ff_succ by lia. do 2 f_equal. lia. Qed.
Lemma rf_pred z : rf (z - 1) = IZR z * rf z.
Proof.
  destruct (Z.lt_trichotomy z 0) as [H|[->|H]].
  - rewrite !rf_neg by lia. ring.
  - rewrite rf_neg by lia. ring.
  - rewrite !rf_nonneg by lia. replace (ff z) with (IZR z * ff (z - 1)). 
    + assert (0 < ff (z - 1)) by apply ff_pos. assert (0 < IZR z) by (apply IZR_lt; lia). field. lra.
    + replace z with (z - 1 + 1)%Z at 3 by lia. rewrite ff_succ by lia. replace (z - 1 + 1)%Z with z by lia. reflexivity.
Qed.
Lemma sgn_succ z : sgn (z + 1) = - sgn z.
Proof. unfold sgn. rewrite Z.even_add. cbn. destruct (Z.even z); cbn; ring. Qed.
Lemma sgn_sq z : sgn z * sgn z = 1.
Proof. unfold sgn; destruct (Z.even z); ring. Qed.
Lemma sgn_add a b : sgn (a + b) = sgn a * sgn b.
Proof. unfold sgn. rewrite Z.even_add. destruct (Z.even a), (Z.even b); cbn; ring. Qed.
Lemma sgn_even z : sgn (2 * z) = 1.
Proof. unfold sgn. rewrite Z.even_mul. reflexivity. Qed.
Lemma sgn_opp z : sgn (- z) = sgn z.
Proof. unfold sgn. now rewrite Z.even_opp. Qed.

(* one term of Racah's sum: A = j1+j2-j3, B = j1+j3-j2, C = j2+j3-j1, a = j1+m1, k = j3+m3 *)
Definition term (A B C a k v : Z) : R := sgn v * ff (C + a - v) * ff (A + B - a + v) * rf v * rf (C - v) * rf (k - v) * rf (v + B - k).
Definition racah (A B C a k : Z) : R := rsum (S (Z.to_nat C)) (fun i => term A B C a k (Z.of_nat i)).

Lemma rsum_minus n f g : rsum n (fun k => f k - g k) = rsum n f - rsum n g.
Proof. unfold Rminus. now rewrite rsum_plus, rsum_opp. Qed.
Lemma rsum_telescope n (G : Z -> R) : rsum n (fun i => G (Z.of_nat i + 1)%Z - G (Z.of_nat i)) = G (Z.of_nat n) - G 0%Z.
Proof. induction n as [|n IH]; [cbn; lra|]. cbn [rsum]. rewrite IH. replace (Z.of_nat (S n)) with (Z.of_nat n + 1)%Z by lia. lra. Qed.

Lemma racah_comb A B C f1 f2 f3 x1 k1 x2 k2 x3 k3 (G : Z -> R) : (0 <= C)%Z ->
  (forall v, (0 <= v <= C)%Z -> f1 * term A B C x1 k1 v - f2 * term A B C x2 k2 v - f3 * term A B C x3 k3 v = G (v + 1)%Z - G v) -> G 0%Z = 0 -> G (C + 1)%Z = 0 ->
  f1 * racah A B C x1 k1 - f2 * racah A B C x2 k2 = f3 * racah A B C x3 k3.
Proof.
  intros HC H G0 G1. unfold racah. rewrite <- !rsum_scal.
  assert (E : rsum (S (Z.to_nat C)) (fun i => f1 * term A B C x1 k1 (Z.of_nat i)) - rsum (S (Z.to_nat C)) (fun i => f2 * term A B C x2 k2 (Z.of_nat i)) - rsum (S (Z.to_nat C)) (fun i => f3 * term A B C x3 k3 (Z.of_nat i)) = 0).
  { transitivity (rsum (S (Z.to_nat C)) (fun i => G (Z.of_nat i + 1)%Z - G (Z.of_nat i))).
    - transitivity (rsum (S (Z.to_nat C)) (fun i => f1 * term A B C x1 k1 (Z.of_nat i) - f2 * term A B C x2 k2 (Z.of_nat i) - f3 * term A B C x3 k3 (Z.of_nat i))).
      + rewrite !rsum_minus. reflexivity.
      + apply rsum_ext. intros i Hi. apply H. lia.
    - rewrite rsum_telescope. replace (Z.of_nat (S (Z.to_nat C))) with (C + 1)%Z by lia. rewrite G0, G1. ring. }
  lra.
Qed.

Lemma racah_raise A B C a b k : (0 <= A)%Z -> (0 <= B)%Z -> (0 <= C)%Z -> (0 <= a <= A + B)%Z -> (0 <= b)%Z -> (a + b = k + A)%Z ->
  IZR (A + B - a) * racah A B C (a + 1) (k + 1) - IZR (A + C - b) * racah A B C a (k + 1) = IZR (B + C - k) * racah A B C a k.
Proof.
  intros HA HB HC Ha Hb E.
  apply racah_comb with (G := fun v => sgn v * ff (C + a - v + 1) * ff (A + B - a + v - 1) * rf (v - 1) * rf (C - v) * rf (k + 1 - v) * rf (v + B - k - 1)); auto.
  - intros v Hv. unfold term.
    replace (C + (a + 1) - v)%Z with (C + a - v + 1)%Z by ring. replace (A + B - (a + 1) + v)%Z with (A + B - a + v - 1)%Z by ring.
    replace (v + B - (k + 1))%Z with (v + B - k - 1)%Z by ring. replace (k - v)%Z with (k + 1 - v - 1)%Z by ring.
    replace (C + a - (v + 1) + 1)%Z with (C + a - v)%Z by ring. replace (A + B - a + (v + 1) - 1)%Z with (A + B - a + v)%Z by ring. replace (v + 1 - 1)%Z with v by ring.
    replace (C - (v + 1))%Z with (C - v - 1)%Z by ring. replace (k + 1 - (v + 1))%Z with (k + 1 - v - 1)%Z by ring. replace (v + 1 + B - k - 1)%Z with (v + B - k)%Z by ring.
    rewrite sgn_succ, !(rf_pred v), !(rf_pred (C - v)), !(rf_pred (k + 1 - v)). rewrite (ff_succ (C + a - v)) by lia.
    destruct (Z.eq_dec (A + B - a + v) 0) as [Q|Q].
    + assert (v = 0)%Z by lia. assert (a = A + B)%Z by lia. subst v a. rewrite (rf_neg (0 + B - k - 1)) by lia.
      assert (Z0 : IZR (B - k) * rf (0 + B - k) = 0). { replace (0 + B - k)%Z with (B - k)%Z by ring. rewrite <- rf_pred. apply rf_neg. lia. }
      replace (A + B - (A + B))%Z with 0%Z by ring. replace (0 + 0)%Z with 0%Z by reflexivity. rewrite ff_0.
      replace (IZR (B + C - k)) with (IZR C + IZR (B - k)) by (rewrite <- plus_IZR; f_equal; ring). rewrite ?Z.sub_0_r.
      transitivity (- (IZR C * (sgn 0 * ff (C + (A + B) - 0) * rf 0 * rf C * (IZR (k + 1 - 0) * rf (k + 1 - 0)) * rf (0 + B - k))) - (IZR (B - k) * rf (0 + B - k)) * (sgn 0 * ff (C + (A + B) - 0) * rf 0 * rf C * (IZR (k + 1 - 0) * rf (k + 1 - 0)))).
      * rewrite ?Z.sub_0_r. ring.
      * rewrite Z0. rewrite ?Z.sub_0_r. ring.
    + rewrite !(rf_pred (v + B - k)). rewrite !(ff_pred (A + B - a + v)) by lia. assert (b = k + A - a)%Z by lia. subst b.
      rewrite ?plus_IZR, ?minus_IZR, ?plus_IZR. ring.
  - change (0 - 1)%Z with (-1)%Z. rewrite (rf_neg (-1)) by lia. ring.
  - rewrite (rf_neg (C - (C + 1))) by lia. ring.
Qed.
Lemma racah_lower A B C a b k : (0 <= A)%Z -> (0 <= B)%Z -> (0 <= C)%Z -> (0 <= a <= A + B)%Z -> (0 <= b <= A + C)%Z -> (a + b = k + 1 + A)%Z ->
  IZR a * racah A B C (a - 1) k - IZR b * racah A B C a k = IZR (k + 1) * racah A B C a (k + 1).
Proof.
  intros HA HB HC Ha Hb E.
  apply racah_comb with (G := fun v => sgn v * ff (C + a - v) * ff (A + B - a + v) * rf (v - 1) * rf (C - v) * rf (k + 1 - v) * rf (v + B - k - 1)); auto.
  - intros v Hv. unfold term.
    replace (C + (a - 1) - v)%Z with (C + a - v - 1)%Z by ring. replace (A + B - (a - 1) + v)%Z with (A + B - a + v + 1)%Z by ring.
    replace (v + B - (k + 1))%Z with (v + B - k - 1)%Z by ring. replace (k - v)%Z with (k + 1 - v - 1)%Z by ring.
    replace (C + a - (v + 1))%Z with (C + a - v - 1)%Z by ring. replace (A + B - a + (v + 1))%Z with (A + B - a + v + 1)%Z by ring. replace (v + 1 - 1)%Z with v by ring.
    replace (C - (v + 1))%Z with (C - v - 1)%Z by ring. replace (k + 1 - (v + 1))%Z with (k + 1 - v - 1)%Z by ring. replace (v + 1 + B - k - 1)%Z with (v + B - k)%Z by ring.
    rewrite sgn_succ, !(rf_pred v), !(rf_pred (C - v)), !(rf_pred (v + B - k)). rewrite !(ff_succ (A + B - a + v)) by lia.
    destruct (Z.eq_dec (C + a - v) 0) as [Q|Q].
    + assert (v = C)%Z by lia. assert (a = 0)%Z by lia. subst v a. assert (b = k + 1 + A)%Z by lia. subst b. rewrite (rf_neg (k + 1 - C - 1)) by lia.
      replace (C - C)%Z with 0%Z by ring.
      destruct (Z.eq_dec (k + 1) C) as [K|K].
      * rewrite <- K. replace (C + 0 - C)%Z with 0%Z by ring. ring.
      * rewrite (rf_neg (k + 1 - C)) by lia. ring.
    + rewrite !(rf_pred (k + 1 - v)). rewrite !(ff_pred (C + a - v)) by lia. assert (b = k + 1 + A - a)%Z by lia. subst b.
      rewrite ?plus_IZR, ?minus_IZR, ?plus_IZR. ring.
  - change (0 - 1)%Z with (-1)%Z. rewrite (rf_neg (-1)) by lia. ring.
  - rewrite (rf_neg (C - (C + 1))) by lia. ring.
Qed.


(* the coefficients on the integers, zero out of range *)
Definition norm_factor (A B C : Z) : R := sqrt (ff A * ff B * ff C * rf (A + B + C + 1)).
Definition wt_in (n a : Z) : R := sqrt (rf a * rf (n - a)).
Definition wt_out (n k : Z) : R := sqrt (ff k * ff (n - k)).
Definition cgz (A B C a b k : Z) : R :=
  if ((a + b =? k + A) && (0 <=? k) && (k <=? B + C))%Z
  then norm_factor A B C * (wt_in (A + B) a * wt_in (A + C) b) * wt_out (B + C) k * sgn b * racah A B C a k else 0.
Definition lad (n a : Z) : R := sqrt (IZR ((n - a) * (a + 1))).

Lemma racah_neg A B C a k : (k < 0)%Z -> racah A B C a k = 0.
Proof. intro H. apply rsum_zero. intros i _. unfold term. rewrite (rf_neg (k - _)) by lia. ring. Qed.
Lemma racah_big A B C a k : (0 <= C)%Z -> (B + C < k)%Z -> racah A B C a k = 0.
Proof. intros HC H. apply rsum_zero. intros i Hi. unfold term. rewrite (rf_neg (_ + B - k)) by lia. ring. Qed.
Lemma rf_ge z : 0 <= rf z.
Proof. unfold rf. destruct (z <? 0)%Z; [lra|]. left. apply Rinv_0_lt_compat, ff_pos. Qed.
Lemma wt_in_neg n a : (a < 0 \/ n < a)%Z -> wt_in n a = 0.
Proof. intro H. unfold wt_in. destruct H; [rewrite (rf_neg a) by lia|rewrite (rf_neg (n - a)) by lia]; rewrite ?Rmult_0_l, ?Rmult_0_r; apply sqrt_0. Qed.
Lemma lad_m1 n : lad n (-1) = 0.
Proof. unfold lad. replace ((n - -1) * (-1 + 1))%Z with 0%Z by ring. apply sqrt_0. Qed.
Lemma lad_n n : lad n n = 0.
Proof. unfold lad. rewrite Z.sub_diag. apply sqrt_0. Qed.

Lemma wt_in_up n a : (0 <= a <= n)%Z -> lad n a * wt_in n (a + 1) = IZR (n - a) * wt_in n a.
Proof.
  intro H. unfold lad, wt_in. assert (0 <= IZR (n - a)) by (apply IZR_le; lia).
  transitivity (sqrt (IZR (n - a) * IZR (n - a)) * sqrt (rf a * rf (n - a))); [|rewrite sqrt_square by assumption; reflexivity].
  rewrite <- !sqrt_mult_alt.
  - f_equal. replace (rf a) with (IZR (a + 1) * rf (a + 1)); [|rewrite <- rf_pred; f_equal; lia].
    replace (n - (a + 1))%Z with (n - a - 1)%Z by ring. rewrite rf_pred, mult_IZR. ring.
  - now apply Rmult_le_pos.
  - apply IZR_le. nia.
Qed.
Lemma wt_in_down n a : (0 <= a <= n)%Z -> lad n (a - 1) * wt_in n (a - 1) = IZR a * wt_in n a.
Proof.
  intro H. unfold lad, wt_in. assert (0 <= IZR a) by (apply IZR_le; lia).
  transitivity (sqrt (IZR a * IZR a) * sqrt (rf a * rf (n - a))); [|rewrite sqrt_square by assumption; reflexivity].
  rewrite <- !sqrt_mult_alt.
  - f_equal. replace (rf (n - a)) with (IZR (n - a + 1) * rf (n - a + 1)); [|rewrite <- rf_pred; f_equal; lia].
    replace (n - (a - 1))%Z with (n - a + 1)%Z by ring. replace (a - 1 + 1)%Z with a by ring. rewrite rf_pred, mult_IZR. ring.
  - now apply Rmult_le_pos.
  - apply IZR_le. nia.
Qed.
Lemma wt_out_up n k : (0 <= k < n)%Z -> lad n k * wt_out n k = IZR (n - k) * wt_out n (k + 1).
Proof.
  intro H. unfold lad, wt_out. assert (0 <= IZR (n - k)) by (apply IZR_le; lia).
  transitivity (sqrt (IZR (n - k) * IZR (n - k)) * sqrt (ff (k + 1) * ff (n - (k + 1)))); [|rewrite sqrt_square by assumption; reflexivity].
  rewrite <- !sqrt_mult_alt.
  - f_equal. rewrite ff_succ by lia. rewrite (ff_pred (n - k)) by lia. replace (n - (k + 1))%Z with (n - k - 1)%Z by ring. rewrite mult_IZR. ring.
  - now apply Rmult_le_pos.
  - apply IZR_le. nia.
Qed.
Lemma wt_out_down n k : (0 <= k < n)%Z -> lad n k * wt_out n (k + 1) = IZR (k + 1) * wt_out n k.
Proof.
  intro H. unfold lad, wt_out. assert (0 <= IZR (k + 1)) by (apply IZR_le; lia).
  transitivity (sqrt (IZR (k + 1) * IZR (k + 1)) * sqrt (ff k * ff (n - k))); [|rewrite sqrt_square by assumption; reflexivity].
  rewrite <- !sqrt_mult_alt.
  - f_equal. rewrite ff_succ by lia. rewrite (ff_pred (n - k)) by lia. replace (n - (k + 1))%Z with (n - k - 1)%Z by ring. rewrite mult_IZR. ring.
  - now apply Rmult_le_pos.
  - apply IZR_le. nia.
Qed.

Lemma cgz_in A B C a b k : (0 <= A)%Z -> (0 <= B)%Z -> (0 <= C)%Z -> (a + b = k + A)%Z -> (0 <= k <= B + C)%Z ->
  cgz A B C a b k = norm_factor A B C * (wt_in (A + B) a * wt_in (A + C) b) * wt_out (B + C) k * sgn b * racah A B C a k.
Proof.
  intros. unfold cgz. replace (a + b =? k + A)%Z with true by (symmetry; apply Z.eqb_eq; lia).
  replace (0 <=? k)%Z with true by (symmetry; apply Z.leb_le; lia). replace (k <=? B + C)%Z with true by (symmetry; apply Z.leb_le; lia). reflexivity.
Qed.
Lemma cgz_out A B C a b k : (a + b <> k + A)%Z -> cgz A B C a b k = 0.
Proof. intro. unfold cgz. replace (a + b =? k + A)%Z with false by (symmetry; apply Z.eqb_neq; lia). reflexivity. Qed.
Lemma cgz_outk A B C a b k : (k < 0 \/ B + C < k)%Z -> cgz A B C a b k = 0.
Proof. intro. unfold cgz. destruct (Z.leb_spec 0 k), (Z.leb_spec k (B + C)); rewrite ?andb_false_r; try reflexivity. lia. Qed.

Lemma cgz_raise A B C a b k : (0 <= A)%Z -> (0 <= B)%Z -> (0 <= C)%Z -> (0 <= a <= A + B)%Z -> (0 <= b <= A + C)%Z -> (0 <= k <= B + C)%Z ->
  lad (A + B) a * cgz A B C (a + 1) b k + lad (A + C) b * cgz A B C a (b + 1) k = lad (B + C) (k - 1) * cgz A B C a b (k - 1).
Proof.
  intros HA HB HC Ha Hb Hk. destruct (Z.eq_dec (a + b + 1) (k + A)) as [E|E].
  2: { rewrite !cgz_out by lia. ring. }
  pose proof (racah_raise A B C a b (k - 1) HA HB HC Ha (proj1 Hb) ltac:(lia)) as R. replace (k - 1 + 1)%Z with k in R by ring.
  rewrite !(cgz_in A B C _ _ k) by lia.
  transitivity (norm_factor A B C * wt_out (B + C) k * sgn b * (wt_in (A + B) a * wt_in (A + C) b) * (IZR (B + C - (k - 1)) * racah A B C a (k - 1))).
  - rewrite <- R.
    transitivity (norm_factor A B C * wt_out (B + C) k * sgn b * ((lad (A + B) a * wt_in (A + B) (a + 1)) * wt_in (A + C) b * racah A B C (a + 1) k - wt_in (A + B) a * (lad (A + C) b * wt_in (A + C) (b + 1)) * racah A B C a k)).
    + rewrite sgn_succ. ring.
    + rewrite !wt_in_up by lia. ring.
  - destruct (Z.eq_dec k 0) as [->|K].
    + change (0 - 1)%Z with (-1)%Z. rewrite racah_neg, lad_m1 by lia. ring.
    + rewrite cgz_in by lia. pose proof (wt_out_up (B + C) (k - 1) ltac:(lia)) as U. replace (k - 1 + 1)%Z with k in U by ring.
      transitivity (norm_factor A B C * sgn b * (wt_in (A + B) a * wt_in (A + C) b) * (IZR (B + C - (k - 1)) * wt_out (B + C) k) * racah A B C a (k - 1)); [ring|]. rewrite <- U. ring.
Qed.
Lemma cgz_lower A B C a b k : (0 <= A)%Z -> (0 <= B)%Z -> (0 <= C)%Z -> (0 <= a <= A + B)%Z -> (0 <= b <= A + C)%Z -> (0 <= k <= B + C)%Z ->
  lad (A + B) (a - 1) * cgz A B C (a - 1) b k + lad (A + C) (b - 1) * cgz A B C a (b - 1) k = lad (B + C) k * cgz A B C a b (k + 1).
Proof.
  intros HA HB HC Ha Hb Hk. destruct (Z.eq_dec (a + b) (k + 1 + A)) as [E|E].
  2: { rewrite !cgz_out by lia. ring. }
  pose proof (racah_lower A B C a b k HA HB HC Ha Hb ltac:(lia)) as R.
  rewrite !(cgz_in A B C _ _ k) by lia.
  transitivity (norm_factor A B C * wt_out (B + C) k * sgn b * (wt_in (A + B) a * wt_in (A + C) b) * (IZR (k + 1) * racah A B C a (k + 1))).
  - rewrite <- R.
    transitivity (norm_factor A B C * wt_out (B + C) k * sgn b * ((lad (A + B) (a - 1) * wt_in (A + B) (a - 1)) * wt_in (A + C) b * racah A B C (a - 1) k - wt_in (A + B) a * (lad (A + C) (b - 1) * wt_in (A + C) (b - 1)) * racah A B C a k)).
    + pose proof (sgn_succ (b - 1)) as Q. replace (b - 1 + 1)%Z with b in Q by ring. replace (sgn (b - 1)) with (- sgn b) by lra. ring.
    + rewrite !wt_in_down by lia. ring.
  - destruct (Z.eq_dec k (B + C)) as [->|K].
    + rewrite racah_big, lad_n by lia. ring.
    + rewrite cgz_in by lia. pose proof (wt_out_down (B + C) k ltac:(lia)) as U.
      transitivity (norm_factor A B C * sgn b * (wt_in (A + B) a * wt_in (A + C) b) * (IZR (k + 1) * wt_out (B + C) k) * racah A B C a (k + 1)); [ring|]. rewrite <- U. ring.
Qed.
