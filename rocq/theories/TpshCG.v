(* The slice clebsch_gordan(l1, l2, l3)[:, l2, :] of the real coupling coefficients: it is diagonal or antidiagonal, centred. *)
From Coq Require Import Reals ZArith Arith Lia Lra Bool List.
From Coquelicot Require Import Complex.
From Verif Require Import SumR CGModel CGProofs CGProofs2 CGProofs3 CGProofs4 CGProofs5 WignerProps2.
Open Scope C_scope.

(* the side of the centre *)
Definition side (l c : nat) : R := if (l <=? c)%nat then 1%R else (-1)%R.
Lemma C_m1 : RtoC (-1) = - RtoC 1. Proof. rewrite <- RtoC_opp. f_equal. Qed.
Lemma Q_mirror l r c : (r < 2 * l + 1)%nat -> (c < 2 * l + 1)%nat -> Q l (2 * l - r) c = alt (r + l) * RtoC (side l c) * Q l r c.
Proof.
  intros Hr Hc. unfold side.
  destruct (Nat.eq_dec c r) as [->|N1]; [|destruct (Nat.eq_dec c (2 * l - r)) as [->|N2]].
  - destruct (lt_eq_lt_dec r l) as [[L| ->]|L].
    + set (d := (l - r)%nat). replace r with (l - d)%nat by lia. replace (2 * l - (l - d))%nat with (l + d)%nat by lia. rewrite (leb_correct_conv (l - d) l) by lia. rewrite Q_ul, Q_ll by lia. replace (l - d + l)%nat with (r + l)%nat by lia.
      replace (alt (r + l)) with (alt d); [rewrite C_m1; ring|]. unfold d, alt. f_equal. replace (r + l)%nat with (2 * r + (l - r))%nat by lia. rewrite pow_add, pow_mult. replace ((-1) ^ 2)%R with 1%R by ring. rewrite pow1. ring.
    + replace (2 * l - l)%nat with l by lia. rewrite leb_correct by lia. replace (alt (l + l)) with (RtoC 1); [ring|]. rewrite alt_add, alt_sq. reflexivity.
    + set (d := (r - l)%nat). replace r with (l + d)%nat by lia. replace (2 * l - (l + d))%nat with (l - d)%nat by lia. rewrite leb_correct by lia. rewrite Q_lu, Q_uu by lia. replace (l + d + l)%nat with (l + l + d)%nat by lia. rewrite !alt_add.
      transitivity (om l * sq2 * (alt l * alt l) * (alt d * alt d)); [rewrite !alt_sq; ring|ring].
  - destruct (lt_eq_lt_dec r l) as [[L| ->]|L]; [|lia|].
    + set (d := (l - r)%nat). replace r with (l - d)%nat by lia. replace (2 * l - (l - d))%nat with (l + d)%nat by lia. rewrite leb_correct by lia. rewrite Q_lu, Q_uu by lia.
      replace (alt (l - d + l)) with (alt d); [ring|]. unfold d, alt. f_equal. replace (l - (l - r) + l)%nat with (2 * r + (l - r))%nat by lia. rewrite pow_add, pow_mult. replace ((-1) ^ 2)%R with 1%R by ring. rewrite pow1. ring.
    + set (d := (r - l)%nat). replace r with (l + d)%nat by lia. replace (2 * l - (l + d))%nat with (l - d)%nat by lia. rewrite (leb_correct_conv (l - d) l) by lia. rewrite Q_ll, Q_ul by lia. replace (l + d + l)%nat with (l + l + d)%nat by lia. rewrite !alt_add, C_m1.
      transitivity (- (Ci * om l * sq2 * (alt l * alt l) * (alt d * alt d))); [rewrite !alt_sq; ring|ring].
  - rewrite !Q_out by lia. ring.
Qed.
(* reflecting the three spaces in a plane through the axis *)
Lemma cg_mirror l1 l2 l3 a b k : (a < 2 * l1 + 1)%nat -> (b < 2 * l2 + 1)%nat -> (k < 2 * l3 + 1)%nat ->
  clebsch_gordan l1 l2 l3 a b k = ((-1) ^ (l1 + l2 + l3) * (side l1 a * side l2 b * side l3 k) * clebsch_gordan l1 l2 l3 a b k)%R.
Proof.
  intros Ha Hb Hk. apply RtoC_inj. rewrite !RtoC_mult, <- cg_real by assumption. fold (alt (l1 + l2 + l3)). unfold clebsch_gordan_complex. rewrite csum_rev at 1. rewrite <- csum_scal. apply csum_ext. intros p Hp. rewrite csum_rev at 1. rewrite <- csum_scal. apply csum_ext. intros q Hq. rewrite csum_rev at 1. rewrite <- csum_scal. apply csum_ext. intros r Hr.
  replace (2 * l1 + 1 - 1 - p)%nat with (2 * l1 - p)%nat by lia. replace (2 * l2 + 1 - 1 - q)%nat with (2 * l2 - q)%nat by lia. replace (2 * l3 + 1 - 1 - r)%nat with (2 * l3 - r)%nat by lia.
  rewrite su2_rev by lia. rewrite RtoC_mult. fold (alt (p + q + r)). rewrite !Q_mirror by assumption. rewrite !Cmult_conj, Cconj_R. assert (CA : forall m, Cconj (alt m) = alt m) by (intro; apply Cconj_R). rewrite CA, !alt_add.
  match goal with |- _ = ?x => transitivity (x * (alt p * alt p) * (alt q * alt q) * (alt r * alt r)); [|rewrite !alt_sq; ring] end. ring.
Qed.
(* the orders m are conserved up to sign *)
Lemma cg_orders l1 l2 l3 a b k : (a < 2 * l1 + 1)%nat -> (b < 2 * l2 + 1)%nat -> (k < 2 * l3 + 1)%nat -> clebsch_gordan l1 l2 l3 a b k <> 0%R ->
  exists e1 e2 e3 : Z, (e1 = 1 \/ e1 = -1)%Z /\ (e2 = 1 \/ e2 = -1)%Z /\ (e3 = 1 \/ e3 = -1)%Z /\
    (e1 * (Z.of_nat a - Z.of_nat l1) + e2 * (Z.of_nat b - Z.of_nat l2) = e3 * (Z.of_nat k - Z.of_nat l3))%Z.
Proof.
  intros Ha Hb Hk N.
  assert (D : forall l r c : nat, (r < 2 * l + 1)%nat -> (c < 2 * l + 1)%nat -> Q l r c <> 0 -> exists e : Z, (e = 1 \/ e = -1)%Z /\ (Z.of_nat r - Z.of_nat l = e * (Z.of_nat c - Z.of_nat l))%Z).
  { intros l r c Hr Hc H. destruct (Nat.eq_dec c r) as [->|N1]; [exists 1%Z; lia|]. destruct (Nat.eq_dec c (2 * l - r)) as [->|N2]; [exists (-1)%Z; lia|]. exfalso. apply H. now apply Q_out. }
  assert (E : clebsch_gordan_complex l1 l2 l3 a b k <> 0). { rewrite cg_real by assumption. intros E. apply N. now apply RtoC_inj. }
  assert (X : forall n f, csum n f <> 0 -> exists i, (i < n)%nat /\ f i <> 0).
  { clear. induction n as [|n IH]; intros f H; [now elim H|]. cbn [csum] in H. destruct (Ceq_dec (f n) 0) as [E|E]; [|exists n; split; [lia|exact E]]. rewrite E, Cplus_0_r in H. destruct (IH f H) as (i & Hi & Fi). exists i. split; [lia|exact Fi]. }
  unfold clebsch_gordan_complex in E. apply X in E as (i & Hi & E). apply X in E as (j & Hj & E). apply X in E as (m & Hm & E).
  assert (M : forall u v : C, u * v <> 0 -> u <> 0 /\ v <> 0) by (intros u v H; split; intros ->; apply H; ring).
  apply M in E as [E S0]. apply M in E as [E E3]. apply M in E as [E1 E2].
  destruct (D l1 i a Hi Ha E1) as (e1 & P1 & Q1). destruct (D l2 j b Hj Hb E2) as (e2 & P2 & Q2). assert (E3' : Q l3 m k <> 0) by (intros Z; apply E3; rewrite Z; apply Cconj_R). destruct (D l3 m k Hm Hk E3') as (e3 & P3 & Q3).
  exists e1, e2, e3. split; [exact P1|split; [exact P2|split; [exact P3|]]]. rewrite <- Q1, <- Q2, <- Q3.
  assert (S1 : su2_clebsch_gordan (2 * l1) (2 * l2) (2 * l3) i j m <> 0%R) by (intros Z; apply S0; now rewrite Z).
  destruct (Z.eq_dec (Z.of_nat i - Z.of_nat l1 + (Z.of_nat j - Z.of_nat l2)) (Z.of_nat m - Z.of_nat l3)) as [H|H]; [exact H|]. exfalso. apply S1. apply C40_selection; [lia..|]. intros Q0. apply H. apply eq_IZR. rewrite plus_IZR, !minus_IZR, <- !INR_IZR_INZ. rewrite !mult_INR in Q0. cbn [INR] in Q0. lra.
Qed.
