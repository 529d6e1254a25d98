(* su2_clebsch_gordan in closed form, and the coupling of the generators *)
From Coq Require Import Reals ZArith Arith Bool Lia Lra Psatz.
From Coquelicot Require Import Complex.
From Verif Require Import SumR CGModel CGProofs.
Open Scope R_scope.

Lemma Rdiv_0_l x : 0 / x = 0.
Proof. unfold Rdiv. ring. Qed.
Lemma fact2_ff z w : (z = 2 * w)%Z -> fact2 z = ff w.
Proof. intros ->. unfold fact2, ff. rewrite Z.mul_comm, Z.div_mul by lia. reflexivity. Qed.
Lemma div2_eq z w : (z = 2 * w)%Z -> (z / 2 = w)%Z.
Proof. intros ->. rewrite Z.mul_comm. apply Z.div_mul. lia. Qed.
Lemma powerRZ_sgn z : powerRZ (-1) z = sgn z.
Proof.
  assert (P : forall p, (-1) ^ (Pos.to_nat p) = sgn (Z.pos p)).
  { intro p. rewrite <- positive_nat_Z. generalize (Pos.to_nat p). induction n as [|n IH]; [reflexivity|]. rewrite <- tech_pow_Rmult, IH, Nat2Z.inj_succ. unfold Z.succ. rewrite sgn_succ. ring. }
  destruct z as [|p|p]; [reflexivity| |]; cbn [powerRZ].
  - apply P.
  - rewrite P. replace (sgn (Z.neg p)) with (sgn (Z.pos p)) by (symmetry; apply (sgn_opp (Z.pos p))). pose proof (sgn_sq (Z.pos p)). destruct (Rmult_integral (sgn (Z.pos p) - 1) (sgn (Z.pos p) + 1) ltac:(lra)) as [E|E].
    + replace (sgn (Z.pos p)) with 1 by lra. field.
    + replace (sgn (Z.pos p)) with (-1) by lra. field.
Qed.

(* a sum over an interval of the integers *)
Lemma rsum_range (f : Z -> R) vmin vmax N : (0 <= vmin)%Z -> (vmax <= N)%Z -> (0 <= N)%Z -> (forall v, (0 <= v <= N)%Z -> (v < vmin \/ vmax < v)%Z -> f v = 0) ->
  rsum (Z.to_nat (vmax + 1 - vmin)) (fun i => f (vmin + Z.of_nat i)%Z) = rsum (S (Z.to_nat N)) (fun i => f (Z.of_nat i)).
Proof.
  intros H0 H1 H2 H. destruct (Z.lt_ge_cases vmax vmin) as [E|E].
  - replace (Z.to_nat (vmax + 1 - vmin)) with 0%nat by lia. cbn [rsum]. symmetry. change (rsum (S (Z.to_nat N)) (fun i => f (Z.of_nat i)) = 0). apply rsum_zero. intros i Hi. apply H; lia.
  - replace (S (Z.to_nat N)) with (Z.to_nat vmin + (Z.to_nat (vmax + 1 - vmin) + Z.to_nat (N - vmax)))%nat by lia.
    rewrite !rsum_add. rewrite (rsum_zero (Z.to_nat vmin)), (rsum_zero (Z.to_nat (N - vmax))).
    + rewrite Rplus_0_l, Rplus_0_r. apply rsum_ext. intros i Hi. f_equal. lia.
    + intros i Hi. apply H; lia.
    + intros i Hi. apply H; lia.
Qed.

Lemma su2_cg_closed A B C a b : (0 <= A)%Z -> (0 <= B)%Z -> (0 <= C)%Z -> (0 <= a <= A + B)%Z -> (0 <= b <= A + C)%Z -> (0 <= a + b - A <= B + C)%Z ->
  su2_cg (A + B) (A + C) (B + C) (2 * a - (A + B)) (2 * b - (A + C)) / sqrt (IZR (B + C + 1)) = cgz A B C a b (a + b - A).
Proof.
  intros HA HB HC Ha Hb Hk. rewrite cgz_in by lia. unfold su2_cg. cbv zeta. set (k := (a + b - A)%Z) in *.
  rewrite (fact2_ff (B + C + (A + B) - (A + C)) B) by lia. rewrite (fact2_ff (B + C - (A + B) + (A + C)) C) by lia. rewrite (fact2_ff (A + B + (A + C) - (B + C)) A) by lia.
  rewrite (fact2_ff (B + C + (2 * a - (A + B) + (2 * b - (A + C)))) k) by lia. rewrite (fact2_ff (B + C - (2 * a - (A + B) + (2 * b - (A + C)))) (B + C - k)) by lia.
  rewrite (fact2_ff (A + B + (A + C) + (B + C) + 2) (A + B + C + 1)) by lia. rewrite (fact2_ff (A + B - (2 * a - (A + B))) (A + B - a)) by lia. rewrite (fact2_ff (A + B + (2 * a - (A + B))) a) by lia.
  rewrite (fact2_ff (A + C - (2 * b - (A + C))) (A + C - b)) by lia. rewrite (fact2_ff (A + C + (2 * b - (A + C))) b) by lia.
  rewrite (div2_eq (- (A + B) + (A + C) + (2 * a - (A + B) + (2 * b - (A + C)))) (k - B)) by lia. rewrite (div2_eq (- (A + B) + (2 * a - (A + B))) (a - A - B)) by lia.
  rewrite (div2_eq (A + C + (B + C) + (2 * a - (A + B))) (C + a)) by lia. rewrite (div2_eq (B + C - (A + B) + (A + C)) C) by lia. rewrite (div2_eq (B + C + (2 * a - (A + B) + (2 * b - (A + C)))) k) by lia.
  rewrite (div2_eq (A + C + (2 * b - (A + C))) b) by lia.
  set (vmin := Z.max (Z.max (k - B) (a - A - B)) 0). set (vmax := Z.min (Z.min (C + a) C) k).
  rewrite (rsum_ext _ _ (fun i => (fun v => sgn b * term A B C a k v) (vmin + Z.of_nat i)%Z)).
  - rewrite (rsum_range (fun v => sgn b * term A B C a k v) vmin vmax C).
    + rewrite rsum_scal. fold (racah A B C a k).
      assert (P := ff_pos). assert (0 < IZR (B + C + 1)) by (apply IZR_lt; lia).
      match goal with |- sqrt (?n * ?x) * _ / _ = _ => replace (sqrt (n * x)) with (sqrt n * (norm_factor A B C * (wt_in (A + B) a * wt_in (A + C) b) * wt_out (B + C) k)) end.
      * field. apply Rgt_not_eq. now apply sqrt_lt_R0.
      * rewrite sqrt_mult_alt by lra. f_equal. unfold norm_factor, wt_in, wt_out. rewrite !rf_nonneg by lia.
        assert (PI := fun z => Rinv_0_lt_compat _ (P z)).
        rewrite <- !sqrt_mult_alt.
        -- f_equal. field. repeat split; apply Rgt_not_eq, P.
        all: repeat first [apply sqrt_pos | apply Rlt_le, P | apply Rlt_le, PI | apply Rmult_le_pos].
    + lia.
    + lia.
    + lia.
    + intros v Hv Hv'. unfold term. assert (v < k - B \/ k < v)%Z as [Q|Q] by lia.
      * rewrite (rf_neg (v + B - k)) by lia. ring.
      * rewrite (rf_neg (k - v)) by lia. ring.
  - intros i Hi. cbv beta. set (v := (vmin + Z.of_nat i)%Z). assert (Hv : (vmin <= v <= vmax)%Z) by lia.
    rewrite powerRZ_sgn, sgn_add. rewrite (fact2_ff _ (C + a - v)) by lia. rewrite (fact2_ff _ (A + B - a + v)) by lia. rewrite (fact2_ff _ v) by lia. rewrite (fact2_ff _ (C - v)) by lia.
    rewrite (fact2_ff _ (k - v)) by lia. rewrite (fact2_ff _ (v + B - k)) by lia. unfold term. rewrite !rf_nonneg by lia. assert (P := fun z => Rgt_not_eq _ _ (ff_pos z)). field. repeat split; apply P.
Qed.

Theorem su2_closed (A B C a b k : nat) : (a <= A + B)%nat -> (b <= A + C)%nat -> (k <= B + C)%nat ->
  su2_clebsch_gordan (A + B) (A + C) (B + C) a b k = cgz (Z.of_nat A) (Z.of_nat B) (Z.of_nat C) (Z.of_nat a) (Z.of_nat b) (Z.of_nat k).
Proof.
  intros Ha Hb Hk. unfold su2_clebsch_gordan. cbv zeta.
  assert (T : triangle (A + B) (A + C) (B + C) = true).
  { unfold triangle. cbv zeta. rewrite !andb_true_iff, !Z.leb_le, Z.eqb_eq. split; [split; lia|].
    destruct (Z.abs_spec (Z.of_nat (A + B) - Z.of_nat (A + C))) as [[_ E]|[_ E]]; rewrite E.
    - replace (_ - _)%Z with (Z.of_nat C * 2)%Z by lia. apply Z.mod_mul. lia.
    - replace (_ - _)%Z with (Z.of_nat B * 2)%Z by lia. apply Z.mod_mul. lia. }
  rewrite T. cbn [andb].
  rewrite (div2_eq (Z.of_nat (B + C) + (2 * Z.of_nat a - Z.of_nat (A + B)) + (2 * Z.of_nat b - Z.of_nat (A + C))) (Z.of_nat a + Z.of_nat b - Z.of_nat A)) by lia.
  destruct (Z.leb_spec (Z.abs (2 * Z.of_nat a - Z.of_nat (A + B) + (2 * Z.of_nat b - Z.of_nat (A + C)))) (Z.of_nat (B + C))) as [Q|Q]; cbn [andb].
  - destruct (Z.eqb_spec (Z.of_nat k) (Z.of_nat a + Z.of_nat b - Z.of_nat A)) as [E|E].
    + rewrite E, !Nat2Z.inj_add. replace (INR (B + C) + 1) with (IZR (Z.of_nat B + Z.of_nat C + 1)).
      * apply su2_cg_closed; lia.
      * rewrite INR_IZR_INZ, <- plus_IZR. f_equal. lia.
    + rewrite cgz_out by lia. apply Rdiv_0_l.
  - rewrite cgz_out by lia. apply Rdiv_0_l.
Qed.
(* triangles are the triples (A + B, A + C, B + C) *)
Lemma triangle_split n1 n2 n3 : triangle n1 n2 n3 = true -> exists A B C, (n1 = A + B /\ n2 = A + C /\ n3 = B + C)%nat.
Proof.
  unfold triangle. cbv zeta. rewrite !andb_true_iff, !Z.leb_le, Z.eqb_eq. intros [[H1 H2] H3].
  apply Z.mod_divide in H3; [|lia]. destruct H3 as [q Hq].
  destruct (Z.abs_spec (Z.of_nat n1 - Z.of_nat n2)) as [[G E]|[G E]]; rewrite E in *.
  - exists (n2 - Z.to_nat q)%nat, (Z.to_nat (Z.of_nat n1 - Z.of_nat n2 + q)), (Z.to_nat q). lia.
  - exists (n1 - Z.to_nat q)%nat, (Z.to_nat q), (Z.to_nat (Z.of_nat n2 - Z.of_nat n1 + q)). lia.
Qed.
Lemma not_triangle n1 n2 n3 a b k : triangle n1 n2 n3 = false -> su2_clebsch_gordan n1 n2 n3 a b k = 0.
Proof. intro T. unfold su2_clebsch_gordan. cbv zeta. rewrite T. apply Rdiv_0_l. Qed.

(* the ladder operators in terms of [lad] *)
Lemma raising_lad n i k : (k <= n)%nat -> su2_raising n i k = if (i =? S k)%nat then - lad (Z.of_nat n) (Z.of_nat k) else 0.
Proof.
  intro H. unfold su2_raising. cbv zeta. destruct (i =? S k)%nat; [|reflexivity]. unfold lad. do 2 f_equal. rewrite mult_IZR, minus_IZR, plus_IZR, <- !INR_IZR_INZ. field.
Qed.
Lemma lowering_lad n i k : (i <= n)%nat -> su2_lowering n i k = if (k =? S i)%nat then lad (Z.of_nat n) (Z.of_nat i) else 0.
Proof.
  intro H. unfold su2_lowering. cbv zeta. destruct (k =? S i)%nat; [|reflexivity]. unfold lad. f_equal. rewrite mult_IZR, minus_IZR, plus_IZR, <- !INR_IZR_INZ. field.
Qed.

Lemma rsum_pick n a (f : nat -> R) : (forall k, (k < n)%nat -> k <> a -> f k = 0) -> rsum n f = if (a <? n)%nat then f a else 0.
Proof.
  intro H. destruct (Nat.ltb_spec a n) as [L|L].
  - rewrite (rsum_ext n f (fun k => if Nat.eqb k a then f k else 0)). now apply rsum_delta. intros k Hk. destruct (Nat.eqb_spec k a); auto.
  - apply rsum_zero. intros k Hk. apply H; lia.
Qed.

Definition couples (n1 n2 n3 : nat) (c : nat -> nat -> nat -> R) (X1 X2 X3 : rmat) : Prop := forall a b k, (a <= n1)%nat -> (b <= n2)%nat -> (k <= n3)%nat ->
  rsum (S n1) (fun i => c i b k * X1 i a) + rsum (S n2) (fun j => c a j k * X2 j b) = rsum (S n3) (fun m => X3 k m * c a b m).

Lemma raising_couples n1 n2 n3 : couples n1 n2 n3 (su2_clebsch_gordan n1 n2 n3) (su2_raising n1) (su2_raising n2) (su2_raising n3).
Proof.
  intros a b k Ha Hb Hk. destruct (triangle n1 n2 n3) eqn:T.
  2: { rewrite !(rsum_zero (S _)); [ring| | |]; intros i Hi; rewrite not_triangle by assumption; ring. }
  destruct (triangle_split _ _ _ T) as (A & B & C & -> & -> & ->).
  rewrite (rsum_pick _ (S a)); [|intros i Hi N; rewrite raising_lad by lia; rewrite (proj2 (Nat.eqb_neq i (S a))) by lia; ring].
  rewrite (rsum_pick _ (S b)); [|intros i Hi N; rewrite raising_lad by lia; rewrite (proj2 (Nat.eqb_neq i (S b))) by lia; ring].
  rewrite (rsum_pick _ (k - 1)%nat); [|intros i Hi N; rewrite raising_lad by lia; rewrite (proj2 (Nat.eqb_neq k (S i))) by lia; ring].
  rewrite !raising_lad by lia. rewrite !Nat.eqb_refl. replace (k - 1 <? S (B + C))%nat with true by (symmetry; apply Nat.ltb_lt; lia).
  pose proof (cgz_raise (Z.of_nat A) (Z.of_nat B) (Z.of_nat C) (Z.of_nat a) (Z.of_nat b) (Z.of_nat k) ltac:(lia) ltac:(lia) ltac:(lia) ltac:(lia) ltac:(lia) ltac:(lia)) as R.
  transitivity (- (lad (Z.of_nat A + Z.of_nat B) (Z.of_nat a) * cgz (Z.of_nat A) (Z.of_nat B) (Z.of_nat C) (Z.of_nat a + 1) (Z.of_nat b) (Z.of_nat k)) - lad (Z.of_nat A + Z.of_nat C) (Z.of_nat b) * cgz (Z.of_nat A) (Z.of_nat B) (Z.of_nat C) (Z.of_nat a) (Z.of_nat b + 1) (Z.of_nat k)).
  - unfold Rminus. f_equal.
    + destruct (Nat.ltb_spec (S a) (S (A + B))) as [L|L].
      * rewrite su2_closed by lia. rewrite Nat2Z.inj_succ, Nat2Z.inj_add. unfold Z.succ. ring.
      * replace (Z.of_nat A + Z.of_nat B)%Z with (Z.of_nat a) by lia. rewrite lad_n. ring.
    + destruct (Nat.ltb_spec (S b) (S (A + C))) as [L|L].
      * rewrite su2_closed by lia. rewrite Nat2Z.inj_succ, Nat2Z.inj_add. unfold Z.succ. ring.
      * replace (Z.of_nat A + Z.of_nat C)%Z with (Z.of_nat b) by lia. rewrite lad_n. ring.
  - transitivity (- (lad (Z.of_nat B + Z.of_nat C) (Z.of_nat k - 1) * cgz (Z.of_nat A) (Z.of_nat B) (Z.of_nat C) (Z.of_nat a) (Z.of_nat b) (Z.of_nat k - 1))); [lra|].
    destruct k as [|k].
    + cbn [Nat.sub Nat.eqb]. change (Z.of_nat 0 - 1)%Z with (-1)%Z. rewrite lad_m1. ring.
    + replace (S k - 1)%nat with k by lia. rewrite Nat.eqb_refl. rewrite su2_closed by lia. replace (Z.of_nat (S k) - 1)%Z with (Z.of_nat k) by lia. rewrite Nat2Z.inj_add. ring.
Qed.
Lemma lowering_couples n1 n2 n3 : couples n1 n2 n3 (su2_clebsch_gordan n1 n2 n3) (su2_lowering n1) (su2_lowering n2) (su2_lowering n3).
Proof.
  intros a b k Ha Hb Hk. destruct (triangle n1 n2 n3) eqn:T.
  2: { rewrite !(rsum_zero (S _)); [ring| | |]; intros i Hi; rewrite not_triangle by assumption; ring. }
  destruct (triangle_split _ _ _ T) as (A & B & C & -> & -> & ->).
  rewrite (rsum_pick _ (a - 1)%nat); [|intros i Hi N; rewrite lowering_lad by lia; rewrite (proj2 (Nat.eqb_neq a (S i))) by lia; ring].
  rewrite (rsum_pick _ (b - 1)%nat); [|intros i Hi N; rewrite lowering_lad by lia; rewrite (proj2 (Nat.eqb_neq b (S i))) by lia; ring].
  rewrite (rsum_pick _ (S k)); [|intros i Hi N; rewrite lowering_lad by lia; rewrite (proj2 (Nat.eqb_neq i (S k))) by lia; ring].
  rewrite !lowering_lad by lia. rewrite !Nat.eqb_refl. replace (a - 1 <? S (A + B))%nat with true by (symmetry; apply Nat.ltb_lt; lia). replace (b - 1 <? S (A + C))%nat with true by (symmetry; apply Nat.ltb_lt; lia).
  pose proof (cgz_lower (Z.of_nat A) (Z.of_nat B) (Z.of_nat C) (Z.of_nat a) (Z.of_nat b) (Z.of_nat k) ltac:(lia) ltac:(lia) ltac:(lia) ltac:(lia) ltac:(lia) ltac:(lia)) as R.
  transitivity (lad (Z.of_nat A + Z.of_nat B) (Z.of_nat a - 1) * cgz (Z.of_nat A) (Z.of_nat B) (Z.of_nat C) (Z.of_nat a - 1) (Z.of_nat b) (Z.of_nat k) + lad (Z.of_nat A + Z.of_nat C) (Z.of_nat b - 1) * cgz (Z.of_nat A) (Z.of_nat B) (Z.of_nat C) (Z.of_nat a) (Z.of_nat b - 1) (Z.of_nat k)).
  - f_equal.
    + destruct a as [|a].
      * cbn [Nat.sub Nat.eqb]. change (Z.of_nat 0 - 1)%Z with (-1)%Z. rewrite lad_m1. ring.
      * replace (S a - 1)%nat with a by lia. rewrite Nat.eqb_refl, su2_closed by lia. replace (Z.of_nat (S a) - 1)%Z with (Z.of_nat a) by lia. rewrite Nat2Z.inj_add. ring.
    + destruct b as [|b].
      * cbn [Nat.sub Nat.eqb]. change (Z.of_nat 0 - 1)%Z with (-1)%Z. rewrite lad_m1. ring.
      * replace (S b - 1)%nat with b by lia. rewrite Nat.eqb_refl, su2_closed by lia. replace (Z.of_nat (S b) - 1)%Z with (Z.of_nat b) by lia. rewrite Nat2Z.inj_add. ring.
  - rewrite R. destruct (Nat.ltb_spec (S k) (S (B + C))) as [L|L].
    + rewrite su2_closed by lia. rewrite Nat2Z.inj_succ, Nat2Z.inj_add. unfold Z.succ. ring.
    + replace (Z.of_nat B + Z.of_nat C)%Z with (Z.of_nat k) by lia. rewrite lad_n. ring.
Qed.
Lemma weight_couples n1 n2 n3 a b k : (a <= n1)%nat -> (b <= n2)%nat -> (k <= n3)%nat ->
  (- (INR n1 / 2) + INR a + (- (INR n2 / 2) + INR b)) * su2_clebsch_gordan n1 n2 n3 a b k = (- (INR n3 / 2) + INR k) * su2_clebsch_gordan n1 n2 n3 a b k.
Proof.
  intros Ha Hb Hk. destruct (triangle n1 n2 n3) eqn:T.
  2: { rewrite not_triangle by assumption. ring. }
  destruct (triangle_split _ _ _ T) as (A & B & C & -> & -> & ->). rewrite su2_closed by assumption.
  destruct (Nat.eq_dec (a + b) (k + A)) as [E|E].
  - f_equal. rewrite !plus_INR. apply (f_equal INR) in E. rewrite !plus_INR in E. lra.
  - rewrite cgz_out by lia. ring.
Qed.

(* reversal symmetry: C(-m1, -m2, -m3) = (-1)^(j1+j2-j3) C(m1, m2, m3) *)
Lemma racah_rev A B C a k : (0 <= C)%Z -> racah A B C (A + B - a) (B + C - k) = sgn C * racah A B C a k.
Proof.
  intro HC. unfold racah. rewrite <- rsum_scal, (rsum_rev _ (fun i => term A B C (A + B - a) (B + C - k) (Z.of_nat i))). apply rsum_ext. intros i Hi.
  replace (Z.of_nat (S (Z.to_nat C) - 1 - i)) with (C - Z.of_nat i)%Z by lia. set (v := Z.of_nat i). unfold term.
  replace (C + (A + B - a) - (C - v))%Z with (A + B - a + v)%Z by ring. replace (A + B - (A + B - a) + (C - v))%Z with (C + a - v)%Z by ring.
  replace (C - (C - v))%Z with v by ring. replace (B + C - k - (C - v))%Z with (v + B - k)%Z by ring. replace (C - v + B - (B + C - k))%Z with (k - v)%Z by ring.
  unfold Z.sub at 1. rewrite sgn_add, sgn_opp. ring.
Qed.
Lemma cgz_rev A B C a b k : (0 <= C)%Z -> cgz A B C (A + B - a) (A + C - b) (B + C - k) = sgn A * cgz A B C a b k.
Proof.
  intro HC. unfold cgz.
  replace (A + B - a + (A + C - b) =? B + C - k + A)%Z with (a + b =? k + A)%Z by (destruct (Z.eqb_spec (a + b) (k + A)), (Z.eqb_spec (A + B - a + (A + C - b)) (B + C - k + A)); (reflexivity || lia)).
  replace (0 <=? B + C - k)%Z with (k <=? B + C)%Z by (destruct (Z.leb_spec k (B + C)), (Z.leb_spec 0 (B + C - k)); (reflexivity || lia)).
  replace (B + C - k <=? B + C)%Z with (0 <=? k)%Z by (destruct (Z.leb_spec 0 k), (Z.leb_spec (B + C - k) (B + C)); (reflexivity || lia)).
  rewrite <- !andb_assoc, (andb_comm (k <=? B + C)%Z).
  destruct ((a + b =? k + A) && _)%Z; [|ring]. rewrite racah_rev by assumption.
  assert (W : forall n x, wt_in n (n - x) = wt_in n x). { intros n x. unfold wt_in. replace (n - (n - x))%Z with x by ring. now rewrite Rmult_comm. }
  assert (V : wt_out (B + C) (B + C - k) = wt_out (B + C) k). { unfold wt_out. replace (B + C - (B + C - k))%Z with k by ring. now rewrite Rmult_comm. }
  rewrite !W, V. unfold Z.sub. rewrite !sgn_add, sgn_opp. pose proof (sgn_sq C) as Q.
  transitivity ((sgn C * sgn C) * sgn A * (norm_factor A B C * (wt_in (A + B) a * wt_in (A + C) b) * wt_out (B + C) k * sgn b * racah A B C a k)); [ring|]. rewrite Q. ring.
Qed.
(* vanishing unless a + b = k + A: then the sign (-1)^(a+b+k) is (-1)^A *)
Lemma su2_rev n1 n2 n3 a b k : (a <= n1)%nat -> (b <= n2)%nat -> (k <= n3)%nat ->
  su2_clebsch_gordan n1 n2 n3 (n1 - a) (n2 - b) (n3 - k) = (-1) ^ (a + b + k) * su2_clebsch_gordan n1 n2 n3 a b k.
Proof.
  intros Ha Hb Hk. destruct (triangle n1 n2 n3) eqn:T.
  2: { rewrite !not_triangle by assumption. ring. }
  destruct (triangle_split _ _ _ T) as (A & B & C & -> & -> & ->). rewrite !su2_closed by lia. rewrite !Nat2Z.inj_sub, !Nat2Z.inj_add by lia.
  rewrite cgz_rev by lia. destruct (Nat.eq_dec (a + b) (k + A)) as [E|E].
  - f_equal. rewrite E. rewrite pow_powerRZ, powerRZ_sgn. replace (Z.of_nat (k + A + k)) with (Z.of_nat A + 2 * Z.of_nat k)%Z by lia. rewrite sgn_add, sgn_even. ring.
  - rewrite cgz_out by lia. ring.
Qed.

(* ---- orthonormality ---- *)
Fixpoint bin (n k : nat) : nat := match k, n with 0%nat, _ => 1%nat | S _, 0%nat => 0%nat | S k', S n' => (bin n' k' + bin n' k)%nat end.
Lemma bin_0 n : bin n 0 = 1%nat. Proof. now destruct n. Qed.
Lemma bin_big n : forall k, (n < k)%nat -> bin n k = 0%nat.
Proof. induction n as [|n IH]; intros [|k] H; try lia; [reflexivity|]. cbn [bin]. rewrite !IH by lia. reflexivity. Qed.
Lemma bin_n n : bin n n = 1%nat.
Proof. induction n as [|n IH]; [reflexivity|]. cbn [bin]. rewrite IH, bin_big by lia. reflexivity. Qed.
Lemma bin_fact n : forall k, (k <= n)%nat -> (bin n k * (fact k * fact (n - k)) = fact n)%nat.
Proof.
  induction n as [|n IH]; intros k H.
  - replace k with 0%nat by lia. reflexivity.
  - destruct k as [|k]; [rewrite bin_0; cbn [fact Nat.sub]; lia|]. cbn [bin Nat.sub]. destruct (Nat.eq_dec k n) as [->|N].
    + rewrite bin_n, bin_big, Nat.sub_diag by lia. cbn [fact]. lia.
    + pose proof (IH k ltac:(lia)) as E1. pose proof (IH (S k) ltac:(lia)) as E2. replace (n - k)%nat with (S (n - S k)) in * by lia.
      rewrite !fact_simpl in *. set (x := fact (n - S k)) in *. set (y := fact k) in *. set (z := fact n) in *.
      replace (S n * z)%nat with (S k * z + S (n - S k) * z)%nat by nia. rewrite <- E1 at 1. rewrite <- E2. ring.
Qed.
Fixpoint nsum (n : nat) (f : nat -> nat) : nat := match n with 0%nat => 0%nat | S n => (nsum n f + f n)%nat end.
Lemma nsum_ext n f g : (forall k, (k < n)%nat -> f k = g k) -> nsum n f = nsum n g.
Proof. induction n as [|n IH]; intro H; [reflexivity|]. cbn [nsum]. rewrite IH, H by auto. reflexivity. Qed.
Lemma nsum_add n f g : nsum n (fun k => f k + g k)%nat = (nsum n f + nsum n g)%nat.
Proof. induction n as [|n IH]; [reflexivity|]. cbn [nsum]. rewrite IH. lia. Qed.
Lemma chu A : forall B C, nsum (S A) (fun a => bin (C + a) C * bin (A + B - a) B)%nat = bin (A + B + C + 1) A.
Proof.
  induction A as [|A IHA].
  - intros B C. cbn [nsum]. replace (C + 0)%nat with C by lia. replace (0 + B - 0)%nat with B by lia. rewrite !bin_n, bin_0. reflexivity.
  - induction B as [|B IHB]; intro C.
    + cbn [nsum]. pose proof (IHA 0%nat C) as H. cbn [nsum] in H. rewrite (nsum_ext A _ (fun a => bin (C + a) C * bin (A + 0 - a) 0)%nat) by (intros; rewrite !bin_0; reflexivity).
      replace (bin (S A + 0 - A) 0) with (bin (A + 0 - A) 0) by (rewrite !bin_0; reflexivity). rewrite H. rewrite bin_0.
      replace (S A + 0 + C + 1)%nat with (S (A + 0 + C + 1)) by lia. cbn [bin].
      assert (P : forall p q, bin (p + q) p = bin (p + q) q).
      { intros p q. pose proof (bin_fact (p + q) p ltac:(lia)) as E1. pose proof (bin_fact (p + q) q ltac:(lia)) as E2. replace (p + q - p)%nat with q in E1 by lia. replace (p + q - q)%nat with p in E2 by lia. apply (Nat.mul_cancel_r _ _ (fact p * fact q)); [apply Nat.neq_mul_0; split; apply fact_neq_0|]. rewrite E1, (Nat.mul_comm (fact p)), E2. reflexivity. }
      rewrite (P C (S A)). replace (A + 0 + C + 1)%nat with (C + S A)%nat by lia. lia.
    + replace (S A + S B + C + 1)%nat with (S (S A + B + C + 1)) by lia. cbn [bin]. rewrite <- IHB. replace (S A + B + C + 1)%nat with (A + S B + C + 1)%nat by lia. rewrite <- IHA.
      replace (nsum (S A) (fun a => bin (C + a) C * bin (A + S B - a) (S B))%nat) with (nsum (S (S A)) (fun a => bin (C + a) C * bin (A + S B - a) (S B))%nat).
      * rewrite <- nsum_add. apply nsum_ext. intros k Hk. replace (S A + S B - k)%nat with (S (A + S B - k)) by lia. cbn [bin]. replace (S A + B - k)%nat with (A + S B - k)%nat by lia. lia.
      * cbn [nsum]. rewrite (bin_big (A + S B - S A) (S B)) by lia. lia.
Qed.
Lemma INR_nsum n f : INR (nsum n f) = rsum n (fun k => INR (f k)).
Proof. induction n as [|n IH]; [reflexivity|]. cbn [nsum rsum]. now rewrite plus_INR, IH. Qed.

Definition gram (n1 n2 : nat) (c : nat -> nat -> nat -> R) (k k' : nat) : R := rsum (S n1) (fun a => rsum (S n2) (fun b => c a b k * c a b k')).
Lemma lowering_raising n i k : (i <= n)%nat -> (k <= n)%nat -> su2_lowering n i k = - su2_raising n k i.
Proof. intros. rewrite lowering_lad, raising_lad by lia. destruct (k =? S i)%nat; ring. Qed.
Lemma lad_pos n k : (0 <= k < n)%Z -> 0 < lad n k.
Proof. intro H. apply sqrt_lt_R0, IZR_lt. nia. Qed.
Lemma gram_step n1 n2 n3 k : (k < n3)%nat -> gram n1 n2 (su2_clebsch_gordan n1 n2 n3) (S k) (S k) = gram n1 n2 (su2_clebsch_gordan n1 n2 n3) k k.
Proof.
  intro Hk. set (c := su2_clebsch_gordan n1 n2 n3). pose proof (raising_couples n1 n2 n3) as HR. pose proof (lowering_couples n1 n2 n3) as HL. fold c in HR, HL.
  assert (P := lad_pos (Z.of_nat n3) (Z.of_nat k) ltac:(lia)). apply (Rmult_eq_reg_l (lad (Z.of_nat n3) (Z.of_nat k))); [|lra].
  transitivity (rsum (S n1) (fun a => rsum (S n2) (fun b => c a b (S k) * (rsum (S n1) (fun i => c i b k * su2_lowering n1 i a) + rsum (S n2) (fun j => c a j k * su2_lowering n2 j b))))).
  - unfold gram. rewrite <- rsum_scal. apply rsum_ext. intros a Ha. rewrite <- rsum_scal. apply rsum_ext. intros b Hb. rewrite HL by lia.
    rewrite (rsum_pick _ (S k)); [|intros i Hi N; rewrite lowering_lad by lia; rewrite (proj2 (Nat.eqb_neq i (S k))) by lia; ring].
    replace (S k <? S n3)%nat with true by (symmetry; apply Nat.ltb_lt; lia). rewrite lowering_lad, Nat.eqb_refl by lia. ring.
  - transitivity (- rsum (S n1) (fun i => rsum (S n2) (fun j => c i j k * (rsum (S n1) (fun a => c a j (S k) * su2_raising n1 a i) + rsum (S n2) (fun b => c i b (S k) * su2_raising n2 b j))))).
    + transitivity (rsum (S n1) (fun a => rsum (S n2) (fun b => rsum (S n1) (fun i => - (c a b (S k) * c i b k * su2_raising n1 a i)))) + rsum (S n1) (fun a => rsum (S n2) (fun b => rsum (S n2) (fun j => - (c a b (S k) * c a j k * su2_raising n2 b j))))).
      * rewrite <- rsum_plus. apply rsum_ext. intros a Ha. rewrite <- rsum_plus. apply rsum_ext. intros b Hb. rewrite Rmult_plus_distr_l, <- !rsum_scal. f_equal; apply rsum_ext; intros i Hi; rewrite lowering_raising by lia; ring.
      * rewrite <- rsum_opp.
        transitivity (rsum (S n1) (fun i => rsum (S n2) (fun j => rsum (S n1) (fun a => - (c a j (S k) * c i j k * su2_raising n1 a i)))) + rsum (S n1) (fun i => rsum (S n2) (fun j => rsum (S n2) (fun b => - (c i b (S k) * c i j k * su2_raising n2 b j))))).
        -- f_equal.
           ++ rewrite (rsum_ext (S n1) _ (fun a => rsum (S n1) (fun i => rsum (S n2) (fun b => - (c a b (S k) * c i b k * su2_raising n1 a i))))) by (intros; apply rsum_swap).
              rewrite rsum_swap. apply rsum_ext. intros i Hi. apply rsum_swap.
           ++ apply rsum_ext. intros i Hi. apply rsum_swap.
        -- rewrite <- rsum_plus. apply rsum_ext. intros i Hi. rewrite <- rsum_opp, <- rsum_plus. apply rsum_ext. intros j Hj. rewrite Rmult_plus_distr_l, Ropp_plus_distr, <- !rsum_scal, <- !rsum_opp. f_equal; apply rsum_ext; intros; ring.
    + unfold gram. rewrite <- rsum_opp, <- rsum_scal. apply rsum_ext. intros i Hi. rewrite <- rsum_opp, <- rsum_scal. apply rsum_ext. intros j Hj. rewrite HR by lia.
      rewrite (rsum_pick _ k); [|intros m Hm N; rewrite raising_lad by lia; rewrite (proj2 (Nat.eqb_neq (S k) (S m))) by lia; ring].
      replace (k <? S n3)%nat with true by (symmetry; apply Nat.ltb_lt; lia). rewrite raising_lad, Nat.eqb_refl by lia. ring.
Qed.

Lemma ff_nat n : ff (Z.of_nat n) = INR (fact n).
Proof. unfold ff. now rewrite Nat2Z.id. Qed.
Lemma rf_nat n : rf (Z.of_nat n) = / INR (fact n).
Proof. rewrite rf_nonneg by lia. now rewrite ff_nat. Qed.
Lemma racah_0 A B C a : (0 <= C)%Z -> (a <= A)%Z -> racah A B C a 0 = ff (C + a) * ff (A + B - a) * rf C * rf B.
Proof.
  intros HC Ha. unfold racah. rewrite (rsum_pick _ 0).
  - cbn [Nat.ltb Nat.leb]. unfold term. change (Z.of_nat 0) with 0%Z. rewrite !Z.sub_0_r. replace (A + B - a + 0)%Z with (A + B - a)%Z by ring. replace (0 + B)%Z with B by ring. rewrite (rf_nonneg 0) by lia. rewrite ff_0. change (sgn 0) with 1. field.
  - intros k Hk N. unfold term. rewrite (rf_neg (0 - _)) by lia. ring.
Qed.
Lemma gram_0 (A B C : nat) : gram (A + B) (A + C) (su2_clebsch_gordan (A + B) (A + C) (B + C)) 0 0 = / INR (B + C + 1).
Proof.
  assert (P : forall n, INR (fact n) <> 0) by (intro; apply INR_fact_neq_0). assert (P' : forall n, 0 < INR (fact n)) by (intro; apply INR_fact_lt_0).
  unfold gram.
  set (g := fun a => INR (fact A) * INR (fact (B + C)) / INR (fact (A + B + C + 1)) * INR (bin (C + a) C * bin (A + B - a) B)).
  transitivity (rsum (S A) g).
  - replace (S (A + B)) with (S A + B)%nat by lia. rewrite rsum_add.
    replace (rsum B _) with 0. 2: { symmetry. apply rsum_zero. intros i Hi. apply rsum_zero. intros b Hb. rewrite su2_closed, cgz_out by lia. ring. }
    rewrite Rplus_0_r. apply rsum_ext. intros a Ha. rewrite (rsum_pick _ (A - a)).
    2: { intros b Hb N. rewrite su2_closed, cgz_out by lia. ring. }
    replace (A - a <? S (A + C))%nat with true by (symmetry; apply Nat.ltb_lt; lia).
    rewrite su2_closed by lia. rewrite cgz_in by lia. change (Z.of_nat 0) with 0%Z. rewrite racah_0 by lia.
    match goal with |- (?n * (?x * ?y) * ?w * ?s * ?r) * _ = _ => transitivity ((n * n) * ((x * x) * (y * y)) * (w * w) * (s * s) * (r * r)); [ring|] end.
    unfold norm_factor, wt_in, wt_out. rewrite sgn_sq. assert (F := fun z => Rlt_le _ _ (ff_pos z)). assert (G := rf_ge).
    rewrite !sqrt_sqrt by (repeat first [apply F|apply G|apply Rmult_le_pos]). unfold g.
    rewrite ff_0, Z.sub_0_r.
    replace (Z.of_nat A + Z.of_nat B + Z.of_nat C + 1)%Z with (Z.of_nat (A + B + C + 1)) by lia. replace (Z.of_nat A + Z.of_nat B - Z.of_nat a)%Z with (Z.of_nat (A + B - a)) by lia.
    replace (Z.of_nat A + Z.of_nat C - Z.of_nat (A - a))%Z with (Z.of_nat (C + a)) by lia. replace (Z.of_nat C + Z.of_nat a)%Z with (Z.of_nat (C + a)) by lia. replace (Z.of_nat B + Z.of_nat C)%Z with (Z.of_nat (B + C)) by lia.
    rewrite !ff_nat, !rf_nat. rewrite mult_INR.
    pose proof (bin_fact (C + a) C ltac:(lia)) as E1. replace (C + a - C)%nat with a in E1 by lia. apply (f_equal INR) in E1. rewrite !mult_INR in E1.
    pose proof (bin_fact (A + B - a) B ltac:(lia)) as E2. replace (A + B - a - B)%nat with (A - a)%nat in E2 by lia. apply (f_equal INR) in E2. rewrite !mult_INR in E2.
    assert (N2 : INR (bin (A + B - a) B) <> 0) by (intro Q; rewrite Q in E2; specialize (P (A + B - a)%nat); apply P; rewrite <- E2; ring).
    assert (N1 : INR (bin (C + a) C) <> 0) by (intro Q; rewrite Q in E1; specialize (P (C + a)%nat); apply P; rewrite <- E1; ring).
    rewrite <- E1, <- E2. field. repeat split; auto.
  - unfold g. rewrite rsum_scal, <- INR_nsum, chu. pose proof (bin_fact (A + B + C + 1) A ltac:(lia)) as E. replace (A + B + C + 1 - A)%nat with (S (B + C)) in E by lia. rewrite fact_simpl in E. replace (S (B + C)) with (B + C + 1)%nat in E by lia. apply (f_equal INR) in E. rewrite !mult_INR in E.
    assert (INR (B + C + 1) <> 0) by (apply not_0_INR; lia). rewrite <- E. field. repeat split; auto.
    intro Q. rewrite Q in E. apply (P (A + B + C + 1)%nat). rewrite <- E. ring.
Qed.
Theorem su2_gram n1 n2 n3 k k' : triangle n1 n2 n3 = true -> (k <= n3)%nat -> (k' <= n3)%nat ->
  gram n1 n2 (su2_clebsch_gordan n1 n2 n3) k k' = if (k =? k')%nat then / INR (n3 + 1) else 0.
Proof.
  intros T Hk Hk'. destruct (Nat.eqb_spec k k') as [<-|N].
  - clear Hk'. revert Hk. induction k as [|k IH]; intro Hk.
    + destruct (triangle_split _ _ _ T) as (A & B & C & -> & -> & ->). apply gram_0.
    + rewrite gram_step by lia. apply IH. lia.
  - destruct (triangle_split _ _ _ T) as (A & B & C & -> & -> & ->). unfold gram. apply rsum_zero. intros a Ha. apply rsum_zero. intros b Hb. rewrite !su2_closed by lia.
    destruct (Nat.eq_dec (a + b) (k + A)) as [E|E]; [rewrite (cgz_out _ _ _ _ _ (Z.of_nat k')) by lia|rewrite (cgz_out _ _ _ _ _ (Z.of_nat k)) by lia]; ring.
Qed.
