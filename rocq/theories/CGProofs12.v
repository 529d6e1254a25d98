(* The tables of J.py are exact: J J = 1 and J X1 J = X0, for each of the twelve tables *)
From Coq Require Import Reals ZArith QArith Qreals Arith Bool Lia Lra Psatz List.
From Verif Require Import SumR CGModel CGProofs9 CGProofs11 JTables.
Import ListNotations.
Open Scope R_scope.
Arguments generators l%nat_scope a%nat_scope i%nat_scope j%nat_scope.

(* J.py: the number written (n, d, s) *)
Definition tval (t : Z * Z * Z) : R := let '(n, d, s) := t in IZR n * sqrt (IZR s) / IZR d.
Definition tent (m : list (list (Z * Z * Z))) (i j : nat) : Z * Z * Z := nth j (nth i m []) (0, 1, 1)%Z.
(* J.py:2186  Jd[l] *)
Definition Jd_table (l : nat) : rmat := fun i j => tval (tent (nth l Jd_tables []) i j).

(* ---- the checker ---- *)
Fixpoint qsum (n : nat) (f : nat -> Q) : Q := match n with O => 0%Q | S n => Qred (qsum n f + f n)%Q end.
Lemma qsum_R n f : Q2R (qsum n f) = rsum n (fun k => Q2R (f k)).
Proof. induction n as [|n IH]; [unfold Q2R; cbn; lra|]. cbn [qsum rsum]. rewrite (Qeq_eqR _ _ (Qred_correct _)), Q2R_plus, IH. reflexivity. Qed.
Fixpoint zbinom (n k : nat) : Z := match n, k with _, O => 1 | O, S _ => 0 | S n, S k => zbinom n k + zbinom n (S k) end%Z.
Definition weights (l : nat) : list Z := map (fun p => if (p =? l)%nat then zbinom (2 * l) p else (2 * zbinom (2 * l) p)%Z) (seq 0 (2 * l + 1)).
Definition rat (t : Z * Z * Z) (wi wj : Z) : Q :=
  let '(n, d, s) := t in
  let r := Qred (inject_Z (s * wi) / inject_Z wj) in
  Qred (inject_Z (n * Z.sqrt (Qnum r)) / inject_Z (d * Z.sqrt (Zpos (Qden r)))).
Definition rat_ok (t : Z * Z * Z) (wi wj : Z) (b : Q) : bool :=
  let '(n, d, s) := t in
  ((0 <? d) && (0 <=? s) && (Z.sgn n * Z.sgn s =? Z.sgn (Qnum b)) && (n * n * s * wi * (Zpos (Qden b) * Zpos (Qden b)) =? Qnum b * Qnum b * (d * d) * wj))%Z.
(* the entries of X0 in the same notation *)
Definition x0t (l i j : nat) : Z * Z * Z :=
  let up i := if (S i <? l)%nat then (1, 2, Z.of_nat ((2 * l - i) * (i + 1)))%Z else if (S i =? l)%nat then (0, 1, 1)%Z else if (i =? l)%nat then (-1, 2, Z.of_nat (2 * ((2 * l - l) * (l + 1))))%Z else (-1, 2, Z.of_nat ((2 * l - i) * (i + 1)))%Z in
  if (j =? S i)%nat then up i else if (i =? S j)%nat then let '(n, d, s) := up j in (- n, d, s)%Z else (0, 1, 1)%Z.
Definition allb (n : nat) (f : nat -> bool) : bool := forallb f (seq 0 n).
Definition check (l : nat) (m : list (list (Z * Z * Z))) : bool :=
  let d := (2 * l + 1)%nat in
  let w := weights l in
  let b := map (fun i => map (fun j => rat (tent m i j) (nth i w 1%Z) (nth j w 1%Z)) (seq 0 d)) (seq 0 d) in
  let be i j := nth j (nth i b []) 0%Q in
  (length w =? d)%nat && allb d (fun i => (0 <? nth i w 1)%Z && (nth i w 1 =? nth (2 * l - i) w 1)%Z &&
    allb d (fun j => rat_ok (tent m i j) (nth i w 1%Z) (nth j w 1%Z) (be i j)
      && Qeq_bool (qsum d (fun k => be i k * be k j)%Q) (if (i =? j)%nat then 1 else 0)
      && (let a := rat (x0t l i j) (nth i w 1%Z) (nth j w 1%Z) in
          rat_ok (x0t l i j) (nth i w 1%Z) (nth j w 1%Z) a
          && Qeq_bool (qsum d (fun k => be i k * (inject_Z (Z.of_nat l - Z.of_nat k)) * be (2 * l - k)%nat j)%Q) a))).

Lemma allb_in n f k : allb n f = true -> (k < n)%nat -> f k = true.
Proof. unfold allb. rewrite forallb_forall. intros H L. apply H, in_seq. lia. Qed.
Lemma same_sign_sq x y : x * x = y * y -> (0 <= x /\ 0 <= y) \/ (x <= 0 /\ y <= 0) -> x = y.
Proof. intros E [[A B]|[A B]]; nra. Qed.
Lemma sgn_R z : (Z.sgn z = 1%Z -> 0 < IZR z) /\ (Z.sgn z = (-1)%Z -> IZR z < 0) /\ (Z.sgn z = 0%Z -> z = 0%Z).
Proof. destruct z as [|p|p]; cbn [Z.sgn]; repeat split; intro H; try discriminate; try reflexivity; apply IZR_lt; lia. Qed.
Lemma rat_ok_R t wi wj b : rat_ok t wi wj b = true -> (0 < wi)%Z -> (0 < wj)%Z -> sqrt (IZR wi) * tval t = Q2R b * sqrt (IZR wj).
Proof.
  destruct t as [[n d] s]. unfold rat_ok, tval. rewrite !andb_true_iff, Z.ltb_lt, Z.leb_le, !Z.eqb_eq. intros [[[D0 S0] SG] E] W1 W2.
  apply IZR_lt in W1, W2, D0. apply IZR_le in S0. assert (QD : 0 < IZR (Zpos (Qden b))) by (apply IZR_lt; lia).
  assert (P1 := sqrt_lt_R0 _ W1). assert (P2 := sqrt_lt_R0 _ W2). assert (P3 := sqrt_pos (IZR s)).
  assert (R1 := sqrt_sqrt (IZR wi) ltac:(lra)). assert (R2 := sqrt_sqrt (IZR wj) ltac:(lra)). assert (R3 := sqrt_sqrt (IZR s) S0).
  apply (f_equal IZR) in E. rewrite !mult_IZR in E. unfold Q2R.
  set (q := IZR (Zpos (Qden b))) in *. set (a := IZR (Qnum b)) in *. set (x := sqrt (IZR wi)) in *. set (y := sqrt (IZR wj)) in *. set (z := sqrt (IZR s)) in *.
  apply Rmult_eq_reg_r with (IZR d * q); [|apply Rgt_not_eq, Rmult_lt_0_compat; assumption].
  transitivity (x * IZR n * z * q); [field; lra|]. transitivity (a * y * IZR d); [|field; lra].
  apply same_sign_sq.
  - rewrite <- R1, <- R2, <- R3 in E. transitivity (IZR n * IZR n * (z * z) * (x * x) * (q * q)); [ring|]. rewrite E. ring.
  - destruct (sgn_R n) as (A1 & A2 & A3), (sgn_R s) as (B1 & B2 & B3), (sgn_R (Qnum b)) as (C1 & C2 & C3). fold a in C1, C2.
    assert (XQ : 0 < x * q) by (apply Rmult_lt_0_compat; assumption). assert (YD : 0 < y * IZR d) by (apply Rmult_lt_0_compat; assumption).
    assert (ZS : (0 < s)%Z -> 0 < z) by (intro; apply sqrt_lt_R0, IZR_lt; assumption).
    destruct (Z.sgn_spec n) as [[? N]|[[? N]|[? N]]]; rewrite N in *; destruct (Z.sgn_spec s) as [[? M]|[[? M]|[? M]]]; rewrite M in *; try (apply lt_IZR in S0 || apply le_IZR in S0; lia); cbn [Z.mul] in SG; symmetry in SG.
    + left. specialize (A1 eq_refl). specialize (C1 SG). specialize (ZS ltac:(lia)). split; [|nra]. replace (x * IZR n * z * q) with (x * q * (IZR n * z)) by ring. apply Rmult_le_pos; [lra|]. nra.
    + subst s. left. specialize (C3 SG). unfold a. rewrite C3. unfold z. rewrite sqrt_0. split; lra.
    + subst n. left. specialize (C3 SG). unfold a. rewrite C3. split; lra.
    + subst n. left. specialize (C3 SG). unfold a. rewrite C3. split; lra.
    + right. specialize (A2 eq_refl). specialize (C2 SG). specialize (ZS ltac:(lia)). split; [|nra]. replace (x * IZR n * z * q) with (- (x * q * ((- IZR n) * z))) by ring. assert (0 <= x * q * (- IZR n * z)) by (apply Rmult_le_pos; [lra|nra]). lra.
    + subst s. left. specialize (C3 SG). unfold a. rewrite C3. unfold z. rewrite sqrt_0. split; lra.
Qed.
Lemma half_up x : 0 <= x -> 1 / 2 * sqrt x = 1 * sqrt x / 2.
Proof. intros. field. Qed.
Lemma x0t_R l i j : (i < 2 * l + 1)%nat -> (j < 2 * l + 1)%nat -> generators l 0 i j = tval (x0t l i j).
Proof.
  intros Hi Hj. rewrite generators_x by assumption. unfold x0t. cbv zeta.
  assert (U : forall i, (i < 2 * l)%nat -> x0_up l i = tval (if (S i <? l)%nat then (1, 2, Z.of_nat ((2 * l - i) * (i + 1)))%Z else if (S i =? l)%nat then (0, 1, 1)%Z else if (i =? l)%nat then (-1, 2, Z.of_nat (2 * ((2 * l - l) * (l + 1))))%Z else (-1, 2, Z.of_nat ((2 * l - i) * (i + 1)))%Z)).
  { clear. intros i Hi. unfold x0_up, ladn. destruct (S i <? l)%nat; [|destruct (S i =? l)%nat; [|destruct (Nat.eqb_spec i l)]]; cbn [tval].
    - rewrite <- INR_IZR_INZ, mult_INR. field.
    - unfold Rdiv. ring.
    - rewrite <- INR_IZR_INZ, (mult_INR 2), mult_INR. change (INR 2) with 2. set (z := INR (2 * l - l) * INR (l + 1)). assert (0 <= z) by (apply Rmult_le_pos; apply pos_INR). rewrite sqrt_mult by lra.
      assert (sqrt 2 * sqrt 2 = 2) by (apply sqrt_sqrt; lra). assert (sqrt 2 <> 0) by (apply Rgt_not_eq, sqrt_lt_R0; lra). replace (1 / sqrt 2) with (sqrt 2 / 2); [unfold Rdiv; ring|]. apply Rmult_eq_reg_r with (sqrt 2); auto. transitivity ((sqrt 2 * sqrt 2) / 2); [field|]. rewrite H0. field. auto.
    - rewrite <- INR_IZR_INZ, mult_INR. field. }
  destruct (Nat.eqb_spec j (S i)) as [->|N]; [apply U; lia|]. destruct (Nat.eqb_spec i (S j)) as [->|N2]; [rewrite U by lia; match goal with |- - tval ?t = _ => destruct t as [[n d] s] end; unfold tval; rewrite opp_IZR; unfold Rdiv; ring|].
  unfold tval, Rdiv. ring.
Qed.
Theorem check_sound l m : check l m = true -> forall i j, (i < 2 * l + 1)%nat -> (j < 2 * l + 1)%nat ->
  let J := fun i j => tval (tent m i j) in
  mmul (2 * l + 1) J J i j = mone i j /\ mmul (2 * l + 1) (mmul (2 * l + 1) J (generators l 1)) J i j = generators l 0 i j.
Proof.
  unfold check. cbv zeta. set (d := (2 * l + 1)%nat). set (w := weights l). set (b := map _ (seq 0 d)). rewrite andb_true_iff. intros [_ A] i j Hi Hj.
  set (J := fun i j => tval (tent m i j)). set (be := fun i j => nth j (nth i b []) 0%Q).
  assert (WP : forall p, (p < d)%nat -> (0 < nth p w 1)%Z) by (intros p Hp; generalize (allb_in _ _ p A Hp); rewrite !andb_true_iff, Z.ltb_lt; tauto).
  assert (WS : forall p, (p < d)%nat -> nth p w 1%Z = nth (2 * l - p) w 1%Z) by (intros p Hp; generalize (allb_in _ _ p A Hp); rewrite !andb_true_iff, Z.eqb_eq; tauto).
  assert (JB : forall p q, (p < d)%nat -> (q < d)%nat -> sqrt (IZR (nth p w 1%Z)) * J p q = Q2R (be p q) * sqrt (IZR (nth q w 1%Z))).
  { intros p q Hp Hq. generalize (allb_in _ _ p A Hp). rewrite andb_true_iff. intros [_ B]. generalize (allb_in _ _ q B Hq). rewrite !andb_true_iff. intros [[H _] _]. apply (rat_ok_R _ _ _ _ H); auto. }
  generalize (allb_in _ _ i A Hi). rewrite andb_true_iff. intros [_ B]. generalize (allb_in _ _ j B Hj). rewrite !andb_true_iff. intros [[_ E1] [X E2]]. clear A B.
  apply Qeq_bool_iff, Qeq_eqR in E1, E2. rewrite qsum_R in E1, E2.
  assert (X0 : sqrt (IZR (nth i w 1%Z)) * generators l 0 i j = Q2R (rat (x0t l i j) (nth i w 1%Z) (nth j w 1%Z)) * sqrt (IZR (nth j w 1%Z))) by (rewrite x0t_R by assumption; apply (rat_ok_R _ _ _ _ X); auto).
  assert (PI : 0 < sqrt (IZR (nth i w 1%Z))) by (apply sqrt_lt_R0, IZR_lt; auto).
  split; apply Rmult_eq_reg_l with (sqrt (IZR (nth i w 1%Z))); try lra.
  - unfold mmul. rewrite <- rsum_scal. rewrite (rsum_ext d _ (fun k => Q2R (be i k * be k j) * sqrt (IZR (nth j w 1%Z)))).
    2: { intros k Hk. rewrite Q2R_mult. rewrite <- Rmult_assoc, JB by assumption. rewrite !Rmult_assoc. f_equal. apply JB; assumption. }
    rewrite rsum_scal_r. fold (be) in E1. match type of E1 with ?a = _ => match goal with |- ?a' * _ = _ => replace a' with a by reflexivity end end. rewrite E1. unfold mone. destruct (Nat.eqb_spec i j) as [->|]; [rewrite RMicromega.Q2R_1|rewrite RMicromega.Q2R_0]; ring.
  - unfold mmul. rewrite <- rsum_scal.
    assert (S1 : forall k, (k < d)%nat -> rsum d (fun k0 => J i k0 * generators l 1 k0 k) = J i (2 * l - k)%nat * (INR l - INR (2 * l - k))).
    { intros k Hk. rewrite (rsum_ext d _ (fun k0 => (if (k0 =? 2 * l - k)%nat then 1 else 0) * (J i k0 * (INR l - INR k0)))).
      - rewrite (rsum_delta_l d (2 * l - k) (fun k0 => J i k0 * (INR l - INR k0))) by (unfold d in *; lia). reflexivity.
      - intros p Hp. rewrite generators_y by assumption. unfold d in *. destruct (Nat.eqb_spec k (2 * l - p)), (Nat.eqb_spec p (2 * l - k)); try lia; ring. }
    rewrite (rsum_ext d _ (fun k => Q2R (be i (2 * l - k)%nat * inject_Z (Z.of_nat l - Z.of_nat (2 * l - k)) * be k j) * sqrt (IZR (nth j w 1%Z)))).
    2: { intros k Hk. rewrite S1 by assumption. rewrite !Q2R_mult. transitivity (sqrt (IZR (nth i w 1%Z)) * J i (2 * l - k)%nat * (INR l - INR (2 * l - k)) * J k j); [ring|]. rewrite JB by (unfold d in *; lia).
         rewrite <- WS by assumption. transitivity (Q2R (be i (2 * l - k)%nat) * (INR l - INR (2 * l - k)) * (sqrt (IZR (nth k w 1%Z)) * J k j)); [ring|]. rewrite JB by assumption.
         replace (Q2R (inject_Z (Z.of_nat l - Z.of_nat (2 * l - k)))) with (INR l - INR (2 * l - k)); [ring|]. unfold Q2R, inject_Z. cbn [Qnum Qden]. rewrite minus_IZR, <- !INR_IZR_INZ. field. }
    rewrite rsum_scal_r. rewrite X0, <- E2. f_equal. rewrite rsum_rev. apply rsum_ext. intros k Hk. unfold d in *. replace (2 * l + 1 - 1 - k)%nat with (2 * l - k)%nat by lia. replace (2 * l - (2 * l - k))%nat with k by lia. reflexivity.
Qed.
Definition all_tables_ok : bool := (length Jd_tables =? 12)%nat && allb 12 (fun l => check l (nth l Jd_tables [])).
Lemma all_tables : all_tables_ok = true. Proof. vm_compute. reflexivity. Qed.
Theorem Jd_exact l i j : (l < 12)%nat -> (i < 2 * l + 1)%nat -> (j < 2 * l + 1)%nat ->
  mmul (2 * l + 1) (Jd_table l) (Jd_table l) i j = mone i j /\ mmul (2 * l + 1) (mmul (2 * l + 1) (Jd_table l) (generators l 1)) (Jd_table l) i j = generators l 0 i j.
Proof.
  intros Hl Hi Hj. generalize all_tables. unfold all_tables_ok. rewrite andb_true_iff. intros [_ A]. exact (check_sound l _ (allb_in _ _ l A Hl) i j Hi Hj).
Qed.
