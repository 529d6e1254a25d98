(* A linear map that commutes with the orthogonal matrices that fix the pole is a combination of the bands. *)
From Coq Require Import Reals ZArith Arith Lia Lra Bool List.
From Verif Require Import PyBase IrrepsModel IrrepsProofs ArrayModel LeadModel SumR EntryProofs CGModel CGProofs8 CGProofs10 TpshCG.
From Verif Require Import RotationModel RotationProofs RotationProofs2 RotationProofs3 WignerModel WignerProofs WignerProofs2 S2Model TpshModel ShtpModel ShtpProofs ShtpProofs2.
Import ListNotations.
Open Scope R_scope.

Definition commutes (la lb : nat) (M N T : nat -> nat -> R) : Prop :=
  forall j i, (j < 2 * lb + 1)%nat -> (i < 2 * la + 1)%nat -> rsum (2 * lb + 1) (fun k => N j k * T k i) = rsum (2 * la + 1) (fun k => T j k * M k i).
Lemma rot_row l t j (f : nat -> R) : (j < 2 * l + 1)%nat -> rsum (2 * l + 1) (fun k => rot_y l t j k * f k) = cos ((INR l - INR j) * t) * f j + sin ((INR l - INR j) * t) * f (2 * l - j)%nat.
Proof.
  intros Hj. unfold rot_y. destruct (Nat.eq_dec j l) as [->|N].
  - replace (INR l - INR l) with 0 by ring. rewrite !Rmult_0_l, sin_0. rewrite (rsum_pick _ l); [|lia|]. { rewrite Nat.eqb_refl, Rmult_0_l. ring. } intros k Hk N. nb; rewrite ?Rmult_0_l, ?sin_0; ring.
  - rewrite (rsum_ext _ _ (fun k => (if (k =? j)%nat then cos ((INR l - INR j) * t) * f k else 0) + (if (k =? 2 * l - j)%nat then sin ((INR l - INR j) * t) * f k else 0))).
    { rewrite rsum_plus. rewrite (rsum_pick _ j), (rsum_pick _ (2 * l - j)%nat); try lia; try (intros k Hk M; nb; reflexivity). rewrite !Nat.eqb_refl. reflexivity. }
    intros k Hk. nb; ring.
Qed.
Lemma rot_col l t i (f : nat -> R) : (i < 2 * l + 1)%nat -> rsum (2 * l + 1) (fun k => f k * rot_y l t k i) = cos ((INR l - INR i) * t) * f i - sin ((INR l - INR i) * t) * f (2 * l - i)%nat.
Proof.
  intros Hi. rewrite (rsum_ext _ _ (fun k => rot_y l (- t) i k * f k)).
  { rewrite rot_row by exact Hi. replace ((INR l - INR i) * - t) with (- ((INR l - INR i) * t)) by ring. rewrite cos_neg, sin_neg. ring. }
  intros k Hk. unfold rot_y. destruct (Nat.eqb_spec k i) as [->|N]; [rewrite Nat.eqb_refl|].
  - replace ((INR l - INR i) * - t) with (- ((INR l - INR i) * t)) by ring. rewrite cos_neg. ring.
  - destruct (Nat.eqb_spec i k); [lia|]. destruct (Nat.eqb_spec i (2 * l - k)), (Nat.eqb_spec k (2 * l - i)); try lia; [|ring].
    replace ((INR l - INR i) * - t) with ((INR l - INR k) * t); [ring|]. rewrite e, minus_INR, mult_INR by lia. change (INR 2) with 2. ring.
Qed.
Section Rot.
Variables (la lb : nat) (T : nat -> nat -> R).
Hypothesis H : forall t, commutes la lb (rot_y la t) (rot_y lb t) T.
Lemma rot_cos t j i : (j < 2 * lb + 1)%nat -> (i < 2 * la + 1)%nat -> cos ((INR lb - INR j) * t) * T j i = cos ((INR la - INR i) * t) * T j i.
Proof.
  intros Hj Hi. pose proof (H t j i Hj Hi) as E1. pose proof (H (- t) j i Hj Hi) as E2. rewrite (rot_row lb t j (fun k => T k i)) in E1 by exact Hj. rewrite (rot_row lb (- t) j (fun k => T k i)) in E2 by exact Hj. rewrite (rot_col la t i (fun k => T j k)) in E1 by exact Hi. rewrite (rot_col la (- t) i (fun k => T j k)) in E2 by exact Hi. rewrite !Ropp_mult_distr_r_reverse in E2. rewrite !cos_neg, !sin_neg in E2. lra.
Qed.
Lemma rot_sin t j i : (j < 2 * lb + 1)%nat -> (i < 2 * la + 1)%nat -> sin ((INR lb - INR j) * t) * T (2 * lb - j)%nat i = - (sin ((INR la - INR i) * t) * T j (2 * la - i)%nat).
Proof.
  intros Hj Hi. pose proof (H t j i Hj Hi) as E1. pose proof (H (- t) j i Hj Hi) as E2. rewrite (rot_row lb t j (fun k => T k i)) in E1 by exact Hj. rewrite (rot_row lb (- t) j (fun k => T k i)) in E2 by exact Hj. rewrite (rot_col la t i (fun k => T j k)) in E1 by exact Hi. rewrite (rot_col la (- t) i (fun k => T j k)) in E2 by exact Hi. rewrite !Ropp_mult_distr_r_reverse in E2. rewrite !cos_neg, !sin_neg in E2. lra.
Qed.
Definition order (l i : nat) : nat := if (i <=? l)%nat then (l - i)%nat else (i - l)%nat.
Lemma cos_order l i t : (i < 2 * l + 1)%nat -> cos ((INR l - INR i) * t) = cos (INR (order l i) * t).
Proof.
  intros Hi. unfold order. destruct (Nat.leb_spec i l); rewrite minus_INR by lia; [reflexivity|]. rewrite <- cos_neg. f_equal. ring.
Qed.
Lemma cos_small a b : (a < b)%nat -> cos (INR a * (PI / INR b)) <> -1.
Proof.
  intros L E. assert (B : 0 < INR b) by (apply lt_0_INR; lia). pose proof PI_RGT_0 as P. assert (A : INR a < INR b) by (now apply lt_INR). pose proof (pos_INR a) as A0.
  assert (X : 0 <= INR a * (PI / INR b) < PI). { split; [apply Rmult_le_pos; [exact A0|apply Rlt_le, Rdiv_lt_0_compat; assumption]|]. replace PI with (INR b * (PI / INR b)) at 2 by (field; lra). apply Rmult_lt_compat_r; [apply Rdiv_lt_0_compat; assumption|exact A]. }
  rewrite <- cos_PI in E. apply cos_inj in E; lra.
Qed.
Lemma cos_big b : (0 < b)%nat -> cos (INR b * (PI / INR b)) = -1.
Proof. intros L. replace (INR b * (PI / INR b)) with PI by (field; apply not_0_INR; lia). apply cos_PI. Qed.
Lemma orders_match j i : (j < 2 * lb + 1)%nat -> (i < 2 * la + 1)%nat -> order lb j <> order la i -> T j i = 0.
Proof.
  intros Hj Hi N. assert (L : (order lb j < order la i \/ order la i < order lb j)%nat) by lia. destruct L as [L|L].
  - pose proof (rot_cos (PI / INR (order la i)) j i Hj Hi) as E. rewrite !cos_order in E by assumption. rewrite cos_big in E by lia. pose proof (cos_small _ _ L) as C. destruct (Req_dec (T j i) 0) as [Z|Z]; [exact Z|]. apply Rmult_eq_reg_r in E; [contradiction|exact Z].
  - pose proof (rot_cos (PI / INR (order lb j)) j i Hj Hi) as E. rewrite !cos_order in E by assumption. rewrite cos_big in E by lia. pose proof (cos_small _ _ L) as C. destruct (Req_dec (T j i) 0) as [Z|Z]; [exact Z|]. apply Rmult_eq_reg_r in E; [symmetry in E; contradiction|exact Z].
Qed.
Lemma sin_one m : (0 < m)%nat -> sin (INR m * (PI / 2 / INR m)) = 1.
Proof. intros L. replace (INR m * (PI / 2 / INR m)) with (PI / 2) by (field; apply not_0_INR; lia). apply sin_PI2. Qed.
Lemma sym_pair m : (0 < m)%nat -> (m <= la)%nat -> (m <= lb)%nat -> T (lb - m)%nat (la - m)%nat = T (lb + m)%nat (la + m)%nat.
Proof.
  intros P A B. pose proof (rot_sin (PI / 2 / INR m) (lb + m) (la - m) ltac:(lia) ltac:(lia)) as E. replace (2 * lb - (lb + m))%nat with (lb - m)%nat in E by lia. replace (2 * la - (la - m))%nat with (la + m)%nat in E by lia.
  rewrite plus_INR, (minus_INR la m) in E by lia. replace ((INR lb - (INR lb + INR m)) * (PI / 2 / INR m)) with (- (INR m * (PI / 2 / INR m))) in E by ring. replace ((INR la - (INR la - INR m)) * (PI / 2 / INR m)) with (INR m * (PI / 2 / INR m)) in E by ring. rewrite sin_neg, sin_one in E by exact P. lra.
Qed.
Lemma anti_pair m : (0 < m)%nat -> (m <= la)%nat -> (m <= lb)%nat -> T (lb + m)%nat (la - m)%nat = - T (lb - m)%nat (la + m)%nat.
Proof.
  intros P A B. pose proof (rot_sin (PI / 2 / INR m) (lb - m) (la - m) ltac:(lia) ltac:(lia)) as E. replace (2 * lb - (lb - m))%nat with (lb + m)%nat in E by lia. replace (2 * la - (la - m))%nat with (la + m)%nat in E by lia.
  rewrite !minus_INR in E by lia. replace ((INR lb - (INR lb - INR m)) * (PI / 2 / INR m)) with (INR m * (PI / 2 / INR m)) in E by ring. replace ((INR la - (INR la - INR m)) * (PI / 2 / INR m)) with (INR m * (PI / 2 / INR m)) in E by ring. rewrite sin_one in E by exact P. lra.
Qed.
(* the coefficient of a channel *)
Definition coef (sym : bool) (c : nat) : R := if sym then T (lb + c)%nat (la + c)%nat else T (lb - S c)%nat (la + S c)%nat.
Lemma band_ends sym c j i : (j < 2 * lb + 1)%nat -> (i < 2 * la + 1)%nat -> (c < nchan sym la lb)%nat -> band sym la lb c j i <> 0 -> order lb j = order la i /\ order la i = (if sym then c else S c).
Proof.
  unfold band, nchan, order. intros Hj Hi Hc. destruct sym; nb; intros N; try (exfalso; apply N; reflexivity); repeat match goal with |- context [(?a <=? ?b)%nat] => destruct (Nat.leb_spec a b) end; lia.
Qed.
Lemma expand j i : (j < 2 * lb + 1)%nat -> (i < 2 * la + 1)%nat -> T j i = rsum (nchan true la lb) (fun c => coef true c * band true la lb c j i) + rsum (nchan false la lb) (fun c => coef false c * band false la lb c j i).
Proof.
  intros Hj Hi. destruct (Nat.eq_dec (order lb j) (order la i)) as [E|N].
  2: { rewrite (orders_match j i) by assumption.
       assert (Z : forall sym, rsum (nchan sym la lb) (fun c => coef sym c * band sym la lb c j i) = 0). { intros sym. apply rsum_zero. intros c Hc. destruct (Req_dec (band sym la lb c j i) 0) as [->|Q]; [ring|]. exfalso. apply band_ends in Q; tauto. }
       rewrite !Z. ring. }
  set (m := order la i) in *. assert (Mn : (m <= la /\ m <= lb)%nat). { unfold m, order in *. repeat match goal with |- context [(?a <=? ?b)%nat] => destruct (Nat.leb_spec a b) | H : context [(?a <=? ?b)%nat] |- _ => destruct (Nat.leb_spec a b) end; lia. }
  assert (Sy : rsum (nchan true la lb) (fun c => coef true c * band true la lb c j i) = coef true m * band true la lb m j i).
  { apply (rsum_pick _ m (fun c => coef true c * band true la lb c j i)); [unfold nchan; lia|]. intros c Hc Nc. destruct (Req_dec (band true la lb c j i) 0) as [->|Q]; [ring|]. exfalso. apply band_ends in Q; try assumption. unfold m in Nc. lia. }
  destruct (Nat.eq_dec m 0) as [Z|P].
  - rewrite Sy. rewrite rsum_zero. 2: { intros c Hc. destruct (Req_dec (band false la lb c j i) 0) as [->|Q]; [ring|]. exfalso. apply band_ends in Q; try assumption. unfold m in Z. lia. }
    rewrite Z in *. assert (j = lb /\ i = la) as [-> ->]. { unfold m, order in *. repeat match goal with H : context [(?a <=? ?b)%nat] |- _ => destruct (Nat.leb_spec a b) end; lia. }
    unfold coef, band. rewrite !Nat.add_0_r, !Nat.eqb_refl. cbn [andb orb]. ring.
  - assert (An : rsum (nchan false la lb) (fun c => coef false c * band false la lb c j i) = coef false (m - 1) * band false la lb (m - 1) j i).
    { apply (rsum_pick _ (m - 1) (fun c => coef false c * band false la lb c j i)); [unfold nchan; lia|]. intros c Hc Nc. destruct (Req_dec (band false la lb c j i) 0) as [->|Q]; [ring|]. exfalso. apply band_ends in Q; try assumption. unfold m in Nc. lia. }
    rewrite Sy, An. replace (S (m - 1)) with m by lia. unfold coef. replace (S (m - 1)) with m by lia. unfold band. replace (S (m - 1)) with m by lia.
    assert (Cs : (j = lb + m \/ j = lb - m)%nat /\ (i = la + m \/ i = la - m)%nat). { unfold m, order in *. repeat match goal with |- context [(?a <=? ?b)%nat] => destruct (Nat.leb_spec a b) | H : context [(?a <=? ?b)%nat] |- _ => destruct (Nat.leb_spec a b) end; lia. }
    destruct Mn as [Ma Mb]. clearbody m. destruct Cs as [[->| ->] [->| ->]]; nb.
    + ring.
    + rewrite anti_pair by lia. ring.
    + ring.
    + rewrite sym_pair by lia. ring.
Qed.
End Rot.
Definition flip (h : mat) : mat := mat_scale (-1) h.
Lemma flip_o3 h : rotation h -> orthogonal3 (flip h) /\ det (flip h) = -1 /\ sg (flip h) = true /\ proper (flip h) = h.
Proof.
  intros Rh. assert (D : det (flip h) = -1). { destruct Rh as (_ & _ & D). destruct h. unfold flip, det in *. cbn in *. lra. }
  assert (S1 : sg (flip h) = true). { unfold sg, Rltb. change (mat_det (flip h)) with (det (flip h)). rewrite D. destruct (Rlt_dec (-1) 0); [reflexivity|lra]. }
  split; [|split; [exact D|split; [exact S1|]]].
  - destruct Rh as (A & B & _). destruct h. unfold orthogonal3, flip, mmul, mtr, mone, mat_scale in *. cbn in *. injection A as ? ? ? ? ? ? ? ? ?. injection B as ? ? ? ? ? ? ? ? ?. split; apply mat_eq; cbn; lra.
  - unfold proper. rewrite S1. destruct h. unfold flip, mat_scale. apply mat_eq; cbn; ring.
Qed.
Lemma D_flip h ir i j : rotation h -> (i < ir_dim ir)%nat -> (j < ir_dim ir)%nat -> D_from_matrix (flip h) ir i j = pR (ir_p ir) * W h (ir_l ir) i j.
Proof. intros Rh Hi Hj. destruct (flip_o3 h Rh) as (_ & _ & S1 & P1). rewrite D_matrix_eq by assumption. unfold chi. rewrite S1, P1. ring. Qed.
Lemma D_rot h ir i j : rotation h -> (i < ir_dim ir)%nat -> (j < ir_dim ir)%nat -> D_from_matrix h ir i j = W h (ir_l ir) i j.
Proof.
  intros Rh Hi Hj. assert (S1 : sg h = false). { unfold sg, Rltb. destruct Rh as (_ & _ & D). change (mat_det h) with (det h). rewrite D. destruct (Rlt_dec 1 0); [lra|reflexivity]. }
  rewrite D_matrix_eq by assumption. unfold chi, proper. rewrite S1. replace (mat_scale 1 h) with h; [ring|]. destruct h; apply mat_eq; cbn; ring.
Qed.
Lemma W_mone l i j : (i < 2 * l + 1)%nat -> (j < 2 * l + 1)%nat -> W mone l i j = if (i =? j)%nat then 1 else 0.
Proof.
  intros Hi Hj. replace mone with (matrix_y 0) by (unfold matrix_y; rewrite cos_0, sin_0; apply mat_eq; cbn; ring). rewrite W_matrix_y by assumption. unfold rot_y. rewrite !Rmult_0_r, cos_0, sin_0. destruct (_ =? _)%nat; [reflexivity|]. now destruct (_ =? _)%nat.
Qed.
Definition keeps (p : parity) (h : mat) : Prop := orthogonal3 h /\ mapply (mat_scale (match p with Odd => 1 | Even => det h end) h) (V 0 1 0) = V 0 1 0.
Definition commutes_D (h : mat) (a b : irrep) (T : nat -> nat -> R) : Prop :=
  forall j i, (j < ir_dim b)%nat -> (i < ir_dim a)%nat -> rsum (ir_dim b) (fun k => D_from_matrix h b j k * T k i) = rsum (ir_dim a) (fun k => T j k * D_from_matrix h a k i).
Lemma keeps_y p t : keeps p (matrix_y t).
Proof.
  pose proof (rotation_y t) as Rt. split; [apply o3_rotation, Rt|]. destruct Rt as (_ & _ & D). rewrite D. unfold mapply, mat_scale, matrix_y. destruct p; apply vec_eq; cbn; ring.
Qed.
Lemma keeps_minus : keeps Even (flip mone).
Proof. destruct (flip_o3 mone rotation_one) as (O & D & _). split; [exact O|]. rewrite D. unfold mapply, flip, mat_scale, mone. apply vec_eq; cbn; ring. Qed.
Lemma keeps_mirror : keeps Odd (flip half_x).
Proof. destruct (flip_o3 half_x half_x_rotation) as (O & D & _). split; [exact O|]. unfold mapply, flip, mat_scale, half_x. apply vec_eq; cbn; ring. Qed.
(* a diagonal matrix on both sides *)
Lemma commutes_diag h a b T (e : irrep -> nat -> R) j i : (forall ir x y, (x < ir_dim ir)%nat -> (y < ir_dim ir)%nat -> D_from_matrix h ir x y = if (x =? y)%nat then e ir x else 0) ->
  commutes_D h a b T -> (j < ir_dim b)%nat -> (i < ir_dim a)%nat -> e b j * T j i = T j i * e a i.
Proof.
  intros E C Hj Hi. pose proof (C j i Hj Hi) as X. rewrite (rsum_pick _ j) in X; [|exact Hj|intros k Hk N; rewrite E by assumption; destruct (Nat.eqb_spec j k); [lia|ring]]. rewrite (rsum_pick (ir_dim a) i) in X; [|exact Hi|intros k Hk N; rewrite E by assumption; destruct (Nat.eqb_spec k i); [lia|ring]]. rewrite !E, !Nat.eqb_refl in X by assumption. exact X.
Qed.
Lemma sqm1 n : (-1) ^ n * (-1) ^ n = 1.
Proof. rewrite <- pow_add; replace (n + n)%nat with (2 * n)%nat by lia; rewrite pow_mult; replace ((-1) ^ 2) with 1 by ring; apply pow1. Qed.
(* the kinds that parity does not allow have no coefficient *)
Lemma parity_kills p a b T sym c : (forall h, keeps p h -> commutes_D h a b T) -> (c < nchan sym (ir_l a) (ir_l b))%nat -> has_part sym p a b = false -> coef (ir_l a) (ir_l b) T sym c = 0.
Proof.
  intros C Hc HP. assert (NP : pR p ^ (ir_l a + ir_l b) * (if sym then 1 else pR p) <> pR (ir_p a) * pR (ir_p b)). { intros E. assert (has_part sym p a b = true) by (apply has_part_iff; split; [exact E|lia]). congruence. }
  clear HP. unfold coef. unfold nchan in Hc. set (j := if sym then (ir_l b + c)%nat else (ir_l b - S c)%nat). set (i := if sym then (ir_l a + c)%nat else (ir_l a + S c)%nat).
  replace (if sym then T (ir_l b + c)%nat (ir_l a + c)%nat else T (ir_l b - S c)%nat (ir_l a + S c)%nat) with (T j i) by (unfold i, j; now destruct sym).
  assert (Hj : (j < ir_dim b)%nat) by (unfold j, ir_dim; destruct sym; lia). assert (Hi : (i < ir_dim a)%nat) by (unfold i, ir_dim; destruct sym; lia).
  destruct p.
  - pose proof (commutes_diag (flip mone) a b T (fun ir _ => pR (ir_p ir)) j i) as E. cbn beta in E. specialize (E ltac:(intros ir x y Hx Hy; rewrite D_flip by (try apply rotation_one; assumption); rewrite W_mone by assumption; destruct (_ =? _)%nat; ring) (C _ keeps_minus) Hj Hi).
    cbn [pR] in NP. rewrite pow1 in NP. destruct (Req_dec (T j i) 0) as [Z|Z]; [exact Z|]. exfalso. apply NP. rewrite Rmult_comm in E. apply Rmult_eq_reg_l in E; [|exact Z]. rewrite <- E, pR_sq. destruct sym; ring.
  - pose proof (commutes_diag (flip half_x) a b T (fun ir x => pR (ir_p ir) * ((-1) ^ ir_l ir * side (ir_l ir) x)) j i) as E. cbn beta in E. specialize (E ltac:(intros ir x y Hx Hy; rewrite D_flip by (try apply half_x_rotation; assumption); rewrite W_half by assumption; destruct (_ =? _)%nat; ring) (C _ keeps_mirror) Hj Hi).
    destruct (Req_dec (T j i) 0) as [Z|Z]; [exact Z|]. exfalso. apply NP. rewrite Rmult_comm in E. apply Rmult_eq_reg_l in E; [|exact Z]. cbn [pR]. cbn [pR] in NP.
    assert (Sj : side (ir_l b) j = if sym then 1 else -1) by (unfold side, j; destruct sym; destruct (Nat.leb_spec (ir_l b) (if true then ir_l b + c else 0)%nat); try lia; try reflexivity; destruct (Nat.leb_spec (ir_l b) (ir_l b - S c)); try lia; reflexivity).
    assert (Si : side (ir_l a) i = 1) by (unfold side, i; destruct sym; [destruct (Nat.leb_spec (ir_l a) (ir_l a + c))|destruct (Nat.leb_spec (ir_l a) (ir_l a + S c))]; try lia; reflexivity).
    rewrite Si, Sj in E. rewrite pow_add. transitivity (((-1) ^ ir_l a * (-1) ^ ir_l b * (if sym then 1 else -1)) * (pR (ir_p b) * pR (ir_p b))); [rewrite pR_sq; ring|].
    transitivity (((-1) ^ ir_l a * pR (ir_p b)) * (pR (ir_p b) * ((-1) ^ ir_l b * (if sym then 1 else -1)))); [ring|]. rewrite E. transitivity (((-1) ^ ir_l a * (-1) ^ ir_l a) * (pR (ir_p a) * pR (ir_p b))); [ring|rewrite sqm1; ring].
Qed.
Lemma complete p a b T : (forall h, keeps p h -> commutes_D h a b T) ->
  forall j i, (j < ir_dim b)%nat -> (i < ir_dim a)%nat -> T j i =
    (if has_part true p a b then rsum (nchan true (ir_l a) (ir_l b)) (fun c => coef (ir_l a) (ir_l b) T true c * band true (ir_l a) (ir_l b) c j i) else 0) +
    (if has_part false p a b then rsum (nchan false (ir_l a) (ir_l b)) (fun c => coef (ir_l a) (ir_l b) T false c * band false (ir_l a) (ir_l b) c j i) else 0).
Proof.
  intros C j i Hj Hi. assert (Rt : forall t, commutes (ir_l a) (ir_l b) (rot_y (ir_l a) t) (rot_y (ir_l b) t) T).
  { intros t x y Hx Hy. pose proof (C _ (keeps_y p t) x y Hx Hy) as E. rewrite (rsum_ext _ _ (fun k => rot_y (ir_l b) t x k * T k y)) in E by (intros k Hk; rewrite D_rot by (try apply rotation_y; assumption); now rewrite W_matrix_y). rewrite (rsum_ext (ir_dim a) _ (fun k => T x k * rot_y (ir_l a) t k y)) in E by (intros k Hk; rewrite D_rot by (try apply rotation_y; assumption); now rewrite W_matrix_y). exact E. }
  rewrite (expand (ir_l a) (ir_l b) T Rt j i Hj Hi). f_equal.
  - destruct (has_part true p a b) eqn:E; [reflexivity|]. apply rsum_zero. intros c Hc. rewrite (parity_kills p) by assumption. ring.
  - destruct (has_part false p a b) eqn:E; [reflexivity|]. apply rsum_zero. intros c Hc. rewrite (parity_kills p) by assumption. ring.
Qed.
