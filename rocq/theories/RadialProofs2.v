(* Polynomials: derivatives, multiplicities, and the polynomial envelope *)
From Coq Require Import Reals ZArith Arith Bool Lia Lra Psatz List.
From Coquelicot Require Import Coquelicot.
From Verif Require Import PyBase SumR RotationModel ActivationModel RadialModel RadialProofs.
Import ListNotations.
Open Scope R_scope.

Lemma poly_smooth n : forall c x, ex_derive_n (poly_at c) n x /\ Derive_n (poly_at c) n x = poly_at (Nat.iter n poly_der c) x.
Proof.
  induction n as [|n IH]; intros c x; [split; reflexivity|]. assert (E : forall y, Derive_n (poly_at c) n y = poly_at (Nat.iter n poly_der c) y) by (intros y; apply IH). split.
  - cbn [ex_derive_n]. apply (ex_derive_ext (poly_at (Nat.iter n poly_der c))); [intros t; symmetry; apply E|]. eexists. apply poly_derive.
  - cbn [Derive_n Nat.iter]. rewrite (Derive_ext _ _ x E). apply is_derive_unique, poly_derive.
Qed.
(* ---------- the rows of the linear system are the derivatives ---------- *)
Definition dot2 (a b : list R) : R := fold_right Rplus 0 (map (fun '(p, q) => p * q) (combine a b)).
Definition row_from (m : nat) (x : R) (d k : nat) : list R := map (fun N => if (N <? d)%nat then 0 else INR (fact N / fact (N - d)) * x ^ (N - d)) (seq m k).
Lemma fact_div n d : (d <= n)%nat -> exists q, fact n = (q * fact (n - d))%nat.
Proof.
  induction d as [|d IH]; intros H; [exists 1%nat; rewrite Nat.sub_0_r; lia|]. destruct IH as (q & E); [lia|]. exists (q * (n - d))%nat. rewrite E. replace (n - d)%nat with (S (n - S d)) by lia. cbn [fact]. lia.
Qed.
Lemma falling_S n d : (d < n)%nat -> (fact n / fact (n - S d) = fact n / fact (n - d) * (n - d))%nat.
Proof.
  intros H. destruct (fact_div n d) as (q & E); [lia|]. rewrite E. rewrite Nat.div_mul by apply fact_neq_0. replace (n - d)%nat with (S (n - S d)) by lia. cbn [fact]. rewrite Nat.mul_assoc. rewrite Nat.div_mul by apply fact_neq_0. reflexivity.
Qed.
Lemma row_derive c : forall m d x, is_derive (fun t => dot2 (row_from m t d (length c)) c) x (dot2 (row_from m x (S d) (length c)) c).
Proof.
  induction c as [|a c IH]; intros m d x; [exact (der_const 0 x)|]. cbn [length row_from seq map]. unfold dot2. cbn [combine map fold_right]. change (map (fun N => if (N <? S d)%nat then 0 else INR (fact N / fact (N - S d)) * x ^ (N - S d)) (seq (S m) (length c))) with (row_from (S m) x (S d) (length c)).
  fold (dot2 (row_from (S m) x (S d) (length c)) c). apply (der_ext (fun t => (if (m <? d)%nat then 0 else INR (fact m / fact (m - d)) * t ^ (m - d)) * a + dot2 (row_from (S m) t d (length c)) c)); [reflexivity|]. apply der_plus; [|apply IH].
  destruct (Nat.ltb_spec m d) as [L|L].
  - replace (m <? S d)%nat with true by (symmetry; apply Nat.ltb_lt; lia). rewrite Rmult_0_l. apply der_const.
  - destruct (Nat.ltb_spec m (S d)) as [L'|L'].
    + replace (m - d)%nat with 0%nat by lia. rewrite Rmult_0_l. apply (der_ext (fun _ => INR (fact m / fact 0) * 1 * a)); [reflexivity|]. apply der_const.
    + rewrite falling_S by lia. rewrite mult_INR. replace (m - d)%nat with (S (m - S d)) by lia. apply (der_ext (fun t => INR (fact m / fact (S (m - S d))) * a * t ^ S (m - S d))); [intros t; ring|].
      replace (INR (fact m / fact (S (m - S d))) * INR (S (m - S d)) * x ^ (m - S d) * a) with (INR (fact m / fact (S (m - S d))) * a * (INR (S (m - S d)) * x ^ (m - S d))) by ring. apply der_monomial.
Qed.
Lemma row_zero c : forall m x, dot2 (row_from m x 0 (length c)) c = x ^ m * poly_at c x.
Proof.
  induction c as [|a c IH]; intros m x; [cbn; ring|]. cbn [length row_from seq map]. unfold dot2. cbn [combine map fold_right]. change (map (fun N => if (N <? 0)%nat then 0 else INR (fact N / fact (N - 0)) * x ^ (N - 0)) (seq (S m) (length c))) with (row_from (S m) x 0 (length c)).
  fold (dot2 (row_from (S m) x 0 (length c)) c). rewrite IH. cbn [Nat.ltb Nat.leb poly_at]. rewrite Nat.sub_0_r, Nat.div_same by apply fact_neq_0. cbn [INR pow]. ring.
Qed.
Lemma constraint_derivative c d : forall x, dot2 (constraint x d (length c)) c = Derive_n (poly_at c) d x.
Proof.
  induction d as [|d IH]; intros x; [change (constraint x 0 (length c)) with (row_from 0 x 0 (length c)); rewrite row_zero; cbn; ring|]. cbn [Derive_n]. rewrite (Derive_ext _ (fun t => dot2 (row_from 0 t d (length c)) c)) by (intros t; symmetry; apply IH). symmetry. apply is_derive_unique. apply row_derive.
Qed.

(* ---------- multiplicities ---------- *)
Definition vanishes (f : R -> R) (a : R) (m : nat) : Prop := forall k, (k < m)%nat -> Derive_n f k a = 0.
Lemma lin_derive (q : list R) a k x : Derive_n (fun t => (t - a) * poly_at q t) (S k) x = (x - a) * Derive_n (poly_at q) (S k) x + INR (S k) * Derive_n (poly_at q) k x.
Proof.
  assert (D : forall j y, is_derive (Derive_n (poly_at q) j) y (Derive_n (poly_at q) (S j) y)).
  { intros j y. apply (der_ext (poly_at (Nat.iter j poly_der q))); [intros t; symmetry; apply poly_smooth|]. rewrite (proj2 (poly_smooth (S j) q y)). apply poly_derive. }
  assert (L : forall j y, is_derive (fun t => (t - a) * Derive_n (poly_at q) j t) y (1 * Derive_n (poly_at q) j y + (y - a) * Derive_n (poly_at q) (S j) y)).
  { intros j y. apply (der_mult (fun t => t - a)); [|apply D]. apply is_derive_Reals. apply (derivable_pt_lim_ext (fun t => id t - fct_cte a t)); [reflexivity|]. replace 1 with (1 - 0) by ring. apply derivable_pt_lim_minus; [apply derivable_pt_lim_id|apply derivable_pt_lim_const]. }
  revert x. induction k as [|k IH]; intros x.
  - transitivity (1 * Derive_n (poly_at q) 0 x + (x - a) * Derive_n (poly_at q) 1 x); [exact (is_derive_unique _ _ _ (L 0%nat x))|]. cbn [Derive_n INR]. ring.
  - change (Derive_n (fun t => (t - a) * poly_at q t) (S (S k)) x) with (Derive (Derive_n (fun t => (t - a) * poly_at q t) (S k)) x). rewrite (Derive_ext _ _ x IH). apply is_derive_unique.
    replace ((x - a) * Derive_n (poly_at q) (S (S k)) x + INR (S (S k)) * Derive_n (poly_at q) (S k) x) with ((1 * Derive_n (poly_at q) (S k) x + (x - a) * Derive_n (poly_at q) (S (S k)) x) + INR (S k) * Derive_n (poly_at q) (S k) x) by (rewrite (S_INR (S k)); ring).
    apply (der_ext (fun t => (t - a) * Derive_n (poly_at q) (S k) t + INR (S k) * Derive_n (poly_at q) k t)); [reflexivity|]. apply der_plus; [apply L|].
    replace (INR (S k) * Derive_n (poly_at q) (S k) x) with (0 * Derive_n (poly_at q) k x + INR (S k) * Derive_n (poly_at q) (S k) x) by ring. apply (der_mult (fun _ => INR (S k))); [apply der_const|apply D].
Qed.
Lemma factor_out c a : poly_at c a = 0 -> (0 < length c)%nat -> exists q, length q = (length c - 1)%nat /\ forall t, poly_at c t = (t - a) * poly_at q t.
Proof.
  assert (G : forall c, (0 < length c)%nat -> exists q, length q = (length c - 1)%nat /\ forall t, poly_at c t = poly_at c a + (t - a) * poly_at q t).
  { clear. induction c as [|p c IH]; intros L; [cbn in L; lia|]. destruct c as [|p' c]; [exists []; split; [reflexivity|]; intros t; cbn; ring|]. destruct IH as (q & Lq & E); [cbn; lia|].
    exists (poly_at (p' :: c) a :: q). split; [cbn [length] in *; lia|]. intros t. change (poly_at (p :: p' :: c) t) with (p + t * poly_at (p' :: c) t). change (poly_at (p :: p' :: c) a) with (p + a * poly_at (p' :: c) a). change (poly_at (poly_at (p' :: c) a :: q) t) with (poly_at (p' :: c) a + t * poly_at q t). rewrite (E t). ring. }
  intros Z L. destruct (G c L) as (q & Lq & E). exists q. split; [exact Lq|]. intros t. rewrite E, Z. ring.
Qed.
Lemma lin_vanishes q a b m : b <> a -> vanishes (fun t => (t - a) * poly_at q t) b m -> vanishes (poly_at q) b m.
Proof.
  intros N V k. induction k as [k IH] using lt_wf_ind. intros Hk. destruct k as [|k].
  - specialize (V 0%nat Hk). cbn [Derive_n] in *. apply Rmult_integral in V. destruct V as [V|V]; [exfalso; apply N; lra|exact V].
  - specialize (V (S k) Hk). rewrite lin_derive in V. rewrite (IH k) in V by lia. rewrite Rmult_0_r, Rplus_0_r in V. apply Rmult_integral in V. destruct V as [V|V]; [exfalso; apply N; lra|exact V].
Qed.
Lemma lin_vanishes_at q a m : vanishes (fun t => (t - a) * poly_at q t) a (S m) -> vanishes (poly_at q) a m.
Proof.
  intros V k Hk. specialize (V (S k) ltac:(lia)). rewrite lin_derive in V. replace (a - a) with 0 in V by ring. rewrite Rmult_0_l, Rplus_0_l in V. apply Rmult_integral in V. destruct V as [V|V]; [|exact V]. exfalso. apply (not_0_INR (S k)); [lia|exact V].
Qed.
Lemma vanishes_ext f g a m : (forall t, f t = g t) -> vanishes f a m -> vanishes g a m.
Proof. intros E V k Hk. rewrite <- (V k Hk). apply Derive_n_ext. intros t. symmetry. apply E. Qed.
(* a polynomial that vanishes to order m at a: (t-a)^m divides it *)
Lemma divide_out m : forall c a, (m <= length c)%nat -> vanishes (poly_at c) a m -> exists q, length q = (length c - m)%nat /\ forall t, poly_at c t = (t - a) ^ m * poly_at q t.
Proof.
  induction m as [|m IH]; intros c a L V; [exists c; split; [lia|]; intros; cbn; ring|]. destruct (factor_out c a) as (q & Lq & E); [exact (V 0%nat ltac:(lia))|lia|].
  destruct (IH q a) as (r & Lr & Er); [lia|apply lin_vanishes_at; apply (vanishes_ext (poly_at c)); [exact E|exact V]|]. exists r. split; [lia|]. intros t. rewrite E, Er. cbn [pow]. ring.
Qed.
Lemma divide_keeps m : forall c q a b n, b <> a -> (forall t, poly_at c t = (t - a) ^ m * poly_at q t) -> vanishes (poly_at c) b n -> vanishes (poly_at q) b n.
Proof.
  induction m as [|m IH]; intros c q a b n N E V; [apply (vanishes_ext (poly_at c)); [intros t; rewrite E; cbn; ring|exact V]|].
  assert (Q : exists r, forall t, poly_at r t = (t - a) ^ m * poly_at q t).
  { clear. induction m as [|m (r & Hr)]; [exists q; intros; cbn; ring|]. exists (poly_sub (0 :: r) (map (Rmult a) r)). intros t. rewrite poly_sub_at. assert (M : forall l, poly_at (map (Rmult a) l) t = a * poly_at l t) by (induction l as [|x l IHl]; cbn [map poly_at]; [ring|rewrite IHl; ring]). rewrite M. cbn [poly_at pow]. rewrite Hr. ring. }
  destruct Q as (r & Hr). apply (IH r q a b n N Hr). apply (lin_vanishes r a b n N). apply (vanishes_ext (poly_at c)); [intros t; rewrite E, Hr; cbn [pow]; ring|exact V].
Qed.
Lemma hermite_form c a b m n : a <> b -> length c = (m + n + 1)%nat -> vanishes (poly_at c) a m -> vanishes (poly_at c) b n -> exists K, forall t, poly_at c t = K * ((t - a) ^ m * (t - b) ^ n).
Proof.
  intros N L Va Vb. destruct (divide_out m c a) as (q & Lq & E); [lia|exact Va|]. assert (Vq : vanishes (poly_at q) b n) by (apply (divide_keeps m c q a b n); [congruence|exact E|exact Vb]).
  destruct (divide_out n q b) as (r & Lr & Er); [lia|exact Vq|]. destruct r as [|K [|]]; cbn in Lr; try lia. exists K. intros t. rewrite E, Er. cbn [poly_at]. ring.
Qed.
Lemma der_shift c k x : Derive_n (poly_at (poly_der c)) k x = Derive_n (poly_at c) (S k) x.
Proof. rewrite (proj2 (poly_smooth k _ x)), (proj2 (poly_smooth (S k) _ x)). f_equal. clear. induction k as [|k IH]; [reflexivity|]. change (poly_der (Nat.iter k poly_der (poly_der c)) = poly_der (Nat.iter (S k) poly_der c)). rewrite IH. reflexivity. Qed.
Lemma poly_der_length c : length (poly_der c) = (length c - 1)%nat.
Proof. destruct c as [|a c]; [reflexivity|]. cbn [poly_der length]. rewrite Nat.sub_succ, Nat.sub_0_r. generalize 1%nat. induction c as [|b c IH]; intros n; [reflexivity|]. cbn [poly_der_aux length]. rewrite IH. reflexivity. Qed.
(* what solving the system means *)
Lemma solves_spec n0 n1 c : solves (envelope_constraints n0 n1) c <->
  length c = (n0 + n1 + 2)%nat /\ poly_at c (- (1 / 2)) = 1 /\ poly_at c (1 / 2) = 0 /\
  (forall k, (1 <= k <= n0)%nat -> Derive_n (poly_at c) k (- (1 / 2)) = 0) /\ (forall k, (1 <= k <= n1)%nat -> Derive_n (poly_at c) k (1 / 2) = 0).
Proof.
  unfold solves. assert (L : length (envelope_constraints n0 n1) = (n0 + n1 + 2)%nat) by (unfold envelope_constraints; rewrite !app_length, !map_length, !seq_length; cbn; lia). rewrite L.
  assert (D : length c = (n0 + n1 + 2)%nat -> forall x d, fold_right Rplus 0 (map (fun '(a, b) => a * b) (combine (constraint x d (n0 + n1 + 2)) c)) = Derive_n (poly_at c) d x).
  { intros Lc x d. rewrite <- Lc. apply constraint_derivative. }
  split.
  - intros (Lc & F). specialize (D Lc). split; [exact Lc|]. assert (G : forall x d y, In (x, d, y) (envelope_constraints n0 n1) -> Derive_n (poly_at c) d x = y).
    { intros x d y Hi. rewrite Forall_forall in F. specialize (F _ Hi). cbn in F. rewrite <- D. exact F. }
    unfold envelope_constraints in G. repeat split.
    + apply (G _ 0%nat). left. reflexivity.
    + apply (G _ 0%nat). right. left. reflexivity.
    + intros k Hk. apply G. apply in_or_app. right. apply in_or_app. left. apply in_map_iff. exists k. split; [reflexivity|]. apply in_seq. lia.
    + intros k Hk. apply G. apply in_or_app. right. apply in_or_app. right. apply in_map_iff. exists k. split; [reflexivity|]. apply in_seq. lia.
  - intros (Lc & A & B & C0 & C1). specialize (D Lc). split; [exact Lc|]. apply Forall_forall. intros ((x & d) & y) Hi. rewrite D. unfold envelope_constraints in Hi. destruct Hi as [Hi|[Hi|Hi]].
    + injection Hi as <- <- <-. exact A.
    + injection Hi as <- <- <-. exact B.
    + apply in_app_or in Hi. destruct Hi as [[]|Hi]. apply in_app_or in Hi. destruct Hi as [Hi|Hi]; apply in_map_iff in Hi; destruct Hi as (k & Hk & Hs); apply in_seq in Hs; injection Hk as <- <- <-; [apply C0|apply C1]; lia.
Qed.
(* the derivative of a solution *)
Lemma solution_derivative n0 n1 c : solves (envelope_constraints n0 n1) c -> exists K, forall t, is_derive (poly_at c) t (K * ((t + 1 / 2) ^ n0 * (t - 1 / 2) ^ n1)).
Proof.
  intros H. apply solves_spec in H. destruct H as (L & A & B & C0 & C1). destruct (hermite_form (poly_der c) (- (1 / 2)) (1 / 2) n0 n1) as (K & E).
  - lra.
  - rewrite poly_der_length. lia.
  - intros k Hk. rewrite der_shift. apply C0. lia.
  - intros k Hk. rewrite der_shift. apply C1. lia.
  - exists K. intros t. replace (K * ((t + 1 / 2) ^ n0 * (t - 1 / 2) ^ n1)) with (poly_at (poly_der c) t); [apply poly_derive|]. rewrite E. replace (t - - (1 / 2)) with (t + 1 / 2) by ring. reflexivity.
Qed.
(* the same with the sign made explicit: a positive constant times (t+1/2)^n0 (1/2-t)^n1 *)
Lemma solution_decreases n0 n1 c : solves (envelope_constraints n0 n1) c -> exists K, 0 < K /\ forall t, is_derive (poly_at c) t (- (K * ((t + 1 / 2) ^ n0 * (1 / 2 - t) ^ n1))).
Proof.
  intros H. destruct (solution_derivative n0 n1 c H) as (K & E). apply solves_spec in H. destruct H as (L & A & B & _). exists (- (K * (-1) ^ n1)).
  assert (F : forall t, K * ((t + 1 / 2) ^ n0 * (t - 1 / 2) ^ n1) = - (- (K * (-1) ^ n1) * ((t + 1 / 2) ^ n0 * (1 / 2 - t) ^ n1))). { intros t. replace (t - 1 / 2) with (-1 * (1 / 2 - t)) by ring. rewrite Rpow_mult_distr. ring. }
  split; [|intros t; rewrite <- F; apply E]. destruct (MVT_cor2 (poly_at c) (fun t => K * ((t + 1 / 2) ^ n0 * (t - 1 / 2) ^ n1)) (- (1 / 2)) (1 / 2)) as (z & Ez & Hz); [lra|intros t _; apply is_derive_Reals, E|].
  rewrite A, B, F in Ez. set (K' := - (K * (-1) ^ n1)) in *. assert (P : 0 < (z + 1 / 2) ^ n0 * (1 / 2 - z) ^ n1) by (apply Rmult_lt_0_compat; apply pow_lt; lra). set (w := (z + 1 / 2) ^ n0 * (1 / 2 - z) ^ n1) in *. assert (Q : K' * w = 1) by lra. apply (Rmult_lt_reg_r w); [exact P|]. lra.
Qed.
(* ---------- existence ---------- *)
Fixpoint poly_int_aux (n : nat) (c : list R) : list R := match c with [] => [] | a :: c => a / INR (S n) :: poly_int_aux (S n) c end.
Definition poly_int (c : list R) : list R := 0 :: poly_int_aux 0 c.
Lemma poly_int_der_aux c : forall n, poly_der_aux (S n) (poly_int_aux n c) = c.
Proof. induction c as [|a c IH]; intros n; [reflexivity|]. cbn [poly_int_aux poly_der_aux]. rewrite IH. f_equal. field. apply not_0_INR. lia. Qed.
Lemma poly_int_der c : poly_der (poly_int c) = c.
Proof. apply poly_int_der_aux. Qed.
Definition mul_lin (a : R) (c : list R) : list R := poly_sub (0 :: c) (map (Rmult a) c).
Lemma poly_scal a l t : poly_at (map (Rmult a) l) t = a * poly_at l t.
Proof. induction l as [|x l IH]; cbn [map poly_at]; [ring|rewrite IH; ring]. Qed.
Lemma mul_lin_at a c t : poly_at (mul_lin a c) t = (t - a) * poly_at c t.
Proof. unfold mul_lin. rewrite poly_sub_at, poly_scal. cbn [poly_at]. ring. Qed.
Lemma poly_sub_length a : forall b, length (poly_sub a b) = Nat.max (length a) (length b).
Proof. induction a as [|x a IH]; intros [|y b]; cbn [poly_sub length map]; rewrite ?map_length; try lia. rewrite IH. lia. Qed.
Lemma mul_lin_length a c : length (mul_lin a c) = S (length c).
Proof. unfold mul_lin. rewrite poly_sub_length. cbn [length]. rewrite map_length. lia. Qed.
Lemma mul_lin_vanishes a c b m : vanishes (poly_at c) b m -> vanishes (poly_at (mul_lin a c)) b m.
Proof.
  intros V. apply (vanishes_ext (fun t => (t - a) * poly_at c t)); [intros t; symmetry; apply mul_lin_at|]. intros [|k] Hk; [cbn [Derive_n]; rewrite (V 0%nat Hk : poly_at c b = 0); ring|]. rewrite lin_derive, (V (S k)), (V k) by lia. ring.
Qed.
Lemma mul_lin_vanishes_S a c m : vanishes (poly_at c) a m -> vanishes (poly_at (mul_lin a c)) a (S m).
Proof.
  intros V. apply (vanishes_ext (fun t => (t - a) * poly_at c t)); [intros t; symmetry; apply mul_lin_at|]. intros [|k] Hk; [cbn [Derive_n]; ring|]. rewrite lin_derive, (V k) by lia. ring.
Qed.
Definition hermite_w (m n : nat) : list R := Nat.iter m (mul_lin (- (1 / 2))) (Nat.iter n (mul_lin (1 / 2)) [1]).
Lemma iter_at a c m t : poly_at (Nat.iter m (mul_lin a) c) t = (t - a) ^ m * poly_at c t.
Proof. induction m as [|m IH]; [cbn; ring|]. cbn [Nat.iter pow]. change (Nat.iter (S m) (mul_lin a) c) with (mul_lin a (Nat.iter m (mul_lin a) c)). rewrite mul_lin_at, IH. ring. Qed.
Lemma iter_length a c m : length (Nat.iter m (mul_lin a) c) = (m + length c)%nat.
Proof. induction m as [|m IH]; [reflexivity|]. change (Nat.iter (S m) (mul_lin a) c) with (mul_lin a (Nat.iter m (mul_lin a) c)). rewrite mul_lin_length, IH. lia. Qed.
Lemma iter_vanishes a c m : vanishes (poly_at (Nat.iter m (mul_lin a) c)) a m.
Proof. induction m as [|m IH]; [intros k Hk; lia|]. change (Nat.iter (S m) (mul_lin a) c) with (mul_lin a (Nat.iter m (mul_lin a) c)). apply mul_lin_vanishes_S, IH. Qed.
Lemma iter_keeps a c b m n : vanishes (poly_at c) b n -> vanishes (poly_at (Nat.iter m (mul_lin a) c)) b n.
Proof. intros V. induction m as [|m IH]; [exact V|]. change (Nat.iter (S m) (mul_lin a) c) with (mul_lin a (Nat.iter m (mul_lin a) c)). apply mul_lin_vanishes, IH. Qed.
Lemma solution_exists n0 n1 : exists c, solves (envelope_constraints n0 n1) c.
Proof.
  set (w := hermite_w n0 n1). set (I := poly_int w). set (W := poly_at I (1 / 2) - poly_at I (- (1 / 2))).
  assert (Wat : forall t, poly_at w t = (t + 1 / 2) ^ n0 * (t - 1 / 2) ^ n1) by (intros t; unfold w, hermite_w; rewrite !iter_at; replace (t - - (1 / 2)) with (t + 1 / 2) by ring; cbn [poly_at]; ring).
  assert (DI : forall t, is_derive (poly_at I) t (poly_at w t)) by (intros t; unfold I; rewrite <- (poly_int_der w) at 2; apply poly_derive).
  assert (HW : W <> 0).
  { destruct (MVT_cor2 (poly_at I) (poly_at w) (- (1 / 2)) (1 / 2)) as (z & Ez & Hz); [lra|intros t _; apply is_derive_Reals, DI|]. unfold W. rewrite Ez, Wat. apply Rmult_integral_contrapositive. split; [|lra]. apply Rmult_integral_contrapositive. split; apply pow_nonzero; lra. }
  exists (poly_sub [1] (map (Rmult (/ W)) (poly_sub I [poly_at I (- (1 / 2))]))). set (c := poly_sub _ _).
  assert (At : forall t, poly_at c t = 1 - / W * (poly_at I t - poly_at I (- (1 / 2)))) by (intros t; unfold c; rewrite poly_sub_at, poly_scal, poly_sub_at; cbn [poly_at]; ring).
  assert (Dc : forall k t, Derive_n (poly_at c) (S k) t = - / W * Derive_n (poly_at w) k t).
  { intros k t. rewrite <- der_shift. assert (E : forall s, poly_at (poly_der c) s = - / W * poly_at w s).
    { intros s. assert (H1 := poly_derive c s). assert (H2 : is_derive (poly_at c) s (0 + (0 * (poly_at I s - poly_at I (- (1 / 2))) + - / W * (poly_at w s + 0)))).
      { apply (der_ext (fun t => 1 + (- / W) * (poly_at I t + - poly_at I (- (1 / 2))))); [intros u; rewrite At; ring|]. apply (der_plus (fun _ => 1) (fun t => (- / W) * (poly_at I t + - poly_at I (- (1 / 2))))); [apply der_const|].
        replace (0 * (poly_at I s - poly_at I (- (1 / 2))) + - / W * (poly_at w s + 0)) with (0 * (poly_at I s + - poly_at I (- (1 / 2))) + - / W * (poly_at w s + 0)) by ring.
        apply (der_mult (fun _ => - / W) (fun t => poly_at I t + - poly_at I (- (1 / 2)))); [apply der_const|]. apply (der_plus (poly_at I) (fun _ => - poly_at I (- (1 / 2)))); [apply DI|apply der_const]. }
      apply is_derive_unique in H1. apply is_derive_unique in H2. rewrite <- H1, H2. ring. }
    rewrite (Derive_n_ext _ _ k t E). apply Derive_n_scal_l. }
  apply solves_spec. split; [|split; [|split; [|split]]].
  - unfold c. rewrite poly_sub_length, map_length, poly_sub_length. unfold I, poly_int. cbn [length]. assert (Li : forall l n, length (poly_int_aux n l) = length l) by (induction l as [|x l IH]; intros n; [reflexivity|]; cbn [poly_int_aux length]; rewrite IH; reflexivity). rewrite Li. unfold w, hermite_w. rewrite !iter_length. cbn [length]. lia.
  - rewrite At. ring.
  - rewrite At. fold W. field. exact HW.
  - intros [|k] Hk; [lia|]. rewrite Dc. replace (Derive_n (poly_at w) k (- (1 / 2))) with 0; [ring|]. symmetry. refine (iter_vanishes _ _ n0 k _). lia.
  - intros [|k] Hk; [lia|]. rewrite Dc. replace (Derive_n (poly_at w) k (1 / 2)) with 0; [ring|]. symmetry. refine (iter_keeps (- (1 / 2)) _ _ n0 n1 (iter_vanishes _ _ n1) k _). lia.
Qed.
(* ---------- uniqueness ---------- *)
Lemma poly_zero c : (forall t, poly_at c t = 0) -> Forall (fun a => a = 0) c.
Proof.
  induction c as [|a c IH]; intros H; [constructor|]. assert (A : a = 0) by (specialize (H 0); cbn [poly_at] in H; lra). constructor; [exact A|]. apply IH. intros t.
  assert (N : forall t, t <> 0 -> poly_at c t = 0). { intros s Hs. specialize (H s). cbn [poly_at] in H. rewrite A, Rplus_0_l in H. apply Rmult_integral in H. tauto. }
  destruct (Req_dec t 0) as [->|Ht]; [|apply N, Ht]. destruct (Req_dec (poly_at c 0) 0) as [E|E]; [exact E|exfalso].
  assert (Cn : continuous (poly_at c) 0) by (apply (ex_derive_continuous (poly_at c) 0); eexists; apply poly_derive). assert (Hp : 0 < Rabs (poly_at c 0)) by (apply Rabs_pos_lt, E).
  apply continuity_pt_filterlim in Cn. destruct (Cn (Rabs (poly_at c 0)) Hp) as (d & Hd & B). specialize (B (d / 2)). rewrite N in B by lra.
  unfold R_dist in B. assert (Q : Rabs (0 - poly_at c 0) < Rabs (poly_at c 0)).
  { apply B. split; [split; [exact I|lra]|]. cbn. unfold R_dist. rewrite Rminus_0_r, Rabs_pos_eq; lra. }
  rewrite Rminus_0_l, Rabs_Ropp in Q. lra.
Qed.
Lemma solution_unique n0 n1 c c' : solves (envelope_constraints n0 n1) c -> solves (envelope_constraints n0 n1) c' -> c = c'.
Proof.
  intros H H'. destruct (solution_derivative _ _ _ H) as (K & E). destruct (solution_derivative _ _ _ H') as (K' & E'). apply solves_spec in H, H'. destruct H as (L & A & B & _), H' as (L' & A' & B' & _).
  set (w := fun t => (t + 1 / 2) ^ n0 * (t - 1 / 2) ^ n1) in *.
  assert (D : forall k t, is_derive (fun t => poly_at c t + k * poly_at c' t) t (K * w t + k * (K' * w t))).
  { intros k t. apply der_plus; [apply E|]. replace (k * (K' * w t)) with (0 * poly_at c' t + k * (K' * w t)) by ring. apply (der_mult (fun _ => k)); [apply der_const|apply E']. }
  destruct (MVT_cor2 (fun t => poly_at c t + -1 * poly_at c' t) (fun t => K * w t + -1 * (K' * w t)) (- (1 / 2)) (1 / 2)) as (z & Ez & Hz); [lra|intros t _; apply is_derive_Reals, (D (-1))|].
  rewrite A, A', B, B' in Ez. assert (Wz : w z <> 0) by (unfold w; apply Rmult_integral_contrapositive; split; apply pow_nonzero; lra). assert (KK : K = K').
  { assert (Q : (K - K') * w z = 0) by lra. apply Rmult_integral in Q. destruct Q as [Q|Q]; [lra|contradiction]. }
  subst K'. assert (Z : forall t, poly_at (poly_sub c c') t = 0).
  { intros t. rewrite poly_sub_at. assert (G : forall a b, a < b -> poly_at c b - poly_at c' b = poly_at c a - poly_at c' a).
    { intros a b Hab. destruct (MVT_cor2 (fun t => poly_at c t + -1 * poly_at c' t) (fun t => K * w t + -1 * (K * w t)) a b) as (y & Ey & _); [exact Hab|intros s _; apply is_derive_Reals, (D (-1))|]. lra. }
    destruct (total_order_T t (1 / 2)) as [[Ht|Ht]|Ht]; [rewrite <- (G t (1 / 2) Ht)|rewrite Ht|rewrite (G (1 / 2) t Ht)]; rewrite B, B'; ring. }
  apply poly_zero in Z. assert (LL : length c = length c') by lia. clear - Z LL. revert c' LL Z. induction c as [|a c IH]; intros [|b c'] LL Z; cbn [length] in LL; try lia; [reflexivity|]. cbn [poly_sub] in Z. inversion Z as [|? ? Z1 Z2]; subst. f_equal; [lra|]. apply IH; [lia|exact Z2].
Qed.
