(* The soft quadrature is exact, and the associated Legendre functions are orthonormal, continuously and on an exact quadrature rule. *)
From Coq Require Import Reals Lra ZArith Lia FunctionalExtensionality.
From Coquelicot Require Import Coquelicot.
From Verif Require Import PyBase SumR RadialModel RadialProofs RadialProofs2 TrigProofs PolyProofs S2Model.
Open Scope R_scope.

(* ---- the soft rule ---- *)
Lemma soft_exact n : (0 < n)%nat -> (n mod 2 = 0)%nat -> exact_rule n n (fun i => - cos ((INR i + 1 / 2) / INR n * PI)) (soft_weight n).
Proof.
  intros Hn E. assert (N : 0 < INR n) by (apply lt_0_INR; lia).
  set (th := fun j => (2 * INR j + 1) * PI / (2 * INR n)).
  assert (Y : forall i, (INR i + 1 / 2) / INR n * PI = th i) by (intros i; unfold th; field; lra).
  apply exact_by_U; [intros b _; pose proof (COS_bound ((INR b + 1 / 2) / INR n * PI)); lra|].
  intros k Hk. rewrite Int_U.
  rewrite (rsum_ext n _ (fun b => (-1) ^ k * (4 / INR n) * rsum (n / 2) (fun i => 1 / (2 * INR i + 1) * (sin (INR (2 * i + 1) * th b) * sin (INR (S k) * th b))))).
  2:{ intros b _. rewrite Y, U_opp. unfold soft_weight. replace (PI * (2 * INR b + 1) / (2 * INR n)) with (th b) by (unfold th; field; lra).
      transitivity ((-1) ^ k * (4 / INR n) * (sin (th b) * U k (cos (th b)) * rsum (n / 2) (fun i => 1 / (2 * INR i + 1) * sin (INR (2 * i + 1) * th b)))).
      - rewrite (rsum_ext (n / 2) (fun k0 => 1 / (2 * INR k0 + 1) * sin ((2 * INR b + 1) * (2 * INR k0 + 1) * PI / (2 * INR n))) (fun i => 1 / (2 * INR i + 1) * sin (INR (2 * i + 1) * th b))); [ring|].
        intros i _. do 2 f_equal. rewrite plus_INR, mult_INR. unfold th. cbn [INR]. field. lra.
      - rewrite <- U_sin, <- rsum_scal. f_equal. apply rsum_ext. intros i _. ring. }
  rewrite rsum_scal, rsum_swap.
  rewrite (rsum_ext (n / 2) _ (fun i => 1 / (2 * INR i + 1) * (if (2 * i + 1 =? S k)%nat then INR n / 2 else 0))).
  2:{ intros i Hi. rewrite rsum_scal. f_equal. rewrite <- (dst_orthogonal n (2 * i + 1) (S k)); [reflexivity| |lia]. pose proof (Nat.div_mod n 2). lia. }
  destruct (Nat.Even_or_Odd k) as [[j ->]|[j ->]].
  - rewrite (rsum_ext (n / 2) _ (fun i => if (i =? j)%nat then 1 / (2 * INR i + 1) * (INR n / 2) else 0)).
    2:{ intros i _. replace (2 * i + 1 =? S (2 * j))%nat with (i =? j)%nat; [destruct (i =? j)%nat; ring|]. destruct (Nat.eqb_spec i j), (Nat.eqb_spec (2 * i + 1) (S (2 * j))); lia. }
    rewrite rsum_delta by (pose proof (Nat.div_mod n 2); lia). rewrite pow_1_even. change (S (2 * j)) with (S (2 * j)). cbn [pow]. rewrite pow_1_even, S_INR, mult_INR. cbn [INR]. pose proof (pos_INR j). field. split; lra.
  - rewrite rsum_zero; [rewrite Rmult_0_r; replace (S (2 * j + 1)) with (2 * (j + 1))%nat by lia; rewrite pow_1_even; unfold Rdiv; ring|].
    intros i _. replace (2 * i + 1 =? S (2 * j + 1))%nat with false by (symmetry; apply Nat.eqb_neq; lia). ring.
Qed.

(* ---- Rodrigues ---- *)
Definition u (l : nat) (x : R) : R := (x ^ 2 - 1) ^ l.
Definition V (l m : nat) (x : R) : R := Derive_n (u l) (l + m) x.

(* f = a x^d + lower terms *)
Definition lead_term (d : nat) (a : R) (f : R -> R) : Prop := exists g, poly d g /\ forall x, f x = a * x ^ d + g x.
Lemma poly_monomial d : poly (S d) (fun x => x ^ d).
Proof. induction d as [|d IH]; [apply (poly_ext _ (fun _ => 1)); [reflexivity|apply poly_const]|]. apply (poly_ext _ (fun x => x * x ^ d)); [reflexivity|]. apply poly_X, IH. Qed.
Lemma lead_poly d a f : lead_term d a f -> poly (S d) f.
Proof.
  intros (g & G & E). apply (poly_ext _ (fun x => a * x ^ d + g x)); [intros x; symmetry; apply E|]. apply poly_add; [apply poly_scale, poly_monomial|]. apply (poly_weaken d); [lia|exact G].
Qed.
Lemma lead_mult d e a b f g : lead_term d a f -> lead_term e b g -> lead_term (d + e) (a * b) (fun x => f x * g x).
Proof.
  intros (f' & F & EF) (g' & G & EG). exists (fun x => a * x ^ d * g' x + (f' x * g x)). split.
  - apply poly_add.
    + replace (d + e)%nat with (e + d)%nat by lia. apply (poly_ext _ (fun x => g' x * (a * x ^ d))); [intros; ring|]. apply poly_mult; [exact G|]. apply poly_scale, poly_monomial.
    + apply poly_mult; [exact F|]. apply (lead_poly e b). exists g'. split; assumption.
  - intros x. rewrite EF, EG, pow_add. ring.
Qed.
Lemma lead_pow n f d a : lead_term d a f -> lead_term (n * d) (a ^ n) (fun x => f x ^ n).
Proof.
  intros H. induction n as [|n IH].
  - exists (fun _ => 0). split; [apply poly_zero|]. intros x. cbn. ring.
  - destruct (lead_mult d (n * d) a (a ^ n) f _ H IH) as (g & G & E). exists g. split; [exact G|]. intros x. cbn [pow Nat.mul]. exact (E x).
Qed.
Lemma lead_ext d a f g : (forall x, f x = g x) -> lead_term d a f -> lead_term d a g.
Proof. intros E (h & H & Eh). exists h. split; [exact H|]. intros x. rewrite <- E. apply Eh. Qed.
Lemma lead_Derive d a f : lead_term (S d) a f -> lead_term d (INR (S d) * a) (Derive f).
Proof.
  intros (g & G & E). exists (Derive g). split; [apply (poly_weaken (S d - 1)); [lia|apply poly_Derive, G]|]. intros x. apply is_derive_unique.
  apply (der_ext (fun t => a * t ^ S d + g t)); [intros t; symmetry; apply E|]. replace (INR (S d) * a * x ^ d + Derive g x) with (a * (INR (S d) * x ^ d) + Derive g x) by ring.
  apply der_plus; [apply der_monomial|]. apply (poly_derivable (S d)), G.
Qed.
Lemma lead_Derive_n n : forall d a f, lead_term (d + n) a f -> lead_term d (INR (fact (d + n)) / INR (fact d) * a) (Derive_n f n).
Proof.
  induction n as [|n IH]; intros d a f H.
  - rewrite Nat.add_0_r in *. cbn [Derive_n]. replace (INR (fact d) / INR (fact d) * a) with a; [exact H|]. field. apply INR_fact_neq_0.
  - replace (d + S n)%nat with (S d + n)%nat in H by lia. apply IH, lead_Derive in H. replace (d + S n)%nat with (S d + n)%nat by lia.
    replace (INR (fact (S d + n)) / INR (fact d) * a) with (INR (S d) * (INR (fact (S d + n)) / INR (fact (S d)) * a)); [exact H|].
    rewrite (fact_simpl d), mult_INR. field. split; [apply INR_fact_neq_0|apply not_0_INR; lia].
Qed.
Lemma lead_0 a f : lead_term 0 a f -> forall x, f x = a.
Proof. intros (g & (c & L & ->) & E) x. destruct c; [|cbn in L; lia]. rewrite E. cbn. ring. Qed.

Lemma u_lead l : lead_term (2 * l) 1 (u l).
Proof.
  replace (2 * l)%nat with (l * 2)%nat by lia. rewrite <- (pow1 l). apply lead_pow. exists (fun _ => -1). split; [apply (poly_weaken 1); [lia|apply poly_const]|]. intros x. ring.
Qed.
Lemma V_lead l m : (m <= l)%nat -> lead_term (l - m) (INR (fact (2 * l)) / INR (fact (l - m))) (V l m).
Proof.
  intros H. pose proof (lead_Derive_n (l + m) (l - m) 1 (u l)) as G. replace (l - m + (l + m))%nat with (2 * l)%nat in G by lia. rewrite Rmult_1_r in G. apply G, u_lead.
Qed.
(* (x^2 - 1)^p h vanishes p times at both ends *)
Lemma ends_vanish p h d a : poly d h -> a = 1 \/ a = -1 -> vanishes (fun x => (x ^ 2 - 1) ^ p * h x) a p.
Proof.
  intros (c & _ & ->) A. assert (G : exists q, (forall x, (x ^ 2 - 1) ^ p * poly_at c x = poly_at q x) /\ vanishes (poly_at q) a p).
  { induction p as [|p (q & E & W)]; [exists c; split; [intros; cbn; ring|intros k Hk; lia]|]. exists (mul_lin 1 (mul_lin (-1) q)). split.
    - intros x. rewrite !mul_lin_at, <- E. cbn [pow]. ring.
    - destruct A as [-> | ->]; [apply mul_lin_vanishes_S, mul_lin_vanishes, W|apply mul_lin_vanishes, mul_lin_vanishes_S, W]. }
  destruct G as (q & E & W). apply (vanishes_ext (poly_at q)); [intros t; symmetry; apply E|exact W].
Qed.
Lemma sq_minus_opp m x : (1 - x ^ 2) ^ m = (-1) ^ m * (x ^ 2 - 1) ^ m.
Proof. rewrite <- Rpow_mult_distr. f_equal. ring. Qed.

(* the integral of u *)
Lemma Int_u l : INR (fact (2 * l + 1)) * Int (u l) = (-1) ^ l * 2 ^ (2 * l + 1) * INR (fact l) ^ 2.
Proof.
  induction l as [|l IH]; [rewrite (Int_ext _ (fun _ => 1)) by reflexivity; rewrite Int_const; cbn; ring|].
  assert (R : (2 * INR (S l) + 1) * Int (u (S l)) = - (2 * INR (S l)) * Int (u l)).
  { pose proof (Int_parts 2 (S (2 * S l)) (fun x => x) (u (S l))) as P.
    assert (X2 : poly 2 (fun x : R => x)) by (apply (poly_ext _ (fun x => x * 1)); [intros; ring|apply poly_X, poly_const]).
    assert (Pu : forall k, poly (S (2 * k)) (u k)) by (intros k; apply (lead_poly (2 * k) 1), u_lead).
    specialize (P X2 (Pu _)). cbv beta in P.
    rewrite (Int_ext _ (u (S l))) in P by (intros x; rewrite Derive_id; ring). unfold u at 2 3 in P. replace (1 ^ 2 - 1) with 0 in P by ring. replace ((-1) ^ 2 - 1) with 0 in P by ring. rewrite pow_i in P by lia.
    assert (D : forall x, Derive (u (S l)) x = 2 * INR (S l) * (x * u l x)).
    { intros x. apply is_derive_unique. unfold u. auto_derive; [trivial|]. rewrite ?Rmult_1_r. change (match l with 0%nat => 1 | S _ => INR l + 1 end) with (INR (S l)). change (pred (S l)) with l. replace (x * x + - (1)) with (x ^ 2 - 1) by ring. ring. }
    rewrite (Int_ext (fun x => x * Derive (u (S l)) x) (fun x => 2 * INR (S l) * (u (S l) x + u l x))) in P by (intros x; rewrite D; unfold u; cbn [pow]; ring).
    rewrite (Int_scal (S (2 * S l))), (Int_plus (S (2 * S l))) in P; [lra|apply Pu|apply (poly_weaken (S (2 * l))); [lia|apply Pu]|apply poly_add; [apply Pu|apply (poly_weaken (S (2 * l))); [lia|apply Pu]]]. }
  replace (2 * S l + 1)%nat with (S (S (2 * l + 1))) by lia. rewrite !fact_simpl, !mult_INR.
  replace (INR (S (S (2 * l + 1)))) with (2 * INR (S l) + 1) by (rewrite !S_INR, plus_INR, mult_INR; cbn [INR]; ring).
  replace (INR (S (2 * l + 1))) with (2 * INR (S l)) by (rewrite !S_INR, plus_INR, mult_INR; cbn [INR]; ring).
  transitivity (2 * INR (S l) * INR (fact (2 * l + 1)) * ((2 * INR (S l) + 1) * Int (u (S l)))); [ring|]. rewrite R.
  transitivity (- (2 * INR (S l)) ^ 2 * (INR (fact (2 * l + 1)) * Int (u l))); [ring|]. rewrite IH. cbn [pow]. ring.
Qed.

Lemma V_poly l m : poly (S (2 * l) - (l + m)) (V l m).
Proof. apply poly_Derive_n. apply (lead_poly _ 1), u_lead. Qed.

Lemma sq_poly m : poly (S (2 * m)) (fun x => (x ^ 2 - 1) ^ m).
Proof. apply (lead_poly _ 1), u_lead. Qed.
Lemma V_zero l m x : (l < m)%nat -> V l m x = 0.
Proof. intros H. destruct (V_poly l m) as (c & L & E). rewrite E. destruct c; [reflexivity|cbn [length] in L; lia]. Qed.
Definition W (l m : nat) (x : R) : R := (1 - x ^ 2) ^ m * V l m x.
Lemma W_poly l m : (m <= l)%nat -> poly (l + m + 1) (W l m).
Proof.
  intros H. apply (poly_ext _ (fun x => (-1) ^ m * (V l m x * (x ^ 2 - 1) ^ m))); [intros x; unfold W; rewrite sq_minus_opp; ring|]. apply poly_scale.
  replace (l + m + 1)%nat with (S (2 * l) - (l + m) + 2 * m)%nat by lia. apply poly_mult; [apply V_poly|apply sq_poly].
Qed.
Lemma W_lead l m : (m <= l)%nat -> lead_term (l + m) ((-1) ^ m * (INR (fact (2 * l)) / INR (fact (l - m)))) (W l m).
Proof.
  intros H. replace (l + m)%nat with (2 * m + (l - m))%nat by lia. apply lead_mult; [|apply V_lead, H].
  destruct (lead_pow m (fun x => 1 - x ^ 2) 2 (-1)) as (g & G & E); [exists (fun _ => 1); split; [apply (poly_weaken 1); [lia|apply poly_const]|intros; ring]|].
  exists g. split; [replace (2 * m)%nat with (m * 2)%nat by lia; exact G|]. intros x. replace (2 * m)%nat with (m * 2)%nat by lia. apply E.
Qed.
Lemma V_by_parts l l' m : (m <= l')%nat -> Int (fun x => (1 - x ^ 2) ^ m * (V l m x * V l' m x)) = (-1) ^ (l + m) * Int (fun x => u l x * Derive_n (W l' m) (l + m) x).
Proof.
  intros H. rewrite (Int_ext _ (fun x => Derive_n (u l) (l + m) x * W l' m x)) by (intros x; unfold W, V; ring).
  apply (Int_parts_n (S (2 * l)) (l' + m + 1)); [apply sq_poly|apply W_poly, H|].
  intros k a Hk Ha. destruct (Nat.le_gt_cases m k) as [K|K].
  - pose proof (ends_vanish l (fun _ => 1) 1 a (poly_const 1) Ha) as E. apply (vanishes_ext _ (u l)) in E; [|intros t; unfold u; ring]. rewrite (E (l + m - 1 - k)%nat) by lia. ring.
  - pose proof (ends_vanish m (fun x => (-1) ^ m * V l' m x) _ a (poly_scale _ _ _ (V_poly l' m)) Ha) as E. apply (vanishes_ext _ (W l' m)) in E; [|intros t; unfold W; rewrite sq_minus_opp; ring]. rewrite (E k) by lia. ring.
Qed.
Lemma V_orthogonal_lt l l' m : (l' < l)%nat -> Int (fun x => (1 - x ^ 2) ^ m * (V l m x * V l' m x)) = 0.
Proof.
  intros H. destruct (Nat.le_gt_cases m l') as [Hm|Hm].
  - rewrite V_by_parts by exact Hm. rewrite (Int_ext _ (fun _ => 0)); [rewrite Int_const; ring|]. intros x. destruct (poly_Derive_n _ _ (l + m) (W_poly l' m Hm)) as (c & L & E). rewrite E. destruct c; [cbn [poly_at]; ring|cbn [length] in L; lia].
  - rewrite (Int_ext _ (fun _ => 0)); [rewrite Int_const; ring|]. intros x. rewrite (V_zero l') by exact Hm. ring.
Qed.
Lemma V_norm l m : (m <= l)%nat -> Int (fun x => (1 - x ^ 2) ^ m * (V l m x * V l m x)) = 2 ^ (2 * l + 1) * INR (fact l) ^ 2 / (2 * INR l + 1) * (INR (fact (l + m)) / INR (fact (l - m))).
Proof.
  intros H. rewrite V_by_parts by exact H. pose proof (lead_Derive_n (l + m) 0 _ _ (W_lead l m H)) as D. pose proof (lead_0 _ _ D) as E. cbn [fact INR] in E.
  rewrite (Int_ext _ (fun x => INR (fact (0 + (l + m))) / 1 * ((-1) ^ m * (INR (fact (2 * l)) / INR (fact (l - m)))) * u l x)) by (intros x; rewrite E; ring).
  rewrite (Int_scal (S (2 * l))) by apply sq_poly. cbn [Nat.add]. pose proof (Int_u l) as J. replace (2 * l + 1)%nat with (S (2 * l)) in J at 1 by lia. rewrite fact_simpl, mult_INR in J. replace (INR (S (2 * l))) with (2 * INR l + 1) in J by (rewrite S_INR, mult_INR; cbn [INR]; ring).
  assert (F : INR (fact (l - m)) <> 0) by apply INR_fact_neq_0. pose proof (pos_INR l) as P. assert (F2 : INR (fact (2 * l)) * Int (u l) = (-1) ^ l * 2 ^ (2 * l + 1) * INR (fact l) ^ 2 / (2 * INR l + 1)) by (rewrite <- J; field; lra).
  transitivity ((-1) ^ (l + m) * (-1) ^ m * (INR (fact (l + m)) / INR (fact (l - m))) * (INR (fact (2 * l)) * Int (u l))); [field; exact F|]. rewrite F2.
  assert (S1 : (-1) ^ (l + m) * (-1) ^ m * (-1) ^ l = 1) by (rewrite <- !pow_add; replace (l + m + m + l)%nat with (2 * (l + m))%nat by lia; apply pow_1_even).
  transitivity ((-1) ^ (l + m) * (-1) ^ m * (-1) ^ l * (2 ^ (2 * l + 1) * INR (fact l) ^ 2 / (2 * INR l + 1) * (INR (fact (l + m)) / INR (fact (l - m))))); [field; split; [exact F|lra]|]. rewrite S1. ring.
Qed.
Lemma V_orthogonal l l' m : Int (fun x => (1 - x ^ 2) ^ m * (V l m x * V l' m x)) =
  if (l =? l')%nat && (m <=? l)%nat then 2 ^ (2 * l + 1) * INR (fact l) ^ 2 / (2 * INR l + 1) * (INR (fact (l + m)) / INR (fact (l - m))) else 0.
Proof.
  destruct (Nat.eqb_spec l l') as [<-|N]; cbn [andb].
  - destruct (Nat.leb_spec m l) as [H|H]; [apply V_norm, H|]. rewrite (Int_ext _ (fun _ => 0)); [rewrite Int_const; ring|]. intros x. rewrite V_zero by exact H. ring.
  - destruct (Nat.lt_total l l') as [L|[L|L]]; [|lia|apply V_orthogonal_lt, L].
    rewrite (Int_ext _ (fun x => (1 - x ^ 2) ^ m * (V l' m x * V l m x))) by (intros; ring). apply V_orthogonal_lt, L.
Qed.

(* ---- sh_beta ---- *)
Definition nlm (l m : nat) : R := sqrt ((2 * INR l + 1) / (4 * PI) * (INR (fact (l - m)) / INR (fact (l + m)))) / (2 ^ l * INR (fact l)).
Lemma sh_beta_V l m y : sh_beta l m y = if (m <=? l)%nat then nlm l m * sqrt (1 - y ^ 2) ^ m * V l m y else 0.
Proof.
  unfold sh_beta, lpmn_normalized, assoc_legendre, nlm. destruct (m <=? l)%nat; [|ring]. change (Derive_n (fun t => (t ^ 2 - 1) ^ l) (l + m) y) with (V l m y).
  assert (S1 : (-1) ^ m * (-1) ^ m = 1) by (rewrite <- pow_add; replace (m + m)%nat with (2 * m)%nat by lia; apply pow_1_even).
  set (N := sqrt (_ / _ * _)). assert (F : 2 ^ l * INR (fact l) <> 0) by (apply Rmult_integral_contrapositive_currified; [apply pow_nonzero; lra|apply INR_fact_neq_0]).
  transitivity ((-1) ^ m * (-1) ^ m * (N * (sqrt (1 - y ^ 2) ^ m * (V l m y / (2 ^ l * INR (fact l)))))); [ring|]. rewrite S1. field. split; [apply INR_fact_neq_0|apply pow_nonzero; lra].
Qed.
Lemma sh_beta_prod l l' m y : -1 <= y <= 1 -> (m <= l)%nat -> (m <= l')%nat -> sh_beta l m y * sh_beta l' m y = nlm l m * nlm l' m * ((1 - y ^ 2) ^ m * (V l m y * V l' m y)).
Proof.
  intros Y H H'. rewrite !sh_beta_V. rewrite (leb_correct _ _ H), (leb_correct _ _ H'). assert (P : 0 <= 1 - y ^ 2) by nra.
  assert (S2 : (1 - y ^ 2) ^ m = sqrt (1 - y ^ 2) ^ m * sqrt (1 - y ^ 2) ^ m) by (rewrite <- Rpow_mult_distr, sqrt_sqrt by exact P; reflexivity). rewrite S2. ring.
Qed.
Lemma nlm_norm l m : (m <= l)%nat -> nlm l m * nlm l m * (2 ^ (2 * l + 1) * INR (fact l) ^ 2 / (2 * INR l + 1) * (INR (fact (l + m)) / INR (fact (l - m)))) = / (2 * PI).
Proof.
  intros H. unfold nlm. pose proof PI_RGT_0. pose proof (pos_INR l). pose proof (INR_fact_lt_0 l). pose proof (INR_fact_lt_0 (l - m)). pose proof (INR_fact_lt_0 (l + m)).
  set (X := (2 * INR l + 1) / (4 * PI) * (INR (fact (l - m)) / INR (fact (l + m)))).
  assert (XP : 0 <= X) by (unfold X; apply Rmult_le_pos; apply Rlt_le, Rdiv_lt_0_compat; lra). assert (P2 : 0 < 2 ^ l) by (apply pow_lt; lra).
  transitivity (sqrt X * sqrt X * (2 ^ (2 * l + 1) / (2 ^ l * 2 ^ l)) / (2 * INR l + 1) * (INR (fact (l + m)) / INR (fact (l - m)))); [field; repeat split; lra|].
  rewrite sqrt_sqrt by exact XP. replace (2 * l + 1)%nat with (l + l + 1)%nat by lia. rewrite !pow_add. unfold X. field. repeat split; lra.
Qed.
(* the functions sh_beta are orthonormal for a rule that is exact up to degree l + l' *)
Theorem sh_beta_orthonormal n d y w l l' m : exact_rule n d y w -> (l + l' < d)%nat -> (m <= l)%nat -> (m <= l')%nat ->
  rsum n (fun b => w b / 2 * (sh_beta l m (y b) * sh_beta l' m (y b))) = if (l =? l')%nat then / (4 * PI) else 0.
Proof.
  intros [Y X] D H H'.
  rewrite (rsum_ext n _ (fun b => nlm l m * nlm l' m / 2 * (w b * ((1 - y b ^ 2) ^ m * (V l m (y b) * V l' m (y b)))))) by (intros b Hb; rewrite sh_beta_prod by (try apply Y; assumption); field).
  rewrite rsum_scal, (X (fun t => (1 - t ^ 2) ^ m * (V l m t * V l' m t))).
  - rewrite V_orthogonal. destruct (Nat.eqb_spec l l') as [<-|N]; cbn [andb]; [|ring]. rewrite (leb_correct _ _ H).
    transitivity (/ 2 * (nlm l m * nlm l m * (2 ^ (2 * l + 1) * INR (fact l) ^ 2 / (2 * INR l + 1) * (INR (fact (l + m)) / INR (fact (l - m)))))); [|rewrite nlm_norm by exact H; field; apply PI_neq0].
    field. split; [apply INR_fact_neq_0|pose proof (pos_INR l); lra].
  - apply (poly_weaken (S (2 * l) - (l + m) + (l' + m))); [lia|]. apply (poly_ext _ (fun t => V l m t * W l' m t)); [intros t; unfold W; ring|]. apply poly_mult; [apply V_poly|].
    replace (S (l' + m)) with (l' + m + 1)%nat by lia. apply W_poly, H'.
Qed.
