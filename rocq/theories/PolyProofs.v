(* Polynomials of bounded degree as functions, their integral on [-1, 1], and quadrature rules that are exact on them. *)
From Coq Require Import Reals Lra ZArith Lia FunctionalExtensionality.
From Coquelicot Require Import Coquelicot.
From Verif Require Import PyBase SumR RadialModel RadialProofs RadialProofs2 TrigProofs.
Open Scope R_scope.

(* f is a polynomial with at most d coefficients, that is of degree less than d *)
Definition poly (d : nat) (f : R -> R) : Prop := exists c, (length c <= d)%nat /\ f = poly_at c.
Lemma poly_weaken d e f : (d <= e)%nat -> poly d f -> poly e f.
Proof. intros H (c & L & E). exists c. split; [lia|exact E]. Qed.
Lemma poly_ext d f g : (forall x, f x = g x) -> poly d f -> poly d g.
Proof. intros E. replace g with f by (apply functional_extensionality, E). auto. Qed.
Lemma poly_const a : poly 1 (fun _ => a).
Proof. exists [a]. split; [reflexivity|]. apply functional_extensionality. intros x. cbn. ring. Qed.
Lemma poly_zero d : poly d (fun _ => 0).
Proof. exists []. split; [cbn; lia|reflexivity]. Qed.
Lemma poly_add d f g : poly d f -> poly d g -> poly d (fun x => f x + g x).
Proof.
  intros (a & La & ->) (b & Lb & ->). exists (poly_sub a (map Ropp b)). split; [rewrite poly_sub_length, map_length; lia|].
  apply functional_extensionality. intros x. rewrite poly_sub_at, poly_opp_at. ring.
Qed.
Lemma poly_scale d a f : poly d f -> poly d (fun x => a * f x).
Proof. intros (c & L & ->). exists (map (Rmult a) c). split; [rewrite map_length; exact L|]. apply functional_extensionality. intros x. symmetry. apply poly_scal. Qed.
Lemma poly_X d f : poly d f -> poly (S d) (fun x => x * f x).
Proof. intros (c & L & ->). exists (0 :: c). split; [cbn; lia|]. apply functional_extensionality. intros x. cbn. ring. Qed.
Lemma poly_mult d : forall e f g, poly d f -> poly (S e) g -> poly (d + e) (fun x => f x * g x).
Proof.
  induction d as [|d IH]; intros e f g (c & L & ->) Hg.
  - destruct c; [|cbn in L; lia]. apply (poly_ext _ (fun _ => 0)); [intros x; cbn; ring|]. apply poly_zero.
  - destruct c as [|a c]; [apply (poly_ext _ (fun _ => 0)); [intros x; cbn; ring|]; apply poly_zero|].
    apply (poly_ext _ (fun x => a * g x + x * (poly_at c x * g x))); [intros x; cbn [poly_at]; ring|]. apply poly_add.
    + apply poly_scale. apply (poly_weaken (S e)); [lia|exact Hg].
    + apply poly_X. apply IH; [exists c; split; [cbn in L; lia|reflexivity]|exact Hg].
Qed.
Lemma poly_derivable d f x : poly d f -> is_derive f x (Derive f x).
Proof. intros (c & _ & ->). apply Derive_correct. eexists. apply poly_derive. Qed.
Lemma poly_Derive d f : poly d f -> poly (d - 1) (Derive f).
Proof.
  intros (c & L & ->). exists (poly_der c). split; [rewrite poly_der_length; lia|]. apply functional_extensionality. intros x. apply is_derive_unique, poly_derive.
Qed.
Lemma poly_Derive_n d f n : poly d f -> poly (d - n) (Derive_n f n).
Proof.
  intros H. induction n as [|n IH]; [rewrite Nat.sub_0_r; exact H|]. apply (poly_weaken (d - n - 1)); [lia|]. apply (poly_ext _ (Derive (Derive_n f n))); [reflexivity|]. apply poly_Derive, IH.
Qed.
Lemma poly_continuous d (f : R -> R) (x : R) : poly d f -> continuous f x.
Proof. intros H. apply (@ex_derive_continuous R_AbsRing R_NormedModule f x). eexists. apply (poly_derivable d f x H). Qed.
Lemma poly_integrable d f a b : poly d f -> ex_RInt f a b.
Proof. intros H. apply (@ex_RInt_continuous R_CompleteNormedModule). intros z _. apply (poly_continuous d), H. Qed.

(* integral on [-1, 1] *)
Definition Int (f : R -> R) : R := RInt f (-1) 1.
Lemma Int_ext f g : (forall x, f x = g x) -> Int f = Int g.
Proof. intros E. replace g with f by (apply functional_extensionality, E). reflexivity. Qed.
Lemma Int_plus d f g : poly d f -> poly d g -> Int (fun x => f x + g x) = Int f + Int g.
Proof. intros F G. unfold Int. exact (@RInt_plus R_CompleteNormedModule f g (-1) 1 (poly_integrable d f _ _ F) (poly_integrable d g _ _ G)). Qed.
Lemma Int_scal d a f : poly d f -> Int (fun x => a * f x) = a * Int f.
Proof. intros F. unfold Int. exact (@RInt_scal R_CompleteNormedModule f (-1) 1 a (poly_integrable d f _ _ F)). Qed.
Lemma Int_const a : Int (fun _ => a) = 2 * a.
Proof. unfold Int. rewrite RInt_const. unfold scal. cbn. unfold mult. cbn. ring. Qed.
Lemma Int_Derive d f : poly d f -> Int (Derive f) = f 1 - f (-1).
Proof.
  intros H. unfold Int. apply is_RInt_unique. apply (@is_RInt_derive R_CompleteNormedModule f (Derive f) (-1) 1).
  - intros x _. apply (poly_derivable d), H.
  - intros x _. apply (poly_continuous (d - 1)), poly_Derive, H.
Qed.
Lemma Derive_prod d e f g x : poly d f -> poly e g -> Derive (fun t => f t * g t) x = Derive f x * g x + f x * Derive g x.
Proof. intros F G. apply is_derive_unique. apply der_mult; eapply poly_derivable; eassumption. Qed.
Lemma Int_parts d e f g : poly d f -> poly e g -> Int (fun x => Derive f x * g x) = f 1 * g 1 - f (-1) * g (-1) - Int (fun x => f x * Derive g x).
Proof.
  intros F G. assert (FG : poly (d + e) (fun x => f x * g x)) by (apply poly_mult; [exact F|apply (poly_weaken e); [lia|exact G]]).
  pose proof (Int_Derive _ _ FG) as I0. cbv beta in I0.
  rewrite (Int_ext _ (fun x => Derive f x * g x + f x * Derive g x)) in I0 by (intros x; apply (Derive_prod d e); assumption).
  rewrite (Int_plus (d + e)) in I0; [lra| |].
  - apply (poly_mult d e); [apply (poly_weaken (d - 1)); [lia|apply poly_Derive, F]|apply (poly_weaken e); [lia|exact G]].
  - apply (poly_mult d e); [exact F|apply (poly_weaken (e - 1)); [lia|apply poly_Derive, G]].
Qed.
Lemma Int_parts_n d e f g n : poly d f -> poly e g ->
  (forall k a, (k < n)%nat -> a = 1 \/ a = -1 -> Derive_n f (n - 1 - k) a * Derive_n g k a = 0) ->
  Int (fun x => Derive_n f n x * g x) = (-1) ^ n * Int (fun x => f x * Derive_n g n x).
Proof.
  intros F. revert e g. induction n as [|n IH]; intros e g G V.
  - cbn [pow Derive_n]. rewrite Rmult_1_l. reflexivity.
  - rewrite (Int_ext _ (fun x => Derive (Derive_n f n) x * g x)) by reflexivity. rewrite (Int_parts (d - n) e) by (try exact G; apply poly_Derive_n, F).
    pose proof (V 0%nat 1 ltac:(lia) (or_introl eq_refl)) as V1. pose proof (V 0%nat (-1) ltac:(lia) (or_intror eq_refl)) as V2. replace (S n - 1 - 0)%nat with n in V1, V2 by lia. cbn [Derive_n] in V1, V2. rewrite V1, V2.
    rewrite (IH (e - 1)%nat (Derive g)).
    + cbn [pow]. rewrite (Int_ext (fun x => f x * Derive_n (Derive g) n x) (fun x => f x * Derive_n g (S n) x)); [ring|]. intros x. f_equal. rewrite (Derive_n_comp g n 1 x : Derive_n (Derive g) n x = Derive_n g (n + 1) x). f_equal. lia.
    + apply poly_Derive, G.
    + intros k a Hk Ha. pose proof (V (S k) a ltac:(lia) Ha) as W. replace (S n - 1 - S k)%nat with (n - 1 - k)%nat in W by lia. rewrite (Derive_n_comp g k 1 a : Derive_n (Derive g) k a = Derive_n g (k + 1) a). replace (k + 1)%nat with (S k) by lia. exact W.
Qed.

(* ---- Chebyshev polynomials ---- *)
Fixpoint U (n : nat) (x : R) : R := match n with 0%nat => 1 | S p => match p with 0%nat => 2 * x | S q => 2 * x * U p x - U q x end end.
Fixpoint T (n : nat) (x : R) : R := match n with 0%nat => 1 | S p => match p with 0%nat => x | S q => 2 * x * T p x - T q x end end.
Lemma U_rec n x : U (S (S n)) x = 2 * x * U (S n) x - U n x. Proof. reflexivity. Qed.
Lemma T_rec n x : T (S (S n)) x = 2 * x * T (S n) x - T n x. Proof. reflexivity. Qed.
Lemma two_step (P : nat -> Prop) : P 0%nat -> P 1%nat -> (forall n, P n -> P (S n) -> P (S (S n))) -> forall n, P n.
Proof. intros P0 P1 PS n. assert (H : P n /\ P (S n)) by (induction n as [|n [A B]]; auto). apply H. Qed.
Lemma U_poly n : poly (S n) (U n).
Proof.
  induction n as [| |n IH1 IH2] using two_step.
  - apply (poly_ext _ (fun _ => 1)); [reflexivity|apply poly_const].
  - apply (poly_ext _ (fun x => x * 2)); [intros x; cbn; ring|]. apply poly_X, poly_const.
  - apply (poly_ext _ (fun x => 2 * (x * U (S n) x) + (-1) * U n x)); [intros x; rewrite U_rec; ring|]. apply poly_add; apply poly_scale; [apply poly_X, IH2|]. apply (poly_weaken (S n)); [lia|exact IH1].
Qed.
Lemma T_poly n : poly (S n) (T n).
Proof.
  induction n as [| |n IH1 IH2] using two_step.
  - apply (poly_ext _ (fun _ => 1)); [reflexivity|apply poly_const].
  - apply (poly_ext _ (fun x => x * 1)); [intros x; cbn; ring|]. apply poly_X, poly_const.
  - apply (poly_ext _ (fun x => 2 * (x * T (S n) x) + (-1) * T n x)); [intros x; rewrite T_rec; ring|]. apply poly_add; apply poly_scale; [apply poly_X, IH2|]. apply (poly_weaken (S n)); [lia|exact IH1].
Qed.
Lemma U_sin n t : sin (INR (S n) * t) = sin t * U n (cos t).
Proof.
  induction n as [| |n IH1 IH2] using two_step.
  - cbn [INR U]. rewrite Rmult_1_l. ring.
  - replace (INR 2 * t) with (2 * t) by (cbn; ring). rewrite sin_2a. cbn [U]. ring.
  - rewrite U_rec. transitivity (2 * cos t * sin (INR (S (S n)) * t) - sin (INR (S n) * t)); [|rewrite IH1, IH2; ring].
    rewrite (S_INR (S (S n))). replace ((INR (S (S n)) + 1) * t) with (INR (S (S n)) * t + t) by ring. replace (INR (S n) * t) with (INR (S (S n)) * t - t) by (rewrite (S_INR (S n)); ring). rewrite sin_plus, sin_minus. ring.
Qed.
Lemma U_opp n x : U n (- x) = (-1) ^ n * U n x.
Proof. induction n as [| |n IH1 IH2] using two_step; [cbn; ring|cbn; ring|]. rewrite !U_rec, IH1, IH2. cbn [pow]. ring. Qed.
Lemma T_U n x : T (S (S n)) x = x * U (S n) x - U n x.
Proof. induction n as [| |n IH1 IH2] using two_step; [cbn; ring|cbn; ring|]. rewrite (T_rec (S (S n))), IH1, IH2, (U_rec (S n)), (U_rec n). ring. Qed.
Lemma T_derive n x : is_derive (T (S n)) x (INR (S n) * U n x).
Proof.
  induction n as [| |n IH1 IH2] using two_step.
  - apply (der_ext (fun t => 1 * t ^ 1)); [intros t; cbn; ring|]. replace (INR 1 * U 0 x) with (1 * (INR 1 * x ^ 0)) by (cbn; ring). apply der_monomial.
  - apply (der_ext (fun t => 2 * t ^ 2 + -1)); [intros t; cbn; ring|]. replace (INR 2 * U 1 x) with (2 * (INR 2 * x ^ 1) + 0) by (cbn; ring). apply der_plus; [apply der_monomial|apply der_const].
  - apply (der_ext (fun t => 2 * t ^ 1 * T (S (S n)) t + (-1) * T (S n) t)); [intros t; rewrite (T_rec (S n)); ring|].
    replace (INR (S (S (S n))) * U (S (S n)) x) with ((2 * (INR 1 * x ^ 0) * T (S (S n)) x + 2 * x ^ 1 * (INR (S (S n)) * U (S n) x)) + (0 * T (S n) x + (-1) * (INR (S n) * U n x))).
    + apply der_plus; [apply (der_mult (fun t => 2 * t ^ 1) (T (S (S n)))); [apply der_monomial|exact IH2]|apply (der_mult (fun _ => -1) (T (S n))); [apply der_const|exact IH1]].
    + rewrite T_U, U_rec, !S_INR. cbn [pow INR]. ring.
Qed.
Lemma T_ends n : T n 1 = 1 /\ T n (-1) = (-1) ^ n.
Proof. induction n as [| |n [A1 A2] [B1 B2]] using two_step; [cbn; split; ring|cbn; split; ring|]. rewrite !T_rec, A1, A2, B1, B2. cbn [pow]. split; ring. Qed.
Lemma Int_U n : Int (U n) = (1 - (-1) ^ S n) / INR (S n).
Proof.
  assert (N : INR (S n) <> 0) by (apply not_0_INR; lia).
  pose proof (Int_Derive _ _ (T_poly (S n))) as H. destruct (T_ends (S n)) as [A B]. rewrite A, B in H. rewrite <- H.
  rewrite (Int_ext (Derive (T (S n))) (fun x => INR (S n) * U n x)) by (intros x; apply is_derive_unique, T_derive). rewrite (Int_scal (S n)) by apply U_poly. field. exact N.
Qed.

(* every polynomial is a combination of U 0, U 1, ... *)
Definition span (d : nat) (f : R -> R) : Prop := exists c : nat -> R, forall x, f x = rsum d (fun k => c k * U k x).
Lemma span_add d f g : span d f -> span d g -> span d (fun x => f x + g x).
Proof. intros (a & A) (b & B). exists (fun k => a k + b k). intros x. rewrite A, B, <- rsum_plus. apply rsum_ext. intros; ring. Qed.
Lemma span_scale d s f : span d f -> span d (fun x => s * f x).
Proof. intros (a & A). exists (fun k => s * a k). intros x. rewrite A, <- rsum_scal. apply rsum_ext. intros; ring. Qed.
Lemma span_U d n : (n < d)%nat -> span d (U n).
Proof. intros H. exists (fun k => if (k =? n)%nat then 1 else 0). intros x. rewrite (rsum_delta_l d n (fun k => U k x)) by exact H. reflexivity. Qed.
Lemma span_ext d f g : (forall x, f x = g x) -> span d f -> span d g.
Proof. intros E (a & A). exists a. intros x. rewrite <- E. apply A. Qed.
Lemma span_weaken d e f : (d <= e)%nat -> span d f -> span e f.
Proof.
  intros H (a & A). exists (fun k => if (k <? d)%nat then a k else 0). intros x. rewrite A. replace e with (d + (e - d))%nat by lia. rewrite rsum_add, (rsum_zero (e - d)), Rplus_0_r.
  - apply rsum_ext. intros k Hk. replace (k <? d)%nat with true by (symmetry; apply Nat.ltb_lt; lia). reflexivity.
  - intros k _. replace (d + k <? d)%nat with false by (symmetry; apply Nat.ltb_ge; lia). ring.
Qed.
Lemma span_X d f : span d f -> span (S d) (fun x => x * f x).
Proof.
  intros (a & A). apply (span_ext _ (fun x => rsum d (fun k => a k * (x * U k x)))); [intros x; rewrite A, <- rsum_scal; apply rsum_ext; intros; ring|]. clear f A.
  induction d as [|d IH]; [exists (fun _ => 0); intros x; cbn; ring|].
  cbn [rsum]. apply span_add; [apply (span_weaken (S d)); [lia|exact IH]|]. apply span_scale. destruct d as [|d].
  - apply (span_ext _ (fun x => / 2 * U 1 x)); [intros x; cbn; field|]. apply span_scale, span_U. lia.
  - apply (span_ext _ (fun x => / 2 * U (S (S d)) x + / 2 * U d x)); [intros x; rewrite U_rec; field|]. apply span_add; apply span_scale, span_U; lia.
Qed.
Lemma poly_span d : forall f, poly d f -> span d f.
Proof.
  induction d as [|d IH]; intros f (c & L & ->).
  - destruct c; [|cbn in L; lia]. exists (fun _ => 0). intros x. reflexivity.
  - destruct c as [|a c]; [exists (fun _ => 0); intros x; rewrite rsum_zero by (intros; ring); reflexivity|].
    apply (span_ext _ (fun x => a * U 0 x + x * poly_at c x)); [intros x; cbn; ring|]. apply span_add; [apply span_scale, span_U; lia|]. apply span_X, IH. exists c. split; [cbn in L; lia|reflexivity].
Qed.

(* ---- quadrature ---- *)
(* the rule sum_b w_b f(y_b) integrates exactly on [-1, 1] the polynomials of degree less than d, with nodes in [-1, 1] *)
Definition exact_rule (n d : nat) (y w : nat -> R) : Prop :=
  (forall b, (b < n)%nat -> -1 <= y b <= 1) /\ forall f, poly d f -> rsum n (fun b => w b * f (y b)) = Int f.
Lemma Int_span d c : Int (fun x => rsum d (fun k => c k * U k x)) = rsum d (fun k => c k * Int (U k)).
Proof.
  assert (P : forall d, poly d (fun x => rsum d (fun k => c k * U k x))).
  { clear d. induction d as [|d IH]; [apply poly_zero|]. cbn [rsum]. apply poly_add; [apply (poly_weaken d); [lia|exact IH]|apply poly_scale, U_poly]. }
  induction d as [|d IH]; [cbn [rsum]; rewrite Int_const; ring|]. cbn [rsum]. rewrite (Int_plus (S d)), IH, (Int_scal (S d)); [reflexivity|apply U_poly|apply (poly_weaken d); [lia|apply P]|apply poly_scale, U_poly].
Qed.
Lemma exact_by_U n d y w : (forall b, (b < n)%nat -> -1 <= y b <= 1) -> (forall k, (k < d)%nat -> rsum n (fun b => w b * U k (y b)) = Int (U k)) -> exact_rule n d y w.
Proof.
  intros B H. split; [exact B|]. intros f F. destruct (poly_span d f F) as (c & E). rewrite (Int_ext _ _ E), Int_span.
  rewrite (rsum_ext n _ (fun b => rsum d (fun k => c k * (w b * U k (y b))))) by (intros b _; rewrite E, <- rsum_scal; apply rsum_ext; intros; ring).
  rewrite rsum_swap. apply rsum_ext. intros k Hk. rewrite rsum_scal, H by exact Hk. reflexivity.
Qed.
