(* The harmonics along a one-parameter group of rotations, and their values in spherical coordinates: the recursive and the Legendre algorithms agree. *)
From Coq Require Import Reals Lra ZArith Lia List Bool Arith.
From Coquelicot Require Import Coquelicot.
From Verif Require Import PyBase IrrepsModel IrrepsProofs ArrayModel LeadModel SumR CGModel EntryProofs CGProofs3 CGProofs5 CGProofs9 CGProofs11 RotationModel RotationProofs RadialProofs PolyProofs TrigProofs S2Model LegendreProofs S2Proofs SHModel SHProofs SHProofs2.
Import ListNotations.
Open Scope R_scope.

Lemma der_rsum n (f : nat -> R -> R) (d : nat -> R) x : (forall k, (k < n)%nat -> is_derive (f k) x (d k)) -> is_derive (fun t => rsum n (fun k => f k t)) x (rsum n d).
Proof.
  induction n as [|n IH]; intros H; [exact (der_const 0 x)|]. cbn [rsum]. apply (der_plus (fun t => rsum n (fun k => f k t)) (f n)); [apply IH; intros; apply H; lia|apply H; lia].
Qed.
Lemma der_scal c (f : R -> R) d x : is_derive f x d -> is_derive (fun t => c * f t) x (c * d).
Proof. intros H. apply is_derive_Reals. apply is_derive_Reals in H. exact (derivable_pt_lim_scal f c x d H). Qed.
Lemma der_eq (f : R -> R) (x a b : R) : a = b -> is_derive f x a -> is_derive f x b.
Proof. intros ->. exact (fun H => H). Qed.
Lemma der_opp (f : R -> R) x d : is_derive f x d -> is_derive (fun t => - f t) x (- d).
Proof. intros H. apply is_derive_Reals. apply is_derive_Reals in H. exact (derivable_pt_lim_opp f x d H). Qed.

(* infinitesimal equivariance *)
Lemma P_along a (x : R -> nat -> R) (t : R) : (forall i, (i < 3)%nat -> is_derive (fun s => x s i) t (rsum 3 (fun j => generators 1 a i j * x t j))) ->
  forall l k, (k < 2 * l + 1)%nat -> is_derive (fun s => P l (x s) k) t (rsum (2 * l + 1) (fun k' => generators l a k k' * P l (x t) k')).
Proof.
  intros Hx l. induction l as [| |l1 l2 A B Hh I1 I2] using P_ind; intros k Hk.
  - assert (k = 0)%nat by lia. subst k. apply (der_eq (fun s => P 0 (x s) 0%nat) t 0); [|exact (der_const 1 t)]. change (2 * 0 + 1)%nat with 1%nat. cbn [rsum]. assert (Z : generators 0 a 0 0 = 0) by (pose proof (generators_antisym 0 a 0 0 ltac:(lia) ltac:(lia)); lra). rewrite Z. ring.
  - exact (Hx k Hk).
  - set (c := / central_norm l1 l2 (l1 + l2)).
    apply (der_ext (fun s => c * rsum (2 * l1 + 1) (fun i => rsum (2 * l2 + 1) (fun j => P l1 (x s) i * P l2 (x s) j * clebsch_gordan l1 l2 (l1 + l2) i j k)))); [intros s; symmetry; now apply P_sum|].
    eapply der_eq; [|apply der_scal; apply (der_rsum _ (fun i s => rsum (2 * l2 + 1) (fun j => P l1 (x s) i * P l2 (x s) j * clebsch_gordan l1 l2 (l1 + l2) i j k))); intros i Hi; apply (der_rsum _ (fun j s => P l1 (x s) i * P l2 (x s) j * clebsch_gordan l1 l2 (l1 + l2) i j k)); intros j Hj;
      apply (der_ext (fun s => clebsch_gordan l1 l2 (l1 + l2) i j k * (P l1 (x s) i * P l2 (x s) j))); [intros s; ring|]; apply der_scal; apply (der_mult (fun s => P l1 (x s) i) (fun s => P l2 (x s) j)); [apply I1, Hi|apply I2, Hj]].
    symmetry. rewrite (rsum_ext _ _ (fun k' => c * (generators (l1 + l2) a k k' * rsum (2 * l1 + 1) (fun i => rsum (2 * l2 + 1) (fun j => P l1 (x t) i * P l2 (x t) j * clebsch_gordan l1 l2 (l1 + l2) i j k'))))) by (intros k' _; rewrite P_sum by assumption; fold c; ring).
    rewrite rsum_scal. symmetry. f_equal.
    transitivity (rsum (2 * l1 + 1) (fun i => rsum (2 * l2 + 1) (fun j => P l1 (x t) i * P l2 (x t) j * rsum (2 * (l1 + l2) + 1) (fun m => generators (l1 + l2) a k m * clebsch_gordan l1 l2 (l1 + l2) i j m)))).
    + rewrite (rsum_ext _ _ (fun i => rsum (2 * l2 + 1) (fun j => rsum (2 * l1 + 1) (fun i' => clebsch_gordan l1 l2 (l1 + l2) i j k * generators l1 a i i' * (P l1 (x t) i' * P l2 (x t) j)) + rsum (2 * l2 + 1) (fun j' => clebsch_gordan l1 l2 (l1 + l2) i j k * generators l2 a j j' * (P l1 (x t) i * P l2 (x t) j'))))).
      2:{ intros i _. apply rsum_ext. intros j _. rewrite Rmult_plus_distr_l. f_equal; [rewrite <- rsum_scal_r, <- rsum_scal; apply rsum_ext; intros; ring|rewrite <- !rsum_scal; apply rsum_ext; intros; ring]. }
      rewrite (rsum_ext _ _ (fun i => rsum (2 * l2 + 1) (fun j => rsum (2 * l1 + 1) (fun i' => clebsch_gordan l1 l2 (l1 + l2) i j k * generators l1 a i i' * (P l1 (x t) i' * P l2 (x t) j))) + rsum (2 * l2 + 1) (fun j => rsum (2 * l2 + 1) (fun j' => clebsch_gordan l1 l2 (l1 + l2) i j k * generators l2 a j j' * (P l1 (x t) i * P l2 (x t) j'))))) by (intros; apply rsum_plus).
      rewrite rsum_plus.
      symmetry. rewrite (rsum_ext _ _ (fun i => rsum (2 * l2 + 1) (fun j => P l1 (x t) i * P l2 (x t) j * rsum (2 * l1 + 1) (fun i' => clebsch_gordan l1 l2 (l1 + l2) i' j k * generators l1 a i' i)) + rsum (2 * l2 + 1) (fun j => P l1 (x t) i * P l2 (x t) j * rsum (2 * l2 + 1) (fun j' => clebsch_gordan l1 l2 (l1 + l2) i j' k * generators l2 a j' j)))).
      2:{ intros i Hi. rewrite <- rsum_plus. apply rsum_ext. intros j Hj. rewrite <- cg_couples by assumption. ring. }
      rewrite rsum_plus. f_equal.
      * transitivity (rsum (2 * l1 + 1) (fun i => rsum (2 * l2 + 1) (fun j => rsum (2 * l1 + 1) (fun i' => clebsch_gordan l1 l2 (l1 + l2) i' j k * generators l1 a i' i * (P l1 (x t) i * P l2 (x t) j))))); [apply rsum_ext; intros i _; apply rsum_ext; intros j _; rewrite <- rsum_scal; apply rsum_ext; intros; ring|].
        transitivity (rsum (2 * l1 + 1) (fun i => rsum (2 * l1 + 1) (fun i' => rsum (2 * l2 + 1) (fun j => clebsch_gordan l1 l2 (l1 + l2) i' j k * generators l1 a i' i * (P l1 (x t) i * P l2 (x t) j))))); [apply rsum_ext; intros i _; apply rsum_swap|].
        rewrite rsum_swap. apply rsum_ext. intros i _. apply rsum_swap.
      * apply rsum_ext. intros i _. transitivity (rsum (2 * l2 + 1) (fun j => rsum (2 * l2 + 1) (fun j' => clebsch_gordan l1 l2 (l1 + l2) i j' k * generators l2 a j' j * (P l1 (x t) i * P l2 (x t) j)))); [apply rsum_ext; intros j _; rewrite <- rsum_scal; apply rsum_ext; intros; ring|]. apply rsum_swap.
    + transitivity (rsum (2 * l1 + 1) (fun i => rsum (2 * l2 + 1) (fun j => rsum (2 * (l1 + l2) + 1) (fun m => P l1 (x t) i * P l2 (x t) j * (generators (l1 + l2) a k m * clebsch_gordan l1 l2 (l1 + l2) i j m))))); [apply rsum_ext; intros i _; apply rsum_ext; intros j _; now rewrite rsum_scal|].
      transitivity (rsum (2 * l1 + 1) (fun i => rsum (2 * (l1 + l2) + 1) (fun m => rsum (2 * l2 + 1) (fun j => P l1 (x t) i * P l2 (x t) j * (generators (l1 + l2) a k m * clebsch_gordan l1 l2 (l1 + l2) i j m))))); [apply rsum_ext; intros i _; apply rsum_swap|].
      rewrite rsum_swap. apply rsum_ext. intros m _. rewrite <- rsum_scal. apply rsum_ext. intros i _. rewrite <- rsum_scal. apply rsum_ext. intros j _. ring.
Qed.

(* a linear differential equation with an antisymmetric matrix has at most one solution *)
Lemma ode_unique n (G : nat -> nat -> R) (f g : nat -> R -> R) t0 : (forall i j, (i < n)%nat -> (j < n)%nat -> G i j = - G j i) ->
  (forall t k, (k < n)%nat -> is_derive (f k) t (rsum n (fun j => G k j * f j t))) -> (forall t k, (k < n)%nat -> is_derive (g k) t (rsum n (fun j => G k j * g j t))) ->
  (forall k, (k < n)%nat -> f k t0 = g k t0) -> forall t k, (k < n)%nat -> f k t = g k t.
Proof.
  intros HG Hf Hg H0. set (d := fun k t => f k t - g k t). set (E := fun t => rsum n (fun k => d k t * d k t)).
  assert (Hd : forall t k, (k < n)%nat -> is_derive (d k) t (rsum n (fun j => G k j * d j t))).
  { intros t k Hk. apply (der_eq _ _ (rsum n (fun j => G k j * f j t) + - rsum n (fun j => G k j * g j t))); [rewrite <- rsum_opp, <- rsum_plus; apply rsum_ext; intros; unfold d; ring|]. apply (der_plus (f k) (fun t => - g k t)); [auto|]. apply der_opp. auto. }
  assert (HE : forall t, is_derive E t 0).
  { intros t. apply (der_eq _ _ (rsum n (fun k => rsum n (fun j => G k j * d j t) * d k t + d k t * rsum n (fun j => G k j * d j t)))).
    - set (S := rsum n (fun k => rsum n (fun j => d k t * (G k j * d j t)))). assert (SA : S = - S).
      { unfold S at 1. rewrite rsum_swap. unfold S. rewrite <- rsum_opp. apply rsum_ext. intros j Hj. rewrite <- rsum_opp. apply rsum_ext. intros k Hk. rewrite (HG k j) by assumption. ring. }
      rewrite (rsum_ext _ _ (fun k => 2 * rsum n (fun j => d k t * (G k j * d j t)))) by (intros; rewrite rsum_scal; ring). rewrite rsum_scal. fold S. lra.
    - apply (der_rsum n (fun k s => d k s * d k s)). intros k Hk. apply (der_mult (d k) (d k)); auto. }
  assert (C : forall t, E t = 0).
  { intros t. assert (E0 : E t0 = 0) by (apply rsum_zero; intros k Hk; unfold d; rewrite H0 by exact Hk; ring). rewrite <- E0. destruct (Rtotal_order t t0) as [L|[->|L]]; [|reflexivity|].
    - apply (eq_is_derive (V := R_NormedModule)); [|exact L]. intros s _. apply HE.
    - symmetry. apply (eq_is_derive (V := R_NormedModule)); [|exact L]. intros s _. apply HE. }
  intros t k Hk. specialize (C t). unfold E in C.
  assert (Z : d k t * d k t <= 0).
  { rewrite <- C. clear - Hk. induction n as [|n IH]; [lia|]. cbn [rsum]. pose proof (Rle_0_sqr (d n t)) as Q. unfold Rsqr in Q. destruct (Nat.eq_dec k n) as [->|N]; [|specialize (IH ltac:(lia)); lra]. pose proof (rsum_nonneg n (fun k => d k t * d k t) (fun k _ => Rle_0_sqr (d k t))). lra. }
  unfold d in Z. nra.
Qed.
