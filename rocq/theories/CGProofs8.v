(* Wigner matrices: orthogonal representations of the rotation group, intertwined by the coupling coefficients *)
From Coq Require Import Reals ZArith Arith Bool Lia Lra Psatz.
From Coquelicot Require Import Rcomplements Series PSeries Hierarchy ElemFct Complex.
From Verif Require Import SumR CGModel CGProofs CGProofs2 CGProofs3 CGProofs4 CGProofs5 CGProofs6 CGProofs7.
Open Scope R_scope.

Definition gen3 (l : nat) (v0 v1 v2 : R) : rmat := fun i j => v0 * generators l 0 i j + v1 * generators l 1 i j + v2 * generators l 2 i j.
Arguments wigner_D_from_log_coordinates l%nat_scope (v0 v1 v2)%R_scope _%nat_scope _%nat_scope.
Arguments generators l%nat_scope a%nat_scope i%nat_scope j%nat_scope.
Notation wD := wigner_D_from_log_coordinates.
Lemma wD_expm l v0 v1 v2 : wD l v0 v1 v2 = expm (2 * l + 1) (gen3 l v0 v1 v2).
Proof. reflexivity. Qed.
Lemma gen3_antisym l v0 v1 v2 i j : (i < 2 * l + 1)%nat -> (j < 2 * l + 1)%nat -> gen3 l v0 v1 v2 j i = gen3 l (- v0) (- v1) (- v2) i j.
Proof. intros Hi Hj. unfold gen3. rewrite !(generators_antisym l _ j i) by assumption. ring. Qed.

Theorem wD_intertwines l1 l2 l3 v0 v1 v2 k a b : (a < 2 * l1 + 1)%nat -> (b < 2 * l2 + 1)%nat -> (k < 2 * l3 + 1)%nat ->
  rsum (2 * l3 + 1) (fun m => wD l3 v0 v1 v2 k m * clebsch_gordan l1 l2 l3 a b m)
  = rsum (2 * l1 + 1) (fun i => rsum (2 * l2 + 1) (fun j => clebsch_gordan l1 l2 l3 i j k * wD l1 v0 v1 v2 i a * wD l2 v0 v1 v2 j b)).
Proof.
  intros Ha Hb Hk. rewrite !wD_expm. apply coupling_exp; try assumption. clear. intros a b k Ha Hb Hk.
  pose proof (cg_couples l1 l2 l3 0 a b k Ha Hb Hk) as E0. pose proof (cg_couples l1 l2 l3 1 a b k Ha Hb Hk) as E1. pose proof (cg_couples l1 l2 l3 2 a b k Ha Hb Hk) as E2.
  set (c := clebsch_gordan l1 l2 l3) in *.
  assert (L : forall n (f : nat -> R) (g0 g1 g2 : nat -> R), rsum n (fun i => f i * (v0 * g0 i + v1 * g1 i + v2 * g2 i)) = v0 * rsum n (fun i => f i * g0 i) + v1 * rsum n (fun i => f i * g1 i) + v2 * rsum n (fun i => f i * g2 i)).
  { intros. rewrite <- !rsum_scal, <- !rsum_plus. apply rsum_ext. intros; ring. }
  unfold gen3. rewrite !L. rewrite (rsum_ext (2 * l3 + 1) _ (fun m => c a b m * (v0 * generators l3 0 k m + v1 * generators l3 1 k m + v2 * generators l3 2 k m))) by (intros; ring). rewrite L.
  assert (X : forall x, rsum (2 * l3 + 1) (fun m => c a b m * generators l3 x k m) = rsum (2 * l3 + 1) (fun m => generators l3 x k m * c a b m)) by (intros; apply rsum_ext; intros; ring).
  rewrite !X, <- E0, <- E1, <- E2. ring.
Qed.

Lemma wD_transpose l v0 v1 v2 i j : (i < 2 * l + 1)%nat -> (j < 2 * l + 1)%nat -> wD l v0 v1 v2 j i = wD l (- v0) (- v1) (- v2) i j.
Proof. intros Hi Hj. rewrite !wD_expm. rewrite <- expm_transpose by assumption. apply expm_ext; try assumption. intros. now apply gen3_antisym. Qed.
Lemma wD_add l s t v0 v1 v2 i j : (i < 2 * l + 1)%nat -> (j < 2 * l + 1)%nat ->
  wD l ((s + t) * v0) ((s + t) * v1) ((s + t) * v2) i j = mmul (2 * l + 1) (wD l (s * v0) (s * v1) (s * v2)) (wD l (t * v0) (t * v1) (t * v2)) i j.
Proof.
  intros Hi Hj. rewrite !wD_expm. rewrite <- expm_plus; try assumption.
  - apply expm_ext; try assumption. intros. unfold gen3. ring.
  - intros p q Hp Hq. unfold mmul, gen3. apply rsum_ext. intros k Hk. ring.
Qed.
Lemma wD_zero l i j : (i < 2 * l + 1)%nat -> (j < 2 * l + 1)%nat -> wD l 0 0 0 i j = mone i j.
Proof. intros Hi Hj. rewrite wD_expm, <- (expm_zero (2 * l + 1)) by assumption. apply expm_ext; try assumption. intros. unfold gen3. ring. Qed.
Lemma wD_inverse l v0 v1 v2 i j : (i < 2 * l + 1)%nat -> (j < 2 * l + 1)%nat -> mmul (2 * l + 1) (wD l v0 v1 v2) (wD l (- v0) (- v1) (- v2)) i j = mone i j.
Proof.
  intros Hi Hj. pose proof (wD_add l 1 (-1) v0 v1 v2 i j Hi Hj) as E. replace (1 + -1) with 0 in E by ring. rewrite !Rmult_0_l, !Rmult_1_l, wD_zero in E by assumption.
  rewrite E. replace (- v0) with (-1 * v0) by ring. replace (- v1) with (-1 * v1) by ring. replace (- v2) with (-1 * v2) by ring. reflexivity.
Qed.
Theorem wD_orthogonal l v0 v1 v2 i j : (i < 2 * l + 1)%nat -> (j < 2 * l + 1)%nat ->
  rsum (2 * l + 1) (fun k => wD l v0 v1 v2 i k * wD l v0 v1 v2 j k) = mone i j /\ rsum (2 * l + 1) (fun k => wD l v0 v1 v2 k i * wD l v0 v1 v2 k j) = mone i j.
Proof.
  intros Hi Hj. split.
  - rewrite <- (wD_inverse l v0 v1 v2) by assumption. apply rsum_ext. intros k Hk. f_equal. now apply wD_transpose.
  - pose proof (wD_inverse l (- v0) (- v1) (- v2) i j Hi Hj) as E. rewrite !Ropp_involutive in E. rewrite <- E. apply rsum_ext. intros k Hk. f_equal. now apply wD_transpose.
Qed.

(* a product of rotations is represented by the product of the matrices, for every l *)
Lemma gens_0 a : generators 0 a 0 0 = 0.
Proof. pose proof (generators_antisym 0 a 0 0 ltac:(lia) ltac:(lia)). lra. Qed.
Lemma wD_l0 v0 v1 v2 : wD 0 v0 v1 v2 0 0 = 1.
Proof.
  rewrite wD_expm. transitivity (expm (2 * 0 + 1) (fun _ _ => 0) 0%nat 0%nat); [|rewrite expm_zero by lia; reflexivity]. apply expm_ext; try lia. intros i j Hi Hj. replace i with 0%nat by lia. replace j with 0%nat by lia. unfold gen3. rewrite !gens_0. ring.
Qed.
Lemma triangle_l1 l : triangle (2 * l) (2 * 1) (2 * S l) = true.
Proof.
  unfold triangle. cbv zeta. rewrite !andb_true_iff, !Z.leb_le, Z.eqb_eq. split; [split; lia|]. destruct (Z.abs_spec (Z.of_nat (2 * l) - Z.of_nat (2 * 1))) as [[_ E]|[_ E]]; rewrite E.
  - replace (_ - _)%Z with (2 * 2)%Z by lia. reflexivity.
  - replace (_ - _)%Z with (Z.of_nat (2 * l) * 2)%Z by lia. apply Z.mod_mul. lia.
Qed.

(* families of matrices, one for every l, intertwined by the coupling coefficients *)
Definition family_coupled (M : nat -> rmat) (l1 l2 l3 : nat) : Prop := forall k a b, (a < 2 * l1 + 1)%nat -> (b < 2 * l2 + 1)%nat -> (k < 2 * l3 + 1)%nat ->
  rsum (2 * l3 + 1) (fun m => M l3 k m * clebsch_gordan l1 l2 l3 a b m) = rsum (2 * l1 + 1) (fun i => rsum (2 * l2 + 1) (fun j => clebsch_gordan l1 l2 l3 i j k * M l1 i a * M l2 j b)).
Definition wfam (M : nat -> rmat) : Prop := M 0%nat 0%nat 0%nat = 1 /\ forall l1 l2 l3, family_coupled M l1 l2 l3.
Lemma wfam_wD v0 v1 v2 : wfam (fun l => wD l v0 v1 v2).
Proof. split; [apply wD_l0|]. intros l1 l2 l3 k a b Ha Hb Hk. now apply wD_intertwines. Qed.
Lemma wfam_ext M N : (forall l i j, (i < 2 * l + 1)%nat -> (j < 2 * l + 1)%nat -> M l i j = N l i j) -> wfam M -> wfam N.
Proof.
  intros E [M0 H]. split; [rewrite <- E by lia; exact M0|]. intros l1 l2 l3 k a b Ha Hb Hk.
  rewrite (rsum_ext (2 * l3 + 1) _ (fun m => M l3 k m * clebsch_gordan l1 l2 l3 a b m)) by (intros; rewrite E by assumption; reflexivity). rewrite H by assumption.
  apply rsum_ext. intros i Hi. apply rsum_ext. intros j Hj. rewrite !E by assumption. reflexivity.
Qed.
Lemma wfam_mul M N : wfam M -> wfam N -> wfam (fun l => mmul (2 * l + 1) (M l) (N l)).
Proof.
  intros [M0 HM] [N0 HN]. split.
  { unfold mmul. change (2 * 0 + 1)%nat with 1%nat. cbn [rsum]. rewrite M0, N0. ring. }
  intros l1 l2 l3 k a b Ha Hb Hk. set (d1 := (2 * l1 + 1)%nat) in *. set (d2 := (2 * l2 + 1)%nat) in *. set (d3 := (2 * l3 + 1)%nat) in *. set (c := clebsch_gordan l1 l2 l3).
  transitivity (rsum d3 (fun p => M l3 k p * rsum d3 (fun m => N l3 p m * c a b m))).
  { unfold mmul. rewrite (rsum_ext d3 _ (fun m => rsum d3 (fun p => M l3 k p * N l3 p m * c a b m))) by (intros; rewrite <- rsum_scal_r; reflexivity). rewrite rsum_swap. apply rsum_ext. intros p Hp. rewrite <- rsum_scal. apply rsum_ext. intros; ring. }
  rewrite (rsum_ext d3 _ (fun p => M l3 k p * rsum d1 (fun i => rsum d2 (fun j => c i j p * N l1 i a * N l2 j b)))) by (intros; f_equal; now apply (HN l1 l2 l3)).
  transitivity (rsum d1 (fun i => rsum d2 (fun j => rsum d3 (fun p => M l3 k p * c i j p) * (N l1 i a * N l2 j b)))).
  { rewrite (rsum_ext d3 _ (fun p => rsum d1 (fun i => rsum d2 (fun j => M l3 k p * c i j p * (N l1 i a * N l2 j b))))) by (intros; rewrite <- rsum_scal; apply rsum_ext; intros; rewrite <- rsum_scal; apply rsum_ext; intros; ring).
    rewrite rsum_swap. apply rsum_ext. intros i' Hi'. rewrite rsum_swap. apply rsum_ext. intros j' Hj'. now rewrite <- rsum_scal_r. }
  rewrite (rsum_ext d1 _ (fun i => rsum d2 (fun j => rsum d1 (fun i' => rsum d2 (fun j' => c i' j' k * (M l1 i' i * N l1 i a) * (M l2 j' j * N l2 j b)))))).
  2: { intros i' Hi'. apply rsum_ext. intros j' Hj'. pose proof (HM l1 l2 l3 k i' j' Hi' Hj' Hk) as HM'. fold d1 d2 d3 c in HM'. rewrite HM'. rewrite <- rsum_scal_r. apply rsum_ext. intros p Hp. rewrite <- rsum_scal_r. apply rsum_ext. intros; ring. }
  transitivity (rsum d1 (fun i' => rsum d2 (fun j' => rsum d1 (fun i => rsum d2 (fun j => c i' j' k * (M l1 i' i * N l1 i a) * (M l2 j' j * N l2 j b)))))).
  { rewrite (rsum_ext d1 _ (fun i => rsum d1 (fun i' => rsum d2 (fun j' => rsum d2 (fun j => c i' j' k * (M l1 i' i * N l1 i a) * (M l2 j' j * N l2 j b)))))).
    - rewrite rsum_swap. apply rsum_ext. intros i' Hi'. apply rsum_swap.
    - intros i' Hi'. rewrite rsum_swap. apply rsum_ext. intros p Hp. apply rsum_swap. }
  apply rsum_ext. intros i' Hi'. apply rsum_ext. intros j' Hj'. unfold mmul.
  rewrite Rmult_assoc, rsum_prod, <- rsum_scal. apply rsum_ext. intros p Hp. rewrite <- rsum_scal. apply rsum_ext. intros q Hq. ring.
Qed.
(* such a family is determined by its l = 1 member *)
Theorem wfam_unique M N : wfam M -> wfam N -> (forall i j, (i < 3)%nat -> (j < 3)%nat -> M 1%nat i j = N 1%nat i j) ->
  forall l i j, (i < 2 * l + 1)%nat -> (j < 2 * l + 1)%nat -> M l i j = N l i j.
Proof.
  intros [M0 HM] [N0 HN] E1. induction l as [|l IH]; intros i j Hi Hj.
  - replace i with 0%nat by lia. replace j with 0%nat by lia. congruence.
  - set (d := (2 * l + 1)%nat) in *. set (d' := (2 * S l + 1)%nat) in *. set (c := clebsch_gordan l 1 (S l)).
    assert (F : forall k a b, (k < d')%nat -> (a < d)%nat -> (b < 3)%nat -> rsum d' (fun m => M (S l) k m * c a b m) = rsum d' (fun m => N (S l) k m * c a b m)).
    { intros k a b Hk Ha Hb. etransitivity; [apply (HM l 1%nat (S l)); assumption|]. symmetry. etransitivity; [apply (HN l 1%nat (S l)); assumption|].
      apply rsum_ext. intros p Hp. apply rsum_ext. intros q Hq. rewrite IH, E1 by assumption. reflexivity. }
    assert (G : forall f : nat -> R, rsum d (fun a => rsum 3 (fun b => rsum d' (fun m => f m * c a b m) * c a b j)) = f j * / INR d').
    { intro f. transitivity (rsum d' (fun m => f m * rsum d (fun a => rsum 3 (fun b => c a b m * c a b j)))).
      - rewrite (rsum_ext d _ (fun a => rsum d' (fun m => rsum 3 (fun b => f m * (c a b m * c a b j))))).
        + rewrite rsum_swap. apply rsum_ext. intros m Hm. rewrite <- rsum_scal. apply rsum_ext. intros a Ha. now rewrite rsum_scal.
        + intros a Ha. rewrite rsum_swap. apply rsum_ext. intros b Hb. rewrite <- rsum_scal_r. apply rsum_ext. intros; ring.
      - rewrite (rsum_ext d' _ (fun m => (if (m =? j)%nat then 1 else 0) * (f m * / INR d'))).
        + now rewrite (rsum_delta_l d' j (fun m => f m * / INR d')).
        + intros m Hm. pose proof (cg_gram l 1 (S l) m j (triangle_l1 l) Hm Hj) as G0. change (2 * 1 + 1)%nat with 3%nat in G0. fold c d d' in G0. rewrite G0. destruct (m =? j)%nat; ring. }
    assert (P : 0 < INR d') by (apply lt_0_INR; unfold d'; lia).
    apply (Rmult_eq_reg_r (/ INR d')); [|apply Rgt_not_eq, Rinv_0_lt_compat, P]. rewrite <- !G. apply rsum_ext. intros a Ha. apply rsum_ext. intros b Hb. f_equal. now apply F.
Qed.
