(* The recursive spherical harmonics: the polynomials, the central Clebsch-Gordan coefficients, homogeneity, equivariance. *)
From Coq Require Import Reals ZArith Arith Bool Lia Lra Psatz List.
From Coquelicot Require Import Complex.
From Verif Require Import PyBase IrrepsModel IrrepsProofs ArrayModel ArrayProofs LeadModel SumR CGModel CGProofs CGProofs2 CGProofs3 CGProofs4 CGProofs5 CGProofs6 CGProofs9 CGProofs10 WignerModel WignerProofs WignerProofs2 WignerProps WignerProps2 TPModel TPProofs EntryProofs.
From Verif Require RotationModel RotationProofs.
From Verif Require Import S2Model SHModel.
Import ListNotations.
Open Scope R_scope.

(* ---- the stretched coefficients ---- *)
Lemma racah_stretched B C k : (0 <= B)%Z -> (0 <= C)%Z -> forall a, (0 <= a <= B)%Z -> (0 <= Z.of_nat k - a <= C)%Z -> racah 0 B C a (Z.of_nat k) = sgn (Z.of_nat k - a).
Proof.
  intros HB HC. induction k as [|k IH]; intros a Ha Hb.
  - change (Z.of_nat 0) with 0%Z in *. assert (a = 0)%Z by lia. subst a. rewrite racah_0 by lia. rewrite Z.add_0_r, Z.add_0_l, Z.sub_0_r, !rf_nonneg by lia. pose proof (ff_pos B). pose proof (ff_pos C). change (sgn (0 - 0)) with 1. field. lra.
  - replace (Z.of_nat (S k)) with (Z.of_nat k + 1)%Z in * by lia. pose proof (racah_lower 0 B C a (Z.of_nat k + 1 - a) (Z.of_nat k) ltac:(lia) HB HC ltac:(lia) ltac:(lia) ltac:(lia)) as E.
    apply (Rmult_eq_reg_l (IZR (Z.of_nat k + 1))); [|apply not_0_IZR; lia]. rewrite <- E.
    assert (E1 : IZR a * racah 0 B C (a - 1) (Z.of_nat k) = IZR a * sgn (Z.of_nat k + 1 - a)).
    { destruct (Z.eq_dec a 0) as [->|N]; [ring|]. rewrite IH by lia. do 2 f_equal. lia. }
    assert (E2 : IZR (Z.of_nat k + 1 - a) * racah 0 B C a (Z.of_nat k) = - (IZR (Z.of_nat k + 1 - a) * sgn (Z.of_nat k + 1 - a))).
    { destruct (Z.eq_dec (Z.of_nat k + 1 - a) 0) as [->|N]; [ring|]. rewrite IH by lia. replace (Z.of_nat k + 1 - a)%Z with (Z.of_nat k - a + 1)%Z by lia. rewrite sgn_succ. ring. }
    rewrite E1, E2, minus_IZR. ring.
Qed.
Lemma cgz_stretched_pos B C a b : (0 <= a <= B)%Z -> (0 <= b <= C)%Z -> 0 < cgz 0 B C a b (a + b).
Proof.
  intros Ha Hb. rewrite cgz_in by lia. pose proof (racah_stretched B C (Z.to_nat (a + b)) ltac:(lia) ltac:(lia) a ltac:(lia) ltac:(lia)) as E. rewrite Z2Nat.id in E by lia. rewrite E. replace (a + b - a)%Z with b by ring.
  rewrite !Rmult_assoc, sgn_sq, !Rmult_1_r.
  assert (P : forall z, (0 <= z)%Z -> 0 < rf z) by (intros z Hz; rewrite rf_nonneg by exact Hz; apply Rinv_0_lt_compat, ff_pos).
  repeat apply Rmult_lt_0_compat; apply sqrt_lt_R0; repeat apply Rmult_lt_0_compat; try apply ff_pos; apply P; lia.
Qed.
Lemma Q_col_mid l r : (r < 2 * l + 1)%nat -> Q l r l = if (r =? l)%nat then om l else RtoC 0.
Proof. intros H. destruct (Nat.eqb_spec r l) as [->|N]; [apply Q_mid|apply Q_out; lia]. Qed.
Lemma om_add a b : om (a + b) = (om a * om b)%C.
Proof. unfold om. induction a as [|a IH]; [cbn [Nat.add cpow]; ring|]. cbn [Nat.add cpow]. rewrite IH. ring. Qed.
(* the coupling of the two central vectors is a positive multiple of the central vector *)
Lemma cg_central l1 l2 k : (k < 2 * (l1 + l2) + 1)%nat -> clebsch_gordan l1 l2 (l1 + l2) l1 l2 k = if (k =? l1 + l2)%nat then clebsch_gordan l1 l2 (l1 + l2) l1 l2 (l1 + l2) else 0.
Proof.
  intros Hk. destruct (Nat.eqb_spec k (l1 + l2)) as [->|N]; [reflexivity|]. unfold clebsch_gordan, clebsch_gordan_complex.
  rewrite (csum_pick1 _ l1) by (try lia; intros r Hr Nr; apply csum_zero; intros s _; apply csum_zero; intros n _; change (change_basis_real_to_complex l1 r l1) with (Q l1 r l1); rewrite (Q_out l1 r l1) by lia; ring).
  rewrite (csum_pick1 _ l2) by (try lia; intros r Hr Nr; apply csum_zero; intros n _; change (change_basis_real_to_complex l2 r l2) with (Q l2 r l2); rewrite (Q_out l2 r l2) by lia; ring).
  rewrite csum_zero; [reflexivity|]. intros n Hn. destruct (Nat.eq_dec n (l1 + l2)) as [->|Nn].
  - change (change_basis_real_to_complex (l1 + l2)) with (Q (l1 + l2)). rewrite (Q_out (l1 + l2) (l1 + l2) k) by lia. rewrite Cconj_R. ring.
  - pose proof (su2_closed 0 (2 * l1) (2 * l2) l1 l2 n ltac:(lia) ltac:(lia) ltac:(lia)) as E. cbn [Nat.add] in E. replace (2 * (l1 + l2))%nat with (2 * l1 + 2 * l2)%nat by lia. rewrite E, cgz_out by lia. ring.
Qed.
Lemma cg_central_pos l1 l2 : 0 < clebsch_gordan l1 l2 (l1 + l2) l1 l2 (l1 + l2).
Proof.
  unfold clebsch_gordan, clebsch_gordan_complex.
  rewrite (csum_pick1 _ l1) by (try lia; intros r Hr Nr; apply csum_zero; intros s _; apply csum_zero; intros n _; change (change_basis_real_to_complex l1 r l1) with (Q l1 r l1); rewrite (Q_out l1 r l1) by lia; ring).
  rewrite (csum_pick1 _ l2) by (try lia; intros r Hr Nr; apply csum_zero; intros n _; change (change_basis_real_to_complex l2 r l2) with (Q l2 r l2); rewrite (Q_out l2 r l2) by lia; ring).
  rewrite (csum_pick1 _ (l1 + l2)) by (try lia; intros n Hn Nn; change (change_basis_real_to_complex (l1 + l2)) with (Q (l1 + l2)); rewrite (Q_out (l1 + l2) n (l1 + l2)) by lia; rewrite Cconj_R; ring).
  change change_basis_real_to_complex with Q. rewrite !Q_mid, om_add, Cmult_conj.
  pose proof (su2_closed 0 (2 * l1) (2 * l2) l1 l2 (l1 + l2) ltac:(lia) ltac:(lia) ltac:(lia)) as E. cbn [Nat.add] in E. replace (2 * (l1 + l2))%nat with (2 * l1 + 2 * l2)%nat by lia. rewrite E.
  replace (om l1 * om l2 * (Cconj (om l1) * Cconj (om l2)) * RtoC (cgz (Z.of_nat 0) (Z.of_nat (2 * l1)) (Z.of_nat (2 * l2)) (Z.of_nat l1) (Z.of_nat l2) (Z.of_nat (l1 + l2))))%C with ((om l1 * Cconj (om l1)) * (om l2 * Cconj (om l2)) * RtoC (cgz (Z.of_nat 0) (Z.of_nat (2 * l1)) (Z.of_nat (2 * l2)) (Z.of_nat l1) (Z.of_nat l2) (Z.of_nat (l1 + l2))))%C by ring.
  rewrite !om_conj, !Cmult_1_l, Re_RtoC. rewrite Nat2Z.inj_add. apply cgz_stretched_pos; lia.
Qed.
Lemma central_norm_eq l1 l2 : central_norm l1 l2 (l1 + l2) = clebsch_gordan l1 l2 (l1 + l2) l1 l2 (l1 + l2).
Proof.
  unfold central_norm. rewrite (rsum_ext _ _ (fun k => if (k =? l1 + l2)%nat then clebsch_gordan l1 l2 (l1 + l2) l1 l2 (l1 + l2) ^ 2 else 0)).
  - rewrite (rsum_delta _ (l1 + l2) (fun _ => clebsch_gordan l1 l2 (l1 + l2) l1 l2 (l1 + l2) ^ 2)) by lia. apply sqrt_pow2. pose proof (cg_central_pos l1 l2). lra.
  - intros k Hk. rewrite cg_central by exact Hk. destruct (k =? l1 + l2)%nat; ring.
Qed.

(* ---- the polynomials ---- *)
Definition half (l : nat) : nat := biggest_power_of_two (l - 1).
Lemma half_spec l : (2 <= l)%nat -> (1 <= half l < l)%nat.
Proof.
  intros H. unfold half, biggest_power_of_two. destruct (Nat.log2_spec (l - 1) ltac:(lia)) as [A B]. split; [|lia]. pose proof (Nat.pow_nonzero 2 (Nat.log2 (l - 1)) ltac:(lia)). lia.
Qed.
(* P l x: the harmonics of degree l with "norm" normalization, as functions of the index *)
Fixpoint Pf (fuel l : nat) (x : nat -> R) : nat -> R :=
  match fuel with
  | O => fun _ => 0
  | S f =>
      match l with
      | O => fun _ => 1
      | S O => x
      | _ => let l2 := half l in let l1 := (l - l2)%nat in
             fun k => rsum (2 * l1 + 1) (fun i => rsum (2 * l2 + 1) (fun j => Pf f l1 x i * Pf f l2 x j * (/ central_norm l1 l2 l * clebsch_gordan l1 l2 l i j k)))
      end
  end.
Lemma Pf_S f l x k : Pf (S f) (S (S l)) x k = let l2 := half (S (S l)) in let l1 := (S (S l) - l2)%nat in
  rsum (2 * l1 + 1) (fun i => rsum (2 * l2 + 1) (fun j => Pf f l1 x i * Pf f l2 x j * (/ central_norm l1 l2 (S (S l)) * clebsch_gordan l1 l2 (S (S l)) i j k))).
Proof. reflexivity. Qed.
Definition P (l : nat) (x : nat -> R) : nat -> R := Pf (S l) l x.
Lemma Pf_fuel f : forall g l x k, (l < f)%nat -> (l < g)%nat -> Pf f l x k = Pf g l x k.
Proof.
  induction f as [|f IH]; intros g l x k Hf Hg; [lia|]. destruct g as [|g]; [lia|]. destruct l as [|[|l]]; [reflexivity|reflexivity|]. cbn [Pf]. pose proof (half_spec (S (S l)) ltac:(lia)) as Hh.
  apply rsum_ext. intros i _. apply rsum_ext. intros j _. rewrite (IH g (S (S l) - half (S (S l)))%nat) by lia. rewrite (IH g (half (S (S l)))) by lia. reflexivity.
Qed.
Lemma P_0 x k : P 0 x k = 1. Proof. reflexivity. Qed.
Lemma P_1 x k : P 1 x k = x k. Proof. reflexivity. Qed.
Lemma P_step l x k : (2 <= l)%nat -> let l2 := half l in let l1 := (l - l2)%nat in
  P l x k = / central_norm l1 l2 l * rsum (2 * l1 + 1) (fun i => rsum (2 * l2 + 1) (fun j => P l1 x i * P l2 x j * clebsch_gordan l1 l2 l i j k)).
Proof.
  intros H. cbv zeta. pose proof (half_spec l H) as Hh. destruct l as [|[|l]]; [lia|lia|]. unfold P at 1. rewrite Pf_S. cbv zeta. set (n := / central_norm _ _ _).
  rewrite <- rsum_scal. apply rsum_ext. intros i _. rewrite <- rsum_scal. apply rsum_ext. intros j _. unfold P. rewrite (Pf_fuel (S (S l)) (S (S (S l) - half (S (S l))))) by lia. rewrite (Pf_fuel (S (S l)) (S (half (S (S l))))) by lia. ring.
Qed.
(* induction along the recursion *)
Lemma P_ind (Pr : nat -> Prop) : Pr 0%nat -> Pr 1%nat -> (forall l1 l2, (1 <= l1)%nat -> (1 <= l2)%nat -> half (l1 + l2) = l2 -> Pr l1 -> Pr l2 -> Pr (l1 + l2)%nat) -> forall l, Pr l.
Proof.
  intros H0 H1 H. apply (well_founded_induction lt_wf). intros l IH. destruct l as [|[|l]]; [exact H0|exact H1|]. pose proof (half_spec (S (S l)) ltac:(lia)) as Hh. set (l2 := half (S (S l))) in *.
  replace (S (S l)) with (S (S l) - l2 + l2)%nat by lia. apply H; try lia; [|apply IH; lia|apply IH; lia]. replace (S (S l) - l2 + l2)%nat with (S (S l)) by lia. reflexivity.
Qed.
Lemma P_sum l1 l2 x k : (1 <= l1)%nat -> (1 <= l2)%nat -> half (l1 + l2) = l2 ->
  P (l1 + l2) x k = / central_norm l1 l2 (l1 + l2) * rsum (2 * l1 + 1) (fun i => rsum (2 * l2 + 1) (fun j => P l1 x i * P l2 x j * clebsch_gordan l1 l2 (l1 + l2) i j k)).
Proof. intros A B E. pose proof (P_step (l1 + l2) x k ltac:(lia)) as S. cbv zeta in S. rewrite E in S. replace (l1 + l2 - l2)%nat with l1 in S by lia. exact S. Qed.

Lemma P_ext l x y : (forall i, (i < 3)%nat -> x i = y i) -> forall k, (k < 2 * l + 1)%nat -> P l x k = P l y k.
Proof.
  intros E. induction l as [| |l1 l2 A B Hh I1 I2] using P_ind; intros k Hk; [reflexivity|apply E; exact Hk|]. rewrite !P_sum by assumption. f_equal. apply rsum_ext. intros i Hi. apply rsum_ext. intros j Hj. rewrite I1, I2 by assumption. reflexivity.
Qed.
(* homogeneous of degree l *)
Lemma P_scale l t x k : P l (fun i => t * x i) k = t ^ l * P l x k.
Proof.
  revert k. induction l as [| |l1 l2 A B Hh I1 I2] using P_ind; intros k; [cbn; ring|rewrite !P_1; ring|]. rewrite !P_sum by assumption. rewrite <- !Rmult_assoc, (Rmult_comm (t ^ _)), Rmult_assoc. f_equal. rewrite <- rsum_scal. apply rsum_ext. intros i _. rewrite <- rsum_scal. apply rsum_ext. intros j _. rewrite I1, I2, pow_add. ring.
Qed.
(* the value at the pole e_y *)
Definition pole : nat -> R := fun i => if (i =? 1)%nat then 1 else 0.
Lemma P_pole l : forall k, (k < 2 * l + 1)%nat -> P l pole k = if (k =? l)%nat then 1 else 0.
Proof.
  induction l as [| |l1 l2 A B Hh I1 I2] using P_ind; intros k Hk.
  - assert (k = 0)%nat by lia. subst k. reflexivity.
  - reflexivity.
  - rewrite P_sum by assumption. rewrite (rsum_ext _ _ (fun i => if (i =? l1)%nat then clebsch_gordan l1 l2 (l1 + l2) l1 l2 k else 0)).
    + rewrite (rsum_delta _ l1 (fun _ => clebsch_gordan l1 l2 (l1 + l2) l1 l2 k)) by lia. rewrite cg_central by exact Hk. rewrite central_norm_eq. pose proof (cg_central_pos l1 l2). destruct (k =? l1 + l2)%nat; [|ring]. apply Rinv_l. lra.
    + intros i Hi. rewrite (rsum_ext _ _ (fun j => if (j =? l2)%nat then P l1 pole i * clebsch_gordan l1 l2 (l1 + l2) i l2 k else 0)).
      * rewrite (rsum_delta _ l2 (fun _ => P l1 pole i * clebsch_gordan l1 l2 (l1 + l2) i l2 k)) by lia. rewrite I1 by exact Hi. destruct (Nat.eqb_spec i l1) as [->|]; ring.
      * intros j Hj. rewrite (I2 j Hj). destruct (Nat.eqb_spec j l2) as [->|]; ring.
Qed.
(* equivariance under any family of matrices for which the coefficients are equivariant *)
Lemma ppow_add p a b : ppow p (a + b) = pmul (ppow p a) (ppow p b).
Proof. induction a as [|a IH]; [cbn; now destruct (ppow p b)|]. cbn [Nat.add ppow]. rewrite IH. destruct p, (ppow _ a), (ppow _ b); reflexivity. Qed.
Lemma stretched_in p l1 l2 : In (Irrep (l1 + l2) (ppow p (l1 + l2))) (ir_mul (Irrep l1 (ppow p l1)) (Irrep l2 (ppow p l2))).
Proof. apply ir_mul_in. cbn [ir_l ir_p]. split; [apply ppow_add|lia]. Qed.
Lemma rsum_swap4 a b c d (F : nat -> nat -> nat -> nat -> R) : rsum a (fun i => rsum b (fun j => rsum c (fun i' => rsum d (fun j' => F i j i' j')))) = rsum c (fun i' => rsum d (fun j' => rsum a (fun i => rsum b (fun j => F i j i' j')))).
Proof.
  transitivity (rsum a (fun i => rsum c (fun i' => rsum b (fun j => rsum d (fun j' => F i j i' j'))))); [apply rsum_ext; intros i _; apply rsum_swap|].
  transitivity (rsum a (fun i => rsum c (fun i' => rsum d (fun j' => rsum b (fun j => F i j i' j'))))); [apply rsum_ext; intros i _; apply rsum_ext; intros i' _; apply rsum_swap|].
  rewrite rsum_swap. apply rsum_ext. intros i' _. apply rsum_swap.
Qed.
Lemma P_equivariant D p x : intertwines clebsch_gordan D -> mat_at (D (Irrep 0 Even)) 0 0 = 1 ->
  forall l k, (k < 2 * l + 1)%nat -> P l (fun i => rsum 3 (fun j => mat_at (D (Irrep 1 p)) i j * x j)) k = rsum (2 * l + 1) (fun k' => mat_at (D (Irrep l (ppow p l))) k k' * P l x k').
Proof.
  intros HI H0 l. induction l as [| |l1 l2 A B Hh I1 I2] using P_ind; intros k Hk.
  - assert (k = 0)%nat by lia. subst k. cbn [Nat.mul Nat.add rsum ppow]. rewrite H0, !P_0. ring.
  - rewrite P_1. replace (ppow p 1) with p by (destruct p; reflexivity). reflexivity.
  - rewrite P_sum by assumption. set (n := / central_norm _ _ _).
    transitivity (n * rsum (2 * l1 + 1) (fun i => rsum (2 * l2 + 1) (fun j => P l1 x i * P l2 x j * rsum (2 * (l1 + l2) + 1) (fun k' => mat_at (D (Irrep (l1 + l2) (ppow p (l1 + l2)))) k k' * clebsch_gordan l1 l2 (l1 + l2) i j k')))).
    + f_equal. transitivity (rsum (2 * l1 + 1) (fun i => rsum (2 * l2 + 1) (fun j => rsum (2 * l1 + 1) (fun i' => rsum (2 * l2 + 1) (fun j' => mat_at (D (Irrep l1 (ppow p l1))) i i' * mat_at (D (Irrep l2 (ppow p l2))) j j' * clebsch_gordan l1 l2 (l1 + l2) i j k * (P l1 x i' * P l2 x j')))))).
      * apply rsum_ext. intros i Hi. apply rsum_ext. intros j Hj. rewrite I1, I2 by assumption. rewrite rsum_prod, <- rsum_scal_r. apply rsum_ext. intros i' _. rewrite <- rsum_scal_r. apply rsum_ext. intros j' _. ring.
      * transitivity (rsum (2 * l1 + 1) (fun i' => rsum (2 * l2 + 1) (fun j' => rsum (2 * l1 + 1) (fun i => rsum (2 * l2 + 1) (fun j => mat_at (D (Irrep l1 (ppow p l1))) i i' * mat_at (D (Irrep l2 (ppow p l2))) j j' * clebsch_gordan l1 l2 (l1 + l2) i j k * (P l1 x i' * P l2 x j')))))).
        -- exact (rsum_swap4 _ _ _ _ (fun i j i' j' => mat_at (D (Irrep l1 (ppow p l1))) i i' * mat_at (D (Irrep l2 (ppow p l2))) j j' * clebsch_gordan l1 l2 (l1 + l2) i j k * (P l1 x i' * P l2 x j'))).
        -- apply rsum_ext. intros i Hi. apply rsum_ext. intros j Hj. pose proof (HI (Irrep l1 (ppow p l1)) (Irrep l2 (ppow p l2)) (Irrep (l1 + l2) (ppow p (l1 + l2))) i j k (stretched_in p l1 l2) Hi Hj Hk) as E. cbn [ir_l] in E. unfold ir_dim in E. cbn [ir_l] in E. rewrite E, <- rsum_scal. apply rsum_ext. intros i' _. rewrite <- rsum_scal. apply rsum_ext. intros j' _. ring.
    + transitivity (rsum (2 * (l1 + l2) + 1) (fun k' => rsum (2 * l1 + 1) (fun i => rsum (2 * l2 + 1) (fun j => n * (P l1 x i * P l2 x j * (mat_at (D (Irrep (l1 + l2) (ppow p (l1 + l2)))) k k' * clebsch_gordan l1 l2 (l1 + l2) i j k')))))).
      * symmetry. rewrite rsum_swap, <- rsum_scal. apply rsum_ext. intros i _. rewrite rsum_swap, <- rsum_scal. apply rsum_ext. intros j _. rewrite <- !rsum_scal. reflexivity.
      * apply rsum_ext. intros k' Hk'. rewrite P_sum by assumption. fold n. rewrite <- !rsum_scal. apply rsum_ext. intros i _. rewrite <- !rsum_scal. apply rsum_ext. intros j _. ring.
Qed.
