(* C40: the Clebsch-Gordan coefficients; and the equivariance statements of C22, C23, C24, C27, C30, C31 with the coefficients and matrices the library computes, for every element of O(3) *)
From Coq Require Import Reals ZArith Arith Bool Lia Lra Psatz List.
From Coquelicot Require Import Complex.
From Verif Require Import PyBase IrrepsModel IrrepsProofs ArrayModel ArrayProofs LeadModel SumR CGModel CGProofs2 CGProofs3 CGProofs4 CGProofs5 CGProofs6 CGProofs7 CGProofs8 CGProofs9 CGProofs10 CGProofs13 WignerModel WignerProofs LeadProofs ArrayOps SliceProofs2 BilinProofs EquivProofs EquivProofs2 ArrayProps3 LinearModel LinearProofs LinearProps TPModel TPProofs TPProps TPProps2 TPProps3 WignerProofs2 WignerProps EntryProofs.
From Verif Require RotationModel RotationProofs.
Import RotationModel RotationProofs ListNotations.
Open Scope R_scope.

(* ---- the complex coefficients; n = 2j ---- *)
(* selection rule m1 + m2 = m3, where m = -j + index *)
Theorem C40_selection n1 n2 n3 a b k : (a <= n1)%nat -> (b <= n2)%nat -> (k <= n3)%nat ->
  (- INR n1 / 2 + INR a) + (- INR n2 / 2 + INR b) <> - INR n3 / 2 + INR k -> su2_clebsch_gordan n1 n2 n3 a b k = 0.
Proof.
  intros Ha Hb Hk H. unfold su2_clebsch_gordan. destruct (triangle n1 n2 n3) eqn:T; cbn [andb]; [|unfold Rdiv; ring].
  destruct (Z.abs _ <=? Z.of_nat n3)%Z; cbn [andb]; [|unfold Rdiv; ring]. destruct (Z.eqb_spec (Z.of_nat k) ((Z.of_nat n3 + (2 * Z.of_nat a - Z.of_nat n1) + (2 * Z.of_nat b - Z.of_nat n2)) / 2)) as [E|]; [|unfold Rdiv; ring].
  exfalso. apply H. destruct (triangle_split n1 n2 n3 T) as (A & B & C & -> & -> & ->).
  replace (Z.of_nat (B + C) + (2 * Z.of_nat a - Z.of_nat (A + B)) + (2 * Z.of_nat b - Z.of_nat (A + C)))%Z with (2 * (Z.of_nat a + Z.of_nat b - Z.of_nat A))%Z in E by lia.
  rewrite (Z.mul_comm 2), Z.div_mul in E by discriminate. assert (E' : (k + A = a + b)%nat) by (clear H; lia). apply (f_equal INR) in E'. rewrite !plus_INR in E'. rewrite ?plus_INR. clear H. lra.
Qed.
(* triangle rule: zero unless |j1 - j2| <= j3 <= j1 + j2 and j1 + j2 + j3 is an integer *)
Theorem C40_triangle n1 n2 n3 a b k : ~ ((n3 <= n1 + n2)%nat /\ (n1 <= n2 + n3)%nat /\ (n2 <= n1 + n3)%nat /\ Nat.even (n1 + n2 + n3) = true) -> su2_clebsch_gordan n1 n2 n3 a b k = 0.
Proof.
  intros H. apply not_triangle. destruct (triangle n1 n2 n3) eqn:T; [|reflexivity]. exfalso. apply H. destruct (triangle_split n1 n2 n3 T) as (A & B & C & -> & -> & ->).
  repeat split; try lia. replace (A + B + (A + C) + (B + C))%nat with (2 * (A + B + C))%nat by lia. now rewrite Nat.even_mul.
Qed.
(* intertwining of the three generators *)
Theorem C40_su2_intertwines n1 n2 n3 x a b k : (a <= n1)%nat -> (b <= n2)%nat -> (k <= n3)%nat ->
  let c := fun i j m => RtoC (su2_clebsch_gordan n1 n2 n3 i j m) in
  (csum (n1 + 1) (fun i => c i b k * su2_generators n1 x i a) + csum (n2 + 1) (fun j => c a j k * su2_generators n2 x j b) = csum (n3 + 1) (fun m => su2_generators n3 x k m * c a b m))%C.
Proof. intros Ha Hb Hk. cbv zeta. rewrite !Nat.add_1_r. apply (su2_ccouples n1 n2 n3 x); lia. Qed.
(* orthonormality (in the normalisation sum over a, b of c^2 = 1 / (2 j3 + 1)) *)
Theorem C40_su2_orthonormal n1 n2 n3 k k' : (n3 <= n1 + n2)%nat -> (n1 <= n2 + n3)%nat -> (n2 <= n1 + n3)%nat -> Nat.even (n1 + n2 + n3) = true -> (k <= n3)%nat -> (k' <= n3)%nat ->
  rsum (n1 + 1) (fun a => rsum (n2 + 1) (fun b => su2_clebsch_gordan n1 n2 n3 a b k * su2_clebsch_gordan n1 n2 n3 a b k')) = if (k =? k')%nat then / INR (n3 + 1) else 0.
Proof.
  intros H1 H2 H3 H4 Hk Hk'. assert (T : triangle n1 n2 n3 = true).
  { unfold triangle. apply Nat.even_spec in H4 as [q Hq]. apply andb_true_iff; split; [apply andb_true_iff; split; apply Z.leb_le; lia|]. apply Z.eqb_eq.
    destruct (Z.le_ge_cases (Z.of_nat n1) (Z.of_nat n2)).
    - rewrite Z.abs_neq by lia. replace (Z.of_nat n3 - - (Z.of_nat n1 - Z.of_nat n2))%Z with ((Z.of_nat q - Z.of_nat n2) * 2)%Z by lia. apply Z.mod_mul; lia.
    - rewrite Z.abs_eq by lia. replace (Z.of_nat n3 - (Z.of_nat n1 - Z.of_nat n2))%Z with ((Z.of_nat q - Z.of_nat n1) * 2)%Z by lia. apply Z.mod_mul; lia. }
  pose proof (su2_gram n1 n2 n3 k k' T Hk Hk') as G. unfold gram in G. rewrite !Nat.add_1_r in *. exact G.
Qed.
(* ---- the real coefficients clebsch_gordan(l1, l2, l3) ---- *)
(* nothing is lost by taking the real part *)
Theorem C40_real l1 l2 l3 i j k : (i < 2 * l1 + 1)%nat -> (j < 2 * l2 + 1)%nat -> (k < 2 * l3 + 1)%nat -> Im (clebsch_gordan_complex l1 l2 l3 i j k) = 0.
Proof. intros. now rewrite cg_real. Qed.
Lemma triangle_l l1 l2 l3 : (l3 <= l1 + l2)%nat -> (l1 <= l2 + l3)%nat -> (l2 <= l1 + l3)%nat -> triangle (2 * l1) (2 * l2) (2 * l3) = true.
Proof.
  intros. unfold triangle. apply andb_true_iff; split; [apply andb_true_iff; split; apply Z.leb_le; lia|]. apply Z.eqb_eq.
  destruct (Z.le_ge_cases (Z.of_nat l1) (Z.of_nat l2)).
  - rewrite Z.abs_neq by lia. replace (Z.of_nat (2 * l3) - - (Z.of_nat (2 * l1) - Z.of_nat (2 * l2)))%Z with ((Z.of_nat l3 + Z.of_nat l1 - Z.of_nat l2) * 2)%Z by lia. apply Z.mod_mul; lia.
  - rewrite Z.abs_eq by lia. replace (Z.of_nat (2 * l3) - (Z.of_nat (2 * l1) - Z.of_nat (2 * l2)))%Z with ((Z.of_nat l3 + Z.of_nat l2 - Z.of_nat l1) * 2)%Z by lia. apply Z.mod_mul; lia.
Qed.
Theorem C40_real_triangle l1 l2 l3 i j k : ~ ((l3 <= l1 + l2)%nat /\ (l1 <= l2 + l3)%nat /\ (l2 <= l1 + l3)%nat) -> clebsch_gordan l1 l2 l3 i j k = 0.
Proof.
  intros H. unfold clebsch_gordan. rewrite cg_transform. unfold t1, t2, t3.
  assert (Z : forall n (f : nat -> C), (forall p, f p = RtoC 0) -> csum n f = RtoC 0) by (intros n f Hf; induction n as [|n IH]; [reflexivity|cbn [csum]; rewrite IH, Hf; apply Cplus_0_l]).
  rewrite Z; [reflexivity|]. intros p. rewrite Z; [apply Cmult_0_r|]. intros q. rewrite Z; [apply Cmult_0_r|]. intros m.
  rewrite (C40_triangle (2 * l1) (2 * l2) (2 * l3) p q m); [apply Cmult_0_r|]. intros (A & B & C & _). apply H. lia.
Qed.
(* they intertwine the generators *)
Theorem C40_intertwines_generators l1 l2 l3 x a b k : (a < 2 * l1 + 1)%nat -> (b < 2 * l2 + 1)%nat -> (k < 2 * l3 + 1)%nat ->
  let c := clebsch_gordan l1 l2 l3 in
  rsum (2 * l1 + 1) (fun i => c i b k * generators l1 x i a) + rsum (2 * l2 + 1) (fun j => c a j k * generators l2 x j b) = rsum (2 * l3 + 1) (fun m => generators l3 x k m * c a b m).
Proof. intros Ha Hb Hk. exact (cg_couples l1 l2 l3 x a b k Ha Hb Hk). Qed.
(* and the group: for every element r of O(3) and irreps a, b, c with c in a * b, coupling the transformed inputs is transforming the coupled output *)
Theorem C40_intertwines_group r a b c i j k : orthogonal3 r -> In c (ir_mul a b) -> (i < ir_dim a)%nat -> (j < ir_dim b)%nat -> (k < ir_dim c)%nat ->
  let g := clebsch_gordan (ir_l a) (ir_l b) (ir_l c) in
  rsum (ir_dim c) (fun k' => D_from_matrix r c k k' * g i j k') = rsum (ir_dim a) (fun i' => rsum (ir_dim b) (fun j' => g i' j' k * D_from_matrix r a i' i * D_from_matrix r b j' j)).
Proof.
  intros O Hc Hi Hj Hk. cbv zeta. pose proof (rep_of_intertwines r O a b c i j k Hc Hi Hj Hk) as E.
  etransitivity; [|etransitivity; [exact E|]].
  - apply rsum_ext. intros k' Hk'. unfold rep_of. now rewrite as_rep_at.
  - apply rsum_ext. intros i' Hi'. apply rsum_ext. intros j' Hj'. unfold rep_of. now rewrite !as_rep_at.
Qed.
Theorem C40_orthonormal l1 l2 l3 k k' : (l3 <= l1 + l2)%nat -> (l1 <= l2 + l3)%nat -> (l2 <= l1 + l3)%nat -> (k < 2 * l3 + 1)%nat -> (k' < 2 * l3 + 1)%nat ->
  rsum (2 * l1 + 1) (fun a => rsum (2 * l2 + 1) (fun b => clebsch_gordan l1 l2 l3 a b k * clebsch_gordan l1 l2 l3 a b k')) = if (k =? k')%nat then / INR (2 * l3 + 1) else 0.
Proof. intros H1 H2 H3. apply cg_gram. now apply triangle_l. Qed.
(* the scalar cases and the exchange of the two inputs *)
Theorem C40_scalars l i k : (i < 2 * l + 1)%nat -> (k < 2 * l + 1)%nat ->
  let v := done i k / sqrt (INR (2 * l + 1)) in clebsch_gordan l 0 l i 0 k = v /\ clebsch_gordan 0 l l 0 i k = v /\ clebsch_gordan l l 0 i k 0 = v.
Proof. intros Hi Hk. cbv zeta. rewrite cg_scalar_right, cg_scalar_left, cg_invariant by assumption. unfold CGModel.mone, Rdiv. destruct (i =? k)%nat; rewrite ?Rmult_1_l, ?Rmult_0_l; repeat split. Qed.
Theorem C40_exchange l1 l2 l3 i j k : (i < 2 * l1 + 1)%nat -> (j < 2 * l2 + 1)%nat -> (k < 2 * l3 + 1)%nat -> clebsch_gordan l2 l1 l3 j i k = (-1) ^ (l1 + l2 - l3) * clebsch_gordan l1 l2 l3 i j k.
Proof. apply cg_swap. Qed.
Lemma cg_total l1 l2 l3 : (l3 <= l1 + l2)%nat -> (l1 <= l2 + l3)%nat -> (l2 <= l1 + l3)%nat ->
  rsum (2 * l3 + 1) (fun k => rsum (2 * l1 + 1) (fun a => rsum (2 * l2 + 1) (fun b => clebsch_gordan l1 l2 l3 a b k * clebsch_gordan l1 l2 l3 a b k))) = 1.
Proof.
  intros. rewrite (rsum_ext _ _ (fun _ => / INR (2 * l3 + 1))).
  - rewrite rsum_const. apply Rinv_r. apply not_0_INR. lia.
  - intros k Hk. rewrite C40_orthonormal by assumption. now rewrite Nat.eqb_refl.
Qed.
(* traceless: the diagonal sum of a coupling into l3 > 0 vanishes *)
Theorem C40_traceless l l3 k : (0 < l3)%nat -> (k < 2 * l3 + 1)%nat -> rsum (2 * l + 1) (fun i => clebsch_gordan l l l3 i i k) = 0.
Proof.
  intros Hl Hk. set (t := fun k => rsum (2 * l + 1) (fun i => clebsch_gordan l l l3 i i k)). set (d := (2 * l3 + 1)%nat) in *.
  assert (Z : forall x k, (k < d)%nat -> rsum d (fun m => generators l3 x k m * t m) = 0).
  { intros x p Hp. unfold t. rewrite (rsum_ext d _ (fun m => rsum (2 * l + 1) (fun i => generators l3 x p m * clebsch_gordan l l l3 i i m))) by (intros; now rewrite rsum_scal). rewrite rsum_swap.
    rewrite (rsum_ext _ _ (fun a => rsum (2 * l + 1) (fun i => clebsch_gordan l l l3 i a p * generators l x i a) + rsum (2 * l + 1) (fun j => clebsch_gordan l l l3 a j p * generators l x j a))) by (intros a Ha; symmetry; now apply C40_intertwines_generators).
    rewrite rsum_plus. rewrite (rsum_swap (2 * l + 1) (2 * l + 1)). rewrite <- rsum_plus. rewrite (rsum_ext _ _ (fun _ => 0)); [apply rsum_const_0 || (rewrite rsum_const; ring)|]. intros a Ha. rewrite <- rsum_plus. rewrite (rsum_ext _ _ (fun _ => 0)); [rewrite rsum_const; ring|].
    intros b Hb. rewrite (C38_antisymmetric l x a b) by assumption. ring. }
  change (t k = 0). assert (E : INR l3 * (INR l3 + 1) * t k = 0).
  { assert (Y : forall x, rsum d (fun m => dmul d (generators l3 x) (generators l3 x) k m * t m) = 0).
    { intros x. unfold CGModel.mmul. rewrite (rsum_ext d _ (fun m => rsum d (fun p => generators l3 x k p * (generators l3 x p m * t m)))) by (intros; rewrite <- rsum_scal_r; apply rsum_ext; intros; ring).
      rewrite rsum_swap. rewrite (rsum_ext d _ (fun p => generators l3 x k p * 0)); [rewrite (rsum_ext d _ (fun _ => 0)) by (intros; ring); rewrite rsum_const; ring|]. intros p Hp. rewrite rsum_scal. now rewrite Z. }
    pose proof (Y 0%nat) as Y0. pose proof (Y 1%nat) as Y1. pose proof (Y 2%nat) as Y2.
    assert (S3 : rsum d (fun m => (dmul d (generators l3 0) (generators l3 0) k m + dmul d (generators l3 1) (generators l3 1) k m + dmul d (generators l3 2) (generators l3 2) k m) * t m) = 0).
    { rewrite (rsum_ext d _ (fun m => dmul d (generators l3 0) (generators l3 0) k m * t m + dmul d (generators l3 1) (generators l3 1) k m * t m + dmul d (generators l3 2) (generators l3 2) k m * t m)) by (intros; ring). rewrite !rsum_plus, Y0, Y1, Y2. ring. }
    rewrite (rsum_ext d _ (fun m => (if (k =? m)%nat then 1 else 0) * (- (INR l3 * (INR l3 + 1)) * t m))) in S3.
    - rewrite rsum_delta_r in S3 by exact Hk. lra.
    - intros m Hm. pose proof (C38_casimir l3 k m Hk Hm) as Q. cbv zeta beta in Q. fold d in Q. rewrite Q. unfold CGModel.mone. ring. }
  assert (P : 0 < INR l3) by (apply lt_0_INR; lia). apply Rmult_integral in E as [E|E]; [|exact E]. apply Rmult_integral in E as [E|E]; lra.
Qed.
(* 1 x 1 -> 1 is the cross product up to a factor *)
Example C40_nonvacuous : In (Irrep 1 Even) (ir_mul (Irrep 1 Odd) (Irrep 1 Odd)) /\ clebsch_gordan 1 1 0 1 1 0 = / sqrt 3 /\ su2_clebsch_gordan 2 0 2 1 0 1 = / sqrt 3.
Proof.
  split; [vm_compute; auto|]. split.
  - rewrite cg_invariant by lia. cbn [Nat.eqb Nat.mul Nat.add]. f_equal. f_equal. cbn. ring.
  - rewrite su2_n0n by lia. cbn [Nat.eqb]. f_equal. f_equal. cbn. ring.
Qed.

(* ================= equivariance for all of O(3), without hypotheses on the coefficients ================= *)
Notation act_by r := (fun y : iarray => transform_by_matrix y r).
Lemma bind_by_matrix (m : res iarray) r : (let! z := m in transform_by_matrix z r) = (let! z := m in transform (rep_of r) z).
Proof. destruct m; cbn [bind]; [apply by_matrix|reflexivity]. Qed.
Theorem C30_tensor_product_O3 r nrm flt rg x y s : orthogonal3 r -> coherent x -> coherent y -> nrm <> NOther -> broadcast_shapes (lead x) (lead y) = Ok s ->
  agree (let! z := tensor_product clebsch_gordan nrm flt rg x y in transform_by_matrix z r)
        (let! u := transform_by_matrix x r in let! v := transform_by_matrix y r in tensor_product clebsch_gordan nrm flt rg u v).
Proof. intros O Hx Hy Hn B. rewrite bind_by_matrix, !by_matrix. apply (C30_tensor_product_equivariant (rep_of r) clebsch_gordan nrm flt rg x y s); auto using rep_of_intertwines. apply as_rep_ok. Qed.
Theorem C30_elementwise_O3 r nrm flt x y s : orthogonal3 r -> coherent x -> coherent y -> nrm <> NOther -> broadcast_shapes (lead x) (lead y) = Ok s ->
  num_irreps (irr x) = num_irreps (irr y) -> Forall (fun m => (0 < fst m)%nat) (irr x) -> Forall (fun m => (0 < fst m)%nat) (irr y) ->
  agree (let! z := elementwise_tensor_product clebsch_gordan nrm flt x y in transform_by_matrix z r)
        (let! u := transform_by_matrix x r in let! v := transform_by_matrix y r in elementwise_tensor_product clebsch_gordan nrm flt u v).
Proof. intros O Hx Hy Hn B N P1 P2. rewrite bind_by_matrix, !by_matrix. apply (C30_elementwise_equivariant (rep_of r) clebsch_gordan nrm flt x y s); auto using rep_of_intertwines. apply as_rep_ok. Qed.
Theorem C31_tensor_square_O3 r nrm normalized rg x : orthogonal3 r -> coherent x -> nrm <> NOther ->
  agree (let! z := tensor_square clebsch_gordan nrm normalized rg x in transform_by_matrix z r) (let! u := transform_by_matrix x r in tensor_square clebsch_gordan nrm normalized rg u).
Proof. intros O Hx Hn. rewrite bind_by_matrix, by_matrix. apply C31_equivariant; auto using rep_of_intertwines. apply as_rep_ok. Qed.
(* what tensor_square leaves out is zero: the coupling of a copy with itself into an odd l *)
Theorem C31_odd_self_coupling_is_zero l l3 k (v : nat -> R) : Nat.even l3 = false -> (k < 2 * l3 + 1)%nat ->
  rsum (2 * l + 1) (fun i => rsum (2 * l + 1) (fun j => clebsch_gordan l l l3 i j k * v i * v j)) = 0.
Proof.
  intros Ho Hk. apply (C31_dropped_is_zero (fun i j => clebsch_gordan l l l3 i j k)). intros i j Hi Hj.
  destruct (le_lt_dec l3 (2 * l)) as [H|H].
  - rewrite (C40_exchange l l l3 j i k) by assumption. replace ((-1) ^ (l + l - l3)) with (-1); [ring|]. assert (E : Nat.even (l + l - l3) = false) by (rewrite Nat.even_sub by lia; rewrite Ho; replace (l + l)%nat with (2 * l)%nat by lia; now rewrite Nat.even_mul).
    symmetry. generalize E. generalize (l + l - l3)%nat. clear. intros n E. assert (Nat.odd n = true) by (rewrite <- Nat.negb_even, E; reflexivity). apply Nat.odd_spec in H as [q ->]. rewrite pow_add, pow_mult. replace ((-1) ^ 2) with 1 by ring. rewrite pow1. ring.
  - rewrite !C40_real_triangle by lia. ring.
Qed.
(* and one copy with another: u x v and v x u into l3 differ by the sign (-1)^(2l - l3), so keeping u < v loses nothing *)
Theorem C31_pairs_are_redundant l l3 k (u v : nat -> R) : (k < 2 * l3 + 1)%nat ->
  let couple := fun a b : nat -> R => rsum (2 * l + 1) (fun i => rsum (2 * l + 1) (fun j => clebsch_gordan l l l3 i j k * a i * b j)) in
  couple v u = (-1) ^ (l + l - l3) * couple u v.
Proof.
  intros Hk. cbv zeta beta. rewrite rsum_swap. rewrite <- rsum_scal. apply rsum_ext. intros i Hi. rewrite <- rsum_scal. apply rsum_ext. intros j Hj. rewrite (C40_exchange l l l3 i j k) by assumption. ring.
Qed.
(* the factors: with the coefficients of the library the output has unit component (or norm) second moment *)
Theorem C31_second_moment_pair_cg (O : Type) (Ex : (O -> R) -> R) nrm normalized l1 l2 l3 (X Y : nat -> O -> R) :
  expectation O Ex -> nrm = NComponent \/ nrm = NNorm -> (l3 <= l1 + l2)%nat -> (l1 <= l2 + l3)%nat -> (l2 <= l1 + l3)%nat ->
  let d1 := (2 * l1 + 1)%nat in let d2 := (2 * l2 + 1)%nat in let d3 := (2 * l3 + 1)%nat in
  (forall i p j q, (i < d1)%nat -> (p < d1)%nat -> (j < d2)%nat -> (q < d2)%nat -> Ex (fun w => X i w * Y j w * X p w * Y q w) = kron i p * kron j q * (input_moment nrm normalized (INR d1) * input_moment nrm normalized (INR d2))) ->
  rsum d3 (fun k => Ex (fun w => let z := square_norm nrm normalized l1 l2 l3 * rsum d1 (fun i => rsum d2 (fun j => clebsch_gordan l1 l2 l3 i j k * X i w * Y j w)) in z * z)) = output_moment nrm (INR d3).
Proof. intros HE Hn H1 H2 H3 d1 d2 d3 HXY. apply C31_second_moment_pair; auto. now apply cg_total. Qed.
Theorem C31_second_moment_self_cg (O : Type) (Ex : (O -> R) -> R) nrm normalized l1 l3 (X : nat -> O -> R) :
  expectation O Ex -> nrm = NComponent \/ nrm = NNorm -> (0 < l3)%nat -> (l3 <= 2 * l1)%nat -> Nat.even l3 = true ->
  let d1 := (2 * l1 + 1)%nat in let d3 := (2 * l3 + 1)%nat in
  (forall i j p q, (i < d1)%nat -> (j < d1)%nat -> (p < d1)%nat -> (q < d1)%nat -> Ex (fun w => X i w * X j w * X p w * X q w) = input_fourth nrm normalized (INR d1) * (kron i j * kron p q + kron i p * kron j q + kron i q * kron j p)) ->
  rsum d3 (fun k => Ex (fun w => let z := square_norm_self nrm normalized l1 l3 * rsum d1 (fun i => rsum d1 (fun j => clebsch_gordan l1 l1 l3 i j k * X i w * X j w)) in z * z)) = output_moment nrm (INR d3).
Proof.
  intros HE Hn Hp Hl Hev d1 d3 HX. apply C31_second_moment_self; auto.
  - intros i j k Hi Hj Hk. rewrite (C40_exchange l1 l1 l3 j i k) by assumption. replace ((-1) ^ (l1 + l1 - l3)) with 1; [ring|].
    assert (E : Nat.even (l1 + l1 - l3) = true) by (rewrite Nat.even_sub by lia; rewrite Hev; replace (l1 + l1)%nat with (2 * l1)%nat by lia; now rewrite Nat.even_mul).
    apply Nat.even_spec in E as [q ->]. rewrite pow_mult. replace ((-1) ^ 2) with 1 by ring. now rewrite pow1.
  - intros k Hk. now apply C40_traceless.
  - apply cg_total; lia.
Qed.
Theorem C24_norm_O3 r x sq per : orthogonal3 r -> coherent x -> agree (norm x sq per) (let! y := transform_by_matrix x r in norm y sq per).
Proof. intros O H. rewrite by_matrix. apply C24_norm_invariant; auto using rep_of_orthogonal. apply as_rep_ok. Qed.
Theorem C24_dot_O3 r x y s : orthogonal3 r -> coherent x -> coherent y -> simplify (irr x) = simplify (irr y) -> broadcast_shapes (lead x) (lead y) = Ok s ->
  agree (dot x y false) (let! u := transform_by_matrix x r in let! v := transform_by_matrix y r in dot u v false).
Proof. intros O Hx Hy E B. rewrite !by_matrix. apply (C24_dot_invariant (rep_of r) x y s); auto using rep_of_orthogonal. apply as_rep_ok. Qed.
Theorem C24_dot_per_irrep_O3 r x y : orthogonal3 r -> coherent x -> coherent y -> simplify (irr x) = simplify (irr y) -> lead x = lead y ->
  agree (dot x y true) (let! u := transform_by_matrix x r in let! v := transform_by_matrix y r in dot u v true).
Proof. intros O Hx Hy E L. rewrite !by_matrix. apply C24_dot_per_irrep_invariant; auto using rep_of_orthogonal. apply as_rep_ok. Qed.
Theorem C27_linear_O3 r x y b pn gn L ws a : orthogonal3 r -> functional_linear x y None b pn gn = Ok L -> coherent a -> simplify (irr a) = simplify x ->
  Forall2 (fun o w => forall i, valid (lead a) i -> length (w i) = nprod (li_shape o)) (fl_ins L) ws ->
  agree (let! z := linear_call L ws a in transform_by_matrix z r) (let! a' := transform_by_matrix a r in linear_call L ws a').
Proof. intros O E Ha Es Hw. rewrite bind_by_matrix, by_matrix. apply (C27_default_equivariant (rep_of r) x y b pn gn); auto using rep_of_scalar. apply as_rep_ok. Qed.
(* x * y by scalars, with the coefficients of the library *)
Theorem C22_mul_by_scalars_cg x y s : coherent x -> coherent y -> broadcast_shapes (lead x) (lead y) = Ok s -> (exists u v, align_two_irreps (irr x) (irr y) = Ok (u, v)) ->
  Forall (fun m => ir_l (snd m) = 0%nat) (irr y) ->
  exists z, ia_mul clebsch_gordan x y = Ok z /\ lead z = s /\ coherent z /\
    flat (irr z) = map2 (fun a b => Irrep (ir_l a) (pmul (ir_p a) (ir_p b))) (flat (irr x)) (flat (irr y)) /\
    forall i, valid s i -> arr z i = concat (map2 (fun copy k => map (Rmult k) copy) (instances (irr x) (arr x (bidx (lead x) i))) (arr y (bidx (lead y) i))).
Proof. intros. apply (C22_mul_by_scalars clebsch_gordan x y s); auto using cg_scalar_coupling. Qed.
