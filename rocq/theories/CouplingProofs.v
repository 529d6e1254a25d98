(* Normalised couplings of two irreps, and families with two indices that transform like a pair of irreps. *)
From Coq Require Import Reals Lra Lia List Arith Permutation.
From Verif Require Import PyBase PermModel IrrepsModel IrrepsProofs IrrepsProofs2 SumR S2Proofs3 RotationModel RotationProofs CGModel WignerModel WignerProofs WignerProofs2 WignerProps WignerProps2 CGComplete SchurProofs MultProofs.
Import ListNotations.
Open Scope R_scope.

(* sqrt(ir.dim) * clebsch_gordan(ir1.l, ir2.l, ir.l) *)
Definition cpl (a b c : irrep) (i j k : nat) : R := sqrt (INR (ir_dim c)) * clebsch_gordan (ir_l a) (ir_l b) (ir_l c) i j k.
Notation delta i j := (if (i =? j)%nat then 1 else 0).

Lemma dim_sqrt c : sqrt (INR (ir_dim c)) * sqrt (INR (ir_dim c)) = INR (ir_dim c).
Proof. apply sqrt_sqrt, pos_INR. Qed.
Lemma dim_split c x y : (sqrt (INR (ir_dim c)) * x) * (sqrt (INR (ir_dim c)) * y) = INR (ir_dim c) * (x * y).
Proof. transitivity (sqrt (INR (ir_dim c)) * sqrt (INR (ir_dim c)) * (x * y)); [ring|]. rewrite dim_sqrt. reflexivity. Qed.
Lemma ir_mul_triangle a b c : In c (ir_mul a b) -> (ir_l c <= ir_l a + ir_l b /\ ir_l a <= ir_l b + ir_l c /\ ir_l b <= ir_l a + ir_l c)%nat.
Proof. intros H. apply ir_mul_in in H as [_ H]. lia. Qed.
Lemma ir_mul_same a b c c' : In c (ir_mul a b) -> In c' (ir_mul a b) -> ir_l c = ir_l c' -> c = c'.
Proof. intros H H' E. apply ir_mul_in in H as [H _], H' as [H' _]. destruct c, c'; cbn in *; congruence. Qed.
Lemma ir_mul_nodup a b : NoDup (ir_mul a b).
Proof. unfold ir_mul. apply FinFun.Injective_map_NoDup; [intros x y E; congruence|apply seq_NoDup]. Qed.
Lemma cpl_unit a b c k k' : In c (ir_mul a b) -> (k < ir_dim c)%nat -> (k' < ir_dim c)%nat -> rsum (ir_dim a) (fun i => rsum (ir_dim b) (fun j => cpl a b c i j k * cpl a b c i j k')) = delta k k'.
Proof.
  intros H Hk Hk'. destruct (ir_mul_triangle a b c H) as (T1 & T2 & T3). unfold cpl.
  rewrite (rsum_ext (ir_dim a) _ (fun i => INR (ir_dim c) * rsum (ir_dim b) (fun j => clebsch_gordan (ir_l a) (ir_l b) (ir_l c) i j k * clebsch_gordan (ir_l a) (ir_l b) (ir_l c) i j k'))) by (intros i _; rewrite <- rsum_scal; apply rsum_ext; intros j _; apply dim_split).
  rewrite rsum_scal. unfold ir_dim in *. rewrite C40_orthonormal by assumption. destruct (k =? k')%nat; [|ring]. apply Rinv_r. apply not_0_INR. lia.
Qed.
Lemma cpl_cross a b c c' k k' : In c (ir_mul a b) -> In c' (ir_mul a b) -> c <> c' -> (k < ir_dim c)%nat -> (k' < ir_dim c')%nat -> rsum (ir_dim a) (fun i => rsum (ir_dim b) (fun j => cpl a b c i j k * cpl a b c' i j k')) = 0.
Proof.
  intros H H' N Hk Hk'. unfold cpl.
  rewrite (rsum_ext (ir_dim a) _ (fun i => (sqrt (INR (ir_dim c)) * sqrt (INR (ir_dim c'))) * rsum (ir_dim b) (fun j => clebsch_gordan (ir_l a) (ir_l b) (ir_l c) i j k * clebsch_gordan (ir_l a) (ir_l b) (ir_l c') i j k'))) by (intros i _; rewrite <- rsum_scal; apply rsum_ext; intros j _; ring).
  rewrite rsum_scal. unfold ir_dim in *. rewrite C40_orthogonal_degrees; [ring| |assumption|assumption]. intros E. exact (N (ir_mul_same a b c c' H H' E)).
Qed.
Lemma cpl_complete a b i j i' j' : (i < ir_dim a)%nat -> (j < ir_dim b)%nat -> (i' < ir_dim a)%nat -> (j' < ir_dim b)%nat ->
  lsum (ir_mul a b) (fun c => rsum (ir_dim c) (fun k => cpl a b c i j k * cpl a b c i' j' k)) = delta i i' * delta j j'.
Proof.
  intros Hi Hj Hi' Hj'. pose proof (C40_complete (ir_l a) (ir_l b) i j i' j' Hi Hj Hi' Hj') as E.
  transitivity (if ((i =? i') && (j =? j'))%nat then 1 else 0); [|destruct (i =? i')%nat, (j =? j')%nat; cbn [andb]; ring]. rewrite <- E.
  transitivity (lsum (map ir_l (ir_mul a b)) (fun l => INR (2 * l + 1) * rsum (2 * l + 1) (fun k => clebsch_gordan (ir_l a) (ir_l b) l i j k * clebsch_gordan (ir_l a) (ir_l b) l i' j' k))).
  - rewrite lsum_map. apply lsum_ext. intros c _. rewrite <- rsum_scal. apply rsum_ext. intros k _. unfold cpl. change (2 * ir_l c + 1)%nat with (ir_dim c). apply dim_split.
  - apply lsum_perm. apply NoDup_Permutation.
    + unfold ir_mul. rewrite map_map. cbn [ir_l]. rewrite map_id. apply seq_NoDup.
    + unfold degrees. apply NoDup_filter, seq_NoDup.
    + intros l. rewrite in_degrees. unfold ir_mul. rewrite map_map. cbn [ir_l]. rewrite map_id, in_seq. lia.
Qed.
(* the couplings commute with the group, transposed form of C40_intertwines_group *)
Lemma cpl_intertwines r a b c i j k : orthogonal3 r -> In c (ir_mul a b) -> (i < ir_dim a)%nat -> (j < ir_dim b)%nat -> (k < ir_dim c)%nat ->
  rsum (ir_dim a) (fun i' => rsum (ir_dim b) (fun j' => cpl a b c i' j' k * (D_from_matrix r a i i' * D_from_matrix r b j j'))) = rsum (ir_dim c) (fun k' => D_from_matrix r c k' k * cpl a b c i j k').
Proof.
  intros O H Hi Hj Hk. pose proof (C40_intertwines_group (mtr r) a b c i j k (o3_tr r O) H Hi Hj Hk) as E. cbv zeta in E. unfold cpl.
  transitivity (sqrt (INR (ir_dim c)) * rsum (ir_dim c) (fun k' => D_from_matrix (mtr r) c k k' * clebsch_gordan (ir_l a) (ir_l b) (ir_l c) i j k')).
  - rewrite E, <- rsum_scal. apply rsum_ext. intros i' Hi'. rewrite <- rsum_scal. apply rsum_ext. intros j' Hj'. rewrite !C39_inverse_is_transpose by assumption. ring.
  - rewrite <- rsum_scal. apply rsum_ext. intros k' Hk'. rewrite C39_inverse_is_transpose by assumption. ring.
Qed.

(* ---------- families with two indices ---------- *)
Section Pairs.
Context {A : Type}.
Variables (X : list A) (rho : mat -> A -> A -> R).
Definition biplet (a b : irrep) (V : A -> nat -> nat -> R) : Prop := forall r x i j, orthogonal3 r -> In x X -> (i < ir_dim a)%nat -> (j < ir_dim b)%nat ->
  rot X rho r (fun y => V y i j) x = rsum (ir_dim a) (fun i' => rsum (ir_dim b) (fun j' => D_from_matrix r a i' i * D_from_matrix r b j' j * V x i' j')).
(* the part of the family of type c *)
Definition couple (a b c : irrep) (V : A -> nat -> nat -> R) : mult A := (c, fun x k => rsum (ir_dim a) (fun i => rsum (ir_dim b) (fun j => cpl a b c i j k * V x i j))).
Lemma rot_rsum n c (h : nat -> A -> R) r x : rot X rho r (fun y => rsum n (fun k => c k * h k y)) x = rsum n (fun k => c k * rot X rho r (h k) x).
Proof.
  unfold rot. rewrite (lsum_ext X _ (fun y => rsum n (fun k => c k * (rho r x y * h k y)))) by (intros y _; rewrite <- rsum_scal; apply rsum_ext; intros; ring). rewrite lsum_rsum. apply rsum_ext. intros k _. apply lsum_scal.
Qed.
Lemma rot_ext f g r x : (forall y, In y X -> f y = g y) -> rot X rho r f x = rot X rho r g x.
Proof. intros H. unfold rot. apply lsum_ext. intros y Hy. rewrite (H y Hy). reflexivity. Qed.
Lemma couple_covariant a b c V : In c (ir_mul a b) -> biplet a b V -> covariant X rho (couple a b c V).
Proof.
  intros Hc HV r x k O Hx Hk. cbn [fst snd couple] in *.
  rewrite (rot_ext _ (fun y => rsum (ir_dim a) (fun i => 1 * rsum (ir_dim b) (fun j => cpl a b c i j k * V y i j)))) by (intros; apply rsum_ext; intros; ring).
  rewrite (rot_rsum (ir_dim a) (fun _ => 1) (fun i y => rsum (ir_dim b) (fun j => cpl a b c i j k * V y i j))).
  rewrite (rsum_ext (ir_dim a) _ (fun i => rsum (ir_dim b) (fun j => rsum (ir_dim a) (fun i' => rsum (ir_dim b) (fun j' => (cpl a b c i j k * (D_from_matrix r a i' i * D_from_matrix r b j' j)) * V x i' j'))))).
  2: { intros i Hi. rewrite Rmult_1_l. rewrite (rot_rsum (ir_dim b) (fun j => cpl a b c i j k) (fun j y => V y i j)). apply rsum_ext. intros j Hj. rewrite (HV r x i j O Hx Hi Hj). rewrite <- rsum_scal. apply rsum_ext. intros i' _. rewrite <- rsum_scal. apply rsum_ext. intros j' _. ring. }
  transitivity (rsum (ir_dim a) (fun i' => rsum (ir_dim b) (fun j' => rsum (ir_dim c) (fun k' => D_from_matrix r c k' k * cpl a b c i' j' k') * V x i' j'))).
  - rewrite (rsum_ext (ir_dim a) _ (fun i => rsum (ir_dim a) (fun i' => rsum (ir_dim b) (fun j => rsum (ir_dim b) (fun j' => (cpl a b c i j k * (D_from_matrix r a i' i * D_from_matrix r b j' j)) * V x i' j'))))) by (intros i _; apply rsum_swap).
    rewrite rsum_swap. apply rsum_ext. intros i' Hi'.
    rewrite (rsum_ext (ir_dim a) _ (fun i => rsum (ir_dim b) (fun j' => rsum (ir_dim b) (fun j => (cpl a b c i j k * (D_from_matrix r a i' i * D_from_matrix r b j' j)) * V x i' j')))) by (intros i _; apply rsum_swap).
    rewrite rsum_swap. apply rsum_ext. intros j' Hj'. rewrite <- (cpl_intertwines r a b c i' j' k O Hc Hi' Hj' Hk), <- rsum_scal_r. apply rsum_ext. intros i _. rewrite rsum_scal_r. reflexivity.
  - rewrite (rsum_ext (ir_dim c) _ (fun k' => rsum (ir_dim a) (fun i => rsum (ir_dim b) (fun j => D_from_matrix r c k' k * cpl a b c i j k' * V x i j)))) by (intros k' _; rewrite <- rsum_scal; apply rsum_ext; intros i _; rewrite <- rsum_scal; apply rsum_ext; intros; ring).
    rewrite (rsum_swap (ir_dim c) (ir_dim a)). apply rsum_ext. intros i _. rewrite (rsum_swap (ir_dim c) (ir_dim b)). apply rsum_ext. intros j _. rewrite rsum_scal_r. reflexivity.
Qed.
(* the parts add up to the family *)
Lemma couple_expand a b V x i j : (i < ir_dim a)%nat -> (j < ir_dim b)%nat ->
  V x i j = lsum (ir_mul a b) (fun c => rsum (ir_dim c) (fun k => cpl a b c i j k * snd (couple a b c V) x k)).
Proof.
  intros Hi Hj. cbn [snd couple]. symmetry.
  transitivity (rsum (ir_dim a) (fun i' => rsum (ir_dim b) (fun j' => lsum (ir_mul a b) (fun c => rsum (ir_dim c) (fun k => cpl a b c i j k * cpl a b c i' j' k)) * V x i' j'))).
  - rewrite (rsum_ext (ir_dim a) _ (fun i' => rsum (ir_dim b) (fun j' => lsum (ir_mul a b) (fun c => rsum (ir_dim c) (fun k => cpl a b c i j k * cpl a b c i' j' k * V x i' j'))))) by (intros i' _; apply rsum_ext; intros j' _; rewrite <- lsum_scal_r; apply lsum_ext; intros c _; rewrite rsum_scal_r; reflexivity).
    rewrite (rsum_ext (ir_dim a) _ (fun i' => lsum (ir_mul a b) (fun c => rsum (ir_dim b) (fun j' => rsum (ir_dim c) (fun k => cpl a b c i j k * cpl a b c i' j' k * V x i' j'))))) by (intros i' _; symmetry; apply (lsum_rsum (ir_mul a b) (ir_dim b) (fun c j' => rsum (ir_dim c) (fun k => cpl a b c i j k * cpl a b c i' j' k * V x i' j')))).
    rewrite <- (lsum_rsum (ir_mul a b) (ir_dim a) (fun c i' => rsum (ir_dim b) (fun j' => rsum (ir_dim c) (fun k => cpl a b c i j k * cpl a b c i' j' k * V x i' j')))). apply lsum_ext. intros c _.
    rewrite (rsum_ext (ir_dim c) _ (fun k => rsum (ir_dim a) (fun i' => rsum (ir_dim b) (fun j' => cpl a b c i j k * cpl a b c i' j' k * V x i' j')))) by (intros k _; rewrite <- rsum_scal; apply rsum_ext; intros i' _; rewrite <- rsum_scal; apply rsum_ext; intros; ring).
    rewrite rsum_swap. apply rsum_ext. intros i' _. apply rsum_swap.
  - rewrite (rsum_ext (ir_dim a) _ (fun i' => delta i i' * V x i' j)).
    + apply (rsum_delta_r (ir_dim a) i (fun i' => V x i' j) Hi).
    + intros i' Hi'. rewrite (rsum_ext (ir_dim b) _ (fun j' => delta j j' * (delta i i' * V x i' j'))) by (intros j' Hj'; rewrite cpl_complete by assumption; ring). apply (rsum_delta_r (ir_dim b) j (fun j' => delta i i' * V x i' j') Hj).
Qed.
End Pairs.
