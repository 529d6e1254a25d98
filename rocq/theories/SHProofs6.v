(* The derivative of the harmonics, and the coupling l - 1, l -> 1 at the pole: the rule of _jvp is the derivative. *)
From Coq Require Import Reals Lra ZArith Lia List Bool Arith.
From Coquelicot Require Import Coquelicot.
From Verif Require Import PyBase IrrepsModel IrrepsProofs ArrayModel LeadModel SumR TPProofs CGModel EntryProofs CGProofs CGProofs2 CGProofs3 CGProofs5 CGProofs9 CGProofs11 RotationModel RotationProofs RadialProofs S2Model WignerProofs2 WignerProps WignerProps2 SHModel SHProofs SHProofs2 SHProofs3 SHProofs4 SHProofs5.
Import ListNotations.
Open Scope R_scope.

(* the directional derivative *)
Fixpoint DPf (fuel l : nat) (x v : nat -> R) : nat -> R :=
  match fuel with
  | O => fun _ => 0
  | S f =>
      match l with
      | O => fun _ => 0
      | S O => v
      | _ => fun k => let l2 := half l in let l1 := (l - l2)%nat in
               / central_norm l1 l2 l * rsum (2 * l1 + 1) (fun i => rsum (2 * l2 + 1) (fun j => (DPf f l1 x v i * P l2 x j + P l1 x i * DPf f l2 x v j) * clebsch_gordan l1 l2 l i j k))
      end
  end.
Definition DP l x v := DPf (S l) l x v.
Lemma DPf_fuel f : forall g l x v k, (l < f)%nat -> (l < g)%nat -> DPf f l x v k = DPf g l x v k.
Proof.
  induction f as [|f IH]; intros g l x v k Hf Hg; [lia|]. destruct g as [|g]; [lia|]. destruct l as [|[|l]]; [reflexivity|reflexivity|]. cbn [DPf]. pose proof (half_spec (S (S l)) ltac:(lia)) as Hh. cbv zeta. f_equal.
  apply rsum_ext. intros i _. apply rsum_ext. intros j _. rewrite (IH g (S (S l) - half (S (S l)))%nat) by lia. rewrite (IH g (half (S (S l)))) by lia. reflexivity.
Qed.
Lemma DP_sum l1 l2 x v k : (1 <= l1)%nat -> (1 <= l2)%nat -> half (l1 + l2) = l2 ->
  DP (l1 + l2) x v k = / central_norm l1 l2 (l1 + l2) * rsum (2 * l1 + 1) (fun i => rsum (2 * l2 + 1) (fun j => (DP l1 x v i * P l2 x j + P l1 x i * DP l2 x v j) * clebsch_gordan l1 l2 (l1 + l2) i j k)).
Proof.
  intros A B E. unfold DP at 1. remember (l1 + l2)%nat as l eqn:El. destruct l as [|[|l]]; [lia|lia|].
  assert (U : DPf (S (S (S l))) (S (S l)) x v k = (let l2 := half (S (S l)) in let l1 := (S (S l) - l2)%nat in
               / central_norm l1 l2 (S (S l)) * rsum (2 * l1 + 1) (fun i => rsum (2 * l2 + 1) (fun j => (DPf (S (S l)) l1 x v i * P l2 x j + P l1 x i * DPf (S (S l)) l2 x v j) * clebsch_gordan l1 l2 (S (S l)) i j k)))) by reflexivity.
  rewrite U. clear U. cbv zeta. rewrite E. replace (S (S l) - l2)%nat with l1 by lia. f_equal. apply rsum_ext. intros i _. apply rsum_ext. intros j _. unfold DP. rewrite (DPf_fuel (S (S l)) (S l1)) by lia. rewrite (DPf_fuel (S (S l)) (S l2)) by lia. reflexivity.
Qed.
(* it is the derivative along any path *)
Lemma DP_derive (x : R -> nat -> R) (v : nat -> R) (t : R) : (forall i, (i < 3)%nat -> is_derive (fun s => x s i) t (v i)) -> forall l k, (k < 2 * l + 1)%nat -> is_derive (fun s => P l (x s) k) t (DP l (x t) v k).
Proof.
  intros Hx l. induction l as [| |l1 l2 A B Hh I1 I2] using P_ind; intros k Hk.
  - exact (der_const 1 t).
  - exact (Hx k Hk).
  - rewrite DP_sum by assumption. apply (der_ext (fun s => / central_norm l1 l2 (l1 + l2) * rsum (2 * l1 + 1) (fun i => rsum (2 * l2 + 1) (fun j => P l1 (x s) i * P l2 (x s) j * clebsch_gordan l1 l2 (l1 + l2) i j k)))); [intros s; symmetry; now apply P_sum|].
    apply der_scal. apply (der_rsum _ (fun i s => rsum (2 * l2 + 1) (fun j => P l1 (x s) i * P l2 (x s) j * clebsch_gordan l1 l2 (l1 + l2) i j k))); intros i Hi. apply (der_rsum _ (fun j s => P l1 (x s) i * P l2 (x s) j * clebsch_gordan l1 l2 (l1 + l2) i j k)); intros j Hj.
    apply (der_ext (fun s => clebsch_gordan l1 l2 (l1 + l2) i j k * (P l1 (x s) i * P l2 (x s) j))); [intros s; ring|]. eapply der_eq; [|apply der_scal; apply (der_mult (fun s => P l1 (x s) i) (fun s => P l2 (x s) j)); [apply I1, Hi|apply I2, Hj]]. ring.
Qed.
Lemma DP_linear l x (c : nat -> R) (e : nat -> nat -> R) n k : DP l x (fun i => rsum n (fun q => c q * e q i)) k = rsum n (fun q => c q * DP l x (e q) k).
Proof.
  revert k. induction l as [| |l1 l2 A B Hh I1 I2] using P_ind; intros k.
  - symmetry. apply rsum_zero. intros q _. change (DP 0 x (e q) k) with 0. ring.
  - reflexivity.
  - rewrite DP_sum by assumption. rewrite (rsum_ext n (fun q => c q * DP (l1 + l2) x (e q) k) (fun q => / central_norm l1 l2 (l1 + l2) * rsum (2 * l1 + 1) (fun i => rsum (2 * l2 + 1) (fun j => c q * ((DP l1 x (e q) i * P l2 x j + P l1 x i * DP l2 x (e q) j) * clebsch_gordan l1 l2 (l1 + l2) i j k))))).
    2:{ intros q _. rewrite DP_sum by assumption. rewrite <- Rmult_assoc, (Rmult_comm (c q)), Rmult_assoc. f_equal. rewrite <- rsum_scal. apply rsum_ext. intros i _. now rewrite rsum_scal. }
    rewrite rsum_scal. f_equal. symmetry. rewrite rsum_swap. apply rsum_ext. intros i _. rewrite rsum_swap. apply rsum_ext. intros j _. rewrite I1, I2.
    rewrite (rsum_ext n _ (fun q => (c q * DP l1 x (e q) i) * (P l2 x j * clebsch_gordan l1 l2 (l1 + l2) i j k) + (c q * DP l2 x (e q) j) * (P l1 x i * clebsch_gordan l1 l2 (l1 + l2) i j k))) by (intros; ring). rewrite rsum_plus, !rsum_scal_r. ring.
Qed.
Lemma DP_ext l x y v w : (forall i, (i < 3)%nat -> x i = y i) -> (forall i, (i < 3)%nat -> v i = w i) -> forall k, (k < 2 * l + 1)%nat -> DP l x v k = DP l y w k.
Proof.
  intros E F. induction l as [| |l1 l2 A B Hh I1 I2] using P_ind; intros k Hk; [reflexivity|apply F; exact Hk|]. rewrite !DP_sum by assumption. f_equal. apply rsum_ext. intros i Hi. apply rsum_ext. intros j Hj. rewrite I1, I2, (P_ext l1 x y E), (P_ext l2 x y E) by assumption. reflexivity.
Qed.
Lemma DP_scale l t x v k : DP l (fun i => t * x i) v k = t ^ (l - 1) * DP l x v k.
Proof.
  revert k. induction l as [| |l1 l2 A B Hh I1 I2] using P_ind; intros k; [change (DP 0 x v k) with 0; change (DP 0 (fun i => t * x i) v k) with 0; ring|change (DP 1 x v k) with (v k); change (DP 1 (fun i => t * x i) v k) with (v k); cbn; ring|].
  rewrite !DP_sum by assumption. rewrite <- !Rmult_assoc, (Rmult_comm (t ^ _)), Rmult_assoc. f_equal. rewrite <- rsum_scal. apply rsum_ext. intros i _. rewrite <- rsum_scal. apply rsum_ext. intros j _. rewrite I1, I2, !P_scale.
  assert (T1 : t ^ (l1 + l2 - 1) = t ^ (l1 - 1) * t ^ l2) by (rewrite <- pow_add; f_equal; lia). assert (T2 : t ^ (l1 + l2 - 1) = t ^ l1 * t ^ (l2 - 1)) by (rewrite <- pow_add; f_equal; lia).
  transitivity (t ^ (l1 - 1) * t ^ l2 * (DP l1 x v i * P l2 x j * clebsch_gordan l1 l2 (l1 + l2) i j k) + t ^ l1 * t ^ (l2 - 1) * (P l1 x i * DP l2 x v j * clebsch_gordan l1 l2 (l1 + l2) i j k)); [ring|]. rewrite <- T1, <- T2. ring.
Qed.
Lemma der_line (x v : nat -> R) (t : R) i : is_derive (fun s => x i + s * v i) t (v i).
Proof. eapply der_eq; [|apply (der_plus (fun _ => x i) (fun s => s * v i)); [apply der_const|apply (der_mult (fun s => s) (fun _ => v i)); [apply der_id|apply der_const]]]. ring. Qed.
Lemma derive_unique (f : R -> R) (t a b : R) : is_derive f t a -> is_derive f t b -> a = b.
Proof. intros A B. rewrite <- (is_derive_unique f t a A). apply is_derive_unique, B. Qed.
Lemma DP_equivariant D p x v : intertwines clebsch_gordan D -> mat_at (D (Irrep 0 Even)) 0 0 = 1 ->
  forall l k, (k < 2 * l + 1)%nat -> let A (y : nat -> R) i := rsum 3 (fun j => mat_at (D (Irrep 1 p)) i j * y j) in DP l (A x) (A v) k = rsum (2 * l + 1) (fun k' => mat_at (D (Irrep l (ppow p l))) k k' * DP l x v k').
Proof.
  intros HI H0 l k Hk A. apply (derive_unique (fun s => P l (A (fun i => x i + s * v i)) k) 0).
  - rewrite (DP_ext l (A x) (A (fun i => x i + 0 * v i)) (A v) (A v)); [|intros i _; unfold A; apply rsum_ext; intros; ring|reflexivity|exact Hk]. apply (DP_derive (fun s => A (fun i => x i + s * v i)) (A v)); [|exact Hk].
    intros i Hi. unfold A. apply (der_rsum 3 (fun j s => mat_at (D (Irrep 1 p)) i j * (x j + s * v j))). intros j _. apply der_scal, der_line.
  - apply (der_ext (fun s => rsum (2 * l + 1) (fun k' => mat_at (D (Irrep l (ppow p l))) k k' * P l (fun i => x i + s * v i) k'))); [intros s; symmetry; unfold A; now apply P_equivariant|].
    apply (der_rsum _ (fun k' s => mat_at (D (Irrep l (ppow p l))) k k' * P l (fun i => x i + s * v i) k')). intros k' Hk'. apply der_scal.
    rewrite (DP_ext l x (fun i => x i + 0 * v i) v v); [|intros; ring|reflexivity|exact Hk']. apply (DP_derive (fun s i => x i + s * v i)); [|exact Hk']. intros i _. apply der_line.
Qed.
(* at the pole *)
Lemma DP_euler l x k : (k < 2 * l + 1)%nat -> DP l x x k = INR l * P l x k.
Proof.
  intros Hk. apply (derive_unique (fun s => P l (fun i => s * x i) k) 1).
  - rewrite (DP_ext l x (fun i => 1 * x i) x x); [|intros; ring|reflexivity|exact Hk]. apply (DP_derive (fun s i => s * x i)); [|exact Hk]. intros i _. eapply der_eq; [|apply (der_mult (fun s => s) (fun _ => x i)); [apply der_id|apply der_const]]. ring.
  - apply (der_ext (fun s => P l x k * s ^ l)); [intros s; rewrite P_scale; ring|]. eapply der_eq; [|apply der_scal, is_derive_Reals, derivable_pt_lim_pow]. rewrite pow1. ring.
Qed.
Lemma sum_pole l (f : nat -> R) : rsum (2 * l + 1) (fun k' => f k' * P l pole k') = f l.
Proof. rewrite (rsum_ext _ _ (fun k' => if (k' =? l)%nat then f k' else 0)); [apply rsum_delta; lia|]. intros k' H. rewrite P_pole by exact H. destruct (k' =? l)%nat; ring. Qed.
Lemma DP_pole_z l k : (k < 2 * l + 1)%nat -> DP l pole (vec3 0 0 1) k = generators l 0 k l.
Proof.
  intros Hk. set (x := fun b => vec3 0 (cos b) (sin b)). assert (X0 : forall i, (i < 3)%nat -> pole i = x 0 i) by (intros [|[|[|i]]] Hi; [| | |lia]; unfold pole, x; cbn [vec3 Nat.eqb]; rewrite ?cos_0, ?sin_0; reflexivity).
  apply (derive_unique (fun b => P l (x b) k) 0).
  - rewrite (DP_ext l pole (x 0) (vec3 0 0 1) (vec3 0 (- sin 0) (cos 0))); [|exact X0|intros [|[|[|i]]] Hi; [| | |lia]; cbn [vec3]; rewrite ?cos_0, ?sin_0; ring|exact Hk]. apply (DP_derive x); [|exact Hk].
    intros [|[|[|i]]] Hi; [| | |lia]; unfold x; cbn [vec3]; [apply der_const|apply is_derive_Reals, derivable_pt_lim_cos|apply is_derive_Reals, derivable_pt_lim_sin].
  - rewrite <- (sum_pole l (fun k' => generators l 0 k k')). rewrite (rsum_ext _ _ (fun k' => generators l 0 k k' * P l (x 0) k')) by (intros k' Hk'; rewrite (P_ext l pole (x 0) X0) by exact Hk'; reflexivity). apply (P_along 0 x); [|exact Hk].
    intros i Hi. unfold x. cbn [rsum vec3]. rewrite !generators_l1 by lia. destruct i as [|[|[|i]]]; [| | |lia]; cbn [eps vec3].
    + apply (der_eq (fun _ => 0) 0 0); [ring|]. apply der_const.
    + apply (der_eq cos 0 (- sin 0)); [ring|]. apply is_derive_Reals, derivable_pt_lim_cos.
    + apply (der_eq sin 0 (cos 0)); [ring|]. apply is_derive_Reals, derivable_pt_lim_sin.
Qed.
Lemma DP_pole_x l k : (k < 2 * l + 1)%nat -> DP l pole (vec3 1 0 0) k = - generators l 2 k l.
Proof.
  intros Hk. set (x := fun b => vec3 (- sin b) (cos b) 0). assert (X0 : forall i, (i < 3)%nat -> pole i = x 0 i) by (intros [|[|[|i]]] Hi; [| | |lia]; unfold pole, x; cbn [vec3 Nat.eqb]; rewrite ?cos_0, ?sin_0; ring).
  assert (E : DP l pole (vec3 (-1) 0 0) k = generators l 2 k l).
  { apply (derive_unique (fun b => P l (x b) k) 0).
    - rewrite (DP_ext l pole (x 0) (vec3 (-1) 0 0) (vec3 (- cos 0) (- sin 0) 0)); [|exact X0|intros [|[|[|i]]] Hi; [| | |lia]; cbn [vec3]; rewrite ?cos_0, ?sin_0; ring|exact Hk]. apply (DP_derive x); [|exact Hk].
      intros [|[|[|i]]] Hi; [| | |lia]; unfold x; cbn [vec3]; [apply der_opp, is_derive_Reals, derivable_pt_lim_sin|apply is_derive_Reals, derivable_pt_lim_cos|apply der_const].
    - rewrite <- (sum_pole l (fun k' => generators l 2 k k')). rewrite (rsum_ext _ _ (fun k' => generators l 2 k k' * P l (x 0) k')) by (intros k' Hk'; rewrite (P_ext l pole (x 0) X0) by exact Hk'; reflexivity). apply (P_along 2 x); [|exact Hk].
      intros i Hi. unfold x. cbn [rsum vec3]. rewrite !generators_l1 by lia. destruct i as [|[|[|i]]]; [| | |lia]; cbn [eps vec3].
      * apply (der_eq (fun s => - sin s) 0 (- cos 0)); [ring|]. apply der_opp, is_derive_Reals, derivable_pt_lim_sin.
      * apply (der_eq cos 0 (- sin 0)); [ring|]. apply is_derive_Reals, derivable_pt_lim_cos.
      * apply (der_eq (fun _ => 0) 0 0); [ring|]. apply der_const. }
  rewrite <- E. pose proof (DP_linear l pole (fun _ => -1) (fun _ => vec3 1 0 0) 1 k) as L. cbn [rsum] in L.
  rewrite (DP_ext l pole pole (vec3 (-1) 0 0) (fun i => 0 + -1 * vec3 1 0 0 i)); [|reflexivity|intros [|[|[|i]]] Hi; [| | |lia]; cbn [vec3]; ring|exact Hk]. rewrite L. ring.
Qed.
