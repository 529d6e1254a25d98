(* Restricting a reduced basis to an invariant subspace, irrep by irrep, by combining first components only. *)
From Coq Require Import Reals Lra Lia List Arith Permutation.
From Verif Require Import PyBase PermModel IrrepsModel IrrepsProofs IrrepsProofs2 SumR S2Proofs3 RotationModel RotationProofs CGModel WignerModel WignerProofs WignerProofs2 WignerProps WignerProps2 CGComplete GSProofs SchurProofs MultProofs CouplingProofs ReducedProofs.
Import ListNotations.
Open Scope R_scope.

Lemma pairwise_nth {T} (P : T -> T -> Prop) l d i j : pairwise P l -> (i < j < length l)%nat -> P (nth i l d) (nth j l d).
Proof.
  revert i j. induction l as [|a l IH]; intros i j H Hij; [cbn in Hij; lia|]. destruct H as [H1 H2]. destruct i as [|i], j as [|j]; cbn [length] in Hij; try lia; cbn [nth].
  - rewrite Forall_forall in H1. apply H1, nth_In. lia.
  - apply IH; [exact H2|lia].
Qed.
Section Constrain.
Context {A : Type}.
Variables (X : list A) (rho : mat -> A -> A -> R).
Hypothesis Pr : preserving X rho.
(* the inverse of an element is its transpose *)
Definition adjoint : Prop := forall r f g, orthogonal3 r -> dot X (rot X rho r f) g = dot X f (rot X rho (mtr r) g).
Hypothesis Adj : adjoint.
Variables (W : (A -> R) -> Prop) (S : list (A -> R)).
Hypothesis OS : orthonormal_list X S.
Hypothesis WS : forall f, W f <-> repro X S f.
Hypothesis Inv : forall r f, orthogonal3 r -> W f -> W (rot X rho r f).

Lemma rot_minus r f g x : rot X rho r (fun y => f y - g y) x = rot X rho r f x - rot X rho r g x.
Proof. unfold rot. replace (lsum X (fun y => rho r x y * f y) - lsum X (fun y => rho r x y * g y)) with (lsum X (fun y => rho r x y * f y) + (-1) * lsum X (fun y => rho r x y * g y)) by ring. rewrite <- lsum_scal, <- lsum_plus. apply lsum_ext. intros; ring. Qed.
Lemma expand_minus f g x : expand X S (fun y => f y - g y) x = expand X S f x - expand X S g x.
Proof. unfold expand. replace (lsum S (fun s => dot X f s * s x) - lsum S (fun s => dot X g s * s x)) with (lsum S (fun s => dot X f s * s x) + (-1) * lsum S (fun s => dot X g s * s x)) by ring. rewrite <- lsum_scal, <- lsum_plus. apply lsum_ext. intros. rewrite dot_minus. ring. Qed.
Lemma project_commutes r f x : orthogonal3 r -> In x X -> rot X rho r (expand X S f) x = expand X S (rot X rho r f) x.
Proof.
  intros O Hx. set (p := expand X S f). assert (Wp : W p) by (apply WS, expand_repro, OS). pose proof (Inv r p O Wp) as Wr. apply WS in Wr. rewrite <- (Wr x Hx).
  assert (Z : expand X S (rot X rho r (fun y => f y - p y)) x = 0).
  { apply lsum_zero. intros s Hs. rewrite (Adj r _ s O). assert (Ws : W (rot X rho (mtr r) s)) by (apply Inv; [apply o3_tr, O|]; apply WS, repro_member; assumption). apply WS in Ws.
    rewrite (dot_ext X _ (fun y => f y - p y) _ (expand X S (rot X rho (mtr r) s))) by (intros y Hy; first [reflexivity|symmetry; apply Ws, Hy]). rewrite <- expand_sym.
    rewrite (dot_ext X _ (fun _ => 0) _ (rot X rho (mtr r) s)); [unfold dot; rewrite (lsum_zero X); [ring|intros; ring]| |reflexivity]. intros y Hy. rewrite expand_minus. unfold p. rewrite (expand_repro X S f OS y Hy). ring. }
  rewrite (expand_ext X S _ (fun y => rot X rho r f y - rot X rho r p y)) in Z by (intros; apply rot_minus). rewrite expand_minus in Z. lra.
Qed.
Lemma first_component_decides t : covariant X rho t -> W (comp t 0%nat) -> forall m, (m < ir_dim (fst t))%nat -> W (comp t m).
Proof.
  intros Ct W0 m Hm. set (N := (fst t, fun x k => snd t x k - expand X S (comp t k) x) : mult A).
  assert (CN : covariant X rho N).
  { intros r x k O Hx Hk. cbn [fst snd N] in *. rewrite rot_minus, (Ct r x k O Hx Hk). rewrite (project_commutes r (comp t k) x O Hx).
    rewrite (expand_ext X S _ (fun y => rsum (ir_dim (fst t)) (fun k' => D_from_matrix r (fst t) k' k * snd t y k'))) by (intros y Hy; apply (Ct r y k O Hy Hk)).
    assert (E : expand X S (fun y => rsum (ir_dim (fst t)) (fun k' => D_from_matrix r (fst t) k' k * snd t y k')) x = rsum (ir_dim (fst t)) (fun k' => D_from_matrix r (fst t) k' k * expand X S (comp t k') x)).
    { rewrite <- lsum_seq. rewrite <- (expand_lsum X S (seq 0 (ir_dim (fst t))) (fun k' => D_from_matrix r (fst t) k' k) (fun k' => comp t k') x). apply expand_ext. intros y _. rewrite lsum_seq. reflexivity. }
    rewrite E. unfold Rminus. rewrite <- rsum_opp, <- rsum_plus. apply rsum_ext. intros; ring. }
  apply WS. apply WS in W0. intros x Hx.
  assert (Z : dot X (comp N m) (comp N m) = 0).
  { rewrite (overlap_scalar X rho Pr N N m m CN CN eq_refl Hm Hm), Nat.eqb_refl. rewrite (dot_ext X _ (fun _ => 0) _ (comp N 0%nat)); [unfold dot; rewrite (lsum_zero X); [ring|intros; ring]| |reflexivity]. intros y Hy. cbn [snd N]. rewrite (W0 y Hy). ring. }
  pose proof (dot_self_zero X _ Z x Hx) as Q. cbn [snd N] in Q. lra.
Qed.

(* ---------- irrep by irrep ---------- *)
Variables (K : irrep -> Prop) (W0 : (A -> R) -> Prop) (L : list (mult A)).
Hypothesis RL : reduced X rho K W0 L.
Hypothesis Sub : forall f, W f -> W0 f.
(* the multiplets of type ir *)
Definition members (ir : irrep) : list (A -> nat -> R) := map snd (filter (fun t : mult A => irrep_eqb (fst t) ir) L).
Definition member (ir : irrep) (u : nat) : A -> nat -> R := nth u (members ir) (fun _ _ => 0).
Definition count (ir : irrep) : nat := length (members ir).
(* the combination of them with the coefficients p *)
Definition combined (ir : irrep) (p : list R) : mult A := (ir, fun x m => rsum (count ir) (fun u => nth u p 0 * member ir u x m)).
Definition constrained (irs : list irrep) (P : irrep -> list (list R)) : list (mult A) := flat_map (fun ir => map (combined ir) (P ir)) irs.
Lemma in_member ir u : (u < count ir)%nat -> In (ir, member ir u) L.
Proof.
  intros Hu. assert (I : In (member ir u) (members ir)) by (apply nth_In, Hu). apply in_map_iff in I as ([ir' f] & E & I). apply filter_In in I as [I Q]. cbn [fst snd] in *. apply irrep_eqb_eq in Q. subst. exact I.
Qed.
Lemma member_dot ir u u' m m' : (u < count ir)%nat -> (u' < count ir)%nat -> (m < ir_dim ir)%nat -> (m' < ir_dim ir)%nat -> dot X (fun x => member ir u x m) (fun x => member ir u' x m') = delta u u' * delta m m'.
Proof.
  intros Hu Hu' Hm Hm'. destruct (Nat.eqb_spec u u') as [-> |N].
  - pose proof (red_unit _ _ _ _ _ RL) as U. rewrite Forall_forall in U. rewrite Rmult_1_l. apply (U (ir, member ir u') (in_member ir u' Hu') m m' Hm Hm').
  - rewrite Rmult_0_l. set (F := filter (fun t : mult A => irrep_eqb (fst t) ir) L). assert (PF : pairwise (orth_mult X) F) by (apply pairwise_filter, (red_orth _ _ _ _ _ RL)).
    assert (EF : forall q, (q < count ir)%nat -> member ir q = snd (nth q F (ir, fun _ _ => 0)) /\ fst (nth q F (ir, fun _ _ => 0)) = ir).
    { intros q Hq. unfold count, members in Hq. rewrite map_length in Hq. fold F in Hq. split.
      - unfold member, members. fold F. apply (map_nth snd F (ir, fun _ _ => 0)).
      - assert (I : In (nth q F (ir, fun _ _ => 0)) F) by (apply nth_In, Hq). apply filter_In in I as [_ I]. apply irrep_eqb_eq, I. }
    destruct (EF u Hu) as [E1 E2], (EF u' Hu') as [E3 E4]. rewrite E1, E3. assert (LF : length F = count ir) by (unfold count, members; rewrite map_length; reflexivity).
    destruct (Nat.lt_ge_cases u u') as [H|H].
    + apply (pairwise_nth (orth_mult X) F (ir, fun _ _ => 0) u u' PF); [lia|rewrite E2; exact Hm|rewrite E4; exact Hm'].
    + rewrite dot_sym. apply (pairwise_nth (orth_mult X) F (ir, fun _ _ => 0) u' u PF); [lia|rewrite E4; exact Hm'|rewrite E2; exact Hm].
Qed.
Lemma combined_dot ir p p' m m' : (m < ir_dim ir)%nat -> (m' < ir_dim ir)%nat -> dot X (comp (combined ir p) m) (comp (combined ir p') m') = inner (count ir) p p' * delta m m'.
Proof.
  intros Hm Hm'. cbn [snd combined]. rewrite (dot_rsum X (count ir) (fun u => nth u p 0) (fun u x => member ir u x m)). unfold inner. rewrite <- rsum_scal_r. apply rsum_ext. intros u Hu. rewrite (dot_rsum_r X (count ir) (fun u => nth u p' 0) (fun u x => member ir u x m')).
  rewrite (rsum_ext (count ir) _ (fun u' => delta u u' * (nth u' p' 0 * delta m m'))) by (intros u' Hu'; rewrite (member_dot ir u u' m m' Hu Hu' Hm Hm'); ring). rewrite (rsum_delta_r (count ir) u (fun u' => nth u' p' 0 * delta m m') Hu). ring.
Qed.
Lemma combined_covariant ir p : covariant X rho (combined ir p).
Proof.
  intros r x m O Hx Hm. cbn [fst snd combined] in *. rewrite (rot_rsum X rho (count ir) (fun u => nth u p 0) (fun u y => member ir u y m)).
  pose proof (red_cov _ _ _ _ _ RL) as C. rewrite Forall_forall in C.
  rewrite (rsum_ext (count ir) _ (fun u => rsum (ir_dim ir) (fun m' => nth u p 0 * (D_from_matrix r ir m' m * member ir u x m')))) by (intros u Hu; rewrite rsum_scal; f_equal; apply (C (ir, member ir u) (in_member ir u Hu) r x m O Hx Hm)).
  rewrite rsum_swap. apply rsum_ext. intros m' _. rewrite <- rsum_scal. apply rsum_ext. intros; ring.
Qed.
(* a multiplet of type ir is a combination of the members of type ir *)
Lemma by_members t m x : covariant X rho t -> K (fst t) -> (forall m, (m < ir_dim (fst t))%nat -> W0 (comp t m)) -> (m < ir_dim (fst t))%nat -> In x X ->
  snd t x m = rsum (count (fst t)) (fun u => dot X (comp t 0%nat) (fun y => member (fst t) u y 0%nat) * member (fst t) u x m).
Proof.
  intros Ct Kt Wt Hm Hx. rewrite <- (red_all _ _ _ _ _ RL t Ct Kt Wt m Hm x Hx) at 1. unfold expand. rewrite lsum_columns. pose proof (red_cov _ _ _ _ _ RL) as C. rewrite Forall_forall in C.
  transitivity (lsum (members (fst t)) (fun f => dot X (comp t 0%nat) (fun y => f y 0%nat) * f x m)).
  - unfold members. rewrite lsum_map, lsum_filter. apply lsum_ext. intros s Hs. destruct (irrep_eqb (fst s) (fst t)) eqn:E.
    + apply irrep_eqb_eq in E. rewrite E. rewrite (rsum_ext (ir_dim (fst t)) _ (fun k => delta m k * (dot X (comp t 0%nat) (comp s 0%nat) * snd s x k))).
      * apply (rsum_delta_r (ir_dim (fst t)) m (fun k => dot X (comp t 0%nat) (comp s 0%nat) * snd s x k) Hm).
      * intros k Hk. rewrite (overlap_scalar X rho Pr t s m k Ct (C s Hs) (eq_sym E) Hm) by (rewrite E; exact Hk). ring.
    + apply rsum_zero. intros k Hk. rewrite (overlap_zero X rho Pr t s m k Ct (C s Hs)); [ring| |exact Hm|exact Hk]. intros Q. rewrite Q in E. assert (T : irrep_eqb (fst s) (fst s) = true) by (apply irrep_eqb_eq; reflexivity). congruence.
  - rewrite (lsum_nth (members (fst t)) (fun _ _ => 0)). reflexivity.
Qed.
Theorem constrain_reduced irs P : NoDup irs -> (forall t, In t L -> In (fst t) irs) -> (forall ir, In ir irs -> K ir) ->
  (forall ir, In ir irs -> of_width (count ir) (P ir) /\ orthonormal (count ir) (P ir) /\
     (forall p, In p (P ir) -> W (fun x => rsum (count ir) (fun u => nth u p 0 * member ir u x 0%nat))) /\
     (forall c, W (fun x => rsum (count ir) (fun u => c u * member ir u x 0%nat)) -> spanned (count ir) (P ir) c)) ->
  reduced X rho K W (constrained irs P).
Proof.
  intros Nd Cov HK HP.
  assert (U : Forall (unit_mult X) (constrained irs P)).
  { apply Forall_forall. intros t Ht. apply in_flat_map in Ht as (ir & Hir & Ht). apply in_map_iff in Ht as (p & <- & Hp). intros m m' Hm Hm'. cbn [fst combined] in Hm, Hm'. rewrite (combined_dot ir p p m m' Hm Hm').
    destruct (HP ir Hir) as (_ & O & _). apply (In_nth _ _ []) in Hp as (v & Hv & <-). rewrite (O v v Hv Hv), Nat.eqb_refl. ring. }
  assert (OO : pairwise (orth_mult X) (constrained irs P)).
  { apply pairwise_flat_map.
    - intros ir Hir. rewrite pairwise_map. destruct (HP ir Hir) as (_ & O & _). revert O. generalize (P ir). induction l as [|p l IH]; intros O; [exact Logic.I|]. split.
      + apply Forall_forall. intros q Hq m m' Hm Hm'. cbn [fst combined] in Hm, Hm'. rewrite (combined_dot ir p q m m' Hm Hm'). apply (In_nth _ _ []) in Hq as (v & Hv & <-). pose proof (O 0%nat (Datatypes.S v) ltac:(cbn [length]; lia) ltac:(cbn [length]; lia)) as Q. cbn [nth Nat.eqb] in Q. rewrite Q. ring.
      + apply IH. intros i j Hi Hj. exact (O (Datatypes.S i) (Datatypes.S j) ltac:(cbn [length]; lia) ltac:(cbn [length]; lia)).
    - apply (pairwise_impl (fun a b => a <> b)); [|apply pairwise_nodup, Nd]. intros ir ir' _ _ N t t' Ht Ht'. apply in_map_iff in Ht as (p & <- & _), Ht' as (p' & <- & _). intros m m' Hm Hm'. apply (overlap_zero X rho Pr); auto using combined_covariant. }
  constructor; [|exact U|exact OO| | |].
  - apply Forall_forall. intros t Ht. apply in_flat_map in Ht as (ir & _ & Ht). apply in_map_iff in Ht as (p & <- & _). apply combined_covariant.
  - apply Forall_forall. intros t Ht. apply in_flat_map in Ht as (ir & Hir & Ht). apply in_map_iff in Ht as (p & <- & _). apply HK, Hir.
  - intros t m Ht Hm. apply in_flat_map in Ht as (ir & Hir & Ht). apply in_map_iff in Ht as (p & <- & Hp). apply first_component_decides; [apply combined_covariant| |exact Hm]. destruct (HP ir Hir) as (_ & _ & H & _). exact (H p Hp).
  - intros t Ct Kt Wt m Hm. assert (W0t : forall m, (m < ir_dim (fst t))%nat -> W0 (comp t m)) by (intros; apply Sub, Wt; assumption). assert (D0 : (0 < ir_dim (fst t))%nat) by (unfold ir_dim; lia).
    set (c := fun u => dot X (comp t 0%nat) (fun y => member (fst t) u y 0%nat)).
    destruct (in_dec (fun a b : irrep => ltac:(decide equality; [decide equality|apply Nat.eq_dec]) : {a = b} + {a <> b}) (fst t) irs) as [Hir|Nir].
    + destruct (HP (fst t) Hir) as (_ & _ & _ & H). destruct (H c) as (e & He).
      { apply WS. apply (repro_ext X S (comp t 0%nat)); [intros x Hx; exact (by_members t 0%nat x Ct Kt W0t D0 Hx)|]. apply WS, Wt, D0. }
      apply (repro_ext X _ (fun x => rsum (length (P (fst t))) (fun v => e v * snd (combined (fst t) (nth v (P (fst t)) [])) x m))).
      * intros x Hx. rewrite (by_members t m x Ct Kt W0t Hm Hx). fold c. rewrite (rsum_ext (count (fst t)) _ (fun u => rsum (length (P (fst t))) (fun v => e v * (at_ (P (fst t)) v u * member (fst t) u x m)))) by (intros u Hu; change (dot X (comp t 0%nat) (fun y => member (fst t) u y 0%nat)) with (c u); rewrite (He u Hu), <- rsum_scal_r; apply rsum_ext; intros; ring).
        rewrite rsum_swap. apply rsum_ext. intros v _. cbn [snd combined]. rewrite <- rsum_scal. apply rsum_ext. intros u _. reflexivity.
      * apply (repro_rsum X _ (length (P (fst t))) e (fun v x => snd (combined (fst t) (nth v (P (fst t)) [])) x m)). intros v Hv. apply (member_repro X (constrained irs P) (combined (fst t) (nth v (P (fst t)) [])) m U OO); [|exact Hm]. apply in_flat_map. exists (fst t). split; [exact Hir|]. apply in_map, nth_In, Hv.
    + apply (repro_ext X _ (fun x => 0 * 0)).
      * intros x Hx. rewrite (by_members t m x Ct Kt W0t Hm Hx). replace (count (fst t)) with 0%nat; [cbn [rsum]; ring|]. symmetry. destruct (count (fst t)) eqn:E; [reflexivity|]. exfalso. apply Nir. apply (Cov (fst t, member (fst t) 0%nat)). apply in_member. lia.
      * intros x Hx. unfold expand. rewrite lsum_zero; [ring|]. intros s _. unfold dot. rewrite (lsum_zero X); [ring|intros; ring].
Qed.
End Constrain.
