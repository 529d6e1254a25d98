(* Spaces of functions on a finite index list with an action of O(3), and families of functions that transform like an irrep (multiplets). *)
From Coq Require Import Reals Lra Lia List Arith Permutation.
From Verif Require Import PyBase PermModel IrrepsModel IrrepsProofs IrrepsProofs2 SumR S2Proofs3 RotationModel RotationProofs CGModel WignerModel WignerProofs WignerProofs2 WignerProps WignerProps2 CGComplete SchurProofs.
Import ListNotations.
Open Scope R_scope.

(* every pair of entries at different positions is related *)
Fixpoint pairwise {T} (P : T -> T -> Prop) (l : list T) : Prop := match l with [] => True | a :: l => Forall (P a) l /\ pairwise P l end.
Lemma pairwise_app {T} (P : T -> T -> Prop) l l' : pairwise P (l ++ l') <-> pairwise P l /\ pairwise P l' /\ (forall a b, In a l -> In b l' -> P a b).
Proof.
  induction l as [|a l IH]; cbn [app pairwise]; [split; [intros H; repeat split; [exact H|intros a b []]|intros (_ & H & _); exact H]|].
  rewrite IH, Forall_app. split.
  - intros ((H1 & H2) & H3 & H4 & H5). repeat split; auto. intros c b [<-|Hc] Hb; [rewrite Forall_forall in H2; auto|auto].
  - intros ((H1 & H3) & H4 & H5). repeat split; auto; [apply Forall_forall; intros b Hb; apply H5; [left; reflexivity|exact Hb]|]. intros c b Hc Hb. apply H5; [right; exact Hc|exact Hb].
Qed.
Lemma pairwise_impl {T} (P Q : T -> T -> Prop) l : (forall a b, In a l -> In b l -> P a b -> Q a b) -> pairwise P l -> pairwise Q l.
Proof.
  induction l as [|a l IH]; intros H; [auto|]. intros [H1 H2]. split.
  - apply Forall_forall. intros b Hb. apply H; [left; reflexivity|right; exact Hb|]. rewrite Forall_forall in H1. auto.
  - apply IH; [|exact H2]. intros c b Hc Hb. apply H; right; assumption.
Qed.
Lemma pairwise_flat_map {S T} (P : T -> T -> Prop) (f : S -> list T) l : (forall a, In a l -> pairwise P (f a)) -> pairwise (fun a b => forall x y, In x (f a) -> In y (f b) -> P x y) l -> pairwise P (flat_map f l).
Proof.
  induction l as [|a l IH]; intros H1 H2; [exact Logic.I|]. cbn [flat_map]. destruct H2 as [H2 H3]. apply pairwise_app. split; [apply H1; left; reflexivity|]. split; [apply IH; [intros b Hb; apply H1; right; exact Hb|exact H3]|].
  intros x y Hx Hy. apply in_flat_map in Hy as (b & Hb & Hy). rewrite Forall_forall in H2. exact (H2 b Hb x y Hx Hy).
Qed.
Lemma pairwise_map {S T} (P : T -> T -> Prop) (f : S -> T) l : pairwise P (map f l) <-> pairwise (fun a b => P (f a) (f b)) l.
Proof. induction l as [|a l IH]; [tauto|]. cbn [map pairwise]. rewrite IH, Forall_map. tauto. Qed.
Lemma pairwise_nodup {T} (l : list T) : NoDup l <-> pairwise (fun a b => a <> b) l.
Proof.
  induction l as [|a l IH]; [split; [intros; exact Logic.I|constructor]|]. cbn [pairwise]. rewrite NoDup_cons_iff, IH, Forall_forall. split; intros [H1 H2]; split; auto; [intros b Hb ->; auto|intros Ha; exact (H1 a Ha eq_refl)].
Qed.
Lemma pairwise_perm {T} (P : T -> T -> Prop) l l' : (forall a b, P a b -> P b a) -> Permutation l l' -> pairwise P l -> pairwise P l'.
Proof.
  intros Sy H. induction H as [|a l l' H IH|a b l|l l' l'' H IH H' IH']; intros K; auto.
  - destruct K as [K1 K2]. split; [|auto]. rewrite Forall_forall in *. intros b Hb. apply K1. apply Permutation_in with l'; [apply Permutation_sym, H|exact Hb].
  - destruct K as [K1 [K2 K3]]. inversion K1 as [|? ? K4 K5]. subst. repeat split; auto.
Qed.
Lemma pairwise_filter {T} (P : T -> T -> Prop) f l : pairwise P l -> pairwise P (filter f l).
Proof.
  induction l as [|a l IH]; [auto|]. intros [H1 H2]. cbn [filter]. destruct (f a); [|auto]. split; [|auto]. rewrite Forall_forall in *. intros b Hb. apply filter_In in Hb as [Hb _]. auto.
Qed.

(* ---------- functions on a finite list ---------- *)
Section Columns.
Context {A : Type}.
Variable X : list A.
Notation fn := (A -> R).
Definition dot (f g : fn) : R := lsum X (fun x => f x * g x).
(* the sum of the projections of f on the entries of S *)
Definition expand (S : list fn) (f : fn) : fn := fun x => lsum S (fun s => dot f s * s x).
(* f is that sum *)
Definition repro (S : list fn) (f : fn) : Prop := forall x, In x X -> expand S f x = f x.
Definition orthonormal_list (S : list fn) : Prop := Forall (fun s => dot s s = 1) S /\ pairwise (fun s s' => dot s s' = 0) S.

Lemma dot_sym f g : dot f g = dot g f.
Proof. apply lsum_ext. intros; ring. Qed.
Lemma dot_ext f f' g g' : (forall x, In x X -> f x = f' x) -> (forall x, In x X -> g x = g' x) -> dot f g = dot f' g'.
Proof. intros H H'. apply lsum_ext. intros x Hx. rewrite H, H' by exact Hx. reflexivity. Qed.
Lemma dot_lsum {T} (l : list T) c (h : T -> fn) g : dot (fun x => lsum l (fun a => c a * h a x)) g = lsum l (fun a => c a * dot (h a) g).
Proof.
  unfold dot. rewrite (lsum_ext X _ (fun x => lsum l (fun a => c a * (h a x * g x)))) by (intros; rewrite <- lsum_scal_r; apply lsum_ext; intros; ring). rewrite lsum_swap. apply lsum_ext. intros. apply lsum_scal.
Qed.
Lemma dot_lsum_r {T} (l : list T) c (h : T -> fn) g : dot g (fun x => lsum l (fun a => c a * h a x)) = lsum l (fun a => c a * dot g (h a)).
Proof. rewrite dot_sym, dot_lsum. apply lsum_ext. intros. rewrite dot_sym. reflexivity. Qed.
Lemma dot_rsum n c (h : nat -> fn) g : dot (fun x => rsum n (fun a => c a * h a x)) g = rsum n (fun a => c a * dot (h a) g).
Proof. rewrite <- lsum_seq, <- dot_lsum. apply dot_ext; [|reflexivity]. intros. rewrite lsum_seq. reflexivity. Qed.
Lemma dot_rsum_r n c (h : nat -> fn) g : dot g (fun x => rsum n (fun a => c a * h a x)) = rsum n (fun a => c a * dot g (h a)).
Proof. rewrite dot_sym, dot_rsum. apply rsum_ext. intros. rewrite dot_sym. reflexivity. Qed.
Lemma dot_scal c f g : dot (fun x => c * f x) g = c * dot f g.
Proof. unfold dot. rewrite <- lsum_scal. apply lsum_ext. intros; ring. Qed.
Lemma dot_scal_r c f g : dot f (fun x => c * g x) = c * dot f g.
Proof. rewrite dot_sym, dot_scal, dot_sym. reflexivity. Qed.
Lemma dot_minus f f' g : dot (fun x => f x - f' x) g = dot f g - dot f' g.
Proof. unfold dot. replace (lsum X (fun x => f x * g x) - lsum X (fun x => f' x * g x)) with (lsum X (fun x => f x * g x) + (-1) * lsum X (fun x => f' x * g x)) by ring. rewrite <- lsum_scal, <- lsum_plus. apply lsum_ext. intros; ring. Qed.
Lemma dot_self_zero f : dot f f = 0 -> forall x, In x X -> f x = 0.
Proof.
  intros H x Hx. pose proof (lsum_zero_terms X (fun x => f x * f x) (fun a _ => Rle_0_sqr (f a)) H x Hx) as Z. cbv beta in Z. nra.
Qed.

Lemma expand_ext S f g x : (forall y, In y X -> f y = g y) -> expand S f x = expand S g x.
Proof. intros H. apply lsum_ext. intros s _. f_equal. apply dot_ext; auto. Qed.
Lemma expand_lsum {T} S (l : list T) c (h : T -> fn) x : expand S (fun x => lsum l (fun a => c a * h a x)) x = lsum l (fun a => c a * expand S (h a) x).
Proof.
  unfold expand. rewrite (lsum_ext S _ (fun s => lsum l (fun a => c a * (dot (h a) s * s x)))) by (intros; rewrite dot_lsum, <- lsum_scal_r; apply lsum_ext; intros; ring). rewrite lsum_swap. apply lsum_ext. intros. apply lsum_scal.
Qed.
Lemma repro_ext S f g : (forall x, In x X -> f x = g x) -> repro S f -> repro S g.
Proof. intros H K x Hx. rewrite <- H, <- K by exact Hx. apply expand_ext. intros. symmetry. auto. Qed.
Lemma repro_lsum {T} S (l : list T) c (h : T -> fn) : (forall a, In a l -> repro S (h a)) -> repro S (fun x => lsum l (fun a => c a * h a x)).
Proof. intros H x Hx. rewrite expand_lsum. apply lsum_ext. intros a Ha. rewrite (H a Ha x Hx). reflexivity. Qed.
Lemma repro_rsum S n c (h : nat -> fn) : (forall k, (k < n)%nat -> repro S (h k)) -> repro S (fun x => rsum n (fun k => c k * h k x)).
Proof. intros H. apply (repro_ext S (fun x => lsum (seq 0 n) (fun k => c k * h k x))); [intros; apply lsum_seq|]. apply repro_lsum. intros k Hk. apply in_seq in Hk. apply H. lia. Qed.
Lemma repro_scal S c f : repro S f -> repro S (fun x => c * f x).
Proof. intros H x Hx. unfold expand. rewrite (lsum_ext S _ (fun s => c * (dot f s * s x))) by (intros; rewrite dot_scal; ring). rewrite lsum_scal. change (c * expand S f x = c * f x). rewrite (H x Hx). reflexivity. Qed.
Lemma repro_trans S S' f : (forall s, In s S' -> repro S s) -> repro S' f -> repro S f.
Proof. intros H K. apply (repro_ext S (expand S' f)); [exact K|]. apply (repro_lsum S S' (fun s => dot f s) (fun s => s)). exact H. Qed.
Lemma repro_member S s : orthonormal_list S -> In s S -> repro S s.
Proof.
  intros [U P] H x _. apply in_split in H as (l1 & l2 & ->). unfold expand. rewrite lsum_app, lsum_cons. apply Forall_app in U as [_ U]. inversion U as [|? ? U1 _]. subst. apply pairwise_app in P as (_ & [P1 _] & P2). rewrite U1.
  rewrite (lsum_zero l1), (lsum_zero l2); [ring| |].
  - intros a Ha. rewrite Forall_forall in P1. rewrite (P1 a Ha). ring.
  - intros a Ha. rewrite dot_sym, (P2 a s Ha (or_introl eq_refl)). ring.
Qed.
Lemma expand_dot S f g : dot (expand S f) g = lsum S (fun s => dot f s * dot s g).
Proof. unfold expand. apply (dot_lsum S (fun s => dot f s) (fun s => s)). Qed.
Lemma expand_sym S f g : dot (expand S f) g = dot f (expand S g).
Proof. rewrite expand_dot, (dot_sym f (expand S g)), expand_dot. apply lsum_ext. intros s _. rewrite (dot_sym s g), (dot_sym s f). ring. Qed.
Lemma expand_repro S f : orthonormal_list S -> repro S (expand S f).
Proof. intros O. apply (repro_lsum S S (fun s => dot f s) (fun s => s)). intros s Hs. apply repro_member; assumption. Qed.
Lemma repro_perm S S' f : Permutation S S' -> repro S f -> repro S' f.
Proof. intros P H x Hx. rewrite <- (H x Hx). apply lsum_perm. apply Permutation_sym, P. Qed.
End Columns.

(* ---------- multiplets ---------- *)
(* the components of the family at an index *)
Notation mult A := (irrep * (A -> nat -> R))%type.
Notation comp t m := (fun x => snd t x m).
Section Multiplets.
Context {A : Type}.
Variables (X : list A) (rho : mat -> A -> A -> R).
Definition rot (r : mat) (f : A -> R) : A -> R := fun x => lsum X (fun y => rho r x y * f y).
(* the action preserves the inner product *)
Definition preserving : Prop := forall r f g, orthogonal3 r -> dot X (rot r f) (rot r g) = dot X f g.
(* the components transform like the irrep *)
Definition covariant (t : mult A) : Prop := forall r x m, orthogonal3 r -> In x X -> (m < ir_dim (fst t))%nat ->
  rot r (comp t m) x = rsum (ir_dim (fst t)) (fun m' => D_from_matrix r (fst t) m' m * snd t x m').
Definition unit_mult (t : mult A) : Prop := forall m m', (m < ir_dim (fst t))%nat -> (m' < ir_dim (fst t))%nat -> dot X (comp t m) (comp t m') = if (m =? m')%nat then 1 else 0.
Definition orth_mult (t s : mult A) : Prop := forall m m', (m < ir_dim (fst t))%nat -> (m' < ir_dim (fst s))%nat -> dot X (comp t m) (comp s m') = 0.
Definition columns (L : list (mult A)) : list (A -> R) := flat_map (fun t => map (fun m => comp t m) (seq 0 (ir_dim (fst t)))) L.

Hypothesis Pr : preserving.
Lemma overlap_is_commutant t s : covariant t -> covariant s -> commutes (fst t) (fst s) (fun m k => dot X (comp t m) (comp s k)).
Proof.
  intros Ct Cs r i j O Hi Hj. set (M := fun m k => dot X (comp t m) (comp s k)). set (da := ir_dim (fst t)) in *. set (db := ir_dim (fst s)) in *. set (Da := D_from_matrix r (fst t)). set (Db := D_from_matrix r (fst s)).
  assert (E : forall m k, (m < da)%nat -> (k < db)%nat -> M m k = rsum da (fun m' => rsum db (fun k' => Da m' m * Db k' k * M m' k'))).
  { intros m k Hm Hk. unfold M at 1. rewrite <- (Pr r _ _ O). rewrite (dot_ext X _ (fun x => rsum da (fun m' => Da m' m * snd t x m')) _ (fun x => rsum db (fun k' => Db k' k * snd s x k'))) by (intros x Hx; first [apply (Ct r x m O Hx Hm)|apply (Cs r x k O Hx Hk)]).
    rewrite (dot_rsum X da (fun m' => Da m' m) (fun m' x => snd t x m')). apply rsum_ext. intros m' Hm'. rewrite (dot_rsum_r X db (fun k' => Db k' k) (fun k' x => snd s x k')), <- rsum_scal. apply rsum_ext. intros k' Hk'. unfold M. ring. }
  rewrite (rsum_ext da _ (fun k => rsum da (fun m' => rsum db (fun k' => (Da i k * Da m' k) * (Db k' j * M m' k'))))).
  2: { intros k Hk. change (dot X (comp t k) (comp s j)) with (M k j). rewrite (E k j Hk Hj). rewrite <- rsum_scal. apply rsum_ext. intros m' Hm'. rewrite <- rsum_scal. apply rsum_ext. intros k' Hk'. fold Da. ring. }
  rewrite rsum_swap. rewrite (rsum_ext da _ (fun m' => (if (i =? m')%nat then 1 else 0) * rsum db (fun k' => Db k' j * M m' k'))).
  - rewrite (rsum_delta_r da i (fun m' => rsum db (fun k' => Db k' j * M m' k'))) by exact Hi. apply rsum_ext. intros k' Hk'. fold Db. unfold M. ring.
  - intros m' Hm'. rewrite rsum_swap, <- rsum_scal. apply rsum_ext. intros k' Hk'. rewrite rsum_scal_r. f_equal. pose proof (C39_orthogonal r (fst t) i m' O Hi Hm') as [Q _]. exact Q.
Qed.
Lemma overlap_zero t s m k : covariant t -> covariant s -> fst t <> fst s -> (m < ir_dim (fst t))%nat -> (k < ir_dim (fst s))%nat -> dot X (comp t m) (comp s k) = 0.
Proof. intros Ct Cs N Hm Hk. exact (schur_zero _ _ _ (overlap_is_commutant t s Ct Cs) N m k Hm Hk). Qed.
Lemma overlap_scalar t s m k : covariant t -> covariant s -> fst t = fst s -> (m < ir_dim (fst t))%nat -> (k < ir_dim (fst s))%nat -> dot X (comp t m) (comp s k) = (if (m =? k)%nat then 1 else 0) * dot X (comp t 0%nat) (comp s 0%nat).
Proof.
  intros Ct Cs E Hm Hk. pose proof (overlap_is_commutant t s Ct Cs) as H. rewrite <- E in H. rewrite <- E in Hk. exact (schur_scalar _ _ H m k Hm Hk).
Qed.
End Multiplets.
