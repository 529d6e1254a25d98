(* The linear layer with the default instructions is the most general equivariant linear (with biases: affine) map, and its parameters are determined by
   that map: Schur's lemma between every pair of copies. *)
From Coq Require Import Reals Lra Lia List Arith Bool.
From Verif Require Import PyBase PermModel IrrepsModel IrrepsProofs IrrepsProofs2 ArrayModel ArrayProofs LeadModel LeadProofs ActProofs EquivProofs SumR EntryProofs TPModel TPProofs TPProps4 GradProofs GradProps LinearModel LinearProofs LinearProps.
From Verif Require Import RotationModel WignerModel WignerProofs WignerProofs2 SchurProofs.
Import ListNotations.
Open Scope R_scope.

(* ---- linear maps between rows ---- *)
Definition keeps (x y : irreps) (T : list R -> list R) : Prop := forall a, length a = dim x -> length (T a) = dim y.
Definition linear_rows (x y : irreps) (T : list R -> list R) : Prop :=
  keeps x y T /\ forall t a b, length a = dim x -> length b = dim x -> T (zipR Rplus (map (Rmult t) a) b) = zipR Rplus (map (Rmult t) (T a)) (T b).
Definition affine_rows (x y : irreps) (T : list R -> list R) : Prop :=
  keeps x y T /\ forall t a b, length a = dim x -> length b = dim x -> T (zipR Rplus (map (Rmult t) a) (map (Rmult (1 - t)) b)) = zipR Rplus (map (Rmult t) (T a)) (map (Rmult (1 - t)) (T b)).
Definition equivariant_rows (x y : irreps) (T : list R -> list R) : Prop :=
  forall r a, orthogonal3 r -> length a = dim x -> T (act (rep_of r) x a) = act (rep_of r) y (T a).

Lemma entry_lin x r a b k u c : length a = dim x -> length b = dim x -> inside x k u c -> entry x (lin r a b) k u c = r * entry x a k u c + entry x b k u c.
Proof. intros La Lb Hin. rewrite <- (rowof_entry x a La) at 1. rewrite <- (rowof_entry x b Lb) at 1. rewrite <- rowof_lin. now rewrite entry_rowof. Qed.
Lemma lin_length x r a b : length a = dim x -> length b = dim x -> length (lin r a b) = dim x.
Proof. intros La Lb. unfold lin, zipR. rewrite map_length, combine_length, map_length. lia. Qed.
Lemma row_eq x a b : length a = dim x -> length b = dim x -> (forall k u c, inside x k u c -> entry x a k u c = entry x b k u c) -> a = b.
Proof. intros La Lb H. rewrite <- (rowof_entry x a La), <- (rowof_entry x b Lb). now apply rowof_ext. Qed.
Definition origin (x : irreps) : list R := rowof x (fun _ _ _ => 0).
Lemma linear_origin x y T j v c : linear_rows x y T -> inside y j v c -> entry y (T (origin x)) j v c = 0.
Proof.
  intros [K H] Hin. assert (L : length (origin x) = dim x) by apply rowof_length. assert (E : origin x = lin (-1) (origin x) (origin x)) by (unfold origin; rewrite <- rowof_lin; apply rowof_ext; intros; ring).
  rewrite E. unfold lin. rewrite H by exact L. change (zipR Rplus (map (Rmult (-1)) (T (origin x))) (T (origin x))) with (lin (-1) (T (origin x)) (T (origin x))). rewrite entry_lin by auto. ring.
Qed.
(* all addresses of a row *)
Definition addresses (x : irreps) : list (nat * nat * nat) :=
  flat_map (fun k => let '(m, ir) := nth k x d0 in flat_map (fun u => map (fun e => (k, u, e)) (seq 0 (ir_dim ir))) (seq 0 m)) (seq 0 (length x)).
Lemma lsum_addresses x (h : nat -> nat -> nat -> R) : lsum (addresses x) (fun '(k, u, e) => h k u e) = esum x h.
Proof.
  unfold addresses, esum. rewrite lsum_flat_map, lsum_seq. apply rsum_ext. intros k _. destruct (nth k x d0) as [m ir]. rewrite lsum_flat_map, lsum_seq. apply rsum_ext. intros u _. rewrite lsum_map, lsum_seq. reflexivity.
Qed.
Lemma linear_sum x y T {A} (l : list A) f (g : A -> nat -> nat -> nat -> R) j v c : linear_rows x y T -> inside y j v c ->
  entry y (T (rowof x (fun k u e => lsum l (fun a => f a * g a k u e)))) j v c = lsum l (fun a => f a * entry y (T (rowof x (g a))) j v c).
Proof.
  intros H Hin. induction l as [|a l IH]; [exact (linear_origin x y T j v c H Hin)|]. rewrite lsum_cons, <- IH. pose proof H as [K HL].
  assert (E : rowof x (fun k u e => lsum (a :: l) (fun a0 => f a0 * g a0 k u e)) = lin (f a) (rowof x (g a)) (rowof x (fun k u e => lsum l (fun a0 => f a0 * g a0 k u e)))) by (rewrite <- rowof_lin; apply rowof_ext; intros k u e _; rewrite lsum_cons; reflexivity).
  rewrite E. unfold lin at 1. rewrite HL by apply rowof_length. apply entry_lin; [apply K, rowof_length..|exact Hin].
Qed.
Definition block (x y : irreps) (T : list R -> list R) (j v c k u e : nat) : R := entry y (T (unit_row x k u e)) j v c.
Lemma esum_ext x f g : (forall k u e, inside x k u e -> f k u e = g k u e) -> esum x f = esum x g.
Proof.
  intros H. unfold esum. apply rsum_ext. intros k Hk. destruct (nth k x d0) as [m ir] eqn:E. apply rsum_ext. intros u Hu. apply rsum_ext. intros e He. apply H. exists m, ir. split; [|auto]. rewrite <- E. now apply nth_error_nth'.
Qed.
Lemma linear_expand x y T a j v c : linear_rows x y T -> length a = dim x -> inside y j v c -> entry y (T a) j v c = esum x (fun k u e => entry x a k u e * block x y T j v c k u e).
Proof.
  intros H L Hin. rewrite <- (lsum_addresses x (fun k u e => entry x a k u e * block x y T j v c k u e)).
  pose proof (linear_sum x y T (addresses x) (fun '(k, u, e) => entry x a k u e) (fun '(k, u, e) k' u' e' => if (k' =? k)%nat && (u' =? u)%nat && (e' =? e)%nat then 1 else 0) j v c H Hin) as Q.
  transitivity (entry y (T (rowof x (fun k u e => lsum (addresses x) (fun a0 => (let '(k0, u0, e0) := a0 in entry x a k0 u0 e0) * (let '(k0, u0, e0) := a0 in fun k' u' e' => if (k' =? k0)%nat && (u' =? u0)%nat && (e' =? e0)%nat then 1 else 0) k u e)))) j v c).
  - f_equal. f_equal. rewrite <- (rowof_entry x a L) at 1. apply rowof_ext. intros k u e (m & ir & Ek & Hu & He).
    transitivity (lsum (addresses x) (fun '(k0, u0, e0) => (if (k0 =? k)%nat then 1 else 0) * ((if (u0 =? u)%nat then 1 else 0) * (if (e0 =? e)%nat then 1 else 0)) * entry x a k0 u0 e0)).
    + rewrite (lsum_addresses x (fun k0 u0 e0 => (if (k0 =? k)%nat then 1 else 0) * ((if (u0 =? u)%nat then 1 else 0) * (if (e0 =? e)%nat then 1 else 0)) * entry x a k0 u0 e0)). rewrite (esum_column x k u m ir (fun e0 => if (e0 =? e)%nat then 1 else 0) (entry x a) Ek Hu). symmetry. apply (rsum_delta_l _ e (entry x a k u)). exact He.
    + apply lsum_ext. intros [[k0 u0] e0] _. rewrite (Nat.eqb_sym k k0), (Nat.eqb_sym u u0), (Nat.eqb_sym e e0). destruct (k0 =? k)%nat, (u0 =? u)%nat, (e0 =? e)%nat; cbn [andb]; ring.
  - rewrite Q. apply lsum_ext. intros [[k u] e] _. reflexivity.
Qed.
(* ---- Schur between two copies ---- *)
Section Blocks.
Context (x y : irreps) (T : list R -> list R) (HL : linear_rows x y T) (HE : equivariant_rows x y T).
Lemma unit_row_length k u e : length (unit_row x k u e) = dim x. Proof. apply rowof_length. Qed.
Lemma block_commutes j v mo b k u mi a : nth_error y j = Some (mo, b) -> (v < mo)%nat -> nth_error x k = Some (mi, a) -> (u < mi)%nat -> commutes b a (fun c e => block x y T j v c k u e).
Proof.
  intros Ej Hv Ek Hu r c e Or Hc He. assert (Hin : inside y j v c) by (exists mo, b; auto). pose proof (HE r (unit_row x k u e) Or (unit_row_length k u e)) as Q. apply (f_equal (fun z => entry y z j v c)) in Q.
  rewrite act_entry in Q; [|apply as_rep_ok|apply HL, unit_row_length|exact Hin]. rewrite (nth_error_nth _ _ _ Ej) in Q. cbn [snd] in Q. cbv zeta in Q.
  transitivity (rsum (ir_dim b) (fun p => mat_at (rep_of r b) c p * entry y (T (unit_row x k u e)) j v p)); [apply rsum_ext; intros p Hp; unfold rep_of; rewrite as_rep_at by assumption; reflexivity|]. rewrite <- Q. clear Q.
  rewrite (linear_expand x y T); [|exact HL|rewrite act_length by apply as_rep_ok; reflexivity|exact Hin].
  transitivity (esum x (fun k0 u0 e0 => (if (k0 =? k)%nat then 1 else 0) * ((if (u0 =? u)%nat then 1 else 0) * mat_at (rep_of r a) e0 e) * block x y T j v c k0 u0 e0)).
  - apply esum_ext. intros k0 u0 e0 Hi. rewrite act_entry; [|apply as_rep_ok|apply unit_row_length|exact Hi]. cbv zeta. f_equal. destruct Hi as (m0 & a0 & E0 & H1 & H2). rewrite (nth_error_nth _ _ _ E0). cbn [snd].
    rewrite (rsum_ext _ _ (fun p => (if (p =? e)%nat then 1 else 0) * (mat_at (rep_of r a0) e0 p * ((if (k0 =? k)%nat then 1 else 0) * (if (u0 =? u)%nat then 1 else 0))))).
    + destruct (Nat.eqb_spec k0 k) as [->|N].
      * rewrite E0 in Ek. injection Ek as -> ->. rewrite (rsum_delta_l _ e (fun p => mat_at (rep_of r a) e0 p * (1 * (if (u0 =? u)%nat then 1 else 0)))) by exact He. ring.
      * rewrite rsum_zero; [ring|]. intros p Hp. ring.
    + intros p Hp. unfold unit_row. rewrite entry_rowof by (exists m0, a0; auto). destruct (k0 =? k)%nat, (u0 =? u)%nat, (p =? e)%nat; cbn [andb]; ring.
  - rewrite (esum_column x k u mi a (fun e0 => mat_at (rep_of r a) e0 e) (block x y T j v c) Ek Hu). apply rsum_ext. intros p Hp. unfold rep_of. rewrite as_rep_at by assumption. ring.
Qed.
Lemma schur_entry a0 j v c mo b : length a0 = dim x -> nth_error y j = Some (mo, b) -> (v < mo)%nat -> (c < ir_dim b)%nat ->
  entry y (T a0) j v c = rsum (length x) (fun k => let '(m, a) := nth k x d0 in if irrep_eqb a b then rsum m (fun u => entry x a0 k u c * block x y T j v 0 k u 0) else 0).
Proof.
  intros L Ej Hv Hc. rewrite (linear_expand x y T); [|exact HL|exact L|exists mo, b; auto]. unfold esum. apply rsum_ext. intros k Hk. destruct (nth k x d0) as [m a] eqn:En. assert (Ek : nth_error x k = Some (m, a)) by (rewrite <- En; now apply nth_error_nth').
  destruct (irrep_eqb a b) eqn:E.
  - apply irrep_eqb_eq in E as ->. apply rsum_ext. intros u Hu. rewrite (rsum_ext _ _ (fun e => (if (c =? e)%nat then 1 else 0) * (entry x a0 k u e * block x y T j v 0 k u 0))).
    + apply (rsum_delta_r _ c (fun e => entry x a0 k u e * block x y T j v 0 k u 0)). exact Hc.
    + intros e He. rewrite (schur_scalar b _ (block_commutes j v mo b k u m b Ej Hv Ek Hu) c e Hc He). ring.
  - apply rsum_zero. intros u Hu. apply rsum_zero. intros e He. assert (N : b <> a) by (intros ->; rewrite (proj2 (irrep_eqb_eq a a) eq_refl) in E; discriminate). rewrite (schur_zero b a _ (block_commutes j v mo b k u m a Ej Hv Ek Hu) N c e Hc He). ring.
Qed.
End Blocks.
