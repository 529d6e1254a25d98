(* Finite sums of real numbers: over 0..n-1 and over lists. *)
From Verif Require Import PyBase.
From Coq Require Import Reals Lra.
Open Scope R_scope.

Fixpoint rsum (n : nat) (f : nat -> R) : R := match n with 0%nat => 0 | S n => rsum n f + f n end.
Definition lsum {A} (l : list A) (f : A -> R) : R := fold_right (fun a s => f a + s) 0 l.

Lemma rsum_ext n f g : (forall k, (k < n)%nat -> f k = g k) -> rsum n f = rsum n g.
Proof. intros H. induction n as [|n IH]; [reflexivity|]. cbn [rsum]. rewrite IH by (intros; apply H; lia). rewrite H by lia. reflexivity. Qed.
Lemma rsum_plus n f g : rsum n (fun k => f k + g k) = rsum n f + rsum n g.
Proof. induction n as [|n IH]; cbn [rsum]; [|rewrite IH]; lra. Qed.
Lemma rsum_scal n c f : rsum n (fun k => c * f k) = c * rsum n f.
Proof. induction n as [|n IH]; cbn [rsum]; [|rewrite IH]; lra. Qed.
Lemma rsum_scal_r n c f : rsum n (fun k => f k * c) = rsum n f * c.
Proof. induction n as [|n IH]; cbn [rsum]; [|rewrite IH]; lra. Qed.
Lemma rsum_zero n f : (forall k, (k < n)%nat -> f k = 0) -> rsum n f = 0.
Proof. intros H. rewrite (rsum_ext n f (fun k => 0 * f k)) by (intros; rewrite H by assumption; lra). rewrite rsum_scal. lra. Qed.
Lemma rsum_opp n f : rsum n (fun k => - f k) = - rsum n f.
Proof. induction n as [|n IH]; cbn [rsum]; [|rewrite IH]; lra. Qed.
Lemma rsum_swap n m f : rsum n (fun a => rsum m (fun b => f a b)) = rsum m (fun b => rsum n (fun a => f a b)).
Proof. induction n as [|n IH]; cbn [rsum]; [symmetry; apply rsum_zero; reflexivity|]. rewrite IH, rsum_plus. reflexivity. Qed.
Lemma rsum_add n m f : rsum (n + m) f = rsum n f + rsum m (fun k => f (n + k)%nat).
Proof. induction m as [|m IH]; [rewrite Nat.add_0_r; cbn [rsum]; lra|]. rewrite Nat.add_succ_r. cbn [rsum]. rewrite IH. lra. Qed.
Lemma rsum_mul n m f : rsum (n * m) f = rsum n (fun a => rsum m (fun b => f (a * m + b)%nat)).
Proof. induction n as [|n IH]; [reflexivity|]. cbn [rsum]. rewrite <- IH. replace (S n * m)%nat with (n * m + m)%nat by lia. apply rsum_add. Qed.
Lemma rsum_S_l n f : rsum (S n) f = f 0%nat + rsum n (fun k => f (S k)).
Proof. induction n as [|n IH]; [cbn [rsum]; lra|]. change (rsum (S (S n)) f) with (rsum (S n) f + f (S n)). rewrite IH. cbn [rsum]. lra. Qed.
Lemma rsum_delta n a f : (a < n)%nat -> rsum n (fun k => if Nat.eqb k a then f k else 0) = f a.
Proof.
  intros H. induction n as [|n IH]; [lia|]. cbn [rsum]. destruct (Nat.eqb_spec n a) as [->|N].
  - rewrite rsum_zero; [lra|]. intros k Hk. destruct (Nat.eqb_spec k a); [lia|reflexivity].
  - rewrite IH by lia. lra.
Qed.
Lemma rsum_delta_l n a f : (a < n)%nat -> rsum n (fun k => (if Nat.eqb k a then 1 else 0) * f k) = f a.
Proof. intros H. rewrite <- (rsum_delta n a f H). apply rsum_ext. intros k _. destruct (k =? a)%nat; lra. Qed.
Lemma rsum_delta_r n a f : (a < n)%nat -> rsum n (fun k => (if Nat.eqb a k then 1 else 0) * f k) = f a.
Proof. intros H. rewrite <- (rsum_delta n a f H). apply rsum_ext. intros k _. rewrite Nat.eqb_sym. destruct (k =? a)%nat; lra. Qed.
Lemma rsum_const n c : rsum n (fun _ => c) = INR n * c.
Proof. induction n as [|n IH]; [cbn; lra|]. cbn [rsum]. rewrite IH, S_INR. lra. Qed.
Lemma rsum_nonneg n f : (forall k, (k < n)%nat -> 0 <= f k) -> 0 <= rsum n f.
Proof. intros H. induction n as [|n IH]; [cbn; lra|]. cbn [rsum]. assert (0 <= f n) by (apply H; lia). assert (0 <= rsum n f) by (apply IH; intros; apply H; lia). lra. Qed.
Lemma rsum_rev n f : rsum n f = rsum n (fun k => f (n - 1 - k)%nat).
Proof.
  induction n as [|n IH]; [reflexivity|]. rewrite (rsum_S_l n (fun k => f (S n - 1 - k)%nat)). change (rsum (S n) f) with (rsum n f + f n). rewrite IH.
  replace (S n - 1 - 0)%nat with n by lia. rewrite Rplus_comm. f_equal. apply rsum_ext. intros k Hk. f_equal. lia.
Qed.

Lemma lsum_cons {A} (a : A) l f : lsum (a :: l) f = f a + lsum l f.
Proof. reflexivity. Qed.
Lemma lsum_ext {A} (l : list A) f g : (forall a, In a l -> f a = g a) -> lsum l f = lsum l g.
Proof. induction l as [|a l IH]; intros H; [reflexivity|]. rewrite !lsum_cons, (H a), IH by (auto using in_eq, in_cons). reflexivity. Qed.
Lemma lsum_plus {A} (l : list A) f g : lsum l (fun a => f a + g a) = lsum l f + lsum l g.
Proof. induction l as [|a l IH]; [cbn; lra|]. rewrite !lsum_cons, IH. lra. Qed.
Lemma lsum_scal {A} (l : list A) c f : lsum l (fun a => c * f a) = c * lsum l f.
Proof. induction l as [|a l IH]; [cbn; lra|]. rewrite !lsum_cons, IH. lra. Qed.
Lemma lsum_zero {A} (l : list A) f : (forall a, In a l -> f a = 0) -> lsum l f = 0.
Proof. induction l as [|a l IH]; intros H; [reflexivity|]. rewrite lsum_cons, (H a), IH by (auto using in_eq, in_cons). lra. Qed.
Lemma lsum_app {A} (l l' : list A) f : lsum (l ++ l') f = lsum l f + lsum l' f.
Proof. induction l as [|a l IH]; [change (lsum l' f = 0 + lsum l' f); lra|]. cbn [app]. rewrite !lsum_cons, IH. lra. Qed.
Lemma lsum_map {A B} (g : A -> B) l f : lsum (map g l) f = lsum l (fun a => f (g a)).
Proof. induction l as [|a l IH]; [reflexivity|]. cbn [map]. rewrite !lsum_cons, IH. reflexivity. Qed.
Lemma lsum_filter {A} (p : A -> bool) l f : lsum (filter p l) f = lsum l (fun a => if p a then f a else 0).
Proof. induction l as [|a l IH]; [reflexivity|]. cbn [filter]. rewrite lsum_cons. destruct (p a); rewrite ?lsum_cons, IH; lra. Qed.
Lemma lsum_rsum {A} (l : list A) n f : lsum l (fun a => rsum n (f a)) = rsum n (fun k => lsum l (fun a => f a k)).
Proof. induction l as [|a l IH]; [symmetry; apply rsum_zero; reflexivity|]. rewrite lsum_cons, IH, <- rsum_plus. reflexivity. Qed.
Lemma lsum_swap {A B} (l : list A) (l' : list B) f : lsum l (fun a => lsum l' (fun b => f a b)) = lsum l' (fun b => lsum l (fun a => f a b)).
Proof. induction l as [|a l IH]; [symmetry; apply lsum_zero; reflexivity|]. rewrite lsum_cons, IH, <- lsum_plus. reflexivity. Qed.
Lemma lsum_seq n f : lsum (seq 0 n) f = rsum n f.
Proof. induction n as [|n IH]; [reflexivity|]. rewrite seq_S, lsum_app, IH. cbn. lra. Qed.
Lemma lsum_nth {A} (l : list A) d f : lsum l f = rsum (length l) (fun k => f (nth k l d)).
Proof. induction l as [|a l IH]; [reflexivity|]. cbn [length]. rewrite rsum_S_l, lsum_cons, IH. reflexivity. Qed.
Lemma fold_plus_rsum l : fold_right Rplus 0 l = rsum (length l) (fun k => nth k l 0).
Proof. rewrite <- (lsum_nth l 0 (fun v => v)). reflexivity. Qed.
Lemma lsum_scal_r {A} (l : list A) c f : lsum l (fun a => f a * c) = lsum l f * c.
Proof. induction l as [|a l IH]; [cbn; lra|]. rewrite !lsum_cons, IH. lra. Qed.
Lemma lsum_flat_map {A B} (g : A -> list B) l f : lsum (flat_map g l) f = lsum l (fun a => lsum (g a) f).
Proof. induction l as [|a l IH]; [reflexivity|]. cbn [flat_map]. rewrite lsum_app, lsum_cons, IH. reflexivity. Qed.
Lemma lsum_nonneg {A} (l : list A) f : (forall a, In a l -> 0 <= f a) -> 0 <= lsum l f.
Proof. induction l as [|a l IH]; intros H; [cbn; lra|]. rewrite lsum_cons. assert (0 <= f a) by (apply H, in_eq). assert (0 <= lsum l f) by (apply IH; intros; apply H, in_cons; assumption). lra. Qed.
Lemma rsum_prod n m f g : rsum n f * rsum m g = rsum n (fun a => rsum m (fun b => f a * g b)).
Proof. rewrite <- rsum_scal_r. apply rsum_ext. intros a _. symmetry. apply rsum_scal. Qed.
