(* The complex change of basis, the so(3) algebra, and the coupling coefficients in the real basis *)
From Coq Require Import Reals ZArith Arith Bool Lia Lra Psatz.
From Coquelicot Require Import Complex.
From Verif Require Import SumR CGModel CGProofs CGProofs2.
Open Scope C_scope.

(* ---- finite sums of complex numbers ---- *)
Lemma csum_ext n f g : (forall k, (k < n)%nat -> f k = g k) -> csum n f = csum n g.
Proof. induction n as [|n IH]; intro H; [reflexivity|]. cbn [csum]. rewrite IH, H by auto. reflexivity. Qed.
Lemma csum_plus n f g : csum n (fun k => f k + g k) = csum n f + csum n g.
Proof. induction n as [|n IH]; cbn [csum]; [ring|]. rewrite IH. ring. Qed.
Lemma csum_scal n c f : csum n (fun k => c * f k) = c * csum n f.
Proof. induction n as [|n IH]; cbn [csum]; [ring|]. rewrite IH. ring. Qed.
Lemma csum_scal_r n c f : csum n (fun k => f k * c) = csum n f * c.
Proof. induction n as [|n IH]; cbn [csum]; [ring|]. rewrite IH. ring. Qed.
Lemma csum_zero n (f : nat -> C) : (forall k, (k < n)%nat -> f k = 0) -> csum n f = 0.
Proof. induction n as [|n IH]; intro H; [reflexivity|]. cbn [csum]. rewrite IH, H by auto. ring. Qed.
Lemma csum_swap n m f : csum n (fun a => csum m (fun b => f a b)) = csum m (fun b => csum n (fun a => f a b)).
Proof.
  induction n as [|n IH]; cbn [csum]; [symmetry; apply csum_zero; reflexivity|]. rewrite IH, <- csum_plus. reflexivity.
Qed.
Lemma csum_pick n a (f : nat -> C) : (forall k, (k < n)%nat -> k <> a -> f k = 0) -> csum n f = if (a <? n)%nat then f a else 0.
Proof.
  induction n as [|n IH]; intro H; [reflexivity|]. cbn [csum]. rewrite IH by (intros; apply H; lia).
  destruct (Nat.ltb_spec a n), (Nat.ltb_spec a (S n)); try lia.
  - rewrite (H n) by lia. ring.
  - replace a with n by lia. ring.
  - rewrite (H n) by lia. ring.
Qed.
Lemma csum_pick1 n a (f : nat -> C) : (a < n)%nat -> (forall k, (k < n)%nat -> k <> a -> f k = 0) -> csum n f = f a.
Proof. intros L H. rewrite (csum_pick n a f H). now rewrite (proj2 (Nat.ltb_lt a n) L). Qed.
Lemma csum_pick2 n a b (f : nat -> C) : (a < n)%nat -> (b < n)%nat -> a <> b -> (forall k, (k < n)%nat -> k <> a -> k <> b -> f k = 0) -> csum n f = f a + f b.
Proof.
  intros La Lb N H.
  rewrite (csum_ext n f (fun k => (if (k =? a)%nat then f k else 0) + (if (k =? b)%nat then f k else 0))).
  - rewrite csum_plus, (csum_pick1 n a), (csum_pick1 n b); try assumption.
    + now rewrite !Nat.eqb_refl.
    + intros k _ K. now rewrite (proj2 (Nat.eqb_neq k b) K).
    + intros k _ K. now rewrite (proj2 (Nat.eqb_neq k a) K).
  - intros k Hk. destruct (Nat.eqb_spec k a), (Nat.eqb_spec k b); try congruence; try ring. rewrite H by assumption. ring.
Qed.
Lemma csum_S_l n f : csum (S n) f = f 0%nat + csum n (fun k => f (S k)).
Proof. induction n as [|n IH]; [cbn [csum]; ring|]. change (csum (S n) f + f (S n) = f 0%nat + (csum n (fun k => f (S k)) + f (S n))). rewrite IH. ring. Qed.
Lemma csum_rev n f : csum n f = csum n (fun k => f (n - 1 - k)%nat).
Proof.
  induction n as [|n IH]; [reflexivity|]. rewrite (csum_S_l n (fun k => f (S n - 1 - k)%nat)). cbn [csum]. rewrite IH. replace (S n - 1 - 0)%nat with n by lia.
  rewrite (csum_ext n (fun k => f (S n - 1 - S k)%nat) (fun k => f (n - 1 - k)%nat)) by (intros; f_equal; lia). ring.
Qed.
Lemma Cconj_R (x : R) : Cconj (RtoC x) = RtoC x.
Proof. unfold Cconj, RtoC; cbn [fst snd]. f_equal. apply Ropp_0. Qed.
Lemma Cplus_conj a b : Cconj (a + b) = Cconj a + Cconj b.
Proof. destruct a, b; unfold Cconj, Cplus; cbn [fst snd]. f_equal. ring. Qed.
Lemma Cmult_conj a b : Cconj (a * b) = Cconj a * Cconj b.
Proof. destruct a, b; unfold Cconj, Cmult; cbn [fst snd]. f_equal; ring. Qed.
Lemma csum_conj n f : Cconj (csum n f) = csum n (fun k => Cconj (f k)).
Proof. induction n as [|n IH]; [apply Cconj_R|]. cbn [csum]. now rewrite Cplus_conj, IH. Qed.
Lemma csum_RtoC n (f : nat -> R) : csum n (fun k => RtoC (f k)) = RtoC (rsum n f).
Proof. induction n as [|n IH]; [reflexivity|]. cbn [csum rsum]. now rewrite IH, RtoC_plus. Qed.

Lemma Cconj_invol z : Cconj (Cconj z) = z.
Proof. destruct z; unfold Cconj; cbn [fst snd]. f_equal. apply Ropp_involutive. Qed.
Lemma Cconj_i : Cconj Ci = - Ci.
Proof. unfold Cconj, Ci, Copp; cbn [fst snd]. f_equal. symmetry. apply Ropp_0. Qed.
Lemma Ci_sq : Ci * Ci = - RtoC 1.
Proof. unfold Cmult, Ci, Copp, RtoC; cbn [fst snd]. f_equal; ring. Qed.
Lemma Cconj_opp z : Cconj (- z) = - Cconj z.
Proof. destruct z; reflexivity. Qed.
Lemma Re_real z : Cconj z = z -> z = RtoC (Re z).
Proof. destruct z as [x y]. unfold Cconj, RtoC, Re; cbn [fst snd]. intro H. injection H as H. f_equal. lra. Qed.
Lemma Re_RtoC x : Re (RtoC x) = x.
Proof. reflexivity. Qed.

(* ---- the change of basis ---- *)
Definition om (l : nat) : C := cpow (- Ci) l.
Definition sq2 : C := RtoC (1 / sqrt 2).
Definition alt (m : nat) : C := RtoC ((-1) ^ m).
Lemma sq2_sq : sq2 * sq2 + sq2 * sq2 = RtoC 1.
Proof.
  unfold sq2. rewrite <- RtoC_mult, <- RtoC_plus. f_equal. pose proof (sqrt_sqrt 2 ltac:(lra)). assert (sqrt 2 <> 0)%R by (apply Rgt_not_eq, sqrt_lt_R0; lra).
  transitivity (2 / (sqrt 2 * sqrt 2))%R; [field; assumption|]. rewrite H. field.
Qed.
Lemma alt_sq m : alt m * alt m = RtoC 1.
Proof. unfold alt. rewrite <- RtoC_mult, <- pow_add. replace (m + m)%nat with (2 * m)%nat by lia. now rewrite pow_1_even. Qed.
Lemma alt_add m n : alt (m + n) = alt m * alt n.
Proof. unfold alt. now rewrite pow_add, RtoC_mult. Qed.
Lemma om_conj l : om l * Cconj (om l) = RtoC 1.
Proof.
  induction l as [|l IH]; [cbn [om cpow]; rewrite Cconj_R; ring|]. unfold om in *. cbn [cpow]. rewrite Cmult_conj, Cconj_opp, Cconj_i.
  transitivity (- (Ci * Ci) * (cpow (- Ci) l * Cconj (cpow (- Ci) l))); [ring|]. rewrite IH, Ci_sq. ring.
Qed.
Lemma om_conj' l : Cconj (om l) = alt l * om l.
Proof.
  induction l as [|l IH]; [unfold om, alt; cbn [cpow pow]; rewrite Cconj_R; ring|]. unfold om in *. cbn [cpow]. rewrite Cmult_conj, IH, Cconj_opp, Cconj_i. replace (alt (S l)) with (- alt l); [ring|].
  unfold alt. rewrite <- RtoC_opp. f_equal. cbn [pow]. lra.
Qed.
Arguments change_basis_real_to_complex l%nat_scope r%nat_scope c%nat_scope.
Arguments su2_generators n%nat_scope a%nat_scope i%nat_scope k%nat_scope.
Notation Q := change_basis_real_to_complex.
Lemma Q_mid l : Q l l l = om l.
Proof. unfold Q. rewrite Nat.ltb_irrefl, Nat.eqb_refl. fold (om l). ring. Qed.
Lemma Q_lu l d : (0 < d <= l)%nat -> Q l (l - d) (l + d) = om l * sq2.
Proof.
  intro H. unfold Q. rewrite (proj2 (Nat.ltb_lt (l - d) l)) by lia. replace (l - (l - d))%nat with d by lia. rewrite Nat.eqb_refl. reflexivity.
Qed.
Lemma Q_ll l d : (0 < d <= l)%nat -> Q l (l - d) (l - d) = - (Ci * om l * sq2).
Proof.
  intro H. unfold Q. rewrite (proj2 (Nat.ltb_lt (l - d) l)) by lia. replace (l - (l - d))%nat with d by lia. rewrite (proj2 (Nat.eqb_neq (l - d) (l + d))) by lia. rewrite Nat.eqb_refl. fold (om l) sq2. ring.
Qed.
Lemma Q_uu l d : (0 < d <= l)%nat -> Q l (l + d) (l + d) = om l * sq2 * alt d.
Proof.
  intro H. unfold Q. rewrite (proj2 (Nat.ltb_ge (l + d) l)) by lia. rewrite (proj2 (Nat.eqb_neq (l + d) l)) by lia. cbv zeta. replace (l + d - l)%nat with d by lia. rewrite Nat.eqb_refl. fold (om l).
  rewrite <- Cmult_assoc. f_equal. unfold sq2, alt. rewrite <- RtoC_mult. f_equal. unfold Rdiv. ring.
Qed.
Lemma Q_ul l d : (0 < d <= l)%nat -> Q l (l + d) (l - d) = Ci * om l * sq2 * alt d.
Proof.
  intro H. unfold Q. rewrite (proj2 (Nat.ltb_ge (l + d) l)) by lia. rewrite (proj2 (Nat.eqb_neq (l + d) l)) by lia. cbv zeta. replace (l + d - l)%nat with d by lia.
  rewrite (proj2 (Nat.eqb_neq (l - d) (l + d))) by lia. rewrite Nat.eqb_refl. fold (om l). transitivity (om l * Ci * (sq2 * alt d)); [|ring]. 
  rewrite <- Cmult_assoc. do 2 f_equal. unfold sq2, alt. rewrite <- RtoC_mult. f_equal. unfold Rdiv. ring.
Qed.
Lemma Q_out l r c : (r < 2 * l + 1)%nat -> c <> r -> c <> (2 * l - r)%nat -> Q l r c = 0.
Proof.
  intros H N1 N2. unfold Q. destruct (Nat.ltb_spec r l).
  - rewrite (proj2 (Nat.eqb_neq c (l + (l - r)))) by lia. rewrite (proj2 (Nat.eqb_neq c (l - (l - r)))) by lia. ring.
  - destruct (Nat.eqb_spec r l) as [->|].
    + rewrite (proj2 (Nat.eqb_neq c l)) by lia. ring.
    + cbv zeta. rewrite (proj2 (Nat.eqb_neq c (l + (r - l)))) by lia. rewrite (proj2 (Nat.eqb_neq c (l - (r - l)))) by lia. ring.
Qed.
(* an index below 2l+1 is l, l - d or l + d *)
Lemma index_cases l r : (r < 2 * l + 1)%nat -> r = l \/ (exists d, (0 < d <= l)%nat /\ r = (l - d)%nat) \/ (exists d, (0 < d <= l)%nat /\ r = (l + d)%nat).
Proof. intro H. destruct (Nat.lt_trichotomy r l) as [L|[L|L]]; [right; left; exists (l - r)%nat; lia|left; assumption|right; right; exists (r - l)%nat; lia]. Qed.

Lemma Q_conj l r c : (r < 2 * l + 1)%nat -> (c < 2 * l + 1)%nat -> Cconj (Q l r c) = alt r * Q l (2 * l - r) c.
Proof.
  intros Hr Hc.
  destruct (Nat.eq_dec c r) as [->|N1]; [|destruct (Nat.eq_dec c (2 * l - r)) as [->|N2]].
  - destruct (index_cases l r Hr) as [->|[(d & Hd & ->)|(d & Hd & ->)]].
    + replace (2 * l - l)%nat with l by lia. rewrite Q_mid. apply om_conj'.
    + replace (2 * l - (l - d))%nat with (l + d)%nat by lia. rewrite Q_ll, Q_ul by assumption. rewrite Cconj_opp, !Cmult_conj, Cconj_i, om_conj'. unfold sq2. rewrite Cconj_R. fold sq2.
      replace l with (l - d + d)%nat at 1 by lia. rewrite alt_add. ring.
    + replace (2 * l - (l + d))%nat with (l - d)%nat by lia. rewrite Q_uu, Q_lu by assumption. rewrite !Cmult_conj, om_conj'. unfold sq2, alt at 2. rewrite !Cconj_R. fold sq2 (alt d). rewrite alt_add. ring.
  - destruct (index_cases l r Hr) as [->|[(d & Hd & ->)|(d & Hd & ->)]].
    + replace (2 * l - l)%nat with l by lia. rewrite Q_mid. apply om_conj'.
    + replace (2 * l - (l - d))%nat with (l + d)%nat by lia. rewrite Q_lu, Q_uu by assumption. rewrite !Cmult_conj, om_conj'. unfold sq2. rewrite Cconj_R. fold sq2.
      replace l with (l - d + d)%nat at 1 by lia. rewrite alt_add. ring.
    + replace (2 * l - (l + d))%nat with (l - d)%nat by lia. rewrite Q_ul, Q_ll by assumption. rewrite !Cmult_conj, om_conj', Cconj_i. unfold sq2, alt at 2. rewrite !Cconj_R. fold sq2 (alt d). rewrite alt_add. ring.
  - rewrite !Q_out by lia. rewrite Cconj_R. ring.
Qed.

Lemma Q_rows l i p : (i < 2 * l + 1)%nat -> (p < 2 * l + 1)%nat -> csum (2 * l + 1) (fun c => Q l i c * Cconj (Q l p c)) = if (i =? p)%nat then RtoC 1 else RtoC 0.
Proof.
  intros Hi Hp. pose proof (om_conj l) as W. pose proof sq2_sq as S2.
  assert (CS : Cconj sq2 = sq2) by apply Cconj_R. assert (CA : forall m, Cconj (alt m) = alt m) by (intro; apply Cconj_R).
  destruct (index_cases l i Hi) as [->|[(d & Hd & ->)|(d & Hd & ->)]].
  - rewrite (csum_pick1 _ l) by (try lia; intros c Hc N; rewrite Q_out by lia; ring). rewrite Q_mid.
    destruct (Nat.eqb_spec l p) as [<-|N]; [rewrite Q_mid; exact W|]. rewrite Q_out by lia. rewrite Cconj_R. ring.
  - rewrite (csum_pick2 _ (l - d) (l + d)) by (try lia; intros c Hc N1 N2; rewrite Q_out by lia; ring). rewrite Q_lu, Q_ll by assumption.
    destruct (Nat.eqb_spec (l - d) p) as [<-|N].
    + rewrite Q_lu, Q_ll by assumption. rewrite Cconj_opp, !Cmult_conj, Cconj_i, CS. rewrite <- S2. transitivity (om l * Cconj (om l) * (- (Ci * Ci) * sq2 * sq2 + sq2 * sq2)); [ring|]. rewrite W, Ci_sq. ring.
    + destruct (Nat.eq_dec p (l + d)) as [->|N'].
      * rewrite Q_uu, Q_ul by assumption. rewrite !Cmult_conj, Cconj_i, CS, CA. transitivity (om l * Cconj (om l) * (Ci * Ci * sq2 * sq2 + sq2 * sq2) * alt d); [ring|]. rewrite W, Ci_sq. ring.
      * rewrite !(Q_out l p) by lia. rewrite Cconj_R. ring.
  - rewrite (csum_pick2 _ (l - d) (l + d)) by (try lia; intros c Hc N1 N2; rewrite Q_out by lia; ring). rewrite Q_uu, Q_ul by assumption.
    destruct (Nat.eqb_spec (l + d) p) as [<-|N].
    + rewrite Q_uu, Q_ul by assumption. rewrite !Cmult_conj, Cconj_i, CS, CA. rewrite <- S2. transitivity (om l * Cconj (om l) * (- (Ci * Ci) * sq2 * sq2 + sq2 * sq2) * (alt d * alt d)); [ring|]. rewrite W, Ci_sq, alt_sq. ring.
    + destruct (Nat.eq_dec p (l - d)) as [->|N'].
      * rewrite Q_lu, Q_ll by assumption. rewrite Cconj_opp, !Cmult_conj, Cconj_i, CS. transitivity (om l * Cconj (om l) * (Ci * Ci * sq2 * sq2 + sq2 * sq2) * alt d); [ring|]. rewrite W, Ci_sq. ring.
      * rewrite !(Q_out l p) by lia. rewrite Cconj_R. ring.
Qed.
Lemma Q_cols l i p : (i < 2 * l + 1)%nat -> (p < 2 * l + 1)%nat -> csum (2 * l + 1) (fun r => Cconj (Q l r i) * Q l r p) = if (i =? p)%nat then RtoC 1 else RtoC 0.
Proof.
  intros Hi Hp. pose proof (om_conj l) as W. pose proof sq2_sq as S2.
  assert (CS : Cconj sq2 = sq2) by apply Cconj_R. assert (CA : forall m, Cconj (alt m) = alt m) by (intro; apply Cconj_R).
  destruct (index_cases l i Hi) as [->|[(d & Hd & ->)|(d & Hd & ->)]].
  - rewrite (csum_pick1 _ l) by (try lia; intros c Hc N; rewrite (Q_out l c l) by lia; rewrite Cconj_R; ring). rewrite Q_mid.
    destruct (Nat.eqb_spec l p) as [<-|N]; [rewrite Q_mid, Cmult_comm; exact W|]. rewrite Q_out by lia. ring.
  - rewrite (csum_pick2 _ (l - d) (l + d)) by (try lia; intros c Hc N1 N2; rewrite (Q_out l c (l - d)) by lia; rewrite Cconj_R; ring). rewrite Q_ul, Q_ll by assumption. rewrite Cconj_opp, !Cmult_conj, Cconj_i, CS, CA.
    destruct (Nat.eqb_spec (l - d) p) as [<-|N].
    + rewrite Q_ul, Q_ll by assumption. rewrite <- S2. transitivity (om l * Cconj (om l) * (- (Ci * Ci) * sq2 * sq2 + - (Ci * Ci) * sq2 * sq2 * (alt d * alt d))); [ring|]. rewrite W, Ci_sq, alt_sq. ring.
    + destruct (Nat.eq_dec p (l + d)) as [->|N'].
      * rewrite Q_lu, Q_uu by assumption. transitivity (om l * Cconj (om l) * Ci * (sq2 * sq2 - sq2 * sq2 * (alt d * alt d))); [ring|]. rewrite W, alt_sq. ring.
      * rewrite !(Q_out l _ p) by lia. ring.
  - rewrite (csum_pick2 _ (l - d) (l + d)) by (try lia; intros c Hc N1 N2; rewrite (Q_out l c (l + d)) by lia; rewrite Cconj_R; ring). rewrite Q_uu, Q_lu by assumption. rewrite !Cmult_conj, CS, CA.
    destruct (Nat.eqb_spec (l + d) p) as [<-|N].
    + rewrite Q_uu, Q_lu by assumption. rewrite <- S2. transitivity (om l * Cconj (om l) * (sq2 * sq2 + sq2 * sq2 * (alt d * alt d))); [ring|]. rewrite W, alt_sq. ring.
    + destruct (Nat.eq_dec p (l - d)) as [->|N'].
      * rewrite Q_ll, Q_ul by assumption. transitivity (om l * Cconj (om l) * Ci * (- (sq2 * sq2) + sq2 * sq2 * (alt d * alt d))); [ring|]. rewrite W, alt_sq. ring.
      * rewrite !(Q_out l _ p) by lia. ring.
Qed.
