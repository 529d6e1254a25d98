(* The real basis: generators and coupling coefficients *)
From Coq Require Import Reals ZArith Arith Bool Lia Lra Psatz.
From Coquelicot Require Import Complex.
From Verif Require Import SumR CGModel CGProofs CGProofs2 CGProofs3 CGProofs4.
Open Scope C_scope.
Arguments change_basis_real_to_complex l%nat_scope r%nat_scope c%nat_scope.
Arguments su2_generators n%nat_scope a%nat_scope i%nat_scope k%nat_scope.
Arguments generators l%nat_scope a%nat_scope i%nat_scope j%nat_scope.
Arguments generators_complex l%nat_scope a%nat_scope i%nat_scope j%nat_scope.

Definition cdelta (i j : nat) : C := if (i =? j)%nat then RtoC 1 else RtoC 0.
Definition cadj (a : cmat) : cmat := fun i j => Cconj (a j i).
Lemma cmmul_ext d a a' b b' i j : (forall p, (p < d)%nat -> a i p = a' i p) -> (forall p, (p < d)%nat -> b p j = b' p j) -> cmmul d a b i j = cmmul d a' b' i j.
Proof. intros H1 H2. apply csum_ext. intros p Hp. now rewrite H1, H2. Qed.
Lemma cmmul_assoc d a b c i j : cmmul d (cmmul d a b) c i j = cmmul d a (cmmul d b c) i j.
Proof.
  unfold cmmul. rewrite (csum_ext d _ (fun p => csum d (fun q => a i q * b q p * c p j))) by (intros; rewrite <- csum_scal_r; reflexivity).
  rewrite csum_swap. apply csum_ext. intros q Hq. rewrite <- csum_scal. apply csum_ext. intros; ring.
Qed.
Lemma cdelta_l d f i j : (i < d)%nat -> cmmul d cdelta f i j = f i j.
Proof.
  intro Hi. unfold cmmul. rewrite (csum_pick1 d i) by (try assumption; intros k Hk N; unfold cdelta; rewrite (proj2 (Nat.eqb_neq i k)) by lia; ring). unfold cdelta. rewrite Nat.eqb_refl. ring.
Qed.
Lemma cdelta_sum d (f : nat -> C) i : (i < d)%nat -> csum d (fun p => cdelta i p * f p) = f i.
Proof.
  intro Hi. rewrite (csum_pick1 d i) by (try assumption; intros k Hk N; unfold cdelta; rewrite (proj2 (Nat.eqb_neq i k)) by lia; ring). unfold cdelta. rewrite Nat.eqb_refl. ring.
Qed.
Lemma cdelta_sum_r d (f : nat -> C) i : (i < d)%nat -> csum d (fun p => cdelta p i * f p) = f i.
Proof. intro Hi. rewrite <- (cdelta_sum d f i Hi). apply csum_ext. intros. unfold cdelta. now rewrite Nat.eqb_sym. Qed.
Definition sandwich (d : nat) (q x : cmat) : cmat := cmmul d (cadj q) (cmmul d x q).
Lemma sandwich_ext d q x y i j : (forall p r, (p < d)%nat -> (r < d)%nat -> x p r = y p r) -> sandwich d q x i j = sandwich d q y i j.
Proof. intro H. apply cmmul_ext; [reflexivity|]. intros p Hp. apply cmmul_ext; auto. Qed.
Lemma sandwich_mul d q x y i j : (forall p r, (p < d)%nat -> (r < d)%nat -> cmmul d q (cadj q) p r = cdelta p r) ->
  cmmul d (sandwich d q x) (sandwich d q y) i j = sandwich d q (cmmul d x y) i j.
Proof.
  intro U. unfold sandwich. rewrite cmmul_assoc. apply csum_ext. intros p Hp. f_equal.
  rewrite cmmul_assoc. rewrite cmmul_assoc. apply csum_ext. intros r Hr. f_equal.
  rewrite <- cmmul_assoc. rewrite (cmmul_ext d _ cdelta _ (cmmul d y q)) by auto. now apply cdelta_l.
Qed.
Lemma csum_minus n f g : csum n (fun k => f k - g k) = csum n f - csum n g.
Proof. induction n as [|n IH]; cbn [csum]; [ring|]. rewrite IH. ring. Qed.
Lemma sandwich_minus d q x y i j : sandwich d q x i j - sandwich d q y i j = sandwich d q (fun p r => x p r - y p r) i j.
Proof.
  unfold sandwich, cmmul. rewrite <- csum_minus. apply csum_ext. intros k Hk.
  transitivity (cadj q i k * (csum d (fun p => x k p * q p j) - csum d (fun p => y k p * q p j))); [ring|]. f_equal. rewrite <- csum_minus. apply csum_ext. intros; ring.
Qed.
Lemma sandwich_plus d q x y i j : sandwich d q x i j + sandwich d q y i j = sandwich d q (fun p r => x p r + y p r) i j.
Proof.
  unfold sandwich, cmmul. rewrite <- csum_plus. apply csum_ext. intros k Hk.
  transitivity (cadj q i k * (csum d (fun p => x k p * q p j) + csum d (fun p => y k p * q p j))); [ring|]. f_equal. rewrite <- csum_plus. apply csum_ext. intros; ring.
Qed.
Lemma sandwich_scalar d q c i j : (j < d)%nat -> (i < d)%nat -> (forall p r, (p < d)%nat -> (r < d)%nat -> cmmul d (cadj q) q p r = cdelta p r) -> sandwich d q (fun p r => if (p =? r)%nat then c else RtoC 0) i j = if (i =? j)%nat then c else RtoC 0.
Proof.
  intros Hj Hi U. unfold sandwich. transitivity (c * cmmul d (cadj q) q i j).
  - unfold cmmul. rewrite <- csum_scal. apply csum_ext. intros k Hk. transitivity (cadj q i k * (c * q k j)); [|ring]. f_equal.
    rewrite (csum_pick1 d k) by (try assumption; intros p Hp N; rewrite (proj2 (Nat.eqb_neq k p)) by lia; ring). now rewrite Nat.eqb_refl.
  - rewrite U by assumption. unfold cdelta. destruct (i =? j)%nat; ring.
Qed.

Lemma gens_sandwich l a i j : generators_complex l a i j = sandwich (2 * l + 1) (Q l) (su2_generators (2 * l) a) i j.
Proof.
  unfold generators_complex, sandwich, cmmul, cadj. apply csum_ext. intros p Hp. rewrite <- csum_scal. apply csum_ext. intros q Hq. ring.
Qed.
Lemma d_eq l : (2 * l + 1)%nat = S (2 * l). Proof. lia. Qed.
Lemma Q_unitary_rows l p r : (p < 2 * l + 1)%nat -> (r < 2 * l + 1)%nat -> cmmul (2 * l + 1) (Q l) (cadj (Q l)) p r = cdelta p r.
Proof. intros. unfold cmmul, cadj. now apply Q_rows. Qed.
Lemma Q_unitary_cols l p r : (p < 2 * l + 1)%nat -> (r < 2 * l + 1)%nat -> cmmul (2 * l + 1) (cadj (Q l)) (Q l) p r = cdelta p r.
Proof. intros. unfold cmmul, cadj. now apply Q_cols. Qed.

Lemma Q_rev l r c : (r < 2 * l + 1)%nat -> (c < 2 * l + 1)%nat -> Q l (2 * l - r) c = alt r * Cconj (Q l r c).
Proof. intros Hr Hc. rewrite Q_conj by assumption. rewrite Cmult_assoc, alt_sq. ring. Qed.
Theorem generators_real l a i j : (i < 2 * l + 1)%nat -> (j < 2 * l + 1)%nat -> generators_complex l a i j = RtoC (generators l a i j).
Proof.
  intros Hi Hj. apply Re_real. unfold generators_complex. rewrite csum_conj, csum_rev. apply csum_ext. intros p Hp. rewrite csum_conj, csum_rev. apply csum_ext. intros q Hq.
  replace (2 * l + 1 - 1 - p)%nat with (2 * l - p)%nat by lia. replace (2 * l + 1 - 1 - q)%nat with (2 * l - q)%nat by lia.
  rewrite !Cmult_conj, Cconj_invol, (su2_rev_gen (2 * l)) by lia. rewrite !Q_rev by lia. rewrite Cmult_conj, Cconj_invol. replace (Cconj (alt q)) with (alt q) by (symmetry; apply Cconj_R). rewrite alt_add.
  transitivity (Cconj (Q l p i) * su2_generators (2 * l) a p q * Q l q j * (alt p * alt p) * (alt q * alt q)); [ring|]. rewrite !alt_sq. ring.
Qed.
Lemma sandwich_herm d q x i j : (forall p r, (p < d)%nat -> (r < d)%nat -> Cconj (x r p) = - x p r) -> Cconj (sandwich d q x j i) = - sandwich d q x i j.
Proof.
  intro H. unfold sandwich, cmmul, cadj. rewrite csum_conj.
  rewrite (csum_ext d _ (fun p => csum d (fun r => q p j * Cconj (x p r) * Cconj (q r i)))).
  - rewrite csum_swap. transitivity (- RtoC 1 * csum d (fun k => Cconj (q k i) * csum d (fun p => x k p * q p j))); [|ring]. rewrite <- csum_scal. apply csum_ext. intros r Hr. rewrite <- !csum_scal. apply csum_ext. intros p Hp. rewrite H by assumption. ring.
  - intros p Hp. rewrite Cmult_conj, Cconj_invol, csum_conj, <- csum_scal. apply csum_ext. intros r Hr. rewrite Cmult_conj. ring.
Qed.
Theorem generators_antisym l a i j : (i < 2 * l + 1)%nat -> (j < 2 * l + 1)%nat -> generators l a i j = (- generators l a j i)%R.
Proof.
  intros Hi Hj. apply RtoC_inj. pose proof (generators_real l a i j Hi Hj) as E1. pose proof (generators_real l a j i Hj Hi) as E2. rewrite gens_sandwich in E1, E2.
  pose proof (sandwich_herm (2 * l + 1) (Q l) (su2_generators (2 * l) a) i j ltac:(intros; apply su2_antiherm; lia)) as H. rewrite E1, E2, Cconj_R in H. rewrite RtoC_opp, H. ring.
Qed.
Lemma gens_mul l a b i j : (i < 2 * l + 1)%nat -> (j < 2 * l + 1)%nat -> RtoC (mmul (2 * l + 1) (generators l a) (generators l b) i j) = sandwich (2 * l + 1) (Q l) (cmmul (2 * l + 1) (su2_generators (2 * l) a) (su2_generators (2 * l) b)) i j.
Proof.
  intros Hi Hj. rewrite <- sandwich_mul by apply Q_unitary_rows. unfold mmul. rewrite <- csum_RtoC. apply csum_ext. intros p Hp. rewrite RtoC_mult, <- !generators_real by assumption. now rewrite !gens_sandwich.
Qed.
Theorem generators_comm l a i j : (i < 2 * l + 1)%nat -> (j < 2 * l + 1)%nat -> (a < 3)%nat ->
  (mmul (2 * l + 1) (generators l a) (generators l ((a + 1) mod 3)) i j - mmul (2 * l + 1) (generators l ((a + 1) mod 3)) (generators l a) i j)%R = generators l ((a + 2) mod 3) i j.
Proof.
  intros Hi Hj Ha. apply RtoC_inj. rewrite RtoC_minus, !gens_mul, <- generators_real, gens_sandwich, sandwich_minus by assumption. apply sandwich_ext. intros p r Hp Hr. rewrite !d_eq in *.
  destruct a as [|[|[|a]]]; try lia; [apply su2_comm01|apply su2_comm12|apply su2_comm20]; assumption.
Qed.
Theorem generators_casimir l i j : (i < 2 * l + 1)%nat -> (j < 2 * l + 1)%nat ->
  (mmul (2 * l + 1) (generators l 0) (generators l 0) i j + mmul (2 * l + 1) (generators l 1) (generators l 1) i j + mmul (2 * l + 1) (generators l 2) (generators l 2) i j)%R = if (i =? j)%nat then (- (INR l * (INR l + 1)))%R else 0%R.
Proof.
  intros Hi Hj. apply RtoC_inj. rewrite !RtoC_plus, !gens_mul by assumption. rewrite !sandwich_plus.
  rewrite (sandwich_ext _ _ _ (fun p r => if (p =? r)%nat then - RtoC (INR l * (INR l + 1)) else RtoC 0)).
  - rewrite sandwich_scalar by (try assumption; apply Q_unitary_cols). destruct (i =? j)%nat; [now rewrite RtoC_opp|reflexivity].
  - intros p r Hp Hr. rewrite !d_eq in *. rewrite su2_casimir by assumption. rewrite mult_INR. change (INR 2) with 2%R. replace (2 * INR l / 2)%R with (INR l) by field. reflexivity.
Qed.

(* ---- coupling ---- *)
Definition ccouples (d1 d2 d3 : nat) (c : nat -> nat -> nat -> C) (X1 X2 X3 : cmat) : Prop := forall a b k, (a < d1)%nat -> (b < d2)%nat -> (k < d3)%nat ->
  csum d1 (fun i => c i b k * X1 i a) + csum d2 (fun j => c a j k * X2 j b) = csum d3 (fun m => X3 k m * c a b m).
Lemma su2_ccouples n1 n2 n3 a : ccouples (S n1) (S n2) (S n3) (fun i j k => RtoC (su2_clebsch_gordan n1 n2 n3 i j k)) (su2_generators n1 a) (su2_generators n2 a) (su2_generators n3 a).
Proof.
  pose proof (raising_couples n1 n2 n3) as HR. pose proof (lowering_couples n1 n2 n3) as HL. intros x y k Hx Hy Hk. specialize (HR x y k ltac:(lia) ltac:(lia) ltac:(lia)). specialize (HL x y k ltac:(lia) ltac:(lia) ltac:(lia)).
  set (c := su2_clebsch_gordan n1 n2 n3) in *.
  assert (G : forall (u v : R) (w : C) (X : nat -> cmat), (forall n i j, X n i j = w * RtoC (u * su2_raising n i j + v * su2_lowering n i j)) ->
     csum (S n1) (fun i => RtoC (c i y k) * X n1 i x) + csum (S n2) (fun j => RtoC (c x j k) * X n2 j y) = csum (S n3) (fun m => X n3 k m * RtoC (c x y m))).
  { intros u v w X E.
    rewrite (csum_ext (S n1) _ (fun i => w * RtoC (u * (c i y k * su2_raising n1 i x) + v * (c i y k * su2_lowering n1 i x)))) by (intros; rewrite E, !RtoC_plus, !RtoC_mult; ring).
    rewrite (csum_ext (S n2) _ (fun j => w * RtoC (u * (c x j k * su2_raising n2 j y) + v * (c x j k * su2_lowering n2 j y)))) by (intros; rewrite E, !RtoC_plus, !RtoC_mult; ring).
    rewrite (csum_ext (S n3) _ (fun m => w * RtoC (u * (su2_raising n3 k m * c x y m) + v * (su2_lowering n3 k m * c x y m)))) by (intros; rewrite E, !RtoC_plus, !RtoC_mult; ring).
    rewrite !csum_scal, !csum_RtoC. rewrite !rsum_plus, !rsum_scal, <- HR, <- HL. rewrite !RtoC_plus, !RtoC_mult, !RtoC_plus. ring. }
  destruct a as [|[|a]].
  - apply (G 1%R 1%R (RtoC (1 / 2)) (fun n => su2_generators n 0)). intros. rewrite gen0, RtoC_mult. do 2 f_equal. ring.
  - rewrite (csum_pick1 (S n1) x) by (try assumption; intros p Hp N; rewrite gen1, (proj2 (Nat.eqb_neq p x)) by lia; ring).
    rewrite (csum_pick1 (S n2) y) by (try assumption; intros p Hp N; rewrite gen1, (proj2 (Nat.eqb_neq p y)) by lia; ring).
    rewrite (csum_pick1 (S n3) k) by (try assumption; intros p Hp N; rewrite gen1, (proj2 (Nat.eqb_neq k p)) by lia; ring).
    rewrite !gen1, !Nat.eqb_refl. pose proof (weight_couples n1 n2 n3 x y k ltac:(lia) ltac:(lia) ltac:(lia)) as W. fold c in W. fold (wgt n1 x) (wgt n2 y) (wgt n3 k) in W.
    transitivity (Ci * RtoC ((wgt n1 x + wgt n2 y) * c x y k)); [rewrite RtoC_mult, RtoC_plus; ring|]. rewrite W, RtoC_mult. ring.
  - apply (G 1%R (-1)%R (- RtoC (1 / 2) * Ci) (fun n => su2_generators n (S (S a)))). intros. change (su2_generators n (S (S a)) i j) with (su2_generators n 2 i j). rewrite gen2. do 2 f_equal. ring.
Qed.
Definition t1 d (q : cmat) (c : nat -> nat -> nat -> C) : nat -> nat -> nat -> C := fun a b k => csum d (fun i => q i a * c i b k).
Definition t2 d (q : cmat) (c : nat -> nat -> nat -> C) : nat -> nat -> nat -> C := fun a b k => csum d (fun j => q j b * c a j k).
Definition t3 d (q : cmat) (c : nat -> nat -> nat -> C) : nat -> nat -> nat -> C := fun a b k => csum d (fun m => Cconj (q m k) * c a b m).
Definition unitary_rows d q := forall p r, (p < d)%nat -> (r < d)%nat -> cmmul d q (cadj q) p r = cdelta p r.
Lemma contract d q (f : nat -> C) (y : cmat) a : unitary_rows d q -> csum d (fun j => csum d (fun i => q i j * f i) * cmmul d (cadj q) y j a) = csum d (fun i => f i * y i a).
Proof.
  intro U. unfold cmmul.
  rewrite (csum_ext d _ (fun j => csum d (fun i => csum d (fun p => f i * y p a * (q i j * cadj q j p))))).
  - rewrite csum_swap. apply csum_ext. intros i Hi. rewrite csum_swap. rewrite (csum_ext d _ (fun p => cdelta i p * (f i * y p a))).
    + now rewrite cdelta_sum.
    + intros p Hp. rewrite csum_scal. change (csum d (fun j => q i j * cadj q j p)) with (cmmul d q (cadj q) i p). rewrite U by assumption. ring.
  - intros j Hj. rewrite <- csum_scal_r. apply csum_ext. intros i Hi. rewrite <- csum_scal. apply csum_ext. intros; ring.
Qed.
Lemma contract3 d q (f : nat -> C) (x : cmat) k : unitary_rows d q -> csum d (fun c => sandwich d q x k c * csum d (fun n => Cconj (q n c) * f n)) = csum d (fun p => Cconj (q p k) * csum d (fun n => x p n * f n)).
Proof.
  intro U. unfold sandwich at 1.
  rewrite (csum_ext d _ (fun c => csum d (fun p => Cconj (q p k) * (cmmul d x q p c * csum d (fun n => Cconj (q n c) * f n))))).
  2: { intros c Hc. unfold cmmul at 1. rewrite <- csum_scal_r. apply csum_ext. intros p Hp. unfold cadj. ring. }
  rewrite csum_swap. apply csum_ext. intros p Hp. rewrite csum_scal. f_equal.
  unfold cmmul. rewrite (csum_ext d _ (fun c => csum d (fun n => csum d (fun r => x p r * f n * (q r c * cadj q c n))))).
  - rewrite csum_swap. apply csum_ext. intros n Hn. rewrite csum_swap. rewrite (csum_ext d _ (fun r => cdelta r n * (x p r * f n))).
    + now rewrite (cdelta_sum_r d (fun r => x p r * f n)).
    + intros r Hr. rewrite csum_scal. change (csum d (fun j => q r j * cadj q j n)) with (cmmul d q (cadj q) r n). rewrite U by assumption. ring.
  - intros c Hc. rewrite <- csum_scal. apply csum_ext. intros n Hn. rewrite <- csum_scal_r. apply csum_ext. intros r Hr. unfold cadj. ring.
Qed.
Lemma t1_couples d1 d2 d3 q c X1 X2 X3 : unitary_rows d1 q -> ccouples d1 d2 d3 c X1 X2 X3 -> ccouples d1 d2 d3 (t1 d1 q c) (sandwich d1 q X1) X2 X3.
Proof.
  intros U H a b k Ha Hb Hk. unfold t1, sandwich. rewrite contract by assumption.
  rewrite (csum_ext d3 _ (fun m => csum d1 (fun i => q i a * (X3 k m * c i b m)))) by (intros; rewrite <- csum_scal; apply csum_ext; intros; ring). rewrite csum_swap.
  rewrite (csum_ext d1 (fun i => csum d3 _) (fun i => q i a * csum d1 (fun i' => c i' b k * X1 i' i) + csum d2 (fun j => q i a * c i j k * X2 j b))).
  - rewrite csum_plus. f_equal.
    + unfold cmmul. rewrite (csum_ext d1 _ (fun i => csum d1 (fun p => c i b k * X1 i p * q p a))) by (intros; rewrite <- csum_scal; apply csum_ext; intros; ring). rewrite csum_swap. apply csum_ext. intros p Hp. rewrite <- csum_scal. apply csum_ext. intros; ring.
    + rewrite csum_swap. apply csum_ext. intros j Hj. rewrite <- csum_scal_r. reflexivity.
  - intros i Hi. rewrite csum_scal, <- H by assumption. rewrite Cmult_plus_distr_l. f_equal. rewrite <- csum_scal. apply csum_ext. intros; ring.
Qed.
Lemma ccouples_swap d1 d2 d3 c X1 X2 X3 : ccouples d1 d2 d3 c X1 X2 X3 -> ccouples d2 d1 d3 (fun a b k => c b a k) X2 X1 X3.
Proof. intros H a b k Ha Hb Hk. rewrite <- H by assumption. ring. Qed.
Lemma t2_couples d1 d2 d3 q c X1 X2 X3 : unitary_rows d2 q -> ccouples d1 d2 d3 c X1 X2 X3 -> ccouples d1 d2 d3 (t2 d2 q c) X1 (sandwich d2 q X2) X3.
Proof. intros U H. apply (ccouples_swap d2 d1 d3 (t1 d2 q (fun a b k => c b a k))). apply t1_couples; [assumption|]. now apply ccouples_swap. Qed.
Lemma t3_couples d1 d2 d3 q c X1 X2 X3 : unitary_rows d3 q -> ccouples d1 d2 d3 c X1 X2 X3 -> ccouples d1 d2 d3 (t3 d3 q c) X1 X2 (sandwich d3 q X3).
Proof.
  intros U H a b k Ha Hb Hk. unfold t3. rewrite contract3 by assumption.
  rewrite (csum_ext d3 (fun p => Cconj (q p k) * csum d3 (fun n => X3 p n * c a b n)) (fun p => csum d1 (fun i => Cconj (q p k) * c i b p * X1 i a) + csum d2 (fun j => Cconj (q p k) * c a j p * X2 j b))).
  - rewrite csum_plus. f_equal; rewrite csum_swap; apply csum_ext; intros; now rewrite csum_scal_r.
  - intros p Hp. rewrite <- H by assumption. rewrite Cmult_plus_distr_l, <- !csum_scal. f_equal; apply csum_ext; intros; ring.
Qed.
Lemma cg_transform l1 l2 l3 a b k : clebsch_gordan_complex l1 l2 l3 a b k = t1 (2 * l1 + 1) (Q l1) (t2 (2 * l2 + 1) (Q l2) (t3 (2 * l3 + 1) (Q l3) (fun i j m => RtoC (su2_clebsch_gordan (2 * l1) (2 * l2) (2 * l3) i j m)))) a b k.
Proof.
  unfold clebsch_gordan_complex, t1, t2, t3. apply csum_ext. intros i Hi. rewrite <- csum_scal. apply csum_ext. intros j Hj. rewrite <- !csum_scal. apply csum_ext. intros m Hm. ring.
Qed.
Theorem cg_real l1 l2 l3 a b k : (a < 2 * l1 + 1)%nat -> (b < 2 * l2 + 1)%nat -> (k < 2 * l3 + 1)%nat -> clebsch_gordan_complex l1 l2 l3 a b k = RtoC (clebsch_gordan l1 l2 l3 a b k).
Proof.
  intros Ha Hb Hk. apply Re_real. unfold clebsch_gordan_complex.
  rewrite csum_conj, csum_rev. apply csum_ext. intros p Hp. rewrite csum_conj, csum_rev. apply csum_ext. intros q Hq. rewrite csum_conj, csum_rev. apply csum_ext. intros r Hr.
  replace (2 * l1 + 1 - 1 - p)%nat with (2 * l1 - p)%nat by lia. replace (2 * l2 + 1 - 1 - q)%nat with (2 * l2 - q)%nat by lia. replace (2 * l3 + 1 - 1 - r)%nat with (2 * l3 - r)%nat by lia.
  rewrite su2_rev by lia. rewrite RtoC_mult. fold (alt (p + q + r)). rewrite !Cmult_conj, !Cconj_invol. rewrite !Q_rev by lia. rewrite !Cmult_conj, !Cconj_invol, !Cconj_R.
  assert (CA : forall m, Cconj (alt m) = alt m) by (intro; apply Cconj_R). rewrite !CA, !alt_add.
  match goal with |- _ = ?x => transitivity (x * (alt p * alt p) * (alt q * alt q) * (alt r * alt r)); [ring|] end. rewrite !alt_sq. ring.
Qed.
(* the coupling of the real generators *)
Theorem cg_couples l1 l2 l3 x a b k : (a < 2 * l1 + 1)%nat -> (b < 2 * l2 + 1)%nat -> (k < 2 * l3 + 1)%nat ->
  (rsum (2 * l1 + 1) (fun i => clebsch_gordan l1 l2 l3 i b k * generators l1 x i a) + rsum (2 * l2 + 1) (fun j => clebsch_gordan l1 l2 l3 a j k * generators l2 x j b) = rsum (2 * l3 + 1) (fun m => generators l3 x k m * clebsch_gordan l1 l2 l3 a b m))%R.
Proof.
  intros Ha Hb Hk. apply RtoC_inj. rewrite RtoC_plus, <- !csum_RtoC.
  pose proof (su2_ccouples (2 * l1) (2 * l2) (2 * l3) x) as H. rewrite <- !d_eq in H.
  apply (t3_couples _ _ _ (Q l3)) in H; [|exact (Q_unitary_rows l3)]. apply (t2_couples _ _ _ (Q l2)) in H; [|exact (Q_unitary_rows l2)]. apply (t1_couples _ _ _ (Q l1)) in H; [|exact (Q_unitary_rows l1)].
  specialize (H a b k Ha Hb Hk).
  rewrite (csum_ext (2 * l1 + 1) _ (fun i => clebsch_gordan_complex l1 l2 l3 i b k * generators_complex l1 x i a)) by (intros; rewrite cg_real, generators_real, RtoC_mult by assumption; reflexivity).
  rewrite (csum_ext (2 * l2 + 1) _ (fun j => clebsch_gordan_complex l1 l2 l3 a j k * generators_complex l2 x j b)) by (intros; rewrite cg_real, generators_real, RtoC_mult by assumption; reflexivity).
  rewrite (csum_ext (2 * l3 + 1) _ (fun m => generators_complex l3 x k m * clebsch_gordan_complex l1 l2 l3 a b m)) by (intros; rewrite cg_real, generators_real, RtoC_mult by assumption; reflexivity).
  rewrite (csum_ext (2 * l1 + 1) _ _ (fun i Hi => f_equal2 Cmult (cg_transform l1 l2 l3 i b k) (gens_sandwich l1 x i a))).
  rewrite (csum_ext (2 * l2 + 1) _ _ (fun j Hj => f_equal2 Cmult (cg_transform l1 l2 l3 a j k) (gens_sandwich l2 x j b))).
  rewrite (csum_ext (2 * l3 + 1) _ _ (fun m Hm => f_equal2 Cmult (gens_sandwich l3 x k m) (cg_transform l1 l2 l3 a b m))). exact H.
Qed.
