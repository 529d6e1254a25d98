(* Couplings into different degrees are orthogonal, and together they are complete: a product of two irreps is the sum of its couplings. *)
From Coq Require Import Reals Lra Lia List.
From Verif Require Import PyBase PermModel PermProofs IrrepsModel IrrepsProofs IrrepsProofs2 ArrayProps3 SumR RotationModel CGModel CGProofs5 CGProofs6 WignerModel WignerProofs WignerProofs2 WignerProps WignerProps2.
Import ListNotations.
Open Scope R_scope.

Lemma opp_rsum n f : - rsum n f = rsum n (fun k => - f k).
Proof. induction n as [|n IH]; cbn [rsum]; [ring|]. rewrite <- IH. ring. Qed.
(* ---------- different degrees ---------- *)
Section Cross.
Variables l1 l2 l l' : nat.
Let c := clebsch_gordan l1 l2 l.
Let c' := clebsch_gordan l1 l2 l'.
Let n1 := (2 * l1 + 1)%nat.
Let n2 := (2 * l2 + 1)%nat.
Let d := (2 * l + 1)%nat.
Let d' := (2 * l' + 1)%nat.
Let T (k k' : nat) : R := rsum n1 (fun a => rsum n2 (fun b => c a b k * c' a b k')).
Lemma overlap_commutes x k k' : (k < d)%nat -> (k' < d')%nat -> rsum d (fun m => generators l x k m * T m k') = rsum d' (fun m => T k m * generators l' x m k').
Proof.
  intros Hk Hk'. set (X1 := generators l1 x). set (X2 := generators l2 x).
  transitivity (rsum n1 (fun a => rsum n2 (fun b => (rsum n1 (fun i => c i b k * X1 i a) + rsum n2 (fun j => c a j k * X2 j b)) * c' a b k'))).
  - unfold T. rewrite (rsum_ext d _ (fun m => rsum n1 (fun a => rsum n2 (fun b => generators l x k m * c a b m * c' a b k')))) by (intros m Hm; rewrite <- rsum_scal; apply rsum_ext; intros a Ha; rewrite <- rsum_scal; apply rsum_ext; intros; ring).
    rewrite rsum_swap. apply rsum_ext. intros a Ha. rewrite rsum_swap. apply rsum_ext. intros b Hb. rewrite rsum_scal_r. f_equal. symmetry. apply (cg_couples l1 l2 l x a b k Ha Hb Hk).
  - transitivity (- rsum n1 (fun a => rsum n2 (fun b => c a b k * (rsum n1 (fun i => c' i b k' * X1 i a) + rsum n2 (fun j => c' a j k' * X2 j b))))).
    + transitivity (rsum n1 (fun a => rsum n2 (fun b => rsum n1 (fun i => c i b k * X1 i a * c' a b k'))) + rsum n1 (fun a => rsum n2 (fun b => rsum n2 (fun j => c a j k * X2 j b * c' a b k')))).
      { rewrite <- rsum_plus. apply rsum_ext. intros a Ha. rewrite <- rsum_plus. apply rsum_ext. intros b Hb. rewrite !rsum_scal_r. ring. }
      transitivity (- (rsum n1 (fun a => rsum n2 (fun b => rsum n1 (fun i => c a b k * (c' i b k' * X1 i a)))) + rsum n1 (fun a => rsum n2 (fun b => rsum n2 (fun j => c a b k * (c' a j k' * X2 j b)))))).
      2: { f_equal. rewrite <- rsum_plus. apply rsum_ext. intros a Ha. rewrite <- rsum_plus. apply rsum_ext. intros b Hb. rewrite !rsum_scal. ring. }
      rewrite Ropp_plus_distr. f_equal.
      * transitivity (rsum n2 (fun b => rsum n1 (fun a => rsum n1 (fun i => c i b k * X1 i a * c' a b k')))); [apply rsum_swap|]. rewrite (rsum_swap n1 n2 (fun a b => rsum n1 (fun i => c a b k * (c' i b k' * X1 i a)))). rewrite opp_rsum. apply rsum_ext. intros b Hb.
        rewrite rsum_swap, opp_rsum. apply rsum_ext. intros a Ha. rewrite opp_rsum. apply rsum_ext. intros i Hi. unfold X1. rewrite (generators_antisym l1 x a i) by assumption. ring.
      * rewrite opp_rsum. apply rsum_ext. intros a Ha. rewrite rsum_swap, opp_rsum. apply rsum_ext. intros b Hb. rewrite opp_rsum. apply rsum_ext. intros j Hj. unfold X2. rewrite (generators_antisym l2 x b j) by assumption. ring.
    + transitivity (- rsum n1 (fun a => rsum n2 (fun b => rsum d' (fun m => c a b k * (generators l' x k' m * c' a b m))))).
      { f_equal. apply rsum_ext. intros a Ha. apply rsum_ext. intros b Hb. rewrite rsum_scal. f_equal. apply (cg_couples l1 l2 l' x a b k' Ha Hb Hk'). }
      rewrite (rsum_ext d' _ (fun m => rsum n1 (fun a => rsum n2 (fun b => c a b k * c' a b m * generators l' x m k')))) by (intros m Hm; unfold T; rewrite <- rsum_scal_r; apply rsum_ext; intros a Ha; rewrite <- rsum_scal_r; reflexivity).
      rewrite (rsum_swap d' n1), opp_rsum. apply rsum_ext. intros a Ha. rewrite (rsum_swap d' n2), opp_rsum. apply rsum_ext. intros b Hb. rewrite opp_rsum. apply rsum_ext. intros m Hm. rewrite (generators_antisym l' x k' m) by assumption. ring.
Qed.
Lemma overlap_zero k k' : l <> l' -> (k < d)%nat -> (k' < d')%nat -> T k k' = 0.
Proof.
  intros N Hk Hk'.
  assert (E : forall x, rsum d (fun m => dmul d (generators l x) (generators l x) k m * T m k') = rsum d' (fun m => T k m * dmul d' (generators l' x) (generators l' x) m k')).
  { intros x. unfold CGModel.mmul.
    transitivity (rsum d (fun p => generators l x k p * rsum d (fun m => generators l x p m * T m k'))).
    { rewrite (rsum_ext d _ (fun m => rsum d (fun p => generators l x k p * (generators l x p m * T m k')))) by (intros; rewrite <- rsum_scal_r; apply rsum_ext; intros; ring). rewrite rsum_swap. apply rsum_ext. intros p Hp. apply rsum_scal. }
    rewrite (rsum_ext d _ (fun p => rsum d' (fun q => generators l x k p * T p q * generators l' x q k'))) by (intros p Hp; rewrite overlap_commutes by assumption; rewrite <- rsum_scal; apply rsum_ext; intros; ring).
    rewrite rsum_swap. rewrite (rsum_ext d' _ (fun q => rsum d' (fun m => T k m * generators l' x m q * generators l' x q k'))).
    2: { intros q Hq. rewrite rsum_scal_r, overlap_commutes by assumption. rewrite <- rsum_scal_r. reflexivity. }
    rewrite rsum_swap. apply rsum_ext. intros m Hm. rewrite <- rsum_scal. apply rsum_ext. intros; ring. }
  assert (S1 : rsum d (fun m => (dmul d (generators l 0) (generators l 0) k m + dmul d (generators l 1) (generators l 1) k m + dmul d (generators l 2) (generators l 2) k m) * T m k') = - (INR l * (INR l + 1)) * T k k').
  { rewrite (rsum_ext d _ (fun m => (if (k =? m)%nat then 1 else 0) * (- (INR l * (INR l + 1)) * T m k'))).
    - rewrite (rsum_delta_r d k (fun m => - (INR l * (INR l + 1)) * T m k')) by exact Hk. reflexivity.
    - intros m Hm. pose proof (C38_casimir l k m Hk Hm) as Q. cbv zeta beta in Q. fold d in Q. rewrite Q. unfold CGModel.mone. ring. }
  assert (S2 : rsum d' (fun m => T k m * (dmul d' (generators l' 0) (generators l' 0) m k' + dmul d' (generators l' 1) (generators l' 1) m k' + dmul d' (generators l' 2) (generators l' 2) m k')) = - (INR l' * (INR l' + 1)) * T k k').
  { rewrite (rsum_ext d' _ (fun m => (if (m =? k')%nat then 1 else 0) * (- (INR l' * (INR l' + 1)) * T k m))).
    - rewrite (rsum_delta_l d' k' (fun m => - (INR l' * (INR l' + 1)) * T k m)) by exact Hk'. reflexivity.
    - intros m Hm. pose proof (C38_casimir l' m k' Hm Hk') as Q. cbv zeta beta in Q. fold d' in Q. rewrite Q. unfold CGModel.mone. ring. }
  rewrite (rsum_ext d _ (fun m => dmul d (generators l 0) (generators l 0) k m * T m k' + dmul d (generators l 1) (generators l 1) k m * T m k' + dmul d (generators l 2) (generators l 2) k m * T m k')) in S1 by (intros; ring). rewrite !rsum_plus, !E in S1.
  rewrite (rsum_ext d' _ (fun m => T k m * dmul d' (generators l' 0) (generators l' 0) m k' + T k m * dmul d' (generators l' 1) (generators l' 1) m k' + T k m * dmul d' (generators l' 2) (generators l' 2) m k')) in S2 by (intros; ring). rewrite !rsum_plus in S2. rewrite S2 in S1.
  assert (Z : (INR l - INR l') * (INR l + INR l' + 1) * T k k' = 0) by lra. apply Rmult_integral in Z as [Z|Z]; [|exact Z]. exfalso. pose proof (pos_INR l). pose proof (pos_INR l'). apply Rmult_integral in Z as [Z|Z]; [|lra]. apply N, INR_eq. lra.
Qed.
End Cross.

(* C40: couplings of the same two inputs into different degrees are orthogonal *)
Theorem C40_orthogonal_degrees l1 l2 l l' k k' : l <> l' -> (k < 2 * l + 1)%nat -> (k' < 2 * l' + 1)%nat ->
  rsum (2 * l1 + 1) (fun a => rsum (2 * l2 + 1) (fun b => clebsch_gordan l1 l2 l a b k * clebsch_gordan l1 l2 l' a b k')) = 0.
Proof. apply overlap_zero. Qed.

(* ---------- as many orthonormal rows as columns: the columns are orthonormal too ---------- *)
Section Square.
Context {A B : Type} (deca : forall a a' : A, {a = a'} + {a <> a'}) (decb : forall b b' : B, {b = b'} + {b <> b'}).
Variables (I : list A) (J : list B) (M : A -> B -> R).
Definition dl {T} (dec : forall a a' : T, {a = a'} + {a <> a'}) (a a' : T) : R := if dec a a' then 1 else 0.
Lemma lsum_dl {T} (dec : forall a a' : T, {a = a'} + {a <> a'}) (l : list T) a f : NoDup l -> In a l -> lsum l (fun b => dl dec a b * f b) = f a.
Proof.
  intros N Ha. induction l as [|b l IH]; [destruct Ha|]. inversion_clear N as [|? ? Nb Nl]. rewrite lsum_cons. unfold dl at 1. destruct Ha as [->|Ha].
  - destruct (dec a a); [|congruence]. rewrite lsum_zero; [lra|]. intros c Hc. unfold dl. destruct (dec a c) as [->|]; [contradiction|lra].
  - rewrite IH by assumption. destruct (dec a b) as [->|]; [contradiction|lra].
Qed.
Lemma lsum_nonneg {T} (l : list T) f : (forall a, In a l -> 0 <= f a) -> 0 <= lsum l f.
Proof. induction l as [|a l IH]; intros H; [cbn; lra|]. rewrite lsum_cons. pose proof (H a (or_introl eq_refl)). assert (0 <= lsum l f) by (apply IH; intros; apply H; right; assumption). lra. Qed.
Lemma lsum_zero_terms {T} (l : list T) f : (forall a, In a l -> 0 <= f a) -> lsum l f = 0 -> forall a, In a l -> f a = 0.
Proof.
  induction l as [|b l IH]; intros H Z a Ha; [destruct Ha|]. rewrite lsum_cons in Z. pose proof (H b (or_introl eq_refl)) as Hb. assert (G : forall a, In a l -> 0 <= f a) by (intros; apply H; right; assumption). pose proof (lsum_nonneg l f G). destruct Ha as [->|Ha]; [lra|]. apply IH; auto. lra.
Qed.
Lemma lsum_ones {T} (l : list T) : lsum l (fun _ => 1) = INR (length l).
Proof. induction l as [|a l IH]; [reflexivity|]. rewrite lsum_cons, IH. cbn [length]. rewrite S_INR. lra. Qed.
Lemma square_columns : NoDup I -> NoDup J -> length I = length J -> (forall i i', In i I -> In i' I -> lsum J (fun j => M i j * M i' j) = dl deca i i') ->
  forall j j', In j J -> In j' J -> lsum I (fun i => M i j * M i j') = dl decb j j'.
Proof.
  intros NI NJ L O. set (P := fun j j' => lsum I (fun i => M i j * M i j')).
  assert (PP : forall j j'', In j J -> lsum J (fun j' => P j j' * P j' j'') = P j j'').
  { intros j j'' Hj. unfold P. rewrite (lsum_ext J _ (fun j' => lsum I (fun i => lsum I (fun i' => M i j * M i' j'' * (M i j' * M i' j'))))).
    - rewrite lsum_swap. apply lsum_ext. intros i Hi. rewrite lsum_swap. rewrite (lsum_ext I _ (fun i' => dl deca i i' * (M i j * M i' j''))).
      + rewrite (lsum_dl deca I i (fun i' => M i j * M i' j'')) by assumption. reflexivity.
      + intros i' Hi'. rewrite lsum_scal, O by assumption. ring.
    - intros j' _. rewrite Rmult_comm. rewrite <- lsum_scal. apply lsum_ext. intros i _. rewrite (Rmult_comm (lsum I _)), <- lsum_scal. apply lsum_ext. intros i' _. ring. }
  assert (Sym : forall j j', P j j' = P j' j) by (intros; unfold P; apply lsum_ext; intros; ring).
  assert (Sq : forall j, In j J -> P j j = P j j * P j j + lsum J (fun j' => if decb j j' then 0 else P j j' * P j j')).
  { intros j Hj. rewrite <- (PP j j Hj) at 1. rewrite (lsum_ext J _ (fun j' => dl decb j j' * (P j j' * P j j') + (if decb j j' then 0 else P j j' * P j j'))).
    - rewrite lsum_plus. f_equal. apply (lsum_dl decb J j (fun j' => P j j' * P j j')); assumption.
    - intros j' _. rewrite (Sym j' j). unfold dl. destruct (decb j j'); ring. }
  assert (Pos : forall j, 0 <= lsum J (fun j' => if decb j j' then 0 else P j j' * P j j')) by (intros j; apply lsum_nonneg; intros j' _; destruct (decb j j'); [lra|apply Rle_0_sqr]).
  assert (Le : forall j, In j J -> 0 <= 1 - P j j).
  { intros j Hj. pose proof (Sq j Hj) as S1. pose proof (Pos j) as S2. destruct (Rle_lt_dec (P j j) 1) as [G|G]; [lra|]. exfalso. assert (P j j * 1 < P j j * P j j) by (apply Rmult_lt_compat_l; lra). lra. }
  assert (Tr : lsum J (fun j => 1 - P j j) = 0).
  { rewrite (lsum_ext J _ (fun j => 1 + -1 * P j j)) by (intros; ring). rewrite lsum_plus, lsum_ones, lsum_scal. unfold P. rewrite lsum_swap. rewrite (lsum_ext I _ (fun _ => 1)); [rewrite lsum_ones, L; ring|]. intros i Hi. rewrite O by assumption. unfold dl. destruct (deca i i); [reflexivity|congruence]. }
  intros j j' Hj Hj'. change (P j j' = dl decb j j'). pose proof (lsum_zero_terms J _ Le Tr j Hj) as E1. pose proof (Sq j Hj) as S1. assert (E2 : P j j = 1) by lra. rewrite E2 in S1.
  unfold dl. destruct (decb j j') as [<-|N]; [exact E2|]. assert (Z : lsum J (fun j' => if decb j j' then 0 else P j j' * P j j') = 0) by lra.
  pose proof (lsum_zero_terms J (fun j' => if decb j j' then 0 else P j j' * P j j') ltac:(intros j2 _; cbv beta; destruct (decb j j2); [lra|apply Rle_0_sqr]) Z j' Hj') as E3. cbv beta in E3. destruct (decb j j') as [<-|_]; [congruence|]. apply Rmult_integral in E3. tauto.
Qed.
End Square.

(* ---------- completeness ---------- *)
Definition nat2_dec (a b : nat * nat) : {a = b} + {a <> b}.
Proof. decide equality; apply Nat.eq_dec. Defined.
Definition grid (n m : nat) : list (nat * nat) := flat_map (fun a => map (fun b => (a, b)) (seq 0 m)) (seq 0 n).
Lemma in_grid n m a b : In (a, b) (grid n m) <-> (a < n /\ b < m)%nat.
Proof.
  unfold grid. rewrite in_flat_map. split.
  - intros (u & Hu & Hv). apply in_map_iff in Hv as (v & Q & Hv). injection Q as -> ->. apply in_seq in Hu, Hv. lia.
  - intros [Hu Hv]. exists a. rewrite in_seq. split; [lia|]. apply in_map_iff. exists b. rewrite in_seq. split; [reflexivity|lia].
Qed.
Lemma grid_nodup n m : NoDup (grid n m).
Proof.
  unfold grid. generalize 0%nat at 2 as o. induction n as [|n IH]; intros o; [constructor|]. cbn [seq flat_map].
  assert (N : NoDup (map (fun b => (o, b)) (seq 0 m))) by (apply FinFun.Injective_map_NoDup; [intros u v E; injection E as ->; reflexivity|apply seq_NoDup]).
  apply NoDup_app_i; [exact N|apply IH|]. intros [a b] H1 H2. apply in_map_iff in H1 as (b' & Q & _). injection Q as <- _. apply in_flat_map in H2 as (u & Hu & Hv). apply in_map_iff in Hv as (v & Q & _). injection Q as -> _. apply in_seq in Hu. lia.
Qed.
Lemma grid_length n m : length (grid n m) = (n * m)%nat.
Proof. unfold grid. generalize 0%nat at 2 as o. induction n as [|n IH]; intros o; [reflexivity|]. cbn [seq flat_map]. rewrite app_length, map_length, seq_length, IH. reflexivity. Qed.
Lemma lsum_flat_map {A B} (f : A -> list B) l g : lsum (flat_map f l) g = lsum l (fun a => lsum (f a) g).
Proof. induction l as [|a l IH]; [reflexivity|]. cbn [flat_map]. rewrite lsum_app, lsum_cons, IH. reflexivity. Qed.
Lemma lsum_seq0 n f : lsum (seq 0 n) f = rsum n f.
Proof. induction n as [|n IH]; [reflexivity|]. rewrite seq_S, lsum_app, IH. cbn [lsum fold_right rsum Nat.add]. lra. Qed.
Lemma lsum_grid n m f : lsum (grid n m) f = rsum n (fun a => rsum m (fun b => f (a, b))).
Proof. unfold grid. rewrite lsum_flat_map, lsum_seq0. apply rsum_ext. intros a Ha. rewrite lsum_map. apply lsum_seq0. Qed.
(* the pairs (l, k): the components of all the degrees from |l1 - l2| to l1 + l2 *)
Definition degrees (l1 l2 : nat) : list nat := filter (fun l => (l1 <=? l2 + l)%nat && (l2 <=? l1 + l)%nat) (seq 0 (l1 + l2 + 1)).
Definition slots (l1 l2 : nat) : list (nat * nat) := flat_map (fun l => map (fun k => (l, k)) (seq 0 (2 * l + 1))) (degrees l1 l2).
Lemma in_degrees l1 l2 l : In l (degrees l1 l2) <-> (l <= l1 + l2 /\ l1 <= l2 + l /\ l2 <= l1 + l)%nat.
Proof. unfold degrees. rewrite filter_In, in_seq, andb_true_iff, !Nat.leb_le. lia. Qed.
Lemma in_slots l1 l2 l k : In (l, k) (slots l1 l2) <-> In l (degrees l1 l2) /\ (k < 2 * l + 1)%nat.
Proof.
  unfold slots. rewrite in_flat_map. split.
  - intros (u & Hu & Hv). apply in_map_iff in Hv as (v & Q & Hv). injection Q as -> ->. apply in_seq in Hv. split; [exact Hu|lia].
  - intros [Hu Hv]. exists l. split; [exact Hu|]. apply in_map_iff. exists k. rewrite in_seq. split; [reflexivity|lia].
Qed.
Lemma degrees_nodup l1 l2 : NoDup (degrees l1 l2).
Proof. apply NoDup_filter, seq_NoDup. Qed.
Lemma slots_nodup l1 l2 : NoDup (slots l1 l2).
Proof.
  unfold slots. induction (degrees_nodup l1 l2) as [|l ls N _ IH]; [constructor|]. cbn [flat_map].
  apply NoDup_app_i; [apply FinFun.Injective_map_NoDup; [intros u v E; injection E as ->; reflexivity|apply seq_NoDup]|exact IH|]. intros [a b] H1 H2. apply in_map_iff in H1 as (b' & Q & _). injection Q as <- _. apply in_flat_map in H2 as (u & Hu & Hv). apply in_map_iff in Hv as (v & Q & _). injection Q as -> _. contradiction.
Qed.
Lemma slots_length l1 l2 : length (slots l1 l2) = ((2 * l1 + 1) * (2 * l2 + 1))%nat.
Proof.
  unfold slots. assert (Q : forall ls, length (flat_map (fun l => map (fun k => (l, k)) (seq 0 (2 * l + 1))) ls) = PyBase.sum (map (fun l => 2 * l + 1)%nat ls)).
  { induction ls as [|l ls IH]; [reflexivity|]. cbn [flat_map map]. change (PyBase.sum (?a :: ?t)) with (a + PyBase.sum t)%nat. rewrite app_length, map_length, seq_length, IH. reflexivity. }
  rewrite Q. unfold degrees.
  assert (G : forall n, PyBase.sum (map (fun l => 2 * l + 1)%nat (filter (fun l => (l1 <=? l2 + l)%nat && (l2 <=? l1 + l)%nat) (seq 0 n))) = (if n <=? (Nat.max l1 l2 - Nat.min l1 l2) then 0 else n * n - (Nat.max l1 l2 - Nat.min l1 l2) * (Nat.max l1 l2 - Nat.min l1 l2))%nat).
  { induction n as [|n IH]; [reflexivity|]. rewrite seq_S, filter_app, map_app. assert (SA : forall a b, PyBase.sum (a ++ b) = (PyBase.sum a + PyBase.sum b)%nat) by (clear; induction a as [|u a IH]; intros b; [reflexivity|]; cbn [app]; repeat change (PyBase.sum (?a :: ?t)) with (a + PyBase.sum t)%nat; rewrite IH; lia). rewrite SA, IH. cbn [filter Nat.add].
    set (D := (Nat.max l1 l2 - Nat.min l1 l2)%nat). destruct ((l1 <=? l2 + n)%nat && (l2 <=? l1 + n)%nat) eqn:E; [apply andb_true_iff in E as [E1 E2]; apply Nat.leb_le in E1, E2|apply andb_false_iff in E; rewrite !Nat.leb_gt in E]; cbn [map]; try change (PyBase.sum [?a]) with (a + 0)%nat; try change (PyBase.sum []) with 0%nat.
    - assert (HD : (D <= n)%nat) by lia. destruct (Nat.leb_spec n D); destruct (Nat.leb_spec (S n) D); try lia; nia.
    - assert (HD : (n < D)%nat) by lia. destruct (Nat.leb_spec n D); destruct (Nat.leb_spec (S n) D); lia. }
  rewrite G. destruct (Nat.leb_spec (l1 + l2 + 1) (Nat.max l1 l2 - Nat.min l1 l2)); [lia|]. destruct (Nat.le_ge_cases l1 l2); [rewrite Nat.max_r, Nat.min_l by lia|rewrite Nat.max_l, Nat.min_r by lia]; nia.
Qed.
(* completeness: summed over all the degrees and their components, the couplings of (a, b) and of (a', b') are orthonormal *)
Theorem C40_complete l1 l2 a b a' b' : (a < 2 * l1 + 1)%nat -> (b < 2 * l2 + 1)%nat -> (a' < 2 * l1 + 1)%nat -> (b' < 2 * l2 + 1)%nat ->
  lsum (degrees l1 l2) (fun l => INR (2 * l + 1) * rsum (2 * l + 1) (fun k => clebsch_gordan l1 l2 l a b k * clebsch_gordan l1 l2 l a' b' k)) = if ((a =? a') && (b =? b'))%nat then 1 else 0.
Proof.
  intros Ha Hb Ha' Hb'. set (M := fun (s : nat * nat) (g : nat * nat) => sqrt (INR (2 * fst s + 1)) * clebsch_gordan l1 l2 (fst s) (fst g) (snd g) (snd s)).
  pose proof (square_columns nat2_dec nat2_dec (slots l1 l2) (grid (2 * l1 + 1) (2 * l2 + 1)) M (slots_nodup l1 l2) (grid_nodup _ _) ltac:(rewrite slots_length, grid_length; reflexivity)) as S.
  assert (SQ : forall l, sqrt (INR (2 * l + 1)) * sqrt (INR (2 * l + 1)) = INR (2 * l + 1)) by (intros; apply sqrt_sqrt, pos_INR).
  assert (O : forall i i', In i (slots l1 l2) -> In i' (slots l1 l2) -> lsum (grid (2 * l1 + 1) (2 * l2 + 1)) (fun j => M i j * M i' j) = dl nat2_dec i i').
  { intros [l k] [l' k'] H1 H2. apply in_slots in H1 as [D1 K1], H2 as [D2 K2]. apply in_degrees in D1, D2. rewrite lsum_grid. unfold M. cbn [fst snd].
    rewrite (rsum_ext _ _ (fun a => sqrt (INR (2 * l + 1)) * sqrt (INR (2 * l' + 1)) * rsum (2 * l2 + 1) (fun b => clebsch_gordan l1 l2 l a b k * clebsch_gordan l1 l2 l' a b k'))) by (intros; rewrite <- rsum_scal; apply rsum_ext; intros; ring).
    rewrite rsum_scal. unfold dl. destruct (Nat.eq_dec l l') as [<-|N].
    - rewrite C40_orthonormal by (lia || assumption). destruct (Nat.eqb_spec k k') as [<-|Nk]; destruct (nat2_dec (l, k) (l, _)) as [E|E]; try congruence; [|ring]. rewrite SQ. apply Rinv_r. apply not_0_INR. lia.
    - rewrite C40_orthogonal_degrees by assumption. destruct (nat2_dec (l, k) (l', k')); [congruence|ring]. }
  specialize (S O (a, b) (a', b') (proj2 (in_grid _ _ _ _) (conj Ha Hb)) (proj2 (in_grid _ _ _ _) (conj Ha' Hb'))).
  transitivity (dl nat2_dec (a, b) (a', b')).
  - rewrite <- S. unfold slots. rewrite lsum_flat_map. apply lsum_ext. intros l Hl. rewrite lsum_map, lsum_seq0, <- rsum_scal. apply rsum_ext. intros k Hk. unfold M. cbn [fst snd]. rewrite <- SQ at 1. ring.
  - unfold dl. destruct (nat2_dec (a, b) (a', b')) as [E|N]; [injection E as <- <-; rewrite !Nat.eqb_refl; reflexivity|]. destruct (Nat.eqb_spec a a') as [<-|]; [|reflexivity]. destruct (Nat.eqb_spec b b') as [<-|]; [congruence|reflexivity].
Qed.
