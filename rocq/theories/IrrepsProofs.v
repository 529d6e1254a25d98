From Verif Require Import PyBase PermModel IrrepsModel.
From Coq Require Import Sorting.Permutation Sorting.Sorted.

(* ---------- parities and irreps ---------- *)
Lemma parity_eqb_eq a b : parity_eqb a b = true <-> a = b.
Proof. destruct a, b; simpl; split; congruence. Qed.

Lemma irrep_eqb_eq a b : irrep_eqb a b = true <-> a = b.
Proof.
  unfold irrep_eqb. rewrite andb_true_iff, Nat.eqb_eq, parity_eqb_eq.
  destruct a, b; simpl; split; [intros [-> ->]; reflexivity | intros [= -> ->]; auto].
Qed.

Lemma irrep_eqb_refl a : irrep_eqb a a = true.
Proof. apply irrep_eqb_eq; reflexivity. Qed.

Lemma irrep_eqb_neq a b : irrep_eqb a b = false <-> a <> b.
Proof.
  rewrite <- irrep_eqb_eq. destruct (irrep_eqb a b); split; congruence.
Qed.

Lemma irrep_eqb_sym a b : irrep_eqb a b = irrep_eqb b a.
Proof.
  destruct (irrep_eqb b a) eqn:E.
  - apply irrep_eqb_eq in E; subst; apply irrep_eqb_refl.
  - apply irrep_eqb_neq in E; apply irrep_eqb_neq; congruence.
Qed.

Definition irrep_eq_dec (a b : irrep) : {a = b} + {a <> b}.
Proof. decide equality; [decide equality | apply Nat.eq_dec]. Defined.

Lemma pz_mul a b : pz (pmul a b) = (pz a * pz b)%Z.
Proof. destruct a, b; reflexivity. Qed.

Lemma pmul_comm a b : pmul a b = pmul b a.
Proof. destruct a, b; reflexivity. Qed.

Lemma pmul_assoc a b c : pmul a (pmul b c) = pmul (pmul a b) c.
Proof. destruct a, b, c; reflexivity. Qed.

Lemma pz_ppow p n : pz (ppow p n) = (pz p ^ Z.of_nat n)%Z.
Proof.
  induction n as [|n IH]; [reflexivity|].
  cbn [ppow]. rewrite pz_mul, IH, Nat2Z.inj_succ, Z.pow_succ_r by lia. reflexivity.
Qed.

Lemma pz_inj a b : pz a = pz b -> a = b.
Proof. destruct a, b; simpl; intros; congruence || lia. Qed.

(* ---------- order (C02) ---------- *)
Lemma ir_ltb_lt a b : ir_ltb a b = true <->
  ir_l a < ir_l b \/ (ir_l a = ir_l b /\ (- pz (ir_p a) * pz (ppow Odd (ir_l a)) < - pz (ir_p b) * pz (ppow Odd (ir_l b)))%Z).
Proof.
  unfold ir_ltb, ir_key. rewrite !pz_ppow. cbn [pz].
  rewrite orb_true_iff, andb_true_iff, Nat.ltb_lt, Nat.eqb_eq, Z.ltb_lt. reflexivity.
Qed.

Lemma ir_ltb_irrefl a : ir_ltb a a = false.
Proof.
  destruct (ir_ltb a a) eqn:E; [|reflexivity]. apply ir_ltb_lt in E. lia.
Qed.

Lemma ir_ltb_trans a b c : ir_ltb a b = true -> ir_ltb b c = true -> ir_ltb a c = true.
Proof. rewrite !ir_ltb_lt. lia. Qed.

Lemma ir_ltb_total a b : ir_ltb a b = true \/ a = b \/ ir_ltb b a = true.
Proof.
  rewrite !ir_ltb_lt. destruct a as [l1 p1], b as [l2 p2]; simpl.
  destruct (Nat.lt_trichotomy l1 l2) as [H|[H|H]]; [auto| |auto].
  subst. destruct (ppow Odd l2), p1, p2; simpl; auto; lia.
Qed.

Lemma ir_ltb_asym a b : ir_ltb a b = true -> ir_ltb b a = false.
Proof.
  intros H. destruct (ir_ltb b a) eqn:E; [|reflexivity].
  pose proof (ir_ltb_irrefl a).
  pose proof (ir_ltb_trans _ _ _ H E). congruence.
Qed.

Lemma iterator_step_in l ir : In ir (iterator_step l) <-> ir_l ir = l.
Proof.
  unfold iterator_step; simpl. destruct ir as [l' p]; simpl. split.
  - intros [[= -> _]|[[= -> _]|[]]]; reflexivity.
  - intros ->. destruct (ppow Odd l), p; auto.
Qed.

Lemma iterator_in lm ir : In ir (iterator lm) <-> ir_l ir <= lm.
Proof.
  unfold iterator. rewrite in_flat_map. split.
  - intros (l & Hl & H). apply iterator_step_in in H. apply in_seq in Hl. lia.
  - intros H. exists (ir_l ir). split; [apply in_seq; lia | apply iterator_step_in; reflexivity].
Qed.

Lemma StronglySorted_app {A} (R : A -> A -> Prop) l1 l2 :
  StronglySorted R l1 -> StronglySorted R l2 ->
  (forall a b, In a l1 -> In b l2 -> R a b) -> StronglySorted R (l1 ++ l2).
Proof.
  intros H1 H2 H. induction H1 as [|a l1 H1 IH Ha]; simpl; [assumption|].
  constructor.
  - apply IH. intros; apply H; simpl; auto.
  - apply Forall_app; split; [assumption|].
    apply Forall_forall. intros b Hb. apply H; simpl; auto.
Qed.

Lemma iterator_sorted lm : StronglySorted (fun a b => ir_ltb a b = true) (iterator lm).
Proof.
  unfold iterator.
  assert (G : forall n k, StronglySorted (fun a b => ir_ltb a b = true) (flat_map iterator_step (seq k n))).
  { induction n as [|n IH]; intros k; cbn [seq flat_map]; [constructor|].
    apply StronglySorted_app; [|apply IH|].
    - unfold iterator_step. repeat constructor.
      apply ir_ltb_lt; simpl. right; split; [reflexivity|]. destruct (ppow Odd k); simpl; lia.
    - intros a b Ha Hb. apply iterator_step_in in Ha. apply in_flat_map in Hb.
      destruct Hb as (l & Hl & Hb). apply iterator_step_in in Hb. apply in_seq in Hl.
      apply ir_ltb_lt. left. lia. }
  apply G.
Qed.

Lemma StronglySorted_irrefl_NoDup {A} (R : A -> A -> Prop) l :
  (forall a, ~ R a a) -> StronglySorted R l -> NoDup l.
Proof.
  intros Hirr H. induction H as [|a l H IH Ha]; constructor; [|assumption].
  intros Hin. rewrite Forall_forall in Ha. apply (Hirr a), Ha, Hin.
Qed.

(* ---------- product (C03) ---------- *)
Lemma ir_mul_in a b c : In c (ir_mul a b) <->
  ir_p c = pmul (ir_p a) (ir_p b) /\
  (Z.abs (Z.of_nat (ir_l a) - Z.of_nat (ir_l b)) <= Z.of_nat (ir_l c) <= Z.of_nat (ir_l a) + Z.of_nat (ir_l b))%Z.
Proof.
  unfold ir_mul. rewrite in_map_iff. split.
  - intros (l & <- & Hl). apply in_seq in Hl. simpl. split; [reflexivity|]. lia.
  - intros [Hp Hl]. exists (ir_l c). split; [destruct c; simpl in *; congruence|].
    apply in_seq. lia.
Qed.

Lemma ir_mul_NoDup a b : NoDup (ir_mul a b).
Proof.
  unfold ir_mul. apply FinFun.Injective_map_NoDup; [|apply seq_NoDup].
  intros x y [= ->]; reflexivity.
Qed.

Lemma sum_app l1 l2 : sum (l1 ++ l2) = sum l1 + sum l2.
Proof. unfold sum. induction l1; simpl; lia. Qed.

Lemma sum_perm l1 l2 : Permutation l1 l2 -> sum l1 = sum l2.
Proof. unfold sum. induction 1; simpl; lia. Qed.

Lemma sum_odd_range n k : sum (map (fun l => 2 * l + 1) (seq k n)) + k * k = (k + n) * (k + n).
Proof.
  revert k. induction n as [|n IH]; intros k; cbn [seq map].
  - simpl. nia.
  - specialize (IH (S k)). unfold sum in *; cbn [fold_right] in *. nia.
Qed.

Lemma ir_mul_dim a b : sum (map ir_dim (ir_mul a b)) = ir_dim a * ir_dim b.
Proof.
  unfold ir_mul. rewrite map_map. unfold ir_dim at 1; cbn [ir_l].
  set (lmin := Z.to_nat _).
  pose proof (sum_odd_range (ir_l a + ir_l b + 1 - lmin) lmin) as H.
  replace (lmin + (ir_l a + ir_l b + 1 - lmin)) with (ir_l a + ir_l b + 1) in H by (unfold lmin; lia).
  unfold ir_dim.
  assert (Hm : lmin = ir_l a - ir_l b + (ir_l b - ir_l a)) by (unfold lmin; lia).
  clearbody lmin.
  destruct (Nat.le_gt_cases (ir_l a) (ir_l b)) as [Hle|Hgt].
  - assert (exists d, ir_l b = ir_l a + d) as [d Hd] by (exists (ir_l b - ir_l a); lia).
    assert (El : lmin = d) by lia. clear Hm. rewrite El, Hd in *. nia.
  - assert (exists d, ir_l a = ir_l b + d) as [d Hd] by (exists (ir_l a - ir_l b); lia).
    assert (El : lmin = d) by lia. clear Hm. rewrite El, Hd in *. nia.
Qed.

Lemma ir_mul_comm a b : ir_mul a b = ir_mul b a.
Proof.
  unfold ir_mul. rewrite pmul_comm.
  replace (Z.abs (Z.of_nat (ir_l a) - Z.of_nat (ir_l b))) with (Z.abs (Z.of_nat (ir_l b) - Z.of_nat (ir_l a))) by lia.
  rewrite (Nat.add_comm (ir_l a)). reflexivity.
Qed.

Lemma ir_mul_unit a : ir_mul (Irrep 0 Even) a = [a].
Proof.
  unfold ir_mul; simpl.
  replace (Z.to_nat (Z.abs (- Z.of_nat (ir_l a)))) with (ir_l a) by lia.
  replace (ir_l a + 1 - ir_l a) with 1 by lia. destruct a; reflexivity.
Qed.

Lemma count_occ_flat_map {A B} (dec : forall x y : B, {x = y} + {x <> y}) (f : A -> list B) l x :
  count_occ dec (flat_map f l) x = sum (map (fun a => count_occ dec (f a) x) l).
Proof.
  induction l as [|a l IH]; [reflexivity|]. cbn [flat_map map]. rewrite count_occ_app, IH. reflexivity.
Qed.

Lemma count_occ_NoDup_01 {A} (dec : forall x y : A, {x = y} + {x <> y}) l x (b : bool) :
  NoDup l -> (b = true <-> In x l) -> count_occ dec l x = if b then 1 else 0.
Proof.
  intros Hnd Hb. destruct b.
  - apply NoDup_count_occ'; [assumption|]. apply Hb. reflexivity.
  - apply count_occ_not_In. intros H. apply Hb in H. discriminate.
Qed.

(* number of integers k in [s, s+n) with a <= k <= b *)
Lemma sum_interval n s (f : nat -> bool) (a b : Z) :
  (forall k, s <= k < s + n -> (f k = true <-> (a <= Z.of_nat k <= b)%Z)) ->
  Z.of_nat (sum (map (fun k => if f k then 1 else 0) (seq s n))) =
  Z.max 0 (Z.min b (Z.of_nat s + Z.of_nat n - 1) - Z.max a (Z.of_nat s) + 1).
Proof.
  revert s. induction n as [|n IH]; intros s H; cbn [seq map].
  - simpl. lia.
  - unfold sum in *. cbn [fold_right]. rewrite Nat2Z.inj_add, IH.
    + specialize (H s ltac:(lia)). destruct (f s); lia.
    + intros k Hk. apply H. lia.
Qed.

Definition trib (x y z : nat) : bool :=
  ((Z.abs (Z.of_nat x - Z.of_nat y) <=? Z.of_nat z) && (Z.of_nat z <=? Z.of_nat x + Z.of_nat y))%Z.

Lemma count_ir_mul a b c :
  count_occ irrep_eq_dec (ir_mul a b) c =
  if parity_eqb (ir_p c) (pmul (ir_p a) (ir_p b)) && trib (ir_l a) (ir_l b) (ir_l c) then 1 else 0.
Proof.
  apply count_occ_NoDup_01; [apply ir_mul_NoDup|].
  rewrite ir_mul_in, andb_true_iff, parity_eqb_eq. unfold trib. rewrite andb_true_iff, !Z.leb_le. reflexivity.
Qed.

Lemma sum_map_ext {A} (f g : A -> nat) l : (forall a, In a l -> f a = g a) -> sum (map f l) = sum (map g l).
Proof. intros H. f_equal. apply map_ext_in, H. Qed.

Lemma sum_map_zero {A} (f : A -> nat) l : (forall a, In a l -> f a = 0) -> sum (map f l) = 0.
Proof.
  induction l as [|a l IH]; intros H; [reflexivity|]. unfold sum in *; cbn [map fold_right].
  rewrite IH, H; simpl; auto. intros; apply H; simpl; auto.
Qed.

Lemma count_triple a b c d :
  Z.of_nat (count_occ irrep_eq_dec (flat_map (fun e => ir_mul e c) (ir_mul a b)) d) =
  if parity_eqb (ir_p d) (pmul (pmul (ir_p a) (ir_p b)) (ir_p c)) then
    Z.max 0 (Z.min (Z.of_nat (ir_l a) + Z.of_nat (ir_l b)) (Z.of_nat (ir_l c) + Z.of_nat (ir_l d))
             - Z.max (Z.abs (Z.of_nat (ir_l a) - Z.of_nat (ir_l b))) (Z.abs (Z.of_nat (ir_l c) - Z.of_nat (ir_l d))) + 1)
  else 0%Z.
Proof.
  rewrite count_occ_flat_map. unfold ir_mul at 2. rewrite map_map.
  rewrite (sum_map_ext _ (fun l => if parity_eqb (ir_p d) (pmul (pmul (ir_p a) (ir_p b)) (ir_p c)) && trib l (ir_l c) (ir_l d) then 1 else 0)).
  2:{ intros l _. rewrite count_ir_mul. reflexivity. }
  destruct (parity_eqb (ir_p d) (pmul (pmul (ir_p a) (ir_p b)) (ir_p c))).
  - cbn [andb]. rewrite (sum_interval _ _ _ (Z.abs (Z.of_nat (ir_l c) - Z.of_nat (ir_l d))) (Z.of_nat (ir_l c) + Z.of_nat (ir_l d))).
    + lia.
    + intros k _. unfold trib. rewrite andb_true_iff, !Z.leb_le. lia.
  - cbn [andb]. rewrite sum_map_zero by auto. reflexivity.
Qed.

Lemma flat_map_ext_in {A B} (f g : A -> list B) l :
  (forall a, In a l -> f a = g a) -> flat_map f l = flat_map g l.
Proof.
  induction l as [|a l IH]; intros H; [reflexivity|]. cbn [flat_map].
  rewrite H, IH; simpl; auto. intros; apply H; simpl; auto.
Qed.

Lemma ir_mul_assoc a b c :
  Permutation (flat_map (fun e => ir_mul e c) (ir_mul a b)) (flat_map (ir_mul a) (ir_mul b c)).
Proof.
  apply (Permutation_count_occ irrep_eq_dec). intros d. apply Nat2Z.inj.
  rewrite (flat_map_ext_in (ir_mul a) (fun e => ir_mul e a)) by (intros; apply ir_mul_comm).
  rewrite !count_triple.
  replace (pmul (pmul (ir_p b) (ir_p c)) (ir_p a)) with (pmul (pmul (ir_p a) (ir_p b)) (ir_p c))
    by (destruct (ir_p a), (ir_p b), (ir_p c); reflexivity).
  destruct (parity_eqb _ _); [|reflexivity]. lia.
Qed.

(* ---------- flat list ---------- *)
Lemma flat_app x y : flat (x ++ y) = flat x ++ flat y.
Proof. unfold flat. apply flat_map_app. Qed.

Lemma flat_cons m ir x : flat ((m, ir) :: x) = repeat ir m ++ flat x.
Proof. reflexivity. Qed.

Lemma flat_length x : length (flat x) = num_irreps x.
Proof.
  unfold num_irreps. induction x as [|[m ir] x IH]; [reflexivity|].
  rewrite flat_cons, app_length, repeat_length, IH. reflexivity.
Qed.

Lemma sum_repeat a n : sum (repeat a n) = n * a.
Proof. unfold sum. induction n; simpl; lia. Qed.

Lemma map_repeat {A B} (f : A -> B) a n : map f (repeat a n) = repeat (f a) n.
Proof. induction n; simpl; congruence. Qed.

Lemma dim_flat x : dim x = sum (map ir_dim (flat x)).
Proof.
  unfold dim. induction x as [|[m ir] x IH]; [reflexivity|].
  rewrite flat_cons, map_app, map_repeat, sum_app, sum_repeat, <- IH. reflexivity.
Qed.

Lemma count_occ_repeat ir a m : count_occ irrep_eq_dec (repeat a m) ir = if irrep_eqb ir a then m else 0.
Proof.
  induction m as [|m IH]; [destruct (irrep_eqb _ _); reflexivity|].
  cbn [repeat count_occ]. rewrite IH. destruct (irrep_eq_dec a ir) as [->|H].
  - rewrite irrep_eqb_refl. reflexivity.
  - assert (irrep_eqb ir a = false) as -> by (apply irrep_eqb_neq; congruence). reflexivity.
Qed.

Lemma count_cons ir m a x : count ir ((m, a) :: x) = (if irrep_eqb ir a then m else 0) + count ir x.
Proof. unfold count. cbn [filter snd]. destruct (irrep_eqb ir a); reflexivity. Qed.

Lemma count_flat ir x : count ir x = count_occ irrep_eq_dec (flat x) ir.
Proof.
  induction x as [|[m a] x IH]; [reflexivity|].
  rewrite count_cons, flat_cons, count_occ_app, count_occ_repeat, IH. reflexivity.
Qed.

Lemma ls_flat x : ls x = map ir_l (flat x).
Proof.
  induction x as [|[m a] x IH]; [reflexivity|].
  rewrite flat_cons, map_app, map_repeat, <- IH. reflexivity.
Qed.

Lemma dim_app x y : dim (x ++ y) = dim x + dim y.
Proof. unfold dim. rewrite map_app, sum_app. reflexivity. Qed.

Lemma dim_cons m x : dim (m :: x) = mi_dim m + dim x.
Proof. destruct m. reflexivity. Qed.

(* ---------- slices (C04) ---------- *)
Lemma slices_from_length i x : length (slices_from i x) = length x.
Proof. revert i. induction x as [|m x IH]; intros i; simpl; [reflexivity|]. rewrite IH. reflexivity. Qed.

Lemma slices_from_nth k x i d : i < length x ->
  nth i (slices_from k x) d = (k + dim (firstn i x), k + dim (firstn (S i) x)).
Proof.
  revert k i. induction x as [|m x IH]; intros k i Hi; [simpl in Hi; lia|].
  destruct i as [|i].
  - cbn [slices_from nth firstn]. rewrite dim_cons. unfold dim at 1 2; simpl. f_equal; lia.
  - cbn [slices_from nth]. rewrite IH by (simpl in Hi; lia).
    cbn [firstn]. rewrite !dim_cons. f_equal; lia.
Qed.

Lemma firstn_S_nth {A} (l : list A) i d : i < length l -> firstn (S i) l = firstn i l ++ [nth i l d].
Proof.
  revert i. induction l as [|a l IH]; intros i Hi; [simpl in Hi; lia|].
  destruct i as [|i]; [reflexivity|]. cbn [firstn nth app]. rewrite <- IH by (simpl in Hi; lia). reflexivity.
Qed.

Lemma slices_width x i d : i < length x ->
  exists s, nth_error (slices x) i = Some (s, s + mi_dim (nth i x d)).
Proof.
  intros Hi. exists (dim (firstn i x)).
  rewrite (nth_error_nth' _ (0, 0)) by (unfold slices; rewrite slices_from_length; assumption).
  unfold slices. rewrite slices_from_nth by assumption. rewrite (firstn_S_nth _ _ d) by assumption.
  rewrite dim_app. unfold dim at 3. destruct (nth i x d). cbn. rewrite Nat.add_0_r. reflexivity.
Qed.

Lemma slices_cover_from x k j : k <= j < k + dim x ->
  exists i a b, nth_error (slices_from k x) i = Some (a, b) /\ a <= j < b.
Proof.
  revert k. induction x as [|m x IH]; intros k Hj.
  - unfold dim in Hj; simpl in Hj; lia.
  - rewrite dim_cons in Hj. destruct (Nat.lt_ge_cases j (k + mi_dim m)) as [H|H].
    + exists 0, k, (k + mi_dim m). split; [reflexivity|lia].
    + destruct (IH (k + mi_dim m)) as (i & a & b & E & Hab); [lia|].
      exists (S i), a, b. split; assumption.
Qed.

Lemma slices_from_bounds x k i a b : nth_error (slices_from k x) i = Some (a, b) -> k <= a /\ a <= b /\ b <= k + dim x.
Proof.
  revert k i. induction x as [|m x IH]; intros k i; [destruct i; discriminate|].
  rewrite dim_cons. destruct i as [|i]; cbn [slices_from nth_error].
  - intros [= <- <-]. lia.
  - intros H. apply IH in H. lia.
Qed.

Lemma slices_disjoint x k i1 a1 b1 i2 a2 b2 :
  nth_error (slices_from k x) i1 = Some (a1, b1) -> nth_error (slices_from k x) i2 = Some (a2, b2) ->
  i1 < i2 -> b1 <= a2.
Proof.
  revert k i1 i2. induction x as [|m x IH]; intros k i1 i2 H1 H2 Hlt; [destruct i1; discriminate|].
  destruct i2 as [|i2]; [lia|]. destruct i1 as [|i1]; cbn [slices_from nth_error] in *.
  - injection H1 as <- <-. apply slices_from_bounds in H2. lia.
  - eapply IH; eauto. lia.
Qed.

(* ---------- unify / simplify (C05) ---------- *)
Lemma flat_unify_step out m : flat (rev (unify_step out m)) = flat (rev out) ++ flat [m].
Proof.
  destruct m as [m a]. destruct out as [|[m' a'] out]; [reflexivity|]. cbn [unify_step fst snd].
  destruct (irrep_eqb a' a) eqn:E.
  - apply irrep_eqb_eq in E; subst. cbn [rev]. rewrite !flat_app, <- app_assoc. f_equal.
    unfold flat; cbn [flat_map]. rewrite !app_nil_r, <- repeat_app. reflexivity.
  - cbn [rev]. rewrite !flat_app. reflexivity.
Qed.

Lemma flat_unify x : flat (unify x) = flat x.
Proof.
  unfold unify. enough (G : forall out, flat (rev (fold_left unify_step x out)) = flat (rev out) ++ flat x) by apply (G []).
  induction x as [|m x IH]; intros out; cbn [fold_left].
  - rewrite app_nil_r. reflexivity.
  - rewrite IH, flat_unify_step, <- app_assoc. f_equal.
    change (m :: x) with ([m] ++ x). rewrite flat_app. reflexivity.
Qed.

Lemma flat_remove_zero x : flat (remove_zero x) = flat x.
Proof.
  induction x as [|[m a] x IH]; [reflexivity|]. unfold remove_zero in *. cbn [filter fst].
  destruct m as [|m]; [exact IH|]. change (0 <? S m) with true. cbv iota. rewrite !flat_cons, IH. reflexivity.
Qed.

Lemma flat_simplify x : flat (simplify x) = flat x.
Proof. unfold simplify. rewrite flat_unify, flat_remove_zero. reflexivity. Qed.

(* consecutive entries carry different irreps *)
Fixpoint alternating (x : irreps) : Prop :=
  match x with
  | m :: ((n :: _) as x') => snd m <> snd n /\ alternating x'
  | _ => True
  end.

Lemma alternating_app x y :
  alternating (x ++ y) <->
  alternating x /\ alternating y /\
  (forall a b, last (map Some x) None = Some a -> hd None (map Some y) = Some b -> snd a <> snd b).
Proof.
  induction x as [|m x IH].
  - simpl. split; [intros; repeat split; auto; discriminate|intros (_ & H & _); exact H].
  - destruct x as [|n x].
    + cbn [app map last hd]. destruct y as [|n y].
      * simpl. split; [intros; repeat split; auto; discriminate|auto].
      * cbn [alternating map hd]. split.
        -- intros [H1 H2]. repeat split; auto. intros a b [= ->] [= ->]; assumption.
        -- intros (_ & H2 & H3). split; [apply H3; reflexivity|assumption].
    + change ((m :: n :: x) ++ y) with (m :: (n :: x) ++ y).
      change (alternating (m :: (n :: x) ++ y)) with (snd m <> snd n /\ alternating ((n :: x) ++ y)).
      rewrite IH. change (alternating (m :: n :: x)) with (snd m <> snd n /\ alternating (n :: x)).
      change (last (map Some (m :: n :: x)) None) with (last (map Some (n :: x)) None). tauto.
Qed.

Lemma rev_alt_hd out : last (map (@Some mulirrep) (rev out)) None = hd None (map Some out).
Proof.
  destruct out as [|m out]; [reflexivity|]. cbn [rev map hd]. rewrite map_app. cbn [map].
  apply last_last.
Qed.

Lemma alternating_unify x : alternating (unify x).
Proof.
  unfold unify.
  enough (G : forall out, alternating (rev out) -> alternating (rev (fold_left unify_step x out))) by (apply G; exact I).
  induction x as [|m x IH]; intros out H; cbn [fold_left]; [assumption|].
  apply IH. destruct out as [|[m' a'] out]; [simpl; auto|]. cbn [unify_step].
  destruct (irrep_eqb a' (snd m)) eqn:E.
  - apply irrep_eqb_eq in E; subst a'. cbn [rev] in *.
    apply alternating_app in H. destruct H as (H1 & _ & H3).
    apply alternating_app. repeat split; auto.
    intros a b Ha [= <-]. apply (H3 a (m', snd m)); auto.
  - apply irrep_eqb_neq in E. cbn [rev]. apply alternating_app. repeat split; auto.
    intros a b Ha [= <-]. change (rev out ++ [(m', a')]) with (rev ((m', a') :: out)) in Ha.
    rewrite rev_alt_hd in Ha. injection Ha as <-. assumption.
Qed.

Definition positive (x : irreps) : Prop := Forall (fun m => 0 < fst m) x.

Lemma positive_unify x : positive x -> positive (unify x).
Proof.
  unfold positive, unify. intros Hx. apply Forall_rev.
  enough (G : forall out, Forall (fun m => 0 < fst m) out -> Forall (fun m => 0 < fst m) (fold_left unify_step x out)) by (apply G; constructor).
  induction Hx as [|m x Hm Hx IH]; intros out H; cbn [fold_left]; [assumption|].
  apply IH. destruct out as [|[m' a'] out]; [repeat constructor; assumption|]. cbn [unify_step].
  inversion_clear H. destruct (irrep_eqb _ _); repeat constructor; cbn [fst] in *; auto; lia.
Qed.

Lemma positive_remove_zero x : positive (remove_zero x).
Proof.
  unfold positive, remove_zero. apply Forall_forall. intros m Hm. apply filter_In in Hm. lia.
Qed.

Lemma positive_simplify x : positive (simplify x).
Proof. apply positive_unify, positive_remove_zero. Qed.

Lemma alternating_simplify x : alternating (simplify x).
Proof. apply alternating_unify. Qed.

(* run-length encodings are unique *)
Lemma repeat_split (a b : irrep) m n u v :
  hd_error u <> Some a -> hd_error v <> Some b -> 0 < m -> 0 < n ->
  repeat a m ++ u = repeat b n ++ v -> a = b /\ m = n /\ u = v.
Proof.
  intros Hu Hv Hm Hn E.
  assert (a = b) as -> by (destruct m, n; try lia; simpl in E; congruence).
  split; [reflexivity|]. revert n Hn E. induction m as [|m IH]; [lia|].
  intros [|n] Hn E; [lia|]. simpl in E. injection E as E.
  destruct m as [|m], n as [|n]; simpl in *.
  - auto.
  - subst. simpl in Hu. congruence.
  - subst. simpl in Hv. congruence.
  - destruct (IH ltac:(lia) (S n) ltac:(lia) E) as [-> ->]. auto.
Qed.

Lemma flat_hd_error m a x : 0 < m -> hd_error (flat ((m, a) :: x)) = Some a.
Proof. intros H. destruct m; [lia|]. reflexivity. Qed.

Lemma normal_form_unique x y :
  positive x -> positive y -> alternating x -> alternating y -> flat x = flat y -> x = y.
Proof.
  revert y. induction x as [|[m a] x IH]; intros [|[n b] y] Px Py Ax Ay E.
  - reflexivity.
  - exfalso. inversion_clear Py as [|? ? H ?]. cbn [fst] in H. destruct n; [lia|]. discriminate.
  - exfalso. inversion_clear Px as [|? ? H ?]. cbn [fst] in H. destruct m; [lia|]. discriminate.
  - inversion_clear Px as [|? ? Pm Px']. inversion_clear Py as [|? ? Pn Py']. cbn [fst] in *.
    rewrite !flat_cons in E. apply repeat_split in E; auto.
    + destruct E as (-> & -> & E). f_equal. apply IH; auto.
      * destruct x; [exact I|]. apply Ax.
      * destruct y; [exact I|]. apply Ay.
    + destruct x as [|[m' a'] x]; [discriminate|]. inversion_clear Px' as [|? ? Pm' _].
      rewrite flat_hd_error by assumption. destruct Ax as [Ax _]. cbn [snd] in Ax. congruence.
    + destruct y as [|[m' a'] y]; [discriminate|]. inversion_clear Py' as [|? ? Pm' _].
      rewrite flat_hd_error by assumption. destruct Ay as [Ay _]. cbn [snd] in Ay. congruence.
Qed.

Lemma simplify_iff x y : simplify x = simplify y <-> flat x = flat y.
Proof.
  split; intros H.
  - rewrite <- (flat_simplify x), <- (flat_simplify y), H. reflexivity.
  - apply normal_form_unique; auto using positive_simplify, alternating_simplify.
    rewrite !flat_simplify. assumption.
Qed.

Lemma simplify_fixed x : positive x -> alternating x -> simplify x = x.
Proof.
  intros. apply normal_form_unique; auto using positive_simplify, alternating_simplify, flat_simplify.
Qed.

Lemma simplify_idem x : simplify (simplify x) = simplify x.
Proof. apply simplify_iff, flat_simplify. Qed.

Lemma unify_fixed_rev x : forall out, alternating (rev out ++ x) ->
   fold_left unify_step x out = rev x ++ out.
Proof.
  induction x as [|m x IH]; intros out H; [reflexivity|]. cbn [fold_left].
  assert (E : unify_step out m = m :: out).
  { destruct out as [|[m' a'] out]; [reflexivity|]. cbn [unify_step].
    apply alternating_app in H. destruct H as (_ & _ & H).
    rewrite rev_alt_hd in H. specialize (H _ _ eq_refl eq_refl). cbn [snd] in H.
    destruct (irrep_eqb a' (snd m)) eqn:E; [apply irrep_eqb_eq in E; congruence|reflexivity]. }
  rewrite E, IH.
  - cbn [rev]. rewrite <- app_assoc. reflexivity.
  - cbn [rev]. rewrite <- app_assoc. exact H.
Qed.

Lemma unify_fixed x : alternating x -> unify x = x.
Proof.
  intros H. unfold unify. rewrite unify_fixed_rev by exact H. rewrite app_nil_r, rev_involutive. reflexivity.
Qed.

Lemma unify_idem x : unify (unify x) = unify x.
Proof. apply unify_fixed, alternating_unify. Qed.

(* ---------- arithmetic (C09) ---------- *)
Lemma mk_irreps_ok (x : irreps) : mk_irreps (map (fun '(m, ir) => (Z.of_nat m, ir)) x) = Ok x.
Proof.
  unfold mk_irreps. induction x as [|[m ir] x IH]; [reflexivity|]. cbn [map mapM].
  destruct (Z.leb_spec 0 (Z.of_nat m)); [|lia]. rewrite IH, Nat2Z.id. reflexivity.
Qed.

Lemma mul_int_ok x n : mul_int x (Z.of_nat n) = Ok (map (fun '(m, ir) => (m * n, ir)) x).
Proof.
  unfold mul_int. rewrite <- (mk_irreps_ok (map _ x)). f_equal. rewrite map_map.
  apply map_ext. intros [m ir]. rewrite Nat2Z.inj_mul. reflexivity.
Qed.

Lemma mul_int_neg x n : (n < 0)%Z -> is_ok (mul_int x n) = forallb (fun m => fst m =? 0) x.
Proof.
  intros Hn. unfold mul_int, mk_irreps. induction x as [|[m ir] x IH]; [reflexivity|].
  cbn [map mapM forallb fst]. destruct m as [|m].
  - cbn [Z.of_nat Z.mul Z.leb Z.compare Nat.eqb andb]. rewrite <- IH.
    destruct (mapM _ _); reflexivity.
  - destruct (Z.leb_spec 0 (Z.of_nat (S m) * n)); [nia|]. reflexivity.
Qed.

Lemma count_scale ir x n : count ir (map (fun '(m, a) => (m * n, a)) x) = count ir x * n.
Proof.
  induction x as [|[m a] x IH]; [reflexivity|]. cbn [map]. rewrite !count_cons, IH.
  destruct (irrep_eqb ir a); nia.
Qed.

Lemma dim_scale x n : dim (map (fun '(m, a) => (m * n, a)) x) = dim x * n.
Proof.
  induction x as [|[m a] x IH]; [reflexivity|]. cbn [map]. rewrite !dim_cons, IH. unfold mi_dim; simpl. nia.
Qed.

Lemma num_irreps_cons m a x : num_irreps ((m, a) :: x) = m + num_irreps x.
Proof. reflexivity. Qed.

Lemma num_irreps_scale x n : num_irreps (map (fun '(m, a) => (m * n, a)) x) = num_irreps x * n.
Proof.
  induction x as [|[m a] x IH]; [reflexivity|]. cbn [map]. rewrite !num_irreps_cons, IH. nia.
Qed.

Lemma flat_repeat_irreps x n : flat (repeat_irreps x n) = concat (repeat (flat x) n).
Proof. induction n as [|n IH]; [reflexivity|]. cbn [repeat_irreps repeat concat]. rewrite flat_app, IH. reflexivity. Qed.

Lemma mul_gcd_fold l d k : Nat.divide k (fold_left Nat.gcd l d) <-> Nat.divide k d /\ Forall (fun m => Nat.divide k m) l.
Proof.
  revert d. induction l as [|a l IH]; intros d; cbn [fold_left].
  - split; [auto|intros [? _]; assumption].
  - rewrite IH. split.
    + intros [H1 H2]. pose proof (Nat.gcd_divide_l d a). pose proof (Nat.gcd_divide_r d a).
      split; [etransitivity; eauto|constructor; [etransitivity; eauto|assumption]].
    + intros [H1 H2]. inversion_clear H2. split; [apply Nat.gcd_greatest; assumption|assumption].
Qed.

Lemma mul_gcd_spec x k : Nat.divide k (mul_gcd x) <-> forall m, In m x -> Nat.divide k (fst m).
Proof.
  unfold mul_gcd. rewrite mul_gcd_fold, Forall_map, Forall_forall. split.
  - intros [_ H]. exact H.
  - intros H. split; [apply Nat.divide_0_r|exact H].
Qed.

Lemma floordiv_exact x n : 0 < n -> (forall m, In m x -> Nat.divide n (fst m)) ->
  exists y, floordiv x (Z.of_nat n) = Ok y /\ map (fun '(m, ir) => (m * n, ir)) y = x.
Proof.
  intros Hn H. exists (map (fun '(m, ir) => (m / n, ir)) x). split.
  - unfold floordiv.
    assert (E : mapM (fun '(mul, ir) => if (Z.of_nat n =? 0)%Z then Err ZeroDivisionError else Ok ((Z.of_nat mul / Z.of_nat n)%Z, ir)) x
            = Ok (map (fun '(m, ir) => (Z.of_nat m, ir)) (map (fun '(m, ir) => (m / n, ir)) x))).
    { clear H. induction x as [|[m ir] x IH]; [reflexivity|]. cbn [mapM map].
      destruct (Z.eqb_spec (Z.of_nat n) 0); [lia|]. rewrite IH, <- Nat2Z.inj_div. reflexivity. }
    rewrite E. cbn [bind]. apply mk_irreps_ok.
  - rewrite map_map. rewrite <- (map_id x) at 2. apply map_ext_in. intros [m ir] Hin.
    apply H in Hin. cbn [fst] in Hin. destruct Hin as [k ->]. rewrite Nat.div_mul by lia. reflexivity.
Qed.

Lemma fold_max_spec l a : In (fold_left Nat.max l a) (a :: l) /\ (forall b, In b (a :: l) -> b <= fold_left Nat.max l a).
Proof.
  revert a. induction l as [|c l IH]; intros a; cbn [fold_left].
  - split; [left; reflexivity|]. intros b [->|[]]; lia.
  - destruct (IH (Nat.max a c)) as [H1 H2]. split.
    + destruct H1 as [H1|H1]; [|right; right; exact H1].
      rewrite <- H1. destruct (Nat.max_spec a c) as [[_ ->]|[_ ->]]; [right; left|left]; reflexivity.
    + intros b [->|[->|Hb]].
      * transitivity (Nat.max b c); [lia|]. apply H2. left; reflexivity.
      * transitivity (Nat.max a b); [lia|]. apply H2. left; reflexivity.
      * apply H2. right; assumption.
Qed.

Lemma lmax_ok x L : lmax x = Ok L ->
  (exists ir, In ir (flat x) /\ ir_l ir = L) /\ (forall ir, In ir (flat x) -> ir_l ir <= L).
Proof.
  unfold lmax. rewrite ls_flat. destruct x as [|m x0] eqn:Ex; [discriminate|].
  replace (length (m :: x0) =? 0) with false by reflexivity. rewrite <- Ex.
  destruct (map ir_l (flat x)) as [|a l] eqn:E; [discriminate|]. intros [= <-].
  destruct (fold_max_spec l a) as [H1 H2]. rewrite <- E in *. split.
  - apply in_map_iff in H1. destruct H1 as (ir & H & Hin). eauto.
  - intros ir Hin. apply H2. apply in_map. assumption.
Qed.

Lemma lmax_err x : (exists e, lmax x = Err e) <-> flat x = [].
Proof.
  unfold lmax. rewrite ls_flat. destruct x as [|m x0] eqn:Ex.
  - simpl. split; [reflexivity|]. eauto.
  - replace (length (m :: x0) =? 0) with false by reflexivity. rewrite <- Ex.
    destruct (flat x) as [|f fl]; cbn [map]; split; intros H; [reflexivity|eauto| |discriminate].
    destruct H as [? H]; discriminate.
Qed.
