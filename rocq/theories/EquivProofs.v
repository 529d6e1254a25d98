(* Structural operations commute with the group action. *)
From Coq Require Import Reals Lra.
From Verif Require Import PyBase PermModel PermProofs IrrepsModel IrrepsProofs IrrepsProofs2 ArrayModel ArrayProofs ArrayOps RechunkProofs SliceProofs SliceProofs2 ArithProofs LeadModel LeadProofs BlockProofs AxisProofs StackProofs BilinProofs ActProofs.
Open Scope nat_scope.

(* both calls succeed, with the same irreps, leading shape and array *)
Definition agree (r1 r2 : res iarray) : Prop := exists x s a, yields r1 x s a /\ yields r2 x s a.

Lemma yields_bind (r : res iarray) x s a (k : iarray -> res iarray) x' s' a' : yields r x s a ->
  (forall y, r = Ok y -> irr y = x -> lead y = s -> coherent y -> (forall i, valid s i -> arr y i = a i) -> yields (k y) x' s' a') -> yields (let! y := r in k y) x' s' a'.
Proof. intros (y & -> & E1 & E2 & H & E) Hk. apply Hk; auto. Qed.

Section Commute.
Variables (D : rep) (op : iarray -> res iarray) (x : iarray) (x' : irreps) (s' : shape) (T : (idx -> list R) -> idx -> list R).
Hypothesis HD : rep_ok D.
Hypothesis Hx : coherent x.
Hypothesis Hop : forall y, coherent y -> irr y = irr x -> lead y = lead x -> zero_flags y = zero_flags x -> yields (op y) x' s' (T (arr y)).
Hypothesis T_ext : forall a b i, valid s' i -> (forall j, valid (lead x) j -> a j = b j) -> T a i = T b i.
Hypothesis T_act : forall a i, valid s' i -> (forall j, valid (lead x) j -> length (a j) = dim (irr x)) ->
  act D x' (T a i) = T (fun j => act D (irr x) (a j)) i.
Lemma commute : agree (let! y := op x in transform D y) (let! y := transform D x in op y).
Proof.
  exists x', s', (fun i => T (fun j => act D (irr x) (arr x j)) i). split.
  - apply (yields_bind _ _ _ _ (transform D) _ _ _ (Hop x Hx eq_refl eq_refl eq_refl)). intros y _ E1 E2 H E.
    rewrite <- E1, <- E2. eapply yields_ext; [|apply (transform_act D y H HD)]. intros i Hi. cbv beta. rewrite E2 in Hi. rewrite E1, E by exact Hi. apply T_act; [exact Hi|apply Hx].
  - apply (yields_bind _ _ _ _ op _ _ _ (transform_act D x Hx HD)). intros y Ey E1 E2 H E.
    eapply yields_ext; [|apply (Hop y H E1 E2 (transform_flags D x y Hx Ey))]. intros i Hi. cbv beta. apply T_ext; [exact Hi|]. exact E.
Qed.
End Commute.

Ltac trivial_ext := let u := fresh in let v := fresh in let i := fresh in let Hi := fresh in let E := fresh in intros u v i Hi E; cbv beta; try (rewrite E by assumption; reflexivity).

(* ---------- rechunk, simplify, unify ---------- *)
Lemma rechunk_commutes D x target : rep_ok D -> coherent x -> simplify (irr x) = simplify target ->
  agree (let! y := rechunk x target in transform D y) (let! y := transform D x in rechunk y target).
Proof.
  intros HD H E. apply (commute D (fun y => rechunk y target) x target (lead x) (fun a => a)); auto.
  - intros y Hy E1 E2 _. rewrite <- E2. apply rechunk_yields; [exact Hy|]. congruence.
  - intros a i _ _. apply act_flat. symmetry. apply simplify_iff, E.
Qed.
Lemma simplify_commutes D x : rep_ok D -> coherent x -> agree (let! y := ia_simplify x in transform D y) (let! y := transform D x in ia_simplify y).
Proof.
  intros HD H. apply (commute D ia_simplify x (simplify (irr x)) (lead x) (fun a => a)); auto.
  - intros y Hy E1 E2 _. rewrite <- E1, <- E2. apply ia_simplify_yields, Hy.
  - intros a i _ _. apply act_flat, flat_simplify.
Qed.
Lemma unify_commutes D x : rep_ok D -> coherent x -> agree (let! y := ia_unify x in transform D y) (let! y := transform D x in ia_unify y).
Proof.
  intros HD H. apply (commute D ia_unify x (unify (irr x)) (lead x) (fun a => a)); auto.
  - intros y Hy E1 E2 _. rewrite <- E1, <- E2. apply ia_unify_yields, Hy.
  - intros a i _ _. apply act_flat, flat_unify.
Qed.

(* ---------- sort, regroup ---------- *)
Lemma nth_map2 {A B C} (f : A -> B -> C) l l' k da db dc : k < length l -> length l = length l' -> nth k (map2 f l l') dc = f (nth k l da) (nth k l' db).
Proof.
  revert l' k. induction l as [|a l IH]; intros [|b l'] k Hk L; cbn [length] in *; try lia. rewrite map2_cons. destruct k; [reflexivity|]. cbn [nth]. apply (IH l' k); lia.
Qed.
Lemma sort_irreps_map x : sort_irreps x = map (fun k => nth k x dflt) (sort_inv_list x).
Proof.
  apply (nth_ext _ _ dflt dflt).
  - rewrite map_length, sort_inv_length. unfold sort_irreps. rewrite map_length. apply sorted_entries_length.
  - intros n Hn. assert (Hn' : n < length x). { revert Hn. unfold sort_irreps. rewrite map_length, sorted_entries_length. auto. }
    rewrite sort_irreps_nth by exact Hn'. symmetry. rewrite (nth_indep _ dflt (nth 0 x dflt)) by (rewrite map_length, sort_inv_length; exact Hn').
    rewrite (map_nth (fun k => nth k x dflt)). reflexivity.
Qed.
Lemma permuted_act D x row : rep_ok D -> length row = dim x ->
  act D (sort_irreps x) (concat (map (fun k => nth k (blocks x row) []) (sort_inv_list x))) = concat (map (fun k => nth k (blocks x (act D x row)) []) (sort_inv_list x)).
Proof.
  intros HD L. assert (B : forall k, In k (sort_inv_list x) -> k < length x).
  { intros k Hk. pose proof (sort_inv_perm x) as P. apply is_perm_iff in P. rewrite sort_inv_length in P. apply (Permutation.Permutation_in _ P) in Hk. apply in_seq in Hk. lia. }
  rewrite sort_irreps_map, act_concat.
  - f_equal. rewrite blocks_act by exact HD. unfold map2. rewrite combine_of_map, map_map. apply map_ext_in. intros k Hk. specialize (B k Hk).
    symmetry. apply (nth_map2 (act1 D)); [exact B|]. rewrite blocks_length. reflexivity.
  - revert B. generalize (sort_inv_list x). intros l B. induction l as [|k l IH]; [constructor|]. cbn [map]. constructor; [|apply IH; intros j Hj; apply B; right; exact Hj].
    assert (Hk : k < length x) by (apply B; left; reflexivity). pose proof (blocks_widths x row L) as W. revert Hk W. generalize (blocks x row) as bs. clear. revert k.
    induction x as [|m x IH]; intros k [|b bs] Hk W; cbn [length] in Hk; try lia; inversion W; subst. destruct k; cbn [nth]; [assumption|]. apply IH; [lia|assumption].
Qed.
Lemma sort_commutes D x : rep_ok D -> coherent x -> agree (let! y := ia_sort x in transform D y) (let! y := transform D x in ia_sort y).
Proof.
  intros HD H. apply (commute D ia_sort x (sort_irreps (irr x)) (lead x) (fun a i => concat (map (fun k => nth k (blocks (irr x) (a i)) []) (sort_inv_list (irr x))))); auto.
  - intros y Hy E1 E2 _. rewrite <- E1, <- E2. apply sort_yields, Hy.
  - trivial_ext.
  - intros a i Hi La. apply permuted_act; [exact HD|apply La, Hi].
Qed.
Lemma regroup_commutes D x : rep_ok D -> coherent x -> agree (let! y := ia_regroup x in transform D y) (let! y := transform D x in ia_regroup y).
Proof.
  intros HD H. apply (commute D ia_regroup x (regroup_irreps (irr x)) (lead x) (fun a i => concat (map (fun k => nth k (blocks (irr x) (a i)) []) (sort_inv_list (irr x))))); auto.
  - intros y Hy E1 E2 _. rewrite <- E1, <- E2. apply ia_regroup_yields, Hy.
  - trivial_ext.
  - intros a i Hi La. rewrite <- permuted_act by (auto; apply La, Hi). apply act_flat. unfold regroup_irreps. apply flat_simplify.
Qed.

(* ---------- selections of entries ---------- *)
Lemma select_Forall2 {A B} (P : A -> B -> Prop) sel : forall l l', Forall2 P l l' -> Forall2 P (select sel l) (select sel l').
Proof.
  induction sel as [|b sel IH]; intros l l' H; [destruct H; constructor|]. destruct H; [destruct b; constructor|]. destruct b; cbn [select]; [constructor; auto|auto].
Qed.
Lemma select_map2 {A B C} (f : A -> B -> C) sel : forall l l', length l = length l' -> select sel (map2 f l l') = map2 f (select sel l) (select sel l').
Proof.
  induction sel as [|b sel IH]; intros [|a l] [|c l'] L; try discriminate; try reflexivity; try (destruct b; reflexivity).
  rewrite map2_cons. destruct b; cbn [select]; rewrite IH by (injection L; auto); reflexivity.
Qed.
Lemma select_act D x sel row : rep_ok D -> length row = dim x -> act D (select sel x) (concat (select sel (blocks x row))) = concat (select sel (blocks x (act D x row))).
Proof.
  intros HD L. rewrite act_concat by (apply select_Forall2, blocks_widths, L). rewrite blocks_act by exact HD. rewrite select_map2 by (rewrite blocks_length; reflexivity). reflexivity.
Qed.
Lemma remove_zero_chunks_commutes D x : rep_ok D -> coherent x -> agree (let! y := remove_zero_chunks x in transform D y) (let! y := transform D x in remove_zero_chunks y).
Proof.
  intros HD H. apply (commute D remove_zero_chunks x (select (map negb (zero_flags x)) (irr x)) (lead x) (fun a i => concat (select (map negb (zero_flags x)) (blocks (irr x) (a i))))); auto.
  - intros y Hy E1 E2 E3. rewrite <- E1, <- E2, <- E3. apply remove_zero_chunks_yields, Hy.
  - trivial_ext.
  - intros a i Hi La. apply select_act; [exact HD|apply La, Hi].
Qed.
Lemma filter_commutes D x keep drop lm new : rep_ok D -> coherent x -> (keep, drop, lm) <> (None, None, None) ->
  filter_irreps (irr x) keep drop lm = Ok new ->
  (forall m n, In m (irr x) -> In n (irr x) -> snd m = snd n -> wants keep drop lm m = wants keep drop lm n) ->
  agree (let! y := ia_filter x keep drop lm in transform D y) (let! y := transform D x in ia_filter y keep drop lm).
Proof.
  intros HD H Hn Ek Hw. pose proof (filter_irreps_wants _ _ _ _ _ Ek) as En.
  apply (commute D (fun y => ia_filter y keep drop lm) x new (lead x) (fun a i => concat (select (map (wants keep drop lm) (irr x)) (blocks (irr x) (a i))))); auto.
  - intros y Hy E1 E2 E3. rewrite <- E1 in *. rewrite <- E2. apply (filter_yields y keep drop lm new Hy Hn Ek Hw).
  - trivial_ext.
  - intros a i Hi La. rewrite <- select_act by (auto; apply La, Hi). rewrite select_filter, En. reflexivity.
Qed.
Lemma list_slice_map2 {A B C} (f : A -> B -> C) l l' a b : length l = length l' -> list_slice (map2 f l l') a b = map2 f (list_slice l a b) (list_slice l' a b).
Proof.
  intros L. unfold list_slice, map2. rewrite skipn_map, firstn_map, combine_skipn. f_equal.
  generalize (skipn a l) (skipn a l'). clear. intros u v. generalize (b - a). clear. intros n. revert u v. induction n as [|n IH]; intros u v; [reflexivity|].
  destruct u, v; cbn [combine firstn]; try reflexivity; try (destruct n; reflexivity). rewrite IH. reflexivity.
Qed.
Lemma Forall2_list_slice {A B} (P : A -> B -> Prop) l l' a b : Forall2 P l l' -> Forall2 P (list_slice l a b) (list_slice l' a b).
Proof. intros H. unfold list_slice. apply Forall2_firstn, Forall2_skipn, H. Qed.
Lemma slice_by_mul_commutes D x sl a b : rep_ok D -> coherent x ->
  slice_indices sl (num_irreps (irr x)) = Ok (Z.of_nat a, Z.of_nat b, 1%Z) -> a <= b -> ~ cuts_zero_chunk x a b ->
  agree (let! y := ia_slice_by_mul x sl in transform D y) (let! y := transform D x in ia_slice_by_mul y sl).
Proof.
  intros HD H Es Hab Hc. destruct (slice_by_mul_yields x sl a b H Es Hab Hc) as (new & En & _).
  assert (Fn : flat new = list_slice (flat (irr x)) a b).
  { destruct (slice_by_mul_spec (irr x) sl (Z.of_nat a) (Z.of_nat b) Es ltac:(lia)) as (r & Er & Et). rewrite En in Er. injection Er as <-.
    rewrite <- flat_length in Es. rewrite (tuple_slice_1 _ _ _ _ Es) in Et. injection Et as <-. rewrite !Nat2Z.id. reflexivity. }
  apply (commute D (fun y => ia_slice_by_mul y sl) x new (lead x) (fun a' i => concat (list_slice (instances (irr x) (a' i)) a b))); auto.
  - intros y Hy E1 E2 E3. rewrite <- E1 in Es. assert (Hc' : ~ cuts_zero_chunk y a b).
    { intros (n & m & N1 & N2 & N3). apply Hc. exists n, m. rewrite <- E1. split; [exact N1|]. split; [|exact N3].
      assert (Ef : map is_none (chunks y) = map is_none (chunks x)) by (rewrite <- !chunks_flags by assumption; exact E3).
      assert (Q : nth_error (map is_none (chunks x)) n = Some true) by (rewrite <- Ef, nth_error_map, N2; reflexivity).
      rewrite nth_error_map in Q. destruct (nth_error (chunks x) n) as [[c|]|]; try discriminate. reflexivity. }
    destruct (slice_by_mul_yields y sl a b Hy Es Hab Hc') as (new' & En' & Y). rewrite E1, En in En'. injection En' as <-. rewrite <- E2, <- E1. exact Y.
  - trivial_ext.
  - intros a' i Hi La. rewrite !instances_cut. unfold act. rewrite cut_acts by exact HD. rewrite Fn.
    assert (W : Forall2 (fun ir r => length r = ir_dim ir) (flat (irr x)) (cut (flat (irr x)) (a' i))) by (apply cut_widths; rewrite La by exact Hi; symmetry; apply dims_flat).
    rewrite acts_concat by (apply Forall2_list_slice, W). rewrite list_slice_map2 by (rewrite cut_length; reflexivity). reflexivity.
Qed.
