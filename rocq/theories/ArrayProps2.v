(* C18, C19, C21, C22, C51, C56: selecting, reshaping, arithmetic and updating IrrepsArray.  Vocabulary: see ArrayProps.v.
   [instances x row] cuts the row into the individual irreps: one list of 2l+1 numbers per copy. *)
From Coq Require Import Reals Lra Permutation.
From Verif Require Import PyBase PermModel PermProofs IrrepsModel IrrepsProofs IrrepsProofs2 ArrayModel ArrayProofs ArrayOps RechunkProofs SliceProofs SliceProofs2 ArithProofs LeadModel LeadProofs BlockProofs AxisProofs StackProofs BilinProofs ActProofs EquivProofs HistoryProofs FlagProofs ArrayProps.
Open Scope nat_scope.

Ltac coh := split; [reflexivity|]; split; [first [apply flags_false | cbn; repeat split; reflexivity]|exact I].

(* ---------- C18 ---------- *)
Lemma nth_firstn_lt {A} (d : A) : forall k n l, k < n -> nth k (firstn n l) d = nth k l d.
Proof. induction k as [|k IH]; intros [|n] [|a l] H; try lia; try reflexivity. cbn. apply IH. lia. Qed.
Lemma nth_skipn' {A} (d : A) : forall n k l, nth k (skipn n l) d = nth (n + k) l d.
Proof. induction n as [|n IH]; intros k [|a l]; try reflexivity; [destruct k; reflexivity|]. cbn. apply IH. Qed.
Lemma select_seq {A} (f : nat -> A) : forall sel k0 (v : list A), length v = length sel -> (forall k, k < length v -> nth_error v k = Some (f (k0 + k))) ->
  select sel v = map f (filter (fun k => nth (k - k0) sel false) (seq k0 (length v))).
Proof.
  induction sel as [|b sel IH]; intros k0 [|a v] L Q; try discriminate; [reflexivity|]. cbn [length seq filter select map]. rewrite Nat.sub_diag. change (nth 0 (b :: sel) false) with b.
  assert (T : select sel v = map f (filter (fun k => nth (k - k0) (b :: sel) false) (seq (S k0) (length v)))).
  { rewrite (IH (S k0) v); [|cbn in L; lia|]. 2: { intros k Hk. replace (S k0 + k) with (k0 + S k) by lia. apply (Q (S k)). cbn. lia. }
    f_equal. apply filter_ext_in. intros k Hk. apply in_seq in Hk. replace (k - k0) with (S (k - S k0)) by lia. reflexivity. }
  destruct b; [|exact T]. cbn [map]. rewrite <- T. f_equal. pose proof (Q 0 ltac:(cbn; lia)) as Q0. cbn in Q0. rewrite Nat.add_0_r in Q0. congruence.
Qed.
(* filter(keep=..) / filter(drop=..) / filter(lmax=..): the positions whose entry is wanted, in order *)
Theorem C18_filter x keep drop lm new : coherent x -> (keep, drop, lm) <> (None, None, None) ->
  filter_irreps (irr x) keep drop lm = Ok new ->
  (forall m n, In m (irr x) -> In n (irr x) -> snd m = snd n -> wants keep drop lm m = wants keep drop lm n) ->
  let kept := filter (fun k => wants keep drop lm (nth k (irr x) dflt)) (seq 0 (length (irr x))) in
  new = map (fun k => nth k (irr x) dflt) kept /\
  yields (ia_filter x keep drop lm) new (lead x) (fun i => concat (map (fun k => features (irr x) k (arr x i)) kept)).
Proof.
  intros H Hn E Hw kept.
  assert (K : kept = filter (fun k => nth (k - 0) (map (wants keep drop lm) (irr x)) false) (seq 0 (length (irr x)))).
  { apply filter_ext_in. intros k Hk. apply in_seq in Hk. rewrite Nat.sub_0_r. rewrite (nth_indep _ false (wants keep drop lm dflt)) by (rewrite map_length; lia). rewrite map_nth. reflexivity. }
  split.
  - rewrite (filter_irreps_wants _ _ _ _ _ E), <- select_filter, K. apply (select_seq (fun k => nth k (irr x) dflt)); [rewrite map_length; reflexivity|]. intros k Hk. apply nth_error_nth', Hk.
  - eapply yields_ext; [|apply (filter_yields x keep drop lm new H Hn E Hw)]. intros i Hi. cbv beta. f_equal.
    assert (Lb : length (blocks (irr x) (arr x i)) = length (irr x)) by (clear; generalize (arr x i); induction (irr x); intros; cbn; auto).
    rewrite (select_seq (fun k => features (irr x) k (arr x i)) _ 0); [rewrite Lb, K; reflexivity|rewrite map_length; exact Lb|].
    intros k Hk. cbn [Nat.add]. rewrite features_blocks by lia. apply nth_error_nth', Hk.
Qed.
(* a list of irreps or a bound on l always qualifies *)
Theorem C18_filter_by_irrep_qualifies keep drop lm x : (forall f, keep <> Some (ByFun f)) -> (forall f, drop <> Some (ByFun f)) ->
  forall m n, In m x -> In n x -> snd m = snd n -> wants keep drop lm m = wants keep drop lm n.
Proof.
  intros Hk Hd m n _ _ E. unfold wants. destruct keep as [[l|f]|]; [|destruct (Hk f eq_refl)|]; (destruct drop as [[l'|f']|]; [|destruct (Hd f' eq_refl)|]); destruct lm; unfold selects; rewrite ?E; reflexivity.
Qed.
(* a callable that looks at the multiplicity can make filter raise *)
Theorem C18_filter_callable_refuted : exists x f, coherent x /\ is_ok (filter_irreps (irr x) (Some (ByFun f)) None None) = true /\ ia_filter x (Some (ByFun f)) None None = Err ValueError.
Proof.
  exists (IA [(2, Irrep 0 Even); (1, Irrep 0 Even)] [] (fun _ => [1; 2; 3]%R) None None), (fun m => 1 <? fst m). split; [coh|]. split; reflexivity.
Qed.
(* x.slice_by_mul[a:b]: the copies a .. b-1 *)
Theorem C18_slice_by_mul x sl a b : coherent x -> slice_indices sl (num_irreps (irr x)) = Ok (Z.of_nat a, Z.of_nat b, 1%Z) -> a <= b -> ~ cuts_zero_chunk x a b ->
  exists new, slice_by_mul (irr x) sl = Ok new /\ flat new = list_slice (flat (irr x)) a b /\
    yields (ia_slice_by_mul x sl) new (lead x) (fun i => concat (list_slice (instances (irr x) (arr x i)) a b)).
Proof.
  intros H E Hab Hc. destruct (slice_by_mul_yields x sl a b H E Hab Hc) as (new & En & Y). exists new. split; [exact En|]. split; [|exact Y].
  destruct (slice_by_mul_spec (irr x) sl _ _ E) as (r & Er & Ef); [lia|]. rewrite En in Er. injection Er as <-.
  rewrite (tuple_slice_1 _ _ (Z.of_nat a) (Z.of_nat b)) in Ef by (rewrite flat_length; exact E). injection Ef as <-. rewrite !Nat2Z.id. reflexivity.
Qed.
Theorem C18_slice_by_mul_zero_chunk_refuted x sl a b : coherent x -> slice_indices sl (num_irreps (irr x)) = Ok (Z.of_nat a, Z.of_nat b, 1%Z) -> a <= b -> cuts_zero_chunk x a b -> ia_slice_by_mul x sl = Err TypeError.
Proof. exact (slice_by_mul_cut x sl a b). Qed.
(* x[..., "irreps"]: accepted exactly when the irreps occur at one place, and returns the features there *)
Theorem C18_getitem_irreps x target k : coherent x -> match_positions (irr x) target = [k] ->
  list_slice (irr x) k (k + length target) = target /\
  yields (ia_getitem_irreps x target) target (lead x) (fun i => concat (map (fun j => features (irr x) j (arr x i)) (seq k (length target)))).
Proof.
  intros H E. assert (Hk : list_slice (irr x) k (k + length target) = target /\ k < length (irr x)).
  { assert (I : In k (match_positions (irr x) target)) by (rewrite E; left; reflexivity). apply filter_In in I as [I1 I2]. apply in_seq in I1. apply irreps_eqb_eq in I2. split; [exact I2|lia]. }
  destruct Hk as [Hk Hl]. split; [exact Hk|]. eapply yields_ext; [|apply (getitem_irreps_yields x target k H E)]. intros i Hi. cbv beta.
  assert (Hlen : k + length target <= length (irr x)). { apply (f_equal (@length mulirrep)) in Hk. rewrite list_slice_length in Hk. lia. }
  transitivity (concat (list_slice (blocks (irr x) (arr x i)) k (k + length target))).
  - rewrite blocks_list_slice by lia. symmetry. apply concat_blocks. rewrite list_slice_length, dim_list_slice by lia. pose proof H as (L & _). rewrite L by exact Hi. pose proof (dim_firstn_le (irr x) (k + length target)). lia.
  - f_equal. assert (Lb : length (blocks (irr x) (arr x i)) = length (irr x)) by (clear; generalize (arr x i); induction (irr x); intros; cbn; auto).
    apply nth_ext with (d := []) (d' := []); [rewrite list_slice_length, map_length, seq_length; lia|]. intros n Hn. rewrite list_slice_length in Hn.
    rewrite nth_map_lt by (rewrite seq_length; lia). rewrite seq_nth by lia. rewrite features_blocks by lia. unfold list_slice. rewrite nth_firstn_lt, nth_skipn' by lia. reflexivity.
Qed.
Theorem C18_getitem_irreps_rejects x target : length (match_positions (irr x) target) <> 1 -> is_ok (ia_getitem_irreps x target) = false.
Proof. intros H. unfold ia_getitem_irreps. destruct (match_positions (irr x) target) as [|a [|b l]]; [reflexivity|cbn in H; lia|reflexivity]. Qed.
(* x[..., a:b]: accepted exactly when a <= b fall between individual irreps; the features are array[..., a:b] *)
Theorem C18_getitem_slice x u v a b : coherent x -> slice_indices (Slice u v None) (dim (irr x)) = Ok (Z.of_nat a, Z.of_nat b, 1%Z) ->
  (exists y p q, ia_getslice x (Slice u v None) = Some (Ok y) /\ p <= q <= num_irreps (irr x) /\
     a = sum (map ir_dim (firstn p (flat (irr x)))) /\ b = sum (map ir_dim (firstn q (flat (irr x)))) /\
     flat (irr y) = list_slice (flat (irr x)) p q /\ lead y = lead x /\ coherent y /\ forall i, valid (lead x) i -> arr y i = list_slice (arr x i) a b) \/
  (exists e, ia_getslice x (Slice u v None) = Some (Err e) /\
     ~ exists p q, p <= q <= num_irreps (irr x) /\ a = sum (map ir_dim (firstn p (flat (irr x)))) /\ b = sum (map ir_dim (firstn q (flat (irr x))))).
Proof.
  intros H E. unfold ia_getslice. rewrite E, !Nat2Z.id. assert (Hb : b <= dim (irr x)). { pose proof (slice_indices_bounds _ _ _ _ _ E ltac:(lia)). lia. }
  destruct (getslice_spec a b 4 x H) as [(y & Ey & H1 & H2 & H3 & H4 & H5 & (p & q & Hpq & Ef & Ea & Eb) & H6)|(e & Ee & N)]; [|exact Hb| |].
  - destruct (boundaryb (irr x) a), (boundaryb (irr x) b); cbn; lia.
  - left. exists y, p, q. split; [exact Ey|]. split; [exact Hpq|]. split; [exact Ea|]. split; [exact Eb|]. split; [exact Ef|]. split; [exact H5|]. split; [exact H4|exact H6].
  - right. exists e. split; [exact Ee|]. intros (p & q & Hpq & Ea & Eb). apply N. split; [|split].
    + subst. rewrite <- (firstn_skipn p (firstn q (flat (irr x)))), firstn_firstn, Nat.min_l by lia. rewrite map_app, sum_app. lia.
    + exists p. split; [lia|exact Ea].
    + exists q. split; [lia|exact Eb].
Qed.
(* x.slice_by_chunk[sl] with a positive step: Python's tuple slice of the entries *)
Lemma resolved_positive sl n a b st : slice_indices sl n = Ok (a, b, st) -> (0 < st)%Z -> slice_indices (Slice (Some a) (Some b) (Some st)) n = Ok (a, b, st).
Proof.
  intros E Hst. pose proof (slice_indices_bounds _ _ _ _ _ E Hst) as [Ha Hb]. unfold slice_indices. cbn [s_start s_stop s_step].
  destruct (Z.eqb_spec st 0); [lia|]. destruct (Z.ltb_spec 0 st); [|lia]. destruct (Z.ltb_spec a 0); [lia|]. destruct (Z.ltb_spec b 0); [lia|]. rewrite !Z.min_l by lia. reflexivity.
Qed.
Theorem C18_slice_by_chunk x sl a b st new : coherent x -> slice_indices sl (length (irr x)) = Ok (a, b, st) -> (0 < st)%Z -> tuple_slice (irr x) sl = Ok new ->
  exists f, yields (ia_slice_by_chunk x sl) new (lead x) f /\
    forall i, valid (lead x) i -> rmap (@concat R) (tuple_slice (map (fun k => features (irr x) k (arr x i)) (seq 0 (length (irr x)))) sl) = Ok (f i).
Proof.
  intros H E Hst En. assert (Q : forall A (l : list A), length l = length (irr x) -> tuple_slice l (Slice (Some a) (Some b) (Some st)) = tuple_slice l sl).
  { intros A l L. unfold tuple_slice. rewrite L, E, (resolved_positive _ _ _ _ _ E Hst). reflexivity. }
  destruct (slice_by_chunk_yields x sl (Slice (Some a) (Some b) (Some st)) new H) as (f & Y & F).
  - unfold resolved. rewrite E. reflexivity.
  - rewrite Q by reflexivity. exact En.
  - exists f. split; [exact Y|]. intros i Hi. rewrite <- F, Q by (auto; apply blocks_length). f_equal. f_equal.
    apply nth_ext with (d := []) (d' := []); [rewrite map_length, seq_length, blocks_length; reflexivity|]. intros k Hk. rewrite map_length, seq_length in Hk.
    rewrite nth_map_lt by (rewrite seq_length; exact Hk). rewrite seq_nth, features_blocks by exact Hk. reflexivity.
Qed.
(* x.slice_by_chunk[::-1] is empty while x.irreps.slice_by_chunk[::-1] is the reversed Irreps *)
Theorem C18_slice_by_chunk_reversed_refuted : exists x y, coherent x /\ ia_slice_by_chunk x (Slice None None (Some (-1)%Z)) = Ok y /\ irr y = [] /\
  slice_by_chunk (irr x) (Slice None None (Some (-1)%Z)) = Ok [(1, Irrep 1 Odd); (2, Irrep 0 Even)].
Proof.
  exists (IA [(2, Irrep 0 Even); (1, Irrep 1 Odd)] [] (fun _ => [1; 2; 3; 4; 5]%R) None None). eexists. split; [coh|]. split; [reflexivity|]. split; reflexivity.
Qed.
Definition demo : iarray := IA [(2, Irrep 0 Even); (3, Irrep 1 Odd); (1, Irrep 0 Even)] [2] (fun _ => [1; 2; 3; 4; 5; 6; 7; 8; 9; 10; 11; 12]%R) None None.
Lemma demo_coherent : coherent demo. Proof. coh. Qed.
Example C18_nonvacuous :
  coherent demo /\
  (exists y, ia_filter demo (Some (ByIrreps [Irrep 0 Even])) None None = Ok y /\ arr y [0] = [1; 2; 12]%R) /\
  (exists y, ia_slice_by_mul demo (Slice (Some 1%Z) (Some 4%Z) None) = Ok y /\ irr y = [(1, Irrep 0 Even); (2, Irrep 1 Odd)] /\ arr y [1] = [2; 3; 4; 5; 6; 7; 8]%R) /\
  (exists y, ia_getslice demo (Slice (Some 1%Z) (Some 8%Z) None) = Some (Ok y) /\ irr y = [(1, Irrep 0 Even); (2, Irrep 1 Odd)] /\ arr y [1] = [2; 3; 4; 5; 6; 7; 8]%R) /\
  (exists e, ia_getslice demo (Slice (Some 1%Z) (Some 7%Z) None) = Some (Err e)) /\
  match_positions (irr demo) [(3, Irrep 1 Odd)] = [1].
Proof.
  split; [apply demo_coherent|]. repeat split; eexists; cbn; repeat split; reflexivity.
Qed.

(* ---------- C19 ---------- *)
Lemma features_blockwise {I} (G : mulirrep -> mulirrep) (V : mulirrep -> (I -> list R) -> list R) (Q : I -> Prop) : forall x a k,
  (forall j, Q j -> length (a j) = dim x) -> (forall m b, In m x -> (forall j, Q j -> length (b j) = mi_dim m) -> length (V m b) = mi_dim (G m)) ->
  (forall m b c, (forall j, b j = c j) -> V m b = V m c) -> k < length x ->
  features (map G x) k (blockwise V x a) = V (nth k x dflt) (fun j => features x k (a j)).
Proof.
  intros x a k L HV HE Hk. rewrite features_blocks by (rewrite map_length; exact Hk).
  transitivity (V (nth k x dflt) (fun j => nth k (blocks x (a j)) [])).
  2: { apply HE. intros j. rewrite features_blocks by exact Hk. reflexivity. }
  revert a k L Hk. induction x as [|m x IH]; intros a k L Hk; [cbn in Hk; lia|]. cbn [map blocks blockwise].
  assert (Lm : length (V m (fun j => firstn (mi_dim m) (a j))) = mi_dim (G m)).
  { apply HV; [left; reflexivity|]. intros j Hj. rewrite firstn_length, L by exact Hj. rewrite dim_cons. lia. }
  destruct k as [|k].
  - change (firstn (mi_dim (G m)) (V m (fun j => firstn (mi_dim m) (a j)) ++ blockwise V x (fun j => skipn (mi_dim m) (a j))) = V m (fun j => firstn (mi_dim m) (a j))).
    apply firstn_length_app, Lm.
  - change (nth k (blocks (map G x) (skipn (mi_dim (G m)) (V m (fun j => firstn (mi_dim m) (a j)) ++ blockwise V x (fun j => skipn (mi_dim m) (a j))))) [] = V (nth k x dflt) (fun j => nth k (blocks x (skipn (mi_dim m) (a j))) [])).
    rewrite skipn_length_app by exact Lm. apply (IH (fun m b Hm => HV m b (or_intror Hm))); [|cbn in Hk; lia].
    intros j Hj. rewrite skipn_length, L by exact Hj. rewrite dim_cons. lia.
Qed.
Lemma valid_snoc s n i : valid (s ++ [n]) i -> exists j f, i = j ++ [f] /\ valid s j /\ f < n.
Proof. intros Hi. apply valid_app_inv in Hi as (j & q & -> & Hj & Hq). inversion Hq as [|f ? q' ? Hfq Hq']; subst. inversion Hq'; subst. eauto. Qed.
Lemma divisible_parts mul factor f d : factor <> 0 -> mul mod factor = 0 -> f < factor -> Nat.min (mul / factor * d) (mul * d - f * (mul / factor * d)) = mul / factor * d.
Proof.
  intros Hf Hm Hlt. assert (Em : mul = factor * (mul / factor)) by (apply Nat.div_exact; assumption).
  assert (Es : mul * d = f * (mul / factor * d) + (mul / factor * d + (factor - f - 1) * (mul / factor * d))).
  { rewrite Em at 1. set (q := mul / factor). replace factor with (f + (1 + (factor - f - 1))) at 1 by lia. ring. }
  rewrite Es. generalize (f * (mul / factor * d)) ((factor - f - 1) * (mul / factor * d)) (mul / factor * d). clear. intros u v w. lia.
Qed.
(* x.mul_to_axis(factor): position f of the new axis holds copies f*m .. f*m + m - 1 of each entry, m = mul / factor *)
Theorem C19_mul_to_axis x factor : coherent x -> factor <> 0 -> Forall (fun m => fst m mod factor = 0) (irr x) ->
  exists rows, yields (mul_to_axis x (Some factor) (-2)) (map (fun '(mul, ir) => (mul / factor, ir)) (irr x)) (lead x ++ [factor]) rows /\
    forall i f k mul ir, valid (lead x) i -> f < factor -> nth_error (irr x) k = Some (mul, ir) ->
      features (map (fun '(mul, ir) => (mul / factor, ir)) (irr x)) k (rows (i ++ [f])) =
      list_slice (features (irr x) k (arr x i)) (f * (mul / factor * ir_dim ir)) (f * (mul / factor * ir_dim ir) + mul / factor * ir_dim ir).
Proof.
  intros H Hf Hd. eexists. split; [apply mul_to_axis_yields; assumption|]. intros i f k mul ir Hi Hlt Ek. cbv beta.
  rewrite (features_blockwise (fun '(mul, ir) => (mul / factor, ir)) (fun m => V_split factor m (i ++ [f])) (valid (lead x))).
  - rewrite (nth_error_nth _ _ dflt Ek). unfold V_split, part, list_slice. cbn [fst snd]. rewrite last_app1, removelast_app1. f_equal. symmetry. rewrite Nat.add_comm. apply Nat.add_sub.
  - apply H.
  - intros [m j] b Hm Lb. rewrite Forall_forall in Hd. specialize (Hd _ Hm). cbn [fst] in Hd. unfold V_split, part. cbn [fst snd]. rewrite last_app1, removelast_app1, firstn_length, skipn_length, Lb by exact Hi.
    unfold mi_dim. cbn [fst snd]. apply divisible_parts; assumption.
  - intros m b c E. unfold V_split. rewrite E. reflexivity.
  - apply nth_error_Some. congruence.
Qed.
(* x.axis_to_mul(): the copies of the positions of the axis one after the other *)
Theorem C19_axis_to_mul x s n : coherent x -> lead x = s ++ [n] ->
  exists rows, yields (axis_to_mul x (-2)) (map (fun '(mul, ir) => (n * mul, ir)) (irr x)) s rows /\
    forall i k, valid s i -> k < length (irr x) ->
      features (map (fun '(mul, ir) => (n * mul, ir)) (irr x)) k (rows i) = concat (map (fun f => features (irr x) k (arr x (i ++ [f]))) (seq 0 n)).
Proof.
  intros H El. eexists. split; [apply axis_to_mul_yields; assumption|]. intros i k Hi Hk. cbv beta.
  rewrite (features_blockwise (fun '(mul, ir) => (n * mul, ir)) (fun m => V_merge n m i) (valid (lead x))).
  - reflexivity.
  - apply H.
  - intros [m j] b Hm Lb. unfold V_merge. rewrite (concat_length_widths _ (m * ir_dim j)); [rewrite map_length, seq_length; unfold mi_dim; cbn [fst snd]; lia|].
    apply Forall_map, Forall_forall. intros f Hf. apply in_seq in Hf. apply Lb. rewrite El. apply valid_app; [exact Hi|constructor; [lia|constructor]].
  - intros m b c E. unfold V_merge. f_equal. apply map_ext. intros f. apply E.
  - exact Hk.
Qed.
Theorem C19_mul_to_axis_axis_to_mul x factor : coherent x -> factor <> 0 -> Forall (fun m => fst m mod factor = 0) (irr x) ->
  yields (let! y := mul_to_axis x (Some factor) (-2) in axis_to_mul y (-2)) (irr x) (lead x) (arr x).
Proof. exact (mul_axis_roundtrip x factor). Qed.
Theorem C19_axis_to_mul_mul_to_axis x s n : coherent x -> lead x = s ++ [n] -> n <> 0 ->
  yields (let! y := axis_to_mul x (-2) in mul_to_axis y (Some n) (-2)) (irr x) (lead x) (arr x).
Proof. exact (axis_mul_roundtrip x s n). Qed.
Theorem C19_not_divisible x factor axis : (-(Z.of_nat (length (lead x)) + 2) <= axis < Z.of_nat (length (lead x)) + 2)%Z -> factor <> 0 ->
  Exists (fun m => fst m mod factor <> 0) (irr x) -> mul_to_axis x (Some factor) axis = Err ValueError.
Proof. exact (mul_to_axis_rejects x factor axis). Qed.
(* another axis than the default: the shape is always built as if axis = -2 *)
Theorem C19_other_axis_refuted : exists x, coherent x /\ is_ok (mul_to_axis x (Some 2) (-2)) = true /\ mul_to_axis x (Some 2) 0 = Err ValueError.
Proof.
  exists (IA [(2, Irrep 0 Even)] [3] (fun _ => [1; 2]%R) None None). split; [coh|]. split; reflexivity.
Qed.
(* axis = -1 should be rejected; with mul = factor * factor it is accepted and transposes *)
Theorem C19_last_axis_refuted : exists x y z, coherent x /\ mul_to_axis x (Some 2) (-1) = Ok y /\ axis_to_mul y (-2) = Ok z /\ irr z = irr x /\ arr x [] = [1; 2; 3; 4]%R /\ arr z [] = [1; 3; 2; 4]%R.
Proof.
  exists (IA [(4, Irrep 0 Even)] [] (fun _ => [1; 2; 3; 4]%R) None None). do 2 eexists. split; [coh|]. split; [reflexivity|]. split; [reflexivity|]. repeat split; reflexivity.
Qed.
(* axis_to_mul(axis = 0) of an array of shape (2, 3, dim) keeps shape (2, 3 * ...) : the axis that disappears is not the one asked for *)
Theorem C19_axis_to_mul_other_axis_refuted : exists x y, coherent x /\ lead x = [2; 3] /\ axis_to_mul x 0 = Ok y /\ lead y = [2] /\ irr y = [(3, Irrep 0 Even)] /\
  (forall i, valid [2; 3] i -> arr x i = [INR (ravel [2; 3] i)]) /\ arr y [0] = [INR 0; INR 3; INR 1].
Proof.
  exists (IA [(1, Irrep 0 Even)] [2; 3] (fun i => [INR (ravel [2; 3] i)]) None None). eexists. split; [coh|]. split; [reflexivity|]. split; [reflexivity|]. repeat split; reflexivity.
Qed.
Example C19_nonvacuous : let x := IA [(4, Irrep 0 Even); (2, Irrep 1 Odd)] [] (fun _ => [1; 2; 3; 4; 5; 6; 7; 8; 9; 10]%R) None None in
  coherent x /\ Forall (fun m => fst m mod 2 = 0) (irr x) /\ (exists y, mul_to_axis x (Some 2) (-2) = Ok y /\ arr y [0] = [1; 2; 5; 6; 7]%R /\ arr y [1] = [3; 4; 8; 9; 10]%R).
Proof. intros x. split; [coh|]. split; [repeat constructor|]. eexists. split; [reflexivity|]. split; reflexivity. Qed.

(* ---------- C21 ---------- *)
Lemma place_nth : forall sel new bs k, length sel = length new -> length bs = length (select sel new) -> k < length new ->
  nth k (place sel new bs) [] = if nth k sel false then nth (length (filter (fun b => b) (firstn k sel))) bs [] else zero_row (mi_dim (nth k new dflt)).
Proof.
  induction sel as [|b sel IH]; intros [|m new] bs k L1 L2 Hk; cbn [length] in *; try lia. destruct b; cbn [select place] in *.
  - destruct bs as [|c bs]; [discriminate|]. destruct k as [|k]; [reflexivity|]. cbn [nth firstn filter length]. apply IH; cbn in L2; lia.
  - destruct k as [|k]; [reflexivity|]. cbn [nth firstn filter length]. apply IH; lia.
Qed.
Lemma place_widths : forall sel new bs, length sel = length new -> Forall2 (fun m b => length b = mi_dim m) (select sel new) bs -> Forall2 (fun m b => length b = mi_dim m) new (place sel new bs).
Proof.
  induction sel as [|b sel IH]; intros [|m new] bs L F; cbn [length] in *; try discriminate; [constructor|]. destruct b; cbn [select place] in *.
  - inversion F; subst. constructor; [assumption|]. apply IH; [lia|assumption].
  - constructor; [apply repeat_length|]. apply IH; [lia|assumption].
Qed.
(* [sel] marks where the entries of x go, in order; the features there are those of x, the others are zero *)
Theorem C21_extend_with_zeros x new : coherent x -> subseq (irr x) new ->
  exists sel rows, length sel = length new /\ select sel new = irr x /\ yields (extend_with_zeros x new) new (lead x) rows /\
    forall i k, valid (lead x) i -> k < length new ->
      features new k (rows i) = if nth k sel false then features (irr x) (length (filter (fun b => b) (firstn k sel))) (arr x i) else repeat 0%R (mi_dim (nth k new dflt)).
Proof.
  intros H Hs. destruct (extend_with_zeros_yields x new H Hs) as (sel & S1 & S2 & Y). exists sel. eexists. split; [exact S1|]. split; [exact S2|]. split; [exact Y|].
  intros i k Hi Hk. cbv beta. rewrite features_blocks by exact Hk. pose proof H as (L & _).
  rewrite blocks_concat by (apply place_widths; [exact S1|]; rewrite S2; apply blocks_widths, L, Hi).
  rewrite place_nth by (rewrite ?S2, ?blocks_length; auto). destruct (nth k sel false) eqn:Ek; [|reflexivity]. rewrite features_blocks; [reflexivity|].
  rewrite <- S2. clear -Ek S1 Hk. revert new k S1 Hk Ek. induction sel as [|b sel IH]; intros [|m new] k S1 Hk Ek; cbn [length] in *; try lia.
  destruct k as [|k]; cbn [nth] in Ek; [subst b; cbn; lia|]. cbn [firstn filter]. destruct b; cbn [select length].
  - apply -> Nat.succ_lt_mono. apply IH; auto; lia.
  - apply IH; auto; lia.
Qed.
Theorem C21_rejects x new : coherent x -> ~ subseq (irr x) new -> extend_with_zeros x new = Err ValueError.
Proof. exact (extend_with_zeros_rejects x new). Qed.
Example C21_nonvacuous : subseq (irr demo) [(5, Irrep 2 Even); (2, Irrep 0 Even); (3, Irrep 1 Odd); (3, Irrep 1 Odd); (1, Irrep 0 Even)] /\
  ~ subseq (irr demo) [(3, Irrep 1 Odd); (2, Irrep 0 Even); (1, Irrep 0 Even)] /\
  exists y, extend_with_zeros (IA [(1, Irrep 0 Even)] [] (fun _ => [7%R]) None None) [(1, Irrep 1 Odd); (1, Irrep 0 Even); (1, Irrep 0 Even)] = Ok y /\ arr y [] = [0; 0; 0; 7; 0]%R.
Proof.
  split; [repeat constructor|]. split; [|eexists; split; reflexivity].
  intros N. repeat match goal with Q : subseq _ _ |- _ => inversion Q; clear Q; subst end.
Qed.

(* ---------- C22 ---------- *)
Theorem C22_add_sub x y s : coherent x -> coherent y -> irr x = irr y -> broadcast_shapes (lead x) (lead y) = Ok s ->
  returns (add x y) (irr x) s (fun i => zipR Rplus (arr x (bidx (lead x) i)) (arr y (bidx (lead y) i))) /\
  returns (sub x y) (irr x) s (fun i => zipR Rminus (arr x (bidx (lead x) i)) (arr y (bidx (lead y) i))).
Proof. intros H H' E B. split; [apply add_ok|apply sub_ok]; assumption. Qed.
(* with equal leading shapes the results are again coherent (C14_add_broadcast_refuted: not so in general) *)
Theorem C22_add_sub_same_shape x y : coherent x -> coherent y -> irr x = irr y -> lead x = lead y ->
  yields (add x y) (irr x) (lead x) (fun i => zipR Rplus (arr x i) (arr y i)) /\ yields (sub x y) (irr x) (lead x) (fun i => zipR Rminus (arr x i) (arr y i)).
Proof.
  intros H H' E El. assert (B : broadcast_shapes (lead x) (lead y) = Ok (lead x)) by (rewrite <- El; apply broadcast_refl).
  assert (M : mergeable x y) by (right; right; right; exact El).
  split; (eapply yields_ext; [|first [exact (proj2 (add_ok x y (lead x) H H' E B) M) | exact (proj2 (sub_ok x y (lead x) H H' E B) M)]]); intros i Hi; cbv beta; rewrite <- El, !bidx_id by exact Hi; reflexivity.
Qed.
Theorem C22_different_irreps x y : irr x <> irr y -> add x y = Err ValueError /\ sub x y = Err ValueError.
Proof. exact (add_irreps_differ x y). Qed.
Theorem C22_neg x : coherent x -> yields (neg x) (irr x) (lead x) (fun i => map Ropp (arr x i)).
Proof. exact (neg_yields x). Qed.
(* multiplier of shape s + (1,): value b i at the leading index i *)
Theorem C22_scale x s b s' : coherent x -> flat (irr x) <> [] -> broadcast_shapes (lead x) s = Ok s' ->
  yields (mul_scalar x s b) (irr x) s' (fun i => map (fun v => v * b (bidx s i))%R (arr x (bidx (lead x) i))) /\
  ((forall i, valid s i -> b i <> 0%R) -> yields (div_scalar x s b) (irr x) s' (fun i => map (fun v => v / b (bidx s i))%R (arr x (bidx (lead x) i)))).
Proof. intros H Hn Hb. split; [|intros _]; apply scale_yields; auto; intros; unfold Rdiv; apply Rmult_0_l. Qed.
(* an Irreps without any irrep: lmax raises, so x * 2 raises although nothing is scaled *)
Theorem C22_scale_empty_refuted : exists x, coherent x /\ is_ok (neg x) = true /\ is_ok (mul_scalar x [] (fun _ => 2%R)) = false.
Proof. exists (IA [] [] (fun _ => []) None None). split; [coh|]. split; reflexivity. Qed.
(* bare arrays can be added to even scalars only *)
Theorem C22_add_bare x s w b s' : coherent x -> all_even_scalars (irr x) = true -> broadcast_shapes (lead x) s = Ok s' ->
  (w = dim (irr x) \/ w = 1) -> (forall i, valid s i -> length (b i) = w) ->
  yields (add_bare x s w b) (irr x) s' (fun i => zipR Rplus (arr x (bidx (lead x) i)) (stretch (dim (irr x)) (b (bidx s i)))) /\
  yields (sub_bare x s w b) (irr x) s' (fun i => zipR Rminus (arr x (bidx (lead x) i)) (stretch (dim (irr x)) (b (bidx s i)))).
Proof. intros. split; apply binop_bare_yields; assumption. Qed.
Theorem C22_add_bare_rejects x s w b : (exists m, In m (irr x) /\ snd m <> Irrep 0 Even) -> add_bare x s w b = Err ValueError /\ sub_bare x s w b = Err ValueError.
Proof.
  intros (m & Hm & Hn). assert (F : all_even_scalars (irr x) = false).
  { apply not_true_iff_false. unfold all_even_scalars. rewrite forallb_forall. intros Q. apply Hn, irrep_eqb_eq, (Q m Hm). }
  split; apply binop_bare_rejects, F.
Qed.
Example C22_nonvacuous : exists y, add demo demo = Ok y /\ arr y [0] = map (fun v => (v + v)%R) (arr demo [0]).
Proof. eexists. split; reflexivity. Qed.

(* ---------- C51 ---------- *)
Lemma at_spec upd x its v li sels : coherent x -> at_lead_items (S (length (lead x))) its = Ok li -> np_index li (lead x) = Ok sels -> forall rows,
  rows = at_rows upd sels (arr x) v ->
  (forall o, valid (out_shape sels) o -> valid (lead x) (gather sels o) /\ rows (gather sels o) = upd (arr x (gather sels o)) (v o)) /\
  (forall j, (forall o, valid (out_shape sels) o -> gather sels o <> j) -> rows j = arr x j).
Proof.
  intros H Hl Hs rows ->. pose proof (np_index_resolve _ _ _ Hs) as Hr. pose proof (resolve_ok _ _ _ Hr) as So. pose proof (resolve_step _ _ _ Hr) as St. split.
  - intros o Ho. split; [apply (gather_valid _ _ So _ Ho)|]. apply (at_rows_addressed upd sels (arr x) v (lead x)); assumption.
  - intros j Hj. apply at_rows_elsewhere. exact Hj.
Qed.
(* x.at[index].set(v), x.at[index].add(v).  gather sels o is the position of x that x[index][o] reads
   (C56_basic_indexing): exactly those positions change, each to the matching row of v. *)
Theorem C51_set x its v li sels : coherent x -> coherent v -> simplify (irr v) = simplify (irr x) ->
  at_lead_items (S (length (lead x))) its = Ok li -> np_index li (lead x) = Ok sels -> broadcast_shapes (lead v) (out_shape sels) = Ok (out_shape sels) ->
  exists rows, yields (at_set x its v) (irr x) (lead x) rows /\
    (forall o, valid (out_shape sels) o -> valid (lead x) (gather sels o) /\ rows (gather sels o) = arr v (bidx (lead v) o)) /\
    (forall j, (forall o, valid (out_shape sels) o -> gather sels o <> j) -> rows j = arr x j).
Proof.
  intros H Hv Es Hl Hs Hb. eexists. split; [refine (at_update_yields (fun _ v => v) x its v li sels H Hv Es Hl Hs Hb (or_introl eq_refl))|].
  refine (at_spec (fun _ v => v) x its (fun o => arr v (bidx (lead v) o)) li sels H Hl Hs _ eq_refl).
Qed.
Theorem C51_add x its v li sels : coherent x -> coherent v -> simplify (irr v) = simplify (irr x) ->
  at_lead_items (S (length (lead x))) its = Ok li -> np_index li (lead x) = Ok sels -> broadcast_shapes (lead v) (out_shape sels) = Ok (out_shape sels) ->
  exists rows, yields (at_add x its v) (irr x) (lead x) rows /\
    (forall o, valid (out_shape sels) o -> valid (lead x) (gather sels o) /\ rows (gather sels o) = zipR Rplus (arr x (gather sels o)) (arr v (bidx (lead v) o))) /\
    (forall j, (forall o, valid (out_shape sels) o -> gather sels o <> j) -> rows j = arr x j).
Proof.
  intros H Hv Es Hl Hs Hb. eexists. split; [refine (at_update_yields (zipR Rplus) x its v li sels H Hv Es Hl Hs Hb (or_intror eq_refl))|].
  refine (at_spec (zipR Rplus) x its (fun o => arr v (bidx (lead v) o)) li sels H Hl Hs _ eq_refl).
Qed.
Theorem C51_set_zero x its li sels : coherent x -> at_lead_items (S (length (lead x))) its = Ok li -> np_index li (lead x) = Ok sels ->
  exists rows, yields (at_set_zero x its) (irr x) (lead x) rows /\
    (forall o, valid (out_shape sels) o -> valid (lead x) (gather sels o) /\ rows (gather sels o) = repeat 0%R (dim (irr x))) /\
    (forall j, (forall o, valid (out_shape sels) o -> gather sels o <> j) -> rows j = arr x j).
Proof.
  intros H Hl Hs. eexists. split; [refine (at_set_zero_yields x its li sels H Hl Hs)|].
  refine (at_spec (fun _ v => v) x its (fun _ => zero_row (dim (irr x))) li sels H Hl Hs _ eq_refl).
Qed.
Theorem C51_rejects_other_irreps upd x its v li : at_lead_items (S (length (lead x))) its = Ok li -> simplify (irr v) <> simplify (irr x) -> at_update upd x its v = Err ValueError.
Proof.
  intros Hl Hn. unfold at_update. rewrite Hl. cbn [bind]. destruct (irreps_eqb (simplify (irr x)) (simplify (irr v))) eqn:E; [apply irreps_eqb_eq in E; congruence|reflexivity].
Qed.
(* features cannot be addressed one by one *)
Theorem C51_rejects_feature_index upd x v f a : length f = length (lead x) -> is_ellipsis a = false -> is_colon a = false ->
  is_ok (at_set_zero x (f ++ [a])) = false /\ is_ok (at_update upd x (f ++ [a]) v) = false.
Proof.
  intros Hl He Hc. assert (E : is_ok (at_lead_items (S (length (lead x))) (f ++ [a])) = false).
  { unfold at_lead_items, last_item. destruct (f ++ [a]) eqn:Q; [destruct f; discriminate|]. rewrite <- Q, last_app1, He, Hc.
    rewrite app_length. cbn [length]. rewrite Nat.add_1_r, Hl, Nat.eqb_refl, orb_true_r. cbn [orb]. destruct (true && is_feature_slice a); reflexivity. }
  unfold at_set_zero, at_update. destruct (at_lead_items _ _); [discriminate|]. split; reflexivity.
Qed.
Example C51_nonvacuous : exists y, at_set_zero demo [IInt (-1)] = Ok y /\ arr y [0] = arr demo [0] /\ arr y [1] = repeat 0%R 12.
Proof. eexists. split; [reflexivity|]. split; reflexivity. Qed.

(* ---------- C56 ---------- *)
(* x[index] by integers, slices and one ellipsis (no new axis): the irreps axis is left alone, except for an explicit
   last slice x[..., a:b], which is first taken by C18_getitem_slice *)
Theorem C56_guard x its y : coherent x -> ia_getitem x its = Some (Ok y) -> existsb is_new its = false -> length its <= S (length (lead x)) ->
  exists z li sels, (z = x \/ exists sl, last its IEllipsis = ISlice sl /\ ia_getslice x sl = Some (Ok z)) /\ lead z = lead x /\ np_index li (lead x) = Ok sels /\
    irr y = irr z /\ lead y = out_shape sels /\ coherent y /\ forall i, valid (out_shape sels) i -> valid (lead x) (gather sels i) /\ arr y i = arr z (gather sels i).
Proof.
  intros H E Hn Hl.
  assert (G : forall z its li, coherent z -> lead z = lead x -> leaves_features (length (lead x)) its li -> index_all z its = Ok y -> exists sels, np_index li (lead x) = Ok sels /\
     irr y = irr z /\ lead y = out_shape sels /\ coherent y /\ forall i, valid (out_shape sels) i -> valid (lead x) (gather sels i) /\ arr y i = arr z (gather sels i)).
  { intros z its' li Hz Lz L Ei. rewrite <- Lz in *. destruct (np_index li (lead z)) as [sels|e] eqn:En.
    - destruct (index_all_yields z its' li sels Hz L En) as (y' & Ey & Y1 & Y2 & Y3 & Y4). rewrite Ei in Ey. injection Ey as <-.
      exists sels. split; [reflexivity|]. split; [exact Y1|]. split; [exact Y2|]. split; [exact Y3|]. intros i Hi. split; [|apply Y4, Hi].
      apply (gather_valid (lead z)); [|exact Hi]. eapply resolve_ok, np_index_resolve, En.
    - exfalso. pose proof (np_index_features _ its' li (lead z) [dim (irr z)] L eq_refl ltac:(discriminate) 0 eq_refl) as Q. cbn [repeat] in Q. rewrite app_nil_r, En in Q.
      unfold index_all in Ei. rewrite Q in Ei. discriminate. }
  destruct (guard_leaves x its y E Hn Hl) as [(li & L & Ei)|(f & sl & z & -> & Hf & Ez & L & Ei)].
  - destruct (G x its li H eq_refl L Ei) as (sels & Q). exists x, li, sels. split; [left; reflexivity|]. split; [reflexivity|exact Q].
  - destruct sl as [a b st]. assert (st = None) by (destruct a, b, st; cbn in Hf; congruence). subst st. destruct (getslice_coherent x a b z H Ez) as [Hz Lz].
    destruct (G z _ f Hz Lz L Ei) as (sels & Q). exists z, f, sels. split; [right; exists (Slice a b None); split; [apply last_app1|exact Ez]|]. split; [exact Lz|exact Q].
Qed.
(* without those hypotheses the features can be cut or reversed silently *)
Theorem C56_new_axis_refuted : exists x y, coherent x /\ irr x = [(1, Irrep 1 Odd)] /\ arr x [] = [1; 2; 3]%R /\ ia_getitem x [INew; ISlice (Slice None None (Some (-1)%Z))] = Some (Ok y) /\ irr y = irr x /\ arr y [0] = [3; 2; 1]%R.
Proof. exists (IA [(1, Irrep 1 Odd)] [] (fun _ => [1; 2; 3]%R) None None). eexists. split; [coh|]. split; [reflexivity|]. split; [reflexivity|]. split; [reflexivity|]. split; reflexivity. Qed.
Theorem C56_ellipsis_refuted : exists x y, coherent x /\ irr x = [(1, Irrep 1 Odd)] /\ arr x [] = [1; 2; 3]%R /\ ia_getitem x [ISlice (Slice None None (Some (-1)%Z)); IEllipsis] = Some (Ok y) /\ irr y = irr x /\ arr y [] = [3; 2; 1]%R.
Proof. exists (IA [(1, Irrep 1 Odd)] [] (fun _ => [1; 2; 3]%R) None None). eexists. split; [coh|]. split; [reflexivity|]. split; [reflexivity|]. split; [reflexivity|]. split; reflexivity. Qed.
Example C56_nonvacuous : exists y, ia_getitem demo [IInt (-1); ISlice (Slice (Some 2%Z) (Some 5%Z) None)] = Some (Ok y) /\ irr y = [(1, Irrep 1 Odd)] /\ arr y [] = [3; 4; 5]%R.
Proof. eexists. split; [reflexivity|]. split; reflexivity. Qed.
