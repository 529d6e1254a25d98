(* C01-C09: the user-level statements about Irrep / Irreps (e3nn_jax/_src/irreps.py).
   Specification vocabulary: [flat x] is the list of the individual irreps of x, multiplicities expanded. *)
From Verif Require Import PyBase PermModel PermProofs IrrepsModel IrrepsProofs IrrepsProofs2 IrrepsStr IrrepsStrProofs.
From Coq Require Import Ascii Permutation Sorted.
From Coq Require String.
Notation string := String.string.
Import (notations) String.
Notation list_ascii_of_string := String.list_ascii_of_string.
Open Scope string_scope.
Open Scope nat_scope. Open Scope list_scope.

Definition str (s : string) : chars := list_ascii_of_string s.

(* ---------- C01 ---------- *)
Theorem C01_irrep_roundtrip a : parse_irrep (print_irrep a) = Ok a.
Proof. exact (parse_print_irrep a). Qed.
Theorem C01_irreps_roundtrip x : x <> [] -> parse_irreps (print_irreps x) = Ok x.
Proof. exact (parse_print_irreps x). Qed.
Theorem C01_str_injective x y : print_irreps x = print_irreps y -> x = y.
Proof. exact (print_irreps_inj x y). Qed.
(* whitespace, omitted multiplicities and the suffix y are accepted anywhere *)
Theorem C01_parse_padded ts : ts <> [] -> Forall term_ok ts ->
  parse_irreps (join (map term_chars ts)) = Ok (map term_val ts).
Proof. exact (parse_irreps_ok ts). Qed.
(* the empty Irreps prints as "Irreps()", which the constructor rejects: the round trip needs x <> [] *)
Theorem C01_empty_refuted : parse_irreps (print_irreps []) = Err ValueError.
Proof. reflexivity. Qed.
Example C01_nonvacuous :
  print_irreps [(12, Irrep 0 Even); (3, Irrep 10 Odd)] = str "12x0e+3x10o" /\
  parse_irreps (str " 12x0e + 3 x 10o+2y ") = Ok [(12, Irrep 0 Even); (3, Irrep 10 Odd); (1, Irrep 2 Even)] /\
  parse_irreps (str "") = Ok [] /\ parse_irreps (str "-1x0e") = Err ValueError.
Proof. repeat split; vm_compute; reflexivity. Qed.

(* ---------- C02 ---------- *)
Theorem C02_order_irrefl a : ir_ltb a a = false.
Proof. exact (ir_ltb_irrefl a). Qed.
Theorem C02_order_trans a b c : ir_ltb a b = true -> ir_ltb b c = true -> ir_ltb a c = true.
Proof. exact (ir_ltb_trans a b c). Qed.
Theorem C02_order_trichotomy a b :
  (ir_ltb a b = true \/ irrep_eqb a b = true \/ ir_ltb b a = true) /\
  (ir_ltb a b = true -> irrep_eqb a b = false /\ ir_ltb b a = false).
Proof.
  split.
  - destruct (ir_ltb_total a b) as [H|[H|H]]; auto. right; left. apply irrep_eqb_eq, H.
  - intros H. split; [|apply ir_ltb_asym, H]. apply irrep_eqb_neq. intros ->. rewrite ir_ltb_irrefl in H. discriminate.
Qed.
(* documented order: by l, and for equal l the parity (-1)^l first *)
Theorem C02_order_meaning a b : ir_ltb a b = true <->
  ir_l a < ir_l b \/ (ir_l a = ir_l b /\ ir_p a = ppow Odd (ir_l a) /\ ir_p b <> ppow Odd (ir_l b)).
Proof.
  rewrite ir_ltb_lt. assert (E : forall q, q = Even \/ q = Odd) by (intros []; auto).
  split; intros [H|[H1 H2]]; auto; right; (split; [assumption|]); rewrite H1 in *;
  destruct (E (ppow Odd (ir_l b))) as [F|F]; rewrite F in *; destruct (ir_p a), (ir_p b); cbn in *; try lia;
  destruct H2; try congruence; split; congruence.
Qed.
Theorem C02_iterator_complete lm ir : In ir (iterator lm) <-> ir_l ir <= lm.
Proof. exact (iterator_in lm ir). Qed.
Theorem C02_iterator_increasing lm : StronglySorted (fun a b => ir_ltb a b = true) (iterator lm) /\ NoDup (iterator lm).
Proof.
  split; [apply iterator_sorted|]. eapply StronglySorted_irrefl_NoDup; [|apply iterator_sorted].
  intros a H. rewrite ir_ltb_irrefl in H. discriminate.
Qed.
Example C02_nonvacuous : iterator 1 = [Irrep 0 Even; Irrep 0 Odd; Irrep 1 Odd; Irrep 1 Even] /\
  ir_ltb (Irrep 1 Odd) (Irrep 1 Even) = true.
Proof. split; reflexivity. Qed.

(* ---------- C03 ---------- *)
Theorem C03_selection_rule a b c : In c (ir_mul a b) <->
  pz (ir_p c) = (pz (ir_p a) * pz (ir_p b))%Z /\
  (Z.abs (Z.of_nat (ir_l a) - Z.of_nat (ir_l b)) <= Z.of_nat (ir_l c) <= Z.of_nat (ir_l a) + Z.of_nat (ir_l b))%Z.
Proof.
  rewrite ir_mul_in, <- pz_mul. split; intros [H1 H2]; split; try assumption; [congruence|apply pz_inj, H1].
Qed.
Theorem C03_no_repetition a b : NoDup (ir_mul a b).
Proof. exact (ir_mul_NoDup a b). Qed.
Theorem C03_dimension a b : sum (map ir_dim (ir_mul a b)) = ir_dim a * ir_dim b.
Proof. exact (ir_mul_dim a b). Qed.
Theorem C03_commutative a b : ir_mul a b = ir_mul b a.
Proof. exact (ir_mul_comm a b). Qed.
Theorem C03_unit a : ir_mul (Irrep 0 Even) a = [a] /\ ir_mul a (Irrep 0 Even) = [a].
Proof. split; [|rewrite ir_mul_comm]; apply ir_mul_unit. Qed.
Theorem C03_associative a b c :
  Permutation (flat_map (fun e => ir_mul e c) (ir_mul a b)) (flat_map (ir_mul a) (ir_mul b c)).
Proof. exact (ir_mul_assoc a b c). Qed.
Example C03_nonvacuous : ir_mul (Irrep 2 Odd) (Irrep 1 Even) = [Irrep 1 Odd; Irrep 2 Odd; Irrep 3 Odd].
Proof. reflexivity. Qed.

(* ---------- C04 ---------- *)
Theorem C04_slices_widths x : length (slices x) = length x /\
  forall i m ir, nth_error x i = Some (m, ir) ->
    exists s, nth_error (slices x) i = Some (s, s + m * ir_dim ir) /\ s = dim (firstn i x).
Proof.
  split; [apply slices_from_length|]. intros i m ir H.
  assert (L : i < length x) by (apply nth_error_Some; congruence).
  exists (dim (firstn i x)). split; [|reflexivity].
  rewrite (nth_error_nth' _ (0, 0)) by (unfold slices; rewrite slices_from_length; assumption).
  unfold slices. rewrite slices_from_nth by assumption. rewrite (firstn_S_nth x i (0, Irrep 0 Even)) by assumption.
  rewrite (nth_error_nth _ _ _ H), dim_app, dim_cons. unfold mi_dim. cbn [fst snd]. f_equal. f_equal; cbn; lia.
Qed.
Theorem C04_slices_partition x j : j < dim x ->
  exists! i, exists a b, nth_error (slices x) i = Some (a, b) /\ a <= j < b.
Proof.
  intros H. destruct (slices_cover_from x 0 j ltac:(lia)) as (i & a & b & E & Hj). exists i. split; [eauto|].
  intros i' (a' & b' & E' & Hj'). destruct (Nat.lt_trichotomy i i') as [L|[L|L]]; [|exact L|].
  - pose proof (slices_disjoint x 0 _ _ _ _ _ _ E E' L). lia.
  - pose proof (slices_disjoint x 0 _ _ _ _ _ _ E' E L). lia.
Qed.
Theorem C04_slices_inside x i a b : nth_error (slices x) i = Some (a, b) -> a <= b <= dim x.
Proof. intros H. apply slices_from_bounds in H. lia. Qed.
Example C04_nonvacuous : slices [(2, Irrep 1 Odd); (0, Irrep 5 Even); (3, Irrep 0 Even)] = [(0, 6); (6, 6); (6, 9)].
Proof. reflexivity. Qed.

(* ---------- C05 ---------- *)
Theorem C05_flat_preserved x : flat (unify x) = flat x /\ flat (remove_zero x) = flat x /\ flat (simplify x) = flat x.
Proof. split; [apply flat_unify|split; [apply flat_remove_zero|apply flat_simplify]]. Qed.
Theorem C05_counts_preserved x y : flat x = flat y ->
  dim x = dim y /\ num_irreps x = num_irreps y /\ ls x = ls y /\ forall ir, count ir x = count ir y.
Proof.
  intros E. rewrite !dim_flat, <- !flat_length, !ls_flat, E. repeat split; trivial. intros. rewrite !count_flat, E. reflexivity.
Qed.
Theorem C05_simplify_normal x :
  (forall i m ir, nth_error (simplify x) i = Some (m, ir) -> 0 < m) /\
  (forall i m ir m' ir', nth_error (simplify x) i = Some (m, ir) -> nth_error (simplify x) (S i) = Some (m', ir') -> ir <> ir').
Proof.
  split.
  - intros i m ir H. pose proof (positive_simplify x) as P. unfold positive in P. rewrite Forall_forall in P.
    apply nth_error_In in H. exact (P _ H).
  - pose proof (alternating_simplify x) as A. revert A. generalize (simplify x) as l. induction l as [|a l IH]; intros A [|i] m ir m' ir' H H'; try discriminate.
    + cbn in H, H'. destruct l as [|b l]; [discriminate|]. injection H as ->. injection H' as ->. apply A.
    + apply IH with (i := i) (m := m) (m' := m'); trivial. destruct l; [exact I|apply A].
Qed.
Theorem C05_simplify_idempotent x : simplify (simplify x) = simplify x.
Proof. exact (simplify_idem x). Qed.
Theorem C05_unify_idempotent x : unify (unify x) = unify x.
Proof. exact (unify_idem x). Qed.
Theorem C05_simplify_canonical x y : simplify x = simplify y <-> flat x = flat y.
Proof. exact (simplify_iff x y). Qed.
Example C05_nonvacuous :
  simplify [(1, Irrep 0 Even); (0, Irrep 1 Odd); (2, Irrep 0 Even); (1, Irrep 1 Odd)] = [(3, Irrep 0 Even); (1, Irrep 1 Odd)] /\
  unify [(1, Irrep 0 Even); (0, Irrep 1 Odd); (2, Irrep 0 Even)] = [(1, Irrep 0 Even); (0, Irrep 1 Odd); (2, Irrep 0 Even)].
Proof. split; reflexivity. Qed.

(* ---------- C06 ---------- *)
Theorem C06_sort_spec x : exists s p inv, irreps_sort x = Ok (s, p, inv) /\
  length s = length x /\ is_perm p = true /\ is_perm inv = true /\ length p = length x /\ length inv = length x /\
  (forall i, i < length x -> nth (nth i p 0) inv 0 = i /\ nth (nth i inv 0) p 0 = i) /\
  (forall i, i < length x -> nth_error s i = nth_error x (nth i inv 0) /\ nth_error s (nth i p 0) = nth_error x i) /\
  (forall i j m a n b, i < j -> nth_error s i = Some (m, a) -> nth_error s j = Some (n, b) ->
     ir_ltb a b = true \/ (a = b /\ nth i inv 0 < nth j inv 0)).
Proof.
  exists (sort_irreps x), (inv_nat (sort_inv_list x)), (sort_inv_list x). split; [apply sort_Ok|].
  pose proof (sort_inv_perm x) as P. pose proof (sort_inv_length x) as L. pose proof (sort_irreps_length x) as Ls.
  split; [exact Ls|]. split; [apply inv_nat_perm, P|]. split; [exact P|]. split; [rewrite inv_nat_length; exact L|]. split; [exact L|].
  assert (N : forall i, i < length x -> nth_error (sort_irreps x) i = nth_error x (nth i (sort_inv_list x) 0)).
  { intros i Hi. rewrite (nth_error_nth' _ dflt) by lia. rewrite sort_irreps_nth by exact Hi.
    symmetry. apply nth_error_nth'. rewrite <- L. apply perm_nth_lt; [exact P|lia]. }
  split; [intros i Hi; apply sort_p_inverse, Hi|]. split.
  - intros i Hi. split; [apply N, Hi|]. rewrite N. { destruct (sort_p_inverse x i Hi) as [-> _]. reflexivity. }
    replace (length x) with (length (inv_nat (sort_inv_list x))) by (rewrite inv_nat_length; exact L).
    apply perm_nth_lt; [apply inv_nat_perm, P|rewrite inv_nat_length; lia].
  - intros i j m a n b Hij Hi Hj. assert (Hjl : j < length x) by (rewrite <- Ls; apply nth_error_Some; congruence).
    pose proof (sort_irreps_sorted x i j ltac:(lia)) as S. cbn zeta in S.
    rewrite (nth_error_nth _ _ _ Hi), (nth_error_nth _ _ _ Hj) in S. exact S.
Qed.
Theorem C06_regroup_spec x : exists r, regroup x = Ok r /\
  StronglySorted (fun a b => ir_ltb (snd a) (snd b) = true) r /\ Forall (fun m => 0 < fst m) r /\
  (forall ir, count ir r = count ir x) /\ dim r = dim x.
Proof.
  exists (regroup_irreps x). split; [apply regroup_Ok|]. split; [apply regroup_strict|].
  split; [apply positive_simplify|]. split; [intros; apply regroup_count|apply regroup_dim].
Qed.
Theorem C06_regroup_canonical x y : regroup x = regroup y <-> forall ir, count ir x = count ir y.
Proof.
  rewrite !regroup_Ok, <- regroup_iff. split; [intros H; injection H as H; exact H|intros ->; reflexivity].
Qed.
Example C06_nonvacuous : irreps_sort [(1, Irrep 1 Odd); (2, Irrep 0 Even); (3, Irrep 1 Odd)] =
  Ok ([(2, Irrep 0 Even); (1, Irrep 1 Odd); (3, Irrep 1 Odd)], [1; 0; 2], [1; 0; 2]) /\
  regroup [(1, Irrep 1 Odd); (2, Irrep 0 Even); (3, Irrep 1 Odd)] = Ok [(2, Irrep 0 Even); (4, Irrep 1 Odd)].
Proof. split; reflexivity. Qed.

(* ---------- C07 ---------- *)
(* the kept entries are those at an increasing list of positions, namely all positions whose entry is selected *)
Definition keeps (P : mulirrep -> Prop) (x r : irreps) : Prop :=
  exists ps, StronglySorted lt ps /\ (forall i, In i ps <-> exists m, nth_error x i = Some m /\ P m) /\
    map (nth_error x) ps = map Some r.
Lemma keeps_filter (f : mulirrep -> bool) x : keeps (fun m => f m = true) x (filter f x).
Proof.
  exists (positions_from 0 f x). destruct (positions_spec f x 0 (0, Irrep 0 Even)) as (H1 & H2 & H3).
  split; [exact H1|]. split.
  - intros i. rewrite H2, Nat.sub_0_r. split.
    + intros (_ & H & H'). exists (nth i x (0, Irrep 0 Even)). split; [apply nth_error_nth', H|exact H'].
    + intros (m & H & H'). assert (i < length x) by (apply nth_error_Some; congruence).
      rewrite (nth_error_nth _ _ _ H). auto with arith.
  - rewrite <- H3, map_map. apply map_ext_in. intros i Hi. apply H2 in Hi. rewrite Nat.sub_0_r in *.
    apply nth_error_nth'. tauto.
Qed.
Theorem C07_filter_keep_irreps x l : exists r, filter_irreps x (Some (ByIrreps l)) None None = Ok r /\
  keeps (fun m => In (snd m) l) x r.
Proof.
  eexists. split; [reflexivity|]. destruct (keeps_filter (selects (ByIrreps l)) x) as (ps & H1 & H2 & H3).
  exists ps. split; [exact H1|]. split; [|exact H3]. intros i. rewrite H2.
  split; intros (m & E & H); exists m; (split; [exact E|]); cbn in *.
  - apply existsb_exists in H as (a & Ha & E'). apply irrep_eqb_eq in E' as ->. exact Ha.
  - apply existsb_exists. exists (snd m). split; [exact H|apply irrep_eqb_refl].
Qed.
Theorem C07_filter_keep_fun x f : exists r, filter_irreps x (Some (ByFun f)) None None = Ok r /\
  keeps (fun m => f m = true) x r.
Proof. eexists. split; [reflexivity|]. apply (keeps_filter f x). Qed.
Theorem C07_filter_drop x s : exists r k, filter_irreps x None (Some s) None = Ok r /\ filter_irreps x (Some s) None None = Ok k /\
  keeps (fun m => selects s m = false) x r /\ Permutation (k ++ r) x.
Proof.
  eexists _, _. split; [reflexivity|]. split; [reflexivity|]. split; [|apply filter_partition].
  destruct (keeps_filter (fun m => negb (selects s m)) x) as (ps & H1 & H2 & H3).
  exists ps. split; [exact H1|]. split; [|exact H3]. intros i. rewrite H2.
  split; intros (m & E & H); exists m; (split; [exact E|]); destruct (selects s m); auto; discriminate.
Qed.
Theorem C07_filter_lmax x L : exists r, filter_irreps x None None (Some L) = Ok r /\
  keeps (fun m => (Z.of_nat (ir_l (snd m)) <= L)%Z) x r.
Proof.
  eexists. split; [reflexivity|]. destruct (keeps_filter (fun m => (Z.of_nat (ir_l (snd m)) <=? L)%Z) x) as (ps & H1 & H2 & H3).
  exists ps. split; [exact H1|]. split; [|exact H3]. intros i. rewrite H2.
  split; intros (m & E & H); exists m; (split; [exact E|]); lia.
Qed.
Theorem C07_filter_none x : filter_irreps x None None None = Ok x.
Proof. reflexivity. Qed.
Theorem C07_filter_conflict x k d L :
  filter_irreps x (Some k) (Some d) L = Err ValueError /\
  (forall L', filter_irreps x (Some k) None (Some L') = Err ValueError /\ filter_irreps x None (Some d) (Some L') = Err ValueError).
Proof. destruct L; repeat split. Qed.
Example C07_nonvacuous : filter_irreps [(1, Irrep 0 Even); (2, Irrep 1 Odd); (3, Irrep 0 Even)] None (Some (ByIrreps [Irrep 1 Odd])) None
  = Ok [(1, Irrep 0 Even); (3, Irrep 0 Even)].
Proof. reflexivity. Qed.

(* ---------- C08 ---------- *)
Definition rng (a b : Z) : slice := Slice (Some a) (Some b) None.
(* unit stride, bounds not reversed: exactly Python's slicing of the flattened list of irreps *)
Theorem C08_slice_by_mul x s a b : slice_indices s (num_irreps x) = Ok (a, b, 1%Z) -> (a <= b)%Z ->
  exists r, slice_by_mul x s = Ok r /\ tuple_slice (flat x) s = Ok (flat r).
Proof. exact (slice_by_mul_spec x s a b). Qed.
Theorem C08_slice_by_mul_reversed x s a b : slice_indices s (num_irreps x) = Ok (a, b, 1%Z) -> (b < a)%Z ->
  (exists r, slice_by_mul x s = Ok r /\ flat r = []) \/ slice_by_mul x s = Err ValueError.
Proof. exact (slice_by_mul_rev x s a b). Qed.
Theorem C08_slice_by_mul_stride x s a b k : slice_indices s (num_irreps x) = Ok (a, b, k) -> k <> 1%Z ->
  slice_by_mul x s = Err NotImplementedError.
Proof. intros E H. unfold slice_by_mul. rewrite E. cbn. destruct (Z.eqb_spec k 1); [contradiction|reflexivity]. Qed.
(* bounds that fall between irreps are honoured *)
Theorem C08_slice_by_dim_aligned x s a b j k : slice_indices s (dim x) = Ok (Z.of_nat a, Z.of_nat b, 1%Z) ->
  j <= k <= num_irreps x ->
  a = sum (map ir_dim (firstn j (flat x))) -> b = sum (map ir_dim (firstn k (flat x))) ->
  exists r, slice_by_dim x s = Ok r /\ flat r = list_slice (flat x) j k.
Proof. intros H. exact (slice_by_dim_aligned x s a b H j k). Qed.
Theorem C08_slice_by_chunk x s : slice_by_chunk x s = tuple_slice x s.
Proof. reflexivity. Qed.
Theorem C08_tuple_slice_is_python {A} (l : list A) s a b : slice_indices s (length l) = Ok (a, b, 1%Z) ->
  tuple_slice l s = Ok (firstn (Z.to_nat b - Z.to_nat a) (skipn (Z.to_nat a) l)).
Proof. exact (tuple_slice_1 l s a b). Qed.
(* the part of C08 that is false of the code: [1:4] of 2x1e cuts both vectors and is accepted *)
Theorem C08_slice_by_dim_cut_refuted :
  slice_by_dim [(2, Irrep 1 Even)] (rng 1 4) = Ok [(1, Irrep 1 Even)] /\ ~ aligned [(2, Irrep 1 Even)] 1.
Proof.
  split; [reflexivity|]. intros (j & Hj & E). destruct j as [|[|[|j]]]; cbn in E; try lia; cbn in Hj; lia.
Qed.
(* reversed bounds inside one entry raise instead of returning the empty Irreps *)
Theorem C08_slice_by_mul_reversed_refuted :
  slice_by_mul [(5, Irrep 0 Even)] (rng 3 1) = Err ValueError /\ tuple_slice (flat [(5, Irrep 0 Even)]) (rng 3 1) = Ok [].
Proof. split; reflexivity. Qed.
Example C08_nonvacuous : slice_by_mul [(2, Irrep 1 Odd); (3, Irrep 0 Even)] (rng 1 (-1)) = Ok [(1, Irrep 1 Odd); (2, Irrep 0 Even)] /\
  slice_by_dim [(2, Irrep 1 Odd); (3, Irrep 0 Even)] (rng 3 8) = Ok [(1, Irrep 1 Odd); (2, Irrep 0 Even)].
Proof. split; reflexivity. Qed.

(* ---------- C09 ---------- *)
Theorem C09_add x y : dim (add x y) = dim x + dim y /\ num_irreps (add x y) = num_irreps x + num_irreps y /\
  (forall ir, count ir (add x y) = count ir x + count ir y) /\ flat (add x y) = flat x ++ flat y.
Proof.
  unfold add. split; [apply dim_app|]. split; [unfold num_irreps; rewrite map_app, sum_app; reflexivity|].
  split; [|apply flat_app]. intros. rewrite !count_flat, flat_app, count_occ_app. reflexivity.
Qed.
Theorem C09_mul_int x n : exists r, mul_int x (Z.of_nat n) = Ok r /\
  dim r = n * dim x /\ num_irreps r = n * num_irreps x /\ (forall ir, count ir r = n * count ir x) /\ map snd r = map snd x.
Proof.
  eexists. split; [apply mul_int_ok|]. rewrite dim_scale, num_irreps_scale. split; [lia|]. split; [lia|].
  split; [intros; rewrite count_scale; lia|]. rewrite map_map. apply map_ext. intros [m a]. reflexivity.
Qed.
Theorem C09_mul_negative x n : (n < 0)%Z -> is_ok (mul_int x n) = forallb (fun m => fst m =? 0) x.
Proof. exact (mul_int_neg x n). Qed.
Theorem C09_repeat x n : flat (repeat_irreps x n) = concat (repeat (flat x) n) /\ dim (repeat_irreps x n) = n * dim x.
Proof.
  split; [apply flat_repeat_irreps|]. induction n; [reflexivity|]. cbn [repeat_irreps]. rewrite dim_app, IHn. reflexivity.
Qed.
(* mul_gcd is the greatest common divisor of the multiplicities *)
Theorem C09_mul_gcd x k : Nat.divide k (mul_gcd x) <-> forall m, In m x -> Nat.divide k (fst m).
Proof. exact (mul_gcd_spec x k). Qed.
Theorem C09_floordiv_mul_gcd x : 0 < mul_gcd x ->
  exists y, floordiv x (Z.of_nat (mul_gcd x)) = Ok y /\ mul_int y (Z.of_nat (mul_gcd x)) = Ok x.
Proof.
  intros H. destruct (floordiv_exact x (mul_gcd x) H) as (y & E & F).
  - apply mul_gcd_spec, Nat.divide_refl.
  - exists y. split; [exact E|]. rewrite mul_int_ok, F. reflexivity.
Qed.
Theorem C09_lmax x L : lmax x = Ok L ->
  (exists ir, In ir (flat x) /\ ir_l ir = L) /\ (forall ir, In ir (flat x) -> ir_l ir <= L).
Proof. exact (lmax_ok x L). Qed.
Theorem C09_lmax_error x : (exists e, lmax x = Err e) <-> flat x = [].
Proof. exact (lmax_err x). Qed.
Theorem C09_dim_is_sum x : dim x = sum (map ir_dim (flat x)) /\ num_irreps x = length (flat x) /\
  forall ir, count ir x = count_occ irrep_eq_dec (flat x) ir.
Proof. split; [apply dim_flat|]. split; [symmetry; apply flat_length|]. intros. apply count_flat. Qed.
Example C09_nonvacuous : mul_gcd [(4, Irrep 1 Odd); (6, Irrep 0 Even)] = 2 /\
  floordiv [(4, Irrep 1 Odd); (6, Irrep 0 Even)] 2 = Ok [(2, Irrep 1 Odd); (3, Irrep 0 Even)] /\
  lmax [(4, Irrep 1 Odd); (0, Irrep 7 Even)] = Ok 1.
Proof. repeat split. Qed.
