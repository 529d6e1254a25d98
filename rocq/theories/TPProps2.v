(* The rest of C32 (elementwise_tensor_product) and of C22 (products and quotients of IrrepsArray).  Vocabulary: see TPProps.v. *)
From Coq Require Import Reals Lra Permutation Sorted.
From Verif Require Import PyBase PermModel PermProofs IrrepsModel IrrepsProofs IrrepsProofs2 ArrayModel ArrayProofs ArrayOps RechunkProofs SliceProofs SliceProofs2 ArithProofs BlockProofs LeadModel LeadProofs StackProofs BilinProofs ActProofs EquivProofs EquivProofs2 SumR TPModel LinearProofs TPProofs StableSort TPProofs2 TPProofs3 LinearProps TPProps ArrayProps2.
From Verif Require IrrepsProps.
From Verif Require Import EntryProofs.
Open Scope nat_scope.

(* ---------- C32 ---------- *)
Theorem C32_elementwise_irreps cg nrm flt x y s u v : coherent x -> coherent y -> nrm <> NOther -> broadcast_shapes (lead x) (lead y) = Ok s -> align_two_irreps (irr x) (irr y) = Ok (u, v) ->
  exists z, elementwise_tensor_product cg nrm flt x y = Ok z /\ lead z = s /\
    irr z = flat_map (fun '((m, a), (_, b)) => map (fun c => (m, c)) (filter (passes flt) (ir_mul a b))) (combine u v) /\
    elementwise_irreps flt (irr x) (irr y) = Ok (irr z).
Proof.
  intros Hx Hy Hn E Al. destruct (elementwise_yields cg nrm flt x y s u v Hx Hy Hn E Al) as (z & -> & E1 & E2 & _). exists z. split; [reflexivity|]. split; [exact E2|].
  assert (O : forall n, bil_out (ew_paths n flt u v) = flat_map (fun '((m, a), (_, b)) => map (fun c => (m, c)) (filter (passes flt) (ir_mul a b))) (combine u v)).
  { intros n. unfold bil_out, ew_paths. rewrite map_flat_map. rewrite <- (flat_map_enumerate (fun '((m, a), (_, b)) => map (fun c => (m, c)) (filter (passes flt) (ir_mul a b))) (combine u v)). apply flat_map_ext. intros [k [[m1 a] [m2 b]]]. cbn [snd]. rewrite map_map. reflexivity. }
  split; [rewrite E1; apply O|]. unfold elementwise_irreps. destruct (align_sound _ _ _ _ Al) as (_ & _ & _ & N). rewrite N, Nat.eqb_refl, Al. cbn [negb bind]. rewrite E1, !O. reflexivity.
Qed.
(* the value: copy w of the entry (k, c) couples copy w of the k-th aligned entries *)
Theorem C32_elementwise_value cg nrm flt x y s u v : coherent x -> coherent y -> nrm <> NOther -> broadcast_shapes (lead x) (lead y) = Ok s -> align_two_irreps (irr x) (irr y) = Ok (u, v) ->
  exists z (labels : list (nat * irrep)), elementwise_tensor_product cg nrm flt x y = Ok z /\ length labels = length (irr z) /\
    (forall k c, In (k, c) labels <-> exists m a b, nth_error u k = Some (m, a) /\ nth_error v k = Some (m, b) /\ In c (ir_mul a b) /\ passes flt c = true) /\
    (forall q k c m a b, nth_error labels q = Some (k, c) -> nth_error u k = Some (m, a) -> nth_error v k = Some (m, b) ->
      nth_error (irr z) q = Some (m, c) /\
      forall w j i, w < m -> j < ir_dim c -> valid s i ->
        entry (irr z) (arr z i) q w j =
          (path_norm nrm (ir_l a) (ir_l b) (ir_l c) * rsum (ir_dim a) (fun e => rsum (ir_dim b) (fun f => cg (ir_l a) (ir_l b) (ir_l c) e f j * entry u (arr x (bidx (lead x) i)) k w e * entry v (arr y (bidx (lead y) i)) k w f)))%R).
Proof.
  intros Hx Hy Hn E Al. destruct (elementwise_yields cg nrm flt x y s u v Hx Hy Hn E Al) as (z & -> & E1 & E2 & E3 & E4). destruct (align_sound _ _ _ _ Al) as (M & _ & _ & _). set (ps := ew_paths nrm flt u v) in *.
  assert (Shape : forall p, In p ps <-> exists k m a b c, nth_error u k = Some (m, a) /\ nth_error v k = Some (m, b) /\ In c (ir_mul a b) /\ passes flt c = true /\ p = BP k k (pairs_diag m) m c (norm_factor nrm a b c)).
  { intros p. unfold ps, ew_paths. rewrite in_flat_map. split.
    - intros ([k [[m1 a] [m2 b]]] & H1 & Hp). apply in_map_iff in Hp as (c & <- & Hc). apply filter_In in Hc as [Hc Hf]. apply enumerate_in in H1. rewrite nth_error_combine in H1. destruct (nth_error u k) as [p1|] eqn:F1; [|discriminate]. destruct (nth_error v k) as [p2|] eqn:F2; [|discriminate]. injection H1 as -> ->.
      assert (m1 = m2). { pose proof (map_nth_error fst _ _ F1) as G1. pose proof (map_nth_error fst _ _ F2) as G2. rewrite M in G1. cbn in G1, G2. congruence. } subst m2. exists k, m1, a, b, c. auto.
    - intros (k & m & a & b & c & H1 & H2 & Hc & Hf & ->). exists (k, ((m, a), (m, b))). split.
      + assert (L : k < length (combine u v)) by (rewrite combine_length; apply Nat.min_glb_lt; apply nth_error_Some; congruence). assert (Q : In (nth k (enumerate (combine u v)) (0, (d0, d0))) (enumerate (combine u v))) by (apply nth_In; unfold enumerate; rewrite combine_length, seq_length; lia).
        rewrite nth_enumerate in Q by exact L. cbn [snd] in Q. rewrite combine_nth in Q by (rewrite <- (map_length fst u), M, map_length; reflexivity). rewrite (nth_error_nth _ _ _ H1), (nth_error_nth _ _ _ H2) in Q. exact Q.
      + apply in_map_iff. exists c. split; [reflexivity|]. apply filter_In. auto. }
  exists z, (map (fun p => (b_in1 p, b_out p)) ps). split; [reflexivity|]. split; [rewrite E1; unfold bil_out; rewrite !map_length; reflexivity|]. split.
  - intros k c. rewrite in_map_iff. split.
    + intros (p & Q & Hp). apply Shape in Hp as (j & m & a & b & c' & H1 & H2 & Hc & Hf & ->). cbn [b_in1 b_out] in Q. injection Q as -> ->. exists m, a, b. auto.
    + intros (m & a & b & H1 & H2 & Hc & Hf). exists (BP k k (pairs_diag m) m c (norm_factor nrm a b c)). split; [reflexivity|]. apply Shape. exists k, m, a, b, c. auto 6.
  - intros q k c m a b Eq H1 H2. rewrite nth_error_map in Eq. destruct (nth_error ps q) as [p|] eqn:Epq; [|discriminate]. cbn [option_map] in Eq.
    destruct (proj1 (Shape p) (nth_error_In _ _ Epq)) as (j & n & a' & b' & c' & J1 & J2 & Hc & Hf & ->). cbn [b_in1 b_out] in Eq. injection Eq as -> ->.
    assert (Q1 : (n, a') = (m, a)) by congruence. injection Q1 as -> ->. assert (Q2 : b' = b) by congruence. subst b'.
    assert (Ei : nth_error (irr z) q = Some (m, c)) by (rewrite E1, bil_out_nth, Epq; reflexivity). split; [exact Ei|]. intros w j' i Hw Hj Hi. rewrite E4 by exact Hi. rewrite E1. unfold bil_row. rewrite entry_rowof by (exists m, c; rewrite <- E1; auto).
    rewrite (nth_error_nth _ _ _ Epq). unfold path_val. cbn [b_in1 b_in2 b_pairs b_mul b_out b_alpha]. rewrite (nth_error_nth _ _ _ H1), (nth_error_nth _ _ _ H2). cbn [snd]. unfold pairs_diag. rewrite (nth_map_at _ _ _ 0) by (rewrite seq_length; exact Hw). rewrite seq_nth by exact Hw. rewrite <- norm_factor_spec. reflexivity.
Qed.
Theorem C32_elementwise_rejects cg nrm flt x y s : coherent x -> coherent y -> broadcast_shapes (lead x) (lead y) = Ok s -> num_irreps (irr x) <> num_irreps (irr y) ->
  elementwise_tensor_product cg nrm flt x y = Err ValueError.
Proof.
  intros Hx Hy E N. unfold elementwise_tensor_product. destruct (prepare_yields x y s Hx Hy E) as (x1 & y1 & -> & X1 & X2 & X3 & X4 & Y1 & Y2 & Y3 & Y4). cbn [bind]. rewrite X1, Y1. destruct (Nat.eqb_spec (num_irreps (irr x)) (num_irreps (irr y))); [contradiction|reflexivity].
Qed.

(* ---------- C22 ---------- *)
Lemma app_eq_length {A} (l1 l2 r1 r2 : list A) : length l1 = length r1 -> l1 ++ l2 = r1 ++ r2 -> l1 = r1 /\ l2 = r2.
Proof. revert r1. induction l1 as [|a l1 IH]; intros [|b r1] L E; try discriminate; [auto|]. cbn in E. injection E as <- E. cbn in L. destruct (IH r1 ltac:(lia) E) as [-> ->]. auto. Qed.
(* aligned entries multiply copy by copy *)
Lemma flat_aligned (P : irrep -> irrep -> Prop) : forall u v, map fst u = map fst v -> (Forall2 P (flat u) (flat v) <-> Forall (fun '((m, a), (_, b)) => m = 0 \/ P a b) (combine u v)).
Proof.
  induction u as [|[m a] u IH]; intros [|[n b] v] M; try discriminate; [split; constructor|]. cbn [map fst] in M. injection M as <- M. rewrite !flat_cons. cbn [combine]. rewrite Forall_cons_iff, <- (IH v M). split.
  - intros F. destruct (Forall2_app_inv_l _ _ F) as (r1 & r2 & F1 & F2 & Er). assert (L : length r1 = m) by (rewrite <- (Forall2_length _ _ _ F1), repeat_length; reflexivity).
    assert (r1 = repeat b m /\ r2 = flat v) as [-> ->]. { apply app_eq_length in Er; [intuition congruence|rewrite repeat_length; lia]. }
    split; [|exact F2]. destruct m; [left; reflexivity|right]. cbn [repeat] in F1. inversion F1; assumption.
  - intros [[->|H] F]; [exact F|]. apply Forall2_app; [|exact F]. clear -H. induction m; cbn [repeat]; constructor; auto.
Qed.

Lemma num_irreps_flat x : num_irreps x = length (flat x).
Proof. induction x as [|[m a] x IH]; [reflexivity|]. rewrite num_irreps_cons, flat_cons, app_length, repeat_length, IH. reflexivity. Qed.
Lemma ir_mul_length a b : length (ir_mul a b) = 2 * Nat.min (ir_l a) (ir_l b) + 1.
Proof. unfold ir_mul. rewrite map_length, seq_length. lia. Qed.
(* pairs of irreps of which one is a scalar *)
Definition one_scalar (a b : irrep) : Prop := ir_l a = 0 \/ ir_l b = 0.
Lemma ew_count u v : map fst u = map fst v -> let o := bil_out (ew_paths NNone None u v) in
  num_irreps u <= num_irreps o /\ (num_irreps o = num_irreps u <-> Forall2 one_scalar (flat u) (flat v)).
Proof.
  intros M. cbv zeta. rewrite flat_aligned by exact M.
  assert (O : bil_out (ew_paths NNone None u v) = flat_map (fun '((m, a), (_, b)) => map (fun c => (m, c)) (ir_mul a b)) (combine u v)).
  { unfold bil_out, ew_paths. rewrite map_flat_map. rewrite <- (flat_map_enumerate (fun '((m, a), (_, b)) => map (fun c => (m, c)) (ir_mul a b)) (combine u v)). apply flat_map_ext. intros [k [[m1 a] [m2 b]]]. cbn [snd passes]. rewrite map_map, filter_all. reflexivity. }
  rewrite O. clear O. revert v M. induction u as [|[m a] u IH]; intros [|[n b] v] M; try discriminate; [cbn; split; [lia|split; auto]|]. cbn [map fst] in M. injection M as <- M. destruct (IH v M) as [I1 I2]. cbn [combine flat_map]. rewrite num_irreps_app, num_irreps_cons, Forall_cons_iff, <- I2.
  assert (Q : num_irreps (map (fun c : irrep => (m, c)) (ir_mul a b)) = m * (2 * Nat.min (ir_l a) (ir_l b) + 1)). { rewrite <- ir_mul_length. generalize (ir_mul a b). intros l. induction l as [|c l IHl]; [cbn; lia|]. cbn [map length]. rewrite num_irreps_cons, IHl. lia. }
  rewrite Q. unfold one_scalar. set (N := num_irreps _) in *. clearbody N. split; [nia|]. split.
  - intros H. split; [|nia]. destruct m; [auto|right]. assert (Nat.min (ir_l a) (ir_l b) = 0) by nia. lia.
  - intros [[->|H] ->]; [lia|]. assert (Nat.min (ir_l a) (ir_l b) = 0) as -> by lia. lia.
Qed.
Theorem C22_mul_is_elementwise cg x y u v : align_two_irreps (irr x) (irr y) = Ok (u, v) -> Forall2 one_scalar (flat (irr x)) (flat (irr y)) ->
  ia_mul cg x y = elementwise_tensor_product cg NComponent None x y.
Proof.
  intros Al F. destruct (align_sound _ _ _ _ Al) as (M & Fu & Fv & N). unfold ia_mul, elementwise_irreps. rewrite N, Nat.eqb_refl, Al. cbn [negb bind]. rewrite <- Fu, <- Fv in F. destruct (ew_count u v M) as [_ C]. apply C in F. rewrite F.
  assert (Nu : num_irreps u = num_irreps (irr y)). { rewrite <- N. rewrite !num_irreps_flat, Fu. reflexivity. } rewrite Nu, Nat.eqb_refl. reflexivity.
Qed.
Theorem C22_mul_rejects cg x y : ~ Forall2 one_scalar (flat (irr x)) (flat (irr y)) -> Forall (fun m => 0 < fst m) (irr x) -> Forall (fun m => 0 < fst m) (irr y) -> ia_mul cg x y = Err ValueError.
Proof.
  intros H Px Py. unfold ia_mul, elementwise_irreps. destruct (Nat.eqb_spec (num_irreps (irr x)) (num_irreps (irr y))) as [N|]; [|reflexivity]. cbn [negb]. destruct (align_total _ _ N Px Py) as (u & v & Al). rewrite Al. cbn [bind].
  destruct (align_sound _ _ _ _ Al) as (M & Fu & Fv & _). rewrite <- Fu, <- Fv in H. destruct (ew_count u v M) as [_ C]. destruct (Nat.eqb_spec (num_irreps (bil_out (ew_paths NNone None u v))) (num_irreps (irr x))) as [Q|]; [|reflexivity]. exfalso. apply H, C. rewrite Q, !num_irreps_flat, Fu. reflexivity.
Qed.
(* the coupling with a scalar is the identity divided by the square root of the dimension (proved for the library's coefficients in CGProps.v) *)
Definition scalar_coupling (cg : coupling) : Prop := forall l i k, i < 2 * l + 1 -> k < 2 * l + 1 -> cg l 0 l i 0 k = if i =? k then (/ sqrt (INR (2 * l + 1)))%R else 0%R.
Definition scale_copies (copies : list (list R)) (c : list R) : list R := concat (map2 (fun r k => map (Rmult k) r) copies c).
Lemma concat_tab2_scaled n d (rx ry : list R) : length rx = n * d -> length ry = n ->
  concat (tab2 n d (fun w k => nth (w * d + k) rx 0 * nth w ry 0)%R) = scale_copies (group_rows n d rx) ry.
Proof.
  unfold scale_copies. revert rx ry. induction n as [|n IH]; intros rx ry Lx Ly; [destruct ry; [reflexivity|discriminate]|]. destruct ry as [|c ry]; [discriminate|].
  assert (S1 : forall (H : nat -> nat -> R), tab2 (S n) d H = tab d (H 0) :: tab2 n d (fun u => H (S u))) by (intros H; unfold tab2, tab at 1; cbn [seq map]; f_equal; rewrite <- seq_shift, map_map; reflexivity).
  rewrite S1, group_rows_S, map2_cons. cbn [concat]. f_equal.
  - cbn [nth]. rewrite <- (tab_nth (firstn d rx) 0%R). rewrite firstn_length, Nat.min_l by (cbn [Nat.mul] in Lx; lia). unfold tab. rewrite map_map. apply map_ext_in. intros k Hk. apply in_seq in Hk. rewrite nth_firstn_lt by lia. cbn [Nat.mul Nat.add]. ring.
  - rewrite <- (IH (skipn d rx) ry) by (try rewrite skipn_length; cbn [length Nat.mul] in *; lia). f_equal. apply tab2_ext. intros w k Hw Hk. cbn [nth]. rewrite nth_skipn'. f_equal. f_equal. cbn [Nat.mul]. lia.
Qed.
Lemma scaled_rowof u v (rx ry : list R) : map fst u = map fst v -> Forall (fun m => ir_l (snd m) = 0) v -> length rx = dim u -> length ry = dim v ->
  rowof u (fun q w k => entry u rx q w k * entry v ry q w 0)%R = scale_copies (instances u rx) ry.
Proof.
  unfold scale_copies, instances. revert v rx ry. induction u as [|[m a] u IH]; intros [|[n b] v] rx ry M Z Lx Ly; try discriminate; [destruct ry; [reflexivity|discriminate]|]. cbn [map fst] in M. injection M as <- M. inversion Z as [|? ? Zb Z']; subst. cbn [snd] in Zb. rewrite dim_cons in Lx, Ly. unfold mi_dim in *. cbn [fst snd] in *.
  assert (Db : ir_dim b = 1) by (unfold ir_dim; lia). rewrite Db in *. cbn [rowof blocks combine flat_map fst snd]. unfold mi_dim. cbn [fst snd].
  transitivity (concat (map2 (fun r k => map (Rmult k) r) (group_rows m (ir_dim a) (firstn (m * ir_dim a) rx)) (firstn m ry)) ++ concat (map2 (fun r k => map (Rmult k) r) (flat_map (fun '(m, b) => group_rows (fst m) (ir_dim (snd m)) b) (combine u (blocks u (skipn (m * ir_dim a) rx)))) (skipn m ry))).
  - f_equal.
    + transitivity (scale_copies (group_rows m (ir_dim a) (firstn (m * ir_dim a) rx)) (firstn m ry)); [|reflexivity]. rewrite <- concat_tab2_scaled by (rewrite firstn_length; lia). f_equal. apply tab2_ext. intros w k Hw Hk. unfold entry. cbn [nth blocks snd]. unfold mi_dim. cbn [fst snd]. rewrite Db. f_equal. replace (w * 1 + 0) with w by lia. rewrite Nat.mul_1_r. reflexivity.
    + rewrite <- (IH v (skipn (m * ir_dim a) rx) (skipn m ry) M Z') by (rewrite skipn_length; lia). apply rowof_ext. intros q w k _. unfold entry. cbn [nth blocks]. unfold mi_dim. cbn [fst snd]. rewrite Db, Nat.mul_1_r. reflexivity.
  - rewrite <- concat_app. f_equal. rewrite <- map2_app by (rewrite group_rows_length, firstn_length; lia). rewrite firstn_skipn. reflexivity.
Qed.
(* scaling by a scalar of parity q multiplies the parity by q *)
Definition scaled_entry (m n : mulirrep) : mulirrep := (fst m, Irrep (ir_l (snd m)) (pmul (ir_p (snd m)) (ir_p (snd n)))).
Lemma mul_scalars_row cg u v rx ry : scalar_coupling cg -> map fst u = map fst v -> Forall (fun m => ir_l (snd m) = 0) v -> length rx = dim u -> length ry = dim v ->
  bil_out (ew_paths NComponent None u v) = map2 scaled_entry u v /\
  bil_row cg (ew_paths NComponent None u v) u v rx ry = scale_copies (instances u rx) ry.
Proof.
  intros HC M Z Lx Ly. assert (Ep : ew_paths NComponent None u v = map (fun '(k, ((m, a), (_, b))) => let c := Irrep (ir_l a) (pmul (ir_p a) (ir_p b)) in BP k k (pairs_diag m) m c (norm_factor NComponent a b c)) (enumerate (combine u v))).
  { unfold ew_paths. rewrite flat_map_concat_map. rewrite (map_ext_in _ (fun t => [ (fun '(k, ((m, a), (_, b))) => let c := Irrep (ir_l a) (pmul (ir_p a) (ir_p b)) in BP k k (pairs_diag m) m c (norm_factor NComponent a b c)) t])).
    - generalize (enumerate (combine u v)). intros l. induction l as [|t l IH]; [reflexivity|]. cbn [map concat app]. f_equal. exact IH.
    - intros [k [[m a] [n b]]] Ht. apply enumerate_in in Ht. apply nth_error_In in Ht. apply in_combine_r in Ht. rewrite Forall_forall in Z. specialize (Z _ Ht). cbn [snd] in Z. cbn [passes]. rewrite filter_all.
      assert (Em : ir_mul a b = [Irrep (ir_l a) (pmul (ir_p a) (ir_p b))]). { unfold ir_mul. rewrite Z. replace (Z.to_nat (Z.abs (Z.of_nat (ir_l a) - Z.of_nat 0))) with (ir_l a) by lia. replace (ir_l a + 0 + 1 - ir_l a) with 1 by lia. reflexivity. } rewrite Em. reflexivity. }
  assert (Luv : length u = length v) by (rewrite <- (map_length fst u), M, map_length; reflexivity).
  assert (Eo : bil_out (ew_paths NComponent None u v) = map2 scaled_entry u v).
  { rewrite Ep. unfold bil_out, map2. rewrite map_map. rewrite <- (enumerate_snd (combine u v)) at 2. rewrite map_map. apply map_ext. intros [k [[m a] [n b]]]. reflexivity. }
  split; [exact Eo|]. unfold bil_row. rewrite Eo. rewrite <- (scaled_rowof u v rx ry M Z Lx Ly).
  assert (G : forall u v F H, length u = length v -> (forall q w k, inside u q w k -> F q w k = H q w k) -> rowof (map2 scaled_entry u v) F = rowof u H).
  { clear. induction u as [|[m a] u IH]; intros [|[n b] v] F H L E; try discriminate; [reflexivity|]. rewrite map2_cons. unfold scaled_entry at 1. cbn [rowof fst snd]. change (ir_dim (Irrep (ir_l a) (pmul (ir_p a) (ir_p b)))) with (ir_dim a). f_equal.
    - f_equal. apply tab2_ext. intros w k Hw Hk. apply E. exists m, a. auto.
    - apply IH; [cbn in L; lia|]. intros q w k (m' & a' & E1 & E2). apply E. exists m', a'. auto. }
  apply G; [exact Luv|]. intros q w k (m & a & E1 & Hw & Hk). assert (Lq : q < length u) by (apply nth_error_Some; congruence).
  destruct (nth_error v q) as [[n b]|] eqn:E2; [|apply nth_error_None in E2; lia].
  assert (Eq : nth q (ew_paths NComponent None u v) dpath = let c := Irrep (ir_l a) (pmul (ir_p a) (ir_p b)) in BP q q (pairs_diag m) m c (norm_factor NComponent a b c)).
  { rewrite Ep. rewrite (nth_map_at _ _ _ (0, (d0, d0))) by (unfold enumerate; rewrite combine_length, seq_length, combine_length; lia). rewrite nth_enumerate by (rewrite combine_length; lia). cbn [snd]. rewrite combine_nth by exact Luv. rewrite (nth_error_nth _ _ _ E1), (nth_error_nth _ _ _ E2). reflexivity. }
  rewrite Eq. cbv zeta. unfold path_val. cbn [b_in1 b_in2 b_pairs b_mul b_out b_alpha]. rewrite (nth_error_nth _ _ _ E1), (nth_error_nth _ _ _ E2). cbn [snd ir_l]. unfold pairs_diag. rewrite (nth_map_at _ _ _ 0) by (rewrite seq_length; exact Hw). rewrite seq_nth by exact Hw. cbn [Nat.add].
  rewrite Forall_forall in Z. specialize (Z _ (nth_error_In _ _ E2)). cbn [snd] in Z. assert (Db : ir_dim b = 1) by (unfold ir_dim; lia). rewrite Db, Z. cbn [norm_factor]. change (ir_dim (Irrep (ir_l a) _)) with (ir_dim a).
  rewrite (rsum_ext (ir_dim a) _ (fun e => (if k =? e then 1 else 0) * (/ sqrt (INR (ir_dim a)) * entry u rx q w e * entry v ry q w 0))%R).
  - rewrite rsum_delta_r by exact Hk. field. apply Rgt_not_eq, sqrt_lt_R0. apply lt_0_INR. unfold ir_dim. lia.
  - intros e He. cbn [rsum]. rewrite HC by (unfold ir_dim in *; assumption). rewrite (Nat.eqb_sym k e). fold (ir_dim a). destruct (e =? k); ring.
Qed.

Lemma scaled_flat u v : map fst u = map fst v -> flat (map2 scaled_entry u v) = map2 (fun a b => Irrep (ir_l a) (pmul (ir_p a) (ir_p b))) (flat u) (flat v).
Proof.
  revert v. induction u as [|[m a] u IH]; intros [|[n b] v] M; try discriminate; [reflexivity|]. cbn [map fst] in M. injection M as <- M. rewrite map2_cons. unfold scaled_entry at 1. cbn [fst snd]. rewrite !flat_cons, map2_app by (rewrite !repeat_length; reflexivity). rewrite IH by exact M. f_equal.
  clear. induction m as [|m IH]; [reflexivity|]. cbn [repeat]. rewrite map2_cons, <- IH. reflexivity.
Qed.
Lemma scalars_one u v : length u = length v -> Forall (fun ir => ir_l ir = 0) v -> Forall2 one_scalar u v.
Proof. revert v. induction u as [|a u IH]; intros [|b v] L F; try discriminate; constructor; inversion F; subst; [right; assumption|]. apply IH; [cbn in L; lia|assumption]. Qed.
Lemma flat_Forall (P : irrep -> Prop) x : Forall (fun m => P (snd m)) x -> Forall P (flat x).
Proof. intros F. apply Forall_forall. intros ir Hi. unfold flat in Hi. apply in_flat_map in Hi as ([m a] & Hm & Hr). apply repeat_spec in Hr as ->. rewrite Forall_forall in F. apply (F _ Hm). Qed.
Lemma elementwise_scalars cg x y s : scalar_coupling cg -> coherent x -> coherent y -> broadcast_shapes (lead x) (lead y) = Ok s -> (exists u v, align_two_irreps (irr x) (irr y) = Ok (u, v)) ->
  Forall (fun m => ir_l (snd m) = 0) (irr y) ->
  exists z, elementwise_tensor_product cg NComponent None x y = Ok z /\ lead z = s /\ coherent z /\
    flat (irr z) = map2 (fun a b => Irrep (ir_l a) (pmul (ir_p a) (ir_p b))) (flat (irr x)) (flat (irr y)) /\
    forall i, valid s i -> arr z i = scale_copies (instances (irr x) (arr x (bidx (lead x) i))) (arr y (bidx (lead y) i)).
Proof.
  intros HC Hx Hy E (u & v & Al) Z. destruct (align_sound _ _ _ _ Al) as (M & Fu & Fv & N). assert (Zv : Forall (fun m => ir_l (snd m) = 0) v).
  { apply Forall_forall. intros m Hm. destruct (align_In _ _ _ _ Al) as [_ I]. specialize (I m Hm). apply in_map_iff in I as (n & En & Hn). rewrite <- En. rewrite Forall_forall in Z. apply Z, Hn. }
  destruct (elementwise_yields cg NComponent None x y s u v Hx Hy ltac:(discriminate) E Al) as (z & -> & E1 & E2 & E3 & E4). exists z. split; [reflexivity|]. split; [exact E2|]. split; [exact E3|].
  assert (Du : dim u = dim (irr x)) by (rewrite !dim_flat, Fu; reflexivity). assert (Dv : dim v = dim (irr y)) by (rewrite !dim_flat, Fv; reflexivity).
  split.
  - destruct (mul_scalars_row cg u v (repeat 0%R (dim u)) (repeat 0%R (dim v)) HC M Zv) as [O _]; try apply repeat_length. rewrite E1, O, scaled_flat by exact M. rewrite Fu, Fv. reflexivity.
  - intros i Hi. rewrite E4 by exact Hi. destruct (broadcast_valid _ _ _ _ E Hi) as [Vx Vy]. destruct (mul_scalars_row cg u v (arr x (bidx (lead x) i)) (arr y (bidx (lead y) i)) HC M Zv) as [_ Q]; [rewrite Du; apply Hx, Vx|rewrite Dv; apply Hy, Vy|]. rewrite Q, !instances_cut, Fu. reflexivity.
Qed.
(* x * y with y made of scalars: copy by copy *)
Theorem C22_mul_by_scalars cg x y s : scalar_coupling cg -> coherent x -> coherent y -> broadcast_shapes (lead x) (lead y) = Ok s -> (exists u v, align_two_irreps (irr x) (irr y) = Ok (u, v)) ->
  Forall (fun m => ir_l (snd m) = 0) (irr y) ->
  exists z, ia_mul cg x y = Ok z /\ lead z = s /\ coherent z /\
    flat (irr z) = map2 (fun a b => Irrep (ir_l a) (pmul (ir_p a) (ir_p b))) (flat (irr x)) (flat (irr y)) /\
    forall i, valid s i -> arr z i = concat (map2 (fun copy k => map (Rmult k) copy) (instances (irr x) (arr x (bidx (lead x) i))) (arr y (bidx (lead y) i))).
Proof.
  intros HC Hx Hy E (u & v & Al) Z. rewrite (C22_mul_is_elementwise cg x y u v Al); [apply elementwise_scalars; eauto|]. destruct (align_sound _ _ _ _ Al) as (_ & _ & _ & N). apply scalars_one; [rewrite <- !num_irreps_flat; exact N|]. apply (flat_Forall (fun ir => ir_l ir = 0)), Z.
Qed.
Lemma align_with_scalars x w : x <> [] -> w = num_irreps x -> Forall (fun m => 0 < fst m) x -> exists u v, align_two_irreps x [(w, Irrep 0 Even)] = Ok (u, v).
Proof.
  intros H -> P. destruct x as [|m x]; [contradiction|]. apply align_total; [unfold num_irreps; cbn; lia|exact P|]. constructor; [|constructor]. inversion P; subst. cbn [fst]. unfold num_irreps. cbn. lia.
Qed.
(* x * array with one number per irrep copy *)
Theorem C22_mul_per_copy cg x s w b s' : scalar_coupling cg -> coherent x -> irr x <> [] -> w = num_irreps (irr x) -> Forall (fun m => 0 < fst m) (irr x) -> broadcast_shapes (lead x) s = Ok s' -> (forall i, valid s i -> length (b i) = w) ->
  exists z, mul_bare cg x s w b = Ok z /\ lead z = s' /\ coherent z /\ flat (irr z) = flat (irr x) /\
    forall i, valid s' i -> arr z i = concat (map2 (fun copy k => map (Rmult k) copy) (instances (irr x) (arr x (bidx (lead x) i))) (b (bidx s i))).
Proof.
  intros HC Hx He Hw P E Lb. unfold mul_bare. rewrite <- Hw, Nat.eqb_refl. assert (Dw : dim [(w, Irrep 0 Even)] = w) by (unfold dim; cbn; lia). assert (Lb' : forall i, valid s i -> length (b i) = dim [(w, Irrep 0 Even)]) by (intros; rewrite Dw; auto).
  pose proof (new_yields [(w, Irrep 0 Even)] s b Lb') as Y. rewrite Dw in Y. destruct Y as (y & -> & Y1 & Y2 & Y3 & Y4). cbn [bind].
  destruct (elementwise_scalars cg x y s' HC Hx Y3) as (z & -> & Z2 & Z3 & Z4 & Z5); [rewrite Y2; exact E|rewrite Y1; apply align_with_scalars; assumption|rewrite Y1; repeat constructor|].
  exists z. split; [reflexivity|]. split; [exact Z2|]. split; [exact Z3|]. split.
  - rewrite Z4, Y1. cbn [flat flat_map]. rewrite app_nil_r, Hw, num_irreps_flat. generalize (flat (irr x)). intros l. induction l as [|a l IH]; [reflexivity|]. cbn [length repeat]. rewrite map2_cons, IH. f_equal. destruct a as [l' []]; reflexivity.
  - intros i Hi. rewrite Z5 by exact Hi. destruct (broadcast_valid _ _ _ _ E Hi) as [_ Vb]. rewrite Y2, Y4 by exact Vb. reflexivity.
Qed.
Theorem C22_div_per_copy cg x s w b s' : scalar_coupling cg -> coherent x -> irr x <> [] -> w = num_irreps (irr x) -> Forall (fun m => 0 < fst m) (irr x) -> broadcast_shapes (lead x) s = Ok s' -> (forall i, valid s i -> length (b i) = w) ->
  exists z, div_bare cg x s w b = Ok z /\ lead z = s' /\ coherent z /\ flat (irr z) = flat (irr x) /\
    forall i, valid s' i -> arr z i = concat (map2 (fun copy k => map (fun v => v / k)%R copy) (instances (irr x) (arr x (bidx (lead x) i))) (b (bidx s i))).
Proof.
  intros HC Hx He Hw P E Lb. destruct (C22_mul_per_copy cg x s w (fun i => map (fun v => 1 / v)%R (b i)) s' HC Hx He Hw P E) as (z & Ez & Z2 & Z3 & Z4 & Z5); [intros i Hi; rewrite map_length; auto|].
  exists z. split; [|split; [exact Z2|split; [exact Z3|split; [exact Z4|]]]].
  - unfold div_bare, mul_bare in *. rewrite <- Hw, Nat.eqb_refl in *. exact Ez.
  - intros i Hi. rewrite Z5 by exact Hi. f_equal. generalize (instances (irr x) (arr x (bidx (lead x) i))) (b (bidx s i)). intros l k. revert k. induction l as [|r l IH]; intros [|c k]; try reflexivity. cbn [map]. rewrite !map2_cons, IH. f_equal. apply map_ext. intros v. unfold Rdiv. ring.
Qed.
(* other widths are rejected when some irrep is not a scalar *)
Theorem C22_bare_rejects cg x s w b : (exists ir, In ir (flat (irr x)) /\ 0 < ir_l ir) -> w <> num_irreps (irr x) -> w <> 1 -> mul_bare cg x s w b = Err ValueError /\ div_bare cg x s w b = Err ValueError.
Proof.
  intros (ir & Hi & Hl) N1 N2. unfold mul_bare, div_bare. destruct (Nat.eqb_spec w (num_irreps (irr x))); [contradiction|]. destruct (lmax (irr x)) as [L|e] eqn:EL.
  - cbn [bind]. destruct (IrrepsProps.C09_lmax _ _ EL) as [_ H]. specialize (H ir Hi). destruct (Nat.ltb_spec 0 L); [|lia]. destruct (Nat.eqb_spec w 1); [contradiction|]. split; reflexivity.
  - exfalso. assert (Q : flat (irr x) = []) by (apply IrrepsProps.C09_lmax_error; eauto). rewrite Q in Hi. destruct Hi.
Qed.
(* one number per row: as x * s *)
Theorem C22_bare_one cg x s b : num_irreps (irr x) <> 1 -> flat (irr x) <> [] -> mul_bare cg x s 1 b = mul_scalar x s (fun i => nth 0 (b i) 0%R) /\ div_bare cg x s 1 b = div_scalar x s (fun i => nth 0 (b i) 0%R).
Proof.
  intros N F. unfold mul_bare, div_bare. destruct (Nat.eqb_spec 1 (num_irreps (irr x))); [congruence|]. destruct (lmax (irr x)) as [L|e] eqn:EL; [|exfalso; apply F; apply IrrepsProps.C09_lmax_error; eauto]. cbn [bind]. change (1 =? 1) with true. cbn [negb]. rewrite andb_false_r. split; reflexivity.
Qed.
(* x / y *)
Theorem C22_div_by_scalars cg x y s : scalar_coupling cg -> coherent x -> coherent y -> broadcast_shapes (lead x) (lead y) = Ok s -> (exists u v, align_two_irreps (irr x) (irr y) = Ok (u, v)) ->
  flat (irr y) <> [] -> Forall (fun m => ir_l (snd m) = 0) (irr y) -> Forall (fun c => c <> None) (chunks y) ->
  exists z, ia_div cg x y = Ok z /\ lead z = s /\ coherent z /\
    flat (irr z) = map2 (fun a b => Irrep (ir_l a) (pmul (ir_p a) (ir_p b))) (flat (irr x)) (flat (irr y)) /\
    forall i, valid s i -> arr z i = concat (map2 (fun copy k => map (fun v => v / k)%R copy) (instances (irr x) (arr x (bidx (lead x) i))) (arr y (bidx (lead y) i))).
Proof.
  intros HC Hx Hy E Al F Z Cn. unfold ia_div. destruct (irr y) as [|m0 y0] eqn:Ey; [exfalso; apply F; reflexivity|]. rewrite <- Ey in *. clear Ey. destruct (lmax (irr y)) as [L|e] eqn:EL; [|exfalso; apply F; apply IrrepsProps.C09_lmax_error; eauto]. cbn [bind].
  destruct (IrrepsProps.C09_lmax _ _ EL) as [(ir & Hi & HL) _]. assert (L = 0). { pose proof (flat_Forall (fun ir => ir_l ir = 0) _ Z) as Q. rewrite Forall_forall in Q. specialize (Q ir Hi). cbn beta in Q. lia. } subst L. change (0 <? 0) with false. cbn [orb].
  destruct Al as (u & v & Al). destruct (align_sound _ _ _ _ Al) as (_ & _ & _ & N). rewrite N, Nat.eqb_refl. cbn [negb].
  assert (Cn' : existsb (fun c : option chunk => match c with None => true | Some _ => false end) (chunks y) = false). { clear - Cn. induction Cn as [|c l H F IH]; [reflexivity|]. cbn [existsb]. rewrite IH. destruct c; [reflexivity|contradiction]. }
  rewrite Cn'. unfold ia_rdiv. rewrite EL. cbn [bind]. change (0 <? 0) with false. cbn [orb]. rewrite Cn'.
  destruct (new_yields (irr y) (lead y) (fun i => map (fun v => 1 / v)%R (arr y i))) as (y' & -> & Y1 & Y2 & Y3 & Y4); [intros i Hi'; rewrite map_length; apply Hy, Hi'|]. cbn [bind].
  rewrite H. change (0 <? 0) with false. cbn [orb bind]. destruct (elementwise_scalars cg x y' s HC Hx Y3) as (z & -> & Z2 & Z3 & Z4 & Z5); [rewrite Y2; exact E|rewrite Y1; eauto|rewrite Y1; exact Z|]. exists z. split; [reflexivity|]. split; [exact Z2|]. split; [exact Z3|]. split; [rewrite Z4, Y1; reflexivity|].
  intros i Hi'. rewrite Z5 by exact Hi'. destruct (broadcast_valid _ _ _ _ E Hi') as [_ Vy]. rewrite Y2, Y4 by exact Vy. unfold scale_copies. f_equal. generalize (instances (irr x) (arr x (bidx (lead x) i))) (arr y (bidx (lead y) i)). intros l k. revert k. induction l as [|r l IH]; intros [|c k]; try reflexivity. cbn [map]. rewrite !map2_cons, IH. f_equal. apply map_ext. intros q. unfold Rdiv. ring.
Qed.
Theorem C22_div_rejects cg x y : (exists ir, In ir (flat (irr y)) /\ 0 < ir_l ir) \/ num_irreps (irr x) <> num_irreps (irr y) \/ flat (irr y) = [] \/ In None (chunks y) -> ia_div cg x y = Err ValueError.
Proof.
  intros H. unfold ia_div. destruct (irr y) as [|m0 y0] eqn:Ey; [reflexivity|]. rewrite <- Ey in *. clear Ey. destruct (lmax (irr y)) as [L|e] eqn:EL.
  - cbn [bind]. destruct H as [(ir & Hi & Hl)|[N|[Fl|Hn]]].
    + destruct (IrrepsProps.C09_lmax _ _ EL) as [_ H]. specialize (H ir Hi). destruct (Nat.ltb_spec 0 L); [reflexivity|lia].
    + destruct (Nat.eqb_spec (num_irreps (irr x)) (num_irreps (irr y))); [contradiction|]. rewrite orb_true_r. reflexivity.
    + exfalso. destruct (proj2 (IrrepsProps.C09_lmax_error (irr y)) Fl) as [e Q]. congruence.
    + destruct (_ || _); [reflexivity|]. assert (Q : existsb (fun c : option chunk => match c with None => true | Some _ => false end) (chunks y) = true) by (apply existsb_exists; exists None; auto). rewrite Q. reflexivity.
  - unfold lmax in EL. destruct (length (irr y) =? 0); [injection EL as <-; reflexivity|]. destruct (ls (irr y)); [injection EL as <-; reflexivity|discriminate].
Qed.
Example C22_products_nonvacuous : align_two_irreps [(2, Irrep 1 Odd); (1, Irrep 0 Odd)] [(1, Irrep 0 Odd); (2, Irrep 0 Even)] = Ok ([(1, Irrep 1 Odd); (1, Irrep 1 Odd); (1, Irrep 0 Odd)], [(1, Irrep 0 Odd); (1, Irrep 0 Even); (1, Irrep 0 Even)]) /\
  (exists cg, scalar_coupling cg) /\ scale_copies [[1; 2; 3]; [4; 5; 6]; [7]]%R [2; 0; -1]%R = [2 * 1; 2 * 2; 2 * 3; 0 * 4; 0 * 5; 0 * 6; -1 * 7]%R.
Proof.
  split; [reflexivity|]. split; [|reflexivity]. exists (fun l _ _ i _ k => if i =? k then (/ sqrt (INR (2 * l + 1)))%R else 0%R). intros l i k _ _. reflexivity.
Qed.
