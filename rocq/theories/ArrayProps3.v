(* C20, C23, C24, C32: reductions, stacking, the group action and invariants.  Vocabulary: see ArrayProps.v. *)
From Coq Require Import Reals Lra Permutation.
From Verif Require Import PyBase PermModel PermProofs IrrepsModel IrrepsProofs IrrepsProofs2 ArrayModel ArrayProofs ArrayOps RechunkProofs SliceProofs SliceProofs2 ArithProofs LeadModel LeadProofs BlockProofs AxisProofs StackProofs BilinProofs ActProofs EquivProofs EquivProofs2 HistoryProofs FlagProofs ArrayProps ArrayProps2.
Open Scope nat_scope.

(* ---------- C20 ---------- *)
Theorem C20_concatenate_irreps s xs : xs <> [] -> Forall (fun y => coherent y /\ lead y = s) xs ->
  yields (concat_last xs) (flat_map irr xs) s (fun i => flat_map (fun y => arr y i) xs).
Proof. exact (concat_last_yields s xs). Qed.
Lemma nth_map_in {A B} (f : A -> B) l d d' k : k < length l -> nth k (map f l) d = f (nth k l d').
Proof. intros H. rewrite (nth_indep _ d (f d')) by (rewrite map_length; exact H). apply map_nth. Qed.
Lemma NoDup_app_i {A} (l1 l2 : list A) : NoDup l1 -> NoDup l2 -> (forall u, In u l1 -> In u l2 -> False) -> NoDup (l1 ++ l2).
Proof.
  intros H1 H2 D. induction H1 as [|a l1 Ha H1 IH]; [exact H2|]. cbn [app]. constructor; [|apply IH; intros u Hu; apply D; right; exact Hu].
  intros H. apply in_app_iff in H as [H|H]; [auto|]. apply (D a); [left; reflexivity|exact H].
Qed.
Lemma locate_offset : forall sizes a q, a < length sizes -> q < nth a sizes 0 -> locate sizes (sum (firstn a sizes) + q) = (a, q).
Proof.
  induction sizes as [|n sizes IH]; intros a q Ha Hq; cbn [length] in Ha; [lia|]. destruct a as [|a].
  - cbn [nth] in Hq. cbn [firstn locate]. change (sum [] + q) with q. destruct (Nat.ltb_spec q n); [reflexivity|lia].
  - cbn [firstn locate]. change (sum (n :: firstn a sizes)) with (n + sum (firstn a sizes)). destruct (Nat.ltb_spec (n + sum (firstn a sizes) + q) n); [lia|].
    replace (n + sum (firstn a sizes) + q - n) with (sum (firstn a sizes) + q) by lia. rewrite IH by (try lia; exact Hq). reflexivity.
Qed.
Lemma nth_replace_at {A} k (a d : A) l : k < length l -> nth k (replace_at k a l) d = a.
Proof. intros H. unfold replace_at. rewrite app_nth2 by (rewrite firstn_length; lia). rewrite firstn_length, Nat.min_l by lia. rewrite Nat.sub_diag. reflexivity. Qed.
Lemma replace_same {A} k (l : list A) d : k < length l -> replace_at k (nth k l d) l = l.
Proof. unfold replace_at. revert l. induction k as [|k IH]; intros [|c l] H; cbn [length] in H; try lia; [reflexivity|]. change (c :: (firstn k l ++ nth k l d :: skipn (S k) l) = c :: l). f_equal. apply IH. lia. Qed.
Lemma replace_replace {A} k (a b : A) l : k < length l -> replace_at k a (replace_at k b l) = replace_at k a l.
Proof.
  revert l. induction k as [|k IH]; intros [|c l] H; cbn [length] in H; try lia; [reflexivity|].
  change (c :: replace_at k a (replace_at k b l) = c :: replace_at k a l). f_equal. apply IH. lia.
Qed.
(* concatenate on a leading axis k: array number a occupies the positions from sum of the sizes before it *)
Theorem C20_concatenate_leading xs x s axis k : xs <> [] ->
  Forall (fun y => coherent y /\ irr y = x /\ length (lead y) = S (length s) /\ remove_at k (lead y) = s) xs ->
  standard_axis axis (S (S (length s))) = Ok k -> k <= length s ->
  exists rows, yields (concatenate xs axis) x (insert_at k (sum (map (fun y => nth k (lead y) 0) xs)) s) rows /\
    forall a y i, nth_error xs a = Some y -> valid (lead y) i ->
      rows (replace_at k (sum (map (fun y => nth k (lead y) 0) (firstn a xs)) + nth k i 0) i) = arr y i.
Proof.
  intros Hne Hall Hk Hle. eexists. split; [apply concatenate_yields; eassumption|]. intros a y i Ea Hi. cbv beta.
  assert (Hy : In y xs) by (eapply nth_error_In, Ea). rewrite Forall_forall in Hall. destruct (Hall y Hy) as (_ & _ & Ly & _).
  assert (Li : length i = S (length s)) by (rewrite (valid_length _ _ Hi); exact Ly).
  rewrite nth_replace_at by lia. assert (Ha : a < length xs) by (apply nth_error_Some; congruence).
  assert (En : nth a (sizes_at k xs) 0 = nth k (lead y) 0).
  { unfold sizes_at. rewrite (nth_map_in _ _ _ dflt_ia) by exact Ha. rewrite (nth_error_nth _ _ _ Ea). reflexivity. }
  unfold sizes_at at 1. rewrite <- firstn_map. fold (sizes_at k xs).
  rewrite locate_offset.
  - rewrite replace_replace by lia. rewrite replace_same by lia. rewrite (nth_error_nth _ _ _ Ea). reflexivity.
  - unfold sizes_at. rewrite map_length. exact Ha.
  - rewrite En. clear -Hi Hle Ly. assert (k < length (lead y)) by lia. clear Hle Ly. revert k H. induction Hi as [|u d i s0 Hu Hi IH]; intros [|k] H; cbn in *; try lia. apply IH. lia.
Qed.
Theorem C20_stack xs x s axis k : xs <> [] -> Forall (fun y => coherent y /\ irr y = x /\ lead y = s) xs ->
  standard_axis axis (S (S (length s))) = Ok k -> k <= length s ->
  exists rows, yields (stack xs axis) x (insert_at k (length xs) s) rows /\
    forall a y i, nth_error xs a = Some y -> valid s i -> rows (insert_at k a i) = arr y i.
Proof.
  intros Hne Hall Hk Hle. eexists. split; [eapply stack_yields; eassumption|]. intros a y i Ea Hi. cbv beta. pose proof (valid_length _ _ Hi) as Li.
  replace (nth k (insert_at k a i) 0) with a. 2: { unfold insert_at. rewrite app_nth2 by (rewrite firstn_length; lia). rewrite firstn_length, Nat.min_l by lia. rewrite Nat.sub_diag. reflexivity. }
  rewrite (nth_error_nth _ _ _ Ea). f_equal. clear -Li Hle. assert (H : k <= length i) by lia. clear -H. revert i H. induction k as [|k IH]; intros [|c i] H; cbn [length] in H; try lia; try reflexivity.
  change (c :: remove_at k (insert_at k a i) = c :: i). f_equal. apply IH. lia.
Qed.
(* the reduced coordinates dropped (or set to 0 when keepdims) *)
Fixpoint project (kd : bool) (mask : list bool) (j : idx) : idx :=
  match mask, j with
  | true :: mask, _ :: j => if kd then 0 :: project kd mask j else project kd mask j
  | false :: mask, k :: j => k :: project kd mask j
  | _, _ => j
  end.
Lemma fibre_spec kd : forall mask s i, length mask = length s -> valid (reduced_shape kd mask s) i ->
  NoDup (fibre kd mask s i) /\ forall j, In j (fibre kd mask s i) <-> valid s j /\ project kd mask j = i.
Proof.
  induction mask as [|b mask IH]; intros [|d s] i L Hi; try discriminate; cbn [length] in L.
  - cbn. split; [repeat constructor; intros []|]. intros j. split.
    + intros [<-|[]]. auto.
    + intros [H <-]. auto.
  - assert (G : forall i', valid (reduced_shape kd mask s) i' -> NoDup (fibre kd mask s i') /\ forall j, In j (fibre kd mask s i') <-> valid s j /\ project kd mask j = i') by (intros i' Hi'; apply IH; [lia|exact Hi']).
    destruct b; cbn [fibre reduced_shape] in *.
    + set (i' := if kd then tl i else i). assert (Hi' : valid (reduced_shape kd mask s) i') by (unfold i'; destruct kd; [inversion Hi; subst; assumption|exact Hi]).
      destruct (G i' Hi') as [N M]. split.
      * clear M. set (F := fibre kd mask s i') in *. assert (Q : forall n a, NoDup (flat_map (fun k => map (cons k) F) (seq a n))).
        { induction n as [|n IHn]; intros a; [constructor|]. cbn [seq flat_map]. apply NoDup_app_i; [apply FinFun.Injective_map_NoDup; [intros u v E; congruence|exact N]|apply IHn|].
          intros u Hu Hu'. apply in_map_iff in Hu as (w & <- & _). apply in_flat_map in Hu' as (k & Hk & Hw). apply in_map_iff in Hw as (w' & E & _). injection E as -> _. apply in_seq in Hk. lia. }
        apply Q.
      * intros j. rewrite in_flat_map. split.
        -- intros (k & Hk & Hj). apply in_map_iff in Hj as (j' & <- & Hj'). apply in_seq in Hk. apply M in Hj' as [V E]. split; [constructor; [lia|exact V]|].
           cbn [project]. unfold i' in E. destruct kd; [|exact E]. rewrite E. inversion Hi as [|z ? ? ? Hz]; subst. cbn. f_equal. lia.
        -- intros [V E]. inversion V as [|k ? j' ? Hk Hj']; subst j. exists k. split; [apply in_seq; lia|]. apply in_map. apply M. split; [exact Hj'|]. cbn [project] in E. unfold i'. destruct kd; [rewrite <- E; reflexivity|exact E].
    + inversion Hi as [|z ? i' ? Hz Hi']; subst. cbn [hd tl]. destruct (G i' Hi') as [N M]. split; [apply FinFun.Injective_map_NoDup; [intros u v E; congruence|exact N]|].
      intros j. rewrite in_map_iff. split.
      * intros (j' & <- & Hj'). apply M in Hj' as [V <-]. split; [constructor; assumption|reflexivity].
      * intros [V E]. inversion V as [|k ? j' ? Hk Hj']; subst j. cbn [project] in E. injection E as -> E. exists j'. split; [reflexivity|]. apply M. auto.
Qed.
Lemma nth_zipR f a b k : length a = length b -> k < length a -> nth k (zipR f a b) 0%R = f (nth k a 0%R) (nth k b 0%R).
Proof. revert b k. induction a as [|u a IH]; intros [|v b] k L Hk; cbn [length] in *; try lia. rewrite zipR_cons. destruct k as [|k]; [reflexivity|]. cbn [nth]. apply IH; lia. Qed.
Lemma nth_rowsum w k rows : Forall (fun r => length r = w) rows -> k < w -> nth k (rowsum w rows) 0%R = fold_right Rplus 0%R (map (fun r => nth k r 0%R) rows).
Proof.
  intros F Hk. induction F as [|r rows Hr F IH]; [unfold rowsum; cbn; apply nth_repeat|]. rewrite rowsum_cons. cbn [map fold_right]. rewrite nth_zipR by (rewrite ?rowsum_length; auto; lia). rewrite IH. reflexivity.
Qed.
Definition averaged (op : rop) (n : nat) (v : R) : R := match op with OSum => v | OMean => (v / INR n)%R end.
(* sum / mean over leading axes: feature k at i is the sum (average) of feature k over the positions that project to i *)
Theorem C20_reduce_leading op x axes kd : coherent x -> axes <> [] ->
  let mask := map (fun k => existsb (Nat.eqb k) axes) (seq 0 (length (lead x))) in
  exists rows, yields (reduce_lead op x axes kd) (irr x) (reduced_shape kd mask (lead x)) rows /\
    forall i, valid (reduced_shape kd mask (lead x)) i -> exists js, NoDup js /\ (forall j, In j js <-> valid (lead x) j /\ project kd mask j = i) /\
      forall k, k < dim (irr x) -> nth k (rows i) 0%R = averaged op (length js) (fold_right Rplus 0%R (map (fun j => nth k (arr x j) 0%R) js)).
Proof.
  intros H Ha mask. eexists. split; [apply reduce_lead_yields; assumption|]. intros i Hi.
  exists (fibre kd mask (lead x) i). destruct (fibre_spec kd mask (lead x) i) as [N M]; [unfold mask; rewrite map_length, seq_length; reflexivity|exact Hi|].
  split; [exact N|]. split; [exact M|]. intros k Hk. fold (reduced_axes (length (lead x)) axes). cbv beta zeta. change (reduced_axes (length (lead x)) axes) with mask.
  assert (F : Forall (fun r => length r = dim (irr x)) (map (arr x) (fibre kd mask (lead x) i))). { apply Forall_map, Forall_forall. intros j Hj. apply M in Hj as [V _]. apply H, V. }
  assert (Q : nth k (rowsum (dim (irr x)) (map (arr x) (fibre kd mask (lead x) i))) 0%R = fold_right Rplus 0%R (map (fun j => nth k (arr x j) 0%R) (fibre kd mask (lead x) i))).
  { rewrite nth_rowsum by assumption. rewrite map_map. reflexivity. }
  destruct op; cbn [rdiv averaged]; [exact Q|]. rewrite (nth_map_in _ _ _ 0%R) by (rewrite rowsum_length; assumption). rewrite Q. reflexivity.
Qed.
(* the shape: reduced axes disappear, or become 1 with keepdims; the others keep their length and order *)
Theorem C20_reduced_shape op x axes kd z : reduce_lead op x axes kd = Ok z -> coherent x -> axes <> [] ->
  if kd then length (lead z) = length (lead x) /\ forall k, k < length (lead x) -> nth k (lead z) 0 = if existsb (Nat.eqb k) axes then 1 else nth k (lead x) 0
  else lead z = map (fun k => nth k (lead x) 0) (filter (fun k => negb (existsb (Nat.eqb k) axes)) (seq 0 (length (lead x)))).
Proof.
  intros E H Ha. destruct (C20_reduce_leading op x axes kd H Ha) as (rows & (z' & E' & _ & El & _) & _). rewrite E in E'. injection E' as <-. rewrite El. clear.
  assert (Q : forall f : nat -> bool, if kd then length (reduced_shape kd (map f (seq 0 (length (lead x)))) (lead x)) = length (lead x) /\ forall k, k < length (lead x) -> nth k (reduced_shape kd (map f (seq 0 (length (lead x)))) (lead x)) 0 = if f k then 1 else nth k (lead x) 0
    else reduced_shape kd (map f (seq 0 (length (lead x)))) (lead x) = map (fun k => nth k (lead x) 0) (filter (fun k => negb (f k)) (seq 0 (length (lead x))))); [|exact (Q (fun k => existsb (Nat.eqb k) axes))].
  intros f. generalize (lead x) as s. destruct kd.
  - intros s. assert (G : forall s o, length (reduced_shape true (map f (seq o (length s))) s) = length s /\ forall k, k < length s -> nth k (reduced_shape true (map f (seq o (length s))) s) 0 = if f (o + k) then 1 else nth k s 0); [|exact (G s 0)].
    clear s. induction s as [|d s IH]; intros o; [split; [reflexivity|intros k Hk; inversion Hk]|]. cbn [length seq map]. destruct (IH (S o)) as [I1 I2].
    assert (R : reduced_shape true (f o :: map f (seq (S o) (length s))) (d :: s) = (if f o then 1 else d) :: reduced_shape true (map f (seq (S o) (length s))) s) by (cbn [reduced_shape]; destruct (f o); reflexivity). rewrite R. split; [cbn [length]; congruence|].
    intros [|k] Hk; [rewrite Nat.add_0_r; reflexivity|]. cbn [nth]. rewrite I2 by lia. replace (o + S k) with (S o + k) by lia. reflexivity.
  - intros s. assert (G : forall s o, reduced_shape false (map f (seq o (length s))) s = map (fun k => nth (k - o) s 0) (filter (fun k => negb (f k)) (seq o (length s)))).
    2:{ rewrite (G s 0). apply map_ext. intros k. rewrite Nat.sub_0_r. reflexivity. }
    clear s. induction s as [|d s IH]; intros o; [reflexivity|]. cbn [length seq map filter].
    assert (T : map (fun k => nth (k - o) (d :: s) 0) (filter (fun k => negb (f k)) (seq (S o) (length s))) = map (fun k => nth (k - S o) s 0) (filter (fun k => negb (f k)) (seq (S o) (length s)))).
    { apply map_ext_in. intros k Hk. apply filter_In in Hk as [Hk _]. apply in_seq in Hk. replace (k - o) with (S (k - S o)) by lia. reflexivity. }
    cbn [reduced_shape]. destruct (f o); cbn [negb]; [|cbn [map]; rewrite Nat.sub_diag; cbn [nth]; f_equal]; rewrite IH; symmetry; exact T.
Qed.
(* sum / mean over the irreps axis: one copy per entry, the sum (average) of its copies *)
Theorem C20_reduce_irreps op x : coherent x ->
  exists rows, yields (reduce_mul op x) (map (fun '(_, ir) => (1, ir)) (irr x)) (lead x) rows /\
    forall i k mul ir c, valid (lead x) i -> nth_error (irr x) k = Some (mul, ir) -> c < ir_dim ir ->
      nth c (features (map (fun '(_, ir) => (1, ir)) (irr x)) k (rows i)) 0%R =
      averaged op mul (fold_right Rplus 0%R (map (fun u => nth (u * ir_dim ir + c) (features (irr x) k (arr x i)) 0%R) (seq 0 mul))).
Proof.
  intros H. eexists. split; [apply reduce_mul_yields, H|]. intros i k mul ir c Hi Ek Hc. cbv beta. assert (Hk : k < length (irr x)) by (apply nth_error_Some; congruence).
  assert (GL : forall (m : mulirrep) b, length b = mi_dim m -> Forall (fun r => length r = ir_dim (snd m)) (group_rows (fst m) (ir_dim (snd m)) b)).
  { intros [m j] b Lb. apply (group_rows_ok m (ir_dim j) b). exact Lb. }
  rewrite (features_blockwise (fun '(_, ir) => (1, ir)) (fun m => V_reduce op m i) (valid (lead x))); [| | | |exact Hk].
  - rewrite (nth_error_nth _ _ dflt Ek). unfold V_reduce. cbn [fst snd].
    assert (Lf : length (features (irr x) k (arr x i)) = mul * ir_dim ir).
    { rewrite features_blocks by exact Hk. pose proof (blocks_widths (irr x) (arr x i) (proj1 H i Hi)) as W. clear -W Ek.
      revert k Ek. induction W as [|m b l l' Hm W IH]; intros [|k] Ek; try discriminate; [injection Ek as ->; exact Hm|]. apply IH, Ek. }
    pose proof (GL (mul, ir) (features (irr x) k (arr x i)) Lf) as F. cbn [fst snd] in F.
    assert (Q : nth c (rowsum (ir_dim ir) (group_rows mul (ir_dim ir) (features (irr x) k (arr x i)))) 0%R = fold_right Rplus 0%R (map (fun u => nth (u * ir_dim ir + c) (features (irr x) k (arr x i)) 0%R) (seq 0 mul))).
    { rewrite nth_rowsum by assumption. unfold group_rows. rewrite map_map. f_equal. apply map_ext. intros u. rewrite nth_firstn_lt by exact Hc. apply nth_skipn'. }
    destruct op; cbn [rdiv averaged]; [exact Q|]. rewrite (nth_map_in _ _ _ 0%R) by (rewrite rowsum_length; assumption). rewrite Q. reflexivity.
  - apply H.
  - intros [m j] b Hm Lb. unfold V_reduce. rewrite rdiv_length, rowsum_length; [unfold mi_dim; cbn [fst snd]; lia|]. apply GL, Lb, Hi.
  - intros m b d E. unfold V_reduce. rewrite E. reflexivity.
Qed.
Example C20_nonvacuous : let x := IA [(2, Irrep 0 Even)] [2] (fun i => match i with [0] => [1; 2] | _ => [3; 4] end)%R None None in
  coherent x /\ (exists y, reduce OSum x (Some [0%Z]) false = Ok y /\ lead y = [] /\ arr y [] = [1 + (3 + 0); 2 + (4 + 0)]%R) /\ (exists y, reduce OSum x (Some [(-1)%Z]) false = Ok y /\ irr y = [(1, Irrep 0 Even)]).
Proof.
  intros x. split; [|split; eexists; split; try split; reflexivity]. split; [|split; [apply flags_false|exact I]]. intros i V. cbn in V. unfold x. cbn [arr irr]. destruct i as [|[|k] [|? ?]]; reflexivity.
Qed.

(* ---------- C23 ---------- *)
(* [transform D x] is x.transform_by_*: the matrix D[ir] applied to each copy (irreps_array.py:963-1091).
   [agree a b]: both calls succeed, with the same irreps, shape and array. *)
(* the block-diagonal matrix of the whole Irreps acts in the same way *)
Theorem C23_block_diagonal D x : rep_ok D -> coherent x -> yields (transform D x) (irr x) (lead x) (fun i => matvec (D_irreps D (irr x)) (arr x i)).
Proof. intros HD H. eapply yields_ext; [|apply transform_act; assumption]. intros i Hi. symmetry. apply D_irreps_act; [exact HD|apply H, Hi]. Qed.
Theorem C23_each_copy D x i : rep_ok D -> coherent x -> valid (lead x) i ->
  instances (irr x) (matvec (D_irreps D (irr x)) (arr x i)) = map2 (fun ir r => matvec (D ir) r) (flat (irr x)) (instances (irr x) (arr x i)).
Proof. intros HD H Hi. rewrite D_irreps_act by (auto; apply H, Hi). rewrite !instances_cut. unfold act. apply cut_acts, HD. Qed.
Theorem C23_identity D x : rep_ok D -> acts_trivially D -> coherent x -> yields (transform D x) (irr x) (lead x) (arr x).
Proof. exact (transform_identity D x). Qed.
Theorem C23_composition D1 D2 D x : rep_ok D1 -> rep_ok D2 -> rep_ok D -> composes D1 D2 D -> coherent x ->
  agree (let! y := transform D2 x in transform D1 y) (transform D x).
Proof. exact (transform_compose D1 D2 D x). Qed.
Theorem C23_structural D x : rep_ok D -> coherent x ->
  agree (let! y := ia_sort x in transform D y) (let! y := transform D x in ia_sort y) /\
  agree (let! y := ia_regroup x in transform D y) (let! y := transform D x in ia_regroup y) /\
  agree (let! y := ia_simplify x in transform D y) (let! y := transform D x in ia_simplify y) /\
  agree (let! y := ia_unify x in transform D y) (let! y := transform D x in ia_unify y) /\
  agree (let! y := remove_zero_chunks x in transform D y) (let! y := transform D x in remove_zero_chunks y) /\
  agree (let! y := neg x in transform D y) (let! y := transform D x in neg y) /\
  (forall op, agree (let! y := reduce_mul op x in transform D y) (let! y := transform D x in reduce_mul op y)) /\
  (forall op axes kd, axes <> [] -> agree (let! y := reduce_lead op x axes kd in transform D y) (let! y := transform D x in reduce_lead op y axes kd)).
Proof.
  intros HD H. split; [apply sort_commutes; assumption|]. split; [apply regroup_commutes; assumption|]. split; [apply simplify_commutes; assumption|]. split; [apply unify_commutes; assumption|].
  split; [apply remove_zero_chunks_commutes; assumption|]. split; [apply neg_commutes; assumption|]. split; [intros; apply reduce_mul_commutes; assumption|]. intros; apply reduce_lead_commutes; assumption.
Qed.
Theorem C23_rechunk D x target : rep_ok D -> coherent x -> simplify (irr x) = simplify target ->
  agree (let! y := rechunk x target in transform D y) (let! y := transform D x in rechunk y target).
Proof. exact (rechunk_commutes D x target). Qed.
Theorem C23_filter D x keep drop lm new : rep_ok D -> coherent x -> (keep, drop, lm) <> (None, None, None) ->
  filter_irreps (irr x) keep drop lm = Ok new ->
  (forall m n, In m (irr x) -> In n (irr x) -> snd m = snd n -> wants keep drop lm m = wants keep drop lm n) ->
  agree (let! y := ia_filter x keep drop lm in transform D y) (let! y := transform D x in ia_filter y keep drop lm).
Proof. exact (filter_commutes D x keep drop lm new). Qed.
Theorem C23_slice_by_mul D x sl a b : rep_ok D -> coherent x ->
  slice_indices sl (num_irreps (irr x)) = Ok (Z.of_nat a, Z.of_nat b, 1%Z) -> a <= b -> ~ cuts_zero_chunk x a b ->
  agree (let! y := ia_slice_by_mul x sl in transform D y) (let! y := transform D x in ia_slice_by_mul y sl).
Proof. exact (slice_by_mul_commutes D x sl a b). Qed.
Theorem C23_mul_to_axis D x factor : rep_ok D -> coherent x -> factor <> 0 -> Forall (fun m => fst m mod factor = 0) (irr x) ->
  agree (let! y := mul_to_axis x (Some factor) (-2) in transform D y) (let! y := transform D x in mul_to_axis y (Some factor) (-2)).
Proof. exact (mul_to_axis_commutes D x factor). Qed.
Theorem C23_axis_to_mul D x s n : rep_ok D -> coherent x -> lead x = s ++ [n] ->
  agree (let! y := axis_to_mul x (-2) in transform D y) (let! y := transform D x in axis_to_mul y (-2)).
Proof. exact (axis_to_mul_commutes D x s n). Qed.
Theorem C23_concatenate D s xs : rep_ok D -> xs <> [] -> Forall (fun y => coherent y /\ lead y = s) xs ->
  agree (let! y := concat_last xs in transform D y) (let! ys := mapM (transform D) xs in concat_last ys).
Proof. exact (concat_last_commutes D s xs). Qed.
Theorem C23_add_sub D x y : rep_ok D -> coherent x -> coherent y -> irr x = irr y -> lead x = lead y ->
  agree (let! w := add x y in transform D w) (let! u := transform D x in let! v := transform D y in add u v) /\
  agree (let! w := sub x y in transform D w) (let! u := transform D x in let! v := transform D y in sub u v).
Proof.
  intros HD Hx Hy E El. assert (B : broadcast_shapes (lead x) (lead y) = Ok (lead x)) by (rewrite <- El; apply broadcast_refl).
  split; [apply (add_commutes D x y (lead x)) | apply (sub_commutes D x y (lead x))]; auto.
Qed.
Theorem C23_scale D x s b s' : rep_ok D -> coherent x -> flat (irr x) <> [] -> broadcast_shapes (lead x) s = Ok s' ->
  agree (let! y := mul_scalar x s b in transform D y) (let! y := transform D x in mul_scalar y s b).
Proof. exact (mul_scalar_commutes D x s b s'). Qed.
(* reshape, broadcasting, indexing and any other rearrangement g of the leading positions *)
Theorem C23_leading D x s g (op : iarray -> res iarray) : rep_ok D -> coherent x -> (forall i, valid s i -> valid (lead x) (g i)) ->
  (forall y, coherent y -> irr y = irr x -> lead y = lead x -> yields (op y) (irr x) s (fun i => arr y (g i))) ->
  agree (let! y := op x in transform D y) (let! y := transform D x in op y).
Proof. exact (gathered_commutes D x s g op). Qed.
(* a representation: parity -1 and a rotation by a quarter turn about the second axis *)
Definition quarter : rep := fun ir => let n := 2 * ir_l ir + 1 in
  (if (ir_l ir =? 1)%nat
   then match ir_p ir with Even => [[0; 0; 1]; [0; 1; 0]; [-1; 0; 0]] | Odd => [[0; 0; -1]; [0; -1; 0]; [1; 0; 0]] end
   else map (fun a => map (fun b => if (a =? b)%nat then 1 else 0) (seq 0 n)) (seq 0 n))%R.
Lemma quarter_ok : rep_ok quarter.
Proof.
  intros [l p]. unfold quarter. cbn [ir_l ir_p]. destruct (Nat.eqb_spec l 1) as [->|Hl].
  - destruct p; split; try reflexivity; repeat constructor.
  - unfold ir_dim. cbn [ir_l]. cbv zeta.
    rewrite map_length, seq_length. split; [reflexivity|]. apply Forall_map, Forall_forall. intros a _. rewrite map_length, seq_length. reflexivity.
Qed.
Example C23_nonvacuous : rep_ok quarter /\ (exists y, transform quarter demo = Ok y) /\ simplify (irr demo) = simplify [(1, Irrep 0 Even); (1, Irrep 0 Even); (3, Irrep 1 Odd); (1, Irrep 0 Even)].
Proof. split; [apply quarter_ok|]. split; [eexists; reflexivity|reflexivity]. Qed.

(* ---------- C24 ---------- *)
(* [orthogonal_rep D]: the matrices preserve the scalar product.  The irrep matrices of e3nn do so (C35, C39). *)
Theorem C24_norm_invariant D x sq per : rep_ok D -> orthogonal_rep D -> coherent x -> agree (norm x sq per) (let! y := transform D x in norm y sq per).
Proof. exact (norm_invariant D x sq per). Qed.
Theorem C24_dot_invariant D x y s : rep_ok D -> orthogonal_rep D -> coherent x -> coherent y -> simplify (irr x) = simplify (irr y) -> broadcast_shapes (lead x) (lead y) = Ok s ->
  agree (dot x y false) (let! u := transform D x in let! v := transform D y in dot u v false).
Proof. exact (dot_invariant D x y s). Qed.
Theorem C24_dot_per_irrep_invariant D x y : rep_ok D -> orthogonal_rep D -> coherent x -> coherent y -> simplify (irr x) = simplify (irr y) -> lead x = lead y ->
  agree (dot x y true) (let! u := transform D x in let! v := transform D y in dot u v true).
Proof. exact (dot_per_irrep_invariant D x y). Qed.
(* the values *)
Theorem C24_norm_value x sq : coherent x ->
  yields (norm x sq false) [(1, Irrep 0 Even)] (lead x) (fun i => [let n2 := fold_right Rplus 0%R (map (fun v => v * v)%R (arr x i)) in if sq then n2 else sqrt n2]) /\
  yields (norm x sq true) (map (fun '(mul, _) => (mul, Irrep 0 Even)) (irr x)) (lead x)
    (fun i => map (fun r => let n2 := fold_right Rplus 0%R (map (fun v => v * v)%R r) in if sq then n2 else sqrt n2) (instances (irr x) (arr x i))).
Proof.
  intros H.
  assert (N : forall r, norm_row sq r = let n2 := fold_right Rplus 0%R (map (fun v => v * v)%R r) in if sq then n2 else sqrt n2).
  { intros r. unfold norm_row. replace (dotR r r) with (fold_right Rplus 0%R (map (fun v => (v * v)%R) r)).
    - set (n2 := fold_right _ _ _). unfold safe_sqrt. destruct sq; [reflexivity|]. destruct (Req_EM_T n2 0) as [E|]; [|reflexivity]. cbv zeta. rewrite E, sqrt_0. reflexivity.
    - induction r as [|v r IH]; [reflexivity|]. rewrite dotR_cons, <- IH. reflexivity. }
  split.
  - eapply yields_ext; [|apply norm_total_yields, H]. intros i Hi. cbv beta. rewrite N. reflexivity.
  - eapply yields_ext; [|apply norm_yields, H]. intros i Hi. cbv beta. rewrite (map_ext _ (norm_row sq)) by (intros; symmetry; apply N).
    clear. generalize (arr x). generalize (irr x). intros l. induction l as [|m l IH]; intros a; [reflexivity|]. unfold instances in *. cbn [blockwise blocks combine flat_map map]. rewrite map_app. specialize (IH (fun j => skipn (mi_dim m) (a j))). cbv beta in IH. rewrite <- IH. unfold V_norm. reflexivity.
Qed.
Theorem C24_dot_value x y s : coherent x -> coherent y -> simplify (irr x) = simplify (irr y) -> broadcast_shapes (lead x) (lead y) = Ok s ->
  yields (dot x y false) [(1, Irrep 0 Even)] s (fun i => [fold_right Rplus 0%R (zipR Rmult (arr x (bidx (lead x) i)) (arr y (bidx (lead y) i)))]).
Proof. exact (dot_yields x y s). Qed.
Theorem C24_dot_rejects x y per : coherent x -> coherent y -> simplify (irr x) <> simplify (irr y) -> dot x y per = Err ValueError.
Proof. exact (dot_rejects x y per). Qed.
Theorem C24_dot_symmetric x y s : coherent x -> coherent y -> simplify (irr x) = simplify (irr y) -> broadcast_shapes (lead x) (lead y) = Ok s -> agree (dot x y false) (dot y x false).
Proof.
  intros Hx Hy E B. assert (B' : broadcast_shapes (lead y) (lead x) = Ok s).
  { revert B. unfold broadcast_shapes. assert (Q : forall u v, bshape_rev u v = bshape_rev v u).
    { clear. induction u as [|a u IH]; intros [|b v]; try reflexivity. cbn [bshape_rev]. rewrite IH. replace (bdim b a) with (bdim a b); [reflexivity|].
      unfold bdim. destruct (Nat.eqb_spec a b), (Nat.eqb_spec b a); subst; try congruence. destruct (Nat.eqb_spec a 1), (Nat.eqb_spec b 1); subst; try congruence. }
    rewrite Q. auto. }
  exists [(1, even_scalar)], s, (fun i => [dotR (arr x (bidx (lead x) i)) (arr y (bidx (lead y) i))]). split; [apply dot_yields; assumption|].
  eapply yields_ext; [|apply (dot_yields y x s); congruence]. intros i _. cbv beta. rewrite dotR_comm. reflexivity.
Qed.
Theorem C24_dot_bilinear x y z : coherent x -> coherent y -> coherent z -> irr y = irr x -> simplify (irr z) = simplify (irr x) -> lead y = lead x -> lead z = lead x ->
  exists u v w, dot x z false = Ok u /\ dot y z false = Ok v /\ (let! a := add x y in dot a z false) = Ok w /\
    forall i, valid (lead x) i -> arr w i = zipR Rplus (arr u i) (arr v i).
Proof.
  intros Hx Hy Hz Ey Ez Ly Lz. assert (B : forall t, t = lead x -> broadcast_shapes t (lead z) = Ok (lead x)) by (intros t ->; rewrite Lz; apply broadcast_refl).
  destruct (dot_yields x z (lead x) Hx Hz (eq_sym Ez) (B _ eq_refl)) as (u & -> & _ & _ & _ & Eu).
  destruct (dot_yields y z (lead x) Hy Hz) as (v & -> & _ & _ & _ & Ev); [congruence|apply B, Ly|].
  destruct (C22_add_sub_same_shape x y Hx Hy (eq_sym Ey) (eq_sym Ly)) as [(a & -> & A1 & A2 & Ha & Ea) _]. cbn [bind].
  destruct (dot_yields a z (lead x) Ha Hz) as (w & -> & _ & _ & _ & Ew); [congruence|apply B, A2|].
  exists u, v, w. split; [reflexivity|]. split; [reflexivity|]. split; [reflexivity|]. intros i Hi. rewrite Ew, Eu, Ev by exact Hi. rewrite A2, Ly, Lz, !bidx_id by exact Hi. rewrite Ea by exact Hi.
  cbn [zipR combine map]. f_equal. rewrite !(dotR_comm _ (arr z i)). apply dotR_plus. rewrite (proj1 Hx), (proj1 Hy) by (rewrite ?Ly; exact Hi). congruence.
Qed.
Theorem C24_norm_squared_is_dot x : coherent x -> agree (norm x true false) (dot x x false).
Proof.
  intros H. exists [(1, even_scalar)], (lead x), (fun i => [norm_row true (arr x i)]). split; [apply norm_total_yields, H|].
  eapply yields_ext; [|apply (dot_yields x x (lead x)); auto using broadcast_refl]. intros i Hi. cbv beta. rewrite bidx_id by exact Hi. reflexivity.
Qed.
Example C24_nonvacuous : orthogonal_rep quarter.
Proof.
  intros [l p] u v Lu Lv. unfold ir_dim in *. cbn [ir_l] in *. unfold quarter. cbn [ir_l ir_p]. cbv zeta. destruct (Nat.eqb_spec l 1) as [->|Hl].
  - cbn in Lu, Lv. destruct u as [|u1 [|u2 [|u3 [|? ?]]]], v as [|v1 [|v2 [|v3 [|? ?]]]]; try discriminate. destruct p; cbn; ring.
  - assert (I : forall n w, length w = n -> matvec (map (fun a => map (fun b => if a =? b then 1%R else 0%R) (seq 0 n)) (seq 0 n)) w = w).
    { clear. intros n w L. unfold matvec. rewrite map_map. transitivity (map (fun a => nth a w 0%R) (seq 0 n)); [|rewrite <- L; apply map_nth_seq]. apply map_ext_in. intros a Ha. apply in_seq in Ha.
      assert (G : forall m w k0, length w = m -> dotR (map (fun b => if a =? b then 1%R else 0%R) (seq k0 m)) w = if (k0 <=? a) && (a <? k0 + m) then nth (a - k0) w 0%R else 0%R).
      { clear. induction m as [|m IH]; intros w k0 L; [destruct w; [|discriminate]; destruct (_ && _); [destruct (a - k0)|]; reflexivity|].
        destruct w as [|c w]; [discriminate|]. cbn [seq map]. rewrite dotR_cons, IH by (cbn in L; lia). destruct (Nat.eqb_spec a k0) as [->|N].
        - rewrite Nat.sub_diag. destruct (Nat.leb_spec (S k0) k0) as [B|_]; [clear -B; lia|]. cbn [andb]. rewrite Nat.leb_refl. destruct (Nat.ltb_spec k0 (k0 + S m)) as [_|B]; [|clear -B; lia]. cbn [andb]. change (nth 0 (c :: w) 0%R) with c. lra.
        - rewrite Rmult_0_l, Rplus_0_l. destruct (Nat.leb_spec (S k0) a), (Nat.leb_spec k0 a), (Nat.ltb_spec a (S k0 + m)), (Nat.ltb_spec a (k0 + S m)); cbn [andb]; try lia; try reflexivity.
          replace (a - k0) with (S (a - S k0)) by lia. reflexivity. }
      rewrite G by exact L. destruct (Nat.leb_spec 0 a), (Nat.ltb_spec a (0 + n)); try lia. cbn [andb]. rewrite Nat.sub_0_r. reflexivity. }
    rewrite !I by assumption. reflexivity.
Qed.

(* ---------- C32 ---------- *)
Theorem C32_align x y : num_irreps x = num_irreps y -> Forall (fun m => 0 < fst m) x -> Forall (fun m => 0 < fst m) y ->
  exists u v, align_two_irreps x y = Ok (u, v) /\ map fst u = map fst v /\ flat u = flat x /\ flat v = flat y.
Proof.
  intros E Hx Hy. destruct (align_total x y E Hx Hy) as (u & v & Q). exists u, v. split; [exact Q|]. destruct (align_sound _ _ _ _ Q) as (A & B & C & _). auto.
Qed.
Theorem C32_align_rejects x y : num_irreps x <> num_irreps y -> align_two_irreps x y = Err AssertionError.
Proof. exact (align_rejects x y). Qed.
Theorem C32_align_arrays x y u v : coherent x -> coherent y -> align_two_irreps (irr x) (irr y) = Ok (u, v) ->
  exists x' y', align_two_arrays x y = Ok (x', y') /\ irr x' = u /\ irr y' = v /\ map fst u = map fst v /\
    (forall i, valid (lead x) i -> arr x' i = arr x i) /\ (forall i, valid (lead y) i -> arr y' i = arr y i).
Proof.
  intros Hx Hy E. destruct (align_arrays_yields x y u v Hx Hy E) as (x' & y' & Q & M & A1 & A2 & A3 & A4 & B1 & B2 & B3 & B4). exists x', y'. auto 10.
Qed.
(* equal counts are not enough when a zero multiplicity is left over *)
Theorem C32_zero_multiplicity_refuted : exists x y, num_irreps x = num_irreps y /\ align_two_irreps x y = Err AssertionError.
Proof. exists [(3, Irrep 0 Even)], [(3, Irrep 0 Even); (0, Irrep 1 Even)]. split; reflexivity. Qed.
Example C32_nonvacuous : align_two_irreps [(2, Irrep 0 Even); (3, Irrep 1 Odd)] [(4, Irrep 1 Odd); (1, Irrep 0 Odd)] =
  Ok ([(2, Irrep 0 Even); (2, Irrep 1 Odd); (1, Irrep 1 Odd)], [(2, Irrep 1 Odd); (2, Irrep 1 Odd); (1, Irrep 0 Odd)]).
Proof. reflexivity. Qed.
