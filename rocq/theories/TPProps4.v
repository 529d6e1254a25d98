(* C30: with the component normalisation the tensor product preserves inner products; C55: grad loses nothing of the Jacobian. *)
From Coq Require Import Reals Lra Permutation.
From Coquelicot Require Import Coquelicot.
From Verif Require Import PyBase PermModel PermProofs IrrepsModel IrrepsProofs IrrepsProofs2 ArrayModel ArrayProofs ArrayOps RechunkProofs ArithProofs BlockProofs LeadModel LeadProofs StackProofs BilinProofs ActProofs EquivProofs EquivProofs2 SumR TPModel LinearProofs TPProofs StableSort TPProofs2 TPProofs3 ScatterModel ScatterProps RotationModel CGModel CGProofs5 CGProofs6 CGComplete S2Proofs3 WignerModel WignerProofs WignerProofs2 WignerProps WignerProps2 GradModel EntryProofs GradProofs GradProps.
Open Scope nat_scope.

(* the irreps of a product are the degrees of the coupling, with the product of the parities *)
Lemma lsum_ir_mul a b (f : irrep -> R) : lsum (ir_mul a b) f = lsum (degrees (ir_l a) (ir_l b)) (fun l => f (Irrep l (pmul (ir_p a) (ir_p b)))).
Proof.
  unfold ir_mul. rewrite lsum_map. apply lsum_perm. apply NoDup_Permutation; [apply seq_NoDup|apply NoDup_filter, seq_NoDup|]. intros l. rewrite in_degrees, in_seq. lia.
Qed.
Lemma coupled_isometry a b e f e' f' : e < ir_dim a -> f < ir_dim b -> e' < ir_dim a -> f' < ir_dim b ->
  lsum (ir_mul a b) (fun c => INR (ir_dim c) * rsum (ir_dim c) (fun k => clebsch_gordan (ir_l a) (ir_l b) (ir_l c) e f k * clebsch_gordan (ir_l a) (ir_l b) (ir_l c) e' f' k))%R = if (e =? e') && (f =? f') then 1%R else 0%R.
Proof. intros He Hf He' Hf'. rewrite lsum_ir_mul. unfold ir_dim. cbn [ir_l]. apply C40_complete; assumption. Qed.

(* couple two vectors into every irrep of the product: the squared length is the product of the squared lengths *)
Definition coupled (a b c : irrep) (X Y : nat -> R) (k : nat) : R :=
  (sqrt (INR (ir_dim c)) * rsum (ir_dim a) (fun e => rsum (ir_dim b) (fun f => clebsch_gordan (ir_l a) (ir_l b) (ir_l c) e f k * X e * Y f)))%R.
Lemma rsum_prod2 n m (g h : nat -> nat -> R) : (rsum n (fun e => rsum m (g e)) * rsum n (fun e => rsum m (h e)) = rsum n (fun e => rsum m (fun f => rsum n (fun e' => rsum m (fun f' => g e f * h e' f')))))%R.
Proof.
  rewrite <- rsum_scal_r. apply rsum_ext. intros e _. rewrite <- rsum_scal_r. apply rsum_ext. intros f _. rewrite <- rsum_scal. apply rsum_ext. intros e' _. rewrite <- rsum_scal. reflexivity.
Qed.
Lemma coupled_dot a b X Y X' Y' : lsum (ir_mul a b) (fun c => rsum (ir_dim c) (fun k => coupled a b c X Y k * coupled a b c X' Y' k))%R =
  (rsum (ir_dim a) (fun e => X e * X' e) * rsum (ir_dim b) (fun f => Y f * Y' f))%R.
Proof.
  set (n := ir_dim a). set (m := ir_dim b).
  transitivity (rsum n (fun e => rsum m (fun f => rsum n (fun e' => rsum m (fun f' => X e * Y f * (X' e' * Y' f') * (if (e =? e') && (f =? f') then 1 else 0))))))%R.
  - transitivity (rsum n (fun e => rsum m (fun f => rsum n (fun e' => rsum m (fun f' => X e * Y f * (X' e' * Y' f') * lsum (ir_mul a b) (fun c => INR (ir_dim c) * rsum (ir_dim c) (fun k => clebsch_gordan (ir_l a) (ir_l b) (ir_l c) e f k * clebsch_gordan (ir_l a) (ir_l b) (ir_l c) e' f' k)))))))%R.
    + transitivity (lsum (ir_mul a b) (fun c => rsum n (fun e => rsum m (fun f => rsum n (fun e' => rsum m (fun f' => X e * Y f * (X' e' * Y' f') * (INR (ir_dim c) * rsum (ir_dim c) (fun k => clebsch_gordan (ir_l a) (ir_l b) (ir_l c) e f k * clebsch_gordan (ir_l a) (ir_l b) (ir_l c) e' f' k))))))))%R.
      * apply lsum_ext. intros c _. unfold coupled. fold n m. set (g := clebsch_gordan (ir_l a) (ir_l b) (ir_l c)).
        transitivity (rsum (ir_dim c) (fun k => rsum n (fun e => rsum m (fun f => rsum n (fun e' => rsum m (fun f' => X e * Y f * (X' e' * Y' f') * (INR (ir_dim c) * (g e f k * g e' f' k))))))))%R.
        -- apply rsum_ext. intros k _. pose proof (sqrt_sqrt (INR (ir_dim c)) (pos_INR _)) as Q. set (q := sqrt (INR (ir_dim c))) in *. rewrite <- Q.
           match goal with |- (q * ?u * (q * ?v))%R = _ => transitivity (q * q * (u * v))%R; [ring|] end. rewrite rsum_prod2, <- rsum_scal. apply rsum_ext. intros e _. rewrite <- rsum_scal. apply rsum_ext. intros f _. rewrite <- rsum_scal. apply rsum_ext. intros e' _. rewrite <- rsum_scal. apply rsum_ext. intros f' _. ring.
        -- rewrite rsum_swap. apply rsum_ext. intros e _. rewrite rsum_swap. apply rsum_ext. intros f _. rewrite rsum_swap. apply rsum_ext. intros e' _. rewrite rsum_swap. apply rsum_ext. intros f' _. rewrite <- !rsum_scal. apply rsum_ext. intros k _. ring.
      * rewrite lsum_rsum. apply rsum_ext. intros e _. rewrite lsum_rsum. apply rsum_ext. intros f _. rewrite lsum_rsum. apply rsum_ext. intros e' _. rewrite lsum_rsum. apply rsum_ext. intros f' _. apply lsum_scal.
    + apply rsum_ext. intros e He. apply rsum_ext. intros f Hf. apply rsum_ext. intros e' He'. apply rsum_ext. intros f' Hf'. rewrite coupled_isometry by assumption. reflexivity.
  - rewrite rsum_prod. apply rsum_ext. intros e He. apply rsum_ext. intros f Hf.
    rewrite (rsum_ext _ _ (fun e' => (if e =? e' then 1 else 0) * (X e * Y f * (X' e' * Y' f)))%R); [rewrite (rsum_delta_r n e (fun e' => X e * Y f * (X' e' * Y' f))%R He); ring|]. intros e' He'.
    rewrite (rsum_ext _ _ (fun f' => (if f =? f' then 1 else 0) * ((if e =? e' then 1 else 0) * (X e * Y f * (X' e' * Y' f'))))%R); [rewrite (rsum_delta_r m f (fun f' => (if e =? e' then 1 else 0) * (X e * Y f * (X' e' * Y' f')))%R Hf); reflexivity|]. intros f' Hf'. destruct (e =? e'), (f =? f'); cbn [andb]; ring.
Qed.

(* sums over the entries of a product *)
Lemma esum_paths ps (h : bpath -> nat -> nat -> R) : esum (bil_out ps) (fun q u c => h (nth q ps dpath) u c) = lsum ps (fun p => rsum (b_mul p) (fun u => rsum (ir_dim (b_out p)) (fun c => h p u c))).
Proof. induction ps as [|p ps IH]; [reflexivity|]. cbn [bil_out map]. rewrite esum_cons, lsum_cons. cbn [nth]. f_equal. exact IH. Qed.
Lemma pairs_all_length m1 m2 : length (pairs_all m1 m2) = m1 * m2.
Proof. unfold pairs_all. rewrite flat_map_concat_map, (concat_length_uniform m2), map_length, seq_length; [reflexivity|]. apply Forall_forall. intros l Hl. apply in_map_iff in Hl as (u & <- & _). rewrite map_length, seq_length. reflexivity. Qed.
Lemma lsum_pairs_all m1 m2 (h : nat * nat -> R) : lsum (pairs_all m1 m2) h = rsum m1 (fun u => rsum m2 (fun v => h (u, v))).
Proof. unfold pairs_all. rewrite lsum_flat_map, lsum_seq. apply rsum_ext. intros u _. rewrite lsum_map. apply lsum_seq. Qed.
Lemma rsum_pairs m1 m2 (h : nat * nat -> R) : rsum (m1 * m2) (fun w => h (nth w (pairs_all m1 m2) (0, 0))) = rsum m1 (fun u => rsum m2 (fun v => h (u, v))).
Proof. rewrite <- lsum_pairs_all, (lsum_nth _ (0, 0)), pairs_all_length. reflexivity. Qed.
Lemma lsum_enumerate {A} (x : list A) d (h : nat -> A -> R) : lsum (enumerate x) (fun '(k, a) => h k a) = rsum (length x) (fun k => h k (nth k x d)).
Proof.
  rewrite (lsum_nth _ (0, d)), enumerate_length. apply rsum_ext. intros k Hk. unfold enumerate. rewrite combine_nth by apply seq_length. rewrite seq_nth by exact Hk. reflexivity.
Qed.

Lemma bil_row_dot x y rx ry rx' ry' : length rx = dim x -> length rx' = dim x -> length ry = dim y -> length ry' = dim y ->
  let ps := tp_paths NComponent None x y in dotR (bil_row clebsch_gordan ps x y rx ry) (bil_row clebsch_gordan ps x y rx' ry') = (dotR rx rx' * dotR ry ry')%R.
Proof.
  intros L1 L2 L3 L4. cbv zeta. unfold bil_row. rewrite dotR_rowof.
  rewrite (esum_paths _ (fun p u c => path_val clebsch_gordan x y rx ry p u c * path_val clebsch_gordan x y rx' ry' p u c)%R).
  rewrite <- (rowof_entry x rx L1), <- (rowof_entry x rx' L2), <- (rowof_entry y ry L3), <- (rowof_entry y ry' L4), !dotR_rowof. unfold esum. rewrite rsum_prod. rewrite !rowof_entry by assumption.
  unfold tp_paths. rewrite lsum_flat_map.
  rewrite (lsum_ext _ _ (fun '(k1, (m1, a)) => lsum (flat_map (fun '(k2, (m2, b)) => map (fun c => BP k1 k2 (pairs_all m1 m2) (m1 * m2) c (norm_factor NComponent a b c)) (filter (passes None) (ir_mul a b))) (enumerate y)) (fun p => rsum (b_mul p) (fun u => rsum (ir_dim (b_out p)) (fun c => path_val clebsch_gordan x y rx ry p u c * path_val clebsch_gordan x y rx' ry' p u c)%R)))) by (intros [k1 [m1 a]] _; reflexivity).
  pose (H1 := fun (k1 : nat) (ma : nat * irrep) => let '(m1, a) := ma in lsum (flat_map (fun '(k2, (m2, b)) => map (fun c => BP k1 k2 (pairs_all m1 m2) (m1 * m2) c (norm_factor NComponent a b c)) (filter (passes None) (ir_mul a b))) (enumerate y)) (fun p => rsum (b_mul p) (fun u => rsum (ir_dim (b_out p)) (fun c => path_val clebsch_gordan x y rx ry p u c * path_val clebsch_gordan x y rx' ry' p u c)%R))).
  transitivity (lsum (enumerate x) (fun '(k, a) => H1 k a)); [apply lsum_ext; intros [k1 [m1 a]] _; reflexivity|]. rewrite (lsum_enumerate x d0). apply rsum_ext. intros k1 Hk1.
  unfold H1. clear H1. destruct (nth k1 x d0) as [m1 a] eqn:E1. rewrite lsum_flat_map.
  pose (H2 := fun (k2 : nat) (mb : nat * irrep) => let '(m2, b) := mb in lsum (map (fun c => BP k1 k2 (pairs_all m1 m2) (m1 * m2) c (norm_factor NComponent a b c)) (filter (passes None) (ir_mul a b))) (fun p => rsum (b_mul p) (fun u => rsum (ir_dim (b_out p)) (fun c => path_val clebsch_gordan x y rx ry p u c * path_val clebsch_gordan x y rx' ry' p u c)%R))).
  transitivity (lsum (enumerate y) (fun '(k, a) => H2 k a)); [apply lsum_ext; intros [k2 [m2 b]] _; reflexivity|]. rewrite (lsum_enumerate y d0). apply rsum_ext. intros k2 Hk2.
  unfold H2. clear H2. destruct (nth k2 y d0) as [m2 b] eqn:E2. rewrite filter_passes, lsum_map. cbn [b_mul b_out].
  transitivity (rsum m1 (fun u => rsum m2 (fun v => lsum (ir_mul a b) (fun c => rsum (ir_dim c) (fun k => coupled a b c (entry x rx k1 u) (entry y ry k2 v) k * coupled a b c (entry x rx' k1 u) (entry y ry' k2 v) k))%R))).
  - transitivity (lsum (ir_mul a b) (fun c => rsum m1 (fun u => rsum m2 (fun v => rsum (ir_dim c) (fun k => coupled a b c (entry x rx k1 u) (entry y ry k2 v) k * coupled a b c (entry x rx' k1 u) (entry y ry' k2 v) k))))%R).
    + apply lsum_ext. intros c _. rewrite <- (rsum_pairs m1 m2 (fun '(u, v) => rsum (ir_dim c) (fun k => coupled a b c (entry x rx k1 u) (entry y ry k2 v) k * coupled a b c (entry x rx' k1 u) (entry y ry' k2 v) k))%R).
      apply rsum_ext. intros w _. unfold path_val, coupled. cbn [b_in1 b_in2 b_pairs b_out b_alpha norm_factor]. rewrite E1, E2. cbn [snd]. destruct (nth w (pairs_all m1 m2) (0, 0)) as [u v]. reflexivity.
    + rewrite lsum_rsum. apply rsum_ext. intros u _. apply lsum_rsum.
  - rewrite rsum_prod. apply rsum_ext. intros u _. apply rsum_ext. intros v _. apply coupled_dot.
Qed.

(* sorting the blocks of two rows together does not change their inner product *)
Lemma Forall2_nth_length (x : irreps) (bs : list (list R)) k : Forall2 (fun m b => length b = mi_dim m) x bs -> k < length x -> length (nth k bs []) = mi_dim (nth k x d0).
Proof.
  intros F. revert k. induction F as [|m b x bs L F IH]; intros k H; [cbn in H; lia|]. destruct k as [|k]; [exact L|]. cbn [nth]. apply IH. cbn in H. lia.
Qed.
Lemma dotR_blocks x r r' : length r = dim x -> length r' = dim x -> forall l, (forall k, In k l -> k < length x) ->
  dotR (concat (map (fun k => nth k (blocks x r) []) l)) (concat (map (fun k => nth k (blocks x r') []) l)) = lsum l (fun k => dotR (nth k (blocks x r) []) (nth k (blocks x r') [])).
Proof.
  intros L L' l. induction l as [|k l IH]; intros H; [reflexivity|]. cbn [map concat]. rewrite dotR_app.
  - rewrite lsum_cons, IH; [reflexivity|]. intros j Hj. apply H. right. exact Hj.
  - assert (K : k < length x) by (apply H; left; reflexivity). rewrite (Forall2_nth_length _ _ k (blocks_widths x r L) K), (Forall2_nth_length _ _ k (blocks_widths x r' L') K). reflexivity.
Qed.
Lemma sort_row_dot x r r' : length r = dim x -> length r' = dim x -> dotR (sort_row x r) (sort_row x r') = dotR r r'.
Proof.
  intros L L'. unfold sort_row. assert (P : Permutation (sort_inv_list x) (seq 0 (length x))).
  { pose proof (sort_inv_perm x) as P. apply is_perm_iff in P. rewrite sort_inv_length in P. exact P. }
  rewrite dotR_blocks; [|exact L|exact L'|intros k Hk; apply (Permutation_in _ P) in Hk; apply in_seq in Hk; lia].
  rewrite (lsum_perm _ _ _ P). rewrite <- dotR_blocks; [|exact L|exact L'|intros k Hk; apply in_seq in Hk; lia].
  rewrite <- (blocks_length x r) at 1. rewrite <- (blocks_length x r') at 1. rewrite !map_nth_seq. rewrite !concat_blocks by assumption. reflexivity.
Qed.
Lemma maybe_sort_row_dot rg x r r' : length r = dim x -> length r' = dim x -> dotR (maybe_sort_row rg x r) (maybe_sort_row rg x r') = dotR r r'.
Proof. destruct rg; [apply sort_row_dot|reflexivity]. Qed.

(* <x (x) y, x' (x) y'> = <x, x'> <y, y'>, row by row: in particular the norm of the product is the product of the norms and
   x (x) y = 0 only if x = 0 or y = 0 *)
Theorem C30_inner_product rg x y x' y' s : coherent x -> coherent y -> coherent x' -> coherent y' -> irr x' = irr x -> irr y' = irr y -> lead x' = lead x -> lead y' = lead y -> broadcast_shapes (lead x) (lead y) = Ok s ->
  exists z z', tensor_product clebsch_gordan NComponent None rg x y = Ok z /\ tensor_product clebsch_gordan NComponent None rg x' y' = Ok z' /\ irr z' = irr z /\
    forall i, valid s i -> dotR (arr z i) (arr z' i) = (dotR (arr x (bidx (lead x) i)) (arr x' (bidx (lead x) i)) * dotR (arr y (bidx (lead y) i)) (arr y' (bidx (lead y) i)))%R.
Proof.
  intros Hx Hy Hx' Hy' Ix Iy Lx Ly E. destruct (tensor_product_yields clebsch_gordan NComponent None rg x y s Hx Hy ltac:(discriminate) E) as (z & -> & Z1 & _ & _ & Z4).
  destruct (tensor_product_yields clebsch_gordan NComponent None rg x' y' s Hx' Hy' ltac:(discriminate)) as (z' & -> & Z1' & _ & _ & Z4'); [congruence|]. exists z, z'. split; [reflexivity|]. split; [reflexivity|]. split; [congruence|].
  intros i Hi. destruct (broadcast_valid _ _ _ _ E Hi) as [Vx Vy]. rewrite Z4, Z4' by exact Hi. rewrite Ix, Iy, Lx, Ly. unfold tp_row. cbv zeta.
  assert (Lr : forall w a, coherent w -> lead w = lead a -> irr w = irr a -> valid (lead a) (bidx (lead a) i) -> length (maybe_sort_row rg (irr a) (arr w (bidx (lead a) i))) = dim (maybe_regroup rg (irr a))).
  { intros w a Hw Q1 Q2 Va. assert (Lw : length (arr w (bidx (lead a) i)) = dim (irr a)) by (rewrite <- Q2; apply Hw; rewrite Q1; exact Va). destruct rg; [|exact Lw]. cbn [maybe_sort_row maybe_regroup]. rewrite sort_row_length, regroup_dim by exact Lw. apply dim_perm, sort_irreps_perm. }
  rewrite sort_row_dot by apply bil_row_length. rewrite bil_row_dot; [|apply Lr; auto|apply Lr; auto|apply Lr; auto|apply Lr; auto].
  rewrite !maybe_sort_row_dot; [reflexivity| | | |]; [apply Hy|rewrite <- Iy; apply Hy'; rewrite Ly|apply Hx|rewrite <- Ix; apply Hx'; rewrite Lx]; assumption.
Qed.
(* the hypotheses are met, e.g. by a vector with itself: |x (x) x| = |x|^2 *)
Corollary C30_norm rg x y s : coherent x -> coherent y -> broadcast_shapes (lead x) (lead y) = Ok s ->
  exists z, tensor_product clebsch_gordan NComponent None rg x y = Ok z /\
    forall i, valid s i -> dotR (arr z i) (arr z i) = (dotR (arr x (bidx (lead x) i)) (arr x (bidx (lead x) i)) * dotR (arr y (bidx (lead y) i)) (arr y (bidx (lead y) i)))%R.
Proof. intros Hx Hy E. destruct (C30_inner_product rg x y x y s) as (z & z' & E1 & E2 & _ & H); auto. rewrite E1 in E2. injection E2 as <-. exists z. auto. Qed.

(* ---------- the Jacobian can be read back from grad ---------- *)
Lemma lsum_pairs_filter (p : nat * nat * irrep -> bool) (l : list (nat * nat * irrep)) (F : nat * nat * irrep -> R) : lsum (filter (fun '(_, t) => p t) (enumerate l)) (fun '(_, t) => F t) = lsum (filter p l) F.
Proof.
  rewrite !lsum_filter. rewrite (lsum_ext _ _ (fun qt => (fun t => if p t then F t else 0%R) (snd qt))) by (intros [q t] _; reflexivity). rewrite <- (lsum_map snd (enumerate l) (fun t => if p t then F t else 0%R)), enumerate_snd. reflexivity.
Qed.
Lemma slots_filter y x k1 k2 m1 a m2 b (F : nat * nat * irrep -> R) : nth_error y k1 = Some (m1, a) -> nth_error x k2 = Some (m2, b) ->
  lsum (filter (fun '(k1', k2', _) => (k1' =? k1) && (k2' =? k2)) (grad_slots y x)) F = lsum (ir_mul a b) (fun c => F (k1, k2, c)).
Proof.
  intros E1 E2. assert (L1 : k1 < length y) by (apply nth_error_Some; congruence). assert (L2 : k2 < length x) by (apply nth_error_Some; congruence). rewrite lsum_filter. unfold grad_slots. rewrite lsum_flat_map.
  pose (H1 := fun (k : nat) (ma : nat * irrep) => lsum (flat_map (fun '(k2', (_, b)) => map (fun c => (k, k2', c)) (ir_mul (snd ma) b)) (enumerate x)) (fun t => if (let '(k1', k2', _) := t in (k1' =? k1) && (k2' =? k2)) then F t else 0%R)).
  transitivity (lsum (enumerate y) (fun '(k, a) => H1 k a)); [apply lsum_ext; intros [k [m a']] _; reflexivity|]. rewrite (lsum_enumerate y d0).
  rewrite (rsum_ext _ _ (fun k => if k =? k1 then H1 k (nth k y d0) else 0)%R).
  - rewrite (rsum_delta _ k1 (fun k => H1 k (nth k y d0))) by exact L1. unfold H1. rewrite (nth_error_nth _ _ _ E1). cbn [snd]. rewrite lsum_flat_map.
    pose (H2 := fun (k : nat) (mb : nat * irrep) => lsum (map (fun c => (k1, k, c)) (ir_mul a (snd mb))) (fun t => if (let '(k1', k2', _) := t in (k1' =? k1) && (k2' =? k2)) then F t else 0%R)).
    transitivity (lsum (enumerate x) (fun '(k, a) => H2 k a)); [apply lsum_ext; intros [k [m b']] _; reflexivity|]. rewrite (lsum_enumerate x d0).
    rewrite (rsum_ext _ _ (fun k => if k =? k2 then H2 k (nth k x d0) else 0)%R).
    + rewrite (rsum_delta _ k2 (fun k => H2 k (nth k x d0))) by exact L2. unfold H2. rewrite (nth_error_nth _ _ _ E2). cbn [snd]. rewrite lsum_map. apply lsum_ext. intros c _. rewrite !Nat.eqb_refl. reflexivity.
    + intros k _. destruct (k =? k2) eqn:Q; [reflexivity|]. unfold H2. rewrite lsum_map. apply lsum_zero. intros c _. rewrite Q, andb_false_r. reflexivity.
  - intros k _. destruct (k =? k1) eqn:Q; [reflexivity|]. unfold H1. rewrite lsum_flat_map. apply lsum_zero. intros [k' [m b']] _. rewrite lsum_map. apply lsum_zero. intros c _. rewrite Q. reflexivity.
Qed.
(* every partial derivative is recovered from the entries (k1, k2, c) of the result, over the irreps c of the product of the two irreps *)
Theorem C55_complete {A} (f : list pyarg -> res (pyarg * A)) args n p x y s' F G : arg_position args n = Some p -> nth p args (PAny 0) = PArr x -> coherent x -> computes f args p (irr x) (lead x) y s' F G ->
  exists z, grad clebsch_gordan f (Some n) false args = Ok (z, G (arr x)) /\
    forall i j k1 k2 m1 a m2 b u v e g, valid s' i -> valid (lead x) j -> nth_error y k1 = Some (m1, a) -> nth_error (irr x) k2 = Some (m2, b) -> u < m1 -> v < m2 -> e < ir_dim a -> g < ir_dim b ->
      partial_at (irr x) y F (arr x) i k1 u e j k2 v g =
        lsum (filter (fun '(_, (k1', k2', _)) => (k1' =? k1) && (k2' =? k2)) (enumerate (grad_slots y (irr x)))) (fun '(q, (_, _, c)) =>
          sqrt (INR (ir_dim c)) * rsum (ir_dim c) (fun k => clebsch_gordan (ir_l a) (ir_l b) (ir_l c) e g k * entry (irr z) (arr z (i ++ j)) q (u * m2 + v) k))%R.
Proof.
  intros Hp Hx Cx C. destruct (C55_value clebsch_gordan f args n p x y s' F G Hp Hx Cx C) as (z & E & _ & _ & _ & V). exists z. split; [exact E|].
  intros i j k1 k2 m1 a m2 b u v e g Hi Hj E1 E2 Hu Hv He Hg. set (P := fun e g => partial_at (irr x) y F (arr x) i k1 u e j k2 v g). change (P e g = lsum (filter (fun '(_, (k1', k2', _)) => (k1' =? k1) && (k2' =? k2)) (enumerate (grad_slots y (irr x)))) (fun '(q, (_, _, c)) => sqrt (INR (ir_dim c)) * rsum (ir_dim c) (fun k => clebsch_gordan (ir_l a) (ir_l b) (ir_l c) e g k * entry (irr z) (arr z (i ++ j)) q (u * m2 + v) k))%R).
  pose (T := fun c => (INR (ir_dim c) * rsum (ir_dim c) (fun k => clebsch_gordan (ir_l a) (ir_l b) (ir_l c) e g k * rsum (ir_dim a) (fun e' => rsum (ir_dim b) (fun g' => clebsch_gordan (ir_l a) (ir_l b) (ir_l c) e' g' k * P e' g'))))%R).
  transitivity (lsum (filter (fun '(_, t) => (fun '(k1', k2', _) => (k1' =? k1) && (k2' =? k2)) t) (enumerate (grad_slots y (irr x)))) (fun '(_, t) => (fun '(_, _, c) => T c) t)).
  - rewrite lsum_pairs_filter, (slots_filter y (irr x) k1 k2 m1 a m2 b _ E1 E2). unfold T. symmetry.
    transitivity (rsum (ir_dim a) (fun e' => rsum (ir_dim b) (fun g' => P e' g' * lsum (ir_mul a b) (fun c => INR (ir_dim c) * rsum (ir_dim c) (fun k => clebsch_gordan (ir_l a) (ir_l b) (ir_l c) e g k * clebsch_gordan (ir_l a) (ir_l b) (ir_l c) e' g' k))))%R).
    + transitivity (lsum (ir_mul a b) (fun c => rsum (ir_dim a) (fun e' => rsum (ir_dim b) (fun g' => P e' g' * (INR (ir_dim c) * rsum (ir_dim c) (fun k => clebsch_gordan (ir_l a) (ir_l b) (ir_l c) e g k * clebsch_gordan (ir_l a) (ir_l b) (ir_l c) e' g' k)))))%R).
      * apply lsum_ext. intros c _. rewrite <- rsum_scal.
        transitivity (rsum (ir_dim c) (fun k => rsum (ir_dim a) (fun e' => rsum (ir_dim b) (fun g' => P e' g' * (INR (ir_dim c) * (clebsch_gordan (ir_l a) (ir_l b) (ir_l c) e g k * clebsch_gordan (ir_l a) (ir_l b) (ir_l c) e' g' k)))))%R).
        -- apply rsum_ext. intros k _. rewrite <- rsum_scal, <- rsum_scal. apply rsum_ext. intros e' _. rewrite <- !rsum_scal. apply rsum_ext. intros g' _. ring.
        -- rewrite rsum_swap. apply rsum_ext. intros e' _. rewrite rsum_swap. apply rsum_ext. intros g' _. rewrite <- !rsum_scal. reflexivity.
      * rewrite lsum_rsum. apply rsum_ext. intros e' _. rewrite lsum_rsum. apply rsum_ext. intros g' _. apply lsum_scal.
    + rewrite (rsum_ext _ _ (fun e' => (if e =? e' then 1 else 0) * P e' g)%R); [apply (rsum_delta_r _ e (fun e' => P e' g) He)|]. intros e' He'.
      rewrite (rsum_ext _ _ (fun g' => (if g =? g' then 1 else 0) * ((if e =? e' then 1 else 0) * P e' g'))%R); [apply (rsum_delta_r _ g (fun g' => (if e =? e' then 1 else 0) * P e' g')%R Hg)|]. intros g' Hg'.
      rewrite coupled_isometry by assumption. destruct (e =? e'), (g =? g'); cbn [andb]; ring.
  - apply lsum_ext. intros [q [[k1' k2'] c]] Hq. apply filter_In in Hq as [Hq Q]. apply andb_true_iff in Q as [Q1 Q2]. apply Nat.eqb_eq in Q1, Q2. subst k1' k2'. apply enumerate_in in Hq. unfold T. rewrite <- (sqrt_sqrt (INR (ir_dim c))) at 1 by apply pos_INR. rewrite Rmult_assoc. f_equal. rewrite <- rsum_scal. apply rsum_ext. intros k Hk.
    rewrite (V i j q k1 k2 c m1 a m2 b u v k Hi Hj Hq E1 E2 Hu Hv Hk). unfold P. ring.
Qed.
