(* Products with scalars on the left, and the gate of gate.py. *)
From Coq Require Import Reals Lra.
From Verif Require Import PyBase PermModel PermProofs IrrepsModel IrrepsProofs IrrepsProofs2 ArrayModel ArrayProofs ArrayOps RechunkProofs SliceProofs SliceProofs2 ArithProofs LeadModel LeadProofs BlockProofs AxisProofs StackProofs BilinProofs ActProofs EquivProofs EquivProofs2 SumR EntryProofs LinearModel LinearProofs TPModel TPProofs TPProofs2 TPProofs3 TPProps TPProps2 RotationModel ActivationModel ActivationProofs.
Open Scope nat_scope.

Definition scalar_coupling_l (cg : coupling) : Prop := forall l j k, j < 2 * l + 1 -> k < 2 * l + 1 -> cg 0 l l 0 j k = if j =? k then (/ sqrt (INR (2 * l + 1)))%R else 0%R.
Definition gated_entry (m n : mulirrep) : mulirrep := (fst m, Irrep (ir_l (snd n)) (pmul (ir_p (snd m)) (ir_p (snd n)))).
Lemma gated_rowof u v (F H : nat -> nat -> nat -> R) : map fst u = map fst v -> (forall q w k, inside v q w k -> F q w k = H q w k) -> rowof (map2 gated_entry u v) F = rowof v H.
Proof.
  revert v F H. induction u as [|[m a] u IH]; intros [|[n b] v] F H M E; try discriminate; [reflexivity|]. cbn [map fst] in M. injection M as <- M. rewrite map2_cons. unfold gated_entry at 1. cbn [rowof fst snd]. change (ir_dim (Irrep (ir_l b) (pmul (ir_p a) (ir_p b)))) with (ir_dim b). f_equal.
  - f_equal. apply tab2_ext. intros w k Hw Hk. apply E. exists m, b. auto.
  - apply IH; [exact M|]. intros q w k (m' & a' & E1 & E2). apply E. exists m', a'. auto.
Qed.
Lemma mul_scalars_row_l cg u v rx ry : scalar_coupling_l cg -> map fst u = map fst v -> Forall (fun m => ir_l (snd m) = 0) u -> length rx = dim u -> length ry = dim v ->
  bil_out (ew_paths NComponent None u v) = map2 gated_entry u v /\
  bil_row cg (ew_paths NComponent None u v) u v rx ry = scale_copies (instances v ry) rx.
Proof.
  intros HC M Z Lx Ly. assert (Ep : ew_paths NComponent None u v = map (fun '(k, ((m, a), (_, b))) => let c := Irrep (ir_l b) (pmul (ir_p a) (ir_p b)) in BP k k (pairs_diag m) m c (norm_factor NComponent a b c)) (enumerate (combine u v))).
  { unfold ew_paths. rewrite flat_map_concat_map. rewrite (map_ext_in _ (fun t => [ (fun '(k, ((m, a), (_, b))) => let c := Irrep (ir_l b) (pmul (ir_p a) (ir_p b)) in BP k k (pairs_diag m) m c (norm_factor NComponent a b c)) t])).
    - generalize (enumerate (combine u v)). intros l. induction l as [|t l IH]; [reflexivity|]. cbn [map concat app]. f_equal. exact IH.
    - intros [k [[m a] [n b]]] Ht. apply enumerate_in in Ht. apply nth_error_In in Ht. apply in_combine_l in Ht. rewrite Forall_forall in Z. specialize (Z _ Ht). cbn [snd] in Z. cbn [passes]. rewrite filter_all.
      assert (Em : ir_mul a b = [Irrep (ir_l b) (pmul (ir_p a) (ir_p b))]). { unfold ir_mul. rewrite Z. replace (Z.to_nat (Z.abs (Z.of_nat 0 - Z.of_nat (ir_l b)))) with (ir_l b) by lia. replace (0 + ir_l b + 1 - ir_l b) with 1 by lia. reflexivity. } rewrite Em. reflexivity. }
  assert (Luv : length u = length v) by (rewrite <- (map_length fst u), M, map_length; reflexivity).
  assert (Eo : bil_out (ew_paths NComponent None u v) = map2 gated_entry u v).
  { rewrite Ep. unfold bil_out, map2. rewrite map_map. rewrite <- (enumerate_snd (combine u v)) at 2. rewrite map_map. apply map_ext. intros [k [[m a] [n b]]]. reflexivity. }
  split; [exact Eo|]. unfold bil_row. rewrite Eo. rewrite <- (scaled_rowof v u ry rx (eq_sym M) Z Ly Lx).
  apply gated_rowof; [exact M|]. intros q w k (m & b & E2 & Hw & Hk). assert (Lq : q < length v) by (apply nth_error_Some; congruence).
  destruct (nth_error u q) as [[n a]|] eqn:E1; [|apply nth_error_None in E1; lia].
  assert (En : n = m). { assert (Q : nth_error (map fst u) q = nth_error (map fst v) q) by (rewrite M; reflexivity). rewrite !nth_error_map, E1, E2 in Q. cbn in Q. congruence. } subst n.
  assert (Eq : nth q (ew_paths NComponent None u v) dpath = let c := Irrep (ir_l b) (pmul (ir_p a) (ir_p b)) in BP q q (pairs_diag m) m c (norm_factor NComponent a b c)).
  { rewrite Ep. rewrite (nth_map_at _ _ _ (0, (d0, d0))) by (unfold enumerate; rewrite combine_length, seq_length, combine_length; lia). rewrite nth_enumerate by (rewrite combine_length; lia). cbn [snd]. rewrite combine_nth by exact Luv. rewrite (nth_error_nth _ _ _ E1), (nth_error_nth _ _ _ E2). reflexivity. }
  rewrite Eq. cbv zeta. unfold path_val. cbn [b_in1 b_in2 b_pairs b_mul b_out b_alpha]. rewrite (nth_error_nth _ _ _ E1), (nth_error_nth _ _ _ E2). cbn [snd ir_l]. unfold pairs_diag. rewrite (nth_map_at _ _ _ 0) by (rewrite seq_length; exact Hw). rewrite seq_nth by exact Hw. cbn [Nat.add].
  rewrite Forall_forall in Z. specialize (Z _ (nth_error_In _ _ E1)). cbn [snd] in Z. assert (Db : ir_dim a = 1) by (unfold ir_dim; lia). rewrite Db, Z. cbn [norm_factor rsum]. change (ir_dim (Irrep (ir_l b) _)) with (ir_dim b).
  rewrite (rsum_ext (ir_dim b) _ (fun e => (if k =? e then 1 else 0) * (/ sqrt (INR (ir_dim b)) * entry u rx q w 0 * entry v ry q w e))%R).
  - rewrite rsum_delta_r by exact Hk. field. apply Rgt_not_eq, sqrt_lt_R0. apply lt_0_INR. unfold ir_dim. lia.
  - intros e He. rewrite HC by (unfold ir_dim in *; assumption). rewrite (Nat.eqb_sym k e). fold (ir_dim b). destruct (e =? k); ring.
Qed.
Lemma gated_flat u v : map fst u = map fst v -> flat (map2 gated_entry u v) = map2 (fun a b => Irrep (ir_l b) (pmul (ir_p a) (ir_p b))) (flat u) (flat v).
Proof.
  revert v. induction u as [|[m a] u IH]; intros [|[n b] v] M; try discriminate; [reflexivity|]. cbn [map fst] in M. injection M as <- M. rewrite map2_cons. unfold gated_entry at 1. cbn [fst snd]. rewrite !flat_cons, map2_app by (rewrite !repeat_length; reflexivity). rewrite IH by exact M. f_equal.
  clear. induction m as [|m IH]; [reflexivity|]. cbn [repeat]. rewrite map2_cons, <- IH. reflexivity.
Qed.
Lemma scalars_one_l u v : length u = length v -> Forall (fun ir => ir_l ir = 0) u -> Forall2 one_scalar u v.
Proof. revert v. induction u as [|a u IH]; intros [|b v] L F; try discriminate; constructor; inversion F; subst; [left; assumption|]. apply IH; [cbn in L; lia|assumption]. Qed.

(* scalars * x, copy by copy *)
Lemma scalars_mul cg x y s : scalar_coupling_l cg -> coherent x -> coherent y -> broadcast_shapes (lead x) (lead y) = Ok s -> (exists u v, align_two_irreps (irr x) (irr y) = Ok (u, v)) ->
  Forall (fun m => ir_l (snd m) = 0) (irr x) ->
  exists z, ia_mul cg x y = Ok z /\ lead z = s /\ coherent z /\ (forall u v, align_two_irreps (irr x) (irr y) = Ok (u, v) -> irr z = map2 gated_entry u v) /\
    flat (irr z) = map2 (fun a b => Irrep (ir_l b) (pmul (ir_p a) (ir_p b))) (flat (irr x)) (flat (irr y)) /\
    forall i, valid s i -> arr z i = scale_copies (instances (irr y) (arr y (bidx (lead y) i))) (arr x (bidx (lead x) i)).
Proof.
  intros HC Hx Hy E (u & v & Al) Z. destruct (align_sound _ _ _ _ Al) as (M & Fu & Fv & N).
  rewrite (C22_mul_is_elementwise cg x y u v Al) by (apply scalars_one_l; [rewrite <- !num_irreps_flat; exact N|apply (TPProps2.flat_Forall (fun ir => ir_l ir = 0)), Z]).
  assert (Zv : Forall (fun m => ir_l (snd m) = 0) u).
  { apply Forall_forall. intros m Hm. destruct (align_In _ _ _ _ Al) as [I _]. specialize (I m Hm). apply in_map_iff in I as (n & En & Hn). rewrite <- En. rewrite Forall_forall in Z. apply Z, Hn. }
  destruct (elementwise_yields cg NComponent None x y s u v Hx Hy ltac:(discriminate) E Al) as (z & -> & E1 & E2 & E3 & E4). exists z. split; [reflexivity|]. split; [exact E2|]. split; [exact E3|].
  assert (Du : dim u = dim (irr x)) by (rewrite !dim_flat, Fu; reflexivity). assert (Dv : dim v = dim (irr y)) by (rewrite !dim_flat, Fv; reflexivity).
  split; [|split].
  - intros u' v' Al'. rewrite Al in Al'. injection Al' as <- <-. destruct (mul_scalars_row_l cg u v (repeat 0%R (dim u)) (repeat 0%R (dim v)) HC M Zv) as [O _]; try apply repeat_length. rewrite E1. exact O.
  - destruct (mul_scalars_row_l cg u v (repeat 0%R (dim u)) (repeat 0%R (dim v)) HC M Zv) as [O _]; try apply repeat_length. rewrite E1, O, gated_flat by exact M. rewrite Fu, Fv. reflexivity.
  - intros i Hi. rewrite E4 by exact Hi. destruct (broadcast_valid _ _ _ _ E Hi) as [Vx Vy]. destruct (mul_scalars_row_l cg u v (arr x (bidx (lead x) i)) (arr y (bidx (lead y) i)) HC M Zv) as [_ Q]; [rewrite Du; apply Hx, Vx|rewrite Dv; apply Hy, Vy|]. rewrite Q, !instances_cut, Fv. reflexivity.
Qed.

(* ---------- the pieces of _gate ---------- *)
Definition scalar_b (ir : irrep) : bool := ir_l ir =? 0.
Lemma selects_scalars m : selects scalars_only m = scalar_b (snd m).
Proof. destruct m as [n [[|l] []]]; reflexivity. Qed.
Lemma filter_repeat {A} (P : A -> bool) a n : filter P (repeat a n) = if P a then repeat a n else [].
Proof. destruct (P a) eqn:E; induction n as [|n IH]; try reflexivity; cbn [repeat filter]; rewrite E; [f_equal|]; exact IH. Qed.
Lemma select_copies (P : irrep -> bool) x row : length row = dim x ->
  flat (filter (fun m => P (snd m)) x) = filter P (flat x) /\
  concat (select (map (fun m => P (snd m)) x) (blocks x row)) = concat (map snd (filter (fun p => P (fst p)) (combine (flat x) (cut (flat x) row)))).
Proof.
  revert row. induction x as [|[n ir] x IH]; intros row L; [split; reflexivity|]. rewrite dim_cons in L. destruct (IH (skipn (mi_dim (n, ir)) row)) as (I1 & I2); [rewrite skipn_length; lia|].
  rewrite !flat_cons, filter_app, cut_app, dims_repeat. change (n * ir_dim ir) with (mi_dim (n, ir)).
  rewrite combine_app' by (rewrite cut_length; reflexivity). rewrite filter_app, map_app, concat_app, <- I2. cbn [filter map blocks snd select].
  rewrite filter_repeat.
  assert (C2 : map snd (filter (fun p => P (fst p)) (combine (repeat ir n) (cut (repeat ir n) (firstn (mi_dim (n, ir)) row)))) = if P ir then cut (repeat ir n) (firstn (mi_dim (n, ir)) row) else []).
  { generalize (cut (repeat ir n) (firstn (mi_dim (n, ir)) row)) (cut_length (repeat ir n) (firstn (mi_dim (n, ir)) row)). clear. rewrite repeat_length. intros c. revert n. induction c as [|r c IH]; intros n L.
    - cbn in L. subst n. cbn. destruct (P ir); reflexivity.
    - destruct n as [|n]; [discriminate|]. cbn [repeat combine filter fst]. destruct (P ir) eqn:E; cbn [map snd]; rewrite IH by (cbn in L; lia); reflexivity. }
  rewrite C2. destruct (P ir).
  - split; [rewrite flat_cons; f_equal; exact I1|]. cbn [concat]. f_equal. symmetry. apply concat_cut. rewrite firstn_length, dims_repeat. unfold mi_dim in *. cbn [fst snd] in *. lia.
  - split; [exact I1|reflexivity].
Qed.

(* the values of the scalar copies, and the rows of the other copies *)
Definition copies (P : irrep -> bool) (x : irreps) (row : list R) : list (list R) := map snd (filter (fun p => P (fst p)) (combine (flat x) (cut (flat x) row))).
Definition scalar_copies (x : irreps) (row : list R) : list R := concat (copies scalar_b x row).
Definition no_zero_scalars (x : iarray) : Prop := Forall2 (fun m c => ir_l (snd m) = 0 -> c <> None) (irr x) (chunks x).

Lemma from_chunks_chunks x cs s y : from_chunks x cs s true = Ok y -> chunks y = cs /\ irr y = x.
Proof.
  unfold from_chunks, mkIA. destruct (negb _); [discriminate|]. destruct (negb _); [discriminate|]. destruct (negb _); [discriminate|]. destruct (negb _); [discriminate|]. destruct (negb _); [discriminate|]. destruct (negb _); [discriminate|]. destruct (negb _); [discriminate|].
  intros E. injection E as <-. split; reflexivity.
Qed.
Lemma gate_scalars x : coherent x -> no_zero_scalars x -> exists y, ia_filter x (Some scalars_only) None None = Ok y /\ irr y = filter (fun m => scalar_b (snd m)) (irr x) /\ lead y = lead x /\ coherent y /\
  Forall (fun c => c <> None) (chunks y) /\ forall i, valid (lead x) i -> arr y i = scalar_copies (irr x) (arr x i).
Proof.
  intros H N. set (new := filter (selects scalars_only) (irr x)). assert (En : new = filter (fun m => scalar_b (snd m)) (irr x)) by (apply filter_ext; apply selects_scalars).
  destruct (filter_yields x (Some scalars_only) None None new H ltac:(discriminate) eq_refl) as (y & E & E1 & E2 & E3 & E4).
  { intros m n _ _ Emn. cbn [wants]. rewrite !selects_scalars, Emn. reflexivity. }
  exists y. rewrite E. rewrite <- En. split; [reflexivity|]. split; [exact E1|]. split; [exact E2|]. split; [exact E3|]. split.
  - unfold ia_filter in E. cbn [filter_irreps bind] in E. apply from_chunks_chunks in E. destruct E as (-> & _). apply Forall_map. apply Forall_forall. intros [c m] Hi. apply filter_In in Hi as (Hi & Hc). cbn [fst].
    apply In_nth_error in Hi as (k & Hk). rewrite nth_error_combine in Hk. destruct (nth_error (chunks x) k) as [c'|] eqn:Ec; [|discriminate]. destruct (nth_error (irr x) k) as [m'|] eqn:Em; [|discriminate]. injection Hk as -> ->.
    assert (Hs : ir_l (snd m) = 0). { cbn [snd] in Hc. unfold contains in Hc. apply existsb_exists in Hc as ([n' ir'] & Hin & He). apply filter_In in Hin as (_ & Hin). rewrite selects_scalars in Hin. cbn [snd] in Hin, He. apply irrep_eqb_eq in He. rewrite He. apply Nat.eqb_eq, Hin. }
    clear - N Ec Em Hs. unfold no_zero_scalars in N. revert k Ec Em. induction N as [|a b l l' H0 N IH]; intros [|k] Ec Em; cbn in *; try discriminate; [injection Ec as ->; injection Em as ->; auto|eauto].
  - intros i Hi. rewrite E4 by exact Hi. unfold scalar_copies, copies. rewrite <- (proj2 (select_copies scalar_b (irr x) (arr x i) (proj1 H i Hi))). f_equal. f_equal. apply map_ext. intros m. cbn [wants]. apply selects_scalars.
Qed.
Lemma gate_vectors x : coherent x -> exists y, ia_filter x None (Some scalars_only) None = Ok y /\ irr y = filter (fun m => negb (scalar_b (snd m))) (irr x) /\ lead y = lead x /\ coherent y /\
  forall i, valid (lead x) i -> arr y i = concat (copies (fun ir => negb (scalar_b ir)) (irr x) (arr x i)).
Proof.
  intros H. set (new := filter (fun m => negb (selects scalars_only m)) (irr x)). assert (En : new = filter (fun m => negb (scalar_b (snd m))) (irr x)) by (apply filter_ext; intros m; rewrite selects_scalars; reflexivity).
  destruct (filter_yields x None (Some scalars_only) None new H ltac:(discriminate) eq_refl) as (y & E & E1 & E2 & E3 & E4).
  { intros m n _ _ Emn. cbn [wants]. rewrite !selects_scalars, Emn. reflexivity. }
  exists y. rewrite E. rewrite <- En. split; [reflexivity|]. split; [exact E1|]. split; [exact E2|]. split; [exact E3|].
  intros i Hi. rewrite E4 by exact Hi. unfold copies. rewrite <- (proj2 (select_copies (fun ir => negb (scalar_b ir)) (irr x) (arr x i) (proj1 H i Hi))). f_equal. f_equal. apply map_ext. intros m. cbn [wants]. rewrite selects_scalars. reflexivity.
Qed.

Definition all_scalars (x : irreps) : Prop := Forall (fun m => ir_l (snd m) = 0) x.
Lemma flat_scalars x : all_scalars x -> Forall (fun ir => ir_l ir = 0) (flat x).
Proof. apply (TPProps2.flat_Forall (fun ir => ir_l ir = 0)). Qed.
Lemma cut_scalars l row : Forall (fun ir => ir_l ir = 0) l -> length row = length l -> cut l row = map (fun t => [t]) row.
Proof.
  intros F. revert row. induction F as [|ir l Hi F IH]; intros [|t row] L; try discriminate; [reflexivity|]. cbn [cut map]. replace (ir_dim ir) with 1 by (unfold ir_dim; lia). cbn [firstn skipn]. rewrite IH by (cbn in L; lia). reflexivity.
Qed.
Lemma concat_map_singleton {A} (l : list A) : concat (map (fun t => [t]) l) = l.
Proof. induction l as [|a l IH]; [reflexivity|]. cbn. rewrite IH. reflexivity. Qed.
Lemma scalars_dim x : all_scalars x -> dim x = num_irreps x.
Proof. intros F. induction F as [|[n ir] x Hi F IH]; [reflexivity|]. rewrite dim_cons, num_irreps_cons, IH. unfold mi_dim. cbn [fst snd] in *. unfold ir_dim. rewrite Hi. lia. Qed.
Lemma list_slice_map {A B} (f : A -> B) l a b : list_slice (map f l) a b = map f (list_slice l a b).
Proof. unfold list_slice. rewrite skipn_map, firstn_map. reflexivity. Qed.

(* slicing positive multiplicities leaves positive multiplicities *)
Lemma mul_slice_pos a b : (a < b)%Z -> forall x i, Forall (fun m => 0 < fst m) x -> Forall (fun p => 0 < fst p)%Z (mul_slice_loop a b i x).
Proof.
  intros Hab. induction x as [|[n ir] x IH]; intros i F; [constructor|]. inversion F; subst. cbn [fst] in *. cbn [mul_slice_loop]. destruct ((a <=? Z.of_nat i) && (Z.of_nat i + Z.of_nat n <=? b))%Z; [constructor; [cbn; lia|apply IH; assumption]|].
  destruct ((a <? Z.of_nat i + Z.of_nat n) && (Z.of_nat i <? b))%Z eqn:E; [|apply IH; assumption]. constructor; [|apply IH; assumption]. apply andb_true_iff in E as (E1 & E2). apply Z.ltb_lt in E1, E2. cbn [fst]. lia.
Qed.
Lemma mul_slice_irs a b : forall x i, incl (map snd (mul_slice_loop a b i x)) (map snd x).
Proof.
  induction x as [|[n ir] x IH]; intros i; [intros t []|]. cbn [mul_slice_loop]. destruct ((a <=? Z.of_nat i) && (Z.of_nat i + Z.of_nat n <=? b))%Z; [|destruct ((a <? Z.of_nat i + Z.of_nat n) && (Z.of_nat i <? b))%Z]; cbn [map snd]; try (apply incl_cons; [left; reflexivity|]); apply incl_tl, IH.
Qed.
Lemma mk_irreps_ok l r : mk_irreps l = Ok r -> map snd r = map snd l /\ (Forall (fun p => 0 < fst p)%Z l -> Forall (fun m => 0 < fst m) r).
Proof.
  unfold mk_irreps. revert r. induction l as [|[n ir] l IH]; intros r E; [injection E as <-; split; [reflexivity|constructor]|]. cbn [mapM] in E. destruct (0 <=? n)%Z eqn:En; [|discriminate]. cbn [bind] in E. destruct (mapM _ l) as [r'|] eqn:E'; [|discriminate]. cbn [bind] in E. injection E as <-.
  destruct (IH r' eq_refl) as (I1 & I2). cbn [map snd]. rewrite I1. split; [reflexivity|]. intros F. inversion F; subst. cbn [fst] in *. constructor; [cbn; lia|auto].
Qed.
Lemma ia_mul_slice_somes a b : forall src i l cs, ia_mul_slice_loop a b i src = Ok (l, cs) -> Forall (fun p => snd p <> None) src -> Forall (fun c => c <> None) cs.
Proof.
  induction src as [|[[n ir] c] src IH]; intros i l cs E F; [injection E as <- <-; constructor|]. inversion F; subst. cbn [snd] in *. cbn [ia_mul_slice_loop] in E. destruct ((a <=? Z.of_nat i) && (Z.of_nat i + Z.of_nat n <=? b))%Z.
  - destruct (ia_mul_slice_loop a b (i + n) src) as [[l' cs']|] eqn:E'; [|discriminate]. injection E as <- <-. constructor; [assumption|eapply IH; eassumption].
  - destruct ((a <? Z.of_nat i + Z.of_nat n) && (Z.of_nat i <? b))%Z; [|eapply IH; eassumption]. destruct c as [c|]; [|congruence]. destruct (ia_mul_slice_loop a b (i + n) src) as [[l' cs']|] eqn:E'; [|discriminate]. injection E as <- <-. constructor; [discriminate|eapply IH; eassumption].
Qed.
Lemma slice_scalars y sl a b : coherent y -> all_scalars (irr y) -> Forall (fun c => c <> None) (chunks y) -> slice_indices sl (num_irreps (irr y)) = Ok (Z.of_nat a, Z.of_nat b, 1%Z) -> a <= b ->
  exists z, ia_slice_by_mul y sl = Ok z /\ slice_by_mul (irr y) sl = Ok (irr z) /\ lead z = lead y /\ coherent z /\ flat (irr z) = list_slice (flat (irr y)) a b /\ all_scalars (irr z) /\ Forall (fun c => c <> None) (chunks z) /\
    (a < b -> Forall (fun m => 0 < fst m) (irr y) -> Forall (fun m => 0 < fst m) (irr z)) /\ forall i, valid (lead y) i -> arr z i = list_slice (arr y i) a b.
Proof.
  intros H S N Es Hab. destruct (slice_by_mul_yields y sl a b H Es Hab) as (new & En & z & Ez & E1 & E2 & E3 & E4).
  { intros (n & m & _ & Hn & _). rewrite Forall_forall in N. apply (N None); [apply (nth_error_In _ _ Hn)|reflexivity]. }
  exists z. split; [exact Ez|]. split; [rewrite E1; exact En|]. split; [exact E2|]. split; [exact E3|].
  assert (En' : mk_irreps (mul_slice_loop (Z.of_nat a) (Z.of_nat b) 0 (irr y)) = Ok new) by (unfold slice_by_mul in En; rewrite Es in En; exact En). destruct (mk_irreps_ok _ _ En') as (K1 & K2).
  split; [|split; [|split; [|split]]].
  - destruct (slice_by_mul_spec (irr y) sl (Z.of_nat a) (Z.of_nat b) Es ltac:(lia)) as (r & Er & Et). rewrite En in Er. injection Er as <-.
    rewrite <- flat_length in Es. rewrite (tuple_slice_1 _ _ _ _ Es) in Et. injection Et as Et. rewrite E1, <- Et, !Nat2Z.id. reflexivity.
  - rewrite E1. apply Forall_forall. intros m Hm. apply (in_map snd) in Hm. rewrite K1 in Hm. apply mul_slice_irs in Hm. apply in_map_iff in Hm as (m' & Em & Hm). rewrite <- Em. unfold all_scalars in S. rewrite Forall_forall in S. apply S, Hm.
  - unfold ia_slice_by_mul in Ez. rewrite Es in Ez. cbn [bind] in Ez. change (negb (1 =? 1)%Z) with false in Ez. cbv iota in Ez. destruct (ia_mul_slice_loop _ _ _ _) as [[l cs]|] eqn:El; [|discriminate]. cbn [bind] in Ez. destruct (mk_irreps l) as [new'|]; [|discriminate]. cbn [bind] in Ez.
    apply from_chunks_chunks in Ez as (-> & _). eapply ia_mul_slice_somes; [exact El|]. apply Forall_forall. intros [m c] Hp. apply in_combine_r in Hp. rewrite Forall_forall in N. apply (N c Hp).
  - intros Hlt Hp. rewrite E1. apply K2, mul_slice_pos; [lia|exact Hp].
  - intros i Hi. rewrite E4 by exact Hi. rewrite instances_cut, cut_scalars; [|apply flat_scalars, S|rewrite (proj1 H i Hi), scalars_dim, num_irreps_flat by exact S; reflexivity]. rewrite list_slice_map. apply concat_map_singleton.
Qed.

(* ---------- scalar_activation on scalars, copy by copy ---------- *)
Definition act_ir (pts : list R) (norm : bool) (even odd : pyfun) (ir : irrep) : irrep :=
  match ir_p ir with Even => Irrep 0 Even | Odd => Irrep 0 (if (parity_function (activate pts norm odd) =? 1)%Z then Even else Odd) end.
Definition act_val (pts : list R) (norm : bool) (even odd : pyfun) (ir : irrep) (t : R) : R :=
  match ir_p ir with Even => activate pts norm even t | Odd => activate pts norm odd t end.
Lemma default_acts_identity even odd x : (f_id even = f_id odd -> f_ap even = f_ap odd) -> by_identity (default_acts even odd x).
Proof.
  intros Hid f g Hf Hg E. assert (Q : forall h, In (Some h) (default_acts even odd x) -> h = even \/ h = odd).
  { intros h Hh. unfold default_acts in Hh. apply in_map_iff in Hh as ([n ir] & Eh & _). destruct (ir_l ir =? 0); [|discriminate]. destruct (ir_p ir); injection Eh as <-; auto. }
  destruct (Q f Hf) as [->| ->], (Q g Hg) as [->| ->]; auto. symmetry. apply Hid. auto.
Qed.
Lemma activate_scalars pts norm even odd y : coherent y -> all_scalars (irr y) -> Forall (fun c => c <> None) (chunks y) -> (f_id even = f_id odd -> f_ap even = f_ap odd) ->
  (In (Irrep 0 Odd) (map snd (irr y)) -> parity_function (activate pts norm odd) <> 0%Z) ->
  exists z, scalar_activation pts None even odd norm y = Ok z /\ irr z = map2 (out_entry pts norm) (irr y) (default_acts even odd (irr y)) /\ lead z = lead y /\ coherent z /\ flat (irr z) = map (act_ir pts norm even odd) (flat (irr y)) /\ all_scalars (irr z) /\ map fst (irr z) = map fst (irr y) /\
    forall i, valid (lead y) i -> arr z i = map2 (act_val pts norm even odd) (flat (irr y)) (arr y i).
Proof.
  intros H S N Hid Hp. destruct (scalar_activation_yields pts None even odd norm y H) as (z & E & E1 & E2 & E3 & E4).
  - cbn [the_acts]. assert (Hin : incl (irr y) (irr y)) by apply incl_refl. revert Hin. generalize (irr y) at 1 3 4. intros l Hin. unfold default_acts. induction l as [|[n ir] l IH]; cbn [map]; constructor; [|apply IH; intros t Ht; apply Hin; right; exact Ht].
    assert (Hi : In (n, ir) (irr y)) by (apply Hin; left; reflexivity). unfold all_scalars in S. rewrite Forall_forall in S. pose proof (S _ Hi) as S0. cbn [snd] in S0. rewrite S0. cbn [Nat.eqb admissible snd]. split; [exact S0|]. intros Ho. rewrite Ho. apply Hp. apply (in_map snd) in Hi. cbn [snd] in Hi. destruct ir as [l0 p0]. cbn in *. subst. exact Hi.
  - cbn [the_acts]. rewrite (chunks_flags y H). pose proof (chunks_wf y H) as W. revert N W. generalize (chunks y). intros cs N W. unfold default_acts. clear - N W. induction W as [|[n ir] c x cs W0 W IH]; cbn [map]; constructor; [|inversion N; apply IH; assumption].
    inversion N; subst. destruct c; [|congruence]. destruct (ir_l ir =? 0); [|exact I]. cbn [is_none zeros_stay]. discriminate.
  - apply default_acts_identity, Hid.
  - exists z. cbn [the_acts] in *. split; [exact E|]. split; [exact E1|]. split; [exact E2|]. split; [exact E3|]. rewrite E1. split; [|split; [|split]].
    + clear - S. unfold default_acts. induction S as [|[n ir] x S0 S IH]; [reflexivity|]. cbn [snd] in S0. cbn [map]. rewrite map2_cons, S0. cbn [Nat.eqb out_entry fst snd]. rewrite !flat_cons, map_app, IH, map_repeat. f_equal. f_equal. unfold act_ir. destruct (ir_p ir); reflexivity.
    + clear - S. unfold default_acts, all_scalars in *. induction S as [|[n ir] x S0 S IH]; [constructor|]. cbn [snd] in S0. cbn [map]. rewrite map2_cons, S0. constructor; [reflexivity|exact IH].
    + clear - S. unfold default_acts, all_scalars in *. induction S as [|[n ir] x S0 S IH]; [reflexivity|]. cbn [snd] in S0. cbn [map]. rewrite map2_cons, S0. cbn [map]. f_equal. exact IH.
    + intros i Hi. rewrite E4 by exact Hi. pose proof (proj1 H i Hi) as L. clear - S L. revert L. generalize (arr y i). unfold default_acts. induction S as [|[n ir] x S0 S IH]; intros row L; [destruct row; [reflexivity|discriminate]|]. cbn [snd] in S0. cbn [map blocks]. rewrite map2_cons, S0. cbn [Nat.eqb out_block concat]. rewrite dim_cons in L.
      replace (mi_dim (n, ir)) with n in * by (unfold mi_dim; cbn [fst snd]; unfold ir_dim; lia). rewrite IH by (rewrite skipn_length; lia). rewrite flat_cons. rewrite <- (firstn_skipn n row) at 3. rewrite map2_app by (rewrite repeat_length, firstn_length; lia). f_equal.
      assert (Ln : length (firstn n row) = n) by (rewrite firstn_length; lia). revert Ln. generalize (firstn n row). clear. intros r <-. induction r as [|t r IH]; [reflexivity|]. cbn [map length repeat]. rewrite map2_cons, <- IH. f_equal. unfold act_val. destruct (ir_p ir); reflexivity.
Qed.

(* ---------- the gate ---------- *)
Definition is_vec (ir : irrep) : bool := negb (scalar_b ir).
(* the irreps of the output, a function of the input irreps *)
Definition gate_irreps (pts : list R) (even odd eg og : pyfun) (norm : bool) (x : irreps) : irreps :=
  let sc := filter (fun m => scalar_b (snd m)) x in
  let ve := filter (fun m => is_vec (snd m)) x in
  let n := (Z.of_nat (dim sc) - Z.of_nat (num_irreps ve))%Z in
  match slice_by_mul sc (Slice None (Some n) None), slice_by_mul sc (Slice (Some n) None None) with
  | Ok e, Ok g =>
      match align_two_irreps (map2 (out_entry pts norm) g (default_acts eg og g)) ve with
      | Ok (u, v) => map2 (out_entry pts norm) e (default_acts even odd e) ++ map2 gated_entry u v
      | Err _ => []
      end
  | _, _ => []
  end.
Definition compatible (even odd : pyfun) : Prop := f_id even = f_id odd -> f_ap even = f_ap odd.
(* the row of the output *)
Definition gate_row (pts : list R) (even odd eg og : pyfun) (norm : bool) (x : irreps) (row : list R) : list R :=
  let S := filter scalar_b (flat x) in let V := filter is_vec (flat x) in
  let n := length S - length V in
  let s := scalar_copies x row in
  map2 (act_val pts norm even odd) (firstn n S) (firstn n s) ++
  scale_copies (copies is_vec x row) (map2 (act_val pts norm eg og) (skipn n S) (skipn n s)).
Definition gate_flat (pts : list R) (even odd eg og : pyfun) (norm : bool) (x : irreps) : list irrep :=
  let S := filter scalar_b (flat x) in let V := filter is_vec (flat x) in
  let n := length S - length V in
  map (act_ir pts norm even odd) (firstn n S) ++ map2 (fun g v => Irrep (ir_l v) (pmul (ir_p (act_ir pts norm eg og g)) (ir_p v))) (skipn n S) V.

Lemma slice_upto n N : n <= N -> slice_indices (Slice None (Some (Z.of_nat n)) None) N = Ok (Z.of_nat 0, Z.of_nat n, 1%Z).
Proof. intros H. unfold slice_indices. cbn [s_step s_start s_stop]. replace (Z.of_nat n <? 0)%Z with false by (symmetry; apply Z.ltb_ge; lia). cbn. rewrite Z.min_l by lia. reflexivity. Qed.
Lemma slice_from n N : n <= N -> slice_indices (Slice (Some (Z.of_nat n)) None None) N = Ok (Z.of_nat n, Z.of_nat N, 1%Z).
Proof. intros H. unfold slice_indices. cbn [s_step s_start s_stop]. replace (Z.of_nat n <? 0)%Z with false by (symmetry; apply Z.ltb_ge; lia). cbn. rewrite Z.min_l by lia. reflexivity. Qed.
Lemma filter_all_scalars x : all_scalars (filter (fun m => scalar_b (snd m)) x).
Proof. apply Forall_forall. intros m Hm. apply filter_In in Hm as (_ & Hm). apply Nat.eqb_eq, Hm. Qed.
Lemma Forall_filter {A} (P : A -> Prop) (Q : A -> bool) l : Forall P l -> Forall P (filter Q l).
Proof. rewrite !Forall_forall. intros H a Ha. apply filter_In in Ha as (Ha & _). apply H, Ha. Qed.
Lemma map2_map_l {A B C E} (f : B -> C -> E) (g : A -> B) l l' : map2 f (map g l) l' = map2 (fun a c => f (g a) c) l l'.
Proof. unfold map2. revert l'. induction l as [|a l IH]; intros [|c l']; try reflexivity. cbn. rewrite <- IH. reflexivity. Qed.
Lemma copies_widths P x row : length row = dim x -> Forall2 (fun ir r => length r = ir_dim ir) (filter P (flat x)) (copies P x row).
Proof.
  intros L. unfold copies. assert (W : Forall2 (fun ir r => length r = ir_dim ir) (flat x) (cut (flat x) row)) by (apply cut_widths; rewrite L; symmetry; apply dims_flat).
  revert W. generalize (flat x) (cut (flat x) row). intros l rs W. induction W as [|ir r l rs H W IH]; [constructor|]. cbn [combine filter fst]. destruct (P ir); cbn [map snd]; [constructor; assumption|exact IH].
Qed.
Lemma instances_concat x rows : Forall2 (fun ir r => length r = ir_dim ir) (flat x) rows -> instances x (concat rows) = rows.
Proof.
  intros F. rewrite instances_cut. revert F. generalize (flat x). clear. intros l F. induction F as [|ir r l rows H F IH]; [reflexivity|]. cbn [cut concat]. rewrite firstn_length_app, skipn_length_app by exact H. rewrite IH. reflexivity.
Qed.

Lemma slice_irs x sl r : slice_by_mul x sl = Ok r -> incl (map snd r) (map snd x).
Proof.
  unfold slice_by_mul. destruct (slice_indices sl (num_irreps x)) as [[[a b] st]|]; [|discriminate]. cbn [bind]. destruct (negb (st =? 1)%Z); [discriminate|]. intros E. destruct (mk_irreps_ok _ _ E) as (-> & _). apply mul_slice_irs.
Qed.
Lemma in_flat_pos ir x : Forall (fun m => 0 < fst m) x -> In ir (map snd x) -> In ir (flat x).
Proof.
  intros F H. apply in_map_iff in H as ([n ir'] & <- & Hm). cbn [snd]. unfold flat. apply in_flat_map. exists (n, ir'). split; [exact Hm|]. rewrite Forall_forall in F. specialize (F _ Hm). cbn [fst] in F. destruct n; [lia|]. left. reflexivity.
Qed.
Lemma list_slice_0 {A} (l : list A) n : list_slice l 0 n = firstn n l.
Proof. unfold list_slice. rewrite Nat.sub_0_r. reflexivity. Qed.
Lemma list_slice_end {A} (l : list A) n k : length l = k -> list_slice l n k = skipn n l.
Proof. intros L. unfold list_slice. apply firstn_all2. rewrite skipn_length. lia. Qed.

Lemma gate_yields cg pts even odd eg og norm x : scalar_coupling_l cg -> coherent x -> Forall (fun m => 0 < fst m) (irr x) -> no_zero_scalars x -> compatible even odd -> compatible eg og ->
  (In (Irrep 0 Odd) (flat (irr x)) -> parity_function (activate pts norm odd) <> 0%Z /\ parity_function (activate pts norm og) <> 0%Z) ->
  filter is_vec (flat (irr x)) <> [] -> length (filter is_vec (flat (irr x))) <= length (filter scalar_b (flat (irr x))) ->
  flat (gate_irreps pts even odd eg og norm (irr x)) = gate_flat pts even odd eg og norm (irr x) /\
  yields (gate cg pts even odd eg og norm x) (gate_irreps pts even odd eg og norm (irr x)) (lead x) (fun i => gate_row pts even odd eg og norm (irr x) (arr x i)).
Proof.
  intros HC H Hpos Hz C1 C2 Hp Hv Hle. destruct (gate_scalars x H Hz) as (sc & Esc & Isc & Lsc & Csc & Nsc & Asc). destruct (gate_vectors x H) as (ve & Eve & Ive & Lve & Cve & Ave).
  assert (Lx : length (repeat 0%R (dim (irr x))) = dim (irr x)) by apply repeat_length.
  assert (Fsc : flat (irr sc) = filter scalar_b (flat (irr x))) by (rewrite Isc; apply (proj1 (select_copies scalar_b (irr x) _ Lx))).
  assert (Fve : flat (irr ve) = filter is_vec (flat (irr x))) by (rewrite Ive; apply (proj1 (select_copies is_vec (irr x) _ Lx))).
  assert (Ssc : all_scalars (irr sc)) by (rewrite Isc; apply filter_all_scalars).
  set (S := filter scalar_b (flat (irr x))) in *. set (V := filter is_vec (flat (irr x))) in *. set (n := length S - length V).
  assert (Dsc : dim (irr sc) = length S) by (rewrite scalars_dim, num_irreps_flat, Fsc by exact Ssc; reflexivity).
  assert (Nve : num_irreps (irr ve) = length V) by (rewrite num_irreps_flat, Fve; reflexivity).
  assert (Hn : (Z.of_nat (dim (irr sc)) - Z.of_nat (num_irreps (irr ve)))%Z = Z.of_nat n) by (rewrite Dsc, Nve; lia).
  assert (Nsc' : num_irreps (irr sc) = length S) by (rewrite num_irreps_flat, Fsc; reflexivity).
  assert (V1 : 0 < length V) by (destruct V; [congruence|cbn; lia]).
  assert (Psc : Forall (fun m => 0 < fst m) (irr sc)) by (rewrite Isc; apply Forall_filter, Hpos). assert (Pve : Forall (fun m => 0 < fst m) (irr ve)) by (rewrite Ive; apply Forall_filter, Hpos).
  assert (Dve : dim (irr ve) <> 0). { rewrite <- dims_flat, Fve. destruct V as [|ir V']; [congruence|]. rewrite dims_cons. unfold ir_dim. lia. }
  destruct (slice_scalars sc (Slice None (Some (Z.of_nat n)) None) 0 n Csc Ssc Nsc) as (ex & Eex & Iex & Lex & Cex & Fex & Sex & Nex & _ & Aex); [rewrite Nsc'; apply slice_upto; lia|lia|].
  destruct (slice_scalars sc (Slice (Some (Z.of_nat n)) None None) n (length S) Csc Ssc Nsc) as (ga & Ega & Iga & Lga & Cga & Fga & Sga & Nga & Pga & Aga); [rewrite Nsc'; apply slice_from; lia|lia|].
  assert (Hodd : forall f y, incl (map snd (irr y)) (map snd (irr sc)) -> (In (Irrep 0 Odd) (flat (irr x)) -> f <> 0%Z) -> In (Irrep 0 Odd) (map snd (irr y)) -> f <> 0%Z).
  { intros f y Hi Hf Ho. apply Hf. apply Hi in Ho. rewrite Isc in Ho. apply in_flat_pos; [exact Hpos|]. apply in_map_iff in Ho as (m & Em & Hm). apply filter_In in Hm as (Hm & _). rewrite <- Em. apply in_map, Hm. }
  destruct (activate_scalars pts norm even odd ex Cex Sex Nex C1) as (ex' & Eex' & Iex' & Lex' & Cex' & Fex' & Sex' & Mex' & Aex'); [apply (Hodd _ ex (slice_irs _ _ _ Iex)); apply Hp|].
  destruct (activate_scalars pts norm eg og ga Cga Sga Nga C2) as (ga' & Ega' & Iga' & Lga' & Cga' & Fga' & Sga' & Mga' & Aga'); [apply (Hodd _ ga (slice_irs _ _ _ Iga)); apply Hp|].
  assert (Pga' : Forall (fun m => 0 < fst m) (irr ga')). { specialize (Pga ltac:(lia) Psc). clear - Pga Mga'. assert (Q : Forall (fun k => 0 < k) (map fst (irr ga'))) by (rewrite Mga'; apply Forall_map; exact Pga). rewrite Forall_map in Q. exact Q. }
  assert (Nga' : num_irreps (irr ga') = num_irreps (irr ve)). { rewrite Nve, num_irreps_flat, Fga', map_length, Fga, list_slice_end by (rewrite Fsc; reflexivity). rewrite skipn_length, Fsc. lia. }
  destruct (align_total _ _ Nga' Pga' Pve) as (u & v & Al).
  destruct (scalars_mul cg ga' ve (lead x) HC Cga' Cve) as (gd & Egd & Lgd & Cgd & Igd & Fgd & Agd); [rewrite Lga', Lga, Lsc, Lve; apply broadcast_refl|eauto|exact Sga'|]. specialize (Igd u v Al).
  destruct (concat_last_yields (lead x) [ex'; gd]) as (z & Ez & I1 & I2 & I3 & I4); [discriminate|constructor; [split; [exact Cex'|congruence]|constructor; [split; [exact Cgd|exact Lgd]|constructor]]|].
  assert (Eg : gate_irreps pts even odd eg og norm (irr x) = irr z).
  { unfold gate_irreps. change (fun m : mulirrep => is_vec (snd m)) with (fun m : mulirrep => negb (scalar_b (snd m))). rewrite <- Isc, <- Ive, Hn, Iex, Iga, <- Iga', Al, <- Iex', I1. cbn [flat_map]. rewrite app_nil_r, Igd. reflexivity. }
  split.
  - rewrite Eg, I1. cbn [flat_map]. rewrite app_nil_r, flat_app, Fex', Fgd, Fga', Fex, Fga, Fve, Fsc, list_slice_0, list_slice_end by reflexivity. rewrite map2_map_l. reflexivity.
  - exists z. unfold gate. rewrite Esc. cbn [bind]. rewrite Eve. cbn [bind]. destruct (Nat.eqb_spec (dim (irr ve)) 0); [contradiction|]. rewrite Dsc, Nve. destruct (Nat.ltb_spec (length S) (length V)); [lia|].
    replace (Z.of_nat (length S) - Z.of_nat (length V))%Z with (Z.of_nat n) by lia. rewrite Eex. cbn [bind]. rewrite Ega. cbn [bind]. rewrite Eex'. cbn [bind]. rewrite Ega'. cbn [bind]. rewrite Egd. cbn [bind].
    split; [exact Ez|]. split; [symmetry; exact Eg|]. split; [exact I2|]. split; [exact I3|]. intros i Hi. rewrite I4 by exact Hi. cbn [flat_map]. rewrite app_nil_r. unfold gate_row. fold S V n.
    assert (Hi1 : valid (lead ex) i) by congruence. assert (Hi2 : valid (lead ga) i) by congruence. assert (Hi3 : valid (lead sc) i) by congruence.
    rewrite Agd by exact Hi. rewrite !bidx_id by congruence. rewrite Aex', Aga', Aex, Aga, Asc, Ave, Fex, Fga, Fsc by assumption. rewrite list_slice_0.
    assert (Ls : length (scalar_copies (irr x) (arr x i)) = length S) by (rewrite <- Asc by exact Hi; rewrite (proj1 Csc i Hi3); exact Dsc).
    rewrite list_slice_0, !list_slice_end by (reflexivity || exact Ls). rewrite instances_concat; [reflexivity|]. rewrite Fve. apply copies_widths, H, Hi.
Qed.

(* ---------- equivariance of the gate ---------- *)
(* an odd scalar factor multiplies the matrix of an irrep by the sign of "0o" *)
Definition parity_rep (D : rep) : Prop := scalar_signs D /\ forall l p q v, length v = 2 * l + 1 -> matvec (D (Irrep l (pmul p q))) v = map (Rmult (sign_of D p)) (matvec (D (Irrep l q)) v).
Definition flip (D : rep) (ir : irrep) (t : R) : R := (sign_of D (ir_p ir) * t)%R.
Lemma map2_ext {A B C} (f g : A -> B -> C) l l' : (forall a b, In a l -> In b l' -> f a b = g a b) -> map2 f l l' = map2 g l l'.
Proof. intros E. unfold map2. apply map_ext_in. intros [a b] H. apply E; [eapply in_combine_l|eapply in_combine_r]; exact H. Qed.
Lemma map2_firstn {A B C} (f : A -> B -> C) n l l' : firstn n (map2 f l l') = map2 f (firstn n l) (firstn n l').
Proof. unfold map2. rewrite firstn_map, combine_firstn. reflexivity. Qed.
Lemma map2_skipn {A B C} (f : A -> B -> C) n l l' : skipn n (map2 f l l') = map2 f (skipn n l) (skipn n l').
Proof. unfold map2. rewrite skipn_map, combine_skipn. reflexivity. Qed.
Lemma copies_act D P x row : rep_ok D -> copies P x (act D x row) = map2 (mv D) (filter P (flat x)) (copies P x row).
Proof.
  intros HD. unfold copies, act. rewrite cut_acts by exact HD. generalize (flat x) (cut (flat x) row). intros l. induction l as [|ir l IH]; intros [|r rs]; try reflexivity.
  - cbn [combine filter map]. destruct (P ir); [destruct (filter P l)|]; try reflexivity. destruct (filter P l); reflexivity.
  - rewrite map2_cons. cbn [combine filter fst]. destruct (P ir); cbn [map snd]; rewrite ?map2_cons, IH; reflexivity.
Qed.
Lemma scalar_copies_act D x row : rep_ok D -> scalar_signs D -> length row = dim x -> scalar_copies x (act D x row) = map2 (flip D) (filter scalar_b (flat x)) (scalar_copies x row).
Proof.
  intros HD HS L. unfold scalar_copies. rewrite copies_act by exact HD. pose proof (copies_widths scalar_b x row L) as W. assert (F : Forall (fun ir => ir_l ir = 0) (filter scalar_b (flat x))) by (apply Forall_forall; intros ir Hi; apply filter_In in Hi as (_ & Hi); apply Nat.eqb_eq, Hi).
  revert W F. generalize (filter scalar_b (flat x)) (copies scalar_b x row). intros l rs W. induction W as [|ir r l rs H W IH]; intros F; [reflexivity|]. inversion F as [|? ? F0 F']; subst. destruct ir as [l0 p]. cbn [ir_l] in F0. subst l0.
  destruct r as [|t [|]]; try discriminate. rewrite map2_cons. cbn [concat app]. rewrite map2_cons, <- IH by exact F'. unfold mv at 1. rewrite (proj1 (sign_cases D p HS)). unfold matvec, dotR, flip. cbn. f_equal. ring.
Qed.
Lemma act_val_flip pts norm even odd D ir t : scalar_signs D -> ir_l ir = 0 -> (ir_p ir = Odd -> parity_function (activate pts norm odd) <> 0%Z /\ honest (activate pts norm odd)) ->
  act_val pts norm even odd ir (flip D ir t) = flip D (act_ir pts norm even odd ir) (act_val pts norm even odd ir t).
Proof.
  intros S L P. destruct ir as [l p]. cbn [ir_l ir_p] in *. subst l. unfold act_val, act_ir, flip. cbn [ir_p]. destruct p; [cbn [ir_p sign_of]; rewrite !Rmult_1_l; reflexivity|]. destruct (P eq_refl) as (P0 & P1 & P2). destruct (sign_cases D Odd S) as (_ & Hs). set (g := activate pts norm odd) in *. destruct (parity_range g) as [E|[E|E]]; [| |contradiction]; rewrite E; cbn [Z.eqb Pos.eqb ir_p].
  - change (sign_of D Even) with 1%R. destruct Hs as [->|(_ & ->)]; [rewrite !Rmult_1_l; reflexivity|]. replace (-1 * t)%R with (- t)%R by ring. rewrite P1 by exact E. ring.
  - destruct Hs as [->|(_ & ->)]; [rewrite !Rmult_1_l; reflexivity|]. replace (-1 * t)%R with (- t)%R by ring. rewrite P2 by exact E. ring.
Qed.
Lemma act_ir_scalar pts norm even odd ir : ir_l (act_ir pts norm even odd ir) = 0.
Proof. unfold act_ir. destruct (ir_p ir); reflexivity. Qed.
Lemma acts_scalars D l row : scalar_signs D -> Forall (fun ir => ir_l ir = 0) l -> length row = length l -> acts D l row = map2 (flip D) l row.
Proof.
  intros S F. revert row. induction F as [|ir l F0 F IH]; intros [|t row] L; try discriminate; [reflexivity|]. destruct ir as [k p]. cbn [ir_l] in F0. subst k. rewrite map2_cons. cbn [acts]. change (ir_dim (Irrep 0 p)) with 1. cbn [firstn skipn]. rewrite (proj1 (sign_cases D p S)), IH by (cbn in L; lia). unfold matvec, dotR, flip. cbn. f_equal. ring.
Qed.
Lemma acts_gated D : rep_ok D -> parity_rep D -> forall (G V : list irrep) rows ks, length G = length V -> length ks = length V -> Forall (fun g => ir_l g = 0) G -> Forall2 (fun ir r => length r = ir_dim ir) V rows ->
  acts D (map2 (fun g v => Irrep (ir_l v) (pmul (ir_p g) (ir_p v))) G V) (scale_copies rows ks) = scale_copies (map2 (mv D) V rows) (map2 (flip D) G ks).
Proof.
  intros HD (HS & HP) G V rows ks LG Lk FG W. unfold scale_copies. revert G ks LG Lk FG. induction W as [|v r V rows Lr W IH]; intros [|g G] [|k ks] LG Lk FG; try discriminate; [reflexivity|]. inversion FG; subst. cbn in LG, Lk.
  rewrite !map2_cons. cbn [concat acts]. change (ir_dim (Irrep (ir_l v) (pmul (ir_p g) (ir_p v)))) with (ir_dim v). rewrite firstn_length_app, skipn_length_app by (rewrite map_length; exact Lr). rewrite IH by (auto; lia). f_equal.
  rewrite HP by (rewrite map_length; exact Lr). replace (Irrep (ir_l v) (ir_p v)) with v by (destruct v; reflexivity). unfold mv, flip. rewrite (map_ext (Rmult k) (fun t => (t * k)%R)) by (intros; ring). rewrite matvec_scale. rewrite !map_map. apply map_ext. intros t. ring.
Qed.

Lemma dims_scalars l : Forall (fun ir => ir_l ir = 0) l -> dims l = length l.
Proof. intros F. induction F as [|ir l H F IH]; [reflexivity|]. rewrite dims_cons, IH. unfold ir_dim. cbn [length]. lia. Qed.
Lemma gate_row_act pts norm even odd eg og D x row : rep_ok D -> parity_rep D -> length row = dim x -> length (filter is_vec (flat x)) <= length (filter scalar_b (flat x)) ->
  (In (Irrep 0 Odd) (flat x) -> (parity_function (activate pts norm odd) <> 0%Z /\ honest (activate pts norm odd)) /\ (parity_function (activate pts norm og) <> 0%Z /\ honest (activate pts norm og))) ->
  acts D (gate_flat pts even odd eg og norm x) (gate_row pts even odd eg og norm x row) = gate_row pts even odd eg og norm x (act D x row).
Proof.
  intros HD HP L Hle Hodd. pose proof (proj1 HP) as HS. unfold gate_flat, gate_row. set (S := filter scalar_b (flat x)) in *. set (V := filter is_vec (flat x)) in *. set (n := length S - length V).
  assert (FS : Forall (fun ir => ir_l ir = 0 /\ In ir (flat x)) S) by (apply Forall_forall; intros ir Hi; apply filter_In in Hi as (Hi0 & Hi); split; [apply Nat.eqb_eq, Hi|exact Hi0]).
  assert (Ls : length (scalar_copies x row) = length S).
  { unfold scalar_copies. pose proof (copies_widths scalar_b x row L) as W. fold S in W. revert W FS. generalize S (copies scalar_b x row). clear. intros S rs W. induction W as [|ir r S rs H W IH]; intros F; [reflexivity|]. inversion F as [|? ? (F0 & _) F']; subst. cbn [concat length]. rewrite app_length, IH by exact F'. rewrite H. unfold ir_dim. lia. }
  assert (Ln : n <= length S) by lia.
  rewrite scalar_copies_act, copies_act by assumption. fold S V. rewrite map2_firstn, map2_skipn. set (s := scalar_copies x row) in *.
  assert (FS' : forall l, incl l S -> Forall (fun ir => ir_l ir = 0) l) by (intros l Hl; apply Forall_forall; intros ir Hi; rewrite Forall_forall in FS; apply (FS ir (Hl ir Hi))).
  assert (I1 : incl (firstn n S) S) by (intros t Ht; rewrite <- (firstn_skipn n S); apply in_or_app; left; exact Ht). assert (I2 : incl (skipn n S) S) by (intros t Ht; rewrite <- (firstn_skipn n S); apply in_or_app; right; exact Ht).
  assert (Q : forall ev od l t, incl l S -> (In (Irrep 0 Odd) (flat x) -> parity_function (activate pts norm od) <> 0%Z /\ honest (activate pts norm od)) -> length t = length l ->
    map2 (flip D) (map (act_ir pts norm ev od) l) (map2 (act_val pts norm ev od) l t) = map2 (act_val pts norm ev od) l (map2 (flip D) l t)).
  { clear - FS HS. intros ev od l. induction l as [|ir l IH]; intros [|t ts] Hl Ho Lt; try discriminate; [reflexivity|]. cbn [map]. rewrite !map2_cons, IH by (auto; try (intros z Hz; apply Hl; right; exact Hz); cbn in Lt; lia). f_equal. symmetry.
    rewrite Forall_forall in FS. destruct (FS ir (Hl ir (or_introl eq_refl))) as (F1 & F2). apply act_val_flip; auto. intros Ep. apply Ho. destruct ir as [l0 p0]. cbn in *. subst. exact F2. }
  rewrite acts_app, firstn_length_app, skipn_length_app.
  - f_equal.
    + rewrite acts_scalars; [|exact HS|apply Forall_map, Forall_forall; intros; apply act_ir_scalar|rewrite map2_length, map_length, !firstn_length; lia]. apply Q; [exact I1|intros; apply Hodd; assumption|rewrite !firstn_length; lia].
    + rewrite <- (Q eg og (skipn n S) (skipn n s)); [|exact I2|intros; apply Hodd; assumption|rewrite !skipn_length; lia]. rewrite <- acts_gated; auto.
      * rewrite map2_map_l. reflexivity.
      * rewrite map_length, skipn_length. lia.
      * rewrite map2_length, !skipn_length. lia.
      * apply Forall_map, Forall_forall. intros. apply act_ir_scalar.
      * apply copies_widths, L.
  - rewrite map2_length, dims_scalars by (apply Forall_map, Forall_forall; intros; apply act_ir_scalar). rewrite map_length, !firstn_length. lia.
  - rewrite map2_length, dims_scalars by (apply Forall_map, Forall_forall; intros; apply act_ir_scalar). rewrite map_length, !firstn_length. lia.
Qed.
Lemma no_zero_flags x y : coherent x -> coherent y -> irr y = irr x -> zero_flags y = zero_flags x -> no_zero_scalars x -> no_zero_scalars y.
Proof.
  intros Hx Hy E F N. rewrite (chunks_flags x Hx), (chunks_flags y Hy) in F. unfold no_zero_scalars in *. rewrite E. clear - F N. revert F. generalize (chunks y). induction N as [|m c l l' H N IH]; intros [|d ds] F; try discriminate; constructor; cbn [map] in F; injection F as F1 F2; [|apply IH; exact F2].
  intros Hm. specialize (H Hm). destruct c, d; cbn in *; congruence.
Qed.
Lemma gate_commutes cg pts even odd eg og norm D x : scalar_coupling_l cg -> rep_ok D -> parity_rep D -> coherent x -> Forall (fun m => 0 < fst m) (irr x) -> no_zero_scalars x -> compatible even odd -> compatible eg og ->
  (In (Irrep 0 Odd) (flat (irr x)) -> (parity_function (activate pts norm odd) <> 0%Z /\ honest (activate pts norm odd)) /\ (parity_function (activate pts norm og) <> 0%Z /\ honest (activate pts norm og))) ->
  filter is_vec (flat (irr x)) <> [] -> length (filter is_vec (flat (irr x))) <= length (filter scalar_b (flat (irr x))) ->
  agree (let! y := gate cg pts even odd eg og norm x in transform D y) (let! y := transform D x in gate cg pts even odd eg og norm y).
Proof.
  intros HC HD HP H Hpos Hz C1 C2 Hodd Hv Hle.
  assert (Ho : In (Irrep 0 Odd) (flat (irr x)) -> parity_function (activate pts norm odd) <> 0%Z /\ parity_function (activate pts norm og) <> 0%Z) by (intros I; destruct (Hodd I) as ((? & _) & (? & _)); auto).
  apply (commute D (gate cg pts even odd eg og norm) x (gate_irreps pts even odd eg og norm (irr x)) (lead x) (fun a i => gate_row pts even odd eg og norm (irr x) (a i))); auto.
  - intros y Hy E1 E2 E3. assert (Ny : no_zero_scalars y) by (apply (no_zero_flags x y); assumption). rewrite <- E1, <- E2. rewrite <- E1 in Hpos, Ho, Hv, Hle. apply gate_yields; assumption.
  - trivial_ext.
  - intros a i Hi La. unfold act at 1. rewrite (proj1 (gate_yields cg pts even odd eg og norm x HC H Hpos Hz C1 C2 Ho Hv Hle)). apply gate_row_act; auto.
Qed.
