(* The heads of the Transformer and the weights alpha. *)
From Coq Require Import Reals Lra Lia List Arith Bool ZArith.
From Verif Require Import PyBase PermModel PermProofs IrrepsModel IrrepsProofs IrrepsProofs2 IrrepsStr ArrayModel ArrayProofs ArrayOps RechunkProofs ArithProofs LeadModel LeadProofs BlockProofs AxisProofs StackProofs BilinProofs ActProofs EquivProofs EquivProofs2 SumR EntryProofs ArrayProps2 ArrayProps3 TPModel TPProofs TPProofs2 StableSort TPProofs3 TPProps TPProps2 GradProofs CGModel RotationModel WignerModel WignerProofs WignerProofs2 WignerProps S2Model SHModel S2Proofs2 SHProps SHProps3 ScatterModel ScatterProps NormProofs LinearModel LinearProofs LinearProps LinearComplete LinModModel LinModProofs LinModProofs2 LinModProps ActivationModel MlpModel MlpProps ConvModel ConvProofs ConvProofs2 ConvProofs3 ConvProofs4 ConvProofs5 ConvProofs6 TransformerModel.
Import ListNotations.
Open Scope nat_scope.

(* ---- x * array with one number per row ---- *)
Lemma one_copy x : positive x -> num_irreps x = 1 -> exists ir, x = [(1, ir)].
Proof.
  intros P N. destruct x as [|[k ir] x]; [discriminate|]. inversion P as [|? ? Hk P']; subst. cbn [fst] in Hk. unfold num_irreps in N. cbn [map fst sum fold_right] in N. destruct x as [|[k' ir'] x].
  - exists ir. cbn in N. f_equal. f_equal. unfold sum in N. cbn in N. lia.
  - inversion P' as [|? ? Hk' P'']; subst. cbn [fst] in Hk'. exfalso. unfold sum in N. cbn in N. lia.
Qed.
Lemma bare_row y s b : coherent y -> positive (irr y) -> irr y <> [] -> lead y = s -> (forall i, valid s i -> length (b i) = 1) ->
  yields (mul_bare clebsch_gordan y s 1 b) (irr y) s (fun i => map (fun v => v * nth 0 (b i) 0)%R (arr y i)).
Proof.
  intros Cy P Ne Ly Lb. destruct (Nat.eq_dec (num_irreps (irr y)) 1) as [N|N].
  - destruct (one_copy _ P N) as [ir Ix]. unfold mul_bare. rewrite N. cbn [Nat.eqb].
    pose proof (new_yields [(1, Irrep 0 Even)] s b ltac:(intros i Hi; rewrite (Lb i Hi); reflexivity)) as Y. change (dim [(1, Irrep 0 Even)]) with 1 in Y. eapply yields_bind; [exact Y|]. intros w _ Iw Lw Cw Aw.
    assert (Al : align_two_irreps (irr y) (irr w) = Ok ([(1, ir)], [(1, Irrep 0 Even)])) by (rewrite Ix, Iw; reflexivity).
    assert (B : broadcast_shapes (lead y) (lead w) = Ok s) by (rewrite Ly, Lw; apply broadcast_refl).
    pose proof (elementwise_yields clebsch_gordan NComponent None y w s _ _ Cy Cw ltac:(discriminate) B Al) as E.
    assert (Q : forall rx ry, length rx = dim [(1, ir)] -> length ry = 1 -> bil_out (ew_paths NComponent None [(1, ir)] [(1, Irrep 0 Even)]) = [(1, ir)] /\ bil_row clebsch_gordan (ew_paths NComponent None [(1, ir)] [(1, Irrep 0 Even)]) [(1, ir)] [(1, Irrep 0 Even)] rx ry = map (fun v => v * nth 0 ry 0)%R rx).
    { intros rx ry Lx L1. destruct (mul_scalars_row clebsch_gordan [(1, ir)] [(1, Irrep 0 Even)] rx ry cg_scalar_coupling eq_refl ltac:(repeat constructor) Lx L1) as [Q1 Q2]. split.
      - rewrite Q1. destruct ir as [l []]; reflexivity.
      - rewrite Q2. destruct ry as [|k [|k' ry]]; try discriminate. unfold scale_copies. rewrite instances_cut. cbn [flat flat_map repeat fst snd app map]. unfold dim, mi_dim in Lx. cbn in Lx. cbn [cut]. rewrite firstn_all2 by (unfold ir_dim in *; lia). cbn [map2 combine map concat nth]. rewrite app_nil_r. apply map_ext. intros v. ring. }
    assert (O : irr y = bil_out (ew_paths NComponent None [(1, ir)] [(1, Irrep 0 Even)])) by (rewrite Ix; symmetry; exact (proj1 (Q (repeat 0%R (dim [(1, ir)])) [0%R] (repeat_length _ _) (eq_refl 1)))).
    rewrite O. eapply yields_ext; [|exact E]. intros i Hi. cbv beta. rewrite Ly, Lw, !bidx_id by exact Hi. rewrite Aw by exact Hi. refine (proj2 (Q _ _ _ _)).
    + rewrite (proj1 Cy i) by (rewrite Ly; exact Hi). rewrite Ix. reflexivity.
    + apply Lb, Hi.
  - assert (Nf : flat (irr y) <> []). { destruct (irr y) as [|[k ir] x]; [contradiction|]. inversion P as [|? ? Hk P']; subst. cbn [fst] in Hk. destruct k; [lia|]. discriminate. }
    rewrite (proj1 (C22_bare_one clebsch_gordan y s b N Nf)). unfold mul_scalar. assert (B : broadcast_shapes (lead y) s = Ok s) by (rewrite Ly; apply broadcast_refl).
    eapply yields_ext; [|apply (scale_yields Rmult y s (fun i => nth 0 (b i) 0%R) s Cy Nf B)].
    + intros i Hi. cbv beta. rewrite Ly, !bidx_id by exact Hi. reflexivity.
    + intros i _. ring.
Qed.
Lemma scale_stage x s b : positive x -> x <> [] -> (forall i, valid s i -> length (b i) = 1) -> stage any x s x s (fun y => mul_bare clebsch_gordan y s 1 b) (fun a i => map (fun v => v * nth 0 (b i) 0)%R (a i)).
Proof.
  intros P Ne Lb. split.
  - intros y _ Cy Ey Ly. rewrite <- Ey in *. now apply bare_row.
  - intros a c i Hi E. now rewrite E.
  - intros a i Hi La. rewrite map_length. apply La, Hi.
  - intros D _ _ a i Hi La. apply act_scale.
Qed.

(* ---- the heads: each row is cut in H parts, scaled and put together again ---- *)
Definition divided (H : nat) (x : irreps) : irreps := map (fun '(mul, ir) => (mul / H, ir)) x.
Definition weigh (H : nat) (x : irreps) (c : list R) (row : list R) : list R :=
  blockwise (fun m => V_merge H m []) (divided H x) (fun i => map (fun v => v * nth (last i 0%nat) c 0)%R (blockwise (fun m => V_split H m i) x (fun _ => row))).
Lemma divided_positive H x : H <> 0 -> Forall (fun m => fst m mod H = 0) x -> positive x -> positive (divided H x).
Proof.
  intros NH D P. unfold divided, positive in *. rewrite Forall_forall in *. intros m Hm. apply in_map_iff in Hm as ([k ir] & <- & Hk). specialize (D _ Hk). specialize (P _ Hk). cbn [fst] in *. pose proof (Nat.div_mod k H NH). destruct (k / H); lia.
Qed.
Lemma divided_back H x : H <> 0 -> Forall (fun m => fst m mod H = 0) x -> map (fun '(mul, ir) => (H * mul, ir)) (divided H x) = x.
Proof.
  intros NH. unfold divided. induction 1 as [|[k ir] x D F IH]; [reflexivity|]. cbn [map]. rewrite IH. cbn [fst] in D. f_equal. f_equal. symmetry. apply Nat.div_exact; assumption.
Qed.
Lemma blockwise_along {I J} (g : J -> I) (V1 : mulirrep -> (I -> list R) -> list R) (V2 : mulirrep -> (J -> list R) -> list R) : (forall m b, V1 m b = V2 m (fun j => b (g j))) -> forall x a, blockwise V1 x a = blockwise V2 x (fun j => a (g j)).
Proof. intros E. induction x as [|m x IH]; intros a; [reflexivity|]. cbn [blockwise]. rewrite E, IH. reflexivity. Qed.
Definition heads_op (H : nat) (s : shape) (b : idx -> list R) (y : iarray) : res iarray :=
  let! z := (let! v := mul_to_axis y (Some H) (-2) in mul_bare clebsch_gordan v (s ++ [H]) 1 b) in axis_to_mul z (-2).
Lemma heads_stage H s x b : H <> 0 -> Forall (fun m => fst m mod H = 0) x -> positive x -> x <> [] -> (forall i, valid (s ++ [H]) i -> length (b i) = 1) ->
  stage any x s x s (heads_op H s b) (fun a i => blockwise (fun m => V_merge H m i) (divided H x) (fun i' => map (fun v => v * nth 0 (b i') 0)%R (blockwise (fun m => V_split H m i') x a))).
Proof.
  intros NH D P Ne Lb. rewrite <- (divided_back H x NH D) at 2.
  assert (Nd : divided H x <> []) by (destruct x; [contradiction|discriminate]).
  exact (stage_compose any x s (divided H x) (s ++ [H]) _ s _ _ _ _ (stage_compose any x s (divided H x) (s ++ [H]) _ (s ++ [H]) _ _ _ _ (split_stage x s H NH D) (scale_stage (divided H x) (s ++ [H]) b (divided_positive H x NH D P) Nd Lb)) (axis_stage (divided H x) s H)).
Qed.
Lemma heads_local H x (row : list R) (a : idx -> list R) (b : idx -> list R) c e : a [e] = row -> (forall h, h < H -> nth 0 (b [e; h]) 0%R = nth h c 0%R) ->
  blockwise (fun m => V_merge H m [e]) (divided H x) (fun i' => map (fun v => v * nth 0 (b i') 0)%R (blockwise (fun m => V_split H m i') x a)) = weigh H x c row.
Proof.
  intros Ea Eb. unfold weigh. rewrite (blockwise_along (fun j => e :: j) (fun m => V_merge H m [e]) (fun m => V_merge H m [])) by reflexivity.
  apply (blockwise_data (valid [H])).
  - intros m c0 d0 E. unfold V_merge. f_equal. apply map_ext_in. intros k Hk. apply in_seq in Hk. apply E. constructor; [lia|constructor].
  - intros j Hj. inversion Hj as [|h ? t ? Hh Ht]; subst. inversion Ht; subst. cbn [last]. rewrite <- Eb by exact Hh. f_equal.
    rewrite (blockwise_along (fun j : idx => e :: j) (fun m => V_split H m [e; h]) (fun m => V_split H m [h])) by reflexivity.
    apply (blockwise_data (fun q => q = [])); [|intros q ->; reflexivity]. intros m c0 d0 E. unfold V_split. cbn [removelast]. rewrite (E []) by reflexivity. reflexivity.
Qed.
Lemma weigh_stage H x c : H <> 0 -> Forall (fun m => fst m mod H = 0) x -> positive x -> x <> [] ->
  stage any x [] x [] (heads_op H [] (fun i => [nth (last i 0) c 0%R])) (fun a i => blockwise (fun m => V_merge H m i) (divided H x) (fun i' => map (fun v => v * nth 0 [nth (last i' 0%nat) c 0] 0)%R (blockwise (fun m => V_split H m i') x a))).
Proof. intros NH D P Ne. apply heads_stage; auto. Qed.
Lemma weigh_len H x c row : H <> 0 -> Forall (fun m => fst m mod H = 0) x -> positive x -> x <> [] -> length row = dim x -> length (weigh H x c row) = dim x.
Proof. intros NH D P Ne L. exact (st_len _ _ _ _ _ _ _ (weigh_stage H x c NH D P Ne) (fun _ => row) [] ltac:(constructor) ltac:(intros; exact L)). Qed.
Lemma weigh_act W H x c row : rep_ok W -> scalar_trivial W -> H <> 0 -> Forall (fun m => fst m mod H = 0) x -> positive x -> x <> [] -> length row = dim x -> act W x (weigh H x c row) = weigh H x c (act W x row).
Proof. intros HW HS NH D P Ne L. exact (st_act _ _ _ _ _ _ _ (weigh_stage H x c NH D P Ne) W HW HS (fun _ => row) [] ltac:(constructor) ltac:(intros; exact L)). Qed.
Lemma tf_heads_yields H v E alpha : H <> 0 -> Forall (fun m => fst m mod H = 0) (irr v) -> positive (irr v) -> irr v <> [] -> coherent v -> lead v = [E] ->
  yields (tf_heads H v [E; H] alpha) (irr v) [E] (fun i => weigh H (irr v) (map (fun t => sqrt (Rmax 0 t)) (firstn H (alpha i ++ repeat 0%R H))) (arr v i)).
Proof.
  intros NH D P Ne Cv Lv. set (b := fun i : idx => [sqrt (Rmax 0 (nth (last i 0%nat) (alpha (removelast i)) 0))]%R).
  pose proof (st_run _ _ _ _ _ _ _ (heads_stage H [E] (irr v) b NH D P Ne ltac:(reflexivity)) v Logic.I Cv eq_refl Lv) as Y.
  assert (Q : tf_heads H v [E; H] alpha = heads_op H [E] b v) by (unfold tf_heads, heads_op; destruct (mul_to_axis v (Some H) (-2)); reflexivity). rewrite Q. eapply yields_ext; [|exact Y].
  intros i Hi. inversion Hi as [|e ? t ? He Ht]; subst. inversion Ht; subst. cbv beta. apply heads_local; [reflexivity|]. intros h Hh. unfold b. cbn [nth last removelast].
  assert (Lf : length (firstn H (alpha [e] ++ repeat 0%R H)) = H) by (rewrite firstn_length, app_length, repeat_length; lia).
  rewrite (nth_indep (map (fun t => sqrt (Rmax 0 t)) (firstn H (alpha [e] ++ repeat 0%R H))) 0%R (sqrt (Rmax 0 0))) by (rewrite map_length, Lf; exact Hh). rewrite (map_nth (fun t => sqrt (Rmax 0 t))). rewrite nth_firstn_lt by exact Hh. f_equal. f_equal.
  destruct (Nat.lt_ge_cases h (length (alpha [e]))) as [G|G]; [now rewrite app_nth1|]. rewrite app_nth2 by exact G. rewrite nth_repeat. now apply nth_overflow.
Qed.

(* ---- alpha ---- *)
(* the edges that end in one node, each with its cutoff weight and its logits *)
Definition shift (box : list (R * list R)) (h : nat) : R := fold_left Rmax (map (fun q => nth h (snd q) 0%R) box) 0%R.
Definition heat (box : list (R * list R)) (h : nat) (q : R * list R) : R := (fst q * exp (nth h (snd q) 0 - shift box h))%R.
Definition partition (box : list (R * list R)) (h : nat) : R := lsum box (heat box h).
Definition attend (box : list (R * list R)) (h : nat) (q : R * list R) : R := (heat box h q / (if Req_EM_T (partition box h) 0 then 1 else partition box h))%R.
Definition box_of (N E : nat) (dst : nat -> Z) (cutoff : nat -> R) (logit : nat -> list R) (n : nat) : list (R * list R) := map (fun e => (cutoff e, logit e)) (incoming N E dst n).
Lemma resolve_node md N z : in_range N z -> resolve_index md N z = Some (node N z).
Proof.
  intros H. destruct (node_spec N z H) as (_ & _ & Q). unfold resolve_index in *. destruct ((0 <=? (if (z <? 0)%Z then (z + Z.of_nat N)%Z else z)) && ((if (z <? 0)%Z then (z + Z.of_nat N)%Z else z) <? Z.of_nat N))%Z; [exact Q|discriminate].
Qed.
Lemma hits_incoming md N E dst k : (forall e, e < E -> in_range N (dst e)) -> filter (hits (fun i => resolve_index md N (dst (hd 0 i))) k) (all_idx [E]) = map (fun e => [e]) (incoming N E dst k).
Proof.
  intros H. unfold incoming. rewrite all_idx1. assert (G : forall l, (forall e, In e l -> e < E) -> filter (hits (fun i => resolve_index md N (dst (hd 0 i))) k) (map (fun k => [k]) l) = map (fun e => [e]) (filter (fun e => node N (dst e) =? k) l)).
  { induction l as [|e l IH]; intros B; [reflexivity|]. cbn [map filter]. rewrite IH by (intros q Hq; apply B; now right). unfold hits at 1. cbn [hd]. rewrite (resolve_node md N (dst e) (H e (B e (or_introl eq_refl)))). destruct (_ =? _); reflexivity. }
  apply G. intros e He. apply in_seq in He. lia.
Qed.
Lemma index_max_nth N E dst w logit k h : (forall e, e < E -> in_range N (dst e)) -> (forall e, e < E -> length (logit e) = w) -> h < w ->
  nth h (index_max E dst w logit N k) 0%R = shift (box_of N E dst (fun _ => 0%R) logit k) h.
Proof.
  intros H L Hh. unfold index_max. rewrite (update_rows_nth Rmax w); [|apply repeat_length| |exact Hh].
  - rewrite hits_incoming by exact H. rewrite nth_repeat. unfold shift, box_of. rewrite map_map. cbn [snd]. assert (G : forall l c, fold_left (fun (acc : R) (j : idx) => Rmax acc (nth h (logit (hd 0 (j ++ []))) 0%R)) (map (fun e : nat => [e]) l) c = fold_left Rmax (map (fun e => nth h (logit e) 0%R) l) c) by (induction l as [|e l IH]; intros c; [reflexivity|]; cbn [map fold_left app hd]; apply IH). apply G.
  - intros j Hj. apply all_idx_valid in Hj. inversion Hj as [|e ? t ? He Ht]; subst. inversion Ht; subst. cbn [app hd]. apply L, He.
Qed.
Lemma index_max_length N E dst w logit k : (forall e, e < E -> length (logit e) = w) -> length (index_max E dst w logit N k) = w.
Proof.
  intros L. unfold index_max. apply update_rows_length; [apply repeat_length|]. intros j Hj. apply all_idx_valid in Hj. inversion Hj as [|e ? t ? He Ht]; subst. inversion Ht; subst. cbn [app hd]. apply L, He.
Qed.
Lemma shift_box N E dst c c' logit k h : shift (box_of N E dst c logit k) h = shift (box_of N E dst c' logit k) h.
Proof. unfold shift, box_of. rewrite !map_map. reflexivity. Qed.
Lemma alpha_rows N E dst w cutoff logit : (forall e, e < E -> in_range N (dst e)) -> (forall e, e < E -> length (logit e) = w) ->
  exists al, tf_alpha E N w dst cutoff logit = Ok al /\ forall e, e < E -> al e = map (fun h => attend (box_of N E dst cutoff logit (node N (dst e))) h (cutoff e, logit e)) (seq 0 w).
Proof.
  intros H L. unfold tf_alpha. cbv zeta. set (ex := fun e => map (Rmult (cutoff e)) (map exp (zipR Rminus (logit e) (index_max E dst w logit N (gather_index N (dst e)))))).
  unfold scatter_op. cbn [bind length]. assert (Pf : is_prefix [E] [E] = true) by (apply (prefix_ok [E] [])). rewrite Pf. cbn [negb bind skipn snd]. eexists. split; [reflexivity|]. cbv beta.
  assert (Lx : forall e, e < E -> length (ex e) = w).
  { intros e He. unfold ex. rewrite !map_length. rewrite zipR_length. rewrite L, index_max_length by assumption. apply Nat.min_id. }
  assert (Nx : forall e h, e < E -> h < w -> nth h (ex e) 0%R = heat (box_of N E dst cutoff logit (node N (dst e))) h (cutoff e, logit e)).
  { intros e h He Hh. assert (Lz : length (zipR Rminus (logit e) (index_max E dst w logit N (gather_index N (dst e)))) = w) by (pose proof (Lx e He) as Q; unfold ex in Q; rewrite !map_length in Q; exact Q).
    unfold ex. rewrite (nth_indep _ 0%R (cutoff e * 0)%R) by (rewrite !map_length, Lz; exact Hh). rewrite (map_nth (Rmult (cutoff e))). rewrite (nth_indep _ 0%R (exp 0)) by (rewrite map_length, Lz; exact Hh). rewrite (map_nth exp).
    rewrite nth_zipR; [|rewrite L, index_max_length by assumption; reflexivity|rewrite L by exact He; exact Hh].
    unfold heat. cbn [fst snd]. destruct (node_spec N (dst e) (H e He)) as (_ & -> & _). rewrite index_max_nth by assumption. rewrite (shift_box _ _ _ (fun _ => 0%R) cutoff). reflexivity. }
  intros e He. destruct (node_spec N (dst e) (H e He)) as (_ & Gi & _). match goal with |- _ = ?r => change (zipR Rdiv (ex e) (map (fun t => if Req_EM_T t 0 then 1 else t)%R (scatter_rows Rplus 0%R w [E] (fun i => resolve_index MPromise N (dst (hd 0 i))) (fun i => ex (hd 0 i)) [gather_index N (dst e)])) = r) end. rewrite Gi. clear Gi. set (n := node N (dst e)) in *.
  set (rows := scatter_rows Rplus 0%R w [E] (fun i => resolve_index MPromise N (dst (hd 0 i))) (fun i => ex (hd 0 i)) [n]).
  assert (Rs : rows = rowsum w (map ex (incoming N E dst n))).
  { unfold rows. rewrite scatter_rows_sum.
    - unfold landing. rewrite hits_incoming by exact H. rewrite map_map. reflexivity.
    - intros j Hj. inversion Hj as [|f ? t ? Hf Ht]; subst. inversion Ht; subst. cbn [app hd]. apply Lx, Hf. }
  assert (In_E : forall f, In f (incoming N E dst n) -> f < E) by (intros f Hf; apply filter_In in Hf as [Hf _]; apply in_seq in Hf; lia).
  assert (Lr : length rows = w). { rewrite Rs. apply rowsum_length. apply Forall_map, Forall_forall. intros f Hf. apply Lx, In_E, Hf. }
  assert (Lz : length (zipR Rdiv (ex e) (map (fun t => if Req_EM_T t 0 then 1 else t)%R rows)) = w) by (rewrite zipR_length, map_length, Lr, Lx by exact He; apply Nat.min_id).
  apply (nth_ext _ _ 0%R 0%R); [rewrite Lz, map_length, seq_length; reflexivity|]. rewrite Lz. intros h Hh. rewrite nth_zipR by (rewrite ?map_length, ?Lr, Lx by exact He; auto). rewrite nth_map_seq by exact Hh.
  unfold attend. rewrite Nx by assumption. f_equal. rewrite (TPProofs.nth_map_at _ _ _ 0%R) by (rewrite Lr; exact Hh).
  assert (Z0 : nth h rows 0%R = partition (box_of N E dst cutoff logit n) h).
  { rewrite Rs. rewrite nth_rowsum_lsum by (auto; intros f Hf; apply Lx, In_E, Hf). assert (G : forall g, lsum (box_of N E dst cutoff logit n) g = lsum (incoming N E dst n) (fun e => g (cutoff e, logit e))) by (intros g; unfold box_of; apply lsum_map). unfold partition. rewrite G. apply lsum_ext. intros f Hf. rewrite Nx by (auto using In_E). apply filter_In in Hf as [_ Hf]. apply Nat.eqb_eq in Hf. rewrite Hf. reflexivity. }
  rewrite Z0. reflexivity.
Qed.
