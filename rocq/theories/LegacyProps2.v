(* C49: FunctionalTensorProduct, weights, right, equivariance, linearity, output mask, fully connected *)
From Coq Require Import Reals Lra Lia List.
From Verif Require Import PyBase PermModel PermProofs IrrepsModel IrrepsProofs IrrepsProofs2 ArrayModel ArrayProofs ArrayOps RechunkProofs ArithProofs BlockProofs LeadModel LeadProofs StackProofs BilinProofs ActProofs EquivProofs EquivProofs2 SumR TPModel LinearModel LinearProofs TPProofs TPProofs2 LinearProps TPProps3 TPProps4 SymProofs2 ArrayProps3 LegacyModel GSProofs LegacyProofs LegacyProofs2 LegacyProofs3 LegacyProofs4 LegacyProofs5 LegacyProofs6 LegacyProofs7 LegacyProofs8 LegacyProps.
From Verif Require Import EntryProofs.
Import ListNotations.
Open Scope nat_scope.

(* ---------- weights ---------- *)
(* one flat array and a list of arrays are interchangeable, with and without fusion *)
Theorem C49_flat_weights cg fused T l x1 x2 : weights_fit (tp_ins T) l -> left_right cg fused T (WFlat (flat_map t_val l)) x1 x2 = left_right cg fused T (WList l) x1 x2.
Proof.
  intros HW. unfold left_right. rewrite (weight_forms_ok T (WFlat (flat_map t_val l)) l), (weight_forms_ok T (WList l) l) by (split; [exact HW|reflexivity]). reflexivity.
Qed.
(* every flat array of the total size of the paths with weights is accepted ... *)
Theorem C49_flat_count T w : length w = PyBase.sum (map (fun o => nprod (path_shape o)) (filter ti_hw (tp_ins T))) <-> exists l, stands_for (tp_ins T) (WFlat w) l.
Proof.
  fold (weight_count (tp_ins T)). split.
  - intros H. destruct (split_flat_ok _ _ H) as (l & _ & F & V). exists l. split; [exact F|]. symmetry. exact V.
  - intros (l & F & ->). apply fit_count, F.
Qed.
(* ... and no other *)
Theorem C49_flat_rejects cg fused T w x1 x2 : inputs_for T x1 x2 -> dim (tp_in1 T) <> 0 -> dim (tp_in2 T) <> 0 -> dim (tp_out T) <> 0 ->
  length w <> PyBase.sum (map (fun o => nprod (path_shape o)) (filter ti_hw (tp_ins T))) -> exists e, left_right cg fused T (WFlat w) x1 x2 = Err e.
Proof.
  intros (H1 & H2 & S1 & S2 & L1 & L2) N1 N2 N3 HL. unfold left_right. destruct (rechunk_yields x1 _ H1 S1) as (y1 & -> & _). destruct (rechunk_yields x2 _ H2 S2) as (y2 & -> & _). cbn [bind].
  apply Nat.eqb_neq in N1, N2, N3. rewrite N1, N2, N3. cbn [orb weight_forms]. destruct (split_flat_bad _ _ HL) as (e & ->). exists e. reflexivity.
Qed.
(* a list of the wrong length or with an array of the wrong shape is refused without fusion *)
Lemma block_outs_wrong cg T c1 c2 ins : forall ws, length ws = length (filter ti_hw ins) -> Forall (coupled_ins (tp_in1 T) (tp_in2 T) (tp_out T)) ins -> Forall suits ins -> ~ Forall2 (fun o w => t_shape w = path_shape o) (filter ti_hw ins) ws -> exists e, block_outs cg T c1 c2 ins ws = Err e.
Proof.
  induction ins as [|o ins IH]; intros ws Lw HC HS N; [destruct ws; [exfalso; apply N; constructor|discriminate]|]. inversion HC as [|? ? (m1 & a & m2 & b & mo & c & E1 & E2 & E3 & _ & M1 & M2 & M3) HC']; subst. inversion HS as [|? ? So HS']; subst. cbn [block_outs]. unfold entry_of. rewrite (nth_error_nth _ _ _ E1), (nth_error_nth _ _ _ E2), (nth_error_nth _ _ _ E3).
  assert (K : forall w ws', (exists e, block_outs cg T c1 c2 ins ws' = Err e) -> exists e, (if (mi_dim (ti_m1 o, a) =? 0) || (mi_dim (ti_m2 o, b) =? 0) || (mi_dim (ti_mo o, c) =? 0) then block_outs cg T c1 c2 ins ws' else
        match nth (ti_1 o) c1 None, nth (ti_2 o) c2 None with
        | Some X, Some Y => let! v := block_value (ti_mode o) (ti_hw o) (ti_m1 o) (ti_m2 o) (ti_mo o) (ir_dim c) w (contract cg (ti_pw o) a b c (mat X) (mat Y)) in rmap (cons (Some v)) (block_outs cg T c1 c2 ins ws')
        | _, _ => rmap (cons None) (block_outs cg T c1 c2 ins ws') end) = Err e).
  { intros w ws' (e & Ee). rewrite Ee. destruct (_ || _ || _); [exists e; reflexivity|]. destruct (nth (ti_1 o) c1 None), (nth (ti_2 o) c2 None); try (exists e; reflexivity). destruct (block_value_ok (ti_mode o) (ti_hw o) (ti_m1 o) (ti_m2 o) (ti_mo o) (ir_dim c) w (contract cg (ti_pw o) a b c (mat c0) (mat c3)) So) as (v & -> & _). exists e. reflexivity. }
  cbn [filter] in *. destruct (ti_hw o).
  - destruct ws as [|w ws]; [discriminate|]. destruct (shape_eqb (t_shape w) (path_shape o)) eqn:Q; [|exists AssertionError; reflexivity]. cbn [bind tl]. apply K. apply shape_eqb_eq in Q. apply IH; [cbn in Lw; lia|assumption|assumption|]. intros F. apply N. constructor; assumption.
  - cbn [bind]. apply K. apply IH; assumption.
Qed.
Theorem C49_list_rejects cg T l x1 x2 : inputs_for T x1 x2 -> Forall (coupled_ins (tp_in1 T) (tp_in2 T) (tp_out T)) (tp_ins T) -> Forall suits (tp_ins T) -> dim (tp_in1 T) <> 0 -> dim (tp_in2 T) <> 0 -> dim (tp_out T) <> 0 ->
  ~ Forall2 (fun o w => t_shape w = path_shape o) (filter ti_hw (tp_ins T)) l -> exists e, left_right cg false T (WList l) x1 x2 = Err e.
Proof.
  intros (H1 & H2 & S1 & S2 & L1 & L2) HC HS N1 N2 N3 HN. unfold left_right. destruct (rechunk_yields x1 _ H1 S1) as (y1 & -> & _ & Ly1 & _). destruct (rechunk_yields x2 _ H2 S2) as (y2 & -> & _ & Ly2 & _). cbn [bind].
  apply Nat.eqb_neq in N1, N2, N3. rewrite N1, N2, N3. cbn [orb weight_forms]. destruct (Nat.eqb_spec (length l) (length (filter ti_hw (tp_ins T)))) as [E|]; [|exists AssertionError; reflexivity]. cbn [negb bind]. rewrite Ly1, Ly2, L1, L2. cbn [length Nat.eqb assert bind]. unfold block_left_right.
  destruct (block_outs_wrong cg T (chunks y1) (chunks y2) (tp_ins T) l E HC HS HN) as (e & ->). exists e. reflexivity.
Qed.

(* ---------- right ---------- *)
(* the matrix of right(x2), multiplied from the left with x1, is left_right(x1, x2).  Every chunk of x2 that is used must not be None *)
Theorem C49_right x y z us v1 v2 vo nrm pn gn T cg l x1 x2 y2 : functional_tp x y z us v1 v2 vo nrm pn gn = Ok T -> inputs_for T x1 x2 -> Forall suits (tp_ins T) -> Forall nonempty (tp_ins T) -> Forall rightable (tp_ins T) -> weights_fit (tp_ins T) l ->
  rechunk x2 y = Ok y2 -> Forall (fun o => nth (ti_2 o) (chunks y2) None <> None) (tp_ins T) ->
  exists M r, right cg T l x2 = Ok M /\ length M = dim x /\ left_right cg false T (WList l) x1 x2 = Ok r /\ arr r [] = vecmat (dim z) (arr x1 []) M.
Proof.
  intros E (H1 & H2 & S1 & S2 & L1 & L2) HS HN HR HW Er2 HC2. destruct (constructor_inv _ _ _ _ _ _ _ _ _ _ _ E) as (ins & _ & Ex & Ey & Ez & _). pose proof (coupled_all _ _ _ _ _ _ _ _ _ _ _ E) as HC.
  destruct (unfused_yields cg T (WList l) l x1 x2 H1 H2 S1 S2 L1 L2 HC HS HN (conj HW eq_refl)) as (r & Er & Ir & Lr & _ & Ar).
  assert (La : length (arr x1 []) = dim (tp_in1 T)) by (rewrite <- (dim_of_simplify _ _ S1); apply H1; rewrite L1; constructor).
  rewrite <- Ey in Er2. destruct (right_yields cg T l x2 y2 (arr x1 []) H2 L2 Er2 La HC HS HR HW HC2) as (M & EM & LM & V). exists M, r. split; [exact EM|]. split; [congruence|]. split; [exact Er|]. rewrite Ar by constructor. rewrite <- Ez. symmetry. exact V.
Qed.
(* the same against the fused evaluation, where entries may be empty *)
Theorem C49_right_fused x y z us v1 v2 vo nrm pn gn T cg l x1 x2 y2 : functional_tp x y z us v1 v2 vo nrm pn gn = Ok T -> inputs_for T x1 x2 -> Forall suits (tp_ins T) -> Forall fusable (tp_ins T) -> weights_fit (tp_ins T) l ->
  rechunk x2 y = Ok y2 -> Forall (fun o => nth (ti_2 o) (chunks y2) None <> None) (tp_ins T) ->
  exists M r, right cg T l x2 = Ok M /\ length M = dim x /\ left_right cg true T (WList l) x1 x2 = Ok r /\ arr r [] = vecmat (dim z) (arr x1 []) M.
Proof.
  intros E (H1 & H2 & S1 & S2 & L1 & L2) HS HF HW Er2 HC2. destruct (constructor_inv _ _ _ _ _ _ _ _ _ _ _ E) as (ins & _ & Ex & Ey & Ez & _). pose proof (coupled_all _ _ _ _ _ _ _ _ _ _ _ E) as HC.
  destruct (fused_yields cg T (WList l) l x1 x2 H1 H2 S1 S2 L1 L2 HC HS HF (conj HW eq_refl)) as (r & Er & Ir & Lr & _ & Ar).
  assert (HR : Forall rightable (tp_ins T)) by (eapply Forall_impl; [|exact HF]; intros o; unfold fusable, rightable; destruct (ti_mode o); auto).
  assert (La : length (arr x1 []) = dim (tp_in1 T)) by (rewrite <- (dim_of_simplify _ _ S1); apply H1; rewrite L1; constructor).
  rewrite <- Ey in Er2. destruct (right_yields cg T l x2 y2 (arr x1 []) H2 L2 Er2 La HC HS HR HW HC2) as (M & EM & LM & V). exists M, r. split; [exact EM|]. split; [congruence|]. split; [exact Er|]. rewrite Ar by constructor. rewrite <- Ez. symmetry. exact V.
Qed.
(* an array without zero flags has no None chunk *)
Lemma plain_chunks a : coherent a -> zf a = None -> forall k, k < length (irr a) -> nth k (chunks a) None <> None.
Proof.
  intros H Z k Hk N. pose proof (chunks_flags a H) as F. unfold zero_flags in F. rewrite Z in F. assert (L : length (chunks a) = length (irr a)) by (rewrite <- (map_length is_none), <- F; apply repeat_length).
  assert (Q : nth k (map is_none (chunks a)) true = true) by (rewrite (nth_map_in _ _ _ None) by lia; rewrite N; reflexivity). rewrite <- F in Q. rewrite (nth_error_nth (repeat false (length (irr a))) k true (x := false)) in Q by (apply nth_error_repeat; exact Hk). discriminate.
Qed.
Theorem C49_right_plain x y z us v1 v2 vo nrm pn gn T cg l x1 x2 : functional_tp x y z us v1 v2 vo nrm pn gn = Ok T -> inputs_for T x1 x2 -> irr x2 = y -> zf x2 = None ->
  Forall suits (tp_ins T) -> Forall nonempty (tp_ins T) -> Forall rightable (tp_ins T) -> weights_fit (tp_ins T) l ->
  exists M r, right cg T l x2 = Ok M /\ length M = dim x /\ left_right cg false T (WList l) x1 x2 = Ok r /\ arr r [] = vecmat (dim z) (arr x1 []) M.
Proof.
  intros E HI Iy Zf HS HN HR HW. apply (C49_right x y z us v1 v2 vo nrm pn gn T cg l x1 x2 x2); auto.
  - unfold rechunk, rechunk_opt. rewrite Iy. replace (irreps_eqb (simplify y) (simplify y)) with true by (symmetry; apply irreps_eqb_eq; reflexivity). replace (irreps_eqb y y) with true by (symmetry; apply irreps_eqb_eq; reflexivity). reflexivity.
  - pose proof (coupled_all _ _ _ _ _ _ _ _ _ _ _ E) as HC. destruct (constructor_inv _ _ _ _ _ _ _ _ _ _ _ E) as (ins & _ & _ & Ey & _). eapply Forall_impl; [|exact HC]. intros o (m1 & a & m2 & b & mo & c & _ & E2 & _). apply plain_chunks; [apply HI|exact Zf|]. rewrite Iy, <- Ey. apply nth_error_Some. congruence.
Qed.

(* ---------- equivariance ---------- *)
Lemma term_act cg D x y c o w q k xa xb : rep_ok D -> intertwines cg D -> length xa = dim x -> length xb = dim y ->
  (exists m1 a m2 b, nth_error x (ti_1 o) = Some (m1, a) /\ nth_error y (ti_2 o) = Some (m2, b) /\ In c (ir_mul a b) /\ ti_m1 o = m1 /\ ti_m2 o = m2) -> k < ir_dim c ->
  rsum (ir_dim c) (fun k' => mat_at (D c) k k' * term cg x y c (entry x xa) (entry y xb) o w q k')%R = term cg x y c (entry x (act D x xa)) (entry y (act D y xb)) o w q k.
Proof.
  intros HD HI La Lb (m1 & a & m2 & b & E1 & E2 & C & M1 & M2) Hk. unfold term. rewrite M1, M2.
  transitivity (rsum m1 (fun u => rsum m2 (fun v => coefficient (ti_mode o) (ti_hw o) m1 m2 (ti_mo o) w u v q * rsum (ir_dim c) (fun k' => mat_at (D c) k k' * path_val cg x y xa xb (BP (ti_1 o) (ti_2 o) [(u, v)] 1 c (ti_pw o)) 0 k')))%R).
  - rewrite (rsum_ext (ir_dim c) _ (fun k' => rsum m1 (fun u => rsum m2 (fun v => coefficient (ti_mode o) (ti_hw o) m1 m2 (ti_mo o) w u v q * (mat_at (D c) k k' * path_val cg x y xa xb (BP (ti_1 o) (ti_2 o) [(u, v)] 1 c (ti_pw o)) 0 k')))%R)).
    + rewrite rsum_swap. apply rsum_ext. intros u _. rewrite rsum_swap. apply rsum_ext. intros v _. rewrite <- rsum_scal. reflexivity.
    + intros k' _. rewrite <- rsum_scal. apply rsum_ext. intros u _. rewrite <- rsum_scal. apply rsum_ext. intros v _. unfold path_val. cbn [nth b_in1 b_in2 b_pairs b_alpha b_out]. ring.
  - apply rsum_ext. intros u Hu. apply rsum_ext. intros v Hv. f_equal. assert (PO : path_ok x y (BP (ti_1 o) (ti_2 o) [(u, v)] 1 c (ti_pw o))).
    2:{ pose proof (path_val_act cg D x y xa xb (BP (ti_1 o) (ti_2 o) [(u, v)] 1 c (ti_pw o)) 0 k HD HI PO La Lb Nat.lt_0_1 Hk) as Q. cbn [b_out] in Q. rewrite Q. reflexivity. }
    exists m1, a, m2, b. cbn [b_in1 b_in2 b_out b_pairs b_mul length]. repeat (split; [assumption|]). split; [reflexivity|]. constructor; [split; assumption|constructor].
Qed.
Lemma legacy_act cg D T ps xa xb : rep_ok D -> intertwines cg D -> Forall (fun p => coupled_ins (tp_in1 T) (tp_in2 T) (tp_out T) (fst p)) ps -> length xa = dim (tp_in1 T) -> length xb = dim (tp_in2 T) ->
  act D (tp_out T) (rowof (tp_out T) (legacy_entry cg (tp_in1 T) (tp_in2 T) (tp_out T) ps (entry (tp_in1 T) xa) (entry (tp_in2 T) xb))) =
  rowof (tp_out T) (legacy_entry cg (tp_in1 T) (tp_in2 T) (tp_out T) ps (entry (tp_in1 T) (act D (tp_in1 T) xa)) (entry (tp_in2 T) (act D (tp_in2 T) xb))).
Proof.
  intros HD HI HC La Lb. rewrite act_rowof by exact HD. apply rowof_ext. intros j q k (mo & c & Ej & Hq & Hk). cbv zeta. change (0, Irrep 0 Even) with d0. unfold legacy_entry. rewrite (nth_error_nth _ _ _ Ej). cbn [snd].
  transitivity (lsum ps (fun p => rsum (ir_dim c) (fun k' => mat_at (D c) k k' * (let '(o, w) := p in if ti_o o =? j then term cg (tp_in1 T) (tp_in2 T) c (entry (tp_in1 T) xa) (entry (tp_in2 T) xb) o w q k' else 0)))%R).
  - rewrite lsum_rsum. apply rsum_ext. intros k' _. rewrite lsum_scal. reflexivity.
  - apply lsum_ext. intros [o w] Hp. rewrite Forall_forall in HC. destruct (HC _ Hp) as (m1 & a & m2 & b & mo' & c' & E1 & E2 & E3 & C & M1 & M2 & M3). cbn [fst] in *. destruct (Nat.eqb_spec (ti_o o) j) as [E|N]; [|apply rsum_zero; intros; ring].
    assert (Ec : c' = c) by (rewrite E in E3; congruence). apply term_act; auto. exists m1, a, m2, b. rewrite <- Ec. auto.
Qed.
Theorem C49_equivariant x y z us v1 v2 vo nrm pn gn T cg D (fused : bool) w l x1 x2 : functional_tp x y z us v1 v2 vo nrm pn gn = Ok T -> rep_ok D -> intertwines cg D -> inputs_for T x1 x2 -> Forall suits (tp_ins T) ->
  (if fused then Forall fusable (tp_ins T) else Forall nonempty (tp_ins T)) -> stands_for (tp_ins T) w l ->
  agree (let! r := left_right cg fused T w x1 x2 in transform D r) (let! u := transform D x1 in let! v := transform D x2 in left_right cg fused T w u v).
Proof.
  intros E HD HI (H1 & H2 & S1 & S2 & L1 & L2) HS HF HW. pose proof (coupled_all _ _ _ _ _ _ _ _ _ _ _ E) as HC.
  apply (commute2 D (left_right cg fused T w) x1 x2 (tp_out T) [] (fun a b _ => rowof (tp_out T) (legacy_entry cg (tp_in1 T) (tp_in2 T) (tp_out T) (assign (tp_ins T) l) (entry (tp_in1 T) (a [])) (entry (tp_in2 T) (b []))))); auto.
  - intros u v Hu Iu Lu _ Hv Iv Lv _. rewrite <- Iu in S1. rewrite <- Iv in S2. rewrite L1 in Lu. rewrite L2 in Lv. destruct fused; [apply fused_yields|apply unfused_yields]; auto.
  - intros a b a' b' i Hi Ea Eb. rewrite Ea, Eb by (rewrite ?L1, ?L2; constructor). reflexivity.
  - intros a b i Hi La Lb. rewrite legacy_act; auto.
    + rewrite (act_flat D (tp_in1 T) (irr x1)) by (symmetry; apply simplify_iff, S1). rewrite (act_flat D (tp_in2 T) (irr x2)) by (symmetry; apply simplify_iff, S2). reflexivity.
    + apply Forall_forall. intros [o w'] Hp. rewrite Forall_forall in HC. apply HC. apply assign_in in Hp. exact Hp.
    + rewrite <- (dim_of_simplify _ _ S1). apply La. rewrite L1. constructor.
    + rewrite <- (dim_of_simplify _ _ S2). apply Lb. rewrite L2. constructor.
Qed.
