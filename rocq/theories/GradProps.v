(* C55: grad(f) returns the Jacobian of f coupled into irreps, for every differentiable f; it is equivariant when f is. *)
From Coq Require Import Reals Lra.
From Coquelicot Require Import Coquelicot.
From Verif Require Import PyBase PermModel PermProofs IrrepsModel IrrepsProofs IrrepsProofs2 ArrayModel ArrayProofs ArrayOps RechunkProofs ArithProofs BlockProofs LeadModel LeadProofs StackProofs BilinProofs ActProofs EquivProofs EquivProofs2 SumR TPModel LinearProofs TPProofs StableSort TPProofs2 TPProofs3 ScatterModel ScatterProps RotationModel CGModel CGProofs6 WignerModel WignerProofs WignerProofs2 WignerProps WignerProps2 GradModel EntryProofs GradProofs.
Open Scope nat_scope.

(* ---------- arguments ---------- *)
Lemma set_arg_nth args p a d : p < length args -> nth p (set_arg args p a) d = a.
Proof. intros H. unfold set_arg. rewrite app_nth2; rewrite firstn_length_le by lia; [|lia]. rewrite Nat.sub_diag. reflexivity. Qed.
Lemma set_arg_length args p a : p < length args -> length (set_arg args p a) = length args.
Proof. intros H. unfold set_arg. rewrite app_length, firstn_length_le by lia. cbn [length]. rewrite skipn_length. lia. Qed.
Lemma set_arg_twice args p a b : p < length args -> set_arg (set_arg args p a) p b = set_arg args p b.
Proof.
  intros H. unfold set_arg. rewrite firstn_app, firstn_length_le by lia. rewrite Nat.sub_diag. cbn [firstn]. rewrite app_nil_r, firstn_firstn, Nat.min_id. f_equal. f_equal.
  rewrite skipn_app, firstn_length_le by lia. rewrite skipn_all2 by (rewrite firstn_length_le; lia). replace (S p - p) with 1 by lia. reflexivity.
Qed.
Lemma arg_position_lt args n p : arg_position args n = Some p -> p < length args.
Proof. unfold arg_position. destruct (_ && _)%bool eqn:E; [|discriminate]. intros Q. injection Q as <-. apply andb_true_iff in E as [E1 E2]. apply Z.leb_le in E1. apply Z.ltb_lt in E2. lia. Qed.
Lemma arg_position_ext args args' n : length args = length args' -> arg_position args n = arg_position args' n.
Proof. unfold arg_position. intros ->. reflexivity. Qed.

(* ---------- the value ---------- *)
(* the output entries, in order: one for each entry of the output, each entry of the input and each irrep of their product *)
Definition grad_slots (y x : irreps) : list (nat * nat * irrep) :=
  flat_map (fun '(k1, (_, a)) => flat_map (fun '(k2, (_, b)) => map (fun c => (k1, k2, c)) (ir_mul a b)) (enumerate x)) (enumerate y).

Lemma filter_passes l : filter (passes None) l = l.
Proof. induction l as [|a l IH]; [reflexivity|]. cbn [filter passes]. f_equal. exact IH. Qed.
Lemma slots_paths y x : grad_slots y x = map (fun p => (b_in1 p, b_in2 p, b_out p)) (tp_paths NComponent None y x).
Proof.
  unfold grad_slots, tp_paths. rewrite map_flat_map. apply flat_map_ext. intros [k1 [m1 a]]. rewrite map_flat_map. apply flat_map_ext. intros [k2 [m2 b]]. rewrite filter_passes, map_map. reflexivity.
Qed.
Lemma in_tp_paths y x p : In p (tp_paths NComponent None y x) -> exists m1 a m2 b, nth_error y (b_in1 p) = Some (m1, a) /\ nth_error x (b_in2 p) = Some (m2, b) /\ b_pairs p = pairs_all m1 m2 /\ b_mul p = m1 * m2 /\ b_alpha p = sqrt (INR (ir_dim (b_out p))).
Proof.
  intros Hp. unfold tp_paths in Hp. apply in_flat_map in Hp as ([k1 [m1 a]] & H1 & Hp). apply in_flat_map in Hp as ([k2 [m2 b]] & H2 & Hp). apply in_map_iff in Hp as (c & <- & Hc).
  exists m1, a, m2, b. cbn [b_in1 b_in2 b_pairs b_mul b_out b_alpha]. split; [apply enumerate_in, H1|]. split; [apply enumerate_in, H2|]. auto.
Qed.
Lemma pairs_all_nth m1 m2 u v : u < m1 -> v < m2 -> nth (u * m2 + v) (pairs_all m1 m2) (0, 0) = (u, v).
Proof.
  unfold pairs_all. assert (G : forall o m1 u, u < m1 -> v < m2 -> nth (u * m2 + v) (flat_map (fun u => map (fun v => (u, v)) (seq 0 m2)) (seq o m1)) (0, 0) = (o + u, v)); [|intros; apply G; assumption].
  clear. intros o m1. revert o. induction m1 as [|m1 IH]; intros o u Hu Hv; [lia|]. cbn [seq flat_map]. destruct u as [|u].
  - rewrite app_nth1 by (rewrite map_length, seq_length; lia). cbn [Nat.mul Nat.add]. rewrite (nth_map_at _ _ _ 0) by (rewrite seq_length; lia). rewrite seq_nth by lia. f_equal. lia.
  - rewrite app_nth2 by (rewrite map_length, seq_length; nia). rewrite map_length, seq_length. replace (S u * m2 + v - m2) with (u * m2 + v) by nia. rewrite IH by lia. f_equal. lia.
Qed.

(* grad(fun, argnums, regroup_output=False): the irreps are those of (output) x (input), the leading shape is output shape + input shape, and
   component k of copy (u, v) of the slot (k1, k2, c) is sqrt(dim c) * sum over e, g of C[e, g, k] * d y[i][k1, u, e] / d x[j][k2, v, g] *)
Theorem C55_value {A} cg (f : list pyarg -> res (pyarg * A)) args n p x y s' F G : arg_position args n = Some p -> nth p args (PAny 0) = PArr x -> coherent x -> computes f args p (irr x) (lead x) y s' F G ->
  exists z, grad cg f (Some n) false args = Ok (z, G (arr x)) /\ coherent z /\ lead z = s' ++ lead x /\
    irr z = flat_map (fun '(m1, a) => flat_map (fun '(m2, b) => map (fun c => (m1 * m2, c)) (ir_mul a b)) (irr x)) y /\
    forall i j q k1 k2 c m1 a m2 b u v k, valid s' i -> valid (lead x) j -> nth_error (grad_slots y (irr x)) q = Some (k1, k2, c) -> nth_error y k1 = Some (m1, a) -> nth_error (irr x) k2 = Some (m2, b) -> u < m1 -> v < m2 -> k < ir_dim c ->
      entry (irr z) (arr z (i ++ j)) q (u * m2 + v) k =
        (sqrt (INR (ir_dim c)) * rsum (ir_dim a) (fun e => rsum (ir_dim b) (fun g => cg (ir_l a) (ir_l b) (ir_l c) e g k * partial_at (irr x) y F (arr x) i k1 u e j k2 v g)))%R.
Proof.
  intros Hp Hx Cx C. destruct (grad_yields cg f args n p false x y s' F G Hp Hx Cx C) as (z & E & (z' & Ez & Z1 & Z2 & Z3 & Z4)). injection Ez as <-. exists z. split; [exact E|]. split; [exact Z3|]. split; [exact Z2|]. cbn [maybe_regroup] in Z1. split.
  - rewrite Z1, bil_out_tp. unfold product_entries. apply flat_map_ext. intros [m1 a]. apply flat_map_ext. intros [m2 b]. rewrite filter_passes. reflexivity.
  - intros i j q k1 k2 c m1 a m2 b u v k Hi Hj Hq E1 E2 Hu Hv Hk. rewrite slots_paths, nth_error_map in Hq. destruct (nth_error (tp_paths NComponent None y (irr x)) q) as [pp|] eqn:Ep; [|discriminate]. cbn [option_map] in Hq. injection Hq as <- <- <-.
    destruct (in_tp_paths _ _ _ (nth_error_In _ _ Ep)) as (m1' & a' & m2' & b' & F1 & F2 & Pp & Pm & Pa). assert (Q1 : (m1', a') = (m1, a)) by congruence. assert (Q2 : (m2', b') = (m2, b)) by congruence. injection Q1 as -> ->. injection Q2 as -> ->.
    rewrite Z1, Z4 by (apply valid_app; assumption). unfold grad_row. cbn [maybe_sort_row]. rewrite firstn_app_exact, skipn_app_exact by (eapply Forall2_length, Hi). unfold jac_row.
    rewrite entry_rowof. 2: { exists (b_mul pp), (b_out pp). rewrite bil_out_nth, Ep. split; [reflexivity|]. rewrite Pm. split; [nia|exact Hk]. }
    rewrite (nth_error_nth _ _ _ Ep). unfold jac_val. rewrite Pp, pairs_all_nth by assumption. rewrite (nth_error_nth _ _ _ E1), (nth_error_nth _ _ _ E2), Pa. reflexivity.
Qed.
(* regroup_output=True (the default) regroups that result; the auxiliary value is returned unchanged in both cases *)
Theorem C55_regroup {A} cg (f : list pyarg -> res (pyarg * A)) args n p x y s' F G : arg_position args n = Some p -> nth p args (PAny 0) = PArr x -> coherent x -> computes f args p (irr x) (lead x) y s' F G ->
  exists z z', grad cg f (Some n) false args = Ok (z, G (arr x)) /\ grad cg f (Some n) true args = Ok (z', G (arr x)) /\ agree (Ok z') (ia_regroup z).
Proof.
  intros Hp Hx Cx C. destruct (grad_yields cg f args n p false x y s' F G Hp Hx Cx C) as (z & E & (w & Ez & Z1 & Z2 & Z3 & Z4)). injection Ez as <-. destruct (grad_yields cg f args n p true x y s' F G Hp Hx Cx C) as (z' & E' & Y). exists z, z'. split; [exact E|]. split; [exact E'|].
  eexists _, _, _. split; [exact Y|]. pose proof (ia_regroup_yields z Z3) as Q. rewrite Z1, Z2 in Q. cbn [maybe_regroup] in *. eapply yields_ext; [|exact Q]. intros ij Hij. cbv beta. rewrite Z4 by exact Hij. reflexivity.
Qed.

(* ---------- equivariance ---------- *)
(* the IrrepsArray returned by a function of arrays *)
Definition array_of {A} (r : res (pyarg * A)) : res iarray := let! r := r in match fst r with PArr y => Ok y | PAny _ => Err TypeError end.
Definition main_result {A} (r : res (iarray * A)) : res iarray := let! r := r in Ok (fst r).
(* f commutes with r, the other arguments args becoming args' *)
Definition commutes_with {A} (r : mat) (f : list pyarg -> res (pyarg * A)) (args args' : list pyarg) (p : nat) (x : irreps) (s : shape) : Prop :=
  forall v, coherent v -> irr v = x -> lead v = s ->
    agree (let! y := array_of (f (set_arg args p (PArr v))) in transform_by_matrix y r) (let! v' := transform_by_matrix v r in array_of (f (set_arg args' p (PArr v')))).

Lemma rep_of_orthonormal_rows r : orthogonal3 r -> orthonormal_rows (rep_of r).
Proof.
  intros O ir a b Ha Hb. unfold rep_of. rewrite (rsum_ext _ _ (fun c => D_from_matrix r ir a c * D_from_matrix r ir b c)%R) by (intros c Hc; rewrite !as_rep_at by assumption; reflexivity). apply (proj1 (proj2 (D_matrix_orth r ir a b O Ha Hb))).
Qed.
Theorem C55_equivariant {A} (f : list pyarg -> res (pyarg * A)) args args' n p rg x y s' F G F' G' r : orthogonal3 r ->
  arg_position args n = Some p -> length args' = length args -> nth p args (PAny 0) = PArr x -> coherent x ->
  computes f args p (irr x) (lead x) y s' F G -> computes f args' p (irr x) (lead x) y s' F' G' -> commutes_with r f args args' p (irr x) (lead x) -> differentiable (irr x) (lead x) y s' F (arr x) ->
  agree (let! z := main_result (grad clebsch_gordan f (Some n) rg args) in transform_by_matrix z r)
        (let! x' := transform_by_matrix x r in main_result (grad clebsch_gordan f (Some n) rg (set_arg args' p (PArr x')))).
Proof.
  intros O Hp Hl Hx Cx C C' Hf Hdiff. set (D := rep_of r). assert (HD : rep_ok D) by apply as_rep_ok. pose proof (arg_position_lt _ _ _ Hp) as Lp.
  assert (HF : forall X, (forall j, valid (lead x) j -> length (X j) = dim (irr x)) -> forall i, valid s' i -> F' (fun j => act D (irr x) (X j)) i = act D y (F X i)).
  { intros X LX i Hi. set (v := IA (irr x) (lead x) X None None). destruct (fresh_chunks (irr x) (lead x) X LX) as [Cv _]. fold v in Cv. specialize (Hf v Cv eq_refl eq_refl). rewrite bind_by_matrix, by_matrix in Hf. fold D in Hf.
    destruct (co_value _ _ _ _ _ _ _ _ _ C v Cv eq_refl eq_refl) as (w & Ew & W1 & W2 & W3 & _ & W4). unfold array_of at 1 in Hf. rewrite Ew in Hf. cbn [bind fst] in Hf.
    destruct (transform_act D v Cv HD) as (v' & Ev & V1 & V2 & V3 & V4). rewrite Ev in Hf. cbn [bind] in Hf. destruct (co_value _ _ _ _ _ _ _ _ _ C' v' V3 V1 V2) as (w' & Ew' & W1' & W2' & W3' & _ & W4'). unfold array_of in Hf. rewrite Ew' in Hf. cbn [bind fst] in Hf.
    destruct (transform_act D w W3 HD) as (t & Et & T1 & T2 & T3 & T4). rewrite Et in Hf. destruct Hf as (ox & os & oa & (t1 & Q1 & _ & S1 & _ & R1) & (t2 & Q2 & _ & S2 & _ & R2)). injection Q1 as <-. injection Q2 as <-.
    assert (Eo : os = s') by congruence. subst os. rewrite Eo in *. rewrite W2 in T4. specialize (T4 i Hi). rewrite W1, (W4 i Hi) in T4. cbn [arr v] in T4. rewrite <- T4, R1 by exact Hi. rewrite <- R2 by exact Hi. rewrite W4' by exact Hi.
    destruct (co_local _ _ _ _ _ _ _ _ _ C' (fun j => act D (irr x) (X j)) (arr v')) as [_ EF]; [intros j Hj; symmetry; apply V4; exact Hj|]. apply EF, Hi. }
  destruct (grad_yields clebsch_gordan f args n p rg x y s' F G Hp Hx Cx C) as (z & E & Yz). rewrite E. cbn [main_result bind fst]. rewrite !by_matrix. fold D. destruct Yz as (z0 & Ez & Z1 & Z2 & Z3 & Z4). injection Ez as <-.
  destruct (transform_act D x Cx HD) as (x' & Ex & X1 & X2 & X3 & X4). rewrite Ex. cbn [bind].
  assert (C1 : computes f (set_arg args' p (PArr x')) p (irr x') (lead x') y s' F' G').
  { rewrite X1, X2. constructor; [|apply (co_local _ _ _ _ _ _ _ _ _ C')]. intros v V1 V2 V3. rewrite set_arg_twice by lia. apply (co_value _ _ _ _ _ _ _ _ _ C' v V1 V2 V3). }
  assert (Hp' : arg_position (set_arg args' p (PArr x')) n = Some p) by (rewrite (arg_position_ext _ args) by (rewrite set_arg_length; lia); exact Hp).
  destruct (grad_yields clebsch_gordan f (set_arg args' p (PArr x')) n p rg x' y s' F' G' Hp' ltac:(apply set_arg_nth; lia) X3 C1) as (z' & E' & Yz'). unfold main_result. rewrite E'. cbn [bind fst]. rewrite X1, X2 in Yz'.
  pose proof (transform_act D z Z3 HD) as Yt. rewrite Z1, Z2 in Yt. eexists _, _, _. split; [exact Yt|]. eapply yields_ext; [|exact Yz']. intros ij Hij. cbv beta. rewrite Z4 by exact Hij.
  destruct (valid_app_inv _ _ _ Hij) as (i & j & -> & Vi & Vj). rewrite firstn_app_exact, skipn_app_exact by (eapply Forall2_length, Vi).
  rewrite (grad_row_act clebsch_gordan f args args' p rg (irr x) (lead x) y s' F G F' G' D (arr x) i j C C' HD (rep_of_orthonormal_rows r O) (rep_of_intertwines r O) HF (proj1 Cx) Hdiff Vi Vj).
  unfold grad_row. cbv zeta. f_equal. apply jac_row_ext; [apply tp_paths_ok|]. intros k1 u e k2 v g H1 H2. unfold partial_at. apply Derive_ext. intros t.
  destruct (co_local _ _ _ _ _ _ _ _ _ C' (moved (arr x') j (unit_row (irr x) k2 v g) t) (moved (fun j0 => act D (irr x) (arr x j0)) j (unit_row (irr x) k2 v g) t)) as [_ EF]; [|rewrite EF by exact Vi; reflexivity].
  intros j' Hj'. unfold moved. rewrite X4 by exact Hj'. reflexivity.
Qed.

(* ---------- rejections ---------- *)
Theorem C55_rejects {A} cg (f : list pyarg -> res (pyarg * A)) rg args n :
  grad cg f None rg args = Err ValueError /\
  (arg_position args n = None -> grad cg f (Some n) rg args = Err IndexError) /\
  (forall p v, arg_position args n = Some p -> nth p args (PAny 0) = PAny v -> grad cg f (Some n) rg args = Err TypeError) /\
  (forall p x, arg_position args n = Some p -> nth p args (PAny 0) = PArr x -> coherent x ->
     (forall v, coherent v -> irr v = irr x -> lead v = lead x -> exists w aux, f (set_arg args p (PArr v)) = Ok (PAny w, aux)) -> grad cg f (Some n) rg args = Err TypeError).
Proof.
  split; [reflexivity|]. split; [intros H; unfold grad; rewrite H; reflexivity|]. split; [intros p v H E; unfold grad; rewrite H, E; reflexivity|].
  intros p x H E Cx Hf. unfold grad. rewrite H, E, mkIA_ok by auto. cbn [bind]. set (x0 := IA (irr x) (lead x) (arr x) None None). destruct (fresh_chunks (irr x) (lead x) (arr x) (proj1 Cx)) as [C0 _]. fold x0 in C0.
  destruct (rebuilt0_yields x0 C0) as (v & Ev & V1 & V2 & V3 & _). cbn [irr lead x0] in Ev, V1, V2. unfold naked_fun. rewrite Ev. cbn [bind]. destruct (Hf v V3 V1 V2) as (w & aux & ->). reflexivity.
Qed.
(* which argument: a non-negative number counts from the first argument, a negative one from the last *)
Theorem C55_argnums args n p : arg_position args n = Some p <-> p < length args /\ (Z.of_nat p = n \/ Z.of_nat p = n + Z.of_nat (length args))%Z /\ (n < 0 -> Z.of_nat p = n + Z.of_nat (length args))%Z.
Proof.
  unfold arg_position. destruct (Z.ltb_spec n 0) as [Hn|Hn]; cbv zeta.
  - destruct (_ && _)%bool eqn:Q.
    + apply andb_true_iff in Q as [Q1 Q2]. apply Z.leb_le in Q1. apply Z.ltb_lt in Q2. split; [intros E; injection E as <-; lia|intros (P1 & P2 & P3); f_equal; lia].
    + split; [discriminate|]. intros (P1 & P2 & P3). apply andb_false_iff in Q. rewrite Z.leb_gt, Z.ltb_ge in Q. lia.
  - destruct (_ && _)%bool eqn:Q.
    + apply andb_true_iff in Q as [Q1 Q2]. apply Z.leb_le in Q1. apply Z.ltb_lt in Q2. split; [intros E; injection E as <-; lia|intros (P1 & P2 & P3); f_equal; lia].
    + split; [discriminate|]. intros (P1 & P2 & P3). apply andb_false_iff in Q. rewrite Z.leb_gt, Z.ltb_ge in Q. lia.
Qed.
(* a function whose result has a zero-flagged chunk (None) is not accepted, although its derivative exists: grad raises TypeError *)
Theorem C55_zero_chunk_refuted {A} cg (f : list pyarg -> res (pyarg * A)) args n p rg x : arg_position args n = Some p -> nth p args (PAny 0) = PArr x -> coherent x ->
  (forall v, coherent v -> irr v = irr x -> lead v = lead x -> exists w aux, f (set_arg args p (PArr v)) = Ok (PArr w, aux) /\ In None (chunks w)) -> grad cg f (Some n) rg args = Err TypeError.
Proof.
  intros H E Cx Hf. unfold grad. rewrite H, E, mkIA_ok by auto. cbn [bind]. set (x0 := IA (irr x) (lead x) (arr x) None None). destruct (fresh_chunks (irr x) (lead x) (arr x) (proj1 Cx)) as [C0 _]. fold x0 in C0.
  destruct (rebuilt0_yields x0 C0) as (v & Ev & V1 & V2 & V3 & _). cbn [irr lead x0] in Ev, V1, V2. unfold naked_fun. rewrite Ev. cbn [bind]. destruct (Hf v V3 V1 V2) as (w & aux & -> & N). cbn [bind].
  replace (existsb _ (chunks w)) with true; [reflexivity|]. symmetry. apply existsb_exists. exists None. auto.
Qed.
(* for instance x -> zeros("0e") *)
Example C55_zero_chunk_witness : exists (f : list pyarg -> res (pyarg * unit)) x, coherent x /\ f [PArr x] = (let! w := zeros [(1, Irrep 0 Even)] [] in Ok (PArr w, tt)) /\ grad clebsch_gordan f (Some 0%Z) true [PArr x] = Err TypeError.
Proof.
  set (f := fun _ : list pyarg => let! w := zeros [(1, Irrep 0 Even)] [] in Ok (PArr w, tt)). set (x := IA [(1, Irrep 1 Odd)] [] (fun _ => [1; 2; 3]%R) None None).
  assert (Cx : coherent x) by (split; [intros i V; reflexivity|split; [apply flags_false|exact I]]). exists f, x. split; [exact Cx|]. split; [reflexivity|].
  apply (C55_zero_chunk_refuted clebsch_gordan f [PArr x] 0%Z 0 true x); auto. intros v _ _ _. eexists _, _. split; [reflexivity|]. left. reflexivity.
Qed.

(* ---------- scalar functions ---------- *)
Lemma rowof_relabel (g : irrep -> irrep) x H : (forall b, ir_dim (g b) = ir_dim b) -> rowof (map (fun '(m, b) => (m, g b)) x) H = rowof x H.
Proof. intros Hg. revert H. induction x as [|[m b] x IH]; intros H; [reflexivity|]. cbn [map rowof fst snd]. rewrite Hg, IH. reflexivity. Qed.
Lemma ir_mul_scalar p b : ir_mul (Irrep 0 p) b = [Irrep (ir_l b) (pmul p (ir_p b))].
Proof.
  unfold ir_mul. cbn [ir_l ir_p]. replace (Z.to_nat (Z.abs (Z.of_nat 0 - Z.of_nat (ir_l b)))) with (ir_l b) by lia. match goal with |- context [seq ?a ?n] => replace (seq a n) with [ir_l b] by (replace n with 1 by lia; reflexivity) end. reflexivity.
Qed.
Lemma flat_map_single {A B} (f : A -> B) l : flat_map (fun a => [f a]) l = map f l.
Proof. induction l as [|a l IH]; [reflexivity|]. cbn [flat_map map app]. rewrite IH. reflexivity. Qed.
(* the gradient of a scalar (or pseudo-scalar) function is the array of its partial derivatives: same multiplicities and degrees as the argument, parities multiplied *)
Theorem C55_scalar {A} (f : list pyarg -> res (pyarg * A)) args n p x q s' F G : arg_position args n = Some p -> nth p args (PAny 0) = PArr x -> coherent x -> computes f args p (irr x) (lead x) [(1, Irrep 0 q)] s' F G ->
  exists z, grad clebsch_gordan f (Some n) false args = Ok (z, G (arr x)) /\ coherent z /\ lead z = s' ++ lead x /\ irr z = map (fun '(m, b) => (m, Irrep (ir_l b) (pmul q (ir_p b)))) (irr x) /\
    forall i j, valid s' i -> valid (lead x) j -> arr z (i ++ j) = rowof (irr x) (fun k v g => partial_at (irr x) [(1, Irrep 0 q)] F (arr x) i 0 0 0 j k v g).
Proof.
  intros Hp Hx Cx C. destruct (C55_value clebsch_gordan f args n p x _ s' F G Hp Hx Cx C) as (z & E & Cz & Lz & Iz & V). exists z. split; [exact E|]. split; [exact Cz|]. split; [exact Lz|].
  assert (Iz' : irr z = map (fun '(m, b) => (m, Irrep (ir_l b) (pmul q (ir_p b)))) (irr x)).
  { rewrite Iz. cbn [flat_map]. rewrite app_nil_r. rewrite <- (flat_map_single (fun '(m, b) => (m, Irrep (ir_l b) (pmul q (ir_p b))))). apply flat_map_ext. intros [m2 b]. rewrite ir_mul_scalar. cbn [map]. rewrite Nat.mul_1_l. reflexivity. }
  split; [exact Iz'|]. intros i j Hi Hj. rewrite <- (rowof_relabel (fun b => Irrep (ir_l b) (pmul q (ir_p b))) (irr x)) by reflexivity. rewrite <- Iz'.
  apply (rows_equal (irr z)); [apply Cz; rewrite Lz; apply valid_app; assumption|apply rowof_length|]. intros k v g Hin. rewrite entry_rowof by exact Hin. destruct Hin as (m & ir & En & Hv & Hg). rewrite Iz', nth_error_map in En. destruct (nth_error (irr x) k) as [[m2 b]|] eqn:E2; [|discriminate]. cbn [option_map] in En. injection En as <- <-.
  assert (Hs : nth_error (grad_slots [(1, Irrep 0 q)] (irr x)) k = Some (0, k, Irrep (ir_l b) (pmul q (ir_p b)))).
  { unfold grad_slots. change (enumerate [(1, Irrep 0 q)]) with [(0, (1, Irrep 0 q))]. cbn [flat_map]. rewrite app_nil_r.
    transitivity (nth_error (map (fun '(k2, (_, b)) => (0, k2, Irrep (ir_l b) (pmul q (ir_p b)))) (enumerate (irr x))) k).
    - f_equal. rewrite <- (flat_map_single (fun '(k2, (_, b)) => (0, k2, Irrep (ir_l b) (pmul q (ir_p b))))). apply flat_map_ext. intros [k2 [m2' b']]. rewrite ir_mul_scalar. reflexivity.
    - rewrite nth_error_map. assert (Ee : nth_error (enumerate (irr x)) k = Some (k, (m2, b))). { unfold enumerate. rewrite nth_error_combine, E2. assert (L : k < length (irr x)) by (apply nth_error_Some; congruence). rewrite (nth_error_nth' (seq 0 (length (irr x))) 0) by (rewrite seq_length; exact L). rewrite seq_nth by exact L. reflexivity. } rewrite Ee. reflexivity. }
  specialize (V i j k 0 k (Irrep (ir_l b) (pmul q (ir_p b))) 1 (Irrep 0 q) m2 b 0 v g Hi Hj Hs eq_refl E2 ltac:(lia) Hv Hg). cbn [Nat.mul Nat.add] in V. rewrite V. cbn [ir_l]. change (ir_dim (Irrep 0 q)) with 1. change (ir_dim (Irrep (ir_l b) (pmul q (ir_p b)))) with (2 * ir_l b + 1) in *. change (ir_dim b) with (2 * ir_l b + 1).
  cbn [rsum]. rewrite Rplus_0_l. assert (Pos : (0 < INR (2 * ir_l b + 1))%R) by (apply lt_0_INR; lia). pose proof (sqrt_lt_R0 _ Pos) as Sp.
  rewrite (rsum_ext _ _ (fun g' => (if g' =? g then 1 else 0) * (/ sqrt (INR (2 * ir_l b + 1)) * partial_at (irr x) [(1%nat, Irrep 0 q)] F (arr x) i 0 0 0 j k v g'))%R).
  - rewrite rsum_delta_l by exact Hg. rewrite <- Rmult_assoc, Rinv_r, Rmult_1_l by lra. reflexivity.
  - intros g' Hg'. rewrite cg_scalar_left by assumption. destruct (g' =? g); ring.
Qed.

(* ---------- an instance: the gradient of the squared norm is twice the argument ---------- *)
Lemma esum_cons m ir x h : esum ((m, ir) :: x) h = (rsum m (fun u => rsum (ir_dim ir) (fun c => h 0%nat u c)) + esum x (fun k => h (S k)))%R.
Proof. unfold esum. cbn [length]. rewrite rsum_S_l. reflexivity. Qed.
Lemma dotR_tab2 m d (P Q : nat -> nat -> R) : dotR (concat (tab2 m d P)) (concat (tab2 m d Q)) = rsum m (fun u => rsum d (fun c => P u c * Q u c))%R.
Proof.
  unfold tab2. induction m as [|m IH]; [reflexivity|]. unfold tab at 1 3. rewrite seq_S, !map_app, !concat_app, dotR_app.
  - cbn [rsum]. f_equal; [exact IH|]. cbn [map concat Nat.add]. rewrite !app_nil_r. rewrite (dotR_rsum _ _ d) by apply tab_length. apply rsum_ext. intros c Hc. rewrite !nth_tab by exact Hc. reflexivity.
  - destruct (tab2_wf m d P) as [L1 W1]. destruct (tab2_wf m d Q) as [L2 W2]. unfold tab2, tab at 1 in L1. unfold tab2, tab at 1 in W1. unfold tab2, tab at 1 in L2. unfold tab2, tab at 1 in W2. rewrite (concat_length_uniform d), (concat_length_uniform d) by assumption. congruence.
Qed.
Lemma dotR_rowof x P Q : dotR (rowof x P) (rowof x Q) = esum x (fun k u c => P k u c * Q k u c)%R.
Proof.
  revert P Q. induction x as [|[m ir] x IH]; intros P Q; [reflexivity|]. rewrite esum_cons. cbn [rowof fst snd]. rewrite dotR_app.
  - rewrite dotR_tab2, IH. reflexivity.
  - destruct (tab2_wf m (ir_dim ir) (P 0)) as [L1 W1]. destruct (tab2_wf m (ir_dim ir) (Q 0)) as [L2 W2]. rewrite (concat_length_uniform (ir_dim ir)), (concat_length_uniform (ir_dim ir)) by assumption. congruence.
Qed.
Lemma dotR_unit x k v g r : length r = dim x -> inside x k v g -> dotR (unit_row x k v g) r = entry x r k v g.
Proof.
  intros L (m & ir & E & Hv & Hg). rewrite <- (rowof_entry x r L) at 1. unfold unit_row. rewrite dotR_rowof.
  transitivity (esum x (fun k' w c => (if k' =? k then 1 else 0) * ((if w =? v then 1 else 0) * (if c =? g then 1 else 0)) * entry x r k' w c)%R).
  - unfold esum. apply rsum_ext. intros k' _. destruct (nth k' x d0) as [m' ir']. apply rsum_ext. intros w _. apply rsum_ext. intros c _. destruct (k' =? k), (w =? v), (c =? g); cbn [andb]; ring.
  - rewrite (esum_column x k v m ir (fun c => if c =? g then 1 else 0)%R (entry x r) E Hv). apply (rsum_delta_l _ g (entry x r k v)). exact Hg.
Qed.
Lemma dotR_lin_sq t h r : length h = length r -> dotR (lin t h r) (lin t h r) = (t * t * dotR h h + 2 * t * dotR h r + dotR r r)%R.
Proof.
  revert r. induction h as [|a h IH]; intros [|b r] L; try discriminate; [unfold dotR, lin, zipR; cbn; ring|]. unfold lin in *. cbn [map]. rewrite zipR_cons, !dotR_cons, IH by (cbn in L; lia). ring.
Qed.
Definition norm_squared_of (args : list pyarg) : res (pyarg * unit) :=
  match args with [PArr x] => let! y := norm x true false in Ok (PArr y, tt) | _ => Err TypeError end.
Definition norm_squared_rows : rows -> rows := fun X i => [dotR (X i) (X i)].
Lemma norm_squared_computes x s : computes norm_squared_of [PArr x] 0 (irr x) s [(1, Irrep 0 Even)] s norm_squared_rows (fun _ => tt).
Proof.
  constructor.
  - intros v Cv Iv Lv. cbn [set_arg firstn skipn app norm_squared_of]. destruct (norm_total_yields v true Cv) as (w & Ew & W1 & W2 & W3 & W4). rewrite Ew. cbn [bind]. exists w. split; [reflexivity|]. rewrite Lv in *. repeat (split; [assumption|]). split; [|intros i Hi; rewrite W4 by exact Hi; reflexivity].
    unfold norm in Ew. cbn [mkIA dim fold_right] in Ew. assert (Ew' : w = IA [(1, even_scalar)] (lead v) (fun i => [norm_row true (arr v i)]) None None) by (revert Ew; unfold mkIA; cbn; congruence). rewrite Ew'. constructor; [discriminate|constructor].
  - intros X X' H. split; [reflexivity|]. intros i Hi. unfold norm_squared_rows. rewrite (H i Hi). reflexivity.
Qed.
Lemma norm_squared_partial x (X : rows) i j k v g : length (X j) = dim x -> inside x k v g -> partial_at x [(1, Irrep 0 Even)] norm_squared_rows X i 0 0 0 j k v g = if shape_eqb j i then (2 * entry x (X j) k v g)%R else 0%R.
Proof.
  intros Lj Hin. unfold partial_at. apply is_derive_unique. apply (is_derive_ext (fun t => dotR (moved X j (unit_row x k v g) t i) (moved X j (unit_row x k v g) t i))); [intros t; reflexivity|]. unfold moved. destruct (shape_eqb i j) eqn:Q.
  - apply shape_eqb_eq in Q. subst j. rewrite (proj2 (shape_eqb_eq i i) eq_refl). set (a := dotR (unit_row x k v g) (unit_row x k v g)). set (b := dotR (X i) (X i)).
    apply (is_derive_ext (fun t : R => (t * t * a + 2 * t * entry x (X i) k v g + b)%R)); [intros t; rewrite dotR_lin_sq by (rewrite unit_row_length; congruence); rewrite (dotR_unit x k v g (X i)) by assumption; reflexivity|]. auto_derive; [exact I|ring].
  - destruct (shape_eqb j i) eqn:Q'; [apply shape_eqb_eq in Q'; subst; rewrite (proj2 (shape_eqb_eq i i) eq_refl) in Q; discriminate|]. exact (@is_derive_const R_AbsRing R_NormedModule (dotR (X i) (X i)) 0%R).
Qed.
Theorem C55_norm_squared x : coherent x ->
  exists z, grad clebsch_gordan norm_squared_of (Some 0%Z) false [PArr x] = Ok (z, tt) /\ irr z = irr x /\ lead z = lead x ++ lead x /\
    forall i j, valid (lead x) i -> valid (lead x) j -> arr z (i ++ j) = if shape_eqb j i then map (Rmult 2) (arr x j) else zero_row (dim (irr x)).
Proof.
  intros Cx. destruct (C55_scalar norm_squared_of [PArr x] 0%Z 0 x Even (lead x) norm_squared_rows (fun _ => tt) eq_refl eq_refl Cx (norm_squared_computes x (lead x))) as (z & E & Cz & Lz & Iz & V).
  exists z. split; [exact E|]. assert (Ix : irr z = irr x). { rewrite Iz. rewrite <- (map_id (irr x)) at 2. apply map_ext. intros [m [l p]]. destruct p; reflexivity. } split; [exact Ix|]. split; [exact Lz|]. intros i j Hi Hj. rewrite V by assumption.
  assert (Lj : length (arr x j) = dim (irr x)) by (apply Cx, Hj).
  assert (P : forall k v g, inside (irr x) k v g -> partial_at (irr x) [(1, Irrep 0 Even)] norm_squared_rows (arr x) i 0 0 0 j k v g = if shape_eqb j i then (2 * entry (irr x) (arr x j) k v g)%R else 0%R).
  { intros k v g Hin. apply norm_squared_partial; assumption. }
  transitivity (rowof (irr x) (fun k v g => if shape_eqb j i then (2 * entry (irr x) (arr x j) k v g)%R else 0%R)); [apply rowof_ext; intros k v g Hin; apply P, Hin|]. destruct (shape_eqb j i).
  - transitivity (rowof (irr x) (fun k v g => 2 * entry (irr x) (arr x j) k v g + entry (irr x) (zero_row (dim (irr x))) k v g)%R).
    + apply rowof_ext. intros k v g Hin. rewrite entry_zero by exact Hin. ring.
    + rewrite rowof_lin, !rowof_entry by (auto; apply repeat_length). rewrite <- Lj. unfold lin, zero_row. generalize (arr x j). clear. intros l. induction l as [|a l IH]; [reflexivity|]. cbn [map length repeat]. rewrite zipR_cons, IH. f_equal. lra.
  - transitivity (rowof (irr x) (entry (irr x) (zero_row (dim (irr x))))); [apply rowof_ext; intros k v g Hin; rewrite entry_zero by exact Hin; reflexivity|]. apply rowof_entry, repeat_length.
Qed.

(* it meets the hypotheses of C55_equivariant: it is differentiable everywhere and commutes with every element of O(3) *)
Lemma norm_squared_differentiable x s (X : rows) : (forall j, valid s j -> length (X j) = dim x) -> differentiable x s [(1, Irrep 0 Even)] s norm_squared_rows X.
Proof.
  intros LX H LH i k u e Hi (m & ir & E & Hu & He). destruct k as [|k]; [|destruct k; discriminate]. cbn [nth_error] in E. injection E as <- <-. cbn in Hu, He. assert (u = 0) by lia. assert (e = 0) by lia. subst u e.
  rewrite (lsum_one _ _ i); [|apply all_idx_nodup|apply all_idx_valid, Hi|].
  - replace (esum x _) with (2 * dotR (H i) (X i))%R.
    + set (a := dotR (H i) (H i)). set (b := dotR (X i) (X i)). apply (is_derive_ext (fun t : R => (t * t * a + 2 * t * dotR (H i) (X i) + b)%R)).
      * intros t. change (entry _ _ 0 0 0) with (dotR (lin t (H i) (X i)) (lin t (H i) (X i))). rewrite dotR_lin_sq by (rewrite LH, LX; auto). reflexivity.
      * auto_derive; [exact I|ring].
    + rewrite <- (rowof_entry x (H i)), <- (rowof_entry x (X i)) by auto. rewrite dotR_rowof. unfold esum. rewrite <- rsum_scal. apply rsum_ext. intros k Hk. destruct (nth k x d0) as [m ir] eqn:En. rewrite <- rsum_scal. apply rsum_ext. intros w Hw. rewrite <- rsum_scal. apply rsum_ext. intros c Hc.
      rewrite !rowof_entry by auto. rewrite norm_squared_partial; [|apply LX, Hi|exists m, ir; split; [rewrite <- En; apply nth_error_nth', Hk|auto]]. rewrite (proj2 (shape_eqb_eq i i) eq_refl). ring.
  - intros j Hj N. unfold esum. apply rsum_zero. intros k Hk. destruct (nth k x d0) as [m ir] eqn:En. apply rsum_zero. intros w Hw. apply rsum_zero. intros c Hc. rewrite norm_squared_partial; [|apply LX, all_idx_valid, Hj|exists m, ir; split; [rewrite <- En; apply nth_error_nth', Hk|auto]].
    destruct (shape_eqb j i) eqn:Q; [apply shape_eqb_eq in Q; contradiction|ring].
Qed.
Corollary C55_equivariant_nonvacuous x r rg : coherent x -> orthogonal3 r ->
  agree (let! z := main_result (grad clebsch_gordan norm_squared_of (Some 0%Z) rg [PArr x]) in transform_by_matrix z r)
        (let! x' := transform_by_matrix x r in main_result (grad clebsch_gordan norm_squared_of (Some 0%Z) rg [PArr x'])).
Proof.
  intros Cx O. apply (C55_equivariant norm_squared_of [PArr x] [PArr x] 0%Z 0 rg x [(1, Irrep 0 Even)] (lead x) norm_squared_rows (fun _ => tt) norm_squared_rows (fun _ => tt) r O eq_refl eq_refl eq_refl Cx (norm_squared_computes x _) (norm_squared_computes x _)).
  - intros v Cv Iv Lv. cbn [set_arg firstn skipn app norm_squared_of]. unfold array_of. set (D := rep_of r). assert (HD : rep_ok D) by apply as_rep_ok. rewrite bind_by_matrix, by_matrix. fold D. destruct (transform_act D v Cv HD) as (v' & Ev & V1 & V2 & V3 & V4). rewrite Ev. cbn [bind].
    destruct (norm_total_yields v true Cv) as (w & Ew & W1 & W2 & W3 & W4). rewrite Ew. cbn [bind fst]. destruct (norm_total_yields v' true V3) as (w' & Ew' & W1' & W2' & W3' & W4'). rewrite Ew'. cbn [bind fst].
    pose proof (transform_act D w W3 HD) as T. rewrite W1, W2 in T. exists [(1, even_scalar)], (lead v), (fun i => act D [(1, even_scalar)] (arr w i)). split; [exact T|]. exists w'. split; [reflexivity|]. split; [exact W1'|]. split; [congruence|]. split; [exact W3'|].
    intros i Hi. rewrite W4' by (rewrite V2; exact Hi). rewrite W4, V4 by exact Hi. rewrite <- (rowof_entry [(1, even_scalar)] [norm_row true (arr v i)]) by reflexivity. rewrite act_rowof by exact HD.
    assert (En : norm_row true (act D (irr v) (arr v i)) = norm_row true (arr v i)).
    { change (dotR (act D (irr v) (arr v i)) (act D (irr v) (arr v i)) = dotR (arr v i) (arr v i)). apply act_dot; [exact HD|apply rep_of_orthogonal, O|apply Cv, Hi|apply Cv, Hi]. }
    rewrite En. unfold rowof, tab2, tab. cbn [fst snd ir_dim even_scalar ir_l Nat.mul Nat.add seq map concat app nth rsum]. pose proof (rep_of_scalar r O) as Sc. unfold scalar_trivial in Sc. unfold D, even_scalar. rewrite Sc. unfold mat_at. cbn [nth]. f_equal. unfold entry. cbn. ring.
  - apply norm_squared_differentiable, (proj1 Cx).
Qed.
