(* Tensor products: the calls succeed, and what they return. *)
From Coq Require Import Reals Lra Permutation Sorted.
From Verif Require Import PyBase PermModel PermProofs IrrepsModel IrrepsProofs IrrepsProofs2 ArrayModel ArrayProofs ArrayOps RechunkProofs ArithProofs BlockProofs LeadModel LeadProofs StackProofs BilinProofs ActProofs EquivProofs EquivProofs2 SumR EntryProofs TPModel LinearProofs TPProofs StableSort.
Open Scope nat_scope.

(* ---------- broadcasting ---------- *)
Lemma bdim_absorb a b d : bdim a b = Ok d -> bdim a d = Ok d /\ bdim b d = Ok d.
Proof.
  unfold bdim. intros H. destruct (Nat.eqb_spec a b) as [->|N]; [injection H as <-; rewrite Nat.eqb_refl; auto|].
  destruct (Nat.eqb_spec a 1) as [->|N1]; [injection H as <-|destruct (Nat.eqb_spec b 1) as [->|N2]; [injection H as <-|discriminate]].
  - rewrite Nat.eqb_refl. destruct (Nat.eqb_spec 1 b); [congruence|]. auto.
  - rewrite Nat.eqb_refl. destruct (Nat.eqb_spec 1 a); [congruence|]. auto.
Qed.
Lemma bshape_rev_absorb s t r : bshape_rev s t = Ok r -> bshape_rev s r = Ok r /\ bshape_rev t r = Ok r.
Proof.
  assert (R : forall q, bshape_rev q q = Ok q). { induction q as [|a q IH]; [reflexivity|]. cbn. unfold bdim. rewrite Nat.eqb_refl. cbn. rewrite IH. reflexivity. }
  revert t r. induction s as [|a s IH]; intros t r H.
  - cbn in H. injection H as ->. split; [reflexivity|apply R].
  - destruct t as [|b t]; [cbn in H; injection H as <-; split; [apply R|reflexivity]|]. cbn in H. destruct (bdim a b) as [d|] eqn:Ed; [|discriminate]. cbn in H. destruct (bshape_rev s t) as [q|] eqn:Eq; [|discriminate]. cbn in H. injection H as <-.
    destruct (bdim_absorb _ _ _ Ed) as [D1 D2]. destruct (IH _ _ Eq) as [I1 I2]. cbn. rewrite D1, D2, I1, I2. auto.
Qed.
Lemma broadcast_absorb a b s : broadcast_shapes a b = Ok s -> broadcast_shapes a s = Ok s /\ broadcast_shapes b s = Ok s.
Proof.
  unfold broadcast_shapes. destruct (bshape_rev (rev a) (rev b)) as [q|] eqn:E; [|discriminate]. cbn. intros H. injection H as <-. rewrite rev_involutive. destruct (bshape_rev_absorb _ _ _ E) as [-> ->]. auto.
Qed.
Lemma prepare_yields x y s : coherent x -> coherent y -> broadcast_shapes (lead x) (lead y) = Ok s ->
  exists x' y', prepare x y = Ok (x', y', s) /\ irr x' = irr x /\ lead x' = s /\ coherent x' /\ (forall i, valid s i -> arr x' i = arr x (bidx (lead x) i)) /\
    irr y' = irr y /\ lead y' = s /\ coherent y' /\ (forall i, valid s i -> arr y' i = arr y (bidx (lead y) i)).
Proof.
  intros Hx Hy E. destruct (broadcast_absorb _ _ _ E) as [Ex Ey]. unfold prepare. rewrite E. cbn [bind].
  destruct (broadcast_to_yields x s Hx Ex) as (x' & -> & X1 & X2 & X3 & X4). cbn [bind]. destruct (broadcast_to_yields y s Hy Ey) as (y' & -> & Y1 & Y2 & Y3 & Y4). cbn [bind]. exists x', y'. auto 12.
Qed.
Lemma prepare_rejects x y e : broadcast_shapes (lead x) (lead y) = Err e -> prepare x y = Err e.
Proof. unfold prepare. intros ->. reflexivity. Qed.

(* ---------- the paths are well formed ---------- *)
Lemma enumerate_in {A} (l : list A) k a : In (k, a) (enumerate l) -> nth_error l k = Some a.
Proof.
  unfold enumerate. intros H. apply In_nth_error in H as [n Hn]. rewrite nth_error_combine in Hn. destruct (nth_error (seq 0 (length l)) n) as [i|] eqn:E1; [|discriminate]. destruct (nth_error l n) as [b|] eqn:E2; [|discriminate]. injection Hn as -> ->.
  assert (L : n < length l) by (apply nth_error_Some; congruence). pose proof (nth_error_nth _ _ 0 E1) as E. rewrite seq_nth in E by exact L. cbn in E. subst n. exact E2.
Qed.
Lemma pairs_all_length m1 m2 : length (pairs_all m1 m2) = m1 * m2.
Proof.
  unfold pairs_all. assert (G : forall k, length (flat_map (fun u => map (fun v => (u, v)) (seq 0 m2)) (seq k m1)) = m1 * m2); [|apply G].
  induction m1 as [|m1 IH]; intros k; [reflexivity|]. cbn [seq flat_map]. rewrite app_length, map_length, seq_length, IH. reflexivity.
Qed.
Lemma pairs_all_in m1 m2 u v : In (u, v) (pairs_all m1 m2) <-> u < m1 /\ v < m2.
Proof.
  unfold pairs_all. rewrite in_flat_map. split.
  - intros (u' & Hu & Hv). apply in_map_iff in Hv as (v' & Q & Hv). injection Q as -> ->. apply in_seq in Hu, Hv. lia.
  - intros [Hu Hv]. exists u. rewrite in_seq. split; [lia|]. apply in_map_iff. exists v. rewrite in_seq. split; [reflexivity|lia].
Qed.
Lemma pairs_diag_length m : length (pairs_diag m) = m.
Proof. unfold pairs_diag. rewrite map_length, seq_length. reflexivity. Qed.
Lemma pairs_diag_in m u v : In (u, v) (pairs_diag m) <-> u < m /\ v = u.
Proof.
  unfold pairs_diag. rewrite in_map_iff. split; [intros (w & Q & Hw); injection Q as -> ->; apply in_seq in Hw; lia|]. intros [Hu ->]. exists u. rewrite in_seq. split; [reflexivity|lia].
Qed.
Lemma pairs_lt_in m u v : In (u, v) (pairs_lt m) <-> u < v < m.
Proof.
  unfold pairs_lt. rewrite in_flat_map. split.
  - intros (u' & Hu & Hv). apply in_map_iff in Hv as (v' & Q & Hv). injection Q as -> ->. apply in_seq in Hu, Hv. lia.
  - intros H. exists u. rewrite in_seq. split; [lia|]. apply in_map_iff. exists v. rewrite in_seq. split; [reflexivity|lia].
Qed.
Lemma pairs_lt_length m : length (pairs_lt m) = m * (m - 1) / 2.
Proof.
  assert (G : forall n k, k + n = m -> 2 * length (flat_map (fun u => map (fun v => (u, v)) (seq (S u) (m - S u))) (seq k n)) = n * (n - 1)).
  { induction n as [|n IH]; intros k H; [reflexivity|]. cbn [seq flat_map]. rewrite app_length, map_length, seq_length. specialize (IH (S k)). nia. }
  specialize (G m 0 eq_refl). unfold pairs_lt. apply Nat.div_unique_exact; lia.
Qed.
Lemma pairs_Forall (l : list (nat * nat)) (P : nat -> nat -> Prop) : (forall u v, In (u, v) l -> P u v) -> Forall (fun '(u, v) => P u v) l.
Proof. intros H. apply Forall_forall. intros [u v] Hu. apply H, Hu. Qed.
Lemma tp_paths_ok nrm flt x y : Forall (path_ok x y) (tp_paths nrm flt x y).
Proof.
  apply Forall_forall. intros p Hp. unfold tp_paths in Hp. apply in_flat_map in Hp as ([k1 [m1 a]] & H1 & Hp). apply in_flat_map in Hp as ([k2 [m2 b]] & H2 & Hp). apply in_map_iff in Hp as (c & <- & Hc). apply filter_In in Hc as [Hc _].
  exists m1, a, m2, b. cbn [b_in1 b_in2 b_pairs b_mul b_out]. split; [apply enumerate_in, H1|]. split; [apply enumerate_in, H2|]. split; [exact Hc|]. split; [apply pairs_all_length|]. apply pairs_Forall. intros u v. apply pairs_all_in.
Qed.
Lemma ew_paths_ok nrm flt x y : map fst x = map fst y -> Forall (path_ok x y) (ew_paths nrm flt x y).
Proof.
  intros M. apply Forall_forall. intros p Hp. unfold ew_paths in Hp. apply in_flat_map in Hp as ([k [[m1 a] [m2 b]]] & H1 & Hp). apply in_map_iff in Hp as (c & <- & Hc). apply filter_In in Hc as [Hc _].
  apply enumerate_in in H1. rewrite nth_error_combine in H1. destruct (nth_error x k) as [p|] eqn:E1; [|discriminate]. destruct (nth_error y k) as [q|] eqn:E2; [|discriminate]. injection H1 as -> ->.
  assert (m1 = m2). { pose proof (map_nth_error fst _ _ E1) as F1. pose proof (map_nth_error fst _ _ E2) as F2. rewrite M in F1. cbn in F1, F2. congruence. } subst m2.
  exists m1, a, m1, b. cbn [b_in1 b_in2 b_pairs b_mul b_out]. split; [exact E1|]. split; [exact E2|]. split; [exact Hc|]. split; [apply pairs_diag_length|]. apply pairs_Forall. intros u v. rewrite pairs_diag_in. lia.
Qed.
Lemma ts_paths_ok nrm nm x : Forall (path_ok x x) (ts_paths nrm nm x).
Proof.
  apply Forall_forall. intros p Hp. unfold ts_paths in Hp. apply in_flat_map in Hp as ([k1 [m1 a]] & H1 & Hp). apply in_flat_map in Hp as ([k2 [m2 b]] & H2 & Hp). apply in_flat_map in Hp as (c & Hc & Hp). apply enumerate_in in H1, H2.
  destruct (Nat.ltb_spec k1 k2) as [L|L].
  - destruct Hp as [<-|[]]. exists m1, a, m2, b. cbn [b_in1 b_in2 b_pairs b_mul b_out]. repeat split; auto; [apply pairs_all_length|]. apply pairs_Forall. intros u v. apply pairs_all_in.
  - destruct (Nat.eqb_spec k1 k2) as [->|N]; [|destruct Hp]. assert (Q : (m1, a) = (m2, b)) by congruence. injection Q as <- <-. apply in_app_or in Hp as [Hp|Hp].
    + destruct (1 <? m1); [|destruct Hp]. destruct Hp as [<-|[]]. exists m1, a, m1, a. cbn [b_in1 b_in2 b_pairs b_mul b_out]. repeat split; auto; [apply pairs_lt_length|]. apply pairs_Forall. intros u v. rewrite pairs_lt_in. lia.
    + destruct (Nat.even (ir_l c)); [|destruct Hp]. destruct Hp as [<-|[]]. exists m1, a, m1, a. cbn [b_in1 b_in2 b_pairs b_mul b_out]. repeat split; auto; [apply pairs_diag_length|]. apply pairs_Forall. intros u v. rewrite pairs_diag_in. lia.
Qed.

(* ---------- tensor_product ---------- *)
Definition maybe_regroup (rg : bool) (x : irreps) : irreps := if rg then regroup_irreps x else x.
Definition maybe_sort_row (rg : bool) (x : irreps) (row : list R) : list R := if rg then sort_row x row else row.
Definition tp_out (nrm : inorm) (flt : option (list irrep)) (rg : bool) (x y : irreps) : irreps :=
  maybe_regroup rg (sort_irreps (bil_out (tp_paths nrm flt (maybe_regroup rg x) (maybe_regroup rg y)))).
Definition tp_row (cg : coupling) (nrm : inorm) (flt : option (list irrep)) (rg : bool) (x y : irreps) (rx ry : list R) : list R :=
  let x' := maybe_regroup rg x in let y' := maybe_regroup rg y in
  let ps := tp_paths nrm flt x' y' in
  sort_row (bil_out ps) (bil_row cg ps x' y' (maybe_sort_row rg x rx) (maybe_sort_row rg y ry)).

Lemma maybe_regroup_yields (rg : bool) x : coherent x -> yields (if rg then ia_regroup x else Ok x) (maybe_regroup rg (irr x)) (lead x) (fun i => maybe_sort_row rg (irr x) (arr x i)).
Proof.
  intros H. destruct rg; [apply ia_regroup_yields, H|]. exists x. cbn [maybe_regroup maybe_sort_row]. auto.
Qed.
Lemma sort_then_regroup (rg : bool) (z : res iarray) o s a : yields z o s a -> (forall i, valid s i -> length (a i) = dim o) ->
  yields (let! z := z in let! z := ia_sort z in if rg then ia_regroup z else Ok z) (maybe_regroup rg (sort_irreps o)) s (fun i => sort_row o (a i)).
Proof.
  intros Y L. apply (yields_bind _ _ _ _ (fun z : iarray => let! z := ia_sort z in if rg then ia_regroup z else Ok z) _ _ _ Y). intros w _ E1 E2 H E.
  apply (yields_bind _ _ _ _ (fun z : iarray => if rg then ia_regroup z else Ok z) _ _ _ (sort_yields w H)). intros v _ F1 F2 G F. rewrite E1 in *. rewrite E2 in *. pose proof (maybe_regroup_yields rg v G) as Q. rewrite F1, F2 in Q.
  eapply yields_ext; [|exact Q]. intros i Hi. cbv beta. rewrite F, E by exact Hi. change (concat (map _ (sort_inv_list o))) with (sort_row o (a i)). destruct rg; [|reflexivity]. cbn [maybe_sort_row]. apply sort_row_idem, L, Hi.
Qed.
Lemma tensor_product_yields cg nrm flt rg x y s : coherent x -> coherent y -> nrm <> NOther -> broadcast_shapes (lead x) (lead y) = Ok s ->
  yields (tensor_product cg nrm flt rg x y) (tp_out nrm flt rg (irr x) (irr y)) s (fun i => tp_row cg nrm flt rg (irr x) (irr y) (arr x (bidx (lead x) i)) (arr y (bidx (lead y) i))).
Proof.
  intros Hx Hy Hn E. unfold tensor_product. destruct (prepare_yields x y s Hx Hy E) as (x1 & y1 & -> & X1 & X2 & X3 & X4 & Y1 & Y2 & Y3 & Y4). cbn [bind].
  destruct (maybe_regroup_yields rg x1 X3) as (x2 & -> & U1 & U2 & U3 & U4). cbn [bind]. destruct (maybe_regroup_yields rg y1 Y3) as (y2 & -> & V1 & V2 & V3 & V4). cbn [bind].
  rewrite X2 in U2, U4. rewrite Y2 in V2, V4. rewrite X1 in U1, U4. rewrite Y1 in V1, V4. unfold tp_out, tp_row. rewrite <- U1, <- V1.
  eapply yields_ext; [|apply (sort_then_regroup rg _ _ _ _ (bil_core_yields cg nrm _ x2 y2 s U3 V3 U2 V2 (tp_paths_ok nrm flt _ _) Hn))].
  - intros i Hi. cbv beta zeta. rewrite U4, V4, X4, Y4 by exact Hi. reflexivity.
  - intros i Hi. apply bil_row_length.
Qed.

Lemma maybe_sort_row_act D rg x row : rep_ok D -> length row = dim x -> act D (maybe_regroup rg x) (maybe_sort_row rg x row) = maybe_sort_row rg x (act D x row).
Proof.
  intros HD L. destruct rg; [|reflexivity]. cbn [maybe_regroup maybe_sort_row]. unfold sort_row. rewrite <- permuted_act by assumption. apply act_flat. apply flat_simplify.
Qed.
Lemma maybe_sort_row_length rg x row : length row = dim x -> length (maybe_sort_row rg x row) = dim (maybe_regroup rg x).
Proof.
  intros L. destruct rg; [|exact L]. cbn [maybe_regroup maybe_sort_row]. rewrite sort_row_length by exact L. unfold regroup_irreps. rewrite (dim_flat (simplify _)), flat_simplify, <- dim_flat. reflexivity.
Qed.
Lemma tp_row_act D cg nrm flt rg x y rx ry : rep_ok D -> intertwines cg D -> length rx = dim x -> length ry = dim y ->
  act D (tp_out nrm flt rg x y) (tp_row cg nrm flt rg x y rx ry) = tp_row cg nrm flt rg x y (act D x rx) (act D y ry).
Proof.
  intros HD HI Lx Ly. unfold tp_row. cbv zeta. rewrite <- !(maybe_sort_row_act D rg) by assumption. set (ps := tp_paths nrm flt _ _).
  transitivity (act D (sort_irreps (bil_out ps)) (sort_row (bil_out ps) (bil_row cg ps (maybe_regroup rg x) (maybe_regroup rg y) (maybe_sort_row rg x rx) (maybe_sort_row rg y ry)))).
  - unfold tp_out. fold ps. destruct rg; [|reflexivity]. cbn [maybe_regroup]. apply act_flat. unfold regroup_irreps. rewrite flat_simplify, sort_irreps_idem. reflexivity.
  - unfold sort_row at 1. rewrite permuted_act by (auto; apply bil_row_length). rewrite bil_row_act; auto; [apply tp_paths_ok| |]; apply maybe_sort_row_length; assumption.
Qed.
