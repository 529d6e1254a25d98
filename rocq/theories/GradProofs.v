(* The Jacobian of a function between IrrepsArrays, coupled into irreps: the rows grad computes, and how they transform. *)
From Coq Require Import Reals Lra.
From Coquelicot Require Import Coquelicot.
From Verif Require Import PyBase PermModel PermProofs IrrepsModel IrrepsProofs IrrepsProofs2 ArrayModel ArrayProofs ArrayOps RechunkProofs ArithProofs BlockProofs LeadModel LeadProofs StackProofs BilinProofs ActProofs EquivProofs EquivProofs2 SumR TPModel LinearProofs TPProofs StableSort TPProofs2 TPProofs3 ScatterModel ScatterProps GradModel EntryProofs.
Open Scope nat_scope.

(* ---------- functions of the rows of an array ---------- *)
Definition rows := idx -> list R.
(* the row that is 1 at component g of copy v of entry k, and 0 elsewhere *)
Definition unit_row (x : irreps) (k v g : nat) : list R := rowof x (fun k' u c => if (k' =? k) && (u =? v) && (c =? g) then 1%R else 0%R).
(* X with t times the row h added at the leading index j *)
Definition moved (X : rows) (j : idx) (h : list R) (t : R) : rows := fun j' => if shape_eqb j' j then lin t h (X j') else X j'.
(* the partial derivative of component (k1, u, e) of the output row i with respect to component (k2, v, g) of the input row j *)
Definition partial_at (x y : irreps) (F : rows -> rows) (X : rows) (i : idx) (k1 u e : nat) (j : idx) (k2 v g : nat) : R :=
  Derive (fun t => entry y (F (moved X j (unit_row x k2 v g) t) i) k1 u e) 0%R.

Lemma unit_row_length x k v g : length (unit_row x k v g) = dim x.
Proof. apply rowof_length. Qed.
Lemma unit_row_entry x k v g k' u c : inside x k' u c -> entry x (unit_row x k v g) k' u c = if (k' =? k) && (u =? v) && (c =? g) then 1%R else 0%R.
Proof. intros H. unfold unit_row. rewrite entry_rowof by exact H. reflexivity. Qed.

(* the coupled Jacobian: entry (path q, copy w, component k) *)
Definition jac := nat -> nat -> nat -> nat -> nat -> nat -> R.
Definition jac_val (cg : coupling) (y x : irreps) (J : jac) (p : bpath) (w k : nat) : R :=
  let a := snd (nth (b_in1 p) y d0) in let b := snd (nth (b_in2 p) x d0) in
  let '(u, v) := nth w (b_pairs p) (0, 0) in
  (b_alpha p * rsum (ir_dim a) (fun e => rsum (ir_dim b) (fun g => cg (ir_l a) (ir_l b) (ir_l (b_out p)) e g k * J (b_in1 p) u e (b_in2 p) v g)))%R.
Definition jac_row (cg : coupling) (ps : list bpath) (y x : irreps) (J : jac) : list R :=
  rowof (bil_out ps) (fun q => jac_val cg y x J (nth q ps dpath)).
Lemma jac_row_length cg ps y x J : length (jac_row cg ps y x J) = dim (bil_out ps).
Proof. apply rowof_length. Qed.
Lemma path_copy (y x : irreps) p w : path_ok y x p -> w < b_mul p -> exists m1 a m2 b u v, nth_error y (b_in1 p) = Some (m1, a) /\ nth_error x (b_in2 p) = Some (m2, b) /\ In (b_out p) (ir_mul a b) /\ nth w (b_pairs p) (0, 0) = (u, v) /\ u < m1 /\ v < m2.
Proof.
  intros (m1 & a & m2 & b & E1 & E2 & Hc & Lp & Fp) Hw. destruct (nth w (b_pairs p) (0, 0)) as [u v] eqn:Ew. exists m1, a, m2, b, u, v. repeat (split; [assumption || reflexivity|]).
  rewrite Forall_forall in Fp. specialize (Fp (nth w (b_pairs p) (0, 0)) (nth_In _ _ ltac:(rewrite Lp; exact Hw))). rewrite Ew in Fp. exact Fp.
Qed.
Lemma jac_row_ext cg ps y x J J' : Forall (path_ok y x) ps -> (forall k1 u e k2 v g, inside y k1 u e -> inside x k2 v g -> J k1 u e k2 v g = J' k1 u e k2 v g) -> jac_row cg ps y x J = jac_row cg ps y x J'.
Proof.
  intros Hps H. apply rowof_ext. intros q w k (mul & ir & Eq & Hw & Hk). rewrite bil_out_nth in Eq. destruct (nth_error ps q) as [p|] eqn:Ep; [|discriminate]. cbn [option_map] in Eq. injection Eq as <- <-.
  rewrite (nth_error_nth _ _ _ Ep). rewrite Forall_forall in Hps. destruct (path_copy y x p w (Hps p (nth_error_In _ _ Ep)) Hw) as (m1 & a & m2 & b & u & v & E1 & E2 & Hc & Ew & Hu & Hv).
  unfold jac_val. rewrite (nth_error_nth _ _ _ E1), (nth_error_nth _ _ _ E2), Ew. cbn [snd]. f_equal. apply rsum_ext. intros e He. apply rsum_ext. intros g Hg. rewrite H; [reflexivity|exists m1, a; auto|exists m2, b; auto].
Qed.

(* transforming the Jacobian on both sides transforms the coupled row *)
Definition turned (D : rep) (y x : irreps) (J : jac) : jac := fun k1 u e k2 v g =>
  let a := snd (nth k1 y d0) in let b := snd (nth k2 x d0) in
  rsum (ir_dim a) (fun e' => mat_at (D a) e e' * rsum (ir_dim b) (fun g' => mat_at (D b) g g' * J k1 u e' k2 v g'))%R.
Lemma jac_val_act cg D y x J p w k : intertwines cg D -> path_ok y x p -> w < b_mul p -> k < ir_dim (b_out p) ->
  rsum (ir_dim (b_out p)) (fun k' => mat_at (D (b_out p)) k k' * jac_val cg y x J p w k')%R = jac_val cg y x (turned D y x J) p w k.
Proof.
  intros HI Hp Hw Hk. destruct (path_copy y x p w Hp Hw) as (m1 & a & m2 & b & u & v & E1 & E2 & Hc & Ew & Hu & Hv). unfold jac_val, turned. rewrite (nth_error_nth _ _ _ E1), (nth_error_nth _ _ _ E2), Ew. cbn [snd].
  set (c := b_out p) in *. set (G := cg (ir_l a) (ir_l b) (ir_l c)). set (Z := fun e g => J (b_in1 p) u e (b_in2 p) v g).
  transitivity (b_alpha p * rsum (ir_dim a) (fun e => rsum (ir_dim b) (fun g => Z e g * rsum (ir_dim c) (fun k' => mat_at (D c) k k' * G e g k'))))%R.
  - rewrite <- rsum_scal.
    rewrite (rsum_ext (ir_dim c) _ (fun k' => rsum (ir_dim a) (fun e => rsum (ir_dim b) (fun g => b_alpha p * (Z e g * (mat_at (D c) k k' * G e g k'))))))%R.
    + rewrite rsum_swap. apply rsum_ext. intros e He. rewrite rsum_swap. rewrite <- rsum_scal. apply rsum_ext. intros g Hg. rewrite <- !rsum_scal. reflexivity.
    + intros k' Hk'. rewrite <- Rmult_assoc, <- rsum_scal. apply rsum_ext. intros e He. rewrite <- rsum_scal. apply rsum_ext. intros g Hg. unfold Z. ring.
  - f_equal. transitivity (rsum (ir_dim a) (fun e => rsum (ir_dim b) (fun g => rsum (ir_dim a) (fun e' => rsum (ir_dim b) (fun g' => G e' g' k * mat_at (D a) e' e * mat_at (D b) g' g * Z e g)))))%R.
    + apply rsum_ext. intros e He. apply rsum_ext. intros g Hg. unfold G. rewrite (HI a b c e g k Hc He Hg Hk). fold G. rewrite <- rsum_scal. apply rsum_ext. intros e' _. rewrite <- rsum_scal. apply rsum_ext. intros g' _. ring.
    + transitivity (rsum (ir_dim a) (fun e' => rsum (ir_dim b) (fun g' => rsum (ir_dim a) (fun e => rsum (ir_dim b) (fun g => G e' g' k * mat_at (D a) e' e * mat_at (D b) g' g * Z e g)))))%R.
      * transitivity (rsum (ir_dim a) (fun e => rsum (ir_dim a) (fun e' => rsum (ir_dim b) (fun g => rsum (ir_dim b) (fun g' => G e' g' k * mat_at (D a) e' e * mat_at (D b) g' g * Z e g)))))%R.
        { apply rsum_ext. intros i _. apply rsum_swap. }
        rewrite rsum_swap. apply rsum_ext. intros e' _. transitivity (rsum (ir_dim a) (fun e => rsum (ir_dim b) (fun g' => rsum (ir_dim b) (fun g => G e' g' k * mat_at (D a) e' e * mat_at (D b) g' g * Z e g))))%R; [apply rsum_ext; intros i _; apply rsum_swap|]. apply rsum_swap.
      * apply rsum_ext. intros e' He'. apply rsum_ext. intros g' Hg'. rewrite <- rsum_scal. apply rsum_ext. intros e He. rewrite <- Rmult_assoc, <- rsum_scal. apply rsum_ext. intros g Hg. unfold Z. ring.
Qed.
Lemma jac_row_act cg D ps y x J : rep_ok D -> intertwines cg D -> Forall (path_ok y x) ps -> act D (bil_out ps) (jac_row cg ps y x J) = jac_row cg ps y x (turned D y x J).
Proof.
  intros HD HI Hps. unfold jac_row. rewrite act_rowof by exact HD. apply rowof_ext. intros q w k (mul & ir & Eq & Hw & Hk). rewrite (nth_error_nth _ _ _ Eq). cbn [snd]. rewrite bil_out_nth in Eq. destruct (nth_error ps q) as [p|] eqn:Ep; [|discriminate]. cbn [option_map] in Eq. injection Eq as <- <-.
  rewrite (nth_error_nth _ _ _ Ep). rewrite Forall_forall in Hps. cbv zeta. apply jac_val_act; auto. apply (Hps p (nth_error_In _ _ Ep)).
Qed.
Lemma maybe_regroup_act D rg o row : rep_ok D -> length row = dim o -> act D (maybe_regroup rg o) (maybe_sort_row rg o row) = maybe_sort_row rg o (act D o row).
Proof. apply maybe_sort_row_act. Qed.

(* ---------- rebuilding the argument from perturbed chunks ---------- *)
Lemma nth_enum_map {A B} (f : nat -> A -> B) (l : list A) k d d' : k < length l -> nth k (map (fun '(q, c) => f q c) (enumerate l)) d' = f k (nth k l d).
Proof.
  intros H. assert (L : length (enumerate l) = length l) by (unfold enumerate; rewrite combine_length, seq_length; lia). rewrite (nth_map_at _ _ _ (0, d)) by lia. rewrite nth_enumerate by exact H. reflexivity.
Qed.
Lemma enumerate_length {A} (l : list A) : length (enumerate l) = length l.
Proof. unfold enumerate. rewrite combine_length, seq_length. lia. Qed.
Lemma bump_chunk_wf s m j v g t c : wf_chunk s m c -> wf_chunk s m (bump_chunk j v g t c).
Proof.
  intros (A & B & C & W). repeat split; try assumption; intros; destruct (W i H) as [L F]; cbn [c_val bump_chunk]; destruct (shape_eqb i j); auto.
  - rewrite map_length, enumerate_length. exact L.
  - apply Forall_map, Forall_forall. intros [u row] Hu. rewrite map_length, enumerate_length. rewrite Forall_forall in F. apply F. apply in_combine_r in Hu. exact Hu.
Qed.
Lemma bump_wf s x cs k j v g t : Forall2 (wf_opt s) x cs -> Forall2 (wf_opt s) x (bump k j v g t cs).
Proof.
  unfold bump, enumerate. generalize 0. intros o W. revert o. induction W as [|m c x cs Hc W IH]; intros o; [constructor|]. cbn [length seq combine map]. constructor; [|apply IH].
  destruct (o =? k); [|exact Hc]. destruct c as [c|]; [|exact I]. apply bump_chunk_wf, Hc.
Qed.
Lemma bump_entry s (x : irreps) cs k j v g t k' i u c : Forall2 (wf_opt s) x cs -> Forall (fun c => c <> None) cs -> valid s i -> inside x k' u c ->
  centry (nth k' (bump k j v g t cs) None) i u c = (centry (nth k' cs None) i u c + if shape_eqb i j && ((k' =? k) && (u =? v) && (c =? g)) then t else 0)%R.
Proof.
  intros W N Hi (mul & ir & E & Hu & Hc). assert (L : k' < length cs) by (rewrite <- (Forall2_length _ _ _ W); apply nth_error_Some; congruence).
  unfold bump. rewrite (nth_enum_map (fun q c => if q =? k then option_map (bump_chunk j v g t) c else c) cs k' None) by exact L.
  assert (Wk : wf_opt s (mul, ir) (nth k' cs None)). { clear -W E. revert k' E. induction W as [|m c x cs Hc W IH]; intros [|k'] E; try discriminate; [injection E as ->; exact Hc|apply IH, E]. }
  rewrite Forall_forall in N. specialize (N _ (nth_In _ None L)). destruct (nth k' cs None) as [ch|]; [|congruence]. destruct Wk as (_ & _ & _ & Wk). destruct (Wk i Hi) as [Lr Fr]. cbn [fst snd] in *.
  destruct (Nat.eqb_spec k' k) as [->|Nk]; [|rewrite !andb_false_l, andb_false_r; lra]. cbn [option_map centry bump_chunk c_val andb]. destruct (shape_eqb i j); [|cbn [andb]; lra]. cbn [andb].
  rewrite (nth_enum_map (fun u row => map (fun '(e, r) => if (u =? v) && (e =? g) then (r + t)%R else r) (enumerate row)) _ u []) by lia.
  assert (Lu : length (nth u (c_val ch i) []) = ir_dim ir) by (rewrite Forall_forall in Fr; apply Fr, nth_In; lia).
  rewrite (nth_enum_map (fun e r => if (u =? v) && (e =? g) then (r + t)%R else r) _ c 0%R) by lia. destruct ((u =? v) && (c =? g)); lra.
Qed.
Lemma rebuilt_yields x k j v g t : coherent x -> Forall (fun c => c <> None) (chunks x) ->
  yields (from_chunks (irr x) (bump k j v g t (chunks x)) (lead x) true) (irr x) (lead x) (moved (arr x) j (unit_row (irr x) k v g) t).
Proof.
  intros Hx N. eapply yields_ext; [|apply from_chunks_rowof, bump_wf, chunks_wf, Hx]. intros i Hi. cbv beta. assert (L : length (arr x i) = dim (irr x)) by (apply Hx, Hi). unfold moved.
  rewrite (rowof_ext _ _ (fun k' u c => ((if shape_eqb i j then t else 0) * (if (k' =? k) && (u =? v) && (c =? g) then 1 else 0) + entry (irr x) (arr x i) k' u c)%R)).
  - rewrite rowof_lin, rowof_entry by exact L. destruct (shape_eqb i j); [reflexivity|]. unfold lin. fold (unit_row (irr x) k v g).
    assert (Lu : length (unit_row (irr x) k v g) = length (arr x i)) by (rewrite unit_row_length; congruence). revert Lu. generalize (unit_row (irr x) k v g) (arr x i). clear. intros a. induction a as [|r a IH]; intros [|q b] Lb; try discriminate; [reflexivity|]. cbn [map]. rewrite zipR_cons, IH by (cbn in Lb; lia). f_equal. lra.
  - intros k' u c Hin. rewrite (bump_entry (lead x) (irr x)) by (auto; apply chunks_wf, Hx). rewrite entry_chunks by auto. destruct (shape_eqb i j), ((k' =? k) && (u =? v) && (c =? g)); cbn [andb]; lra.
Qed.
Lemma rebuilt0_yields x : coherent x -> yields (from_chunks (irr x) (chunks x) (lead x) true) (irr x) (lead x) (arr x).
Proof.
  intros Hx. eapply yields_ext; [|apply from_chunks_rowof, chunks_wf, Hx]. intros i Hi. cbv beta. rewrite (rowof_ext _ _ (entry (irr x) (arr x i))) by (intros; apply entry_chunks; auto). apply rowof_entry, Hx, Hi.
Qed.
Lemma fresh_chunks x s a : (forall i, valid s i -> length (a i) = dim x) -> let x0 := IA x s a None None in coherent x0 /\ Forall (fun c => c <> None) (chunks x0).
Proof.
  intros L x0. assert (Hc : coherent x0) by (split; [exact L|]; split; [apply flags_false|exact I]). split; [exact Hc|]. pose proof (chunks_flags x0 Hc) as Q. cbn [zero_flags zf x0 irr] in Q. unfold zero_flags in Q. cbn [zf x0 irr] in Q. revert Q. generalize (length x). generalize (chunks x0). clear.
  intros l. induction l as [|c l IH]; intros n Q; [constructor|]. destruct n as [|n]; [discriminate|]. cbn [repeat map] in Q. injection Q as Q1 Q2. constructor; [destruct c; [congruence|discriminate]|eapply IH; eassumption].
Qed.

(* ---------- what grad returns ---------- *)
(* f, applied to any array with irreps x and leading shape s at position p, returns an array without zero-flagged chunk whose rows are F of the rows of the argument,
   and the auxiliary value G of them; F and G only look at the rows of the argument *)
Record computes {A} (f : list pyarg -> res (pyarg * A)) (args : list pyarg) (p : nat) (x : irreps) (s : shape) (y : irreps) (s' : shape) (F : rows -> rows) (G : rows -> A) : Prop := {
  co_value : forall v, coherent v -> irr v = x -> lead v = s -> exists w, f (set_arg args p (PArr v)) = Ok (PArr w, G (arr v)) /\ irr w = y /\ lead w = s' /\ coherent w /\ Forall (fun c => c <> None) (chunks w) /\ forall i, valid s' i -> arr w i = F (arr v) i;
  co_local : forall X X', (forall j, valid s j -> X j = X' j) -> G X = G X' /\ forall i, valid s' i -> F X i = F X' i }.
Definition grad_row (cg : coupling) (rg : bool) (x y : irreps) (F : rows -> rows) (X : rows) (i j : idx) : list R :=
  let ps := tp_paths NComponent None y x in
  maybe_sort_row rg (bil_out ps) (jac_row cg ps y x (fun k1 u e k2 v g => partial_at x y F X i k1 u e j k2 v g)).

Lemma computes_length {A} (f : list pyarg -> res (pyarg * A)) args p x s y s' F G X i : computes f args p x s y s' F G -> (forall j, valid s j -> length (X j) = dim x) -> valid s' i -> length (F X i) = dim y.
Proof.
  intros C L Hi. destruct (co_value _ _ _ _ _ _ _ _ _ C (IA x s X None None)) as (w & _ & E1 & E2 & Hw & _ & Ew); [apply (fresh_chunks x s X L)|reflexivity|reflexivity|]. cbn [arr] in Ew. rewrite <- (Ew i Hi). rewrite <- E1. apply Hw. rewrite E2. exact Hi.
Qed.
Lemma naked_yields {A} (f : list pyarg -> res (pyarg * A)) args p x s y s' F G cs X : computes f args p x s y s' F G -> yields (from_chunks x cs s true) x s X ->
  exists w, naked_fun f args p x s cs = Ok (w, G X) /\ irr w = y /\ lead w = s' /\ coherent w /\ Forall (fun c => c <> None) (chunks w) /\ forall i, valid s' i -> arr w i = F X i.
Proof.
  intros C (v & E & V1 & V2 & V3 & V4). unfold naked_fun. rewrite E. cbn [bind]. destruct (co_value _ _ _ _ _ _ _ _ _ C v V3 V1 V2) as (w & -> & W1 & W2 & W3 & W4 & W5). cbn [bind]. destruct (co_local _ _ _ _ _ _ _ _ _ C (arr v) X V4) as [EG EF]. rewrite EG. exists w. repeat (split; [assumption || reflexivity|]). intros i Hi. rewrite W5 by exact Hi. apply EF, Hi.
Qed.
Lemma firstn_app_exact {A} (a b : list A) n : length a = n -> firstn n (a ++ b) = a.
Proof. intros <-. rewrite firstn_app, Nat.sub_diag, firstn_all. cbn [firstn]. apply app_nil_r. Qed.
Lemma skipn_app_exact {A} (a b : list A) n : length a = n -> skipn n (a ++ b) = b.
Proof. intros <-. rewrite skipn_app, Nat.sub_diag, skipn_all. reflexivity. Qed.
Lemma grad_yields {A} cg (f : list pyarg -> res (pyarg * A)) args n p rg x y s' F G : arg_position args n = Some p -> nth p args (PAny 0) = PArr x -> coherent x -> computes f args p (irr x) (lead x) y s' F G ->
  exists z, grad cg f (Some n) rg args = Ok (z, G (arr x)) /\
    yields (Ok z) (maybe_regroup rg (bil_out (tp_paths NComponent None y (irr x)))) (s' ++ lead x) (fun ij => grad_row cg rg (irr x) y F (arr x) (firstn (length s') ij) (skipn (length s') ij)).
Proof.
  intros Hp Hx Cx C. unfold grad. rewrite Hp, Hx. rewrite mkIA_ok by auto. cbn [bind]. set (x0 := IA (irr x) (lead x) (arr x) None None). destruct (fresh_chunks (irr x) (lead x) (arr x) (proj1 Cx)) as [C0 N0]. fold x0 in C0, N0.
  destruct (naked_yields f args p (irr x) (lead x) y s' F G (chunks x0) (arr x) C (rebuilt0_yields x0 C0)) as (w & E & W1 & W2 & W3 & W4 & W5). rewrite E. cbn [bind].
  replace (existsb _ (chunks w)) with false. 2: { symmetry. apply Bool.not_true_is_false. intros Q. apply existsb_exists in Q as (c & Hc & Q). rewrite Forall_forall in W4. specialize (W4 c Hc). destruct c; congruence. }
  rewrite W1, W2. set (ps := tp_paths NComponent None y (irr x)). set (J := jacobian (naked_fun f args p (irr x) (lead x)) (chunks x0)).
  assert (EJ : forall k1 k2 i u e j v g, valid s' i -> inside y k1 u e -> J k1 k2 i u e j v g = partial_at (irr x) y F (arr x) i k1 u e j k2 v g).
  { intros k1 k2 i u e j v g Hi Hin. unfold J, jacobian, partial_at. apply Derive_ext. intros t.
    destruct (naked_yields f args p (irr x) (lead x) y s' F G _ _ C (rebuilt_yields x0 k2 j v g t C0 N0)) as (w' & E' & A1 & A2 & A3 & A4 & A5). cbn [irr lead arr x0] in E', A5. rewrite E'. change (chunk_value ?c i u e) with (centry c i u e).
    rewrite entry_chunks by (auto; rewrite ?A1, ?A2; assumption). rewrite A1, A5 by exact Hi. reflexivity. }
  set (cs := map (grad_chunk cg (irr x) y s' (lead x) J) ps).
  assert (Hps : Forall (path_ok y (irr x)) ps) by apply tp_paths_ok.
  assert (Wc : Forall2 (wf_opt (s' ++ lead x)) (bil_out ps) cs).
  { unfold cs, bil_out. clear -Hps. induction Hps as [|q ps Hq Hps IH]; cbn [map]; constructor; [|exact IH]. destruct Hq as (m1 & a & m2 & b & E1 & E2 & Hc & Lp & Fp). unfold grad_chunk. rewrite (nth_error_nth _ _ _ E1), (nth_error_nth _ _ _ E2). cbn [snd wf_opt].
    split; [reflexivity|]. split; [reflexivity|]. split; [reflexivity|]. intros i Hi. cbn [c_val fst snd]. split; [rewrite map_length; exact Lp|]. apply Forall_map, Forall_forall. intros [u v] _. rewrite map_length, seq_length. reflexivity. }
  assert (Y : yields (from_chunks (bil_out ps) cs (s' ++ lead x) true) (bil_out ps) (s' ++ lead x) (fun ij => jac_row cg ps y (irr x) (fun k1 u e k2 v g => partial_at (irr x) y F (arr x) (firstn (length s') ij) k1 u e (skipn (length s') ij) k2 v g))).
  { eapply yields_ext; [|apply from_chunks_rowof, Wc]. intros ij Hij. cbv beta. apply rowof_ext. intros q w' k (mul & ir & Eq & Hw & Hk). rewrite bil_out_nth in Eq. destruct (nth_error ps q) as [pp|] eqn:Ep; [|discriminate]. cbn [option_map] in Eq. injection Eq as <- <-.
    rewrite (nth_error_nth _ _ _ Ep). assert (Lq : q < length ps) by (apply nth_error_Some; congruence). unfold cs. rewrite (nth_map_at _ _ _ dpath) by exact Lq. rewrite (nth_error_nth _ _ _ Ep).
    rewrite Forall_forall in Hps. pose proof (Hps pp (nth_error_In _ _ Ep)) as Pk. destruct (path_copy _ _ pp w' Pk Hw) as (m1 & a & m2 & b & u & v & E1 & E2 & Hc & Ew & Hu & Hv). destruct Pk as (_ & _ & _ & _ & _ & _ & _ & Lp & _).
    unfold jac_val, grad_chunk. rewrite (nth_error_nth _ _ _ E1), (nth_error_nth _ _ _ E2), Ew. cbn [snd centry c_val].
    rewrite (nth_map_at _ _ _ (0, 0)) by (rewrite Lp; exact Hw). rewrite Ew. rewrite (nth_map_at _ _ _ 0) by (rewrite seq_length; exact Hk). rewrite seq_nth by exact Hk. cbn [Nat.add].
    rewrite <- rsum_scal. apply rsum_ext. intros e He. rewrite <- rsum_scal. apply rsum_ext. intros g Hg. rewrite EJ; [ring| |exists m1, a; auto].
    destruct (valid_app_inv _ _ _ Hij) as (i1 & j1 & -> & V1 & V2). rewrite firstn_app_exact by (eapply Forall2_length, V1). exact V1. }
  destruct Y as (z & Ez & Z1 & Z2 & Z3 & Z4). rewrite Ez. cbn [bind].
  destruct (maybe_regroup_yields rg z Z3) as (z' & Ez' & Q1 & Q2 & Q3 & Q4). rewrite Ez'. cbn [bind]. exists z'. split; [reflexivity|]. exists z'. split; [reflexivity|]. rewrite Z1 in *. rewrite Z2 in *. repeat (split; [assumption|]). intros ij Hij. rewrite Q4, Z4 by exact Hij. reflexivity.
Qed.

(* ---------- equivariance ---------- *)
(* the sum over all components of a row *)
Definition esum (x : irreps) (h : nat -> nat -> nat -> R) : R :=
  rsum (length x) (fun k => let '(m, ir) := nth k x d0 in rsum m (fun u => rsum (ir_dim ir) (fun c => h k u c))).
(* F is differentiable at X: in every direction H it has a derivative, the Jacobian applied to H *)
Definition differentiable (x : irreps) (s : shape) (y : irreps) (s' : shape) (F : rows -> rows) (X : rows) : Prop :=
  forall H : rows, (forall j, valid s j -> length (H j) = dim x) -> forall i k u e, valid s' i -> inside y k u e ->
    is_derive (fun t => entry y (F (fun j => lin t (H j) (X j)) i) k u e) 0%R
      (lsum (all_idx s) (fun j => esum x (fun k2 v g => entry x (H j) k2 v g * partial_at x y F X i k u e j k2 v g)))%R.
(* the matrices have orthonormal rows *)
Definition orthonormal_rows (D : rep) : Prop := forall ir a b, a < ir_dim ir -> b < ir_dim ir -> rsum (ir_dim ir) (fun c => mat_at (D ir) a c * mat_at (D ir) b c)%R = if a =? b then 1%R else 0%R.

Lemma act_lin D x t h r : rep_ok D -> length h = dim x -> length r = dim x -> act D x (lin t h r) = lin t (act D x h) (act D x r).
Proof.
  intros HD Lh Lr. rewrite <- (rowof_entry x h Lh), <- (rowof_entry x r Lr), <- rowof_lin, !act_rowof, <- rowof_lin by exact HD. apply rowof_ext. intros k u c _. cbv zeta. rewrite <- rsum_scal, <- rsum_plus. apply rsum_ext. intros j _. ring.
Qed.
Lemma lin_zero t x r : length r = dim x -> lin t (zero_row (dim x)) r = r.
Proof.
  intros <-. unfold lin, zero_row. induction r as [|a r IH]; [reflexivity|]. cbn [length repeat map]. rewrite zipR_cons, IH. f_equal. lra.
Qed.
Lemma entry_zero x k u c : inside x k u c -> entry x (zero_row (dim x)) k u c = 0%R.
Proof.
  intros H. assert (E : zero_row (dim x) = rowof x (fun _ _ _ => 0%R)).
  { clear. induction x as [|m x IH]; [reflexivity|]. cbn [rowof]. change (fun _ : nat => ?f) with (fun _ : nat => f). rewrite <- IH, dim_cons. unfold zero_row. rewrite repeat_app. f_equal. unfold mi_dim.
    generalize (fst m) as n, (ir_dim (snd m)) as d. intros n d. unfold tab2, tab. induction n as [|n IHn]; [reflexivity|]. rewrite seq_S, map_app, concat_app, <- IHn. cbn [map concat]. rewrite app_nil_r. replace (S n * d) with (n * d + d) by lia. rewrite repeat_app. f_equal.
    clear. generalize 0 as o. induction d as [|d IH]; intros o; [reflexivity|]. cbn [seq map repeat]. f_equal. apply IH. }
  rewrite E, entry_rowof by exact H. reflexivity.
Qed.
Lemma lsum_one {A} (l : list A) (f : A -> R) a : NoDup l -> In a l -> (forall b, In b l -> b <> a -> f b = 0%R) -> lsum l f = f a.
Proof.
  intros N Ha Z. induction l as [|b l IH]; [destruct Ha|]. inversion_clear N as [|? ? Nb Nl]. rewrite lsum_cons. destruct Ha as [->|Ha].
  - rewrite (lsum_zero l); [lra|]. intros c Hc. apply Z; [right; exact Hc|]. intros ->. contradiction.
  - rewrite IH by (auto; intros; apply Z; auto; right; assumption). rewrite (Z b); [lra|left; reflexivity|]. intros ->. contradiction.
Qed.
Lemma esum_column x k2 v m ir (a : nat -> R) (h : nat -> nat -> nat -> R) : nth_error x k2 = Some (m, ir) -> v < m ->
  esum x (fun k w c => (if k =? k2 then 1 else 0) * ((if w =? v then 1 else 0) * a c) * h k w c)%R = rsum (ir_dim ir) (fun c => a c * h k2 v c)%R.
Proof.
  intros E Hv. unfold esum. rewrite (rsum_ext _ _ (fun k => (if k =? k2 then 1 else 0) * (let '(m, ir) := nth k x d0 in rsum m (fun w => (if w =? v then 1 else 0) * rsum (ir_dim ir) (fun c => a c * h k w c))))%R).
  - rewrite (rsum_delta_l _ k2 (fun k => let '(m, ir) := nth k x d0 in rsum m (fun w => (if w =? v then 1 else 0) * rsum (ir_dim ir) (fun c => a c * h k w c)))%R) by (apply nth_error_Some; congruence). rewrite (nth_error_nth _ _ _ E).
    rewrite (rsum_delta_l _ v (fun w => rsum (ir_dim ir) (fun c => a c * h k2 w c))%R) by exact Hv. reflexivity.
  - intros k Hk. destruct (nth k x d0) as [m' ir']. rewrite <- rsum_scal. apply rsum_ext. intros w _. rewrite <- !rsum_scal. apply rsum_ext. intros c _. ring.
Qed.

Lemma partial_turned {A} (f : list pyarg -> res (pyarg * A)) args args' p x s y s' F G F' G' D X i j k1 u e k2 v g : computes f args p x s y s' F G -> computes f args' p x s y s' F' G' -> rep_ok D -> orthonormal_rows D ->
  (forall X, (forall j, valid s j -> length (X j) = dim x) -> forall i, valid s' i -> F' (fun j => act D x (X j)) i = act D y (F X i)) ->
  (forall j, valid s j -> length (X j) = dim x) -> differentiable x s y s' F X -> valid s' i -> valid s j -> inside y k1 u e -> inside x k2 v g ->
  partial_at x y F' (fun j => act D x (X j)) i k1 u e j k2 v g = turned D y x (fun k1 u e k2 v g => partial_at x y F X i k1 u e j k2 v g) k1 u e k2 v g.
Proof.
  intros C C' HD HO HF LX Hdiff Hi Hj Hin1 Hin2. destruct Hin2 as (m2 & b & E2 & Hv & Hg). pose proof Hin1 as (m1 & a & E1 & Hu & He). unfold turned. rewrite (nth_error_nth _ _ _ E1), (nth_error_nth _ _ _ E2). cbn [snd].
  (* the direction that D turns into the unit row *)
  set (h := rowof x (fun k w c => (if k =? k2 then 1 else 0) * ((if w =? v then 1 else 0) * mat_at (D b) g c))%R). assert (Lh : length h = dim x) by apply rowof_length.
  assert (Dh : act D x h = unit_row x k2 v g).
  { unfold h, unit_row. rewrite act_rowof by exact HD. apply rowof_ext. intros k w c (m & ir & E & Hw & Hc). rewrite (nth_error_nth _ _ _ E). cbn [snd]. cbv zeta. destruct (Nat.eqb_spec k k2) as [->|N]; [|cbn [andb]; apply rsum_zero; intros; ring]. assert (Q : (m, ir) = (m2, b)) by congruence. injection Q as -> ->.
    destruct (w =? v); [|cbn [andb]; apply rsum_zero; intros; ring]. cbn [andb]. rewrite (rsum_ext _ _ (fun c' => mat_at (D b) c c' * mat_at (D b) g c')%R) by (intros; ring). apply HO; assumption. }
  set (H := fun j' : idx => if shape_eqb j' j then h else zero_row (dim x)).
  assert (LH : forall j', valid s j' -> length (H j') = dim x) by (intros j' _; unfold H; destruct (shape_eqb j' j); [exact Lh|apply repeat_length]).
  unfold partial_at at 1.
  rewrite (Derive_ext _ (fun t => rsum (ir_dim a) (fun e' => mat_at (D a) e e' * entry y (F (fun j' => lin t (H j') (X j')) i) k1 u e')%R)).
  - set (P := fun e' => lsum (all_idx s) (fun j => esum x (fun k2 v g => entry x (H j) k2 v g * partial_at x y F X i k1 u e' j k2 v g))%R).
    rewrite (is_derive_unique _ _ (rsum (ir_dim a) (fun e' => mat_at (D a) e e' * P e')%R)).
    + apply rsum_ext. intros e' He'. f_equal. unfold P. rewrite (lsum_one _ _ j); [|apply all_idx_nodup|apply all_idx_valid, Hj|].
      * unfold H. rewrite (proj2 (shape_eqb_eq j j) eq_refl). unfold esum at 1. rewrite <- (esum_column x k2 v m2 b (mat_at (D b) g) (fun k2 v g' => partial_at x y F X i k1 u e' j k2 v g') E2 Hv). unfold esum. apply rsum_ext. intros k Hk. destruct (nth k x d0) as [m ir] eqn:En. apply rsum_ext. intros w Hw. apply rsum_ext. intros c Hc.
        unfold h. rewrite entry_rowof; [reflexivity|]. exists m, ir. split; [|auto]. rewrite <- En. apply nth_error_nth', Hk.
      * intros j' Hj' N. unfold H. destruct (shape_eqb j' j) eqn:Q; [apply shape_eqb_eq in Q; contradiction|]. unfold esum. apply rsum_zero. intros k Hk. destruct (nth k x d0) as [m ir] eqn:En. apply rsum_zero. intros w Hw. apply rsum_zero. intros c Hc. rewrite entry_zero; [ring|]. exists m, ir. split; [|auto]. rewrite <- En. apply nth_error_nth', Hk.
    + assert (Z : forall n, n <= ir_dim a -> is_derive (fun t => rsum n (fun e' => mat_at (D a) e e' * entry y (F (fun j' => lin t (H j') (X j')) i) k1 u e')%R) 0%R (rsum n (fun e' => mat_at (D a) e e' * P e')%R)).
      { induction n as [|n IH]; intros Hn; cbn [rsum]; [exact (@is_derive_const R_AbsRing R_NormedModule 0%R 0%R)|]. apply (@is_derive_plus R_AbsRing R_NormedModule); [apply IH; lia|]. apply (is_derive_scal (fun t => entry y (F (fun j' => lin t (H j') (X j')) i) k1 u n)). apply Hdiff; auto. exists m1, a. repeat split; auto. }
      apply Z. lia.
  - intros t. destruct (co_local _ _ _ _ _ _ _ _ _ C' (moved (fun j => act D x (X j)) j (unit_row x k2 v g) t) (fun j' => act D x (lin t (H j') (X j')))) as [_ EF].
    + intros j' Hj'. unfold moved, H. rewrite act_lin; [|exact HD|destruct (shape_eqb j' j); [exact Lh|apply repeat_length]|apply LX, Hj']. destruct (shape_eqb j' j); [rewrite Dh; reflexivity|]. rewrite act_zero by exact HD. symmetry. apply lin_zero, act_length, HD.
    + rewrite EF by exact Hi. assert (LL : forall j', valid s j' -> length (lin t (H j') (X j')) = dim x) by (intros j' Hj'; rewrite lin_length; [apply LX, Hj'|rewrite LH, LX; auto]).
      rewrite HF by auto. rewrite act_entry; [|exact HD|eapply computes_length; eauto|exact Hin1]. rewrite (nth_error_nth _ _ _ E1). reflexivity.
Qed.
Lemma grad_row_act {A} cg (f : list pyarg -> res (pyarg * A)) args args' p rg x s y s' F G F' G' D X i j : computes f args p x s y s' F G -> computes f args' p x s y s' F' G' -> rep_ok D -> orthonormal_rows D -> intertwines cg D ->
  (forall X, (forall j, valid s j -> length (X j) = dim x) -> forall i, valid s' i -> F' (fun j => act D x (X j)) i = act D y (F X i)) ->
  (forall j, valid s j -> length (X j) = dim x) -> differentiable x s y s' F X -> valid s' i -> valid s j ->
  act D (maybe_regroup rg (bil_out (tp_paths NComponent None y x))) (grad_row cg rg x y F X i j) = grad_row cg rg x y F' (fun j => act D x (X j)) i j.
Proof.
  intros C C' HD HO HI HF LX Hdiff Hi Hj. unfold grad_row. cbv zeta. set (ps := tp_paths NComponent None y x). rewrite maybe_sort_row_act by (auto; apply jac_row_length). f_equal. assert (Hps : Forall (path_ok y x) ps) by apply tp_paths_ok.
  rewrite jac_row_act by auto. apply jac_row_ext; [exact Hps|]. intros k1 u e k2 v g H1 H2. symmetry. eapply partial_turned; eauto.
Qed.
