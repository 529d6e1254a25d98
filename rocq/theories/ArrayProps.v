(* C14-C22, C51: the user-level statements about IrrepsArray (irreps_array.py, basic.py).
   Specification vocabulary, in terms of what a user sees:
   - irr x, lead x, arr x i : irreps, leading shape, and the row of features at the leading index i (x.irreps, x.shape[:-1], x.array[i])
   - valid s i : i is an index into an array of shape s
   - slices (irr x) : x.irreps.slices();  chunks x : x.chunks
   - [coherent x] (ArrayProofs.v): array rows have length irreps.dim, flagged entries are zero, cached chunks agree with the array.
     C14 says that every array a program can build is coherent, so "coherent x" below stands for "x is any IrrepsArray".
   - [yields r x s a]: the call r succeeds, with irreps x, leading shape s, rows a, and the result is again coherent. *)
From Coq Require Import Reals Lra Permutation.
From Verif Require Import PyBase PermModel PermProofs IrrepsModel IrrepsProofs IrrepsProofs2 ArrayModel ArrayProofs ArrayOps RechunkProofs SliceProofs SliceProofs2 ArithProofs LeadModel LeadProofs BlockProofs AxisProofs StackProofs BilinProofs ActProofs EquivProofs HistoryProofs FlagProofs.
Open Scope nat_scope.

(* the features of entry k in a row: row[irreps.slices()[k]] *)
Definition features (x : irreps) (k : nat) (row : list R) : list R := let '(a, b) := nth k (slices x) (0, 0) in list_slice row a b.
Lemma features_blocks x k row : k < length x -> features x k row = nth k (blocks x row) [].
Proof.
  intros H. rewrite <- slices_blocks. unfold features. symmetry. exact (map_nth (fun '(a, b) => list_slice row a b) (slices x) (0, 0) k).
Qed.

(* ---------- C14 ---------- *)
(* x.chunks[k] reshaped is x.array[..., slices[k]], or is None where that slice is zero *)
Definition two_views (x : iarray) : Prop :=
  (forall i, valid (lead x) i -> length (arr x i) = dim (irr x)) /\
  length (chunks x) = length (irr x) /\
  forall k mul ir c, nth_error (irr x) k = Some (mul, ir) -> nth_error (chunks x) k = Some c -> forall i, valid (lead x) i ->
    match c with
    | None => features (irr x) k (arr x i) = repeat 0%R (mul * ir_dim ir)
    | Some c => c_lead c = lead x /\ length (c_val c i) = mul /\ Forall (fun r => length r = ir_dim ir) (c_val c i) /\
                concat (c_val c i) = features (irr x) k (arr x i)
    end.
Lemma coherent_views x : coherent x -> two_views x.
Proof.
  intros H. pose proof H as (L & F & _). split; [exact L|]. pose proof (chunks_chunks_ok x H) as C. apply chunks_ok_iff in C as (Lf & Lc & C). split; [exact Lc|].
  intros k mul ir c Ek Ec i Hi. assert (Hk : k < length (irr x)) by (apply nth_error_Some; congruence). rewrite features_blocks by exact Hk.
  assert (Ef : exists f, nth_error (zero_flags x) k = Some f) by (destruct (nth_error (zero_flags x) k) eqn:Q; [eauto|apply nth_error_None in Q; lia]). destruct Ef as (f & Ef).
  specialize (C k _ f c Ek Ef Ec). destruct c as [c|]; cbn [chunk_ok] in C.
  - destruct C as (_ & (W1 & _ & _ & W) & V). destruct (W i Hi) as [Wl Wf]. repeat split; auto.
  - apply flags_ok_iff in F as (_ & F).
    apply (F k (mul, ir) Ek); [|exact Hi]. apply nth_error_nth with (d := false) in Ef. congruence.
Qed.
(* whatever sequence of calls built the arrays *)
Theorem C14_every_reachable_array pool : history pool -> Forall (fun x => coherent x /\ two_views x) pool.
Proof. intros H. eapply Forall_impl; [|exact (history_coherent pool H)]. intros x Hx. split; [exact Hx|apply coherent_views, Hx]. Qed.
(* from_chunks keeps the chunks it is given and lays them out in order *)
Theorem C14_from_chunks x cs s dt : Forall2 (wf_opt s) x cs -> (dt = true \/ exists c, In (Some c) cs) ->
  exists y, from_chunks x cs s dt = Ok y /\ irr y = x /\ lead y = s /\ chunks y = cs /\ coherent y /\
    forall i, valid s i -> arr y i = concat (map (fun '(m, c) => match c with None => repeat 0%R (mi_dim m) | Some c => concat (c_val c i) end) (combine x cs)).
Proof.
  intros W D. assert (D' : dt = true \/ existsb (fun c => negb (is_none c)) cs = true).
  { destruct D as [D|(c & D)]; [left; exact D|right]. apply existsb_exists. exists (Some c). split; [exact D|reflexivity]. }
  destruct (from_chunks_ok x cs s dt W D') as (y & E & A & B & C & Q & _ & K). exists y. split; [exact E|]. split; [exact A|]. split; [exact B|]. split; [unfold chunks; rewrite K; reflexivity|]. split; [exact C|].
  intros i Hi. rewrite Q by exact Hi. unfold chunks_row. rewrite flat_map_concat_map. reflexivity.
Qed.
Theorem C14_rebuild x : coherent x -> yields (from_chunks (irr x) (chunks x) (lead x) true) (irr x) (lead x) (arr x).
Proof.
  intros H. destruct (from_chunks_ok (irr x) (chunks x) (lead x) true (chunks_wf x H) (or_introl eq_refl)) as (y & E & A & B & C & Q & _). exists y. split; [exact E|]. split; [exact A|]. split; [exact B|]. split; [exact C|].
  intros i Hi. rewrite Q by exact Hi. pose proof H as (L & F & _). apply (chunks_ok_row _ _ _ _ _ (chunks_chunks_ok x H) F L i Hi).
Qed.
Theorem C14_from_chunks_rejects x cs s dt : ~ Forall2 (fun m c => match c with None => True | Some c => c_lead c = s /\ c_mul c = fst m /\ c_dim c = ir_dim (snd m) end) x cs ->
  from_chunks x cs s dt = Err ValueError.
Proof.
  intros H. unfold from_chunks. destruct (Nat.eqb_spec (length x) (length cs)) as [El|]; [|reflexivity]. cbn [negb]. destruct (forallb _ _) eqn:F; [|reflexivity]. exfalso. apply H. clear H.
  revert cs El F. induction x as [|[mul ir] x IH]; intros [|c cs] El F; try discriminate; constructor.
  - cbn [combine forallb] in F. apply andb_true_iff in F as [F _]. destruct c as [c|]; [|exact I]. rewrite !andb_true_iff, !Nat.eqb_eq in F. destruct F as [[F1 F2] F3]. apply shape_eqb_eq in F1. auto.
  - cbn [combine forallb] in F. apply andb_true_iff in F as [_ F]. apply IH; [cbn in El; lia|exact F].
Qed.
(* a program with a zero chunk, a cache, sorting, slicing and addition *)
Example C14_nonvacuous : exists pool, history pool /\ length pool = 6 /\ map irr pool =
   [[(2, Irrep 1 Odd); (1, Irrep 0 Even)]; [(2, Irrep 1 Odd); (1, Irrep 0 Even)]; [(2, Irrep 1 Odd); (1, Irrep 0 Even)]; [(2, Irrep 1 Odd); (1, Irrep 0 Even)];
    [(1, Irrep 0 Even); (2, Irrep 1 Odd)]; [(1, Irrep 1 Odd); (1, Irrep 0 Even)]].
Proof.
  set (x := [(2, Irrep 1 Odd); (1, Irrep 0 Even)]).
  assert (S : forall pool o, history pool -> proper_args o -> benign pool o -> forall y, run pool o = Ok y -> history (pool ++ [y])) by (intros; eapply h_step; eassumption).
  pose proof (S [] (Zeros x [3]) h_start I I _ eq_refl) as H.
  pose proof (S _ (New x [3] 7 (fun _ => repeat 1%R 7)) H (fun _ _ => eq_refl) I _ eq_refl) as H2.
  pose proof (S _ (ReadChunks 1) H2 I I _ eq_refl) as H3.
  assert (B : benign [IA x [3] (fun _ => repeat 0%R (dim x)) (Some (repeat true (length x))) None; IA x [3] (fun _ => repeat 1%R 7) None None; force_chunks (IA x [3] (fun _ => repeat 1%R 7) None None)] (Add 0 2)) by (intros a b E1 E2; injection E1 as <-; left; reflexivity).
  pose proof (S _ (Add 0 2) H3 I B _ eq_refl) as H4.
  pose proof (S _ (Sort 3) H4 I I _ eq_refl) as H5.
  pose proof (S _ (SliceByMul 1 (Slice (Some 1%Z) None None)) H5 I I _ eq_refl) as H6.
  eexists. split; [exact H6|]. split; reflexivity.
Qed.
(* the two calls excluded from [history]: + with broadcasting next to a zero chunk, and ** next to a zero chunk, do build
   arrays whose chunks disagree with the array *)
Theorem C14_add_broadcast_refuted : exists pool z, exec [] [Zeros [(1, Irrep 0 Even)] [2]; ReadChunks 0; New [(1, Irrep 0 Even)] [1] 1 (fun _ => [1%R]); ReadChunks 2; Add 1 3] = Ok (pool ++ [z]) /\ ~ two_views z.
Proof.
  do 2 eexists. split; [refine (eq_trans (y := Ok ([_; _; _; _] ++ [_])) _ _); [reflexivity|reflexivity]|].
  intros (_ & _ & H). specialize (H 0 1 (Irrep 0 Even) _ eq_refl eq_refl [1] ltac:(repeat constructor)). destruct H as (H & _). cbn in H. discriminate.
Qed.
Theorem C14_pow_refuted : exists pool z, exec [] [Zeros [(1, Irrep 0 Even)] []; ReadChunks 0; Pow 1 0] = Ok (pool ++ [z]) /\ ~ two_views z.
Proof.
  do 2 eexists. split; [refine (eq_trans (y := Ok ([_; _] ++ [_])) _ _); [reflexivity|reflexivity]|].
  intros (_ & _ & H). specialize (H 0 1 (Irrep 0 Even) _ eq_refl eq_refl [] ltac:(constructor)). cbn in H. injection H as H. lra.
Qed.

(* ---------- C15 ---------- *)
(* what jit, vmap and pytree flattening leave of an array *)
Definition drop_flags (x : iarray) : iarray := IA (irr x) (lead x) (arr x) None None.
Lemma drop_alike x : coherent x -> alike x (drop_flags x).
Proof.
  intros H. split; [exact H|]. split; [|split; [reflexivity|split; reflexivity]]. destruct H as (L & _). split; [exact L|]. split; [apply flags_false|exact I].
Qed.
(* same irreps, leading shape and array; flags and cached chunks valid but otherwise arbitrary *)
Theorem C15_programs_cannot_see_flags pool pool' prog final :
  Forall2 (fun x x' => coherent x /\ coherent x' /\ irr x = irr x' /\ lead x = lead x' /\ forall i, valid (lead x) i -> arr x i = arr x' i) pool pool' ->
  safe pool prog -> safe pool' prog -> exec pool prog = Ok final ->
  exists final', exec pool' prog = Ok final' /\
    Forall2 (fun x x' => irr x = irr x' /\ lead x = lead x' /\ forall i, valid (lead x) i -> arr x i = arr x' i) final final'.
Proof.
  intros H S S' E. destruct (exec_like prog pool pool' final) as (final' & E' & F); auto.
  exists final'. split; [exact E'|]. clear -F. induction F as [|x x' l l' (_ & _ & Q) F IH]; constructor; auto.
Qed.
Theorem C15_drop_flags pool prog final : Forall coherent pool -> safe pool prog -> safe (map drop_flags pool) prog -> exec pool prog = Ok final ->
  exists final', exec (map drop_flags pool) prog = Ok final' /\ Forall2 same final final'.
Proof.
  intros H S S' E. destruct (exec_like prog pool (map drop_flags pool) final) as (final' & E' & F); auto.
  - clear -H. induction H; constructor; auto using drop_alike.
  - exists final'. split; [exact E'|]. apply (alike_parts _ _ F).
Qed.
(* one call, with the failures: a call that fails on x fails on x' *)
Theorem C15_call_same_outcome pool pool' o : Forall2 alike pool pool' -> proper_args o -> benign pool o -> benign pool' o -> flag_safe pool o -> flag_safe pool' o ->
  is_ok (run pool o) = is_ok (run pool' o).
Proof.
  intros P A B B' F F'. destruct (run pool o) as [z|e] eqn:E.
  - destruct (run_like pool pool' o z P A B F F' E) as (z' & -> & _). reflexivity.
  - destruct (run pool' o) as [z'|e'] eqn:E'; [|reflexivity]. exfalso.
    assert (P' : Forall2 alike pool' pool). { clear -P. induction P as [|x y l l' (C & D & S) P IH]; constructor; auto. split; [exact D|]. split; [exact C|]. apply same_sym, S. }
    destruct (run_like pool' pool o z' P' A B' F' F E') as (z & Ez & _). congruence.
Qed.
Example C15_nonvacuous :
  let x := [(2, Irrep 1 Odd); (1, Irrep 0 Even)] in
  let a := IA x [3] (fun _ => repeat 0%R 7) (Some [true; true]) None in
  let prog := [Sort 0; Neg 1; Add 1 2; Regroup 0; Norm 4 true true] in
  coherent a /\ safe [a] prog /\ safe [drop_flags a] prog /\ is_ok (exec [a] prog) = true /\ a <> drop_flags a.
Proof.
  cbv zeta. split; [|split; [|split; [|split; [reflexivity|discriminate]]]].
  - split; [reflexivity|]. split; [|exact I]. cbn. repeat split; reflexivity.
  - do 5 (cbn [safe proper_args benign flag_safe]; split; [exact I|]; split; [first [exact I|intros x0 y0 E1 E2; injection E1 as <-; injection E2 as <-; do 3 right; reflexivity]|split; [exact I|intros z E; injection E as <-]]). exact I.
  - do 5 (cbn [safe proper_args benign flag_safe]; split; [exact I|]; split; [first [exact I|intros x0 y0 E1 E2; injection E1 as <-; injection E2 as <-; do 3 right; reflexivity]|split; [exact I|intros z E; injection E as <-]]). exact I.
Qed.
(* the excluded calls do see the flags *)
Theorem C15_slice_by_mul_refuted : exists x x' sl, alike x x' /\ ia_slice_by_mul x sl = Err TypeError /\ is_ok (ia_slice_by_mul x' sl) = true.
Proof.
  exists (IA [(2, Irrep 0 Even)] [] (fun _ => [0%R; 0%R]) (Some [true]) None), (IA [(2, Irrep 0 Even)] [] (fun _ => [0%R; 0%R]) None None), (Slice (Some 1%Z) None None).
  split; [|split; reflexivity]. apply (drop_alike (IA [(2, Irrep 0 Even)] [] (fun _ => [0%R; 0%R]) (Some [true]) None)). split; [reflexivity|]. split; [|exact I]. cbn. repeat split; reflexivity.
Qed.
Theorem C15_remove_zero_chunks_refuted : exists x x' y y', alike x x' /\ remove_zero_chunks x = Ok y /\ remove_zero_chunks x' = Ok y' /\ irr y <> irr y'.
Proof.
  exists (IA [(2, Irrep 0 Even)] [] (fun _ => [0%R; 0%R]) (Some [true]) None), (IA [(2, Irrep 0 Even)] [] (fun _ => [0%R; 0%R]) None None).
  do 2 eexists. split; [|split; [reflexivity|split; [reflexivity|discriminate]]].
  apply (drop_alike (IA [(2, Irrep 0 Even)] [] (fun _ => [0%R; 0%R]) (Some [true]) None)). split; [reflexivity|]. split; [|exact I]. cbn. repeat split; reflexivity.
Qed.
(* dot(per_irrep=True) with broadcasting fails on explicit zeros and succeeds on flagged ones *)
Theorem C15_dot_per_irrep_refuted : exists x x' y, alike x x' /\ coherent y /\ is_ok (dot x y true) = true /\ is_ok (dot x' y true) = false.
Proof.
  exists (IA [(2, Irrep 0 Even)] [] (fun _ => [0%R; 0%R]) (Some [true]) None), (IA [(2, Irrep 0 Even)] [] (fun _ => [0%R; 0%R]) None None), (IA [(2, Irrep 0 Even)] [3] (fun _ => [1%R; 1%R]) None None).
  split; [|split; [|split; reflexivity]].
  - apply (drop_alike (IA [(2, Irrep 0 Even)] [] (fun _ => [0%R; 0%R]) (Some [true]) None)). split; [reflexivity|]. split; [|exact I]. cbn. repeat split; reflexivity.
  - split; [reflexivity|]. split; [|exact I]. apply flags_false.
Qed.

(* ---------- C16 ---------- *)
Theorem C16_rechunk_keeps_the_array x target : coherent x -> simplify (irr x) = simplify target -> yields (rechunk x target) target (lead x) (arr x).
Proof. exact (rechunk_yields x target). Qed.
Theorem C16_rechunk_rejects x target : simplify (irr x) <> simplify target -> rechunk x target = Err AssertionError.
Proof. exact (rechunk_rejects x target). Qed.
Theorem C16_simplify x : coherent x -> yields (ia_simplify x) (simplify (irr x)) (lead x) (arr x).
Proof. exact (ia_simplify_yields x). Qed.
Theorem C16_unify x : coherent x -> yields (ia_unify x) (unify (irr x)) (lead x) (arr x).
Proof. exact (ia_unify_yields x). Qed.
(* remove_zero_chunks: entry k of the result is the k-th unflagged entry, so the dropped features were all zero *)
Theorem C16_remove_zero_chunks x : coherent x -> exists keep : list nat,
  keep = filter (fun k => negb (nth k (zero_flags x) true)) (seq 0 (length (irr x))) /\
  (forall k i, k < length (irr x) -> ~ In k keep -> valid (lead x) i -> features (irr x) k (arr x i) = repeat 0%R (mi_dim (nth k (irr x) dflt))) /\
  yields (remove_zero_chunks x) (map (fun k => nth k (irr x) dflt) keep) (lead x) (fun i => concat (map (fun k => features (irr x) k (arr x i)) keep)).
Proof.
  intros H. eexists. split; [reflexivity|].
  assert (G : forall {A} (f : nat -> A) (fl : list bool) (v : list A) k0, length v = length fl -> (forall k, k < length v -> nth_error v k = Some (f (k0 + k))) ->
     map f (filter (fun k => negb (nth (k - k0) fl true)) (seq k0 (length v))) = select (map negb fl) v).
  { intros A f fl. induction fl as [|b fl IH]; intros [|a v] k0 L Q; try discriminate; [reflexivity|]. cbn [length seq filter select map]. rewrite Nat.sub_diag. change (nth 0 (b :: fl) true) with b.
    assert (T : map f (filter (fun k => negb (nth (k - k0) (b :: fl) true)) (seq (S k0) (length v))) = select (map negb fl) v).
    { rewrite <- (IH v (S k0)); [|cbn in L; lia|]. 2: { intros k Hk. replace (S k0 + k) with (k0 + S k) by lia. apply (Q (S k)). cbn. lia. }
      f_equal. apply filter_ext_in. intros k Hk. apply in_seq in Hk. replace (k - k0) with (S (k - S k0)) by lia. reflexivity. }
    destruct b; cbn [negb]; [exact T|]. cbn [map]. rewrite T. f_equal. pose proof (Q 0 ltac:(cbn; lia)) as Q0. cbn in Q0. rewrite Nat.add_0_r in Q0. congruence. }
  pose proof H as (L & F & _). pose proof (flags_ok_length _ _ _ _ F) as Lf. split.
  - intros k i Hk Hn Hi. rewrite features_blocks by exact Hk. apply flags_ok_iff in F as (_ & F). apply (F k); [apply nth_error_nth', Hk| |exact Hi].
    destruct (nth k (zero_flags x) false) eqn:Q; [reflexivity|]. exfalso. apply Hn. apply filter_In. split; [apply in_seq; lia|]. rewrite (nth_indep _ true false) by lia. rewrite Q. reflexivity.
  - pose proof (remove_zero_chunks_yields x H) as Y. rewrite <- (G _ (fun k => nth k (irr x) dflt) (zero_flags x) (irr x) 0) in Y; [|lia|intros k Hk; apply nth_error_nth', Hk].
    replace (filter (fun k => negb (nth k (zero_flags x) true)) (seq 0 (length (irr x)))) with (filter (fun k => negb (nth (k - 0) (zero_flags x) true)) (seq 0 (length (irr x)))) by (apply filter_ext; intros; rewrite Nat.sub_0_r; reflexivity).
    eapply yields_ext; [|exact Y]. intros i Hi. cbv beta. f_equal. assert (Lb : length (blocks (irr x) (arr x i)) = length (irr x)) by (clear; generalize (arr x i); induction (irr x); intros; cbn; auto).
    rewrite <- (G _ (fun k => features (irr x) k (arr x i)) (zero_flags x) (blocks (irr x) (arr x i)) 0); [rewrite Lb; reflexivity|lia|].
    intros k Hk. cbn [Nat.add]. rewrite features_blocks by lia. apply nth_error_nth', Hk.
Qed.
Example C16_nonvacuous : let x := IA [(1, Irrep 0 Even); (0, Irrep 1 Odd); (2, Irrep 0 Even); (1, Irrep 1 Odd)] [] (fun _ => repeat 0%R 6) (Some [true; true; false; true]) None in
  coherent x /\ simplify (irr x) = [(3, Irrep 0 Even); (1, Irrep 1 Odd)] /\ option_map irr (match remove_zero_chunks x with Ok y => Some y | _ => None end) = Some [(2, Irrep 0 Even)] /\
  is_ok (rechunk x [(2, Irrep 0 Even); (1, Irrep 0 Even); (1, Irrep 1 Odd)]) = true /\ is_ok (rechunk x [(2, Irrep 0 Even); (1, Irrep 1 Odd)]) = false.
Proof. cbv zeta. split; [|repeat split; reflexivity]. split; [reflexivity|]. split; [|exact I]. cbn. repeat split; reflexivity. Qed.

(* ---------- C17 ---------- *)
Lemma nth_map_lt {A} (f : nat -> A) l d k : k < length l -> nth k (map f l) d = f (nth k l 0).
Proof. intros H. rewrite (nth_indep _ d (f 0)) by (rewrite map_length; exact H). apply map_nth. Qed.
Theorem C17_sort_permutes_the_blocks x : coherent x -> exists s p inv, irreps_sort (irr x) = Ok (s, p, inv) /\ Permutation inv (seq 0 (length (irr x))) /\
  exists y, ia_sort x = Ok y /\ irr y = s /\ lead y = lead x /\ coherent y /\
    forall i k, valid (lead x) i -> k < length (irr x) -> nth k s dflt = nth (nth k inv 0) (irr x) dflt /\ features s k (arr y i) = features (irr x) (nth k inv 0) (arr x i).
Proof.
  intros H. do 3 eexists. split; [apply sort_Ok|]. pose proof (sort_inv_perm (irr x)) as Pm. pose proof (proj1 (is_perm_iff _) Pm) as Pp.
  assert (Ll : length (sort_inv_list (irr x)) = length (irr x)). { unfold sort_inv_list. rewrite map_length. apply sorted_entries_length. }
  rewrite Ll in Pp. split; [exact Pp|]. destruct (sort_yields x H) as (y & E & A & B & C & Q). exists y. split; [exact E|]. split; [exact A|]. split; [exact B|]. split; [exact C|].
  intros i k Hi Hk. rewrite (sort_irreps_map (irr x)).
  assert (Hn : nth k (sort_inv_list (irr x)) 0 < length (irr x)). { assert (In (nth k (sort_inv_list (irr x)) 0) (seq 0 (length (irr x)))) as I by (eapply Permutation_in; [exact Pp|apply nth_In; lia]). apply in_seq in I. lia. }
  split; [apply (nth_map_lt (fun k => nth k (irr x) dflt)); lia|].
  rewrite !features_blocks by (rewrite ?map_length; lia). rewrite Q by exact Hi. pose proof H as (L & _).
  rewrite blocks_concat.
  - apply (nth_map_lt (fun k => nth k (blocks (irr x) (arr x i)) [])). lia.
  - assert (Bd : forall j, In j (sort_inv_list (irr x)) -> j < length (irr x)) by (intros j Hj; eapply Permutation_in in Hj; [|exact Pp]; apply in_seq in Hj; lia).
    clear -Bd L Hi. revert Bd. generalize (sort_inv_list (irr x)). intros l Bd. induction l as [|j l IH]; [constructor|]. cbn [map]. constructor; [|apply IH; intros; apply Bd; right; assumption].
    specialize (Bd j (or_introl eq_refl)). specialize (L i Hi). clear IH l. revert L Bd. generalize (arr x i) (irr x). intros row xs. revert row j. induction xs as [|m xs IH]; intros row j L Bd; [cbn in Bd; lia|]. rewrite dim_cons in L. destruct j as [|j]; cbn [blocks nth].
    + rewrite firstn_length. lia.
    + apply IH; [rewrite skipn_length; lia|cbn in Bd; lia].
Qed.
Theorem C17_regroup x : coherent x -> exists y, ia_sort x = Ok y /\ yields (ia_regroup x) (regroup_irreps (irr x)) (lead x) (arr y).
Proof.
  intros H. destruct (sort_yields x H) as (y & E & A & B & C & Q). exists y. split; [exact E|]. eapply yields_ext; [|apply (ia_regroup_yields x H)]. intros i Hi. symmetry. apply Q, Hi.
Qed.
Example C17_nonvacuous : let x := IA [(1, Irrep 1 Odd); (1, Irrep 0 Even); (1, Irrep 1 Odd)] [] (fun _ => [1; 2; 3; 4; 5; 6; 7]%R) None None in
  coherent x /\ (exists y, ia_sort x = Ok y /\ irr y = [(1, Irrep 0 Even); (1, Irrep 1 Odd); (1, Irrep 1 Odd)] /\ arr y [] = [4; 1; 2; 3; 5; 6; 7]%R) /\
  (exists y, ia_regroup x = Ok y /\ irr y = [(1, Irrep 0 Even); (2, Irrep 1 Odd)] /\ arr y [] = [4; 1; 2; 3; 5; 6; 7]%R).
Proof.
  cbv zeta. split; [split; [reflexivity|]; split; [apply flags_false|exact I]|]. split; eexists; (split; [reflexivity|split; reflexivity]).
Qed.
