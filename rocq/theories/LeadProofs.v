(* Leading-axis operations: gathers, reshape, broadcast_to, basic indexing. *)
From Coq Require Import Reals Lra.
From Verif Require Import PyBase PermModel PermProofs IrrepsModel IrrepsProofs IrrepsProofs2 ArrayModel ArrayProofs ArrayOps RechunkProofs SliceProofs ArithProofs LeadModel.
Open Scope nat_scope.

Lemma yields_ext r x s a b : (forall i, valid s i -> a i = b i) -> yields r x s a -> yields r x s b.
Proof. intros E (y & H1 & H2 & H3 & H4 & H5). exists y. repeat split; try assumption; try apply H4. intros i Hi. rewrite H5, E by exact Hi. reflexivity. Qed.

Lemma build_yields x s a fl cs : (forall i, valid s i -> length (a i) = dim x) -> flags_ok s x fl a ->
  (match cs with None => True | Some cs => chunks_ok s x fl cs a end) ->
  yields (mkIA x s (dim x) a (Some fl) cs) x s a.
Proof.
  intros L F C. rewrite mkIA_ok; [|reflexivity| |apply (flags_ok_length _ _ _ _ F)].
  - eexists. split; [reflexivity|]. cbn [irr lead arr]. split; [reflexivity|]. split; [reflexivity|]. split; [|reflexivity].
    unfold coherent, zero_flags. cbn [irr lead arr zf chs]. auto.
  - destruct cs as [cs|]; [|exact I]. split; [eapply wf_shapes_ok, chunks_ok_wf, C|]. apply (chunks_ok_length _ _ _ _ _ C).
Qed.

(* ---------- an operation acting on the leading axes, uniformly on the array and on the chunks ---------- *)
Section LeadOp.
Variables s s' : shape.
Variable T : nat -> (idx -> list R) -> idx -> list R.
Variable K : chunk -> chunk.
Hypothesis T_ext : forall w a b i, valid s' i -> (forall j, valid s j -> a j = b j) -> T w a i = T w b i.
Hypothesis T_len : forall w a i, valid s' i -> (forall j, valid s j -> length (a j) = w) -> length (T w a i) = w.
Hypothesis T_firstn : forall n w a i, valid s' i -> (forall j, valid s j -> length (a j) = n + w) ->
  firstn n (T (n + w) a i) = T n (fun j => firstn n (a j)) i.
Hypothesis T_skipn : forall n w a i, valid s' i -> (forall j, valid s j -> length (a j) = n + w) ->
  skipn n (T (n + w) a i) = T w (fun j => skipn n (a j)) i.
Hypothesis T_zero : forall w i, valid s' i -> T w (fun _ => zero_row w) i = zero_row w.
Hypothesis K_shape : forall c, c_lead c = s -> c_lead (K c) = s' /\ c_mul (K c) = c_mul c /\ c_dim (K c) = c_dim c.
Hypothesis K_val : forall m c i, wf_chunk s m c -> valid s' i ->
  length (c_val (K c) i) = fst m /\ Forall (fun r => length r = ir_dim (snd m)) (c_val (K c) i) /\
  concat (c_val (K c) i) = T (mi_dim m) (fun j => concat (c_val c j)) i.

Lemma leadop_flags : forall x fl a, (forall j, valid s j -> length (a j) = dim x) -> flags_ok s x fl a -> flags_ok s' x fl (T (dim x) a).
Proof.
  induction x as [|m x IH]; intros [|f fl] a L H; cbn [flags_ok] in *; try contradiction; [exact I|]. destruct H as [H1 H2].
  rewrite dim_cons in *. split.
  - intros Hf i Hi. rewrite T_firstn by auto. etransitivity; [|apply (T_zero (mi_dim m) i Hi)]. apply T_ext; auto.
  - eapply flags_ok_ext; [|apply (IH fl (fun i => skipn (mi_dim m) (a i)))]; [| |exact H2].
    + intros i Hi. cbv beta. symmetry. apply T_skipn; auto.
    + intros j Hj. cbv beta. rewrite skipn_length, L by exact Hj. lia.
Qed.
Lemma leadop_chunks : forall x fl cs a, (forall j, valid s j -> length (a j) = dim x) -> chunks_ok s x fl cs a ->
  chunks_ok s' x fl (map (option_map K) cs) (T (dim x) a).
Proof.
  induction x as [|m x IH]; intros [|f fl] [|c cs] a L H; cbn [chunks_ok map] in *; try contradiction; [exact I|]. destruct H as [H1 H2].
  rewrite dim_cons in *. split.
  - destruct c as [c|]; [|exact H1]. cbn [option_map chunk_ok] in *. destruct H1 as (F & W & V). split; [exact F|].
    destruct (K_shape c (proj1 W)) as (S1 & S2 & S3). destruct W as (W1 & W2 & W3 & W4). split.
    + unfold wf_chunk. rewrite S1, S2, S3. repeat split; auto; apply (K_val m c i); auto; repeat split; auto; apply W4; auto.
    + intros i Hi. rewrite T_firstn by auto. destruct (K_val m c i) as (_ & _ & E); [repeat split; auto; apply W4; auto|exact Hi|]. rewrite E. apply T_ext; auto.
  - eapply chunks_ok_ext; [|apply (IH fl cs (fun i => skipn (mi_dim m) (a i)))]; [| |exact H2].
    + intros i Hi. cbv beta. symmetry. apply T_skipn; auto.
    + intros j Hj. cbv beta. rewrite skipn_length, L by exact Hj. lia.
Qed.
Lemma leadop_yields x a' : coherent x -> lead x = s -> (forall i, valid s' i -> a' i = T (dim (irr x)) (arr x) i) ->
  forall cs, cs = chs x \/ cs = Some (chunks x) ->
  yields (mkIA (irr x) s' (dim (irr x)) a' (Some (zero_flags x)) (map_chunks K cs)) (irr x) s' a'.
Proof.
  intros H E Ea cs Hcs. pose proof H as (L & F & C). rewrite E in *. apply build_yields.
  - intros i Hi. rewrite Ea by exact Hi. apply T_len; auto.
  - eapply flags_ok_ext; [|apply (leadop_flags _ _ _ L F)]. intros i Hi. symmetry. auto.
  - assert (C' : match cs with None => True | Some cs => chunks_ok s (irr x) (zero_flags x) cs (arr x) end).
    { destruct Hcs as [->| ->]; [exact C|]. rewrite <- E. apply chunks_chunks_ok, H. }
    destruct cs as [cs|]; [|exact I]. cbn [map_chunks option_map]. eapply chunks_ok_ext; [|apply (leadop_chunks _ _ _ _ L C')]. intros i Hi. symmetry. auto.
Qed.
End LeadOp.

Lemma gathered_yields x s g cs : coherent x -> (forall i, valid s i -> valid (lead x) (g i)) -> (cs = chs x \/ cs = Some (chunks x)) ->
  yields (gathered x s g cs) (irr x) s (fun i => arr x (g i)).
Proof.
  intros H V E. unfold gathered. apply (leadop_yields (lead x) s (fun _ a i => a (g i)) (chunk_gather s g)); auto.
  intros m c i (W1 & W2 & W3 & W4) Hi. cbn. destruct (W4 (g i)); auto.
Qed.

(* ---------- row-major positions ---------- *)
Lemma prod_app a b : prod (a ++ b) = prod a * prod b.
Proof. induction a as [|x a IH]; [change (prod []) with 1; cbn [app]; lia|]. change (prod ((x :: a) ++ b)) with (x * prod (a ++ b)). change (prod (x :: a)) with (x * prod a). rewrite IH. lia. Qed.
Lemma prod_cons d s : prod (d :: s) = d * prod s.
Proof. reflexivity. Qed.
Lemma ravel_bound s i : valid s i -> ravel s i < prod s.
Proof.
  unfold valid. intros V. induction V as [|k d i s Hk V IH]; [cbn; lia|]. cbn [ravel]. rewrite prod_cons.
  assert (S k * prod s <= d * prod s) by (apply Nat.mul_le_mono_r; lia). lia.
Qed.
Lemma unravel_valid s n : n < prod s -> valid s (unravel s n).
Proof.
  revert n. induction s as [|d s IH]; intros n H; [constructor|]. rewrite prod_cons in H. cbn [unravel]. assert (P : 0 < prod s) by (destruct (prod s); lia). constructor.
  - apply Nat.div_lt_upper_bound; lia.
  - apply IH. apply Nat.mod_upper_bound. lia.
Qed.
Lemma unravel_ravel s i : valid s i -> unravel s (ravel s i) = i.
Proof.
  unfold valid. intros V. induction V as [|k d i s Hk V IH]; [reflexivity|]. cbn [unravel ravel]. pose proof (ravel_bound s i V) as B.
  rewrite Nat.add_comm, Nat.div_add, Nat.mod_add, Nat.div_small, Nat.mod_small by lia. cbn. rewrite IH. reflexivity.
Qed.
Lemma ravel_unravel s n : n < prod s -> ravel s (unravel s n) = n.
Proof.
  revert n. induction s as [|d s IH]; intros n H; [cbn in *; lia|]. rewrite prod_cons in H. cbn [unravel ravel]. assert (P : 0 < prod s) by (destruct (prod s); lia).
  rewrite IH by (apply Nat.mod_upper_bound; lia). pose proof (Nat.div_mod n (prod s)). lia.
Qed.
Lemma valid_length s i : valid s i -> length i = length s.
Proof. apply Forall2_length. Qed.
Lemma valid_app s t i j : valid s i -> valid t j -> valid (s ++ t) (i ++ j).
Proof. intros. apply Forall2_app; assumption. Qed.
Lemma valid_app_inv s t i : valid (s ++ t) i -> exists a b, i = a ++ b /\ valid s a /\ valid t b.
Proof. unfold valid. intros H. apply Forall2_app_inv_r in H as (a & b & H1 & H2 & ->). eauto. Qed.
Lemma ravel_app s t i j : valid s i -> ravel (s ++ t) (i ++ j) = ravel s i * prod t + ravel t j.
Proof. unfold valid. intros V. induction V as [|k d i s Hk V IH]; [reflexivity|]. cbn [app ravel]. rewrite IH, prod_app. lia. Qed.

Lemma reshape_yields x s : coherent x -> prod s = prod (lead x) ->
  yields (ia_reshape x s) (irr x) s (fun i => arr x (unravel (lead x) (ravel s i))).
Proof.
  intros H E. unfold ia_reshape. rewrite E, Nat.eqb_refl. cbn [negb]. apply gathered_yields; auto. intros i Hi. apply unravel_valid. rewrite <- E. apply ravel_bound, Hi.
Qed.
Lemma reshape_rejects x s : prod s <> prod (lead x) -> ia_reshape x s = Err TypeError.
Proof. intros H. unfold ia_reshape. destruct (Nat.eqb_spec (prod s) (prod (lead x))); [contradiction|reflexivity]. Qed.
(* the k-th row in row-major order is unchanged *)
Lemma reshape_kth x s i j : prod s = prod (lead x) -> valid s i -> valid (lead x) j -> ravel s i = ravel (lead x) j ->
  unravel (lead x) (ravel s i) = j.
Proof. intros E Hi Hj H. rewrite H. apply unravel_ravel, Hj. Qed.

Lemma broadcast_to_yields x s : coherent x -> broadcast_shapes (lead x) s = Ok s ->
  yields (broadcast_to x s) (irr x) s (fun i => arr x (bidx (lead x) i)).
Proof.
  intros H E. unfold broadcast_to. rewrite E. cbn [bind]. rewrite (proj2 (shape_eqb_eq s s) eq_refl). cbn [negb]. apply gathered_yields; auto.
  intros i Hi. apply (broadcast_valid _ _ _ _ E Hi).
Qed.

(* ---------- basic indexing ---------- *)
Lemma range_len_in a b st n k : range_len a b st = n -> k < n -> (st <> 0)%Z -> 
  ((0 < st)%Z -> (a <= a + st * Z.of_nat k < b)%Z) /\ ((st < 0)%Z -> (b < a + st * Z.of_nat k <= a)%Z).
Proof.
  unfold range_len. intros E Hk Hst. destruct (Z.ltb_spec 0 st).
  - split; [|lia]. intros _. assert (Z.of_nat k < (b - a + st - 1) / st)%Z by lia.
    assert ((b - a + st - 1) / st * st <= b - a + st - 1)%Z by (rewrite Z.mul_comm; apply Z.mul_div_le; lia). nia.
  - split; [lia|]. intros Hn. assert (Z.of_nat k < (a - b - st - 1) / - st)%Z by lia.
    assert ((a - b - st - 1) / - st * - st <= a - b - st - 1)%Z by (rewrite Z.mul_comm; apply Z.mul_div_le; lia). nia.
Qed.
Lemma slice_indices_range sl d a b st : slice_indices sl d = Ok (a, b, st) ->
  (st <> 0)%Z /\ ((0 < st)%Z -> (0 <= a)%Z /\ (b <= Z.of_nat d)%Z) /\ ((st < 0)%Z -> (-1 <= b)%Z /\ (a <= Z.of_nat d - 1)%Z).
Proof.
  unfold slice_indices. set (st' := match s_step sl with None => 1%Z | Some k => k end).
  destruct (Z.eqb_spec st' 0); [discriminate|]. intros E. injection E as E1 E2 E3. rewrite E3 in *. clear E3. split; [assumption|].
  destruct (Z.ltb_spec 0 st).
  - split; [|lia]. intros _. split.
    + subst a. destruct (s_start sl) as [v|]; [|lia]. destruct (Z.ltb_spec v 0); lia.
    + subst b. destruct (s_stop sl) as [v|]; [|lia]. destruct (Z.ltb_spec v 0); lia.
  - split; [lia|]. intros _. split.
    + subst b. destruct (s_stop sl) as [v|]; [|lia]. destruct (Z.ltb_spec v 0); lia.
    + subst a. destruct (s_start sl) as [v|]; [|lia]. destruct (Z.ltb_spec v 0); lia.
Qed.
(* a selector stays inside the axis *)
Definition sel_ok (d : nat) (s : sel) : Prop :=
  match s with
  | SInt k => k < d
  | SRange a st n => forall k, k < n -> (0 <= a + st * Z.of_nat k < Z.of_nat d)%Z
  | SNew => False
  end.
Lemma sel_of_ok d it s : sel_of d it = Ok s -> sel_ok d s.
Proof.
  destruct it; cbn; try discriminate.
  - destruct (Z.leb_spec (- Z.of_nat d) z), (Z.ltb_spec z (Z.of_nat d)); cbn; try discriminate. intros E. injection E as <-. cbn.
    assert (0 < Z.of_nat d)%Z by lia. pose proof (Z.mod_pos_bound z (Z.of_nat d)). lia.
  - destruct (slice_indices sl d) as [[[a b] st]|] eqn:E; [|discriminate]. cbn. intros H. injection H as <-. intros k Hk.
    destruct (slice_indices_range _ _ _ _ _ E) as (N & P & M). destruct (range_len_in a b st _ k eq_refl Hk N) as [P' M'].
    destruct (Z.lt_trichotomy st 0) as [S|[S|S]]; [|lia|].
    + specialize (M S). specialize (M' S). lia.
    + specialize (P S). specialize (P' S). lia.
Qed.
Lemma full_ok d : sel_ok d (full d).
Proof. intros k Hk. lia. Qed.
(* the selectors fit the shape, new axes aside *)
Inductive sels_ok : shape -> list sel -> Prop :=
| so_nil : sels_ok [] []
| so_new s l : sels_ok s l -> sels_ok s (SNew :: l)
| so_cons d s a l : sel_ok d a -> sels_ok s l -> sels_ok (d :: s) (a :: l).
Lemma sels_ok_full s : sels_ok s (map full s).
Proof. induction s; cbn; constructor; [apply full_ok|assumption]. Qed.
Lemma sels_ok_app s t a b : sels_ok s a -> sels_ok t b -> sels_ok (s ++ t) (a ++ b).
Proof. induction 1; intros; cbn; [assumption| |]; constructor; auto. Qed.
Lemma resolve_ok : forall its sh l, resolve its sh = Ok l -> sels_ok sh l.
Proof.
  induction its as [|it its IH]; intros sh l E; [injection E as <-; apply sels_ok_full|]. destruct it; cbn [resolve] in E.
  - destruct sh as [|d sh]; [discriminate|]. destruct (sel_of d (IInt z)) as [a|] eqn:Ea; [|discriminate]. cbn [bind] in E. destruct (resolve its sh) eqn:Er; [|discriminate]. injection E as <-.
    constructor; [eapply sel_of_ok, Ea|auto].
  - destruct sh as [|d sh]; [discriminate|]. destruct (sel_of d (ISlice sl)) as [a|] eqn:Ea; [|discriminate]. cbn [bind] in E. destruct (resolve its sh) eqn:Er; [|discriminate]. injection E as <-.
    constructor; [eapply sel_of_ok, Ea|auto].
  - destruct (resolve its sh) eqn:Er; [|discriminate]. injection E as <-. constructor. auto.
  - destruct (resolve its (skipn (length sh - consumed its) sh)) eqn:Er; [|discriminate]. injection E as <-.
    rewrite <- (firstn_skipn (length sh - consumed its) sh) at 1. apply sels_ok_app; [apply sels_ok_full|auto].
Qed.
Lemma gather_valid s l : sels_ok s l -> forall i, valid (out_shape l) i -> valid s (gather l i).
Proof.
  unfold valid. induction 1 as [|s l H IH|d s a l Ha H IH]; intros i V.
  - constructor.
  - cbn in *. inversion V; subst. auto.
  - destruct a; cbn in *.
    + constructor; auto.
    + inversion V as [|k ? i' ? Hk V']; subst. cbn. constructor; [specialize (Ha k Hk); lia|auto].
    + contradiction.
Qed.
Lemma out_shape_app a b : out_shape (a ++ b) = out_shape a ++ out_shape b.
Proof. induction a as [|[]]; cbn; congruence. Qed.
Lemma out_shape_full s : out_shape (map full s) = s.
Proof. induction s; cbn; congruence. Qed.
Lemma gather_app a b i j : length i = length (out_shape a) -> gather (a ++ b) (i ++ j) = gather a i ++ gather b j.
Proof.
  revert i. induction a as [|[] a IH]; intros i L; cbn in *.
  - destruct i; [reflexivity|discriminate].
  - rewrite IH by exact L. reflexivity.
  - destruct i as [|k i]; [discriminate|]. cbn. rewrite IH by (injection L; auto). reflexivity.
  - destruct i as [|k i]; [discriminate|]. cbn. apply IH. injection L; auto.
Qed.
Lemma gather_full s i : length i = length s -> gather (map full s) i = i.
Proof.
  revert i. induction s as [|d s IH]; intros i L; [destruct i; [reflexivity|discriminate]|]. destruct i as [|k i]; [discriminate|]. cbn [map gather full hd tl].
  rewrite IH by (injection L; auto). f_equal. lia.
Qed.

(* ---------- index tuples that leave the irreps axis alone ---------- *)
Definition has_ellipsis (its : list item) : bool := existsb is_ellipsis its.
Lemma consumed_cons it its : consumed (it :: its) = (if consumes it then 1 else 0) + consumed its.
Proof. unfold consumed. cbn. destruct (consumes it); reflexivity. Qed.
Lemma consumed_app a b : consumed (a ++ b) = consumed a + consumed b.
Proof. unfold consumed. rewrite filter_app, app_length. reflexivity. Qed.

Lemma resolve_consumes it its sh : consumes it = true -> resolve (it :: its) sh =
  match sh with [] => Err IndexError | d :: sh => let! s := sel_of d it in let! r := resolve its sh in Ok (s :: r) end.
Proof. destruct it; try discriminate; reflexivity. Qed.

(* fewer items than leading axes, no ellipsis: trailing axes are untouched *)
Lemma resolve_short : forall its sh extra, has_ellipsis its = false -> consumed its <= length sh ->
  resolve its (sh ++ extra) = rmap (fun l => l ++ map full extra) (resolve its sh).
Proof.
  induction its as [|it its IH]; intros sh extra He Hc; [cbn; rewrite map_app; reflexivity|]. rewrite consumed_cons in Hc.
  cbn in He. apply orb_false_iff in He as [He1 He2]. destruct (consumes it) eqn:Ec.
  - rewrite !resolve_consumes by exact Ec. destruct sh as [|d sh]; [cbn in Hc; lia|]. cbn [app]. destruct (sel_of d it); [|reflexivity]. cbn [bind].
    rewrite IH by (auto; cbn in Hc; lia). destruct (resolve its sh); reflexivity.
  - destruct it; try discriminate. cbn [resolve]. rewrite IH by (auto; lia). destruct (resolve its sh); reflexivity.
Qed.
Lemma sel_of_colon d : sel_of d colon = Ok (full d).
Proof.
  unfold sel_of, colon. cbn. unfold full, range_len. cbn. f_equal. f_equal. rewrite Z.div_1_r. lia.
Qed.
Lemma resolve_colon : forall its sh m, has_ellipsis its = false -> consumed its <= length sh ->
  resolve (its ++ [colon]) (sh ++ [m]) = resolve its (sh ++ [m]).
Proof.
  induction its as [|it its IH]; intros sh m He Hc.
  - destruct sh as [|d sh]; cbn [app]; rewrite resolve_consumes by reflexivity; rewrite sel_of_colon; reflexivity.
  - rewrite consumed_cons in Hc. cbn in He. apply orb_false_iff in He as [He1 He2]. cbn [app]. destruct (consumes it) eqn:Ec.
    + rewrite !resolve_consumes by exact Ec. destruct sh as [|d sh]; [cbn in Hc; lia|]. cbn [app]. rewrite IH by (auto; cbn in Hc; lia). reflexivity.
    + destruct it; try discriminate. cbn [resolve]. rewrite IH by (auto; lia). reflexivity.
Qed.
(* the index is closed by as many ':' as there are extra axes *)
Lemma resolve_closed : forall its sh extra, 
  (has_ellipsis its = false /\ consumed its = length sh) \/ (has_ellipsis its = true /\ consumed its <= length sh) ->
  resolve (its ++ repeat colon (length extra)) (sh ++ extra) = rmap (fun l => l ++ map full extra) (resolve its sh).
Proof.
  induction its as [|it its IH]; intros sh extra H.
  - destruct H as [[_ H]|[H _]]; [|discriminate]. destruct sh; [|discriminate]. cbn [app resolve rmap map].
    induction extra as [|d extra IHe]; [reflexivity|]. cbn [length repeat]. rewrite resolve_consumes by reflexivity. rewrite sel_of_colon. cbn [bind]. rewrite IHe. reflexivity.
  - rewrite consumed_cons in H. change (has_ellipsis (it :: its)) with (is_ellipsis it || has_ellipsis its) in H. cbn [app]. destruct it; cbn [consumes is_ellipsis orb] in H.
    + rewrite !resolve_consumes by reflexivity. destruct sh as [|d sh]; [cbn [length] in H; lia|]. cbn [app]. destruct (sel_of d (IInt z)); [|reflexivity]. cbn [bind].
      rewrite IH by (cbn [length] in H; destruct H as [[? ?]|[? ?]]; [left|right]; split; auto; lia). destruct (resolve its sh); reflexivity.
    + rewrite !resolve_consumes by reflexivity. destruct sh as [|d sh]; [cbn [length] in H; lia|]. cbn [app]. destruct (sel_of d (ISlice sl)); [|reflexivity]. cbn [bind].
      rewrite IH by (cbn [length] in H; destruct H as [[? ?]|[? ?]]; [left|right]; split; auto; lia). destruct (resolve its sh); reflexivity.
    + cbn [resolve]. rewrite IH by (destruct H as [[? ?]|[? ?]]; [left|right]; split; auto; lia). destruct (resolve its sh); reflexivity.
    + assert (Hc : consumed its <= length sh) by lia. cbn [resolve]. 
      replace (length (sh ++ extra) - consumed (its ++ repeat colon (length extra))) with (length sh - consumed its).
      2:{ rewrite app_length, consumed_app. replace (consumed (repeat colon (length extra))) with (length extra); [lia|]. clear. induction extra; [reflexivity|]. cbn [length repeat]. rewrite consumed_cons. cbn. rewrite <- IHextra. reflexivity. }
      rewrite skipn_app, firstn_app. replace (length sh - consumed its - length sh) with 0 by lia. cbn [skipn firstn]. rewrite app_nil_r.
      rewrite IH.
      * destruct (resolve its (skipn (length sh - consumed its) sh)); [|reflexivity]. cbn. rewrite app_assoc. reflexivity.
      * rewrite skipn_length. destruct (has_ellipsis its) eqn:Ee; [right; split; [reflexivity|lia]|left; split; [reflexivity|lia]].
Qed.

(* the accepted forms: leading items, the part of the tuple that addresses the leading axes *)
Inductive leaves_features (n : nat) : list item -> list item -> Prop :=
| lf_short its : has_ellipsis its = false -> consumed its <= n -> leaves_features n its its
| lf_colon its : (has_ellipsis its = false /\ consumed its = n) \/ (has_ellipsis its = true /\ consumed its <= n) ->
    leaves_features n (its ++ [colon]) its
| lf_dots its : has_ellipsis its = false -> consumed its <= n -> leaves_features n (its ++ [IEllipsis]) its.

Lemma resolve_dots : forall its sh, has_ellipsis its = false -> resolve (its ++ [IEllipsis]) sh = resolve its sh.
Proof.
  induction its as [|it its IH]; intros sh He.
  - cbn. rewrite Nat.sub_0_r, firstn_all, skipn_all. cbn. rewrite app_nil_r. reflexivity.
  - cbn in He. apply orb_false_iff in He as [He1 He2]. cbn [app]. destruct (consumes it) eqn:Ec.
    + rewrite !resolve_consumes by exact Ec. destruct sh as [|d sh]; [reflexivity|]. rewrite IH by exact He2. reflexivity.
    + destruct it; try discriminate. cbn [resolve]. rewrite IH by exact He2. reflexivity.
Qed.

Lemma ellipsis_count_app a b : length (filter is_ellipsis (a ++ b)) = length (filter is_ellipsis a) + length (filter is_ellipsis b).
Proof. rewrite filter_app, app_length. reflexivity. Qed.
Lemma no_ellipsis_count a : has_ellipsis a = false -> length (filter is_ellipsis a) = 0.
Proof. induction a as [|it a IH]; [reflexivity|]. cbn. intros H. apply orb_false_iff in H as [-> H]. apply IH, H. Qed.

Lemma np_index_features n its li sh extra : leaves_features n its li -> length sh = n -> length extra <> 0 ->
  forall j, length extra = S j ->
  np_index (its ++ repeat colon j) (sh ++ extra) = rmap (fun l => l ++ map full extra) (np_index li sh).
Proof.
  intros H <- _ j Hj. unfold np_index. destruct H as [its He Hc|its H|its He Hc]; rewrite ?ellipsis_count_app.
  - assert (Ej : length (filter is_ellipsis (repeat colon j)) = 0) by (clear; induction j; [reflexivity|exact IHj]).
    rewrite (no_ellipsis_count _ He), Ej. cbn. clear Ej.
    revert extra Hj. induction j as [|j IH] using nat_ind; intros extra Hj.
    + cbn [repeat]. rewrite app_nil_r. apply resolve_short; assumption.
    + (* peel the last axis *)
      destruct (exists_last (l := extra)) as (e' & d & ->); [destruct extra; discriminate|]. rewrite app_length in Hj. cbn in Hj.
      assert (Hj' : length e' = S j) by lia. specialize (IH e' Hj').
      replace (repeat colon (S j)) with (repeat colon j ++ [colon]) by (rewrite <- repeat_cons; reflexivity). rewrite app_assoc.
      replace (sh ++ e' ++ [d]) with ((sh ++ e') ++ [d]) by apply app_assoc_reverse.
      assert (He' : has_ellipsis (its ++ repeat colon j) = false).
      { unfold has_ellipsis. rewrite existsb_app. fold (has_ellipsis its). rewrite He. cbn. clear. induction j; [reflexivity|exact IHj]. }
      assert (Hc' : consumed (its ++ repeat colon j) <= length (sh ++ e')).
      { rewrite consumed_app, app_length. replace (consumed (repeat colon j)) with j; [lia|]. clear. induction j; [reflexivity|]. cbn [repeat]. rewrite consumed_cons. cbn. lia. }
      rewrite resolve_colon by assumption. rewrite resolve_short by assumption. rewrite IH. destruct (resolve its sh); [|reflexivity]. cbn. rewrite map_app, app_assoc. reflexivity.
  - assert (Ej : length (filter is_ellipsis (repeat colon j)) = 0) by (clear; induction j; [reflexivity|exact IHj]).
    rewrite Ej. cbn [filter is_ellipsis length]. rewrite !Nat.add_0_r. destruct (1 <? length (filter is_ellipsis its)); [reflexivity|].
    rewrite <- app_assoc. cbn [app]. change (colon :: repeat colon j) with (repeat colon (S j)). rewrite <- Hj. apply resolve_closed, H.
  - assert (Ej : length (filter is_ellipsis (repeat colon j)) = 0) by (clear; induction j; [reflexivity|exact IHj]).
    rewrite Ej, (no_ellipsis_count _ He). cbn [filter is_ellipsis length Nat.add Nat.ltb Nat.leb].
    replace (sh ++ extra) with ((sh ++ firstn 1 extra) ++ skipn 1 extra) by (rewrite <- app_assoc, firstn_skipn; reflexivity).
    replace j with (length (skipn 1 extra)) by (rewrite skipn_length; lia). rewrite resolve_closed.
    + rewrite resolve_dots by exact He. rewrite resolve_short by assumption. destruct (resolve its sh); [|reflexivity]. cbn [rmap].
      rewrite <- app_assoc, <- map_app, firstn_skipn. reflexivity.
    + right. split; [unfold has_ellipsis; rewrite existsb_app; cbn; apply orb_true_r|]. rewrite consumed_app, app_length. cbn. lia.
Qed.

(* ---------- index_all ---------- *)
Lemma map_nth_seq {A} (l : list A) d : map (fun k => nth k l d) (seq 0 (length l)) = l.
Proof.
  induction l as [|a l IH]; [reflexivity|]. cbn [length seq map nth]. f_equal. rewrite <- seq_shift, map_map. exact IH.
Qed.
Lemma removelast_app1 {A} (l : list A) a : removelast (l ++ [a]) = l.
Proof. rewrite removelast_app by discriminate. cbn. apply app_nil_r. Qed.
Lemma last_app1 {A} (l : list A) a d : last (l ++ [a]) d = a.
Proof. apply last_last. Qed.

Lemma rows_index_features a s d sels : sels_ok s sels -> (forall j, valid s j -> length (a j) = d) ->
  exists a', rows_index a (sels ++ [full d]) = Ok (out_shape sels, d, a') /\ forall i, valid (out_shape sels) i -> a' i = a (gather sels i).
Proof.
  intros Hs L. unfold rows_index. rewrite out_shape_app. cbn [out_shape full]. rewrite removelast_app1, last_app1.
  destruct (out_shape sels ++ [d]) eqn:E; [destruct (out_shape sels); discriminate|]. eexists. split; [reflexivity|]. intros i Hi. cbv beta.
  etransitivity; [|apply (map_nth_seq (a (gather sels i)) 0%R)]. rewrite L by (apply (gather_valid _ _ Hs _ Hi)). apply map_ext_in. intros k Hk. apply in_seq in Hk.
  unfold entry. change [full d] with (map full [d]). rewrite gather_app by (apply valid_length, Hi). rewrite gather_full by reflexivity.
  rewrite removelast_app1, last_app1. reflexivity.
Qed.
Lemma chunk_index_features n its li s sels m c : leaves_features n its li -> length s = n -> np_index li s = Ok sels -> wf_chunk s m c ->
  exists c', chunk_index its c = Ok c' /\ c_lead c' = out_shape sels /\ c_mul c' = c_mul c /\ c_dim c' = c_dim c /\
    forall i, valid (out_shape sels) i -> c_val c' i = c_val c (gather sels i).
Proof.
  intros Hl Ln Es (W1 & W2 & W3 & W4). unfold chunk_index. rewrite W1.
  rewrite (np_index_features n its li s [c_mul c; c_dim c] Hl Ln ltac:(discriminate) 1 eq_refl : np_index (its ++ [colon]) _ = _). rewrite Es. cbn [rmap bind].
  rewrite out_shape_app, out_shape_full.
  assert (Hs : sels_ok s sels) by (unfold np_index in Es; destruct (1 <? _); [discriminate|]; eapply resolve_ok, Es).
  replace (out_shape sels ++ [c_mul c; c_dim c]) with ((out_shape sels ++ [c_mul c]) ++ [c_dim c]) by apply app_assoc_reverse.
  rewrite !removelast_app1, !last_app1.
  destruct ((out_shape sels ++ [c_mul c]) ++ [c_dim c]) as [|a [|b t]] eqn:E.
  { destruct (out_shape sels); discriminate. }
  { destruct (out_shape sels) as [|? [|? ?]]; discriminate. }
  eexists. split; [reflexivity|]. cbn [c_lead c_mul c_dim c_val]. split; [reflexivity|]. split; [reflexivity|]. split; [reflexivity|]. intros i Hi.
  assert (V : valid s (gather sels i)) by apply (gather_valid _ _ Hs _ Hi).
  destruct (W4 _ V) as [L F]. rewrite W2, W3. clear E.
  etransitivity; [|apply (map_nth_seq (c_val c (gather sels i)) [])]. rewrite L. apply map_ext_in. intros u Hu. apply in_seq in Hu.
  etransitivity; [|apply (map_nth_seq (nth u (c_val c (gather sels i)) []) 0%R)].
  assert (Lr : length (nth u (c_val c (gather sels i)) []) = ir_dim (snd m)) by (rewrite Forall_forall in F; apply F, nth_In; lia).
  rewrite Lr. apply map_ext_in. intros k Hk. unfold chunk_entry. rewrite gather_app by (apply valid_length, Hi). rewrite gather_full by reflexivity.
  replace (gather sels i ++ [u; k]) with ((gather sels i ++ [u]) ++ [k]) by apply app_assoc_reverse. rewrite !removelast_app1, !last_app1. reflexivity.
Qed.

Lemma index_all_yields x its li sels : coherent x -> leaves_features (length (lead x)) its li -> np_index li (lead x) = Ok sels ->
  yields (index_all x its) (irr x) (out_shape sels) (fun i => arr x (gather sels i)).
Proof.
  intros H Hl Es. unfold index_all.
  pose proof (np_index_features _ its li (lead x) [dim (irr x)] Hl eq_refl ltac:(discriminate) 0 eq_refl) as E. cbn [repeat] in E. rewrite app_nil_r in E.
  rewrite E, Es. cbn [rmap bind]. change (map full [dim (irr x)]) with [full (dim (irr x))].
  assert (Hs : sels_ok (lead x) sels) by (unfold np_index in Es; destruct (1 <? _); [discriminate|]; eapply resolve_ok, Es).
  destruct (rows_index_features (arr x) (lead x) (dim (irr x)) sels Hs (proj1 H)) as (a' & -> & Ha). cbn [bind].
  set (K := fun c => match chunk_index its c with Ok c' => c' | Err _ => c end).
  assert (Em : mapM_opt (mapM (mapM_opt (chunk_index its))) (chs x) = Ok (map_chunks K (chs x))).
  { destruct H as (_ & _ & C). destruct (chs x) as [cs|]; [|reflexivity]. cbn [mapM_opt map_chunks option_map]. apply chunks_ok_wf in C.
    enough (Q : mapM (mapM_opt (chunk_index its)) cs = Ok (map (option_map K) cs)) by (rewrite Q; reflexivity).
    revert C. generalize (irr x). intros y C. induction C as [|m c y cs Hc C IH]; [reflexivity|]. cbn [mapM map]. rewrite IH.
    destruct c as [c|]; [|reflexivity]. cbn [mapM_opt option_map]. unfold K.
    destruct (chunk_index_features _ its li (lead x) sels m c Hl eq_refl Es Hc) as (c' & -> & _). reflexivity. }
  rewrite Em. cbn [bind]. eapply yields_ext; [exact Ha|].
  apply (leadop_yields (lead x) (out_shape sels) (fun _ a i => a (gather sels i)) K); auto.
  - intros w a b i Hi Hab. apply Hab. apply (gather_valid _ _ Hs _ Hi).
  - intros w a i Hi La. apply La. apply (gather_valid _ _ Hs _ Hi).
  - intros c Hc. unfold K.
    (* shapes do not need well-formed values *)
    unfold chunk_index. rewrite Hc. rewrite (np_index_features _ its li (lead x) [c_mul c; c_dim c] Hl eq_refl ltac:(discriminate) 1 eq_refl : np_index (its ++ [colon]) _ = _).
    rewrite Es. cbn [rmap bind]. rewrite out_shape_app, out_shape_full.
    replace (out_shape sels ++ [c_mul c; c_dim c]) with ((out_shape sels ++ [c_mul c]) ++ [c_dim c]) by apply app_assoc_reverse.
    rewrite !removelast_app1, !last_app1. destruct ((out_shape sels ++ [c_mul c]) ++ [c_dim c]) as [|a [|b t]] eqn:E'.
    { destruct (out_shape sels); discriminate. }
    { destruct (out_shape sels) as [|? [|? ?]]; discriminate. }
    cbn. auto.
  - intros m c i W Hi. unfold K. destruct (chunk_index_features _ its li (lead x) sels m c Hl eq_refl Es W) as (c' & -> & _ & _ & _ & V). rewrite V by exact Hi.
    destruct W as (_ & _ & _ & W4). destruct (W4 _ (gather_valid _ _ Hs _ Hi)). auto.
Qed.

(* ---------- __getitem__ on leading axes ---------- *)
(* which index tuples reach x.array[index] *)
Lemma getitem_cases x f a y : ia_getitem x (f ++ [a]) = Some (Ok y) ->
  (index_all x (f ++ [a]) = Ok y /\ (has_ellipsis f = true \/ length f = length (lead x) -> is_ellipsis a || is_colon a || is_new a = true)) \/
  (exists sl z, a = ISlice sl /\ is_feature_slice a = true /\
     (has_ellipsis f = true \/ length f = length (lead x)) /\ ia_getslice x sl = Some (Ok z) /\ index_all z (f ++ [colon]) = Ok y).
Proof.
  unfold ia_getitem. destruct (f ++ [a]) as [|b0 l0] eqn:Efa; [destruct f; discriminate|]. rewrite <- Efa. clear Efa b0 l0.
  unfold last_item. rewrite removelast_app1, last_app1. fold (has_ellipsis f).
  replace (length (f ++ [a]) =? S (length (lead x))) with (length f =? length (lead x)) by (rewrite app_length; cbn; rewrite Nat.add_1_r; reflexivity).
  destruct (has_ellipsis f || (length f =? length (lead x))) eqn:Eg; cbn [andb].
  - destruct (is_feature_slice a) eqn:Ef.
    + destruct a as [|sl| |]; try discriminate. intros E. right. exists sl.
      destruct (ia_getslice x sl) as [[z|e]|] eqn:Es; try discriminate. injection E as E. exists z. repeat split; auto.
      apply orb_true_iff in Eg as [Eg|Eg]; [left; exact Eg|right; apply Nat.eqb_eq, Eg].
    + intros E. left. rewrite (orb_comm (length f =? length (lead x)) (has_ellipsis f)), Eg in E. cbn [andb] in E.
      destruct (((length f =? S (length (lead x))) || has_ellipsis f) && is_new a); [discriminate|].
      destruct (is_ellipsis a || is_colon a || is_new a) eqn:Ea; [|discriminate]. cbn in E. injection E as E. auto.
  - apply orb_false_iff in Eg as [Eg1 Eg2]. rewrite Eg1, Eg2. cbn [orb andb].
    destruct (((length f =? S (length (lead x))) || false) && is_new a); [discriminate|]. intros E. injection E as E. left. split; [exact E|].
    intros [H|H]; [discriminate|]. rewrite H, Nat.eqb_refl in Eg2. discriminate.
Qed.

Lemma consumed_all l : existsb is_new l = false -> has_ellipsis l = false -> consumed l = length l.
Proof.
  induction l as [|it l IH]; [reflexivity|]. intros H1 H2. cbn in H1, H2. apply orb_false_iff in H1 as [H1 H1'], H2 as [H2 H2'].
  rewrite consumed_cons, IH by assumption. destruct it; try discriminate; reflexivity.
Qed.
Lemma consumed_dots l : has_ellipsis l = true -> consumed l < length l.
Proof.
  induction l as [|it l IH]; [discriminate|]. intros H. cbn in H. rewrite consumed_cons. cbn [length]. destruct (is_ellipsis it) eqn:Ei.
  - destruct it; try discriminate. cbn [consumes Nat.add]. assert (Q : consumed l <= length l) by (clear; induction l as [|b l IH]; [reflexivity|]; rewrite consumed_cons; cbn [length]; destruct (consumes b); lia). lia.
  - cbn in H. apply IH in H. destruct (consumes it); lia.
Qed.
Lemma has_ellipsis_app1 f a : has_ellipsis (f ++ [a]) = has_ellipsis f || is_ellipsis a.
Proof. unfold has_ellipsis. rewrite existsb_app. cbn. rewrite orb_false_r. reflexivity. Qed.

(* a tuple without new axes and with at most ndim items that is accepted leaves the features alone,
   up to the explicit feature slice x[..., a:b] *)
Lemma guard_leaves x its y : ia_getitem x its = Some (Ok y) -> existsb is_new its = false -> length its <= S (length (lead x)) ->
  (exists li, leaves_features (length (lead x)) its li /\ index_all x its = Ok y) \/
  (exists front sl z, its = front ++ [ISlice sl] /\ is_feature_slice (ISlice sl) = true /\ ia_getslice x sl = Some (Ok z) /\
     leaves_features (length (lead x)) (front ++ [colon]) front /\ index_all z (front ++ [colon]) = Ok y).
Proof.
  intros E Hn Hl.
  assert (Hne : its <> []) by (intros ->; discriminate). destruct (exists_last Hne) as (f & a & ->). clear Hne.
  rewrite app_length in Hl. cbn in Hl. rewrite existsb_app in Hn. apply orb_false_iff in Hn as [Hf Ha]. cbn in Ha. rewrite orb_false_r in Ha.
  assert (Hcol : has_ellipsis f = true \/ length f = length (lead x) -> leaves_features (length (lead x)) (f ++ [colon]) f).
  { intros H. apply lf_colon. destruct (has_ellipsis f) eqn:Ee.
    - right. split; [reflexivity|]. pose proof (consumed_dots f Ee). lia.
    - left. split; [reflexivity|]. destruct H as [H|H]; [discriminate|]. rewrite consumed_all by assumption. exact H. }
  destruct (getitem_cases x f a y E) as [[Ei G]|(sl & z & -> & Hsl & Hfr & Eg & Ei)].
  - left. destruct (has_ellipsis f) eqn:Ee; [|destruct (Nat.eq_dec (length f) (length (lead x))) as [El|El]].
    + specialize (G (or_introl eq_refl)). rewrite Ha, orb_false_r in G. apply orb_true_iff in G as [G|G].
      * exfalso. unfold index_all, np_index in Ei. rewrite ellipsis_count_app in Ei. destruct a; try discriminate.
        assert (1 <= length (filter is_ellipsis f)). { clear -Ee. unfold has_ellipsis in Ee. apply existsb_exists in Ee as (b & Hb & Hb'). assert (In b (filter is_ellipsis f)) by (apply filter_In; auto). destruct (filter is_ellipsis f); [contradiction|cbn; lia]. }
        cbn [filter is_ellipsis length] in Ei. destruct (Nat.ltb_spec 1 (length (filter is_ellipsis f) + 1)); [discriminate|lia].
      * destruct a as [|[[|] [|] [|]]| |]; try discriminate. exists f. split; [apply Hcol; auto|exact Ei].
    + specialize (G (or_intror El)). rewrite Ha, orb_false_r in G. apply orb_true_iff in G as [G|G].
      * destruct a; try discriminate. exists f. split; [|exact Ei]. apply lf_dots; [exact Ee|]. rewrite consumed_all by assumption. lia.
      * destruct a as [|[[|] [|] [|]]| |]; try discriminate. exists f. split; [apply Hcol; auto|exact Ei].
    + destruct (is_ellipsis a) eqn:Ea.
      * destruct a; try discriminate. exists f. split; [|exact Ei]. apply lf_dots; [exact Ee|]. rewrite consumed_all by assumption. lia.
      * exists (f ++ [a]). split; [|exact Ei]. apply lf_short; [rewrite has_ellipsis_app1, Ee, Ea; reflexivity|].
        rewrite consumed_all; [rewrite app_length; cbn; lia| |rewrite has_ellipsis_app1, Ee, Ea; reflexivity]. rewrite existsb_app, Hf. cbn. rewrite Ha. reflexivity.
  - right. exists f, sl, z. auto 10.
Qed.
