(* stack, concatenate on a leading axis, where, indexed update. *)
From Coq Require Import Reals Lra.
From Verif Require Import PyBase PermModel PermProofs IrrepsModel IrrepsProofs IrrepsProofs2 ArrayModel ArrayProofs ArrayOps RechunkProofs SliceProofs ArithProofs LeadModel LeadProofs BlockProofs AxisProofs.
Open Scope nat_scope.

(* ---------- flags and chunks, entry by entry ---------- *)
Lemma flags_ok_iff s : forall x fl a, flags_ok s x fl a <-> length fl = length x /\
  forall k m, nth_error x k = Some m -> nth k fl false = true -> forall i, valid s i -> nth k (blocks x (a i)) [] = zero_row (mi_dim m).
Proof.
  induction x as [|m x IH]; intros [|f fl] a; cbn [flags_ok blocks length].
  - split; [intros _; split; [reflexivity|]|auto]. intros [|k] m; discriminate.
  - split; [contradiction|]. intros [E _]. discriminate.
  - split; [contradiction|]. intros [E _]. discriminate.
  - rewrite IH. split.
    + intros (H & L & H'). split; [lia|]. intros [|k] m' E Ef i Hi; cbn [nth_error nth] in *; [inversion E; subst; auto|eauto].
    + intros (L & H). split; [|split; [lia|]].
      * intros Ef i Hi. apply (H 0 m eq_refl Ef i Hi).
      * intros k m' E Ef i Hi. apply (H (S k) m' E Ef i Hi).
Qed.
Lemma chunks_ok_iff s : forall x fl cs a, chunks_ok s x fl cs a <-> length fl = length x /\ length cs = length x /\
  forall k m f c, nth_error x k = Some m -> nth_error fl k = Some f -> nth_error cs k = Some c -> chunk_ok s m f c (fun i => nth k (blocks x (a i)) []).
Proof.
  induction x as [|m x IH]; intros [|f fl] [|c cs] a; cbn [chunks_ok blocks length]; try (split; [contradiction|intros (E1 & E2 & _); discriminate]).
  - split; [intros _; split; [reflexivity|split; [reflexivity|]]|auto]. intros [|k] m; discriminate.
  - rewrite IH. split.
    + intros (H & L & L' & H'). split; [lia|]. split; [lia|]. intros [|k] m' f' c' E Ef Ec; cbn [nth_error nth] in *.
      * inversion E; inversion Ef; inversion Ec; subst. exact H.
      * apply (H' k); assumption.
    + intros (L & L' & H). split; [apply (H 0 m f c); reflexivity|]. split; [lia|]. split; [lia|].
      intros k m' f' c' E Ef Ec. apply (H (S k) m' f' c' E Ef Ec).
Qed.
Lemma chunk_ok_ext s m f c b b' : (forall i, valid s i -> b i = b' i) -> chunk_ok s m f c b -> chunk_ok s m f c b'.
Proof. destruct c; cbn [chunk_ok]; [|auto]. intros E (A & B & C). split; [exact A|]. split; [exact B|]. intros i Hi. rewrite C by exact Hi. auto. Qed.

(* ---------- assemble ---------- *)
Lemma all_flags_length n fls : length (all_flags n fls) = n.
Proof. unfold all_flags. rewrite map_length. apply seq_length. Qed.
Lemma all_flags_nth n fls k d : k < n -> nth k (all_flags n fls) d = forallb (fun fl => nth k fl true) fls.
Proof.
  intros H. unfold all_flags. rewrite (nth_indep _ d (forallb (fun fl => nth 0 fl true) fls)) by (rewrite map_length, seq_length; exact H).
  rewrite (map_nth (fun k => forallb (fun fl => nth k fl true) fls) (seq 0 n) 0). rewrite seq_nth by exact H. reflexivity.
Qed.
Lemma nth_error_enumerate {A} (l : list A) k a : nth_error (enumerate l) k = Some a <-> fst a = k /\ nth_error l k = Some (snd a).
Proof.
  unfold enumerate. rewrite nth_error_combine. destruct (nth_error l k) as [b|] eqn:E.
  - assert (k < length l) by (apply nth_error_Some; congruence). rewrite (nth_error_nth' _ 0) by (rewrite seq_length; assumption).
    rewrite seq_nth by assumption. destruct a as [j c]. cbn. split; [intros [= <- <-]; auto|intros [<- [= <-]]; reflexivity].
  - destruct (nth_error (seq 0 (length l)) k); split; try discriminate; intros [_ E']; discriminate.
Qed.

Lemma assemble_yields xs x s pick : xs <> [] -> Forall (fun y => coherent y /\ irr y = x) xs ->
  (forall i, valid s i -> fst (pick i) < length xs /\ valid (lead (nth (fst (pick i)) xs dflt_ia)) (snd (pick i))) ->
  yields (assemble xs s pick) x s (fun i => arr (nth (fst (pick i)) xs dflt_ia) (snd (pick i))).
Proof.
  intros Hne Hall Hp. unfold assemble. destruct xs as [|x0 xs']; [contradiction|]. cbn [hd]. set (xs := x0 :: xs') in *.
  assert (E0 : irr x0 = x) by (rewrite Forall_forall in Hall; apply (Hall x0 (or_introl eq_refl))). rewrite E0.
  assert (Ec : forallb (fun y => irreps_eqb (irr y) x) xs = true).
  { apply forallb_forall. intros y Hy. rewrite Forall_forall in Hall. destruct (Hall y Hy) as [_ ->]. apply irreps_eqb_refl. }
  rewrite Ec. cbn [negb].
  assert (Hn : forall i, valid s i -> coherent (nth (fst (pick i)) xs dflt_ia) /\ irr (nth (fst (pick i)) xs dflt_ia) = x).
  { intros i Hi. rewrite Forall_forall in Hall. apply Hall, nth_In, Hp, Hi. }
  set (fl := all_flags (length x) (map zero_flags xs)).
  assert (Lfl : length fl = length x) by apply all_flags_length.
  assert (Z : forall k m i, nth_error x k = Some m -> valid s i -> nth k (zero_flags (nth (fst (pick i)) xs dflt_ia)) true = true ->
    nth k (blocks x (arr (nth (fst (pick i)) xs dflt_ia) (snd (pick i)))) [] = zero_row (mi_dim m)).
  { intros k m i Em Hi Hk. destruct (Hn i Hi) as [Hc Ex]. set (y := nth (fst (pick i)) xs dflt_ia) in *.
    pose proof (zero_flags_length y Hc) as Lz. destruct Hc as (_ & Hf & _). rewrite Ex in Hf, Lz. apply flags_ok_iff in Hf as [_ Hf].
    apply (Hf k m Em); [|apply Hp, Hi]. rewrite (nth_indep _ false true); [exact Hk|]. rewrite Lz. apply nth_error_Some. congruence. }
  assert (Fk : forall k m i, nth_error x k = Some m -> nth k fl false = true -> valid s i -> nth k (zero_flags (nth (fst (pick i)) xs dflt_ia)) true = true).
  { intros k m i Em Ef Hi. assert (Hk : k < length x) by (apply nth_error_Some; congruence). unfold fl in Ef. rewrite all_flags_nth in Ef by exact Hk.
    rewrite forallb_forall in Ef. apply Ef. apply in_map, nth_In, Hp, Hi. }
  apply (yields_ext _ _ _ (fun i => let '(a, j) := pick i in arr (nth a xs dflt_ia) j)).
  { intros i _. destruct (pick i). reflexivity. }
  assert (Arr : forall i, (let '(a, j) := pick i in arr (nth a xs dflt_ia) j) = arr (nth (fst (pick i)) xs dflt_ia) (snd (pick i))) by (intros i; destruct (pick i); reflexivity).
  apply build_yields.
  - intros i Hi. rewrite Arr. destruct (Hn i Hi) as [Hc Ex]. rewrite <- Ex. apply Hc, Hp, Hi.
  - apply flags_ok_iff. split; [exact Lfl|]. intros k m Em Ef i Hi. rewrite Arr. apply Z; auto. apply (Fk k m); auto.
  - apply chunks_ok_iff. split; [exact Lfl|]. split; [unfold enumerate; rewrite map_length, !combine_length, seq_length, ?combine_length; lia|].
    intros k m f c Em Ef Ek. rewrite nth_error_map in Ek. destruct (nth_error (enumerate (combine x fl)) k) as [[k' [m' z]]|] eqn:En; [|discriminate].
    apply nth_error_enumerate in En as [Ek' En]. cbn [fst snd] in *. subst k'. rewrite nth_error_combine, Em, Ef in En. inversion En; subst m' z.
    injection Ek as <-. destruct f; cbn [chunk_ok]; [reflexivity|]. split; [reflexivity|].
    assert (Hv : forall i, valid s i -> length (c_val (pick_chunk s pick m (map (fun y => nth k (chunks y) None) xs)) i) = fst m /\
      Forall (fun r => length r = ir_dim (snd m)) (c_val (pick_chunk s pick m (map (fun y => nth k (chunks y) None) xs)) i) /\
      concat (c_val (pick_chunk s pick m (map (fun y => nth k (chunks y) None) xs)) i) = nth k (blocks x (arr (nth (fst (pick i)) xs dflt_ia) (snd (pick i)))) []).
    { intros i Hi. cbn [pick_chunk c_val]. specialize (Hp i Hi). specialize (Hn i Hi). specialize (Z k m i Em Hi). destruct (pick i) as [a j]. cbn [fst snd] in *.
      rewrite (nth_indep _ None (nth k (chunks dflt_ia) None)) by (rewrite map_length; apply Hp). rewrite (map_nth (fun y => nth k (chunks y) None)).
      destruct Hn as [Hc Ex]. set (y := nth a xs dflt_ia) in *. pose proof (chunks_chunks_ok y Hc) as Ck. rewrite Ex in Ck.
      pose proof (zero_flags_length y Hc) as Lz. rewrite Ex in Lz.
      apply chunks_ok_iff in Ck as (L1 & L2 & Ck). assert (Hk : k < length x) by (apply nth_error_Some; congruence).
      assert (K1 : nth_error (zero_flags y) k = Some (nth k (zero_flags y) true)) by (apply nth_error_nth'; lia).
      assert (K2 : nth_error (chunks y) k = Some (nth k (chunks y) None)) by (apply nth_error_nth'; lia).
      specialize (Ck k m _ _ Em K1 K2).
      destruct (nth k (chunks y) None) as [c|]; cbn [chunk_ok] in Ck.
      - destruct Ck as (_ & (_ & _ & _ & W) & E). destruct (W j (proj2 Hp)). split; [assumption|]. split; [assumption|]. apply E, Hp.
      - rewrite zeros_rows_length. split; [reflexivity|]. split; [apply zeros_rows_widths|]. rewrite concat_zeros, (Z Ck). reflexivity. }
    split; [repeat split; try reflexivity; apply Hv; assumption|]. intros i Hi. rewrite Arr. apply Hv, Hi.
Qed.
Lemma assemble_rejects xs s pick : forallb (fun x => irreps_eqb (irr x) (irr (hd dflt_ia xs))) xs = false -> assemble xs s pick = Err ValueError.
Proof. intros E. unfold assemble. rewrite E. reflexivity. Qed.

(* ---------- stack ---------- *)
Lemma valid_insert_inv : forall k n s i, k <= length s -> valid (insert_at k n s) i -> nth k i 0 < n /\ valid s (remove_at k i).
Proof.
  unfold insert_at, remove_at, valid. induction k as [|k IH]; intros n s i Hk V.
  - cbn [firstn skipn app] in *. inversion V; subst. cbn [nth skipn firstn app]. split; assumption.
  - destruct s as [|d s]; [cbn in Hk; lia|]. cbn [firstn skipn app] in V. inversion V as [|j ? i' ? Hj V']; subst.
    cbn [length] in Hk. destruct (IH n s i' ltac:(lia) V') as [A B]. cbn [nth firstn skipn app]. split; [exact A|]. constructor; assumption.
Qed.
Lemma insert_remove : forall {A} k (i : list A) d, k < length i -> insert_at k (nth k i d) (remove_at k i) = i.
Proof.
  unfold insert_at, remove_at. induction k as [|k IH]; intros [|a i] d H; cbn [length] in H; try lia; [reflexivity|].
  cbn [firstn skipn app nth]. f_equal. apply IH. lia.
Qed.
Lemma remove_insert : forall {A} k (a : A) i, k <= length i -> remove_at k (insert_at k a i) = i.
Proof.
  unfold insert_at, remove_at. induction k as [|k IH]; intros a [|b i] H; cbn [length] in H; try lia; try reflexivity.
  cbn [firstn skipn app]. f_equal. apply IH. lia.
Qed.
Lemma nth_insert : forall {A} k (a : A) i d, k <= length i -> nth k (insert_at k a i) d = a.
Proof.
  unfold insert_at. induction k as [|k IH]; intros a [|b i] d H; cbn [length] in H; try lia; try reflexivity.
  cbn [firstn skipn app nth]. apply IH. lia.
Qed.
Lemma valid_insert k n s i a : k <= length s -> valid s i -> a < n -> valid (insert_at k n s) (insert_at k a i).
Proof.
  unfold insert_at, valid. revert s i. induction k as [|k IH]; intros s i Hk V Ha; [cbn [firstn skipn app]; constructor; assumption|].
  destruct s as [|d s]; [cbn in Hk; lia|]. inversion V; subst. cbn [firstn skipn app]. constructor; [assumption|]. apply IH; auto. cbn in Hk. lia.
Qed.
Lemma stack_yields xs x s axis k : xs <> [] -> Forall (fun y => coherent y /\ irr y = x /\ lead y = s) xs ->
  standard_axis axis (S (S (length s))) = Ok k -> k <= length s ->
  yields (stack xs axis) x (insert_at k (length xs) s) (fun i => arr (nth (nth k i 0) xs dflt_ia) (remove_at k i)).
Proof.
  intros Hne Hall Hk Hle. unfold stack. destruct xs as [|x0 xs']; [contradiction|]. set (xs := x0 :: xs') in *.
  assert (E0 : lead x0 = s) by (rewrite Forall_forall in Hall; apply (Hall x0 (or_introl eq_refl))). rewrite E0, Hk. cbn [bind].
  replace (k =? S (length s)) with false by (symmetry; apply Nat.eqb_neq; lia).
  assert (Ec : forallb (fun y => shape_eqb (lead y) s) xs = true).
  { apply forallb_forall. intros y Hy. rewrite Forall_forall in Hall. apply shape_eqb_eq, Hall, Hy. }
  rewrite Ec. cbn [negb]. apply (assemble_yields xs x (insert_at k (length xs) s) (fun i => (nth k i 0, remove_at k i))); [exact Hne| |].
  - eapply Forall_impl; [|exact Hall]. cbv beta. tauto.
  - intros i Hi. cbn [fst snd]. apply valid_insert_inv in Hi as [A B]; [|exact Hle]. split; [exact A|].
    assert (L : lead (nth (nth k i 0) xs dflt_ia) = s) by (rewrite Forall_forall in Hall; apply Hall, nth_In, A). rewrite L. exact B.
Qed.

(* ---------- concatenate on a leading axis ---------- *)
Lemma locate_spec : forall sizes p a q, locate sizes p = (a, q) -> p < sum sizes ->
  a < length sizes /\ q < nth a sizes 0 /\ p = sum (firstn a sizes) + q.
Proof.
  induction sizes as [|n sizes IH]; intros p a q; cbn [locate].
  - cbn. lia.
  - change (sum (n :: sizes)) with (n + sum sizes). destruct (Nat.ltb_spec p n) as [H|H].
    + intros [= <- <-] _. cbn. lia.
    + destruct (locate sizes (p - n)) as [a' q'] eqn:E. intros [= <- <-] Hp. destruct (IH _ _ _ E ltac:(lia)) as (A & B & C).
      cbn [length nth firstn]. change (sum (n :: firstn a' sizes)) with (n + sum (firstn a' sizes)). lia.
Qed.
Lemma locate_at : forall sizes a q, a < length sizes -> q < nth a sizes 0 -> locate sizes (sum (firstn a sizes) + q) = (a, q).
Proof.
  induction sizes as [|n sizes IH]; intros [|a] q Ha Hq; cbn [length nth] in *; try lia; cbn [locate firstn].
  - change (sum [] + q) with q. destruct (Nat.ltb_spec q n); [reflexivity|lia].
  - change (sum (n :: firstn a sizes)) with (n + sum (firstn a sizes)). destruct (Nat.ltb_spec (n + sum (firstn a sizes) + q) n); [lia|].
    replace (n + sum (firstn a sizes) + q - n) with (sum (firstn a sizes) + q) by lia. rewrite IH; [reflexivity|lia|exact Hq].
Qed.
(* s with entry k replaced *)
Definition replace_at {A} (k : nat) (a : A) (s : list A) : list A := firstn k s ++ a :: skipn (S k) s.
Lemma valid_replace k n m s i a : k < length s -> valid (replace_at k n s) i -> a < m -> valid (replace_at k m s) (replace_at k a i) /\ nth k i 0 < n.
Proof.
  unfold replace_at, valid. revert s i. induction k as [|k IH]; intros [|d s] i Hk V Ha; cbn [length] in Hk; try lia.
  - cbn [firstn skipn app] in *. inversion V; subst. cbn [firstn skipn app nth]. split; [constructor|]; assumption.
  - change (firstn (S k) (d :: s)) with (d :: firstn k s) in *. change (skipn (S (S k)) (d :: s)) with (skipn (S k) s) in *.
    cbn [app] in V. inversion V as [|j ? i' ? Hj V']; subst. destruct (IH s i' ltac:(lia) V' Ha) as [A B].
    change (firstn (S k) (j :: i')) with (j :: firstn k i'). change (skipn (S (S k)) (j :: i')) with (skipn (S k) i').
    cbn [app nth]. split; [constructor; assumption|exact B].
Qed.
Lemma replace_remove {A} k (s t : list A) d : k < length t -> length s = length t -> remove_at k s = remove_at k t -> s = replace_at k (nth k s d) t.
Proof.
  unfold remove_at, replace_at. revert s t. induction k as [|k IH]; intros [|a s] [|b t] Hk L E; cbn [length] in *; try lia.
  - cbn [firstn skipn app nth] in *. congruence.
  - change (firstn (S k) (a :: s)) with (a :: firstn k s) in *. change (skipn (S (S k)) (a :: s)) with (skipn (S k) s) in *.
    change (firstn (S k) (b :: t)) with (b :: firstn k t) in *. change (skipn (S (S k)) (b :: t)) with (skipn (S k) t) in *.
    cbn [app nth] in *. inversion E; subst. f_equal. apply IH; [lia|lia|assumption].
Qed.
Definition sizes_at (k : nat) (xs : list iarray) : list nat := map (fun x => nth k (lead x) 0) xs.
Lemma concatenate_yields xs x s axis k : xs <> [] ->
  Forall (fun y => coherent y /\ irr y = x /\ length (lead y) = S (length s) /\ remove_at k (lead y) = s) xs ->
  standard_axis axis (S (S (length s))) = Ok k -> k <= length s ->
  yields (concatenate xs axis) x (insert_at k (sum (sizes_at k xs)) s)
    (fun i => let '(a, q) := locate (sizes_at k xs) (nth k i 0) in arr (nth a xs dflt_ia) (replace_at k q i)).
Proof.
  intros Hne Hall Hk Hle. unfold concatenate. destruct xs as [|x0 xs']; [contradiction|]. set (xs := x0 :: xs') in *.
  assert (H0 : coherent x0 /\ irr x0 = x /\ length (lead x0) = S (length s) /\ remove_at k (lead x0) = s) by (rewrite Forall_forall in Hall; apply (Hall x0 (or_introl eq_refl))).
  destruct H0 as (_ & _ & L0 & E0). rewrite L0, Hk. cbn [bind].
  replace (k =? S (length s)) with false by (symmetry; apply Nat.eqb_neq; lia).
  assert (Ec : forallb (fun y => shape_eqb (remove_at k (lead y)) (remove_at k (lead x0)) && (length (lead y) =? S (length s))) xs = true).
  { apply forallb_forall. intros y Hy. rewrite Forall_forall in Hall. destruct (Hall y Hy) as (_ & _ & L & E). apply andb_true_iff. split.
    - apply shape_eqb_eq. congruence.
    - apply Nat.eqb_eq, L. }
  rewrite Ec. cbn [negb]. fold (sizes_at k xs). set (sz := sizes_at k xs).
  assert (Sh : firstn k (lead x0) ++ sum sz :: skipn (S k) (lead x0) = insert_at k (sum sz) s).
  { rewrite <- E0. unfold insert_at, remove_at. rewrite firstn_app, skipn_app, firstn_firstn, firstn_length, Nat.min_id.
    replace (k - Nat.min k (length (lead x0))) with 0 by lia. rewrite (skipn_all2 (firstn k (lead x0))) by (rewrite firstn_length; lia).
    cbn [firstn skipn app]. rewrite app_nil_r. reflexivity. }
  rewrite Sh.
  apply (yields_ext _ _ _ (fun i => arr (nth (fst (let '(a, q) := locate sz (nth k i 0) in (a, firstn k i ++ q :: skipn (S k) i))) xs dflt_ia)
     (snd (let '(a, q) := locate sz (nth k i 0) in (a, firstn k i ++ q :: skipn (S k) i))))).
  { intros i _. destruct (locate sz (nth k i 0)). reflexivity. }
  apply (assemble_yields xs x); [exact Hne| |].
  - eapply Forall_impl; [|exact Hall]. cbv beta. tauto.
  - intros i Hi. rewrite <- Sh in Hi. assert (Hb : nth k i 0 < sum sz) by (rewrite Sh in Hi; apply valid_insert_inv in Hi; [apply Hi|exact Hle]).
    destruct (locate sz (nth k i 0)) as [a q] eqn:El. cbn [fst snd]. destruct (locate_spec _ _ _ _ El Hb) as (A & B & _).
    unfold sz, sizes_at in A. rewrite map_length in A. split; [exact A|].
    assert (Hy : In (nth a xs dflt_ia) xs) by (apply nth_In, A). rewrite Forall_forall in Hall. destruct (Hall _ Hy) as (_ & _ & L & E).
    rewrite (replace_remove k (lead (nth a xs dflt_ia)) (lead x0) 0); [|lia|lia|congruence].
    apply (valid_replace k (sum sz)); [lia|exact Hi|]. unfold sz, sizes_at in B.
    rewrite (nth_indep _ 0 (nth k (lead dflt_ia) 0)) in B by (rewrite map_length; exact A). rewrite (map_nth (fun x => nth k (lead x) 0)) in B. exact B.
Qed.

(* ---------- where ---------- *)
Lemma where_yields sm mask x y s : coherent x -> coherent y -> irr x = irr y -> lead x = lead y -> broadcast_shapes sm (lead x) = Ok s ->
  yields (where_ sm mask x y) (irr x) s
    (fun i => if mask (bidx sm i) then arr x (bidx (lead x) i) else arr y (bidx (lead x) i)).
Proof.
  intros Hx Hy Ei El Hs. unfold where_. rewrite <- Ei, <- El, irreps_eqb_refl. cbn [negb].
  rewrite (proj2 (shape_eqb_eq (lead x) (lead x)) eq_refl). cbn [negb]. rewrite Hs. cbn [bind].
  assert (B : forall i, valid s i -> valid (lead x) (bidx (lead x) i)) by (intros i Hi; apply (broadcast_valid _ _ _ _ Hs Hi)).
  pose proof (zero_flags_length x Hx) as Lx. pose proof (zero_flags_length y Hy) as Ly. rewrite <- Ei in Ly.
  pose proof (chunks_length x Hx) as Cx. pose proof (chunks_length y Hy) as Cy. rewrite <- Ei in Cy.
  assert (Lf : length (and_flags (zero_flags x) (zero_flags y)) = length (irr x)) by (rewrite and_flags_length; lia).
  pose proof (chunks_chunks_ok x Hx) as Kx. pose proof (chunks_chunks_ok y Hy) as Ky. rewrite <- Ei, <- El in Ky.
  pose proof Hx as (Ax & Fx & _). pose proof Hy as (Ay & Fy & _). rewrite <- Ei, <- El in Ay, Fy.
  apply flags_ok_iff in Fx as [_ Fx]. apply flags_ok_iff in Fy as [_ Fy]. apply chunks_ok_iff in Kx as (_ & _ & Kx). apply chunks_ok_iff in Ky as (_ & _ & Ky).
  assert (Nf : forall k, nth_error (and_flags (zero_flags x) (zero_flags y)) k = match nth_error (zero_flags x) k, nth_error (zero_flags y) k with Some f, Some g => Some (f && g) | _, _ => None end).
  { intros k. unfold and_flags. rewrite nth_error_map, nth_error_combine. destruct (nth_error (zero_flags x) k); [|reflexivity]. destruct (nth_error (zero_flags y) k); reflexivity. }
  apply build_yields.
  - intros i Hi. destruct (mask (bidx sm i)); auto.
  - apply flags_ok_iff. split; [exact Lf|]. intros k m Em Ef i Hi.
    assert (Hk : k < length (irr x)) by (apply nth_error_Some; congruence).
    assert (Ef' : nth_error (and_flags (zero_flags x) (zero_flags y)) k = Some true) by (rewrite <- Ef; apply nth_error_nth'; lia).
    rewrite Nf in Ef'. destruct (nth_error (zero_flags x) k) as [f|] eqn:F1; [|discriminate]. destruct (nth_error (zero_flags y) k) as [g|] eqn:F2; [|discriminate].
    injection Ef' as Efg. apply andb_true_iff in Efg as [-> ->]. apply (nth_error_nth _ _ false) in F1. apply (nth_error_nth _ _ false) in F2.
    destruct (mask (bidx sm i)); [apply (Fx k m)|apply (Fy k m)]; auto.
  - apply chunks_ok_iff. split; [exact Lf|]. split; [rewrite map_length, !combine_length; lia|]. intros k m h e Em Ef Ee.
    rewrite Nf in Ef. rewrite nth_error_map, !nth_error_combine, Em in Ee.
    destruct (nth_error (zero_flags x) k) as [f|] eqn:F1; [|discriminate]. destruct (nth_error (zero_flags y) k) as [g|] eqn:F2; [|discriminate].
    destruct (nth_error (chunks x) k) as [c|] eqn:C1; [|discriminate]. destruct (nth_error (chunks y) k) as [d|] eqn:C2; [|discriminate].
    injection Ef as <-. injection Ee as <-. specialize (Kx k m f c Em F1 C1). specialize (Ky k m g d Em F2 C2).
    apply (nth_error_nth _ _ false) in F1. apply (nth_error_nth _ _ false) in F2.
    destruct c as [c|], d as [d|]; cbn [where_chunk chunk_ok] in *.
    + destruct Kx as (-> & (L1 & M1 & D1 & W1) & E1), Ky as (-> & (L2 & M2 & D2 & W2) & E2). rewrite L1, L2.
      split; [reflexivity|]. split; [unfold wf_chunk; cbn [c_lead c_mul c_dim c_val]; repeat split; try assumption; destruct (mask (bidx sm i)); (apply W1 || apply W2); auto|].
      intros i Hi. cbn [c_val]. destruct (mask (bidx sm i)); auto.
    + subst g. destruct Kx as (-> & (L1 & M1 & D1 & W1) & E1). rewrite L1.
      split; [reflexivity|]. split; [unfold wf_chunk; cbn [c_lead c_mul c_dim c_val]; repeat split; try assumption; (destruct (mask (bidx sm i)); [apply W1; auto|])|].
      * apply zeros_rows_length.
      * apply zeros_rows_widths.
      * intros i Hi. cbn [c_val]. destruct (mask (bidx sm i)); auto. rewrite concat_zeros. symmetry. apply (Fy k m Em F2). auto.
    + subst f. destruct Ky as (-> & (L2 & M2 & D2 & W2) & E2). rewrite L2.
      split; [reflexivity|]. split; [unfold wf_chunk; cbn [c_lead c_mul c_dim c_val]; repeat split; try assumption; (destruct (mask (bidx sm i)); [|apply W2; auto])|].
      * apply zeros_rows_length.
      * apply zeros_rows_widths.
      * intros i Hi. cbn [c_val]. destruct (mask (bidx sm i)); auto. rewrite concat_zeros. symmetry. apply (Fx k m Em F1). auto.
    + subst f g. reflexivity.
Qed.

(* ---------- indexed update ---------- *)
Definition step_ok (s : sel) : Prop := match s with SRange _ st _ => st <> 0%Z | _ => True end.
Lemma full_step s : Forall step_ok (map full s).
Proof. apply Forall_map, Forall_forall. intros d _. cbn. lia. Qed.
Lemma sel_of_step d it s : sel_of d it = Ok s -> step_ok s.
Proof.
  destruct it; cbn [sel_of]; try discriminate.
  - destruct (_ && _)%bool; [|discriminate]. intros [= <-]. exact I.
  - destruct (slice_indices sl d) as [[[a b] st]|] eqn:E; [|discriminate]. cbn [bind]. intros [= <-]. cbn. apply (slice_indices_range _ _ _ _ _ E).
Qed.
Lemma resolve_step : forall its sh l, resolve its sh = Ok l -> Forall step_ok l.
Proof.
  induction its as [|it its IH]; intros sh l E; [injection E as <-; apply full_step|]. destruct it; cbn [resolve] in E.
  - destruct sh as [|d sh]; [discriminate|]. destruct (sel_of d (IInt z)) as [a|] eqn:Ea; [|discriminate]. cbn [bind] in E. destruct (resolve its sh) eqn:Er; [|discriminate]. injection E as <-.
    constructor; [eapply sel_of_step, Ea|eauto].
  - destruct sh as [|d sh]; [discriminate|]. destruct (sel_of d (ISlice sl)) as [a|] eqn:Ea; [|discriminate]. cbn [bind] in E. destruct (resolve its sh) eqn:Er; [|discriminate]. injection E as <-.
    constructor; [eapply sel_of_step, Ea|eauto].
  - destruct (resolve its sh) eqn:Er; [|discriminate]. injection E as <-. constructor; [exact I|eauto].
  - destruct (resolve its (skipn (length sh - consumed its) sh)) eqn:Er; [|discriminate]. injection E as <-.
    apply Forall_app. split; [apply full_step|eauto].
Qed.
Lemma gather_inj s l : sels_ok s l -> Forall step_ok l -> forall i j, valid (out_shape l) i -> valid (out_shape l) j -> gather l i = gather l j -> i = j.
Proof.
  unfold valid. induction 1 as [|s l H IH|d s a l Ha H IH]; intros St i j Vi Vj E.
  - cbn in *. inversion Vi; inversion Vj; reflexivity.
  - inversion St; subst. cbn in *. inversion Vi; inversion Vj; subst. cbn in E. f_equal; [lia|auto].
  - inversion St as [|? ? Sa St']; subst. destruct a; cbn [out_shape gather step_ok sel_ok] in *.
    + injection E as E. auto.
    + inversion Vi as [|k ? i' ? Hk V']; inversion Vj as [|k' ? j' ? Hk' V'']; subst. cbn [hd tl] in E. injection E as E E'.
      f_equal; [|auto]. pose proof (Ha k Hk). pose proof (Ha k' Hk'). apply Z2Nat.inj in E; [|lia|lia]. nia.
    + contradiction.
Qed.
Lemma all_idx_valid : forall s i, In i (all_idx s) <-> valid s i.
Proof.
  unfold valid. induction s as [|d s IH]; intros i; cbn [all_idx].
  - split; [intros [<-|[]]; constructor|intros V; inversion V; left; reflexivity].
  - rewrite in_flat_map. split.
    + intros (k & Hk & Hi). apply in_map_iff in Hi as (j & <- & Hj). apply in_seq in Hk. constructor; [lia|]. apply IH, Hj.
    + intros V. inversion V as [|k ? j ? Hk Hj]; subst. exists k. split; [apply in_seq; lia|]. apply in_map, IH, Hj.
Qed.
(* the value at an addressed position, and elsewhere *)
Lemma at_rows_addressed upd sels a v s o : sels_ok s sels -> Forall step_ok sels -> valid (out_shape sels) o ->
  at_rows upd sels a v (gather sels o) = upd (a (gather sels o)) (v o).
Proof.
  intros Hs St Ho. unfold at_rows. destruct (find _ _) as [o'|] eqn:E.
  - apply find_some in E as [E1 E2]. apply list_eqb_eq in E2. apply all_idx_valid in E1. apply (gather_inj s) in E2; auto. subst. reflexivity.
  - exfalso. pose proof (find_none _ _ E o (proj2 (all_idx_valid _ _) Ho)) as F. cbv beta in F.
    assert (T : list_eqb (gather sels o) (gather sels o) = true) by (apply list_eqb_eq; reflexivity). congruence.
Qed.
Lemma at_rows_elsewhere upd sels a v j : (forall o, valid (out_shape sels) o -> gather sels o <> j) -> at_rows upd sels a v j = a j.
Proof.
  intros H. unfold at_rows. destruct (find _ _) as [o'|] eqn:E; [|reflexivity]. apply find_some in E as [E1 E2].
  apply list_eqb_eq in E2. apply all_idx_valid in E1. destruct (H o' E1 E2).
Qed.
Lemma at_rows_cases upd sels a v j : at_rows upd sels a v j = a j \/ exists o, valid (out_shape sels) o /\ gather sels o = j /\ at_rows upd sels a v j = upd (a j) (v o).
Proof.
  unfold at_rows. destruct (find _ _) as [o'|] eqn:E; [|left; reflexivity]. right. apply find_some in E as [E1 E2]. apply list_eqb_eq in E2. apply all_idx_valid in E1. eauto.
Qed.
Lemma np_index_resolve its sh l : np_index its sh = Ok l -> resolve its sh = Ok l.
Proof. unfold np_index. destruct (1 <? _); [discriminate|auto]. Qed.
Lemma blocks_zero : forall x k m, nth_error x k = Some m -> nth k (blocks x (zero_row (dim x))) [] = zero_row (mi_dim m).
Proof.
  induction x as [|m' x IH]; intros [|k] m E; try discriminate.
  - injection E as ->. cbn [blocks nth]. rewrite dim_cons. apply firstn_repeat.
  - cbn [blocks nth]. rewrite dim_cons. unfold zero_row at 1. rewrite skipn_repeat. apply IH, E.
Qed.
Lemma at_set_zero_yields x its li sels : coherent x -> at_lead_items (S (length (lead x))) its = Ok li -> np_index li (lead x) = Ok sels ->
  yields (at_set_zero x its) (irr x) (lead x) (at_rows (fun _ v => v) sels (arr x) (fun _ => zero_row (dim (irr x)))).
Proof.
  intros H Hl Hs. unfold at_set_zero. rewrite Hl. cbn [bind]. rewrite Hs. cbn [bind].
  pose proof H as (L & F & _). apply build_yields; [| |exact I].
  - intros i Hi. destruct (at_rows_cases (fun _ v => v) sels (arr x) (fun _ => zero_row (dim (irr x))) i) as [->|(o & _ & _ & ->)]; [auto|apply repeat_length].
  - apply flags_ok_iff. split; [apply zero_flags_length, H|]. intros k m Em Ef i Hi. apply flags_ok_iff in F as [_ F].
    destruct (at_rows_cases (fun _ v => v) sels (arr x) (fun _ => zero_row (dim (irr x))) i) as [->|(o & _ & _ & ->)]; [eauto|apply blocks_zero, Em].
Qed.
Lemma and_flags_true a b k : length a = length b -> nth k (and_flags a b) false = true -> nth k a false = true /\ nth k b false = true.
Proof.
  revert b k. induction a as [|f a IH]; intros [|g b] k L E; cbn [length] in L; try discriminate; [destruct k; discriminate|].
  destruct k; cbn [and_flags combine map nth] in *; [apply andb_true_iff, E|]. apply IH; [lia|exact E].
Qed.
Lemma zipR_block f x : forall k (a b : list R), nth k (blocks x (zipR f a b)) [] = zipR f (nth k (blocks x a) []) (nth k (blocks x b) []).
Proof.
  induction x as [|m x IH]; intros [|k] a b; cbn [blocks nth]; try reflexivity; [apply zipR_firstn|]. rewrite zipR_skipn. apply IH.
Qed.
Lemma at_update_yields upd x its v li sels : coherent x -> coherent v -> simplify (irr v) = simplify (irr x) ->
  at_lead_items (S (length (lead x))) its = Ok li -> np_index li (lead x) = Ok sels ->
  broadcast_shapes (lead v) (out_shape sels) = Ok (out_shape sels) ->
  (upd = (fun _ v => v) \/ upd = zipR Rplus) ->
  yields (at_update upd x its v) (irr x) (lead x) (at_rows upd sels (arr x) (fun o => arr v (bidx (lead v) o))).
Proof.
  intros H Hv Es Hl Hs Hb Hu. unfold at_update. rewrite Hl. cbn [bind]. rewrite Es, irreps_eqb_refl. cbn [negb].
  destruct (rechunk_yields v (irr x) Hv Es) as (w & -> & W1 & W2 & Hw & Wa). cbn [bind]. rewrite Hs. cbn [bind]. rewrite W2, Hb. cbn [bind].
  rewrite (proj2 (shape_eqb_eq _ _) eq_refl). cbn [negb].
  pose proof H as (L & F & _). pose proof Hw as (L' & F' & _). rewrite W1 in *. rewrite W2 in *.
  assert (Bv : forall o, valid (out_shape sels) o -> valid (lead v) (bidx (lead v) o)) by (intros o Ho; apply (broadcast_valid _ _ _ _ Hb Ho)).
  assert (Ex : forall i, at_rows upd sels (arr x) (fun o => arr w (bidx (lead v) o)) i = at_rows upd sels (arr x) (fun o => arr v (bidx (lead v) o)) i).
  { intros i. unfold at_rows. destruct (find _ _) as [o'|] eqn:E; [|reflexivity]. apply find_some in E as [E1 _]. apply all_idx_valid in E1. rewrite Wa by auto. reflexivity. }
  apply (yields_ext _ _ _ (at_rows upd sels (arr x) (fun o => arr w (bidx (lead v) o)))); [intros i _; apply Ex|].
  pose proof (zero_flags_length x H) as Z1. pose proof (zero_flags_length w Hw) as Z2. rewrite W1 in Z2.
  apply build_yields; [| |exact I].
  - intros i Hi. destruct (at_rows_cases upd sels (arr x) (fun o => arr w (bidx (lead v) o)) i) as [->|(o & Ho & Eo & ->)]; [auto|].
    destruct Hu as [-> | ->]; [auto|]. rewrite zipR_length, L, L' by auto. apply Nat.min_id.
  - apply flags_ok_iff. split; [rewrite and_flags_length; lia|]. intros k m Em Ef i Hi.
    apply and_flags_true in Ef as [E1 E2]; [|lia]. apply flags_ok_iff in F as [_ F]. apply flags_ok_iff in F' as [_ F'].
    destruct (at_rows_cases upd sels (arr x) (fun o => arr w (bidx (lead v) o)) i) as [->|(o & Ho & Eo & ->)]; [eauto|].
    destruct Hu as [-> | ->]; [eauto|]. rewrite zipR_block, (F k m), (F' k m) by auto. apply zipR_zero_lr. lra.
Qed.
