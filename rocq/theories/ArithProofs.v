(* Elementwise arithmetic of IrrepsArray with numpy broadcasting of the leading axes. *)
From Coq Require Import Reals Permutation Lra.
From Verif Require Import PyBase PermModel PermProofs IrrepsModel IrrepsProofs IrrepsProofs2 ArrayModel ArrayProofs ArrayOps RechunkProofs.
Open Scope nat_scope.

(* ---------- broadcasting ---------- *)
Lemma Forall2_rev {A B} (P : A -> B -> Prop) l l' : Forall2 P l l' -> Forall2 P (rev l) (rev l').
Proof. induction 1; cbn; [constructor|]. apply Forall2_app; [assumption|]. constructor; [assumption|constructor]. Qed.
Lemma bdim_spec a b d : bdim a b = Ok d -> (a = 1 \/ a = d) /\ (b = 1 \/ b = d).
Proof.
  unfold bdim. destruct (Nat.eqb_spec a b); [intros E; injection E as <-; auto|]. destruct (Nat.eqb_spec a 1); [intros E; injection E as <-; auto|].
  destruct (Nat.eqb_spec b 1); [intros E; injection E as <-; auto|discriminate].
Qed.
Lemma bshape_rev_valid : forall s t r i, bshape_rev s t = Ok r -> Forall2 lt i r -> Forall2 lt (bidx_rev s i) s /\ Forall2 lt (bidx_rev t i) t.
Proof.
  induction s as [|a s IH]; intros t r i E V.
  - cbn in E. injection E as <-. split; [constructor|]. revert i V. induction t as [|b t IHt]; intros i V; inversion V as [|k ? i' ? Hk V']; subst; constructor.
    + destruct (Nat.eqb_spec b 1); lia.
    + apply IHt. assumption.
  - destruct t as [|b t].
    + cbn in E. injection E as <-. split; [|constructor]. inversion V as [|k ? i' ? Hk V']; subst. constructor.
      * destruct (Nat.eqb_spec a 1); lia.
      * apply (IH [] s i'); [destruct s; reflexivity|assumption].
    + cbn in E. destruct (bdim a b) as [d|] eqn:Ed; [|discriminate]. destruct (bshape_rev s t) as [r'|] eqn:Er; [|discriminate]. cbn in E. injection E as <-.
      inversion V as [|k ? i' ? Hk V']; subst. destruct (bdim_spec _ _ _ Ed) as [Ha Hb]. destruct (IH t r' i' Er V') as [I1 I2].
      split; constructor; try assumption; cbn; [destruct (Nat.eqb_spec a 1)|destruct (Nat.eqb_spec b 1)]; lia.
Qed.
Lemma broadcast_valid s t r i : broadcast_shapes s t = Ok r -> valid r i -> valid s (bidx s i) /\ valid t (bidx t i).
Proof.
  unfold broadcast_shapes, valid, bidx. destruct (bshape_rev (rev s) (rev t)) as [q|] eqn:E; [|discriminate]. cbn. intros H V. injection H as <-.
  assert (V' : Forall2 lt (rev i) q) by (apply Forall2_rev in V; rewrite rev_involutive in V; exact V).
  destruct (bshape_rev_valid _ _ _ _ E V') as [H1 H2]. apply Forall2_rev in H1, H2. rewrite rev_involutive in H1, H2. split; assumption.
Qed.
Lemma bidx_id s i : valid s i -> bidx s i = i.
Proof.
  unfold valid, bidx. intros V. apply Forall2_rev in V. rewrite <- (rev_involutive i) at 2. f_equal. revert V. generalize (rev i) (rev s). intros j t V.
  induction V as [|k a j t Hk V IH]; [reflexivity|]. cbn. rewrite IH. f_equal. destruct (Nat.eqb_spec a 1); lia.
Qed.
Lemma broadcast_refl s : broadcast_shapes s s = Ok s.
Proof.
  unfold broadcast_shapes. assert (H : bshape_rev (rev s) (rev s) = Ok (rev s)).
  { generalize (rev s). intros t. induction t as [|a t IH]; [reflexivity|]. cbn. unfold bdim. rewrite Nat.eqb_refl. cbn. rewrite IH. reflexivity. }
  rewrite H. cbn. rewrite rev_involutive. reflexivity.
Qed.
Lemma broadcast_nil s : broadcast_shapes s [] = Ok s.
Proof. unfold broadcast_shapes. cbn. destruct (rev s) eqn:E; cbn; rewrite <- (rev_involutive s), E; reflexivity. Qed.

(* ---------- zip ---------- *)
Lemma zipR_length f a b : length (zipR f a b) = Nat.min (length a) (length b).
Proof. unfold zipR. rewrite map_length, combine_length. reflexivity. Qed.
Lemma zipR_firstn f a b k : firstn k (zipR f a b) = zipR f (firstn k a) (firstn k b).
Proof. unfold zipR. rewrite firstn_map, combine_firstn. reflexivity. Qed.
Lemma combine_skipn {A B} (a : list A) (b : list B) k : skipn k (combine a b) = combine (skipn k a) (skipn k b).
Proof. revert a b. induction k; intros [|x a] [|y b]; try reflexivity; cbn; [destruct (skipn k a); reflexivity|]. apply IHk. Qed.
Lemma zipR_skipn f a b k : skipn k (zipR f a b) = zipR f (skipn k a) (skipn k b).
Proof. unfold zipR. rewrite skipn_map, combine_skipn. reflexivity. Qed.
Lemma zipR_app f a b c d : length a = length c -> zipR f (a ++ b) (c ++ d) = zipR f a c ++ zipR f b d.
Proof. intros H. unfold zipR. rewrite combine_app', map_app by exact H. reflexivity. Qed.
Lemma zipR_concat f d U V : length U = length V -> Forall (fun r => length r = d) U -> Forall (fun r => length r = d) V ->
  concat (map (fun '(u, v) => zipR f u v) (combine U V)) = zipR f (concat U) (concat V).
Proof.
  intros H FU. revert V H. induction FU as [|u U Hu FU IH]; intros [|v V] H FV; try discriminate; [reflexivity|]. inversion FV; subst.
  cbn [combine map concat]. rewrite zipR_app by congruence. rewrite IH; auto.
Qed.
Lemma zipR_zero_l f n b : length b = n -> zipR f (zero_row n) b = map (f 0%R) b.
Proof. intros <-. unfold zipR, zero_row. induction b; [reflexivity|]. cbn. f_equal. assumption. Qed.
Lemma zipR_zero_r f n a : length a = n -> (forall v, f v 0%R = v) -> zipR f a (zero_row n) = a.
Proof. intros <- H. unfold zipR, zero_row. induction a; [reflexivity|]. cbn. rewrite H. f_equal. assumption. Qed.
Lemma zipR_zero_lr f n : f 0%R 0%R = 0%R -> zipR f (zero_row n) (zero_row n) = zero_row n.
Proof. intros H. unfold zipR, zero_row. induction n; [reflexivity|]. cbn. rewrite H. f_equal. assumption. Qed.
Lemma map_zero_row f n : f 0%R = 0%R -> map f (zero_row n) = zero_row n.
Proof. intros H. unfold zero_row. rewrite map_repeat, H. reflexivity. Qed.

(* ---------- binary operations ---------- *)
Section Binary.
Variable op : R -> R -> R.
Variable g : chunk -> chunk.
Hypothesis op_r : forall v, op v 0%R = v.
Hypothesis g_val : forall d i, c_val (g d) i = map (map (op 0%R)) (c_val d i).
Hypothesis g_shape : forall d, c_lead (g d) = c_lead d /\ c_mul (g d) = c_mul d /\ c_dim (g d) = c_dim d.

Definition merge (s : shape) (c d : option chunk) : option chunk :=
  match c, d with
  | None, None => None
  | None, Some d => Some (g d)
  | Some c, None => Some c
  | Some c, Some d => Some (chunk_zip op s c d)
  end.

Variables s s1 s2 : shape.
Hypothesis v1 : forall i, valid s i -> valid s1 (bidx s1 i).
Hypothesis v2 : forall i, valid s i -> valid s2 (bidx s2 i).

Lemma merge_flags : forall x f1 f2 a1 a2, flags_ok s1 x f1 a1 -> flags_ok s2 x f2 a2 ->
  flags_ok s x (and_flags f1 f2) (fun i => zipR op (a1 (bidx s1 i)) (a2 (bidx s2 i))).
Proof.
  induction x as [|m x IH]; intros [|b1 f1] [|b2 f2] a1 a2 H1 H2; cbn [flags_ok] in *; try contradiction; [exact I|].
  cbn [and_flags combine map flags_ok]. destruct H1 as [H1 G1], H2 as [H2 G2]. split.
  - intros E i Hi. apply andb_true_iff in E as [-> ->]. rewrite zipR_firstn, H1, H2 by auto. apply zipR_zero_lr, op_r.
  - eapply flags_ok_ext; [|apply (IH _ _ _ _ G1 G2)]. intros i Hi. cbv beta. rewrite zipR_skipn. reflexivity.
Qed.

Lemma merge_chunks : forall x f1 f2 c1 c2 a1 a2, (f1 = f2 \/ (s1 = s /\ s2 = s)) ->
  flags_ok s1 x f1 a1 -> flags_ok s2 x f2 a2 -> chunks_ok s1 x f1 c1 a1 -> chunks_ok s2 x f2 c2 a2 ->
  (forall i, valid s1 i -> length (a1 i) = dim x) -> (forall i, valid s2 i -> length (a2 i) = dim x) ->
  chunks_ok s x (and_flags f1 f2) (map (fun '(a, b) => merge s a b) (combine c1 c2)) (fun i => zipR op (a1 (bidx s1 i)) (a2 (bidx s2 i))).
Proof.
  induction x as [|m x IH]; intros [|b1 f1] [|b2 f2] [|d1 c1] [|d2 c2] a1 a2 K F1 F2 H1 H2 L1 L2; cbn [chunks_ok flags_ok] in *; try contradiction; [exact I|].
  cbn [and_flags combine map chunks_ok]. destruct H1 as [H1 G1], H2 as [H2 G2], F1 as [F1 F1'], F2 as [F2 F2']. split.
  - destruct d1 as [d1|], d2 as [d2|]; cbn [chunk_ok merge] in *.
    + destruct H1 as (-> & W1 & V1), H2 as (-> & W2 & V2). split; [reflexivity|].
      destruct W1 as (A1 & A2 & A3 & A4), W2 as (B1 & B2 & B3 & B4). split.
      * unfold wf_chunk. cbn [chunk_zip c_lead c_mul c_dim c_val]. rewrite A2, A3. split; [reflexivity|]. split; [reflexivity|]. split; [reflexivity|]. intros i Hi.
        rewrite A1, B1. destruct (A4 _ (v1 i Hi)) as [LA FA], (B4 _ (v2 i Hi)) as [LB FB]. split; [rewrite map_length, combine_length; lia|].
        clear -FA FB. revert FB. generalize (c_val d2 (bidx s2 i)). induction FA as [|u U Hu FA IHU]; intros V FB; [constructor|]. destruct V as [|v V]; [constructor|]. inversion FB; subst.
        cbn [combine map]. constructor; [rewrite zipR_length; lia|]. apply IHU. assumption.
      * intros i Hi. cbn. rewrite A1, B1. destruct (A4 _ (v1 i Hi)) as [LA FA], (B4 _ (v2 i Hi)) as [LB FB].
        rewrite (zipR_concat op (ir_dim (snd m))) by (assumption || congruence). rewrite zipR_firstn, V1, V2 by auto. reflexivity.
    + destruct H1 as (-> & W1 & V1). subst b2. destruct K as [K|[K1 K2]]; [discriminate|]. subst s1 s2. split; [reflexivity|]. split; [exact W1|].
      intros i Hi. rewrite zipR_firstn, F2 by auto. rewrite (bidx_id s i Hi). rewrite V1 by exact Hi. symmetry. apply zipR_zero_r; [|exact op_r].
      rewrite firstn_length, L1, dim_cons by exact Hi. lia.
    + destruct H2 as (-> & W2 & V2). subst b1. destruct K as [K|[K1 K2]]; [discriminate|]. subst s1 s2. split; [reflexivity|].
      destruct W2 as (B1 & B2 & B3 & B4). destruct (g_shape d2) as (G1' & G2' & G3'). split.
      * unfold wf_chunk. rewrite G1', G2', G3'. repeat split; auto; rewrite g_val; [rewrite map_length; apply B4, H|].
        destruct (B4 i H) as [_ FB]. apply Forall_map. eapply Forall_impl; [|exact FB]. intros r Hr. cbv beta. rewrite map_length. exact Hr.
      * intros i Hi. rewrite zipR_firstn, F1 by auto. rewrite (bidx_id s i Hi), g_val, <- concat_map, V2 by exact Hi. symmetry. apply zipR_zero_l.
        rewrite firstn_length, L2, dim_cons by exact Hi. lia.
    + subst b1 b2. reflexivity.
  - eapply chunks_ok_ext; [|apply (IH f1 f2 c1 c2 (fun i => skipn (mi_dim m) (a1 i)) (fun i => skipn (mi_dim m) (a2 i)))]; auto.
    + intros i Hi. cbv beta. rewrite zipR_skipn. reflexivity.
    + destruct K as [K|K]; [left; congruence|right; exact K].
    + intros i Hi. rewrite skipn_length, L1, dim_cons by exact Hi. lia.
    + intros i Hi. rewrite skipn_length, L2, dim_cons by exact Hi. lia.
Qed.
End Binary.

(* the result has these irreps, shape and array (whatever its caches) *)
Definition returns (r : res iarray) (x : irreps) (s : shape) (a : idx -> list R) : Prop :=
  exists y, r = Ok y /\ irr y = x /\ lead y = s /\ forall i, valid s i -> arr y i = a i.

(* neither operand has cached chunks next to a differing zero flag of a broadcast operand *)
Definition mergeable (x y : iarray) : Prop := chs x = None \/ chs y = None \/ zero_flags x = zero_flags y \/ lead x = lead y.

Lemma and_flags_length a b : length a = length b -> length (and_flags a b) = length a.
Proof. intros H. unfold and_flags. rewrite map_length, combine_length. lia. Qed.

Section BinaryArrays.
Variable op : R -> R -> R.
Variable g : chunk -> chunk.
Hypothesis op_r : forall v, op v 0%R = v.
Hypothesis g_val : forall d i, c_val (g d) i = map (map (op 0%R)) (c_val d i).
Hypothesis g_shape : forall d, c_lead (g d) = c_lead d /\ c_mul (g d) = c_mul d /\ c_dim (g d) = c_dim d.
Definition binop (x y : iarray) : res iarray :=
  if negb (irreps_eqb (irr x) (irr y)) then Err ValueError
  else
    let! s := broadcast_shapes (lead x) (lead y) in
    mkIA (irr x) s (dim (irr x))
      (fun i => zipR op (arr x (bidx (lead x) i)) (arr y (bidx (lead y) i)))
      (Some (and_flags (zero_flags x) (zero_flags y)))
      (zip_chunks (merge op g s) (chs x) (chs y)).

Lemma merge_shapes s x c d : chunk_shapes_ok x c = true -> chunk_shapes_ok x d = true -> length c = length x -> length d = length x ->
  chunk_shapes_ok x (map (fun '(a, b) => merge op g s a b) (combine c d)) = true.
Proof.
  revert c d. induction x as [|[m ir] x IH]; intros [|a c] [|b d] Hc Hd Lc Ld; try discriminate; [reflexivity|].
  unfold chunk_shapes_ok in *. cbn [combine map forallb] in *. apply andb_true_iff in Hc as [Hc Hc'], Hd as [Hd Hd'].
  rewrite IH by (auto; cbn in *; lia). rewrite andb_true_r. destruct a as [a|], b as [b|]; cbn [merge]; auto.
  destruct (g_shape b) as (_ & -> & ->). exact Hd.
Qed.

Lemma binop_ok x y s : coherent x -> coherent y -> irr x = irr y -> broadcast_shapes (lead x) (lead y) = Ok s ->
  let a := fun i => zipR op (arr x (bidx (lead x) i)) (arr y (bidx (lead y) i)) in
  returns (binop x y) (irr x) s a /\ (mergeable x y -> yields (binop x y) (irr x) s a).
Proof.
  intros Hx Hy E Es a.
  assert (Fl : length (and_flags (zero_flags x) (zero_flags y)) = length (irr x)).
  { rewrite and_flags_length; [apply zero_flags_length, Hx|]. rewrite !zero_flags_length by assumption. congruence. }
  assert (R : binop x y = Ok (IA (irr x) s a (Some (and_flags (zero_flags x) (zero_flags y))) (zip_chunks (merge op g s) (chs x) (chs y)))).
  { unfold binop. rewrite E, irreps_eqb_refl. cbn [negb]. rewrite Es. cbn [bind]. rewrite <- E. apply mkIA_ok; [reflexivity| |exact Fl].
    destruct (chs x) as [cx|] eqn:Ecx; [|exact I]. destruct (chs y) as [cy|] eqn:Ecy; [|exact I]. cbn [zip_chunks].
    destruct Hx as (_ & _ & Hx), Hy as (_ & _ & Hy). rewrite Ecx in Hx. rewrite Ecy in Hy. rewrite <- E in Hy.
    pose proof (wf_shapes_ok _ _ _ (chunks_ok_wf _ _ _ _ _ Hx)). pose proof (wf_shapes_ok _ _ _ (chunks_ok_wf _ _ _ _ _ Hy)).
    apply chunks_ok_length in Hx as [_ Lx], Hy as [_ Ly]. split; [apply merge_shapes; assumption|]. rewrite map_length, combine_length. lia. }
  rewrite R. split.
  - eexists. split; [reflexivity|]. cbn. repeat split; reflexivity.
  - intros M. eexists. split; [reflexivity|]. cbn [irr lead arr]. split; [reflexivity|]. split; [reflexivity|]. split; [|reflexivity].
    assert (V1 : forall i, valid s i -> valid (lead x) (bidx (lead x) i)) by (intros i Hi; apply (broadcast_valid _ _ _ _ Es Hi)).
    assert (V2 : forall i, valid s i -> valid (lead y) (bidx (lead y) i)) by (intros i Hi; apply (broadcast_valid _ _ _ _ Es Hi)).
    destruct Hx as (Lx & Fx & Cx), Hy as (Ly & Fy & Cy). rewrite <- E in *. unfold coherent. cbn [irr lead arr zf chs]. unfold zero_flags at 1 2. cbn [zf].
    split; [|split].
    + intros i Hi. unfold a. rewrite zipR_length, Lx, Ly by auto. lia.
    + apply merge_flags; auto.
    + destruct (chs x) as [cx|] eqn:Ecx; [|exact I]. destruct (chs y) as [cy|] eqn:Ecy; [|exact I]. cbn [zip_chunks].
      apply merge_chunks; auto. destruct M as [M|[M|[M|M]]]; try congruence; [left; exact M|]. right. rewrite <- M in Es. rewrite broadcast_refl in Es. split; congruence.
Qed.
End BinaryArrays.

Lemma add_binop x y : add x y = binop Rplus (fun d => d) x y.
Proof.
  unfold add, binop. destruct (irreps_eqb (irr x) (irr y)); [|reflexivity]. cbn [negb]. destruct (broadcast_shapes (lead x) (lead y)) as [s|]; [|reflexivity]. cbn [bind].
  f_equal. unfold zip_chunks. destruct (chs x) as [cx|]; [|reflexivity]. destruct (chs y) as [cy|]; [|reflexivity]. f_equal. apply map_ext. intros [[a|] [b|]]; reflexivity.
Qed.
Lemma sub_binop x y : sub x y = binop Rminus (chunk_map Ropp) x y.
Proof.
  unfold sub, binop. destruct (irreps_eqb (irr x) (irr y)); [|reflexivity]. cbn [negb]. destruct (broadcast_shapes (lead x) (lead y)) as [s|]; [|reflexivity]. cbn [bind].
  f_equal. unfold zip_chunks. destruct (chs x) as [cx|]; [|reflexivity]. destruct (chs y) as [cy|]; [|reflexivity]. f_equal. apply map_ext. intros [[a|] [b|]]; reflexivity.
Qed.
Lemma map_map_id (f : R -> R) l : (forall v, f v = v) -> map (map f) l = l.
Proof. intros H. rewrite <- (map_id l) at 2. apply map_ext. intros r. rewrite <- (map_id r) at 2. apply map_ext. exact H. Qed.

Lemma add_ok x y s : coherent x -> coherent y -> irr x = irr y -> broadcast_shapes (lead x) (lead y) = Ok s ->
  let a := fun i => zipR Rplus (arr x (bidx (lead x) i)) (arr y (bidx (lead y) i)) in
  returns (add x y) (irr x) s a /\ (mergeable x y -> yields (add x y) (irr x) s a).
Proof.
  rewrite add_binop. apply binop_ok; [intros; lra| |auto]. intros d i. symmetry. apply map_map_id. intros. lra.
Qed.
Lemma sub_ok x y s : coherent x -> coherent y -> irr x = irr y -> broadcast_shapes (lead x) (lead y) = Ok s ->
  let a := fun i => zipR Rminus (arr x (bidx (lead x) i)) (arr y (bidx (lead y) i)) in
  returns (sub x y) (irr x) s a /\ (mergeable x y -> yields (sub x y) (irr x) s a).
Proof.
  rewrite sub_binop. apply binop_ok; [intros; lra| |auto]. intros d i. cbn. apply map_ext. intros r. apply map_ext. intros v. lra.
Qed.
Lemma add_irreps_differ x y : irr x <> irr y -> add x y = Err ValueError /\ sub x y = Err ValueError.
Proof.
  intros H. unfold add, sub. destruct (irreps_eqb (irr x) (irr y)) eqn:E; [apply irreps_eqb_eq in E; contradiction|]. split; reflexivity.
Qed.

(* ---------- unary maps that keep zero ---------- *)
Section Unary.
Variables (s s' : shape) (h : idx -> R -> R) (p : idx -> idx).
Hypothesis h0 : forall i, valid s' i -> h i 0%R = 0%R.
Hypothesis vp : forall i, valid s' i -> valid s (p i).
Lemma unary_flags : forall x fl a, flags_ok s x fl a -> flags_ok s' x fl (fun i => map (h i) (a (p i))).
Proof.
  induction x as [|m x IH]; intros [|f fl] a H; cbn [flags_ok] in *; try contradiction; [exact I|]. destruct H as [H1 H2]. split.
  - intros Hf i Hi. rewrite firstn_map, H1 by auto. apply map_zero_row. auto.
  - eapply flags_ok_ext; [|apply (IH _ _ H2)]. intros i Hi. cbv beta. rewrite skipn_map. reflexivity.
Qed.
Definition chunk_unary (c : chunk) : chunk := Chunk s' (c_mul c) (c_dim c) (fun i => map (map (h i)) (c_val c (p i))).
Lemma unary_chunks : forall x fl cs a, chunks_ok s x fl cs a -> chunks_ok s' x fl (map (option_map chunk_unary) cs) (fun i => map (h i) (a (p i))).
Proof.
  induction x as [|m x IH]; intros [|f fl] [|c cs] a H; cbn [chunks_ok map] in *; try contradiction; [exact I|]. destruct H as [H1 H2]. split.
  - destruct c as [c|]; [|exact H1]. cbn in *. destruct H1 as (F & (W1 & W2 & W3 & W4) & V). split; [exact F|]. split.
    + unfold wf_chunk. cbn. repeat split; auto; [rewrite map_length; apply W4; auto|]. apply Forall_map. destruct (W4 (p i)) as [_ FF]; auto.
      eapply Forall_impl; [|exact FF]. intros r Hr. cbv beta. rewrite map_length. exact Hr.
    + intros i Hi. rewrite <- concat_map, V, firstn_map by auto. reflexivity.
  - eapply chunks_ok_ext; [|apply (IH _ _ _ H2)]. intros i Hi. cbv beta. rewrite skipn_map. reflexivity.
Qed.
End Unary.

Lemma chunks_ok_any_lead s x fl cs a : chunks_ok s x fl cs a -> forall c, In (Some c) cs -> c_lead c = s.
Proof. intros H c Hc. apply chunks_ok_wf in H. induction H; [contradiction|]. destruct Hc as [->|Hc]; [apply H|auto]. Qed.

Lemma unary_yields x s' h p (F : chunk -> chunk) : coherent x -> (forall i, valid s' i -> h i 0%R = 0%R) -> (forall i, valid s' i -> valid (lead x) (p i)) ->
  (forall c, c_lead c = lead x -> F c = chunk_unary s' h p c) ->
  yields (mkIA (irr x) s' (dim (irr x)) (fun i => map (h i) (arr x (p i))) (Some (zero_flags x)) (map_chunks F (chs x))) (irr x) s' (fun i => map (h i) (arr x (p i))).
Proof.
  intros (L & Fl & C) H0 Vp HF.
  assert (Em : map_chunks F (chs x) = option_map (map (option_map (chunk_unary s' h p))) (chs x)).
  { unfold map_chunks. destruct (chs x) as [cs|]; [|reflexivity]. cbn. f_equal. apply map_ext_in. intros [c|] Hc; [|reflexivity]. cbn. rewrite HF; [reflexivity|]. eapply chunks_ok_any_lead; eassumption. }
  rewrite Em. rewrite mkIA_ok; [|reflexivity| |eapply flags_ok_length, Fl].
  - eexists. split; [reflexivity|]. cbn [irr lead arr]. split; [reflexivity|]. split; [reflexivity|]. split; [|reflexivity].
    unfold coherent. cbn [irr lead arr zf chs]. unfold zero_flags at 1 2. cbn [zf]. split; [|split].
    + intros i Hi. rewrite map_length. apply L. auto.
    + eapply unary_flags; eassumption.
    + destruct (chs x) as [cs|]; [|exact I]. cbn. eapply unary_chunks; eassumption.
  - destruct (chs x) as [cs|]; [|exact I]. cbn. pose proof (unary_chunks _ _ h p Vp _ _ _ _ C) as C'. split; [eapply wf_shapes_ok, chunks_ok_wf, C'|].
    rewrite map_length. apply chunks_ok_length in C. tauto.
Qed.

Lemma neg_yields x : coherent x -> yields (neg x) (irr x) (lead x) (fun i => map Ropp (arr x i)).
Proof.
  intros H. apply (unary_yields x (lead x) (fun _ => Ropp) (fun i => i)); auto; [intros; apply Ropp_0|]. intros c Hc. unfold chunk_map, chunk_unary. rewrite Hc. reflexivity.
Qed.

Lemma scale_yields f x s b s' : coherent x -> flat (irr x) <> [] -> broadcast_shapes (lead x) s = Ok s' ->
  (forall i, valid s i -> f 0%R (b i) = 0%R) ->
  yields (scale_by f x s b) (irr x) s' (fun i => map (fun v => f v (b (bidx s i))) (arr x (bidx (lead x) i))).
Proof.
  intros H Hne Es H0. unfold scale_by. destruct (lmax (irr x)) as [L|e] eqn:EL; [|exfalso; apply Hne, lmax_err; eauto]. cbn [bind]. rewrite Es. cbn [bind].
  apply (unary_yields x s' (fun i v => f v (b (bidx s i))) (fun i => bidx (lead x) i)); auto.
  - intros i Hi. apply H0. apply (broadcast_valid _ _ _ _ Es Hi).
  - intros i Hi. apply (broadcast_valid _ _ _ _ Es Hi).
  - intros c Hc. unfold chunk_unary. rewrite Hc. reflexivity.
Qed.

Lemma stretch_length n row : length (stretch n row) = length row \/ length (stretch n row) = n.
Proof. destruct row as [|a [|b row]]; cbn; auto. right. apply repeat_length. Qed.
Lemma binop_bare_yields f x s w b s' : coherent x -> all_even_scalars (irr x) = true -> broadcast_shapes (lead x) s = Ok s' ->
  (w = dim (irr x) \/ w = 1) -> (forall i, valid s i -> length (b i) = w) -> 
  yields (binop_bare f x s w b) (irr x) s' (fun i => zipR f (arr x (bidx (lead x) i)) (stretch (dim (irr x)) (b (bidx s i)))).
Proof.
  intros H Ha Es Hw Hb. unfold binop_bare. rewrite Ha, Es. cbn [bind].
  assert (Ew : bdim (dim (irr x)) w = Ok (dim (irr x))).
  { unfold bdim. destruct (Nat.eqb_spec (dim (irr x)) w); [reflexivity|]. destruct Hw as [Hw|Hw]; [congruence|]. destruct (Nat.eqb_spec (dim (irr x)) 1); [congruence|]. subst w. reflexivity. }
  rewrite Ew. cbn [bind]. rewrite mkIA_ok by auto. eexists. split; [reflexivity|]. cbn [irr lead arr]. split; [reflexivity|]. split; [reflexivity|].
  assert (St : forall i, valid (lead x) i -> stretch (dim (irr x)) (arr x i) = arr x i).
  { intros i Hi. destruct H as [L _]. specialize (L i Hi). destruct (arr x i) as [|v [|v' r]]; cbn in *; auto. rewrite <- L. reflexivity. }
  split.
  - unfold coherent, zero_flags. cbn [irr lead arr zf chs]. split; [|split; [|exact I]].
    + intros i Hi. rewrite zipR_length. destruct (broadcast_valid _ _ _ _ Es Hi) as [V1 V2]. rewrite St by exact V1. destruct H as [L _]. rewrite (L _ V1).
      specialize (Hb _ V2). destruct (b (bidx s i)) as [|v [|v' r]]; cbn [stretch]; rewrite ?repeat_length; cbn in Hb |- *; lia.
    + clear -H. destruct H as [_ H]. generalize (fun i => zipR f (stretch (dim (irr x)) (arr x (bidx (lead x) i))) (stretch (dim (irr x)) (b (bidx s i)))).
      generalize (irr x). clear. intros y. induction y as [|m y IH]; intros a; [exact I|]. cbn [length repeat flags_ok]. split; [discriminate|apply IH].
  - intros i Hi. destruct (broadcast_valid _ _ _ _ Es Hi) as [V1 V2]. rewrite St by exact V1. reflexivity.
Qed.
Lemma binop_bare_rejects f x s w b : all_even_scalars (irr x) = false -> binop_bare f x s w b = Err ValueError.
Proof. intros H. unfold binop_bare. rewrite H. reflexivity. Qed.

(* dropping flags and chunks, as a pytree round trip does *)
Lemma flags_false s x a : flags_ok s x (repeat false (length x)) a.
Proof. revert a. induction x as [|m x IH]; intros a; [exact I|]. cbn [length repeat flags_ok]. split; [discriminate|apply IH]. Qed.
Lemma pytree_yields x : coherent x -> yields (pytree_roundtrip x) (irr x) (lead x) (arr x).
Proof.
  intros H. unfold pytree_roundtrip. rewrite mkIA_ok by auto. eexists. split; [reflexivity|]. cbn [irr lead arr]. repeat split; auto; try apply H. apply flags_false.
Qed.
Lemma zeros_yields x s : yields (zeros x s) x s (fun _ => zero_row (dim x)).
Proof.
  unfold zeros. rewrite mkIA_ok; [|reflexivity|exact I|apply repeat_length]. eexists. split; [reflexivity|]. cbn [irr lead arr]. split; [reflexivity|]. split; [reflexivity|]. split; [|reflexivity].
  unfold coherent, zero_flags. cbn [irr lead arr zf chs]. split; [intros; apply repeat_length|]. split; [|exact I].
  induction x as [|m x IH]; [exact I|]. cbn [length repeat flags_ok]. rewrite dim_cons. split.
  - intros _ i Hi. rewrite repeat_app. apply firstn_length_app, repeat_length.
  - eapply flags_ok_ext; [|exact IH]. intros i Hi. cbv beta. rewrite repeat_app. symmetry. apply skipn_length_app, repeat_length.
Qed.
Lemma ones_yields x s : yields (ones x s) x s (fun _ => repeat 1%R (dim x)).
Proof.
  unfold ones. rewrite mkIA_ok; [|reflexivity|exact I|apply repeat_length]. eexists. split; [reflexivity|]. cbn [irr lead arr]. split; [reflexivity|]. split; [reflexivity|]. split; [|reflexivity].
  unfold coherent, zero_flags. cbn [irr lead arr zf chs]. split; [intros; apply repeat_length|]. split; [|exact I]. apply flags_false.
Qed.
Lemma new_yields x s a : (forall i, valid s i -> length (a i) = dim x) -> yields (mkIA x s (dim x) a None None) x s a.
Proof.
  intros H. rewrite mkIA_ok by auto. eexists. split; [reflexivity|]. cbn [irr lead arr]. repeat split; auto. apply flags_false.
Qed.

(* pow *)
Lemma pow_nat_even x n : coherent x -> all_even_scalars (irr x) = true ->
  returns (pow_nat x n) (irr x) (lead x) (fun i => map (fun v => pow v n) (arr x i)) /\
  ((chs x = None \/ forallb negb (zero_flags x) = true) -> yields (pow_nat x n) (irr x) (lead x) (fun i => map (fun v => pow v n) (arr x i))).
Proof.
  intros H Ha. unfold pow_nat. rewrite Ha. destruct H as (L & F & C).
  assert (M : (match map_chunks (chunk_map (fun a => (a ^ n)%R)) (chs x) with None => True | Some cs => chunk_shapes_ok (irr x) cs = true /\ length cs = length (irr x) end)).
  { destruct (chs x) as [cs|]; [|exact I]. cbn. pose proof (wf_shapes_ok _ _ _ (chunks_ok_wf _ _ _ _ _ C)) as W. apply chunks_ok_length in C as [_ Lc]. split; [|rewrite map_length; exact Lc].
    revert cs Lc W. generalize (irr x). intros y. induction y as [|[m ir] y IH]; intros [|c cs] Lc W; try discriminate; [reflexivity|]. unfold chunk_shapes_ok in *. cbn [map combine forallb] in *.
    apply andb_true_iff in W as [W1 W2]. rewrite IH by (auto; cbn in *; lia). rewrite andb_true_r. destruct c; exact W1. }
  rewrite mkIA_ok by auto. split; [eexists; split; [reflexivity|]; cbn; repeat split; reflexivity|].
  intros K. eexists. split; [reflexivity|]. cbn [irr lead arr]. split; [reflexivity|]. split; [reflexivity|]. split; [|reflexivity].
  unfold coherent, zero_flags. cbn [irr lead arr zf chs]. split; [intros i Hi; rewrite map_length; auto|]. split; [apply flags_false|].
  destruct K as [->|K]; [exact I|]. destruct (chs x) as [cs|]; [|exact I]. cbn.
  assert (Z : zero_flags x = repeat false (length (irr x))).
  { pose proof (flags_ok_length _ _ _ _ F) as Lf. rewrite <- Lf. clear -K. induction (zero_flags x) as [|b l IH]; [reflexivity|]. cbn in *. destruct b; [discriminate|]. f_equal. auto. }
  rewrite Z in C. clear -C. revert cs C. generalize (arr x). generalize (irr x). intros y. induction y as [|m y IH]; intros a [|c cs] C; cbn [length repeat chunks_ok map] in *; try contradiction; [exact I|].
  destruct C as [C1 C2]. split.
  - destruct c as [c|]; [|discriminate]. cbn in *. destruct C1 as (_ & (W1 & W2 & W3 & W4) & V). split; [reflexivity|]. split.
    + unfold wf_chunk. cbn. repeat split; auto; [rewrite map_length; apply W4; auto|]. apply Forall_map. destruct (W4 i) as [_ FF]; auto. eapply Forall_impl; [|exact FF]. intros r Hr. cbv beta. rewrite map_length. exact Hr.
    + intros i Hi. rewrite <- concat_map, V, firstn_map by auto. reflexivity.
  - eapply chunks_ok_ext; [|apply (IH _ _ C2)]. intros i Hi. cbv beta. rewrite skipn_map. reflexivity.
Qed.
