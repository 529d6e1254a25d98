(* Coherence invariant of IrrepsArray and its preservation. *)
From Verif Require Import PyBase PermModel PermProofs IrrepsModel IrrepsProofs IrrepsProofs2 ArrayModel.
From Coq Require Import Reals Permutation.
Open Scope nat_scope.

(* ---------- specification vocabulary ---------- *)
(* the row cut in one block per entry of the irreps *)
Fixpoint blocks {A} (x : irreps) (row : list A) : list (list A) :=
  match x with
  | [] => []
  | m :: x => firstn (mi_dim m) row :: blocks x (skipn (mi_dim m) row)
  end.

Definition is_none {A} (c : option A) : bool := match c with None => true | Some _ => false end.
Definition zero_row (n : nat) : list R := repeat 0%R n.

(* a chunk has the declared shape *)
Definition wf_chunk (s : shape) (m : mulirrep) (c : chunk) : Prop :=
  c_lead c = s /\ c_mul c = fst m /\ c_dim c = ir_dim (snd m) /\
  forall i, valid s i -> length (c_val c i) = fst m /\ Forall (fun r => length r = ir_dim (snd m)) (c_val c i).
Definition wf_opt (s : shape) (m : mulirrep) (c : option chunk) : Prop :=
  match c with None => True | Some c => wf_chunk s m c end.

(* zero flags tell the truth: a flagged block is zero *)
Fixpoint flags_ok (s : shape) (x : irreps) (fl : list bool) (a : idx -> list R) : Prop :=
  match x, fl with
  | [], [] => True
  | m :: x, f :: fl =>
      (f = true -> forall i, valid s i -> firstn (mi_dim m) (a i) = zero_row (mi_dim m)) /\
      flags_ok s x fl (fun i => skipn (mi_dim m) (a i))
  | _, _ => False
  end.

(* cached chunks agree with the array, None exactly on flagged blocks *)
Definition chunk_ok (s : shape) (m : mulirrep) (f : bool) (c : option chunk) (b : idx -> list R) : Prop :=
  match c with
  | None => f = true
  | Some c => f = false /\ wf_chunk s m c /\ forall i, valid s i -> concat (c_val c i) = b i
  end.
Fixpoint chunks_ok (s : shape) (x : irreps) (fl : list bool) (cs : list (option chunk)) (a : idx -> list R) : Prop :=
  match x, fl, cs with
  | [], [], [] => True
  | m :: x, f :: fl, c :: cs =>
      chunk_ok s m f c (fun i => firstn (mi_dim m) (a i)) /\ chunks_ok s x fl cs (fun i => skipn (mi_dim m) (a i))
  | _, _, _ => False
  end.

Definition coherent (x : iarray) : Prop :=
  (forall i, valid (lead x) i -> length (arr x i) = dim (irr x)) /\
  flags_ok (lead x) (irr x) (zero_flags x) (arr x) /\
  match chs x with None => True | Some cs => chunks_ok (lead x) (irr x) (zero_flags x) cs (arr x) end.

(* the call returns a coherent IrrepsArray with these irreps, leading shape and array *)
Definition yields (r : res iarray) (x : irreps) (s : shape) (a : idx -> list R) : Prop :=
  exists y, r = Ok y /\ irr y = x /\ lead y = s /\ coherent y /\ forall i, valid s i -> arr y i = a i.

(* ---------- lists ---------- *)
Lemma Forall2_length {A B} (P : A -> B -> Prop) l l' : Forall2 P l l' -> length l = length l'.
Proof. induction 1; simpl; congruence. Qed.
Lemma list_slice_firstn {A} (l : list A) k n : list_slice l k (k + n) = firstn n (skipn k l).
Proof. unfold list_slice. f_equal. lia. Qed.

Lemma skipn_skipn {A} (l : list A) a b : skipn a (skipn b l) = skipn (b + a) l.
Proof. revert l. induction b; intros l; simpl; [reflexivity|]. destruct l; [destruct a; reflexivity|]. apply IHb. Qed.

Lemma firstn_skipn_comm' {A} (l : list A) a b : firstn a (skipn b l) = skipn b (firstn (b + a) l).
Proof. apply firstn_skipn_comm. Qed.

Lemma group_rows_S mul d row : group_rows (S mul) d row = firstn d row :: group_rows mul d (skipn d row).
Proof.
  unfold group_rows. change (seq 0 (S mul)) with (0 :: seq 1 mul). simpl map. f_equal.
  rewrite <- seq_shift, map_map. apply map_ext. intros u. rewrite skipn_skipn. reflexivity.
Qed.

Lemma group_rows_length mul d row : length (group_rows mul d row) = mul.
Proof. unfold group_rows. rewrite map_length, seq_length. reflexivity. Qed.

Lemma concat_group_rows mul d row : length row = mul * d -> concat (group_rows mul d row) = row.
Proof.
  revert row. induction mul; intros row H; [destruct row; [reflexivity|discriminate]|].
  rewrite group_rows_S. simpl. rewrite IHmul; [apply firstn_skipn|]. rewrite skipn_length. simpl in H. lia.
Qed.

Lemma group_rows_widths mul d row : length row = mul * d -> Forall (fun r => length r = d) (group_rows mul d row).
Proof.
  revert row. induction mul; intros row H; [constructor|]. rewrite group_rows_S. simpl in H. constructor.
  - rewrite firstn_length. lia.
  - apply IHmul. rewrite skipn_length. lia.
Qed.

Lemma concat_length_widths {A} (rows : list (list A)) d : Forall (fun r => length r = d) rows -> length (concat rows) = length rows * d.
Proof. induction 1; [reflexivity|]. simpl. rewrite app_length, IHForall, H. reflexivity. Qed.

Lemma group_rows_concat mul d rows : length rows = mul -> Forall (fun r => length r = d) rows -> group_rows mul d (concat rows) = rows.
Proof.
  intros <- H. induction H; [reflexivity|]. simpl length. rewrite group_rows_S. simpl concat.
  rewrite <- H, firstn_app, firstn_all, Nat.sub_diag, app_nil_r. rewrite skipn_app, skipn_all, Nat.sub_diag. simpl.
  rewrite H, IHForall. reflexivity.
Qed.

Lemma firstn_length_app {A} (a b : list A) n : length a = n -> firstn n (a ++ b) = a.
Proof. intros <-. rewrite firstn_app, firstn_all, Nat.sub_diag, app_nil_r. reflexivity. Qed.
Lemma skipn_length_app {A} (a b : list A) n : length a = n -> skipn n (a ++ b) = b.
Proof. intros <-. rewrite skipn_app, skipn_all, Nat.sub_diag. reflexivity. Qed.

Lemma concat_zeros m d : concat (zeros_rows m d) = zero_row (m * d).
Proof. unfold zeros_rows, zero_row. induction m; [reflexivity|]. simpl. rewrite IHm, repeat_app. reflexivity. Qed.

Lemma blocks_length {A} x (row : list A) : length (blocks x row) = length x.
Proof. revert row. induction x; intros; simpl; [reflexivity|]. rewrite IHx. reflexivity. Qed.

Lemma concat_blocks {A} x (row : list A) : length row = dim x -> concat (blocks x row) = row.
Proof.
  revert row. induction x as [|m x IH]; intros row H; [destruct row; [reflexivity|discriminate]|].
  rewrite dim_cons in H. simpl. rewrite IH; [apply firstn_skipn|]. rewrite skipn_length. lia.
Qed.

Lemma blocks_concat {A} x (bs : list (list A)) : Forall2 (fun m b => length b = mi_dim m) x bs -> blocks x (concat bs) = bs.
Proof.
  induction 1; [reflexivity|]. simpl. rewrite firstn_length_app, skipn_length_app by assumption. rewrite IHForall2. reflexivity.
Qed.

Lemma blocks_widths {A} x (row : list A) : length row = dim x -> Forall2 (fun m b => length b = mi_dim m) x (blocks x row).
Proof.
  revert row. induction x as [|m x IH]; intros row H; [constructor|]. rewrite dim_cons in H. simpl. constructor.
  - rewrite firstn_length. lia.
  - apply IH. rewrite skipn_length. lia.
Qed.

(* the k-th block is the k-th slice *)
Lemma blocks_slice {A} x (row : list A) k a b : nth_error (slices x) k = Some (a, b) ->
  nth_error (blocks x row) k = Some (list_slice row a b).
Proof.
  unfold slices. enough (G : forall n, nth_error (slices_from n x) k = Some (a, b) ->
    nth_error (blocks x (skipn n row)) k = Some (list_slice row a b)) by (intros H; apply (G 0 H)).
  revert k. induction x as [|m x IH]; intros k n H; [destruct k; discriminate|]. destruct k; simpl in *.
  - injection H as <- <-. rewrite list_slice_firstn. reflexivity.
  - rewrite skipn_skipn. apply IH. exact H.
Qed.

Lemma blocks_app {A} x y (row : list A) : length row = dim (x ++ y) ->
  blocks (x ++ y) row = blocks x (firstn (dim x) row) ++ blocks y (skipn (dim x) row).
Proof.
  revert row. induction x as [|m x IH]; intros row H; [reflexivity|]. simpl app. cbn [blocks].
  simpl app in H. rewrite dim_cons in *. rewrite dim_app in H. rewrite IH by (rewrite skipn_length, dim_app; lia).
  f_equal; [|f_equal].
  - rewrite firstn_firstn. f_equal. lia.
  - f_equal. rewrite firstn_skipn_comm. reflexivity.
  - f_equal. rewrite skipn_skipn. reflexivity.
Qed.

Lemma shape_eqb_eq s t : shape_eqb s t = true <-> s = t.
Proof. apply list_eqb_eq. Qed.

Lemma irreps_eqb_eq x y : irreps_eqb x y = true <-> x = y.
Proof.
  revert y. induction x as [|[m a] x IH]; intros [|[n b] y]; simpl; try (split; [discriminate|congruence]); [tauto|].
  rewrite !andb_true_iff, Nat.eqb_eq, irrep_eqb_eq, IH. split; [intros [[-> ->] ->]; reflexivity|intros H; injection H; auto].
Qed.
Lemma irreps_eqb_refl x : irreps_eqb x x = true.
Proof. apply irreps_eqb_eq. reflexivity. Qed.

(* ---------- flags and chunks ---------- *)
Lemma flags_ok_length s x fl a : flags_ok s x fl a -> length fl = length x.
Proof. revert fl a. induction x; intros [|f fl] b H; simpl in *; try contradiction; [reflexivity|]. destruct H as [_ H]. erewrite IHx by eassumption. reflexivity. Qed.
Lemma chunks_ok_length s x fl cs a : chunks_ok s x fl cs a -> length fl = length x /\ length cs = length x.
Proof.
  revert fl cs a. induction x; intros [|f fl] [|c cs] b H; simpl in *; try contradiction; [split; reflexivity|].
  destruct H as [_ H]. apply IHx in H as [-> ->]. split; reflexivity.
Qed.

Lemma flags_ok_ext s x fl a b : (forall i, valid s i -> a i = b i) -> flags_ok s x fl a -> flags_ok s x fl b.
Proof.
  revert fl a b. induction x; intros [|f fl] c d E H; simpl in *; try contradiction; [exact I|]. destruct H as [H1 H2]. split.
  - intros Hf i Hi. rewrite <- E by exact Hi. auto.
  - eapply IHx; [|exact H2]. intros i Hi. cbn. rewrite E by exact Hi. reflexivity.
Qed.
Lemma chunks_ok_ext s x fl cs a b : (forall i, valid s i -> a i = b i) -> chunks_ok s x fl cs a -> chunks_ok s x fl cs b.
Proof.
  revert fl cs a b. induction x; intros [|f fl] [|k cs] c d E H; simpl in *; try contradiction; [exact I|]. destruct H as [H1 H2]. split.
  - destruct k as [k|]; [|exact H1]. destruct H1 as (F & W & V). split; [exact F|]. split; [exact W|]. intros i Hi. rewrite V, E by exact Hi. reflexivity.
  - eapply IHx; [|exact H2]. intros i Hi. cbn. rewrite E by exact Hi. reflexivity.
Qed.

(* the mul rows denoted by an optional chunk *)
Definition rows_of (m : mulirrep) (c : option chunk) (i : idx) : list (list R) :=
  match c with None => zeros_rows (fst m) (ir_dim (snd m)) | Some c => c_val c i end.
Lemma den_rows m c i : den m c i = concat (rows_of m c i).
Proof. destruct c; [reflexivity|]. simpl. rewrite concat_zeros. reflexivity. Qed.

Lemma rows_of_wf s m c i : wf_opt s m c -> valid s i -> length (rows_of m c i) = fst m /\ Forall (fun r => length r = ir_dim (snd m)) (rows_of m c i).
Proof.
  destruct c as [c|]; simpl.
  - intros (_ & _ & _ & H) Hi. exact (H i Hi).
  - intros _ _. unfold zeros_rows. rewrite repeat_length. split; [reflexivity|]. apply Forall_forall. intros r Hr. apply repeat_spec in Hr as ->. apply repeat_length.
Qed.
Lemma den_length s m c i : wf_opt s m c -> valid s i -> length (den m c i) = mi_dim m.
Proof.
  intros H Hi. rewrite den_rows. destruct (rows_of_wf _ _ _ _ H Hi) as [L F]. rewrite (concat_length_widths _ _ F), L. reflexivity.
Qed.

Definition chunks_row (x : irreps) (cs : list (option chunk)) (i : idx) : list R :=
  flat_map (fun '(m, c) => den m c i) (combine x cs).

Lemma chunks_row_length s x cs i : Forall2 (wf_opt s) x cs -> valid s i -> length (chunks_row x cs i) = dim x.
Proof.
  intros H Hi. induction H; [reflexivity|]. unfold chunks_row in *. cbn [combine flat_map]. rewrite app_length, IHForall2, dim_cons.
  erewrite den_length by eassumption. reflexivity.
Qed.

Lemma chunks_row_blocks s x cs i : Forall2 (wf_opt s) x cs -> valid s i ->
  blocks x (chunks_row x cs i) = map (fun '(m, c) => den m c i) (combine x cs).
Proof.
  intros H Hi. unfold chunks_row. rewrite flat_map_concat_map. apply blocks_concat. induction H; [constructor|]. cbn [combine map]. constructor; [|exact IHForall2].
  eapply den_length; eassumption.
Qed.

(* flags and chunks built from chunks *)
Lemma chunks_row_flags s x cs : Forall2 (wf_opt s) x cs -> flags_ok s x (map is_none cs) (chunks_row x cs).
Proof.
  induction 1 as [|m c x cs Hc H IH]; [exact I|]. cbn [map flags_ok]. unfold chunks_row at 1. cbn [combine flat_map]. split.
  - intros Hn i Hi. destruct c; [discriminate|]. rewrite firstn_length_app; [reflexivity|]. apply repeat_length.
  - eapply flags_ok_ext; [|exact IH]. intros i Hi. unfold chunks_row. cbn [combine flat_map]. rewrite skipn_length_app; [reflexivity|]. eapply den_length; eassumption.
Qed.
Lemma chunks_row_chunks s x cs : Forall2 (wf_opt s) x cs -> chunks_ok s x (map is_none cs) cs (chunks_row x cs).
Proof.
  induction 1 as [|m c x cs Hc H IH]; [exact I|]. cbn [map chunks_ok]. split.
  - destruct c as [c|]; [|reflexivity]. split; [reflexivity|]. split; [exact Hc|]. intros i Hi. unfold chunks_row. cbn [combine flat_map].
    rewrite firstn_length_app; [reflexivity|]. eapply (den_length s m (Some c)); [exact Hc|exact Hi].
  - eapply chunks_ok_ext; [|exact IH]. intros i Hi. unfold chunks_row. cbn [combine flat_map]. rewrite skipn_length_app; [reflexivity|]. eapply den_length; eassumption.
Qed.

Lemma mkIA_ok x s w a z c : w = dim x -> (match c with None => True | Some cs => chunk_shapes_ok x cs = true /\ length cs = length x end) ->
  (match z with None => True | Some zs => length zs = length x end) -> mkIA x s w a z c = Ok (IA x s a z c).
Proof.
  intros -> Hc Hz. unfold mkIA. rewrite Nat.eqb_refl. cbn [negb].
  destruct c as [cs|]; [destruct Hc as [-> ->]; rewrite Nat.eqb_refl|]; destruct z as [zs|]; try rewrite Hz, Nat.eqb_refl; reflexivity.
Qed.

Lemma wf_shapes_ok s x cs : Forall2 (wf_opt s) x cs -> chunk_shapes_ok x cs = true.
Proof.
  unfold chunk_shapes_ok. induction 1 as [|[mul ir] c x cs Hc H IH]; [reflexivity|]. cbn [combine forallb]. rewrite IH, andb_true_r.
  destruct c as [c|]; [|reflexivity]. destruct Hc as (_ & -> & -> & _). cbn. rewrite !Nat.eqb_refl. reflexivity.
Qed.

Lemma from_chunks_ok x cs s dt : Forall2 (wf_opt s) x cs -> dt = true \/ existsb (fun c => negb (is_none c)) cs = true ->
  exists y, from_chunks x cs s dt = Ok y /\ irr y = x /\ lead y = s /\ coherent y /\
    (forall i, valid s i -> arr y i = chunks_row x cs i) /\ zf y = Some (map is_none cs) /\ chs y = Some cs.
Proof.
  intros H Hdt. pose proof (Forall2_length _ _ _ H) as L. unfold from_chunks. rewrite L, Nat.eqb_refl. cbn [negb].
  assert (E : forallb (fun '(c, (mul, ir)) => match c with None => true | Some c => shape_eqb (c_lead c) s && (c_mul c =? mul) && (c_dim c =? ir_dim ir) end) (combine cs x) = true).
  { clear L Hdt. induction H as [|[mul ir] c x cs Hc H IH]; [reflexivity|]. cbn [combine forallb]. rewrite IH, andb_true_r.
    destruct c as [c|]; [|reflexivity]. destruct Hc as (-> & -> & -> & _). cbn. rewrite !Nat.eqb_refl. rewrite (proj2 (shape_eqb_eq s s)); reflexivity. }
  rewrite E. cbn [negb].
  replace (dt || existsb (fun c : option chunk => match c with Some _ => true | None => false end) cs) with true.
  2:{ destruct Hdt as [->|Hdt]; [reflexivity|]. symmetry. apply orb_true_iff. right. rewrite <- Hdt. clear. induction cs as [|[]]; simpl; congruence. }
  cbn [negb].
  rewrite mkIA_ok; [|reflexivity|split; [eapply wf_shapes_ok; eassumption|congruence]|rewrite map_length; congruence].
  eexists. split; [reflexivity|]. cbn [irr lead arr zf chs].
  assert (V : forall i, valid s i -> (if 0 <? dim x then fun i => chunks_row x cs i else fun _ => []) i = chunks_row x cs i).
  { intros i Hi. destruct (Nat.ltb_spec 0 (dim x)); [reflexivity|]. symmetry. apply length_zero_iff_nil. erewrite chunks_row_length by eassumption. lia. }
  fold (chunks_row x cs). change (fun i : idx => flat_map (fun '(m, c) => den m c i) (combine x cs)) with (chunks_row x cs) in *.
  split; [reflexivity|]. split; [reflexivity|]. split.
  - unfold coherent. cbn [irr lead arr zf chs zero_flags].
    unfold zero_flags. cbn [zf].
    assert (N : map (fun c : option chunk => match c with Some _ => false | None => true end) cs = map is_none cs) by (apply map_ext; intros []; reflexivity).
    rewrite N. split; [|split].
    + intros i Hi. rewrite V by exact Hi. eapply chunks_row_length; eassumption.
    + eapply flags_ok_ext; [|apply chunks_row_flags; exact H]. intros i Hi. symmetry. apply V, Hi.
    + eapply chunks_ok_ext; [|apply chunks_row_chunks; exact H]. intros i Hi. symmetry. apply V, Hi.
  - split; [exact V|]. split; reflexivity.
Qed.

(* ---------- the chunks property ---------- *)
Lemma chunk_ok_wf s m f c b : chunk_ok s m f c b -> wf_opt s m c.
Proof. destruct c; simpl; tauto. Qed.
Lemma chunks_ok_wf s x fl cs a : chunks_ok s x fl cs a -> Forall2 (wf_opt s) x cs.
Proof.
  revert fl cs a. induction x; intros [|f fl] [|c cs] b H; simpl in *; try contradiction; constructor.
  - destruct H as [H _]. eapply chunk_ok_wf, H.
  - destruct H as [_ H]. eapply IHx, H.
Qed.

Lemma chunks_ok_row s x fl cs a : chunks_ok s x fl cs a -> flags_ok s x fl a -> (forall i, valid s i -> length (a i) = dim x) ->
  forall i, valid s i -> chunks_row x cs i = a i.
Proof.
  revert fl cs a. induction x as [|m x IH]; intros [|f fl] [|c cs] a H F L i Hi; cbn [chunks_ok flags_ok] in H, F; try contradiction.
  - specialize (L i Hi). destruct (a i); [reflexivity|discriminate].
  - unfold chunks_row. cbn [combine flat_map]. rewrite <- (firstn_skipn (mi_dim m) (a i)). f_equal.
    + destruct H as [H _]. destruct F as [F _]. destruct c as [c|]; cbn in *; [destruct H as (_ & _ & H); auto|]. symmetry. apply F; auto.
    + destruct H as [_ H]. destruct F as [_ F]. fold (chunks_row x cs i). apply (IH _ _ _ H F); [|exact Hi].
      intros j Hj. cbn. rewrite skipn_length, L by exact Hj. rewrite dim_cons. lia.
Qed.

Lemma flags_of_chunks s x fl cs a : chunks_ok s x fl cs a -> fl = map is_none cs.
Proof.
  revert fl cs a. induction x; intros [|f fl] [|c cs] b H; simpl in *; try contradiction; [reflexivity|]. destruct H as [H1 H2].
  f_equal; [|eapply IHx, H2]. destruct c; simpl in *; tauto.
Qed.

Lemma valid_nil : valid [] [].
Proof. constructor. Qed.

Lemma slice_chunk_ok s a k m (f : bool) : (forall i, valid s i -> length (firstn (mi_dim m) (skipn k (a i))) = mi_dim m) ->
  chunk_ok s m f (if f then None else Some (slice_chunk s a k (k + mi_dim m) (fst m) (ir_dim (snd m)))) (fun i => firstn (mi_dim m) (skipn k (a i))).
Proof.
  intros L. destruct f; [reflexivity|]. cbn. split; [reflexivity|]. split.
  - repeat split; intros; cbn; [apply group_rows_length|]. apply group_rows_widths. rewrite list_slice_firstn. rewrite L by assumption. reflexivity.
  - intros i Hi. rewrite list_slice_firstn. apply concat_group_rows. rewrite L by assumption. reflexivity.
Qed.

Lemma lazy_chunks_ok s a x : forall fl k, length fl = length x -> (forall i, valid s i -> k + dim x <= length (a i)) ->
  chunks_ok s x fl (map (fun '(zero, ((start, stop), (mul, ir))) => if (zero : bool) then None else Some (slice_chunk s a start stop mul (ir_dim ir)))
     (combine fl (combine (slices_from k x) x))) (fun i => skipn k (a i)).
Proof.
  induction x as [|[mul ir] x IH]; intros [|f fl] k L H; try discriminate; [exact I|]. cbn [slices_from combine map chunks_ok]. split.
  - apply (slice_chunk_ok s a k (mul, ir) f). intros i Hi. specialize (H i Hi). rewrite dim_cons in H. rewrite firstn_length, skipn_length. lia.
  - eapply chunks_ok_ext; [|apply IH; [injection L; auto|]].
    + intros i Hi. cbn. rewrite skipn_skipn. reflexivity.
    + intros i Hi. specialize (H i Hi). rewrite dim_cons in H. lia.
Qed.

Lemma chunks_chunks_ok x : coherent x -> chunks_ok (lead x) (irr x) (zero_flags x) (chunks x) (arr x).
Proof.
  intros (HL & HF & HC). unfold chunks. destruct (chs x) as [cs|]; [exact HC|].
  pose proof (flags_ok_length _ _ _ _ HF) as LF.
  pose proof (lazy_chunks_ok (lead x) (arr x) (irr x) (zero_flags x) 0 LF) as G.
  assert (G' := G (fun i Hi => Nat.eq_le_incl _ _ (eq_sym (HL i Hi)))). clear G.
  change (fun i : idx => skipn 0 (arr x i)) with (fun i => arr x i) in G'. change (slices_from 0 (irr x)) with (slices (irr x)) in G'.
  destruct (irr x) as [|[mul ir] [|m2 x2]] eqn:E; [exact G'| |exact G'].
  destruct (zero_flags x) as [|f [|f2 fl]] eqn:Ef; try discriminate. clear G'.
  destruct f; (split; [|exact I]); [reflexivity|]. cbn. rewrite dim_cons in HL. change (dim []) with 0 in HL. unfold mi_dim in HL. cbn in HL.
  split; [reflexivity|]. split.
  - repeat split; intros; cbn; [apply group_rows_length|apply group_rows_widths]. rewrite HL by assumption. lia.
  - intros i Hi. rewrite concat_group_rows by (rewrite HL by assumption; lia). symmetry. apply firstn_all2. rewrite HL by assumption. unfold mi_dim. cbn. lia.
Qed.

Lemma chunks_wf x : coherent x -> Forall2 (wf_opt (lead x)) (irr x) (chunks x).
Proof. intros H. eapply chunks_ok_wf, chunks_chunks_ok, H. Qed.
Lemma chunks_flags x : coherent x -> zero_flags x = map is_none (chunks x).
Proof. intros H. eapply flags_of_chunks, chunks_chunks_ok, H. Qed.
Lemma chunks_row_arr x : coherent x -> forall i, valid (lead x) i -> chunks_row (irr x) (chunks x) i = arr x i.
Proof. intros H i Hi. eapply chunks_ok_row; [apply chunks_chunks_ok, H|apply H|apply H|exact Hi]. Qed.
Lemma chunks_blocks x : coherent x -> forall i, valid (lead x) i ->
  blocks (irr x) (arr x i) = map (fun '(m, c) => den m c i) (combine (irr x) (chunks x)).
Proof. intros H i Hi. rewrite <- (chunks_row_arr x H i Hi). apply (chunks_row_blocks (lead x)); [apply chunks_wf, H|exact Hi]. Qed.

Lemma force_chunks_coherent x : coherent x -> coherent (force_chunks x).
Proof.
  intros H. destruct H as (HL & HF & HC) eqn:E. unfold coherent, force_chunks. cbn. unfold zero_flags in *. cbn.
  repeat split; try assumption. pose proof (chunks_chunks_ok x H) as G. exact G.
Qed.
