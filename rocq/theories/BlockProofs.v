(* Operations that act block by block: reductions over multiplicities, norms, group action,
   multiplicity <-> axis. *)
From Coq Require Import Reals Lra.
From Verif Require Import PyBase PermModel PermProofs IrrepsModel IrrepsProofs IrrepsProofs2 ArrayModel ArrayProofs ArrayOps RechunkProofs SliceProofs ArithProofs LeadModel LeadProofs.
Open Scope nat_scope.

(* apply V to the block of each entry, and juxtapose.  The data are a family of rows indexed by I. *)
Fixpoint blockwise {I} (V : mulirrep -> (I -> list R) -> list R) (x : irreps) (a : I -> list R) : list R :=
  match x with
  | [] => []
  | m :: x => V m (fun j => firstn (mi_dim m) (a j)) ++ blockwise V x (fun j => skipn (mi_dim m) (a j))
  end.


Section Chunkwise.
Variables (s s' : shape) (G : mulirrep -> mulirrep) (F : mulirrep -> chunk -> chunk).
Variable V : mulirrep -> idx -> (idx -> list R) -> list R.
Variable P : mulirrep -> Prop.
Hypothesis F_wf : forall m c, P m -> wf_chunk s m c -> wf_chunk s' (G m) (F m c) /\
  forall i, valid s' i -> concat (c_val (F m c) i) = V m i (fun j => concat (c_val c j)).
Hypothesis V_zero : forall m i, P m -> valid s' i -> V m i (fun _ => zero_row (mi_dim m)) = zero_row (mi_dim (G m)).
Hypothesis V_ext : forall m i a b, P m -> valid s' i -> (forall j, valid s j -> a j = b j) -> V m i a = V m i b.

Lemma chunkwise_row : forall x fl cs a i, Forall P x -> flags_ok s x fl a -> chunks_ok s x fl cs a -> valid s' i ->
  concat (map (fun '(m, c) => den (G m) (option_map (F m) c) i) (combine x cs)) = blockwise (fun m => V m i) x a.
Proof.
  induction x as [|m x IH]; intros [|f fl] [|c cs] a i Hp Hf Hc Hi; cbn [flags_ok chunks_ok] in *; try contradiction; [reflexivity|].
  inversion Hp as [|? ? Pm Px]; subst. destruct Hf as [Hf Hf'], Hc as [Hc Hc']. cbn [combine map concat blockwise]. f_equal; [|apply (IH fl cs); assumption].
  destruct c as [c|]; cbn [option_map den chunk_ok] in *.
  - destruct Hc as (_ & W & E). rewrite (proj2 (F_wf m c Pm W) i Hi). apply V_ext; auto.
  - fold (zero_row (mi_dim (G m))). rewrite <- (V_zero m i Pm Hi). apply V_ext; auto. intros j Hj. symmetry. auto.
Qed.
Lemma chunkwise_yields x r : coherent x -> lead x = s -> Forall P (irr x) ->
  r = from_chunks (map G (irr x)) (map (fun '(m, c) => option_map (F m) c) (combine (irr x) (chunks x))) s' true ->
  yields r (map G (irr x)) s' (fun i => blockwise (fun m => V m i) (irr x) (arr x)).
Proof.
  intros H Es Hp ->. eapply (yields_from_pairs (map (fun '(m, c) => (G m, option_map (F m) c)) (pairs x))).
  - rewrite !map_map. f_equal; [|unfold pairs; apply map_ext; intros []; reflexivity].
    rewrite <- (pairs_fst x H) at 1. rewrite map_map. apply map_ext. intros []. reflexivity.
  - apply Forall_map. pose proof (pairs_wf x H) as W. rewrite Es in W. 
    assert (Pp : Forall (fun p => P (fst p)) (pairs x)). { rewrite <- (pairs_fst x H) in Hp. rewrite Forall_map in Hp. exact Hp. }
    rewrite Forall_forall in *. intros [m c] Hin. specialize (W _ Hin). specialize (Pp _ Hin). unfold wf_pair in *. cbn [fst snd] in *.
    destruct c as [c|]; [|exact I]. apply (F_wf m c Pp W).
  - rewrite map_map. rewrite <- (pairs_fst x H) at 1. rewrite map_map. apply map_ext. intros []. reflexivity.
  - intros i Hi. rewrite map_map. etransitivity; [symmetry; apply (chunkwise_row (irr x) (zero_flags x) (chunks x)); auto|].
    + destruct H as (_ & Hf & _). rewrite <- Es. exact Hf.
    + rewrite <- Es. apply chunks_chunks_ok, H.
    + unfold pairs. f_equal. apply map_ext. intros []. reflexivity.
Qed.
End Chunkwise.

(* ---------- rows ---------- *)
Lemma rowsum_cons w r rows : rowsum w (r :: rows) = zipR Rplus r (rowsum w rows).
Proof. reflexivity. Qed.
Lemma rowsum_length w rows : Forall (fun r => length r = w) rows -> length (rowsum w rows) = w.
Proof. induction 1 as [|r rows H _ IH]; [apply repeat_length|]. rewrite rowsum_cons, zipR_length, H, IH. lia. Qed.
Lemma firstn_repeat {A} (a : A) n w : firstn n (repeat a (n + w)) = repeat a n.
Proof. rewrite repeat_app. apply firstn_length_app, repeat_length. Qed.
Lemma skipn_repeat {A} (a : A) n w : skipn n (repeat a (n + w)) = repeat a w.
Proof. rewrite repeat_app. apply skipn_length_app, repeat_length. Qed.
Lemma rowsum_firstn n w rows : firstn n (rowsum (n + w) rows) = rowsum n (map (firstn n) rows).
Proof. induction rows as [|r rows IH]; [apply firstn_repeat|]. cbn [map]. rewrite !rowsum_cons, zipR_firstn, IH. reflexivity. Qed.
Lemma rowsum_skipn n w rows : skipn n (rowsum (n + w) rows) = rowsum w (map (skipn n) rows).
Proof. induction rows as [|r rows IH]; [apply skipn_repeat|]. cbn [map]. rewrite !rowsum_cons, zipR_skipn, IH. reflexivity. Qed.
Lemma rowsum_zero w rows : Forall (fun r => r = zero_row w) rows -> rowsum w rows = zero_row w.
Proof. induction 1 as [|r rows H _ IH]; [reflexivity|]. rewrite rowsum_cons, H, IH. apply zipR_zero_lr. lra. Qed.
Lemma rdiv_length op n row : length (rdiv op n row) = length row.
Proof. destruct op; [reflexivity|apply map_length]. Qed.
Lemma rdiv_firstn op n k row : firstn k (rdiv op n row) = rdiv op n (firstn k row).
Proof. destruct op; [reflexivity|apply firstn_map]. Qed.
Lemma rdiv_skipn op n k row : skipn k (rdiv op n row) = rdiv op n (skipn k row).
Proof. destruct op; [reflexivity|apply skipn_map]. Qed.
Lemma rdiv_zero op n w : rdiv op n (zero_row w) = zero_row w.
Proof. destruct op; [reflexivity|]. apply map_zero_row. unfold Rdiv. lra. Qed.
Lemma rdiv_concat op n rows : concat (map (rdiv op n) rows) = rdiv op n (concat rows).
Proof. destruct op; cbn [rdiv]; [rewrite map_id; reflexivity|]. rewrite concat_map. reflexivity. Qed.

(* ---------- reductions over leading axes ---------- *)
Lemma fibre_valid kd : forall mask s i, length mask = length s -> valid (reduced_shape kd mask s) i -> Forall (valid s) (fibre kd mask s i).
Proof.
  induction mask as [|b mask IH]; intros [|d s] i L V; try discriminate.
  - cbn in *. constructor; [exact V|constructor].
  - cbn [reduced_shape fibre] in *. injection L as L. destruct b.
    + apply Forall_flat_map, Forall_forall. intros k Hk. apply in_seq in Hk. apply Forall_map.
      eapply Forall_impl; [|apply (IH s (if kd then tl i else i) L)].
      * intros j Hj. constructor; [lia|exact Hj].
      * destruct kd; [inversion V; subst; assumption|exact V].
    + inversion V as [|k ? i' ? Hk V']; subst. cbn [hd tl]. apply Forall_map. eapply Forall_impl; [|apply (IH s i' L V')]. intros j Hj. constructor; assumption.
Qed.
Lemma rows_fold_ok mul d rowss : Forall (fun rows => length rows = mul /\ Forall (fun r => length r = d) rows) rowss ->
  let U := fold_right rows_zip (zeros_rows mul d) rowss in
  length U = mul /\ Forall (fun r => length r = d) U /\ concat U = rowsum (mul * d) (map (@concat R) rowss).
Proof.
  induction 1 as [|rows rowss [HL HF] _ IH]; intros U; subst U; cbn [fold_right map].
  - split; [apply repeat_length|]. split; [|apply concat_zeros]. apply Forall_forall. intros r Hr. apply repeat_spec in Hr as ->. apply repeat_length.
  - destruct IH as (L & Fw & E). set (U := fold_right rows_zip (zeros_rows mul d) rowss) in *. unfold rows_zip. repeat split.
    + rewrite map_length, combine_length. lia.
    + apply Forall_map, Forall_forall. intros [u v] Huv. rewrite zipR_length.
      pose proof (in_combine_l _ _ _ _ Huv) as Hu. pose proof (in_combine_r _ _ _ _ Huv) as Hv. rewrite Forall_forall in HF, Fw. rewrite HF, Fw by assumption. lia.
    + rewrite rowsum_cons, <- E. apply (zipR_concat Rplus d); auto; lia.
Qed.
Lemma reduce_lead_yields op x axes kd : coherent x -> axes <> [] ->
  let mask := reduced_axes (length (lead x)) axes in
  yields (reduce_lead op x axes kd) (irr x) (reduced_shape kd mask (lead x))
    (fun i => let js := fibre kd mask (lead x) i in rdiv op (length js) (rowsum (dim (irr x)) (map (arr x) js))).
Proof.
  intros H Hne mask. unfold reduce_lead. destruct axes as [|a0 axes0]; [congruence|]. fold mask. cbv zeta.
  assert (Lm : length mask = length (lead x)) by (unfold mask, reduced_axes; rewrite map_length, seq_length; reflexivity).
  change (Some (map (option_map (chunk_reduce op kd mask (lead x))) (chunks x))) with (map_chunks (chunk_reduce op kd mask (lead x)) (Some (chunks x))).
  assert (E : forall w a b i, valid (reduced_shape kd mask (lead x)) i -> (forall j, valid (lead x) j -> a j = b j) -> map a (fibre kd mask (lead x) i) = map b (fibre kd mask (lead x) i) :> list (list R) /\ (w : nat) = w).
  { intros w a b i Hi Hab. split; [|reflexivity]. pose proof (fibre_valid kd mask (lead x) i Lm Hi) as Fv. rewrite Forall_forall in Fv. apply map_ext_in. intros j Hj. apply Hab, Fv, Hj. }
  apply (leadop_yields (lead x) (reduced_shape kd mask (lead x))
    (fun w a i => rdiv op (length (fibre kd mask (lead x) i)) (rowsum w (map a (fibre kd mask (lead x) i)))) (chunk_reduce op kd mask (lead x))); auto.
  - intros w a b i Hi Hab. rewrite (proj1 (E w a b i Hi Hab)). reflexivity.
  - intros w a i Hi La. rewrite rdiv_length. apply rowsum_length. apply Forall_map. eapply Forall_impl; [|apply (fibre_valid kd mask (lead x) i Lm Hi)]. exact La.
  - intros n w a i Hi La. rewrite rdiv_firstn, rowsum_firstn, map_map. reflexivity.
  - intros n w a i Hi La. rewrite rdiv_skipn, rowsum_skipn, map_map. reflexivity.
  - intros w i Hi. rewrite rowsum_zero; [apply rdiv_zero|]. apply Forall_map, Forall_forall. reflexivity.
  - intros m c i (W1 & W2 & W3 & W4) Hi. cbn [chunk_reduce c_val]. rewrite W2, W3.
    assert (Fv : Forall (fun rows => length rows = fst m /\ Forall (fun r => length r = ir_dim (snd m)) rows) (map (c_val c) (fibre kd mask (lead x) i))).
    { apply Forall_map. eapply Forall_impl; [|apply (fibre_valid kd mask (lead x) i Lm Hi)]. exact W4. }
    destruct (rows_fold_ok (fst m) (ir_dim (snd m)) _ Fv) as (L1 & L2 & L3). split; [rewrite map_length; exact L1|]. split.
    + apply Forall_map. eapply Forall_impl; [|exact L2]. intros r Hr. cbv beta. rewrite rdiv_length. exact Hr.
    + rewrite rdiv_concat, L3, map_map. reflexivity.
Qed.

(* ---------- reduction over multiplicities ---------- *)
Definition V_reduce (op : rop) (m : mulirrep) (i : idx) (a : idx -> list R) : list R :=
  rdiv op (fst m) (rowsum (ir_dim (snd m)) (group_rows (fst m) (ir_dim (snd m)) (a i))).
Lemma group_rows_zero mul d : group_rows mul d (zero_row (mul * d)) = zeros_rows mul d.
Proof. rewrite <- concat_zeros. apply group_rows_concat; [apply repeat_length|]. apply Forall_forall. intros r Hr. apply repeat_spec in Hr as ->. apply repeat_length. Qed.
Lemma wf_rows s m c i : wf_chunk s m c -> valid s i -> group_rows (fst m) (ir_dim (snd m)) (concat (c_val c i)) = c_val c i.
Proof. intros (_ & _ & _ & W) Hi. destruct (W i Hi). apply group_rows_concat; assumption. Qed.

Lemma combine_option_map {A B C D} (f : A -> B -> C) (g : D -> A) (l : list D) (l' : list (option B)) :
  map (fun '(m, c) => option_map (f m) c) (combine (map g l) l') = map (fun '(m, c) => option_map (f (g m)) c) (combine l l').
Proof. revert l'. induction l as [|d l IH]; intros [|c l']; cbn; try reflexivity. rewrite IH. reflexivity. Qed.
Lemma map_snd_combine {A B C} (f : B -> C) (l : list A) (l' : list B) : length l = length l' -> map f l' = map (fun '(_, b) => f b) (combine l l').
Proof. revert l'. induction l as [|d l IH]; intros [|c l'] L; try discriminate; [reflexivity|]. cbn. rewrite IH by (injection L; auto). reflexivity. Qed.

Lemma reduce_mul_yields op x : coherent x ->
  yields (reduce_mul op x) (map (fun '(_, ir) => (1, ir)) (irr x)) (lead x) (fun i => blockwise (fun m => V_reduce op m i) (irr x) (arr x)).
Proof.
  intros H. eapply (chunkwise_yields (lead x) (lead x) (fun '(_, ir) => (1, ir)) (fun _ => chunk_reduce_mul op) (V_reduce op) (fun _ => True)); auto.
  - intros [mul ir] c _ W. pose proof W as (W1 & W2 & W3 & W4). cbn [fst snd] in *. split.
    + cbn [fst snd] in *. unfold wf_chunk, chunk_reduce_mul. cbn [c_lead c_mul c_dim c_val fst snd]. split; [exact W1|]. split; [reflexivity|]. split; [exact W3|].
      intros i Hi. split; [reflexivity|]. constructor; [|constructor]. rewrite rdiv_length, W3. apply rowsum_length, W4, Hi.
    + intros i Hi. cbn [chunk_reduce_mul c_val concat]. rewrite app_nil_r. unfold V_reduce. pose proof (wf_rows _ _ _ _ W Hi) as E. cbn [fst snd] in *. rewrite E, W2, W3. reflexivity.
  - intros [mul ir] i _ Hi. unfold V_reduce. cbn [fst snd]. change (mi_dim (mul, ir)) with (mul * ir_dim ir). rewrite group_rows_zero.
    rewrite rowsum_zero; [|apply Forall_forall; intros r Hr; apply repeat_spec in Hr; exact Hr]. rewrite rdiv_zero. f_equal. unfold mi_dim. cbn. lia.
  - intros m i a b _ Hi E. unfold V_reduce. rewrite E by exact Hi. reflexivity.
  - apply Forall_forall. auto.
  - unfold reduce_mul. rewrite (map_snd_combine (option_map (chunk_reduce_mul op)) (irr x) (chunks x)); [reflexivity|]. symmetry. apply chunks_length, H.
Qed.

(* ---------- norm ---------- *)
Definition V_norm (sq : bool) (m : mulirrep) (i : idx) (a : idx -> list R) : list R :=
  map (norm_row sq) (group_rows (fst m) (ir_dim (snd m)) (a i)).
Lemma dotR_zero_l n v : dotR (zero_row n) v = 0%R.
Proof. unfold dotR, zero_row, zipR. revert v. induction n as [|n IH]; intros [|b v]; cbn; try reflexivity. rewrite IH. lra. Qed.
Lemma norm_row_zero sq n : norm_row sq (zero_row n) = 0%R.
Proof. unfold norm_row. rewrite dotR_zero_l. unfold safe_sqrt. destruct sq; [reflexivity|]. destruct (Req_EM_T 0 0); [reflexivity|congruence]. Qed.
Lemma concat_singletons {A B} (f : A -> B) l : concat (map (fun a => [f a]) l) = map f l.
Proof. induction l; cbn; congruence. Qed.
Lemma norm_yields x sq : coherent x ->
  yields (norm x sq true) (map (fun '(mul, _) => (mul, even_scalar)) (irr x)) (lead x) (fun i => blockwise (fun m => V_norm sq m i) (irr x) (arr x)).
Proof.
  intros H. eapply (chunkwise_yields (lead x) (lead x) (fun '(mul, _) => (mul, even_scalar)) (fun _ => norm_chunk sq) (V_norm sq) (fun _ => True)); auto.
  - intros [mul ir] c _ W. pose proof W as (W1 & W2 & W3 & W4). cbn [fst snd] in *. split.
    + unfold wf_chunk, norm_chunk. cbn [c_lead c_mul c_dim c_val fst snd]. split; [exact W1|]. split; [exact W2|]. split; [reflexivity|].
      intros i Hi. rewrite map_length. split; [apply W4, Hi|]. apply Forall_map, Forall_forall. reflexivity.
    + intros i Hi. cbn [norm_chunk c_val]. rewrite concat_singletons. unfold V_norm. pose proof (wf_rows _ _ _ _ W Hi) as E. cbn [fst snd] in *. rewrite E. reflexivity.
  - intros [mul ir] i _ Hi. unfold V_norm. cbn [fst snd]. change (mi_dim (mul, ir)) with (mul * ir_dim ir). rewrite group_rows_zero. unfold zeros_rows. rewrite map_repeat.
    fold (zero_row (ir_dim ir)). rewrite norm_row_zero. unfold zero_row, mi_dim. cbn. f_equal. lia.
  - intros m i a b _ Hi E. unfold V_norm. rewrite E by exact Hi. reflexivity.
  - apply Forall_forall. auto.
  - unfold norm. rewrite (map_snd_combine (option_map (norm_chunk sq)) (irr x) (chunks x)); [reflexivity|]. symmetry. apply chunks_length, H.
Qed.
Lemma norm_total_yields x sq : coherent x -> yields (norm x sq false) [(1, even_scalar)] (lead x) (fun i => [norm_row sq (arr x i)]).
Proof. intros H. apply (new_yields [(1, even_scalar)] (lead x) (fun i => [norm_row sq (arr x i)])). reflexivity. Qed.

(* ---------- group action ---------- *)
Definition V_act (D : rep) (m : mulirrep) (i : idx) (a : idx -> list R) : list R :=
  concat (map (matvec (D (snd m))) (group_rows (fst m) (ir_dim (snd m)) (a i))).
Lemma matvec_length M v : length (matvec M v) = length M.
Proof. apply map_length. Qed.
Lemma dotR_zero_r n u : dotR u (zero_row n) = 0%R.
Proof. unfold dotR, zero_row, zipR. revert u. induction n as [|n IH]; intros [|b v]; cbn; try reflexivity. rewrite IH. lra. Qed.
Lemma matvec_zero M n : matvec M (zero_row n) = zero_row (length M).
Proof. unfold matvec, zero_row. induction M as [|r M IH]; [reflexivity|]. cbn [map length repeat]. fold (zero_row n) in *. rewrite dotR_zero_r, IH. reflexivity. Qed.
Lemma transform_yields D x : coherent x -> rep_ok D ->
  yields (transform D x) (irr x) (lead x) (fun i => blockwise (fun m => V_act D m i) (irr x) (arr x)).
Proof.
  intros H HD. rewrite <- (map_id (irr x)) at 1. eapply (chunkwise_yields (lead x) (lead x) (fun m => m)
     (fun m c => Chunk (lead x) (fst m) (ir_dim (snd m)) (fun i => map (matvec (D (snd m))) (c_val c i))) (V_act D) (fun _ => True)); auto.
  - intros m c _ W. pose proof W as (W1 & W2 & W3 & W4). split.
    + unfold wf_chunk. cbn [c_lead c_mul c_dim c_val]. repeat split; [rewrite map_length; apply W4; assumption|].
      apply Forall_map. apply Forall_forall. intros r Hr. rewrite matvec_length. apply HD.
    + intros i Hi. cbn [c_val]. unfold V_act. rewrite (wf_rows _ _ _ _ W Hi). reflexivity.
  - intros m i _ Hi. unfold V_act, mi_dim. rewrite group_rows_zero. unfold zeros_rows. rewrite map_repeat. fold (zero_row (ir_dim (snd m))). rewrite matvec_zero, (proj1 (HD (snd m))).
    fold (zeros_rows (fst m) (ir_dim (snd m))). apply concat_zeros.
  - intros m i a b _ Hi E. unfold V_act. rewrite E by exact Hi. reflexivity.
  - apply Forall_forall. auto.
  - unfold transform. rewrite map_id. f_equal. apply map_ext. intros [[mul ir] c]. reflexivity.
Qed.
