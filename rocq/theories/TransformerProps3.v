(* C65: the Transformer, theorems on the whole call. *)
From Coq Require Import Reals Lra Lia List Arith Bool ZArith Permutation.
From Verif Require Import PyBase PermModel PermProofs IrrepsModel IrrepsProofs IrrepsProofs2 IrrepsStr ArrayModel ArrayProofs ArrayOps RechunkProofs ArithProofs LeadModel LeadProofs BlockProofs AxisProofs StackProofs BilinProofs ActProofs EquivProofs EquivProofs2 SumR EntryProofs ArrayProps2 ArrayProps3 TPModel TPProofs TPProofs2 StableSort TPProofs3 TPProps TPProps2 GradProofs CGModel RotationModel WignerModel WignerProofs WignerProofs2 WignerProps S2Model SHModel S2Proofs2 SHProps SHProps3 ScatterModel ScatterProps NormProofs LinearModel LinearProofs LinearProps LinearComplete LinModModel LinModProofs LinModProofs2 LinModProps ActivationModel MlpModel MlpProps ConvModel ConvProofs ConvProofs2 ConvProofs3 ConvProofs4 ConvProofs5 ConvProofs6 TransformerModel TransformerProofs TransformerProofs2 TransformerProofs3 TransformerProofs4 TransformerProps TransformerProps2.
Import ListNotations.
Open Scope nat_scope.

(* ---- the heads, in words: the copies of an irrep are dealt out to the heads in consecutive blocks, each head scales its copies ---- *)
Definition per_copy (H : nat) (x : irreps) (c : list R) : list R := flat_map (fun m => flat_map (fun v => repeat v (fst m / H)) c) x.
Lemma scale_copies_app l l' c c' : length l = length c -> scale_copies (l ++ l') (c ++ c') = scale_copies l c ++ scale_copies l' c'.
Proof. intros L. unfold scale_copies. rewrite map2_app by exact L. apply concat_app. Qed.
Lemma scale_const k ir v : forall row, length row = k * ir_dim ir -> scale_copies (cut (repeat ir k) row) (repeat v k) = map (fun t => t * v)%R row.
Proof.
  induction k as [|k IH]; intros row L; [destruct row; [reflexivity|discriminate]|]. cbn [repeat cut]. unfold scale_copies. rewrite map2_cons. cbn [concat]. fold (scale_copies (cut (repeat ir k) (skipn (ir_dim ir) row)) (repeat v k)). rewrite IH by (rewrite skipn_length; lia).
  rewrite <- (firstn_skipn (ir_dim ir) row) at 3. rewrite map_app. f_equal. apply map_ext. intros; ring.
Qed.
Lemma heads_block k ir : forall c row, length row = length c * k * ir_dim ir ->
  concat (map (fun h => map (fun v => v * nth h c 0)%R (part (k * ir_dim ir) h row)) (seq 0 (length c))) = scale_copies (cut (repeat ir (length c * k)) row) (flat_map (fun v => repeat v k) c).
Proof.
  induction c as [|v c IH]; intros row L; [reflexivity|]. cbn [length seq map concat flat_map Nat.mul].
  rewrite repeat_app, cut_app, dims_repeat. rewrite scale_copies_app by (rewrite cut_length, !repeat_length; reflexivity). f_equal.
  - cbn [nth]. unfold part. cbn [Nat.mul skipn]. rewrite scale_const by (rewrite firstn_length; cbn [length] in L; nia). reflexivity.
  - rewrite <- IH by (rewrite skipn_length; cbn [length] in L; nia). f_equal. rewrite <- seq_shift, map_map. apply map_ext. intros h. cbn [nth]. unfold part. rewrite skipn_skipn. reflexivity.
Qed.
Lemma valid_one n i : valid [n] i -> exists h, i = [h] /\ h < n.
Proof. intros Hi. inversion Hi as [|h ? t ? Hh Ht]; subst. inversion Ht; subst. eauto. Qed.
Lemma weigh_copies H : forall x c row, H <> 0 -> Forall (fun m => fst m mod H = 0) x -> length c = H -> length row = dim x -> weigh H x c row = scale_copies (SliceProofs2.instances x row) (per_copy H x c).
Proof.
  intros x c row NH D Lc. rewrite instances_cut. revert row. induction x as [|[mul ir] x IH]; intros row L; [reflexivity|]. inversion D as [|? ? Dm D']; subst. cbn [fst] in Dm.
  set (H := length c) in *. set (k := mul / H) in *. assert (Mk : mul = H * k) by (apply Nat.div_exact; assumption). rewrite dim_cons in L. assert (Bd : mi_dim (mul, ir) = H * k * ir_dim ir) by (unfold mi_dim; cbn [fst snd]; rewrite Mk; reflexivity).
  assert (Bk : mi_dim (k, ir) = k * ir_dim ir) by reflexivity.
  unfold weigh. cbn [divided map]. fold (divided H x). cbn [blockwise]. fold k.
  assert (Lp : forall h, h < H -> length (part (k * ir_dim ir) h (firstn (mi_dim (mul, ir)) row)) = k * ir_dim ir) by (intros h Hh; unfold part; rewrite firstn_length, skipn_length, firstn_length; rewrite Bd in *; nia).
  assert (E : forall i, valid [H] i -> map (fun v => v * nth (last i 0%nat) c 0)%R (V_split H (mul, ir) i (fun _ => firstn (mi_dim (mul, ir)) row) ++ blockwise (fun m => V_split H m i) x (fun _ => skipn (mi_dim (mul, ir)) row)) =
    map (fun v => v * nth (last i 0%nat) c 0)%R (part (k * ir_dim ir) (last i 0) (firstn (mi_dim (mul, ir)) row)) ++ map (fun v => v * nth (last i 0%nat) c 0)%R (blockwise (fun m => V_split H m i) x (fun _ => skipn (mi_dim (mul, ir)) row)) /\ last i 0 < H).
  { intros i Hi. destruct (valid_one H i Hi) as (h & -> & Hh). split; [rewrite map_app; reflexivity|exact Hh]. }
  rewrite flat_cons, cut_app, dims_repeat. unfold per_copy. cbn [flat_map fst]. fold (per_copy H x c). fold k. rewrite scale_copies_app.
  - apply (f_equal2 (@app R)).
    + assert (Lf : length (firstn (mul * ir_dim ir) row) = length c * k * ir_dim ir) by (rewrite firstn_length; fold H; rewrite <- Mk; unfold mi_dim in L; cbn [fst snd] in L; lia). pose proof (heads_block k ir c (firstn (mul * ir_dim ir) row) Lf) as HB. fold H in HB. rewrite <- Mk in HB. rewrite <- HB. unfold V_merge. fold H. apply (f_equal (@concat R)). apply map_ext_in. intros h Hh. apply in_seq in Hh. cbn [app]. assert (Hi : valid [H] [h]) by (constructor; [lia|constructor]). destruct (E [h] Hi) as [-> Q]. cbn [last] in *. rewrite firstn_app, map_length, Lp by exact Q. rewrite Bk, Nat.sub_diag, firstn_O, app_nil_r.
      rewrite firstn_all2 by (rewrite map_length, Lp by exact Q; lia). reflexivity.
    + rewrite <- (IH D' (skipn (mul * ir_dim ir) row)) by (rewrite skipn_length; unfold mi_dim in L; cbn [fst snd] in L; lia). unfold weigh. apply (blockwise_data (valid [H])).
      * intros m c0 d0 Q. unfold V_merge. f_equal. apply map_ext_in. intros h Hh. apply in_seq in Hh. apply Q. constructor; [lia|constructor].
      * intros i Hi. destruct (E i Hi) as [-> Q]. rewrite skipn_app, map_length, Lp by exact Q. rewrite Bk, Nat.sub_diag. rewrite skipn_all2 by (rewrite map_length, Lp by exact Q; lia). reflexivity.
  - rewrite cut_length, repeat_length. rewrite Mk. assert (G : forall (n : nat) (l : list R), length (flat_map (fun v => repeat v n) l) = length l * n) by (clear; induction l as [|v l IHl]; [reflexivity|]; cbn [flat_map length Nat.mul]; rewrite app_length, repeat_length, IHl; reflexivity). rewrite G. reflexivity.
Qed.
