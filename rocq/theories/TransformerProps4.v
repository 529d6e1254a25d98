(* C65: what a node of the Transformer receives. *)
From Coq Require Import Reals Lra Lia List Arith Bool ZArith Permutation.
From Verif Require Import PyBase PermModel PermProofs IrrepsModel IrrepsProofs IrrepsProofs2 IrrepsStr ArrayModel ArrayProofs ArrayOps RechunkProofs ArithProofs LeadModel LeadProofs BlockProofs AxisProofs StackProofs BilinProofs ActProofs EquivProofs EquivProofs2 SumR EntryProofs ArrayProps2 ArrayProps3 TPModel TPProofs TPProofs2 StableSort TPProofs3 TPProps TPProps2 GradProofs CGModel RotationModel WignerModel WignerProofs WignerProofs2 WignerProps S2Model SHModel S2Proofs2 SHProps SHProps3 ScatterModel ScatterProps NormProofs LinearModel LinearProofs LinearProps LinearComplete LinModModel LinModProofs LinModProofs2 LinModProps ActivationModel MlpModel MlpProps ConvModel ConvProofs ConvProofs2 ConvProofs3 ConvProofs4 ConvProofs5 ConvProofs6 ConvProps ConvProps2 ConvProps3 TransformerModel TransformerProofs TransformerProofs2 TransformerProofs3 TransformerProofs4 TransformerProps TransformerProps2 TransformerProps3.
Import ListNotations.
Open Scope nat_scope.

(* ---- what a node receives, as a function of its own row and of its inbox ---- *)
Definition note_fine (x y : irreps) (qs : list (list R * list R * R)) : Prop := Forall (fun q => length (note_src q) = dim x /\ length (note_attr q) = dim y) qs.
Definition cut_ok (qs : list (list R * list R * R)) : Prop := Forall (fun q => (0 <= note_cut q)%R) qs.
Lemma inbox_fine feats attr N E src dst cutoff i : nodes_links feats attr N E src dst -> note_fine (irr feats) (irr attr) (inbox feats attr N E src dst cutoff i).
Proof.
  intros [Cf Ca Lf La Hs Hd]. apply Forall_map, Forall_forall. intros e He. apply filter_In in He as [He _]. apply in_seq in He. unfold note_src, note_attr. cbn [fst snd]. split.
  - apply Cf. rewrite Lf. constructor; [apply (node_spec N (src e) (Hs e ltac:(lia)))|constructor].
  - apply Ca. rewrite La. constructor; [lia|constructor].
Qed.
Lemma inbox_cut feats attr N E src dst cutoff i : (forall e, e < E -> (0 <= cutoff e)%R) -> cut_ok (inbox feats attr N E src dst cutoff i).
Proof. intros H. apply Forall_map, Forall_forall. intros e He. apply filter_In in He as [He _]. apply in_seq in He. unfold note_cut. cbn [snd]. apply H. lia. Qed.
Lemma rowsum_drop_zero {A} w (f : A -> list R) (p : A -> bool) l : (forall a, In a l -> length (f a) = w) -> (forall a, In a l -> p a = false -> f a = repeat 0%R w) -> rowsum w (map f l) = rowsum w (map f (filter p l)).
Proof.
  intros L Z0. induction l as [|a l IH]; [reflexivity|]. assert (IH' : rowsum w (map f l) = rowsum w (map f (filter p l))) by (apply IH; intros; [apply L|apply Z0]; auto; now right). cbn [map filter]. rewrite rowsum_cons, IH'. destruct (p a) eqn:Pa; [cbn [map]; now rewrite rowsum_cons|].
  rewrite (Z0 a (or_introl eq_refl) Pa). assert (Lr : length (rowsum w (map f (filter p l))) = w) by (apply rowsum_length, Forall_map, Forall_forall; intros b Hb; apply filter_In in Hb as [Hb _]; apply L; now right).
  apply (nth_ext _ _ 0%R 0%R); [rewrite zipR_length, repeat_length, Lr; apply Nat.min_id|]. intros c Hc. rewrite zipR_length, repeat_length, Lr in Hc. rewrite nth_zipR by (rewrite ?repeat_length; lia). rewrite nth_repeat. lra.
Qed.
Lemma scale_zero : forall (l : list (list R)), scale_copies l (repeat 0%R (length l)) = repeat 0%R (length (concat l)).
Proof.
  induction l as [|r l IH]; [reflexivity|]. cbn [length repeat]. unfold scale_copies. rewrite map2_cons. cbn [concat]. fold (scale_copies l (repeat 0%R (length l))). rewrite IH, app_length, repeat_app. f_equal. clear. induction r as [|a r IH]; [reflexivity|]. cbn [map length repeat]. rewrite IH. f_equal. ring.
Qed.
Lemma per_copy_zero H : forall x, exists n, per_copy H x (repeat 0%R H) = repeat 0%R n.
Proof.
  induction x as [|m x [n E]]; [exists 0; reflexivity|]. unfold per_copy. cbn [flat_map]. fold (per_copy H x (repeat 0%R H)). rewrite E. assert (G : forall k n, exists r, flat_map (fun v => repeat v k) (repeat 0%R n) = repeat 0%R r) by (clear; intros k; induction n as [|n [r IH]]; [exists 0; reflexivity|exists (k + r); cbn [repeat flat_map]; rewrite IH; now rewrite repeat_app]).
  destruct (G (fst m / H) H) as [r ->]. exists (r + n). now rewrite repeat_app.
Qed.
Lemma zeros_seq n s : map (fun _ : nat => 0%R) (seq s n) = repeat 0%R n.
Proof. revert s. induction n as [|n IH]; intros s; [reflexivity|]. cbn [seq map repeat]. now rewrite IH. Qed.
Section Node.
Variables (T : attention_net) (P : transformer_params) (x : irreps) (fl : list bool) (y : irreps) (fy : list bool) (xv : irreps) (logit : list R -> list R -> list R -> list R) (val : list R -> list R -> list R) (xo : irreps) (out : list R -> list R).
Hypothesis TF : tform T P x fl y fy xv logit val xo out.
Let H := t_heads T.
Lemma weigh_zero row : length row = dim xv -> weigh H xv (repeat 0%R H) row = repeat 0%R (dim xv).
Proof.
  intros L. destruct TF as [_ _ _ _ _ NH Dv Pv Nv _ _ _]. pose proof (weigh_len H xv (repeat 0%R H) row NH Dv Pv Nv L) as W. rewrite (weigh_copies H xv (repeat 0%R H) row NH Dv (repeat_length _ _) L) in *. destruct (per_copy_zero H xv) as [n E]. rewrite E in *.
  assert (G : forall (l : list (list R)) n, exists r, scale_copies l (repeat 0%R n) = repeat 0%R r). { clear. induction l as [|r l IH]; intros [|n]; try (exists 0; reflexivity). destruct (IH n) as [q Q]. exists (length r + q). cbn [repeat]. unfold scale_copies. rewrite map2_cons. cbn [concat]. fold (scale_copies l (repeat 0%R n)). rewrite Q, repeat_app. f_equal. clear. induction r as [|a r IH]; [reflexivity|]. cbn [map length repeat]. rewrite IH. f_equal. ring. }
  destruct (G (SliceProofs2.instances xv row) n) as [r Q]. rewrite Q in *. rewrite repeat_length in W. now rewrite W.
Qed.
Lemma shares_len own qs q : length (shares H logit own qs q) = H.
Proof. unfold shares. now rewrite map_length, seq_length. Qed.
Lemma pooled_rows qs : note_fine x y qs -> forall cs : list R * list R * R -> list R, Forall (fun r => length r = dim xv) (map (fun q => weigh H xv (cs q) (val (note_src q) (note_attr q))) qs).
Proof.
  intros F cs. destruct TF as [_ _ _ Lv _ NH Dv Pv Nv _ _ _]. apply Forall_map. eapply Forall_impl; [|exact F]. intros q [L1 L2]. apply weigh_len; auto.
Qed.
Lemma pooled_len own qs : note_fine x y qs -> length (pooled H xv logit val own qs) = dim xv.
Proof. intros F. unfold pooled. apply rowsum_length, pooled_rows; assumption. Qed.
Lemma pooled_perm own qs qs' : note_fine x y qs -> Permutation qs qs' -> pooled H xv logit val own qs = pooled H xv logit val own qs'.
Proof.
  intros F Pm. unfold pooled. transitivity (rowsum (dim xv) (map (fun q => weigh H xv (shares H logit own qs' q) (val (note_src q) (note_attr q))) qs)).
  - f_equal. apply map_ext. intros q. f_equal. unfold shares. apply map_ext. intros h. f_equal. f_equal. apply attend_perm. unfold scores. now apply Permutation_map.
  - apply rowsum_perm; [now apply Permutation_map|]. apply pooled_rows; assumption.
Qed.
Lemma pooled_act r own qs : orthogonal3 r -> length own = dim x -> note_fine x y qs ->
  act (rep_of r) xv (pooled H xv logit val own qs) = pooled H xv logit val (act (rep_of r) x own) (map (fun q => (act (rep_of r) x (note_src q), act (rep_of r) y (note_attr q), note_cut q)) qs).
Proof.
  intros O Lo F. assert (HD : rep_ok (rep_of r)) by apply as_rep_ok. pose proof TF as [_ _ Ll Lv Av NH Dv Pv Nv _ _ _]. unfold pooled. rewrite act_rowsum by (try exact HD; apply pooled_rows; assumption). f_equal. rewrite !map_map. apply map_ext_in. intros q Hq. pose proof F as F0. unfold note_fine in F0. rewrite Forall_forall in F0. destruct (F0 q Hq) as [L1 L2].
  rewrite (weigh_act (rep_of r) H xv _ _ HD (rep_of_scalar r O) NH Dv Pv Nv) by (now apply Lv). rewrite Av by assumption. apply f_equal2; [|reflexivity].
  assert (Sc : scores logit (act (rep_of r) x own) (map (fun q => (act (rep_of r) x (note_src q), act (rep_of r) y (note_attr q), note_cut q)) qs) = scores logit own qs).
  { unfold scores. rewrite map_map. apply map_ext_in. intros p Hp. destruct (F0 p Hp) as [M1 M2]. unfold note_src, note_attr, note_cut in *. cbn [fst snd]. rewrite Ll by assumption. reflexivity. }
  unfold shares. apply map_ext. intros h. rewrite Sc. unfold note_src, note_attr, note_cut in *. cbn [fst snd]. rewrite Ll by assumption. reflexivity.
Qed.
(* with cutoffs that are not negative *)
Definition soft (own : list R) (qs : list (list R * list R * R)) (q : list R * list R * R) : list R :=
  map (fun h => sqrt (note_cut q * exp (nth h (logit own (note_src q) (note_attr q)) 0) / lsum qs (fun p => note_cut p * exp (nth h (logit own (note_src p) (note_attr p)) 0))))%R (seq 0 H).
Lemma shares_soft own qs q : cut_ok qs -> In q qs -> shares H logit own qs q = soft own qs q.
Proof.
  intros C Hq. unfold shares, soft. apply map_ext. intros h. f_equal. assert (C' : cutoffs_ok (scores logit own qs)) by (apply Forall_map; exact C). assert (In_ : In (note_cut q, logit own (note_src q) (note_attr q)) (scores logit own qs)) by (unfold scores; apply (in_map (fun q => (note_cut q, logit own (note_src q) (note_attr q)))); exact Hq).
  rewrite attend_form by assumption. rewrite Rmax_right by (now apply softmax_nonneg). unfold softmax. cbn [fst snd]. f_equal. unfold scores. rewrite lsum_map. reflexivity.
Qed.
Definition live (q : list R * list R * R) : bool := if Req_EM_T (note_cut q) 0 then false else true.
Lemma soft_live own qs q : soft own (filter live qs) q = soft own qs q.
Proof.
  unfold soft. apply map_ext. intros h. f_equal. f_equal. rewrite lsum_filter. apply lsum_ext. intros p _. unfold live. destruct (Req_EM_T (note_cut p) 0) as [->|_]; [ring|reflexivity].
Qed.
Lemma pooled_live own qs : cut_ok qs -> note_fine x y qs -> pooled H xv logit val own qs = pooled H xv logit val own (filter live qs).
Proof.
  intros C F. pose proof TF as [_ _ _ Lv _ NH Dv Pv Nv _ _ _]. unfold pooled. rewrite (rowsum_drop_zero (dim xv) _ live qs).
  - f_equal. apply map_ext_in. intros q Hq. f_equal. rewrite (shares_soft own (filter live qs) q); [|apply Forall_forall; intros p Hp; apply filter_In in Hp as [Hp _]; unfold cut_ok in C; rewrite Forall_forall in C; now apply C|exact Hq]. apply filter_In in Hq as [Hq _]. rewrite (shares_soft own qs q C Hq). symmetry. apply soft_live.
  - intros q Hq. unfold note_fine in F. rewrite Forall_forall in F. destruct (F q Hq). apply weigh_len; auto.
  - intros q Hq Dead. unfold note_fine in F. rewrite Forall_forall in F. destruct (F q Hq). rewrite (shares_soft own qs q C Hq). unfold soft, live in *. destruct (Req_EM_T (note_cut q) 0) as [Q|_]; [|discriminate]. rewrite Q.
    rewrite (map_ext _ (fun _ : nat => 0%R)); [rewrite zeros_seq; now apply weigh_zero, Lv|]. intros h. rewrite <- sqrt_0 at 3. f_equal. unfold Rdiv. ring.
Qed.
Lemma out_zero : out (repeat 0%R (dim xv)) = repeat 0%R (dim xo).
Proof.
  destruct TF as [_ _ _ _ _ _ _ _ _ Lo _ Li]. assert (L0 : length (repeat 0%R (dim xv)) = dim xv) by apply repeat_length. pose proof (Li 1%R _ _ L0 L0) as Q. rewrite !lin_one in Q. specialize (Lo _ L0).
  assert (Zz : zipR Rplus (repeat 0%R (dim xv)) (repeat 0%R (dim xv)) = repeat 0%R (dim xv)) by (clear; induction (dim xv) as [|n IH]; [reflexivity|]; cbn [repeat]; rewrite zipR_cons, IH; f_equal; lra). rewrite Zz in Q.
  apply (nth_ext _ _ 0%R 0%R); [now rewrite repeat_length|]. intros c Hc. pose proof (f_equal (fun l => nth c l 0%R) Q) as Q'. cbv beta in Q'. rewrite nth_zipR in Q' by (auto; lia). rewrite nth_repeat. lra.
Qed.
End Node.
