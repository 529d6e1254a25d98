(* C65: the attention coefficients of the Transformer. *)
From Coq Require Import Reals Lra Lia List Arith Bool ZArith Permutation.
From Verif Require Import PyBase PermModel PermProofs IrrepsModel IrrepsProofs IrrepsProofs2 IrrepsStr ArrayModel ArrayProofs ArrayOps RechunkProofs ArithProofs LeadModel LeadProofs BlockProofs AxisProofs StackProofs BilinProofs ActProofs EquivProofs EquivProofs2 SumR EntryProofs ArrayProps2 ArrayProps3 TPModel TPProofs TPProofs2 StableSort TPProofs3 TPProps TPProps2 GradProofs CGModel RotationModel WignerModel WignerProofs WignerProofs2 WignerProps S2Model SHModel S2Proofs2 SHProps SHProps3 ScatterModel ScatterProps NormProofs LinearModel LinearProofs LinearProps LinearComplete LinModModel LinModProofs LinModProofs2 LinModProps ActivationModel MlpModel MlpProps ConvModel ConvProofs ConvProofs2 ConvProofs3 ConvProofs4 ConvProofs5 ConvProofs6 TransformerModel TransformerProofs TransformerProofs2 TransformerProofs3 TransformerProofs4 TransformerProps.
Import ListNotations.
Open Scope nat_scope.

(* ---- the attention coefficients ---- *)
(* softmax with cutoffs: c exp(l) over the sum of all c exp(l), for the edges (c, logits) of one node and one head *)
Definition softmax (box : list (R * list R)) (h : nat) (q : R * list R) : R := (fst q * exp (nth h (snd q) 0) / lsum box (fun p => fst p * exp (nth h (snd p) 0)))%R.
Definition cutoffs_ok (box : list (R * list R)) : Prop := Forall (fun q => (0 <= fst q)%R) box.
Lemma heat_scaled box h q : heat box h q = (fst q * exp (nth h (snd q) 0) * exp (- shift box h))%R.
Proof. unfold heat, Rminus. rewrite exp_plus. ring. Qed.
Lemma partition_scaled box h : partition box h = (lsum box (fun p => fst p * exp (nth h (snd p) 0)) * exp (- shift box h))%R.
Proof. unfold partition. rewrite <- lsum_scal_r. apply lsum_ext. intros q _. apply heat_scaled. Qed.
Lemma exp_ne t : exp t <> 0%R. Proof. pose proof (exp_pos t). lra. Qed.
Lemma attend_softmax box h q : lsum box (fun p => fst p * exp (nth h (snd p) 0))%R <> 0%R -> attend box h q = softmax box h q.
Proof.
  intros N. pose proof (exp_ne (- shift box h)) as Ne. unfold attend. rewrite heat_scaled, partition_scaled. destruct (Req_EM_T _ 0) as [Z0|_].
  - exfalso. apply Rmult_integral in Z0 as [Z0|Z0]; contradiction.
  - unfold softmax. field. split; assumption.
Qed.
Lemma mass_zero box h : cutoffs_ok box -> lsum box (fun p => fst p * exp (nth h (snd p) 0))%R = 0%R -> Forall (fun q => fst q = 0%R) box.
Proof.
  intros F Z0. apply Forall_forall. intros q Hq. unfold cutoffs_ok in F. rewrite Forall_forall in F. pose proof (CGComplete.lsum_zero_terms box (fun p => fst p * exp (nth h (snd p) 0))%R) as Q. assert (T0 : (fst q * exp (nth h (snd q) 0))%R = 0%R).
  { apply Q; auto. intros a Ha. apply Rmult_le_pos; [apply F, Ha|left; apply exp_pos]. }
  apply Rmult_integral in T0 as [T0|T0]; [exact T0|]. exfalso. now apply (exp_ne (nth h (snd q) 0%R)).
Qed.
Lemma attend_form box h q : cutoffs_ok box -> In q box -> attend box h q = softmax box h q.
Proof.
  intros F Hq. destruct (Req_EM_T (lsum box (fun p => fst p * exp (nth h (snd p) 0))%R) 0) as [Z0|N]; [|now apply attend_softmax].
  pose proof (mass_zero box h F Z0) as A. rewrite Forall_forall in A. unfold attend, heat, softmax. rewrite (A q Hq). unfold Rdiv. rewrite !Rmult_0_l. reflexivity.
Qed.
Lemma softmax_perm box box' h q : Permutation box box' -> softmax box h q = softmax box' h q.
Proof. intros P. unfold softmax. f_equal. now apply S2Proofs3.lsum_perm. Qed.
Lemma softmax_nonneg box h q : cutoffs_ok box -> In q box -> (0 <= softmax box h q)%R.
Proof.
  intros F Hq. unfold cutoffs_ok in F. rewrite Forall_forall in F. unfold softmax. assert (S0 : (0 <= lsum box (fun p => fst p * exp (nth h (snd p) 0)))%R) by (apply lsum_nonneg; intros a Ha; apply Rmult_le_pos; [apply F, Ha|left; apply exp_pos]).
  assert (A : (0 <= fst q * exp (nth h (snd q) 0))%R) by (apply Rmult_le_pos; [apply F, Hq|left; apply exp_pos]). destruct (Req_EM_T (lsum box (fun p => fst p * exp (nth h (snd p) 0))%R) 0) as [->|N].
  - unfold Rdiv. rewrite Rinv_0. lra.
  - apply Rmult_le_pos; [exact A|]. left. apply Rinv_0_lt_compat. lra.
Qed.
Lemma softmax_sum box h : cutoffs_ok box -> Exists (fun q => (0 < fst q)%R) box -> lsum box (softmax box h) = 1%R.
Proof.
  intros F X. unfold softmax, Rdiv. rewrite (lsum_scal_r box (/ lsum box (fun p => fst p * exp (nth h (snd p) 0)))%R (fun q => fst q * exp (nth h (snd q) 0))%R). apply Rinv_r. intros Z0. pose proof (mass_zero box h F Z0) as A. rewrite Forall_forall in A. apply Exists_exists in X as (q & Hq & P). rewrite (A q Hq) in P. lra.
Qed.
Lemma shift_perm box box' h : Permutation box box' -> shift box h = shift box' h.
Proof.
  intros P. unfold shift. assert (G : forall l l' : list R, Permutation l l' -> forall c, fold_left Rmax l c = fold_left Rmax l' c).
  { induction 1 as [|a l l' _ IH|a b l|l l' l'' _ IH1 _ IH2]; intros c; cbn [fold_left]; auto; [|now rewrite IH1]. f_equal. rewrite <- !Rmax_assoc. f_equal. apply Rmax_comm. }
  apply G. now apply Permutation_map.
Qed.
Lemma attend_perm box box' h q : Permutation box box' -> attend box h q = attend box' h q.
Proof.
  intros P. assert (Hh : forall p, heat box h p = heat box' h p) by (intros p; unfold heat; now rewrite (shift_perm box box' h P)). unfold attend. rewrite Hh. assert (Q : partition box h = partition box' h). { unfold partition. rewrite (S2Proofs3.lsum_perm _ _ _ P). apply lsum_ext. intros; apply Hh. } now rewrite Q.
Qed.

(* alpha, as computed by the code: for edges with cutoffs that are not negative it is the softmax over the edges that end in the same node *)
Theorem C65_softmax N E dst w cutoff logit : (forall e, e < E -> (- Z.of_nat N <= dst e < Z.of_nat N)%Z) -> (forall e, e < E -> length (logit e) = w) -> (forall e, e < E -> (0 <= cutoff e)%R) ->
  exists al, tf_alpha E N w dst cutoff logit = Ok al /\ forall e h, e < E -> h < w ->
    nth h (al e) 0%R = (cutoff e * exp (nth h (logit e) 0) / lsum (filter (fun f => node N (dst f) =? node N (dst e))%nat (seq 0 E)) (fun f => cutoff f * exp (nth h (logit f) 0)))%R.
Proof.
  intros H L C. destruct (alpha_rows N E dst w cutoff logit H L) as (al & Ea & A). exists al. split; [exact Ea|]. intros e h He Hh. rewrite A by exact He. rewrite nth_map_seq by exact Hh.
  assert (In_ : forall f, In f (incoming N E dst (node N (dst e))) -> f < E) by (intros f Hf; apply filter_In in Hf as [Hf _]; apply in_seq in Hf; lia).
  rewrite attend_form.
  - unfold softmax. cbn [fst snd]. f_equal. unfold box_of. rewrite lsum_map. reflexivity.
  - apply Forall_map, Forall_forall. intros f Hf. cbn [fst]. apply C, In_, Hf.
  - unfold box_of. apply (in_map (fun e => (cutoff e, logit e))). apply filter_In. split; [apply in_seq; lia|apply Nat.eqb_refl].
Qed.
(* so the coefficients of the edges of a node lie between 0 and 1 and sum to 1 when one of the cutoffs is positive *)
Theorem C65_coefficients N E dst w cutoff logit al : (forall e, e < E -> (- Z.of_nat N <= dst e < Z.of_nat N)%Z) -> (forall e, e < E -> length (logit e) = w) -> (forall e, e < E -> (0 <= cutoff e)%R) -> tf_alpha E N w dst cutoff logit = Ok al ->
  (forall e h, e < E -> h < w -> (0 <= nth h (al e) 0 <= 1)%R) /\
  (forall n h, h < w -> (exists e, e < E /\ node N (dst e) = n /\ (0 < cutoff e)%R) -> lsum (filter (fun f => node N (dst f) =? n)%nat (seq 0 E)) (fun e => nth h (al e) 0%R) = 1%R).
Proof.
  intros H L C Ea. destruct (C65_softmax N E dst w cutoff logit H L C) as (al' & Ea' & A). rewrite Ea in Ea'. injection Ea' as <-.
  assert (NN : forall h f, f < E -> (0 <= cutoff f * exp (nth h (logit f) 0))%R) by (intros h f Hf; apply Rmult_le_pos; [apply C, Hf|left; apply exp_pos]).
  assert (Bd : forall n f, In f (filter (fun f => node N (dst f) =? n)%nat (seq 0 E)) -> f < E) by (intros n f Hf; apply filter_In in Hf as [Hf _]; apply in_seq in Hf; lia).
  split.
  - intros e h He Hh. rewrite A by assumption. set (l := filter _ _). set (g := fun f => (cutoff f * exp (nth h (logit f) 0))%R). assert (G : forall f, In f l -> (0 <= g f)%R) by (intros f Hf; apply NN, (Bd _ f Hf)).
    assert (Le : (g e <= lsum l g)%R).
    { assert (Hin : In e l) by (apply filter_In; split; [apply in_seq; lia|apply Nat.eqb_refl]). clearbody l. revert G Hin. clear. intros G Hin. induction l as [|a l IH]; [contradiction|]. rewrite lsum_cons. destruct Hin as [->|Hin]; [pose proof (lsum_nonneg l g (fun f Hf => G f (or_intror Hf))); lra|]. pose proof (IH (fun f Hf => G f (or_intror Hf)) Hin). pose proof (G a (or_introl eq_refl)). lra. }
    assert (G0 : (0 <= g e)%R) by (apply NN, He). change (cutoff e * exp (nth h (logit e) 0))%R with (g e). change (0 <= g e / lsum l g <= 1)%R. destruct (Req_EM_T (lsum l g) 0) as [Z0|Nz].
    + rewrite Z0. unfold Rdiv. rewrite Rinv_0. lra.
    + assert (P : (0 < lsum l g)%R) by lra. split; [apply Rmult_le_pos; [exact G0|left; now apply Rinv_0_lt_compat]|]. apply (Rmult_le_reg_r (lsum l g)); [exact P|]. unfold Rdiv. rewrite Rmult_assoc, Rinv_l by exact Nz. lra.
  - intros n h Hh (e & He & Hn & Pe). set (l := filter _ _). set (g := fun f => (cutoff f * exp (nth h (logit f) 0))%R).
    assert (Hin : In e l) by (apply filter_In; split; [apply in_seq; lia|apply Nat.eqb_eq, Hn]). rewrite (lsum_ext l (fun e => nth h (al e) 0%R) (fun f => g f * / lsum l g)%R).
    + rewrite lsum_scal_r. apply Rinv_r. pose proof (LinearProps.lsum_pos l g e (fun f Hf => NN h f (Bd _ f Hf)) Hin) as Q. assert (0 < g e)%R by (apply Rmult_lt_0_compat; [exact Pe|apply exp_pos]). specialize (Q H0). lra.
    + intros f Hf. rewrite A by (auto; apply (Bd _ f Hf)). apply filter_In in Hf as [_ Hf]. apply Nat.eqb_eq in Hf. rewrite Hf. reflexivity.
Qed.
