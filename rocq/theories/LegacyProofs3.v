(* The legacy tensor product: what the constructor guarantees, the weights, the value of left_right without fusion *)
From Coq Require Import Reals Lra Lia List.
From Verif Require Import PyBase PermModel PermProofs IrrepsModel IrrepsProofs IrrepsProofs2 ArrayModel ArrayProofs ArrayOps RechunkProofs ArithProofs BlockProofs LeadModel LeadProofs StackProofs BilinProofs ActProofs EquivProofs EquivProofs2 SumR TPModel LinearModel LinearProofs TPProofs TPProofs2 LinearProps TPProps2 TPProps3 TPProps4 SymProofs2 LegacyModel GSProofs LegacyProofs LegacyProofs2.
From Verif Require Import EntryProofs.
Import ListNotations.
Open Scope nat_scope.

Lemma mapM_all {A B} (f : A -> res B) l r : mapM f l = Ok r -> Forall2 (fun a b => f a = Ok b) l r.
Proof.
  revert r. induction l as [|a l IH]; intros r E; cbn [mapM] in E; [injection E as <-; constructor|].
  destruct (f a) as [b|] eqn:Eb; [|discriminate]. destruct (mapM f l) as [bs|]; [|discriminate]. injection E as <-. constructor; [exact Eb|apply IH; reflexivity].
Qed.
Lemma entry_of_error (x : irreps) i : i < length x -> nth_error x i = Some (entry_of x i).
Proof. intros H. unfold entry_of. apply nth_error_nth'. exact H. Qed.
Lemma make_ins_ok x y z u o : make_ins x y z u = Ok o -> exists i1 i2 io m hw pw, u = (i1, i2, io, m, hw, pw) /\ i1 < length x /\ i2 < length y /\ io < length z /\ m <> MBad /\
  o = TIns i1 i2 io m hw pw None (fst (entry_of x i1)) (fst (entry_of y i2)) (fst (entry_of z io)).
Proof.
  destruct u as [[[[[i1 i2] io] m] hw] pw]. unfold make_ins. destruct (_ && _ && _) eqn:B; [|discriminate]. cbn [negb]. rewrite !andb_true_iff, !Nat.ltb_lt in B. destruct B as [[B1 B2] B3].
  intros E. exists i1, i2, io, m, hw, pw. split; [reflexivity|]. repeat (split; [assumption|]). destruct m; try discriminate; injection E as <-; (split; [discriminate|reflexivity]).
Qed.
Lemma coupling_test a b c : parity_eqb (pmul (ir_p a) (ir_p b)) (ir_p c) = true -> (ir_l a - ir_l b + (ir_l b - ir_l a) <=? ir_l c) && (ir_l c <=? ir_l a + ir_l b) = true -> In c (ir_mul a b).
Proof. intros P L. apply ir_mul_in. apply parity_eqb_eq in P. rewrite andb_true_iff, !Nat.leb_le in L. split; [symmetry; exact P|lia]. Qed.
(* an updated instruction keeps everything but the two normalisation numbers *)
Definition same_path (o o' : tinstr) : Prop := ti_1 o' = ti_1 o /\ ti_2 o' = ti_2 o /\ ti_o o' = ti_o o /\ ti_mode o' = ti_mode o /\ ti_hw o' = ti_hw o /\ ti_m1 o' = ti_m1 o /\ ti_m2 o' = ti_m2 o /\ ti_mo o' = ti_mo o.
Lemma update_ok x y z v1 v2 vo nrm pn gn ins o o' : update x y z v1 v2 vo nrm pn gn ins o = Ok o' ->
  same_path o o' /\ nrm <> NOther /\ In (snd (entry_of z (ti_o o))) (ir_mul (snd (entry_of x (ti_1 o))) (snd (entry_of y (ti_2 o)))) /\ ti_o o < length vo /\
  (0 <= ins_alpha x y z v1 v2 vo nrm pn ins o)%R /\
  (if ti_hw o then ti_pw o' = fpow (sqrt (ins_alpha x y z v1 v2 vo nrm pn ins o)) gn /\ ti_std o' = Some (fpow (sqrt (ins_alpha x y z v1 v2 vo nrm pn ins o)) (1 - gn))
   else ti_pw o' = sqrt (ins_alpha x y z v1 v2 vo nrm pn ins o)).
Proof.
  unfold update. destruct (match nrm with NOther => true | _ => false end) eqn:N; [discriminate|]. destruct (parity_eqb _ _) eqn:P; [|discriminate]. destruct (_ && _) eqn:L; [|discriminate]. cbn [negb].
  destruct (Nat.ltb_spec (ti_o o) (length vo)) as [Hv|]; [|discriminate]. cbn [negb]. destruct (Rlt_dec _ _) as [|G]; [discriminate|]. intros E.
  assert (E' : o' = (if ti_hw o then TIns (ti_1 o) (ti_2 o) (ti_o o) (ti_mode o) (ti_hw o) (fpow (sqrt (ins_alpha x y z v1 v2 vo nrm pn ins o)) gn) (Some (fpow (sqrt (ins_alpha x y z v1 v2 vo nrm pn ins o)) (1 - gn))) (ti_m1 o) (ti_m2 o) (ti_mo o)
             else TIns (ti_1 o) (ti_2 o) (ti_o o) (ti_mode o) (ti_hw o) (sqrt (ins_alpha x y z v1 v2 vo nrm pn ins o)) (ti_std o) (ti_m1 o) (ti_m2 o) (ti_mo o))) by congruence.
  clear E. rewrite E'. split; [unfold same_path; destruct (ti_hw o); cbn; repeat split|]. split; [intros ->; discriminate|]. split; [apply coupling_test; assumption|]. split; [exact Hv|]. split; [lra|]. destruct (ti_hw o); cbn [ti_pw ti_std]; [split; reflexivity|reflexivity].
Qed.

(* everything the constructor guarantees: an accepted user instruction becomes an instruction with the same indices, mode and flag *)
Definition made (x y z : irreps) (u : uinstr) (o : tinstr) : Prop :=
  let '(i1, i2, io, m, hw, pw) := u in ti_1 o = i1 /\ ti_2 o = i2 /\ ti_o o = io /\ ti_mode o = m /\ ti_hw o = hw /\
    ti_m1 o = fst (entry_of x i1) /\ ti_m2 o = fst (entry_of y i2) /\ ti_mo o = fst (entry_of z io).
Lemma constructor_inv x y z us v1 v2 vo nrm pn gn T : functional_tp x y z us v1 v2 vo nrm pn gn = Ok T ->
  exists ins, mapM (make_ins x y z) us = Ok ins /\ tp_in1 T = x /\ tp_in2 T = y /\ tp_out T = z /\ tp_mask T = out_mask z (tp_ins T) /\
    Forall2 (fun o o' => update x y z (var_or v1 x) (var_or v2 y) (var_or vo z) nrm pn gn ins o = Ok o') ins (tp_ins T) /\
    Forall (fun o => ti_1 o < length (var_or v1 x) /\ ti_2 o < length (var_or v2 y)) ins.
Proof.
  unfold functional_tp. destruct (mapM (make_ins x y z) us) as [ins|] eqn:E; [|discriminate]. cbn [bind]. destruct (forallb _ ins) eqn:F; [|discriminate]. cbn [negb].
  destruct (mapM (update _ _ _ _ _ _ _ _ _ _) ins) as [ins'|] eqn:E'; [|discriminate]. cbn [bind]. intros H. assert (H' : T = FTP x y z ins' (out_mask z ins')) by congruence. clear H. subst T. exists ins. cbn [tp_in1 tp_in2 tp_out tp_ins tp_mask]. repeat (split; [reflexivity|]). split; [apply mapM_all, E'|].
  rewrite forallb_forall in F. apply Forall_forall. intros o Ho. specialize (F o Ho). rewrite andb_true_iff, !Nat.ltb_lt in F. exact F.
Qed.
Lemma Forall2_comp {A B C} (P : A -> B -> Prop) (Q : B -> C -> Prop) (S : A -> C -> Prop) l m n : (forall a b c, P a b -> Q b c -> S a c) -> Forall2 P l m -> Forall2 Q m n -> Forall2 S l n.
Proof. intros H F. revert n. induction F as [|a b l m Hab F IH]; intros n G; inversion G; subst; constructor; eauto. Qed.
Lemma constructor_coupled x y z us v1 v2 vo nrm pn gn T : functional_tp x y z us v1 v2 vo nrm pn gn = Ok T ->
  Forall2 (fun u o => made x y z u o /\ coupled_ins x y z o) us (tp_ins T).
Proof.
  intros E. destruct (constructor_inv _ _ _ _ _ _ _ _ _ _ _ E) as (ins & Em & _ & _ & _ & _ & Fu & _). eapply Forall2_comp; [|apply mapM_all, Em|exact Fu]. cbv beta. intros u o o' Hu Ho.
  destruct (make_ins_ok _ _ _ _ _ Hu) as (i1 & i2 & io & m & hw & pw & -> & B1 & B2 & B3 & _ & ->). destruct (update_ok _ _ _ _ _ _ _ _ _ _ _ _ Ho) as ((S1 & S2 & S3 & S4 & S5 & S6 & S7 & S8) & _ & C & _). cbn [ti_1 ti_2 ti_o ti_mode ti_hw ti_m1 ti_m2 ti_mo] in *.
  split; [unfold made; auto 10|]. unfold coupled_ins. rewrite S1, S2, S3, S6, S7, S8. rewrite !entry_of_error by assumption. destruct (entry_of x i1) as [m1 a], (entry_of y i2) as [m2 b], (entry_of z io) as [mo c]. cbn [fst snd] in *. exists m1, a, m2, b, mo, c. repeat split; auto.
Qed.
Lemma Forall2_right {A B} (P : A -> B -> Prop) (Q : B -> Prop) l m : (forall a b, P a b -> Q b) -> Forall2 P l m -> Forall Q m.
Proof. intros H. induction 1; constructor; eauto. Qed.
Lemma coupled_all x y z us v1 v2 vo nrm pn gn T : functional_tp x y z us v1 v2 vo nrm pn gn = Ok T -> Forall (coupled_ins (tp_in1 T) (tp_in2 T) (tp_out T)) (tp_ins T).
Proof.
  intros E. destruct (constructor_inv _ _ _ _ _ _ _ _ _ _ _ E) as (ins & _ & -> & -> & -> & _). eapply Forall2_right; [|exact (constructor_coupled _ _ _ _ _ _ _ _ _ _ _ E)]. cbv beta. intros ? ? [_ H]. exact H.
Qed.

(* ---------- weights ---------- *)
Definition weight_count (ins : list tinstr) : nat := PyBase.sum (map (fun o => nprod (path_shape o)) (filter ti_hw ins)).
Lemma weight_count_cons o ins : weight_count (o :: ins) = (if ti_hw o then nprod (path_shape o) else 0) + weight_count ins.
Proof. unfold weight_count. cbn [filter]. destruct (ti_hw o); reflexivity. Qed.
(* the flat array is cut in consecutive pieces *)
Lemma split_flat_app ins : forall pre w, (exists l, split_flat (length pre) ins (pre ++ w) = Ok l /\ weights_fit ins l /\ flat_map t_val l = w) \/ (length w <> weight_count ins /\ exists e, split_flat (length pre) ins (pre ++ w) = Err e /\ (length w < weight_count ins -> e = TypeError \/ e = AssertionError)).
Proof.
  induction ins as [|o ins IH]; intros pre w.
  - cbn [split_flat]. rewrite app_length. destruct (Nat.eqb_spec (length pre) (length pre + length w)) as [E|E].
    + left. exists []. split; [reflexivity|]. split; [constructor|]. destruct w; [reflexivity|cbn in E; lia].
    + right. change (weight_count []) with 0. split; [lia|]. exists AssertionError. split; [reflexivity|auto].
  - cbn [split_flat]. rewrite weight_count_cons. unfold weights_fit. cbn [filter]. destruct (ti_hw o); [|apply IH]. set (n := nprod (path_shape o)). rewrite list_slice_firstn, skipn_app, skipn_all, Nat.sub_diag. cbn [skipn app].
    destruct (Nat.eqb_spec (length (firstn n w)) n) as [E|E]; cbn [negb].
    + specialize (IH (pre ++ firstn n w) (skipn n w)). rewrite <- app_assoc, firstn_skipn, app_length, E in IH. rewrite firstn_length in E.
      destruct IH as [(l & El & Fl & Vl)|(Nl & e & Ee & He)].
      * left. rewrite El. cbn [rmap]. eexists. split; [reflexivity|]. split; [constructor; [split; [reflexivity|cbn [t_val]; rewrite firstn_length; unfold n in *; lia]|exact Fl]|]. cbn [flat_map t_val]. rewrite Vl. apply firstn_skipn.
      * right. rewrite skipn_length in Nl, He. split; [lia|]. exists e. rewrite Ee. split; [reflexivity|]. intros H. apply He. lia.
    + right. rewrite firstn_length in E. split; [lia|]. exists TypeError. split; [reflexivity|auto].
Qed.
Lemma fit_count ins l : weights_fit ins l -> length (flat_map t_val l) = weight_count ins.
Proof. unfold weights_fit, weight_count. intros F. induction F as [|o w os ws [_ H] F IH]; [reflexivity|]. cbn [flat_map map]. change (PyBase.sum (?a :: ?t)) with (a + PyBase.sum t). rewrite app_length, IH, H. reflexivity. Qed.
Lemma split_flat_ok ins w : length w = weight_count ins -> exists l, split_flat 0 ins w = Ok l /\ weights_fit ins l /\ flat_map t_val l = w.
Proof. intros H. destruct (split_flat_app ins [] w) as [G|(G & _)]; [exact G|contradiction]. Qed.
Lemma split_flat_bad ins w : length w <> weight_count ins -> exists e, split_flat 0 ins w = Err e.
Proof. intros H. destruct (split_flat_app ins [] w) as [(l & _ & F & <-)|(_ & e & E & _)]; [apply fit_count in F; contradiction|eauto]. Qed.
(* a weights argument that has the right arrays, and the arrays it stands for *)
Definition stands_for (ins : list tinstr) (w : warg) (l : list tensor) : Prop :=
  weights_fit ins l /\ match w with WList l' => l' = l | WFlat f => f = flat_map t_val l end.
Lemma pieces_unique ins : forall l l', weights_fit ins l -> weights_fit ins l' -> flat_map t_val l = flat_map t_val l' -> l = l'.
Proof.
  unfold weights_fit. intros l l' F. revert l'. induction F as [|o w os ws [S1 L1] F IH]; intros l' F' E; inversion F' as [|? w' ? ws' [S2 L2] F2]; subst; [reflexivity|]. cbn [flat_map] in E. apply TPProps2.app_eq_length in E as [E1 E2]; [|congruence].
  rewrite (IH ws' F2 E2). destruct w as [sh v], w' as [sh' v']. cbn [t_shape t_val] in *. subst. reflexivity.
Qed.
Lemma weight_forms_ok T w l : stands_for (tp_ins T) w l -> weight_forms T w = Ok (flat_map t_val l, l).
Proof.
  intros [F E]. destruct w as [l'|f]; cbn [weight_forms].
  - subst l'. rewrite <- (Forall2_length _ _ _ F), Nat.eqb_refl. reflexivity.
  - subst f. destruct (split_flat_ok (tp_ins T) (flat_map t_val l) (fit_count _ _ F)) as (l2 & E2 & F2 & V2). rewrite E2. cbn [rmap]. rewrite (pieces_unique _ _ _ F2 F V2). reflexivity.
Qed.

(* ---------- left_right without fusion ---------- *)
Lemma rowof_zero x F : (forall k u c, inside x k u c -> F k u c = 0%R) -> rowof x F = zero_row (dim x).
Proof.
  revert F. induction x as [|[mul ir] x IH]; intros F H; [reflexivity|]. cbn [rowof]. rewrite dim_cons. unfold zero_row in *. rewrite repeat_app. f_equal.
  - unfold mi_dim. cbn [fst snd]. fold (zero_row (mul * ir_dim ir)). rewrite <- concat_zeros. f_equal. unfold zeros_rows. rewrite (tab2_ext _ _ _ (fun _ _ => 0%R)) by (intros u c Hu Hc; apply H; exists mul, ir; auto).
    unfold tab2, tab. clear. assert (G : forall n (s : nat), map (fun _ => repeat 0%R (ir_dim ir)) (seq s n) = repeat (repeat 0%R (ir_dim ir)) n) by (induction n as [|n IH]; intros s; [reflexivity|]; cbn; f_equal; apply IH). rewrite <- (G mul 0). apply map_ext. intros _. generalize (ir_dim ir). intros d. clear. generalize 0%nat. induction d as [|d IH]; intros s; [reflexivity|]. cbn. f_equal. apply IH.
  - apply IH. intros k u c (m & i & E & B). apply H. exists m, i. auto.
Qed.
Lemma dim_zero_mul (x : irreps) k m a : dim x = 0 -> nth_error x k = Some (m, a) -> m = 0.
Proof. intros Z E. pose proof (offset_next _ _ _ E) as O. pose proof (offset_total x (S k)). unfold mi_dim in O. cbn [fst snd] in O. unfold ir_dim in O. nia. Qed.
Lemma left_right_reduces cg (fused : bool) T w l x1 x2 : coherent x1 -> coherent x2 -> simplify (irr x1) = simplify (tp_in1 T) -> simplify (irr x2) = simplify (tp_in2 T) -> lead x1 = [] -> lead x2 = [] ->
  Forall (coupled_ins (tp_in1 T) (tp_in2 T) (tp_out T)) (tp_ins T) -> stands_for (tp_ins T) w l ->
  let F := fun (_ : idx) => rowof (tp_out T) (legacy_entry cg (tp_in1 T) (tp_in2 T) (tp_out T) (assign (tp_ins T) l) (entry (tp_in1 T) (arr x1 [])) (entry (tp_in2 T) (arr x2 []))) in
  (forall y1 y2, coherent y1 -> coherent y2 -> irr y1 = tp_in1 T -> irr y2 = tp_in2 T -> lead y1 = [] -> lead y2 = [] -> arr y1 [] = arr x1 [] -> arr y2 [] = arr x2 [] ->
    yields (if fused then fused_left_right cg T (flat_map t_val l) y1 y2 else block_left_right cg T l y1 y2) (tp_out T) [] F) ->
  yields (left_right cg fused T w x1 x2) (tp_out T) [] F.
Proof.
  intros H1 H2 S1 S2 L1 L2 HC HW F HF. unfold left_right. eapply yields_bind; [apply rechunk_yields; [exact H1|exact S1]|]. intros y1 _ I1 Ly1 Hy1 A1. eapply yields_bind; [apply rechunk_yields; [exact H2|exact S2]|]. intros y2 _ I2 Ly2 Hy2 A2.
  rewrite L1 in *. rewrite L2 in *.
  destruct ((dim (tp_in1 T) =? 0) || (dim (tp_in2 T) =? 0) || (dim (tp_out T) =? 0)) eqn:Z.
  - eapply yields_ext; [|apply zeros_yields]. intros i Hi. cbv beta. unfold F. symmetry. apply rowof_zero. intros j z k (mo & c & Ej & Hz & Hk). unfold legacy_entry. apply lsum_zero. intros [o wo] Ho. destruct (Nat.eqb_spec (ti_o o) j) as [E|]; [|reflexivity].
    apply assign_in in Ho. rewrite Forall_forall in HC. destruct (HC o Ho) as (m1 & a & m2 & b & mo' & c' & E1 & E2 & E3 & _ & M1 & M2 & M3). rewrite !orb_true_iff, !Nat.eqb_eq in Z. unfold term. rewrite M1, M2. destruct Z as [[Z|Z]|Z].
    + rewrite (dim_zero_mul _ _ _ _ Z E1). reflexivity.
    + rewrite (dim_zero_mul _ _ _ _ Z E2). apply rsum_zero. reflexivity.
    + pose proof (dim_zero_mul _ _ _ _ Z Ej). lia.
  - rewrite (weight_forms_ok _ _ _ HW). cbn [bind]. rewrite Ly1, Ly2. cbn [length Nat.eqb assert bind]. apply HF; auto; [apply A1|apply A2]; constructor.
Qed.
Lemma unfused_yields cg T w l x1 x2 : coherent x1 -> coherent x2 -> simplify (irr x1) = simplify (tp_in1 T) -> simplify (irr x2) = simplify (tp_in2 T) -> lead x1 = [] -> lead x2 = [] ->
  Forall (coupled_ins (tp_in1 T) (tp_in2 T) (tp_out T)) (tp_ins T) -> Forall suits (tp_ins T) -> Forall nonempty (tp_ins T) -> stands_for (tp_ins T) w l ->
  yields (left_right cg false T w x1 x2) (tp_out T) [] (fun _ => rowof (tp_out T) (legacy_entry cg (tp_in1 T) (tp_in2 T) (tp_out T) (assign (tp_ins T) l) (entry (tp_in1 T) (arr x1 [])) (entry (tp_in2 T) (arr x2 [])))).
Proof.
  intros H1 H2 S1 S2 L1 L2 HC HS HN HW. apply (left_right_reduces cg false T w l x1 x2 H1 H2 S1 S2 L1 L2 HC HW). intros y1 y2 Hy1 Hy2 I1 I2 Ly1 Ly2 A1 A2. rewrite <- A1, <- A2. apply block_yields; auto. apply HW.
Qed.
