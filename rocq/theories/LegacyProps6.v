(* C49: where the evaluations of FunctionalTensorProduct disagree, and concrete cases of the theorems *)
From Coq Require Import Reals Lra Lia List.
From Verif Require Import PyBase PermModel PermProofs IrrepsModel IrrepsProofs IrrepsProofs2 ArrayModel ArrayProofs ArrayOps RechunkProofs ArithProofs BlockProofs LeadModel LeadProofs StackProofs BilinProofs ActProofs EquivProofs EquivProofs2 SumR TPModel LinearModel LinearProofs TPProofs TPProofs2 LinearProps TPProps3 TPProps4 SymProofs2 ArrayProps3 LegacyModel GSProofs LegacyProofs LegacyProofs2 LegacyProofs3 LegacyProofs4 LegacyProofs5 LegacyProofs6 LegacyProofs7 LegacyProofs8 LegacyProps LegacyProps2 LegacyProps3 LegacyProps4 LegacyProps5.
From Verif Require Import EntryProofs.
Import ListNotations.
Open Scope nat_scope.

Notation e0 := (Irrep 0 Even). Notation o0 := (Irrep 0 Odd). Notation o1 := (Irrep 1 Odd).
Definition row (x : irreps) (v : list R) : iarray := IA x [] (fun _ => v) None None.
Lemma row_coherent x v : length v = dim x -> coherent (row x v).
Proof. intros H. split; [intros i V; exact H|split; [apply ArithProofs.flags_false|exact Logic.I]]. Qed.
Lemma row_inputs x y z us v1 v2 vo nrm pn gn T a b : functional_tp x y z us v1 v2 vo nrm pn gn = Ok T -> length a = dim x -> length b = dim y -> inputs_for T (row x a) (row y b).
Proof. intros E La Lb. destruct (constructor_inv _ _ _ _ _ _ _ _ _ _ _ E) as (ins & _ & Ex & Ey & _). unfold inputs_for. rewrite Ex, Ey. repeat split; apply row_coherent; assumption. Qed.
Lemma fpow_O x : fpow x 0 = 1%R.
Proof. unfold fpow. destruct (Req_EM_T x 0); [destruct (Req_EM_T 0 0); lra|]. unfold Rpower. rewrite Rmult_0_l. apply exp_0. Qed.
(* with gradient_normalization 0 ("element") the path weights of instructions with weights are 1 *)
Lemma unit_path_weights x y z us v1 v2 vo nrm pn T : functional_tp x y z us v1 v2 vo nrm pn 0 = Ok T -> Forall (fun u : uinstr => snd (fst u) = true) us -> Forall (fun o => ti_pw o = 1%R) (tp_ins T).
Proof.
  intros E H. destruct (constructor_inv _ _ _ _ _ _ _ _ _ _ _ E) as (ins & Em & _ & _ & _ & _ & Fu & _). apply mapM_all in Em. clear E. revert ins Em Fu H. set (upd := update x y z (var_or v1 x) (var_or v2 y) (var_or vo z) nrm pn 0). intros ins Em Fu H.
  assert (K : forall A, Forall2 (fun o o' => upd A o = Ok o') ins (tp_ins T) -> Forall (fun o => ti_pw o = 1%R) (tp_ins T)); [|exact (K ins Fu)]. clear Fu. intros A Fu. revert us Em H. induction Fu as [|o o' l l' Ho F IH]; intros us Em H; [constructor|]. inversion Em as [|u ? us' ? Hu Em']; subst. inversion H; subst. constructor; [|eapply IH; eassumption].
  destruct (make_ins_ok _ _ _ _ _ Hu) as (i1 & i2 & io & m & hw & pw & -> & _ & _ & _ & _ & ->). cbn [fst snd] in *. subst hw. destruct (update_ok _ _ _ _ _ _ _ _ _ _ _ _ Ho) as (_ & _ & _ & _ & _ & PW). cbn [ti_hw] in PW. destruct PW as [-> _]. apply fpow_O.
Qed.
Ltac known E T :=
  let H := fresh "H" in let F := fresh "F" in let P := fresh "P" in let Ex := fresh "Ex" in let Ey := fresh "Ey" in let Ez := fresh "Ez" in
  pose proof E as H; apply C49_constructor_sound in H; destruct H as (Ex & Ey & Ez & _ & F);
  pose proof E as P; apply unit_path_weights in P; [|repeat constructor]; destruct T as [tx ty tz tins tm]; cbn [tp_in1 tp_in2 tp_out tp_ins] in *; subst tx ty tz;
  repeat match goal with
  | F : Forall2 _ (_ :: _) tins |- _ => inversion F as [|? ? ? ? ? ?]; clear F; subst
  | F : Forall2 _ (_ :: _) ?l |- _ => inversion F as [|? ? ? ? ? ?]; clear F; subst
  | F : Forall2 _ [] ?l |- _ => inversion F; clear F; subst
  end;
  repeat match goal with P : Forall (fun o => ti_pw o = 1%R) (_ :: _) |- _ => inversion P; clear P; subst | P : Forall (fun o => ti_pw o = 1%R) [] |- _ => clear P end;
  repeat match goal with
  | M : made _ _ _ _ ?o |- _ => is_var o; destruct o; cbn in M; destruct M as (? & ? & ? & ? & ? & ? & ? & ?); subst
  end; cbn [ti_pw] in *; subst.
Definition flat_cg : coupling := fun _ _ _ _ _ _ => 1%R.
Ltac all_R := unfold flat_cg; repeat match goal with |- ?a :: ?l = ?b :: ?m => replace a with b by lra; apply (f_equal (cons b)) | |- [] = [] => reflexivity end.

(* An instruction with an empty entry: the unfused evaluation forgets it when it assigns results to outputs.  "0x0e+1x0o" times "1x0e" to
   "1x0e+1x0o": the product of odd and even scalars lands in the even output; with fusion it is in the odd output *)
Theorem C49_empty_entry_refuted : let x := [(0, e0); (1, o0)] in let y := [(1, e0)] in let z := [(1, e0); (1, o0)] in
  exists T l r r', functional_fctp x y z None None None NComponent 0 0 = Ok T /\ inputs_for T (row x [1%R]) (row y [1%R]) /\ Forall suits (tp_ins T) /\ weights_fit (tp_ins T) l /\
    left_right flat_cg false T (WList l) (row x [1%R]) (row y [1%R]) = Ok r /\ left_right flat_cg true T (WList l) (row x [1%R]) (row y [1%R]) = Ok r' /\
    arr r [] = [1; 0]%R /\ arr r' [] = [0; 1]%R.
Proof.
  intros x y z. destruct (C49_fully_connected_total x y z NComponent 0 0) as (T & E & HS & HF & _); [discriminate|]. unfold functional_fctp in *. exists T, [Tensor [0; 1; 1] []; Tensor [1; 1; 1] [1%R]].
  pose proof (row_inputs _ _ _ _ _ _ _ _ _ _ _ [1%R] [1%R] E eq_refl eq_refl) as HI.
  change (fc_instructions x y z) with [(0, 0, 0, Uvw, true, 1%R); (1, 0, 1, Uvw, true, 1%R)] in E. known E T.
  eexists. eexists. split; [exact E|]. split; [exact HI|]. split; [exact HS|]. split; [repeat constructor|]. split; [cbn; reflexivity|]. split; [cbn; reflexivity|]. split; cbn; all_R.
Qed.
(* the same with outputs of different sizes: the unfused evaluation fails *)
Theorem C49_empty_entry_error_refuted : let x := [(0, e0); (1, o1)] in let y := [(1, e0)] in let z := [(1, e0); (1, o1)] in
  exists T l r, functional_fctp x y z None None None NComponent 0 0 = Ok T /\ inputs_for T (row x [1; 2; 3]%R) (row y [1%R]) /\ Forall suits (tp_ins T) /\ weights_fit (tp_ins T) l /\
    left_right flat_cg false T (WList l) (row x [1; 2; 3]%R) (row y [1%R]) = Err TypeError /\ left_right flat_cg true T (WList l) (row x [1; 2; 3]%R) (row y [1%R]) = Ok r.
Proof.
  intros x y z. destruct (C49_fully_connected_total x y z NComponent 0 0) as (T & E & HS & HF & _); [discriminate|]. unfold functional_fctp in *. exists T, [Tensor [0; 1; 1] []; Tensor [1; 1; 1] [1%R]].
  pose proof (row_inputs _ _ _ _ _ _ _ _ _ _ _ [1; 2; 3]%R [1%R] E eq_refl eq_refl) as HI.
  change (fc_instructions x y z) with [(0, 0, 0, Uvw, true, 1%R); (1, 0, 1, Uvw, true, 1%R)] in E. known E T.
  eexists. split; [exact E|]. split; [exact HI|]. split; [exact HS|]. split; [repeat constructor|]. split; [cbn; reflexivity|]. cbn. reflexivity.
Qed.
Lemma complete_unit x y z us nrm pn gn : nrm <> NOther -> Forall (allowed x y z) us -> Forall (fun u => weight_of u = 1%R) us -> exists T, functional_tp x y z us None None None nrm pn gn = Ok T.
Proof. intros Hn HA HP. apply C49_constructor_complete; [exact Hn|exact HA|]. eapply Forall_impl; [|exact HP]. intros u ->. lra. Qed.
Ltac allow := repeat (apply Forall_cons; [split; [discriminate|repeat eexists; try reflexivity; vm_compute; auto]|]); apply Forall_nil.
(* right has no branch for "u<vw" (and "uvu<v"): it fails if the instruction is the first ... *)
Theorem C49_right_pairs_refuted : let x := [(2, e0)] in let y := [(2, e0)] in let z := [(1, e0)] in
  exists T l r, functional_tp x y z [(0, 0, 0, ULtvw, true, 1%R)] None None None NComponent 0 0 = Ok T /\ Forall suits (tp_ins T) /\ weights_fit (tp_ins T) l /\
    left_right flat_cg false T (WList l) (row x [1; 2]%R) (row y [3; 4]%R) = Ok r /\ arr r [] = [4%R] /\ right flat_cg T l (row y [3; 4]%R) = Err NameError.
Proof.
  intros x y z. destruct (complete_unit x y z [(0, 0, 0, ULtvw, true, 1%R)] NComponent 0 0) as (T & E); [discriminate|allow|repeat constructor|]. exists T, [Tensor [1; 1] [1%R]]. known E T.
  eexists. split; [exact E|]. split; [repeat constructor|]. split; [repeat constructor|]. split; [cbn; reflexivity|]. split; [cbn; all_R|]. cbn. reflexivity.
Qed.
(* ... and otherwise adds the matrix of the previous instruction once more *)
Theorem C49_right_stale_refuted : let x := [(2, e0)] in let y := [(2, e0)] in let z := [(1, e0)] in
  exists T l r M, functional_tp x y z [(0, 0, 0, Uvw, true, 1%R); (0, 0, 0, ULtvw, true, 1%R)] None None None NComponent 0 0 = Ok T /\ Forall suits (tp_ins T) /\ weights_fit (tp_ins T) l /\
    left_right flat_cg false T (WList l) (row x [1; 0]%R) (row y [3; 4]%R) = Ok r /\ arr r [] = [7%R] /\ right flat_cg T l (row y [3; 4]%R) = Ok M /\ vecmat 1 [1; 0]%R M = [6%R].
Proof.
  intros x y z. destruct (complete_unit x y z [(0, 0, 0, Uvw, true, 1%R); (0, 0, 0, ULtvw, true, 1%R)] NComponent 0 0) as (T & E); [discriminate|allow|repeat constructor|]. exists T, [Tensor [2; 2; 1] [1; 0; 0; 0]%R; Tensor [1; 1] [1%R]]. known E T.
  eexists. eexists. split; [exact E|]. split; [repeat constructor|]. split; [repeat constructor|]. split; [cbn; reflexivity|]. split; [cbn; all_R|]. split; [cbn; reflexivity|]. cbn. all_R.
Qed.
(* right fails on a None chunk that left_right treats as zero *)
Theorem C49_right_none_refuted : let x := [(1, e0)] in let y := [(1, e0)] in let z := [(1, e0)] in let x2 := IA y [] (fun _ => [0%R]) (Some [true]) None in
  exists T l r, functional_fctp x y z None None None NComponent 0 0 = Ok T /\ inputs_for T (row x [1%R]) x2 /\ weights_fit (tp_ins T) l /\
    left_right flat_cg false T (WList l) (row x [1%R]) x2 = Ok r /\ arr r [] = [0%R] /\ right flat_cg T l x2 = Err TypeError.
Proof.
  intros x y z x2. destruct (C49_fully_connected_total x y z NComponent 0 0) as (T & E & _); [discriminate|]. unfold functional_fctp in *. exists T, [Tensor [1; 1; 1] [1%R]].
  pose proof (row_inputs _ _ _ _ _ _ _ _ _ _ _ [1%R] [1%R] E eq_refl eq_refl) as (HI & _ & S1 & _ & L1 & _).
  change (fc_instructions x y z) with [(0, 0, 0, Uvw, true, 1%R)] in E. known E T.
  eexists. split; [exact E|]. split.
  - split; [exact HI|]. split; [|split; [exact S1|split; [reflexivity|split; reflexivity]]]. split; [intros i V; reflexivity|]. split; [|exact Logic.I]. split; [intros _ i V; reflexivity|exact Logic.I].
  - split; [repeat constructor|]. split; [cbn; reflexivity|]. split; [cbn; reflexivity|]. cbn. reflexivity.
Qed.
(* fusion does not check the multiplicities: "uvu" with two copies into an entry with one copy writes the second copy into the neighbouring
   entry, where the unfused evaluation refuses *)
Theorem C49_fused_unchecked_refuted : let x := [(2, e0)] in let y := [(1, e0)] in let z := [(1, e0); (1, e0)] in
  exists T l r, functional_tp x y z [(0, 0, 0, Uvu, true, 1%R)] None None None NComponent 0 0 = Ok T /\ weights_fit (tp_ins T) l /\
    left_right flat_cg false T (WList l) (row x [1; 2]%R) (row y [1%R]) = Err AssertionError /\ left_right flat_cg true T (WList l) (row x [1; 2]%R) (row y [1%R]) = Ok r /\ arr r [] = [1; 2]%R.
Proof.
  intros x y z. destruct (complete_unit x y z [(0, 0, 0, Uvu, true, 1%R)] NComponent 0 0) as (T & E); [discriminate|allow|repeat constructor|]. exists T, [Tensor [2; 1] [1; 1]%R]. known E T.
  eexists. split; [exact E|]. split; [repeat constructor|]. split; [cbn; reflexivity|]. split; [cbn; reflexivity|]. cbn. all_R.
Qed.
(* with path_normalization = "path" (1), an instruction with an empty entry takes a share although it contributes nothing: the shares add
   up to one half *)
Theorem C49_path_normalization_refuted : let x := [(1, e0); (0, e0)] in let y := [(1, e0)] in let z := [(1, e0)] in
  exists T, functional_fctp x y z None None None NComponent 1 0 = Ok T /\ Forall suits (tp_ins T) /\
    lsum (tp_ins T) (fun o => if ti_o o =? 0 then gathered None None x y o * scale o ^ 2 / irrep_factor NComponent x y z o else 0)%R = (1 / 2)%R.
Proof.
  intros x y z. destruct (C49_fully_connected_total x y z NComponent 1 0) as (T & E & HS & _); [discriminate|]. exists T. split; [exact E|]. split; [exact HS|]. unfold functional_fctp in E.
  change (fc_instructions x y z) with [(0, 0, 0, Uvw, true, 1%R); (1, 0, 0, Uvw, true, 1%R)] in E. destruct (constructor_inv _ _ _ _ _ _ _ _ _ _ _ E) as (ins & Em & _ & _ & _ & _ & Fu & _). cbn in Em. assert (Ei : ins = [TIns 0 0 0 Uvw true 1 None 1 1 1; TIns 1 0 0 Uvw true 1 None 0 1 1]) by congruence. clear Em. rewrite Ei in Fu. inversion Fu as [|? a ? l Ha Fu' E1 E2]; subst. inversion Fu' as [|? b ? l' Hb Fu'' E3 E4]; subst. inversion Fu''; subst.
  rewrite !lsum_cons. pose proof (update_ok _ _ _ _ _ _ _ _ _ _ _ _ Ha) as (Sa & _ & _ & _ & Pa & PWa). pose proof (update_ok _ _ _ _ _ _ _ _ _ _ _ _ Hb) as (Sb & _). cbn [ti_hw] in PWa. destruct PWa as [PW STD].
  assert (Sc : (scale a ^ 2 = 1 / 2)%R).
  { unfold scale. destruct Sa as (_ & _ & _ & _ & -> & _). cbn [ti_hw]. rewrite PW, STD, scale_sq by exact Pa. unfold ins_alpha. cbv zeta. unfold path_factor, ins_var. cbn. replace (1 - 1)%R with 0%R by lra. rewrite !fpow_O. replace (1 * 1 * 1)%R with 1%R by lra. assert (F1 : fpow 1 1 = 1%R) by (unfold fpow; destruct (Req_EM_T 1 0); [lra|apply Rpower_1; lra]). rewrite F1. destruct (Rlt_dec 0 _) as [_|N]; [field|exfalso; apply N; lra]. }
  destruct Sa as (A1 & A2 & A3 & A4 & A5 & A6 & A7 & A8). destruct Sb as (B1 & B2 & B3 & B4 & B5 & B6 & B7 & B8). cbn [ti_1 ti_2 ti_o ti_mode ti_m1 ti_m2 ti_mo] in *. rewrite A3, B3. cbn [Nat.eqb]. unfold gathered, irrep_factor, num_elements. rewrite A1, A2, A3, A4, A6, A7, B1, B2, B3, B4, B6, B7, Sc. cbn. field.
Qed.

(* ---------- concrete cases ---------- *)
(* all hypotheses of the value, agreement, right and equivariance theorems hold for a product with three modes *)
Example C49_value_nonvacuous : let x := [(2, o1); (1, e0)] in let y := [(2, o1)] in let z := [(2, e0); (3, o1); (4, Irrep 2 Even)] in
  exists T l, functional_tp x y z [(0, 0, 0, Uuu, false, 1%R); (1, 0, 1, Uvw, true, 1%R); (0, 0, 2, Uvuv, true, 1%R)] None None None NComponent 0 0 = Ok T /\
    inputs_for T (row x [1; 2; 3; 4; 5; 6; 7]%R) (row y [1; 2; 3; 4; 5; 6]%R) /\ Forall suits (tp_ins T) /\ Forall nonempty (tp_ins T) /\ Forall fusable (tp_ins T) /\ Forall rightable (tp_ins T) /\ weights_fit (tp_ins T) l.
Proof.
  intros x y z. destruct (complete_unit x y z [(0, 0, 0, Uuu, false, 1%R); (1, 0, 1, Uvw, true, 1%R); (0, 0, 2, Uvuv, true, 1%R)] NComponent 0 0) as (T & E); [discriminate|allow|repeat constructor|]. exists T, [Tensor [1; 2; 3] [1; 2; 3; 4; 5; 6]%R; Tensor [2; 2] [1; 2; 3; 4]%R].
  split; [exact E|]. split; [eapply row_inputs; [exact E|reflexivity|reflexivity]|]. pose proof E as H. apply C49_constructor_sound in H. destruct H as (_ & _ & _ & _ & F). destruct T as [tx ty tz tins tm]. cbn [tp_ins] in *. clear E.
  inversion F as [|? a ? l Ha F1 Eu1 El1]; subst. inversion F1 as [|? b ? l' Hb F2 Eu2 El2]; subst. inversion F2 as [|? c ? l'' Hc F3 Eu3 El3]; subst. inversion F3; subst. destruct a, b, c. cbn in Ha, Hb, Hc. destruct Ha as (? & ? & ? & ? & ? & ? & ? & ?), Hb as (? & ? & ? & ? & ? & ? & ? & ?), Hc as (? & ? & ? & ? & ? & ? & ? & ?). subst.
  repeat split; repeat constructor; cbn; lia.
Qed.
(* a random sign as weight: the hypotheses of C49_variance hold *)
Example C49_variance_nonvacuous : let x := [(1, e0)] in let Ex := fun f : bool -> R => ((f true + f false) / 2)%R in
  exists T (l : bool -> list tensor) (r : bool -> iarray), functional_fctp x x x None None None NComponent 0 1 = Ok T /\ expectation bool Ex /\ Forall suits (tp_ins T) /\ Forall nonempty (tp_ins T) /\ Forall (fun o => (0 < gathered None None x x o)%R) (tp_ins T) /\
    (forall w, inputs_for T (row x [1%R]) (row x [1%R]) /\ weights_fit (tp_ins T) (l w) /\ left_right CGModel.clebsch_gordan false T (WList (l w)) (row x [1%R]) (row x [1%R]) = Ok (r w)) /\
    (forall t, index_of T 0 t -> Ex (fun w => product_of T 0 (l w) (row x [1%R]) (row x [1%R]) t * product_of T 0 (l w) (row x [1%R]) (row x [1%R]) t)%R = variance_of T NComponent None None 0 t) /\
    (forall t t', index_of T 0 t -> index_of T 0 t' -> t <> t' -> Ex (fun w => product_of T 0 (l w) (row x [1%R]) (row x [1%R]) t * product_of T 0 (l w) (row x [1%R]) (row x [1%R]) t')%R = 0%R).
Proof.
  intros x Ex. destruct (C49_fully_connected_total x x x NComponent 0 1) as (T & E & HS & _ & _ & HN); [discriminate|]. assert (P1 : Forall (fun m : mulirrep => 0 < fst m) x) by (repeat constructor). specialize (HN P1 P1 P1). unfold functional_fctp in *. set (sg := fun b : bool => if b then 1%R else (-1)%R). set (l := fun w : bool => [Tensor [1; 1; 1] [sg w]]).
  pose proof (row_inputs _ _ _ _ _ _ _ _ _ _ _ [1%R] [1%R] E eq_refl eq_refl) as HI. pose proof E as E0. change (fc_instructions x x x) with [(0, 0, 0, Uvw, true, 1%R)] in E.
  destruct (constructor_inv _ _ _ _ _ _ _ _ _ _ _ E) as (ins & Em & Ex1 & Ey & Ez & _ & Fu & _). cbn in Em. assert (Ei : ins = [TIns 0 0 0 Uvw true 1 None 1 1 1]) by congruence. rewrite Ei in Fu. clear Em. inversion Fu as [|? a ? k Ha Fu' E1 E2]; subst ins. inversion Fu'; subst k. clear Fu Fu'.
  destruct (update_ok _ _ _ _ _ _ _ _ _ _ _ _ Ha) as ((A1 & A2 & A3 & A4 & A5 & A6 & A7 & A8) & _ & _ & _ & _ & PW). cbn [ti_1 ti_2 ti_o ti_mode ti_hw ti_m1 ti_m2 ti_mo] in *. destruct PW as [_ STD]. replace (1 - 1)%R with 0%R in STD by lra. rewrite fpow_O in STD.
  assert (HW : forall w, weights_fit (tp_ins T) (l w)). { intros w. rewrite <- E2. unfold weights_fit. cbn [filter]. rewrite A5. constructor; [|constructor]. unfold path_shape. rewrite A4, A6, A7, A8. split; reflexivity. }
  assert (Q : forall w, exists r, left_right CGModel.clebsch_gordan false T (WList (l w)) (row x [1%R]) (row x [1%R]) = Ok r).
  { intros w. destruct (C49_value _ _ _ _ _ _ _ _ _ _ T CGModel.clebsch_gordan (WList (l w)) (l w) _ _ E0 HI HS HN (conj (HW w) eq_refl)) as (r & Er & _). exists r. exact Er. }
  assert (TI : forall t, index_of T 0 t -> t = (0, (0, (0, (0, 0))))).
  { intros [p [u [v [i i']]]] (o & Eo & _ & Hu & Hv & Hi & Hi'). rewrite <- E2 in Eo. destruct p as [|[|p]]; try discriminate. cbn in Eo. injection Eo as <-. rewrite A1, Ex1 in Hi. rewrite A2, Ey in Hi'. rewrite A6 in Hu. rewrite A7 in Hv. unfold ir_dim, x in *. cbn in Hi, Hi'. assert (u = 0 /\ v = 0 /\ i = 0 /\ i' = 0) as (-> & -> & -> & ->) by lia. reflexivity. }
  exists T, l, (fun w => match left_right CGModel.clebsch_gordan false T (WList (l w)) (row x [1%R]) (row x [1%R]) with Ok r => r | Err _ => row x [] end).
  split; [exact E0|]. split; [split; [intros f g Hfg; unfold Ex; rewrite !Hfg; reflexivity|intros; unfold Ex; lra|intros; unfold Ex; lra]|]. split; [exact HS|]. split; [exact HN|]. split.
  { rewrite <- E2. constructor; [|constructor]. unfold gathered, declared, num_elements. rewrite A1, A2, A4, A6, A7. cbn. lra. }
  split; [intros w; split; [exact HI|split; [apply HW|]]; destruct (Q w) as (r & ->); reflexivity|]. split.
  - intros t Ht. rewrite (TI t Ht). unfold Ex, product_of, variance_of. cbv zeta. rewrite <- E2. cbn [nth assign]. unfold std_of. rewrite A1, A2, A4, A5, A6, A7, A8, STD, Ex1, Ey. cbn. lra.
  - intros t t' Ht Ht' N. exfalso. apply N. rewrite (TI t Ht), (TI t' Ht'). reflexivity.
Qed.
