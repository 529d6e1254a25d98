(* C49: FunctionalTensorProduct *)
From Coq Require Import Reals Lra Lia List.
From Verif Require Import PyBase PermModel PermProofs IrrepsModel IrrepsProofs IrrepsProofs2 ArrayModel ArrayProofs ArrayOps RechunkProofs ArithProofs BlockProofs LeadModel LeadProofs StackProofs BilinProofs ActProofs EquivProofs EquivProofs2 SumR TPModel LinearModel LinearProofs TPProofs TPProofs2 LinearProps TPProps3 TPProps4 SymProofs2 ArrayProps3 LegacyModel GSProofs LegacyProofs LegacyProofs2 LegacyProofs3 LegacyProofs4 LegacyProofs5 LegacyProofs6 LegacyProofs7 LegacyProofs8.
From Verif Require Import EntryProofs.
Import ListNotations.
Open Scope nat_scope.

(* ---------- the constructor ---------- *)
(* what an instruction (i_in1, i_in2, i_out, mode, has_weight, path_weight) must satisfy: existing entries, a known mode, an output
   irrep in the product of the input irreps *)
Definition allowed (x y z : irreps) (u : uinstr) : Prop :=
  let '(i1, i2, io, m, hw, pw) := u in m <> MBad /\
  exists m1 a m2 b mo c, nth_error x i1 = Some (m1, a) /\ nth_error y i2 = Some (m2, b) /\ nth_error z io = Some (mo, c) /\ In c (ir_mul a b).
Definition weight_of (u : uinstr) : R := snd u.
(* a constructed tensor product only has allowed instructions, with the indices, mode and flag given by the user and the multiplicities of
   the irreps *)
Theorem C49_constructor_sound x y z us v1 v2 vo nrm pn gn T : functional_tp x y z us v1 v2 vo nrm pn gn = Ok T ->
  tp_in1 T = x /\ tp_in2 T = y /\ tp_out T = z /\ Forall (allowed x y z) us /\ Forall2 (made x y z) us (tp_ins T).
Proof.
  intros E. destruct (constructor_inv _ _ _ _ _ _ _ _ _ _ _ E) as (ins & Em & Ex & Ey & Ez & _ & _ & _). repeat (split; [assumption|]). pose proof (constructor_coupled _ _ _ _ _ _ _ _ _ _ _ E) as F. split.
  - apply mapM_all in Em. clear E. revert ins Em. induction F as [|u o us os [Hm (m1 & a & m2 & b & mo & c & E1 & E2 & E3 & C & _)] F IH]; intros ins Em; inversion Em as [|? o1 ? ins' Hu Em']; subst; constructor; [|exact (IH ins' Em')].
    destruct (make_ins_ok _ _ _ _ _ Hu) as (i1 & i2 & io & m & hw & pw & -> & _ & _ & _ & Nb & _). destruct Hm as (H1 & H2 & H3 & _). rewrite H1 in E1. rewrite H2 in E2. rewrite H3 in E3. split; [exact Nb|]. exists m1, a, m2, b, mo, c. auto.
  - clear -F. induction F as [|u o us os [H _] F IH]; constructor; assumption.
Qed.
Lemma fpow_nonneg x p : (0 <= fpow x p)%R.
Proof. unfold fpow. destruct (Req_EM_T x 0); [destruct (Req_EM_T p 0); lra|]. left. apply exp_pos. Qed.
Lemma alpha_nonneg x y z v1 v2 vo nrm pn ins o : (0 <= nth (ti_o o) vo 0)%R -> (0 <= ti_pw o)%R -> (0 <= ins_alpha x y z v1 v2 vo nrm pn ins o)%R.
Proof.
  intros Hv Hp. unfold ins_alpha. cbv zeta. apply Rmult_le_pos; [|exact Hp]. apply Rmult_le_pos; [|exact Hv]. set (a := match nrm with NComponent => _ | _ => _ end). assert (A : (0 <= a)%R) by (unfold a; destruct nrm; try apply pos_INR; lra).
  destruct (Rlt_dec 0 _) as [P|]; [|exact A]. unfold Rdiv. apply Rmult_le_pos; [exact A|]. left. apply Rinv_0_lt_compat, P.
Qed.
Lemma mapM_some {A B} (f : A -> res B) l : (forall a, In a l -> exists b, f a = Ok b) -> exists bs, mapM f l = Ok bs.
Proof. intros H. destruct (mapM_ok f (fun _ _ => True) l) as (bs & E & _); [intros a Ha; destruct (H a Ha) as (b & E); exists b; auto|exists bs; exact E]. Qed.
(* with default variances and non-negative path weights every list of allowed instructions is accepted *)
Theorem C49_constructor_complete x y z us nrm pn gn : nrm <> NOther -> Forall (allowed x y z) us -> Forall (fun u => (0 <= weight_of u)%R) us -> exists T, functional_tp x y z us None None None nrm pn gn = Ok T.
Proof.
  intros Hn HA HP. unfold functional_tp. destruct (mapM_ok (make_ins x y z) (fun u o => make_ins x y z u = Ok o) us) as (ins & Em & F).
  { intros u Hu. rewrite Forall_forall in HA. specialize (HA u Hu). destruct u as [[[[[i1 i2] io] m] hw] pw]. destruct HA as (Nb & m1 & a & m2 & b & mo & c & E1 & E2 & E3 & _). unfold make_ins.
    assert (K1 : i1 < length x) by (apply nth_error_Some; congruence). assert (K2 : i2 < length y) by (apply nth_error_Some; congruence). assert (K3 : io < length z) by (apply nth_error_Some; congruence). apply Nat.ltb_lt in K1, K2, K3. rewrite K1, K2, K3. cbn [andb negb]. destruct m; try congruence; eexists; split; reflexivity. }
  rewrite Em. cbn [bind]. unfold var_or. rewrite !repeat_length.
  assert (G : Forall (fun o => ti_1 o < length x /\ ti_2 o < length y /\ ti_o o < length z /\ In (snd (entry_of z (ti_o o))) (ir_mul (snd (entry_of x (ti_1 o))) (snd (entry_of y (ti_2 o)))) /\ (0 <= ti_pw o)%R) ins).
  { clear Em. induction F as [|u o us ins Hu F IH]; constructor; inversion HA; inversion HP; subst; [|apply IH; assumption]. destruct (make_ins_ok _ _ _ _ _ Hu) as (i1 & i2 & io & m & hw & pw & -> & B1 & B2 & B3 & _ & ->). cbn [ti_1 ti_2 ti_o ti_pw]. repeat (split; [assumption|]).
    match goal with H : allowed _ _ _ _ |- _ => destruct H as (_ & m1 & a & m2 & b & mo & c & E1 & E2 & E3 & C) end. unfold entry_of. rewrite (nth_error_nth _ _ _ E1), (nth_error_nth _ _ _ E2), (nth_error_nth _ _ _ E3). split; assumption. }
  rewrite Forall_forall in G. destruct (forallb _ ins) eqn:Fb.
  - cbn [negb]. destruct (mapM_some (update x y z (repeat 1%R (length x)) (repeat 1%R (length y)) (repeat 1%R (length z)) nrm pn gn ins) ins) as (ins' & E').
    + intros o Ho. destruct (G o Ho) as (B1 & B2 & B3 & C & P). unfold update. rewrite ir_mul_in in C. destruct C as [Cp Cl]. destruct (match nrm with NOther => true | _ => false end) eqn:N; [destruct nrm; congruence|].
      rewrite <- Cp. replace (parity_eqb (ir_p (snd (entry_of z (ti_o o)))) (ir_p (snd (entry_of z (ti_o o))))) with true by (symmetry; apply parity_eqb_eq; reflexivity). cbn [negb].
      replace ((_ <=? _) && (_ <=? _)) with true by (symmetry; rewrite andb_true_iff, !Nat.leb_le; lia). cbn [negb]. rewrite repeat_length. destruct (Nat.ltb_spec (ti_o o) (length z)); [|lia]. cbn [negb].
      destruct (Rlt_dec _ 0) as [Neg|_]; [|eexists; reflexivity]. exfalso. assert (Q : (0 <= ins_alpha x y z (repeat 1%R (length x)) (repeat 1%R (length y)) (repeat 1%R (length z)) nrm pn ins o)%R); [|lra]. apply alpha_nonneg; [|exact P]. rewrite (nth_error_nth (repeat 1%R (length z)) (ti_o o) 0%R (x := 1%R)) by (apply nth_error_repeat; assumption). lra.
    + rewrite E'. cbn [bind]. eexists. reflexivity.
  - exfalso. apply Bool.not_true_iff_false in Fb. apply Fb. apply forallb_forall. intros o Ho. destruct (G o Ho) as (B1 & B2 & _). rewrite andb_true_iff, !Nat.ltb_lt. auto.
Qed.

(* ---------- left_right ---------- *)
(* inputs for a tensor product: one-dimensional arrays whose irreps are those of the constructor up to simplification *)
Definition inputs_for (T : ftp) (x1 x2 : iarray) : Prop :=
  coherent x1 /\ coherent x2 /\ simplify (irr x1) = simplify (tp_in1 T) /\ simplify (irr x2) = simplify (tp_in2 T) /\ lead x1 = [] /\ lead x2 = [].
(* the value: the contribution of an instruction to component k of copy z of its output is
   sum_{u,v} coefficient(u,v,z) path_weight sum_{i,j} cg(i,j,k) x1[u,i] x2[v,j] *)
Theorem C49_value x y z us v1 v2 vo nrm pn gn T cg w l x1 x2 : functional_tp x y z us v1 v2 vo nrm pn gn = Ok T -> inputs_for T x1 x2 -> Forall suits (tp_ins T) -> Forall nonempty (tp_ins T) -> stands_for (tp_ins T) w l ->
  exists r, left_right cg false T w x1 x2 = Ok r /\ irr r = z /\ lead r = [] /\ coherent r /\
    forall j q k, inside z j q k -> entry z (arr r []) j q k =
      lsum (assign (tp_ins T) l) (fun '(o, wt) => if ti_o o =? j then
        rsum (ti_m1 o) (fun u => rsum (ti_m2 o) (fun v => coefficient (ti_mode o) (ti_hw o) (ti_m1 o) (ti_m2 o) (ti_mo o) wt u v q *
          (ti_pw o * (let a := snd (nth (ti_1 o) x d0) in let b := snd (nth (ti_2 o) y d0) in
            rsum (ir_dim a) (fun i => rsum (ir_dim b) (fun i' => cg (ir_l a) (ir_l b) (ir_l (snd (nth j z d0))) i i' k * entry x (arr x1 []) (ti_1 o) u i * entry y (arr x2 []) (ti_2 o) v i'))))))%R else 0%R).
Proof.
  intros E (H1 & H2 & S1 & S2 & L1 & L2) HS HN HW. destruct (constructor_inv _ _ _ _ _ _ _ _ _ _ _ E) as (ins & _ & Ex & Ey & Ez & _). pose proof (coupled_all _ _ _ _ _ _ _ _ _ _ _ E) as HC.
  destruct (unfused_yields cg T w l x1 x2 H1 H2 S1 S2 L1 L2 HC HS HN HW) as (r & Er & Ir & Lr & Cr & Ar). exists r. rewrite Ex, Ey, Ez in *. repeat (split; [assumption|]). intros j q k Hin. rewrite Ar by constructor. rewrite entry_rowof by exact Hin. reflexivity.
Qed.
(* the same with fusion, for the modes it implements; no condition on empty entries *)
Theorem C49_fused_value x y z us v1 v2 vo nrm pn gn T cg w l x1 x2 : functional_tp x y z us v1 v2 vo nrm pn gn = Ok T -> inputs_for T x1 x2 -> Forall suits (tp_ins T) -> Forall fusable (tp_ins T) -> stands_for (tp_ins T) w l ->
  exists r, left_right cg true T w x1 x2 = Ok r /\ irr r = z /\ lead r = [] /\ coherent r /\
    forall j q k, inside z j q k -> entry z (arr r []) j q k =
      lsum (assign (tp_ins T) l) (fun '(o, wt) => if ti_o o =? j then
        rsum (ti_m1 o) (fun u => rsum (ti_m2 o) (fun v => coefficient (ti_mode o) (ti_hw o) (ti_m1 o) (ti_m2 o) (ti_mo o) wt u v q *
          (ti_pw o * (let a := snd (nth (ti_1 o) x d0) in let b := snd (nth (ti_2 o) y d0) in
            rsum (ir_dim a) (fun i => rsum (ir_dim b) (fun i' => cg (ir_l a) (ir_l b) (ir_l (snd (nth j z d0))) i i' k * entry x (arr x1 []) (ti_1 o) u i * entry y (arr x2 []) (ti_2 o) v i'))))))%R else 0%R).
Proof.
  intros E (H1 & H2 & S1 & S2 & L1 & L2) HS HF HW. destruct (constructor_inv _ _ _ _ _ _ _ _ _ _ _ E) as (ins & _ & Ex & Ey & Ez & _). pose proof (coupled_all _ _ _ _ _ _ _ _ _ _ _ E) as HC.
  destruct (fused_yields cg T w l x1 x2 H1 H2 S1 S2 L1 L2 HC HS HF HW) as (r & Er & Ir & Lr & Cr & Ar). exists r. rewrite Ex, Ey, Ez in *. repeat (split; [assumption|]). intros j q k Hin. rewrite Ar by constructor. rewrite entry_rowof by exact Hin. reflexivity.
Qed.
(* fused and unfused evaluation agree *)
Theorem C49_fused_agrees x y z us v1 v2 vo nrm pn gn T cg w l x1 x2 : functional_tp x y z us v1 v2 vo nrm pn gn = Ok T -> inputs_for T x1 x2 -> Forall suits (tp_ins T) -> Forall nonempty (tp_ins T) -> Forall fusable (tp_ins T) -> stands_for (tp_ins T) w l ->
  exists r r', left_right cg false T w x1 x2 = Ok r /\ left_right cg true T w x1 x2 = Ok r' /\ irr r = irr r' /\ lead r = lead r' /\ arr r [] = arr r' [].
Proof.
  intros E (H1 & H2 & S1 & S2 & L1 & L2) HS HN HF HW. pose proof (coupled_all _ _ _ _ _ _ _ _ _ _ _ E) as HC.
  destruct (unfused_yields cg T w l x1 x2 H1 H2 S1 S2 L1 L2 HC HS HN HW) as (r & Er & Ir & Lr & _ & Ar). destruct (fused_yields cg T w l x1 x2 H1 H2 S1 S2 L1 L2 HC HS HF HW) as (r' & Er' & Ir' & Lr' & _ & Ar').
  exists r, r'. split; [exact Er|]. split; [exact Er'|]. split; [congruence|]. split; [congruence|]. rewrite Ar, Ar' by constructor. reflexivity.
Qed.
(* the modes that fusion does not implement are refused *)
Theorem C49_fused_rejects T cg l x1 x2 o rest : coherent x1 -> coherent x2 -> simplify (irr x1) = simplify (tp_in1 T) -> simplify (irr x2) = simplify (tp_in2 T) -> lead x1 = [] -> lead x2 = [] ->
  dim (tp_in1 T) <> 0 -> dim (tp_in2 T) <> 0 -> dim (tp_out T) <> 0 -> weights_fit (tp_ins T) l ->
  tp_ins T = o :: rest -> ~ fusable o -> left_right cg true T (WList l) x1 x2 = Err AssertionError.
Proof.
  intros H1 H2 S1 S2 L1 L2 N1 N2 N3 HW Eo NF. unfold left_right. destruct (rechunk_yields x1 _ H1 S1) as (y1 & -> & _ & Ly1 & _). destruct (rechunk_yields x2 _ H2 S2) as (y2 & -> & _ & Ly2 & _). cbn [bind]. rewrite Ly1, Ly2, L1, L2.
  apply Nat.eqb_neq in N1, N2, N3. rewrite N1, N2, N3. cbn [orb]. rewrite (weight_forms_ok T (WList l) l) by (split; [exact HW|reflexivity]). cbn [bind length Nat.eqb assert].
  unfold fused_left_right. rewrite Eo. cbn [foldM]. unfold fused_step, fused_places. unfold fusable in NF. destruct (ti_mode o); try (destruct (ti_hw o); [exfalso; apply NF; reflexivity|]); try (exfalso; apply NF; exact Logic.I); reflexivity.
Qed.
