(* C49: linearity, output mask, fully connected tensor product *)
From Coq Require Import Reals Lra Lia List.
From Verif Require Import PyBase PermModel PermProofs IrrepsModel IrrepsProofs IrrepsProofs2 ArrayModel ArrayProofs ArrayOps RechunkProofs ArithProofs BlockProofs LeadModel LeadProofs StackProofs BilinProofs ActProofs EquivProofs EquivProofs2 SumR TPModel LinearModel LinearProofs TPProofs TPProofs2 LinearProps TPProps3 TPProps4 SymProofs2 ArrayProps3 LegacyModel GSProofs LegacyProofs LegacyProofs2 LegacyProofs3 LegacyProofs4 LegacyProofs5 LegacyProofs6 LegacyProofs7 LegacyProofs8 LegacyProps LegacyProps2 LegacyProps3.
From Verif Require Import EntryProofs.
Import ListNotations.
Open Scope nat_scope.

(* ---------- linearity in each input ---------- *)
Lemma left_right_yields cg (fused : bool) T w l x1 x2 : Forall (coupled_ins (tp_in1 T) (tp_in2 T) (tp_out T)) (tp_ins T) -> inputs_for T x1 x2 -> Forall suits (tp_ins T) -> (if fused then Forall fusable (tp_ins T) else Forall nonempty (tp_ins T)) -> stands_for (tp_ins T) w l ->
  yields (left_right cg fused T w x1 x2) (tp_out T) [] (fun _ => rowof (tp_out T) (legacy_entry cg (tp_in1 T) (tp_in2 T) (tp_out T) (assign (tp_ins T) l) (entry (tp_in1 T) (arr x1 [])) (entry (tp_in2 T) (arr x2 [])))).
Proof. intros HC (H1 & H2 & S1 & S2 & L1 & L2) HS HF HW. destruct fused; [apply fused_yields|apply unfused_yields]; auto. Qed.
Lemma term_lin_l cg x y c X X' X'' Y o w z k r : (forall u i, u < ti_m1 o -> i < ir_dim (snd (nth (ti_1 o) x d0)) -> X'' (ti_1 o) u i = (r * X (ti_1 o) u i + X' (ti_1 o) u i)%R) ->
  (term cg x y c X'' Y o w z k = r * term cg x y c X Y o w z k + term cg x y c X' Y o w z k)%R.
Proof.
  intros H. unfold term. cbv zeta. rewrite <- rsum_scal, <- rsum_plus. apply rsum_ext. intros u Hu. rewrite <- rsum_scal, <- rsum_plus. apply rsum_ext. intros v Hv.
  rewrite (rsum_ext _ _ (fun i => r * rsum (ir_dim (snd (nth (ti_2 o) y d0))) (fun j => cg (ir_l (snd (nth (ti_1 o) x d0))) (ir_l (snd (nth (ti_2 o) y d0))) (ir_l c) i j k * X (ti_1 o) u i * Y (ti_2 o) v j) + rsum (ir_dim (snd (nth (ti_2 o) y d0))) (fun j => cg (ir_l (snd (nth (ti_1 o) x d0))) (ir_l (snd (nth (ti_2 o) y d0))) (ir_l c) i j k * X' (ti_1 o) u i * Y (ti_2 o) v j)))%R.
  - rewrite rsum_plus, rsum_scal. ring.
  - intros i Hi. rewrite <- rsum_scal, <- rsum_plus. apply rsum_ext. intros j Hj. rewrite H by assumption. ring.
Qed.
Lemma term_lin_r cg x y c X Y Y' Y'' o w z k r : (forall v i, v < ti_m2 o -> i < ir_dim (snd (nth (ti_2 o) y d0)) -> Y'' (ti_2 o) v i = (r * Y (ti_2 o) v i + Y' (ti_2 o) v i)%R) ->
  (term cg x y c X Y'' o w z k = r * term cg x y c X Y o w z k + term cg x y c X Y' o w z k)%R.
Proof.
  intros H. unfold term. cbv zeta. rewrite <- rsum_scal, <- rsum_plus. apply rsum_ext. intros u Hu. rewrite <- rsum_scal, <- rsum_plus. apply rsum_ext. intros v Hv.
  rewrite (rsum_ext _ _ (fun i => r * rsum (ir_dim (snd (nth (ti_2 o) y d0))) (fun j => cg (ir_l (snd (nth (ti_1 o) x d0))) (ir_l (snd (nth (ti_2 o) y d0))) (ir_l c) i j k * X (ti_1 o) u i * Y (ti_2 o) v j) + rsum (ir_dim (snd (nth (ti_2 o) y d0))) (fun j => cg (ir_l (snd (nth (ti_1 o) x d0))) (ir_l (snd (nth (ti_2 o) y d0))) (ir_l c) i j k * X (ti_1 o) u i * Y' (ti_2 o) v j)))%R.
  - rewrite rsum_plus, rsum_scal. ring.
  - intros i Hi. rewrite <- rsum_scal, <- rsum_plus. apply rsum_ext. intros j Hj. rewrite H by assumption. ring.
Qed.
Lemma lsum_lin {A} (l : list A) (f g h : A -> R) r : (forall a, In a l -> f a = r * g a + h a)%R -> (lsum l f = r * lsum l g + lsum l h)%R.
Proof. intros H. rewrite <- lsum_scal, <- lsum_plus. apply lsum_ext. exact H. Qed.
Theorem C49_linear_left x y z us v1 v2 vo nrm pn gn T cg (fused : bool) w l r x1 x1' xr x2 : functional_tp x y z us v1 v2 vo nrm pn gn = Ok T ->
  inputs_for T x1 x2 -> inputs_for T x1' x2 -> inputs_for T xr x2 -> arr xr [] = zipR Rplus (map (Rmult r) (arr x1 [])) (arr x1' []) -> Forall suits (tp_ins T) ->
  (if fused then Forall fusable (tp_ins T) else Forall nonempty (tp_ins T)) -> stands_for (tp_ins T) w l ->
  exists s s' sr, left_right cg fused T w x1 x2 = Ok s /\ left_right cg fused T w x1' x2 = Ok s' /\ left_right cg fused T w xr x2 = Ok sr /\ arr sr [] = zipR Rplus (map (Rmult r) (arr s [])) (arr s' []).
Proof.
  intros E I1 I1' Ir A HS HF HW. pose proof (coupled_all _ _ _ _ _ _ _ _ _ _ _ E) as HC.
  destruct (left_right_yields cg fused T w l x1 x2 HC I1 HS HF HW) as (s & Es & _ & _ & _ & As). destruct (left_right_yields cg fused T w l x1' x2 HC I1' HS HF HW) as (s' & Es' & _ & _ & _ & As'). destruct (left_right_yields cg fused T w l xr x2 HC Ir HS HF HW) as (sr & Esr & _ & _ & _ & Asr).
  exists s, s', sr. repeat (split; [assumption|]). rewrite As, As', Asr by constructor. fold (lin r (rowof (tp_out T) (legacy_entry cg (tp_in1 T) (tp_in2 T) (tp_out T) (assign (tp_ins T) l) (entry (tp_in1 T) (arr x1 [])) (entry (tp_in2 T) (arr x2 [])))) (rowof (tp_out T) (legacy_entry cg (tp_in1 T) (tp_in2 T) (tp_out T) (assign (tp_ins T) l) (entry (tp_in1 T) (arr x1' [])) (entry (tp_in2 T) (arr x2 []))))).
  rewrite <- rowof_lin. apply rowof_ext. intros j q k Hin. unfold legacy_entry. apply lsum_lin. intros [o wt] Ho. destruct (ti_o o =? j); [|ring]. apply term_lin_l. apply assign_in in Ho. rewrite Forall_forall in HC. destruct (HC o Ho) as (m1 & a & m2 & b & mo & c & E1 & E2 & E3 & _ & M1 & M2 & M3).
  intros u i Hu Hi. rewrite (nth_error_nth _ _ _ E1) in Hi. rewrite A. apply entry_lin; [| |exists m1, a; split; [exact E1|split; [lia|exact Hi]]].
  - destruct I1 as (H1 & _ & S1 & _ & L1 & _). rewrite <- (dim_of_simplify _ _ S1). apply H1. rewrite L1. constructor.
  - destruct I1' as (H1 & _ & S1 & _ & L1 & _). rewrite <- (dim_of_simplify _ _ S1). apply H1. rewrite L1. constructor.
Qed.
Theorem C49_linear_right x y z us v1 v2 vo nrm pn gn T cg (fused : bool) w l r x1 x2 x2' xr : functional_tp x y z us v1 v2 vo nrm pn gn = Ok T ->
  inputs_for T x1 x2 -> inputs_for T x1 x2' -> inputs_for T x1 xr -> arr xr [] = zipR Rplus (map (Rmult r) (arr x2 [])) (arr x2' []) -> Forall suits (tp_ins T) ->
  (if fused then Forall fusable (tp_ins T) else Forall nonempty (tp_ins T)) -> stands_for (tp_ins T) w l ->
  exists s s' sr, left_right cg fused T w x1 x2 = Ok s /\ left_right cg fused T w x1 x2' = Ok s' /\ left_right cg fused T w x1 xr = Ok sr /\ arr sr [] = zipR Rplus (map (Rmult r) (arr s [])) (arr s' []).
Proof.
  intros E I1 I1' Ir A HS HF HW. pose proof (coupled_all _ _ _ _ _ _ _ _ _ _ _ E) as HC.
  destruct (left_right_yields cg fused T w l x1 x2 HC I1 HS HF HW) as (s & Es & _ & _ & _ & As). destruct (left_right_yields cg fused T w l x1 x2' HC I1' HS HF HW) as (s' & Es' & _ & _ & _ & As'). destruct (left_right_yields cg fused T w l x1 xr HC Ir HS HF HW) as (sr & Esr & _ & _ & _ & Asr).
  exists s, s', sr. repeat (split; [assumption|]). rewrite As, As', Asr by constructor. fold (lin r (rowof (tp_out T) (legacy_entry cg (tp_in1 T) (tp_in2 T) (tp_out T) (assign (tp_ins T) l) (entry (tp_in1 T) (arr x1 [])) (entry (tp_in2 T) (arr x2 [])))) (rowof (tp_out T) (legacy_entry cg (tp_in1 T) (tp_in2 T) (tp_out T) (assign (tp_ins T) l) (entry (tp_in1 T) (arr x1 [])) (entry (tp_in2 T) (arr x2' []))))).
  rewrite <- rowof_lin. apply rowof_ext. intros j q k Hin. unfold legacy_entry. apply lsum_lin. intros [o wt] Ho. destruct (ti_o o =? j); [|ring]. apply term_lin_r. apply assign_in in Ho. rewrite Forall_forall in HC. destruct (HC o Ho) as (m1 & a & m2 & b & mo & c & E1 & E2 & E3 & _ & M1 & M2 & M3).
  intros u i Hu Hi. rewrite (nth_error_nth _ _ _ E2) in Hi. rewrite A. apply entry_lin; [| |exists m2, b; split; [exact E2|split; [lia|exact Hi]]].
  - destruct I1 as (_ & H1 & _ & S1 & _ & L1). rewrite <- (dim_of_simplify _ _ S1). apply H1. rewrite L1. constructor.
  - destruct I1' as (_ & H1 & _ & S1 & _ & L1). rewrite <- (dim_of_simplify _ _ S1). apply H1. rewrite L1. constructor.
Qed.

(* ---------- the output mask ---------- *)
Lemma mask_at (x : irreps) (G : nat -> bool) : forall s k m r, nth_error x k = Some m -> r < mi_dim m ->
  nth (dim (firstn k x) + r) (flat_map (fun '(k, m) => repeat (G k) (mi_dim m)) (combine (seq s (length x)) x)) true = G (s + k).
Proof.
  induction x as [|m0 x IH]; intros s k m r E Hr; [destruct k; discriminate|]. cbn [length seq combine flat_map]. destruct k as [|k].
  - injection E as ->. cbn [firstn]. change (dim []) with 0. rewrite app_nth1 by (rewrite repeat_length; exact Hr). rewrite Nat.add_0_r. apply nth_error_nth, nth_error_repeat, Hr.
  - cbn [nth_error firstn] in *. rewrite dim_cons, app_nth2 by (rewrite repeat_length; lia). rewrite repeat_length. replace (mi_dim m0 + dim (firstn k x) + r - mi_dim m0) with (dim (firstn k x) + r) by lia. rewrite (IH (S s) k m r E Hr). f_equal. lia.
Qed.
Lemma mask_length (x : irreps) (G : nat -> bool) : forall s, length (flat_map (fun '(k, m) => repeat (G k) (mi_dim m)) (combine (seq s (length x)) x)) = dim x.
Proof. induction x as [|m0 x IH]; intros s; [reflexivity|]. cbn [length seq combine flat_map]. rewrite app_length, repeat_length, dim_cons, IH. reflexivity. Qed.
Lemma nprod_zero l : In 0 l -> nprod l = 0.
Proof. unfold nprod. induction l as [|a l IH]; intros H; [destruct H|]. cbn [fold_right]. destruct H as [->|H]; [reflexivity|]. rewrite IH by exact H. lia. Qed.
(* output_mask has one flag per component of the output; where it is False the output is zero for all weights and inputs *)
Theorem C49_output_mask x y z us v1 v2 vo nrm pn gn T cg (fused : bool) w l x1 x2 s : functional_tp x y z us v1 v2 vo nrm pn gn = Ok T -> inputs_for T x1 x2 -> Forall suits (tp_ins T) ->
  (if fused then Forall fusable (tp_ins T) else Forall nonempty (tp_ins T)) -> stands_for (tp_ins T) w l -> left_right cg fused T w x1 x2 = Ok s ->
  length (tp_mask T) = dim z /\
  forall j q k, inside z j q k -> nth (dim (firstn j z) + (q * ir_dim (snd (nth j z d0)) + k)) (tp_mask T) true = false -> entry z (arr s []) j q k = 0%R.
Proof.
  intros E HI HS HF HW Es. pose proof (coupled_all _ _ _ _ _ _ _ _ _ _ _ E) as HC. destruct (constructor_inv _ _ _ _ _ _ _ _ _ _ _ E) as (ins & _ & Ex & Ey & Ez & Em & _).
  destruct (left_right_yields cg fused T w l x1 x2 HC HI HS HF HW) as (s' & Es' & _ & _ & _ & As). rewrite Es in Es'. assert (Q : s' = s) by congruence. rewrite Q in As. clear Q Es'. rewrite Em. unfold out_mask, enumerate. split; [apply (mask_length z (fun j => existsb _ _))|].
  intros j q k (mo & c & Ej & Hq & Hk) HM. rewrite (nth_error_nth _ _ _ Ej) in HM. cbn [snd] in HM. rewrite (mask_at z (fun j => existsb (fun o => (ti_o o =? j) && (if Req_EM_T (ti_pw o) 0 then false else true) && negb (existsb (Nat.eqb 0) (path_shape o))) (tp_ins T)) 0 j (mo, c)) in HM; [|exact Ej|unfold mi_dim; cbn [fst snd]; apply digit_bound; assumption]. cbn [Nat.add] in HM.
  rewrite As by constructor. rewrite Ez. rewrite entry_rowof by (exists mo, c; auto). unfold legacy_entry. apply lsum_zero. intros [o wt] Ho. destruct (Nat.eqb_spec (ti_o o) j) as [Eo|]; [|reflexivity]. apply assign_in in Ho.
  assert (K : (if Req_EM_T (ti_pw o) 0 then false else true) && negb (existsb (Nat.eqb 0) (path_shape o)) = false).
  { apply Bool.not_true_iff_false. intros Kt. apply Bool.not_true_iff_false in HM. apply HM. apply existsb_exists. exists o. split; [exact Ho|]. rewrite Eo, Nat.eqb_refl. exact Kt. }
  unfold term. cbv zeta. destruct (Req_EM_T (ti_pw o) 0) as [Z|_].
  - rewrite Z. apply rsum_zero. intros u _. apply rsum_zero. intros v _. ring.
  - cbn [andb] in K. apply Bool.negb_false_iff in K. apply existsb_exists in K as (n & Hn & En). apply Nat.eqb_eq in En. subst n. apply nprod_zero in Hn. rewrite Forall_forall in HS, HC. specialize (HS o Ho). destruct (HC o Ho) as (m1 & a & m2 & b & mo' & c' & E1 & E2 & E3 & _ & M1 & M2 & M3).
    assert (Mo : mo' = mo) by (rewrite Eo, Ez in E3; congruence). apply rsum_zero. intros u Hu. apply rsum_zero. intros v Hv. destruct (C49_own_weight o wt u v q HS Hu Hv ltac:(lia)) as [Ec Hs]. destruct (feeds _ _ _ u v q); [destruct (Hs eq_refl) as [B _]; lia|]. rewrite Ec. ring.
Qed.

(* ---------- the fully connected tensor product ---------- *)
(* the instructions: one "uvw" instruction with weights for every allowed triple of entries, none twice *)
Theorem C49_fully_connected x y z : NoDup (map (fun u : uinstr => let '(i1, i2, io, _, _, _) := u in (i1, i2, io)) (fc_instructions x y z)) /\
  forall i1 i2 io m hw pw, In (i1, i2, io, m, hw, pw) (fc_instructions x y z) <-> m = Uvw /\ hw = true /\ pw = 1%R /\
    exists m1 a m2 b mo c, nth_error x i1 = Some (m1, a) /\ nth_error y i2 = Some (m2, b) /\ nth_error z io = Some (mo, c) /\ In c (ir_mul a b).
Proof.
  split.
  - unfold fc_instructions. rewrite flat_map_concat_map, concat_map, map_map, <- flat_map_concat_map.
    assert (K : forall i1 m1 a t, In t (map (fun u : uinstr => let '(i1, i2, io, _, _, _) := u in (i1, i2, io)) ((fun '(i1, (_, a)) => flat_map (fun '(i2, (_, b)) => flat_map (fun '(io, (_, c)) => if existsb (irrep_eqb c) (ir_mul a b) then [(i1, i2, io, Uvw, true, 1%R)] else []) (enumerate z)) (enumerate y)) (i1, ((m1 : nat), a)))) -> fst (fst t) = i1 /\ exists m2 b, In (snd (fst t), (m2, b)) (enumerate y)).
    { intros i1 m1 a t Ht. apply in_map_iff in Ht as (u & <- & Hu). apply in_flat_map in Hu as ([i2 [m2 b]] & H2 & Hu). apply in_flat_map in Hu as ([io [mo c]] & H3 & Hu). destruct (existsb _ _); [|destruct Hu]. destruct Hu as [<-|[]]. split; [reflexivity|]. exists m2, b. exact H2. }
    apply nodup_flat_map; [apply nodup_enumerate| |].
    + intros [i1 [m1 a]] _. rewrite flat_map_concat_map, concat_map, map_map, <- flat_map_concat_map. apply nodup_flat_map; [apply nodup_enumerate| |].
      * intros [i2 [m2 b]] _. rewrite flat_map_concat_map, concat_map, map_map, <- flat_map_concat_map. apply nodup_flat_map; [apply nodup_enumerate| |].
        -- intros [io [mo c]] _. destruct (existsb _ _); repeat constructor; intros [].
        -- intros [io [mo c]] [io' [mo' c']] t Hi Hi' H H'. destruct (existsb _ _); [|destruct H]. destruct (existsb _ _); [|destruct H']. destruct H as [<-|[]], H' as [H'|[]]. injection H' as ->. apply in_enumerate in Hi, Hi'. congruence.
      * intros [i2 [m2 b]] [i2' [m2' b']] t Hi Hi' H H'. apply in_map_iff in H as (u & <- & Hu). apply in_map_iff in H' as (u' & Eu & Hu'). apply in_flat_map in Hu as ([io [mo c]] & _ & Hu). apply in_flat_map in Hu' as ([io' [mo' c']] & _ & Hu').
        destruct (existsb _ _); [|destruct Hu]. destruct (existsb _ _); [|destruct Hu']. destruct Hu as [<-|[]], Hu' as [<-|[]]. injection Eu as -> _. apply in_enumerate in Hi, Hi'. congruence.
    + intros [i1 [m1 a]] [i1' [m1' a']] t Hi Hi' H H'. apply (K i1 m1 a t) in H as [H _]. apply (K i1' m1' a' t) in H' as [H' _]. assert (i1 = i1') by congruence. subst i1'. apply in_enumerate in Hi, Hi'. congruence.
  - intros i1 i2 io m hw pw. unfold fc_instructions. split.
    + intros H. apply in_flat_map in H as ([j1 [m1 a]] & H1 & H). apply in_flat_map in H as ([j2 [m2 b]] & H2 & H). apply in_flat_map in H as ([jo [mo c]] & H3 & H). destruct (existsb (irrep_eqb c) (ir_mul a b)) eqn:Q; [|destruct H]. destruct H as [H|[]]. injection H as -> -> -> <- <- <-. repeat (split; [reflexivity|]). apply in_enumerate in H1, H2, H3. exists m1, a, m2, b, mo, c. repeat (split; [assumption|]). apply existsb_exists in Q as (c' & Hc & Ec). apply irrep_eqb_eq in Ec. subst c'. exact Hc.
    + intros (-> & -> & -> & m1 & a & m2 & b & mo & c & E1 & E2 & E3 & C). apply in_enumerate in E1, E2, E3. apply in_flat_map. exists (i1, (m1, a)). split; [exact E1|]. apply in_flat_map. exists (i2, (m2, b)). split; [exact E2|]. apply in_flat_map. exists (io, (mo, c)). split; [exact E3|].
      replace (existsb (irrep_eqb c) (ir_mul a b)) with true by (symmetry; apply existsb_exists; exists c; split; [exact C|apply irrep_eqb_eq; reflexivity]). left. reflexivity.
Qed.
(* it can always be constructed, and every instruction can be evaluated in each of the three ways *)
Theorem C49_fully_connected_total x y z nrm pn gn : nrm <> NOther -> exists T, functional_fctp x y z None None None nrm pn gn = Ok T /\ Forall suits (tp_ins T) /\ Forall fusable (tp_ins T) /\ Forall rightable (tp_ins T) /\
  (Forall (fun m => 0 < fst m) x -> Forall (fun m => 0 < fst m) y -> Forall (fun m => 0 < fst m) z -> Forall nonempty (tp_ins T)).
Proof.
  intros Hn. destruct (C49_fully_connected x y z) as [_ HF]. destruct (C49_constructor_complete x y z (fc_instructions x y z) nrm pn gn Hn) as (T & E).
  - apply Forall_forall. intros [[[[[i1 i2] io] m] hw] pw] Hu. apply HF in Hu as (-> & _ & _ & H). split; [discriminate|exact H].
  - apply Forall_forall. intros [[[[[i1 i2] io] m] hw] pw] Hu. apply HF in Hu as (_ & _ & -> & _). cbn. lra.
  - exists T. split; [exact E|]. pose proof (constructor_coupled _ _ _ _ _ _ _ _ _ _ _ E) as F. assert (G : Forall (fun o => ti_mode o = Uvw /\ ti_hw o = true /\ coupled_ins x y z o) (tp_ins T)).
    { apply Forall_forall. intros o Ho. destruct (Forall2_of_r _ _ _ o F Ho) as ([[[[[i1 i2] io] m] hw] pw] & Hu & Hm & Hc). apply HF in Hu as (-> & -> & _). destruct Hm as (_ & _ & _ & Hm & Hh & _). auto. }
    split; [|split; [|split]]; [eapply Forall_impl; [|exact G]; intros o (Hm & Hh & _); unfold suits, fusable, rightable; rewrite Hm; cbn; auto..|].
    intros Px Py Pz. eapply Forall_impl; [|exact G]. intros o (_ & _ & m1 & a & m2 & b & mo & c & E1 & E2 & E3 & _ & M1 & M2 & M3). rewrite Forall_forall in Px, Py, Pz. apply nth_error_In in E1, E2, E3. specialize (Px _ E1). specialize (Py _ E2). specialize (Pz _ E3). unfold nonempty. cbn in *. lia.
Qed.
