(* C68: the module LinearSHTP of experimental/linear_shtp.py.
   Vocabulary: ShtpProps.v ([channel], [allowed], [channels]), ArrayProps.v ([agree], [coherent]), TpshProps.v ([is_vector]: irreps "1o" or "1e"). *)
From Coq Require Import Reals ZArith Arith Lia Lra Bool List.
From Verif Require Import PyBase IrrepsModel IrrepsProofs IrrepsProofs2 ArrayModel ArrayProofs ArrayOps RechunkProofs LeadModel LeadProofs ArithProofs SumR CGModel CGProofs10 ActProofs EquivProofs EquivProofs2 EntryProofs TPModel TPProofs TPProofs2 TPProofs3 StableSort GradProofs.
From Verif Require Import RotationModel RotationProofs RotationProofs2 RotationProps WignerModel WignerProofs WignerProofs2 WignerProps WignerProps2 S2Model S2Proofs2 SHModel SHProofs SHProofs2 SHProps SHProps2 SHProps3 TpshCG TpshModel TpshProofs TpshProofs2 TpshProofs3 TpshProps.
From Verif Require Import ShtpModel ShtpProofs ShtpProofs2 ShtpProofs3 ShtpProofs4 ShtpProofs5 ShtpProofs6 ShtpProps LinShtpModel LinShtpProofs LinShtpProofs2 LinShtpProofs3 LinShtpProofs4.
Import ListNotations.
Open Scope R_scope.

(* ---- specification ---- *)
(* the kinds of channels from irrep a to irrep b *)
Definition kinds (p : parity) (b a : irrep) : list bool := filter (fun sym => allowed sym p a b && (0 <? channels sym a b)%nat) [true; false].
Definition kind_sign (sym : bool) : R := if sym then 1 else -1.
(* number of copies of the input read, each kind apart *)
Definition copies_read (p : parity) (b : irrep) (x : irreps) : nat := list_sum (flat_map (fun '(mul, a) => map (fun _ => mul) (kinds p b a)) x).
(* mix = True: component k of copy v of entry q of irreps_out, of irrep b, for a direction at the pole *)
Definition mixed_value (p : parity) (w : weights) (x : irreps) (row : list R) (q : nat) (b : irrep) (v k : nat) : R :=
  lsum (enumerate x) (fun '(ix, (mul, a)) => lsum (kinds p b a) (fun sym => rsum mul (fun u => rsum (channels sym a b) (fun c =>
    kind_sign sym * w ix q sym c u v * channel sym (ir_l a) (ir_l b) c (entry x row ix u) k)))) / sqrt (INR (copies_read p b x)).
Definition mixed_at_pole (p : parity) (w : weights) (irs : irreps) (x : iarray) : iarray :=
  IA irs [] (fun _ => rowof irs (fun q v k => mixed_value p w (irr x) (arr x []) q (snd (nth q irs (0%nat, Irrep 0 Even))) v k)) None None.
(* mix = False: for each entry of the regrouped irreps_out, each entry of the input and each kind, the copies of the input *)
Definition kept_block (w : weights) (x : irreps) (row : list R) (q ix mul : nat) (b a : irrep) (sym : bool) : mulirrep * list R :=
  ((mul, b), flat_map (fun u => tab (ir_dim b) (fun k => rsum (channels sym a b) (fun c => kind_sign sym * w ix q sym c u 0%nat * channel sym (ir_l a) (ir_l b) c (entry x row ix u) k))) (seq 0 mul)).
Definition kept_blocks (p : parity) (w : weights) (irs x : irreps) (row : list R) : list (mulirrep * list R) :=
  flat_map (fun '(q, (_, b)) => flat_map (fun '(ix, (mul, a)) => map (kept_block w x row q ix mul b a) (kinds p b a)) (enumerate x)) (enumerate (regroup_irreps irs)).
Definition kept_at_pole (p : parity) (w : weights) (irs : irreps) (x : iarray) : iarray :=
  IA (map fst (kept_blocks p w irs (irr x) (arr x []))) [] (fun _ => flat_map snd (kept_blocks p w irs (irr x) (arr x []))) None None.
(* no entry of the input without a copy (with one, the code may divide 0 by 0) *)
Definition positive_copies (x : irreps) : Prop := Forall (fun m => (0 < fst m)%nat) x.

(* ---- lemmas ---- *)
Lemma kinds_has p b a : kinds p b a = filter (fun sym => has_part sym p a b) [true; false].
Proof. apply filter_ext. intros sym. apply allowed_has. Qed.
Lemma lpaths_kinds p b x : lpaths p b x = flat_map (fun '(k, (mul, a)) => map (SPath k mul a b) (kinds p b a)) (enumerate x).
Proof. unfold lpaths, shtp_paths. cbn [flat_map]. rewrite app_nil_r. apply flat_map_ext. intros [k [mul a]]. now rewrite kinds_has. Qed.
Lemma lpaths_nil p b x : lpaths p b x <> [] <-> exists mul a, In (mul, a) x /\ kinds p b a <> [].
Proof.
  rewrite lpaths_kinds. split.
  - intros H. destruct (flat_map _ _) as [|s l] eqn:E; [contradiction|]. assert (Hs : In s (s :: l)) by now left. rewrite <- E in Hs. apply in_flat_map in Hs as ([k [mul a]] & Hin & Hs). exists mul, a. split; [apply in_enumerate in Hin; exact (nth_error_In _ _ Hin)|]. intros Z. rewrite Z in Hs. destruct Hs.
  - intros (mul & a & Hin & N) Z. assert (L : forall o, (length (flat_map (fun '(k, (mul, a)) => map (SPath k mul a b) (kinds p b a)) (combine (seq o (length x)) x)) = 0)%nat -> False); [|apply (L 0%nat); fold (enumerate x); now rewrite Z].
    clear Z. induction x as [|m x IH]; intros o L; [destruct Hin|]. cbn [length seq combine flat_map] in L. rewrite app_length in L. destruct Hin as [->|Hin]; [rewrite map_length in L; destruct (kinds p b a); [contradiction|cbn in L; lia]|]. apply (IH Hin (S o)). lia.
Qed.
Lemma copies_read_paths p b x : copies_read p b x = list_sum (map s_mul (lpaths p b x)).
Proof.
  unfold copies_read. rewrite lpaths_kinds, map_flat_map. f_equal. rewrite <- (enum_flat (fun '(mul, a) => map (fun _ => mul) (kinds p b a)) x 0). apply flat_map_ext. intros [k [mul a]]. now rewrite map_map.
Qed.
Lemma kinds_channel p b a sym : In sym (kinds p b a) -> nchan sym (ir_l a) (ir_l b) = channels sym a b. Proof. intros _. symmetry. apply channels_nchan. Qed.
Lemma mixed_row p w irs x row : pl_row (lin_plan true p w irs x) x row = rowof irs (fun q v k => mixed_value p w x row q (snd (nth q irs (0%nat, Irrep 0 Even))) v k).
Proof.
  unfold pl_row. assert (Eo : pl_out (lin_plan true p w irs x) = irs). { unfold pl_out, lin_plan. rewrite map_map. cbn [mix_plan fst]. unfold enumerate. generalize 0%nat. induction irs as [|m l IH]; intros o; [reflexivity|]. cbn [length seq combine map fst snd]. now rewrite IH. }
  rewrite Eo. apply rowof_ext. intros q v k (m & b & E & Hv & Hk). rewrite (nth_error_nth _ _ _ E). cbn [snd].
  assert (Ec : cells (lin_plan true p w irs x) q = snd (mix_plan p w x (q, (m, b)))).
  { unfold cells, lin_plan. erewrite nth_error_nth; [reflexivity|]. apply map_nth_error. unfold enumerate. assert (G : forall o, nth_error (combine (seq o (length irs)) irs) q = Some ((o + q)%nat, (m, b))); [|apply (G 0%nat)]. clear - E. revert q E. induction irs as [|a l IH]; intros q E o; [now destruct q|]. destruct q; [injection E as ->; cbn; now rewrite Nat.add_0_r|]. cbn [length seq combine nth_error]. rewrite (IH q E (S o)). do 2 f_equal. lia. }
  rewrite Ec. unfold mix_plan. cbn [fst snd]. unfold pl_val, mixed_value. rewrite <- copies_read_paths. set (n := copies_read p b x). clearbody n. rewrite lsum_map. rewrite lpaths_kinds, lsum_flat_map. unfold Rdiv. rewrite <- lsum_scal_r. apply lsum_ext. intros [ix [mul a]] _. rewrite lsum_map. rewrite <- lsum_scal_r. apply lsum_ext. intros sym _. cbn [mix_cell fst snd s_mul s_sym s_in]. unfold s_n. cbn [s_sym s_ir s_out].
  rewrite Rmult_comm, <- rsum_scal. apply rsum_ext. intros u Hu. rewrite <- rsum_scal. rewrite <- channels_nchan. apply rsum_ext. intros c Hc. unfold cval. cbn [s_sym s_ir s_out s_in]. rewrite <- channel_band by assumption. change (sgn sym) with (kind_sign sym). unfold Rdiv. ring.
Qed.
Lemma kept_plan_flat p w irs x : lin_plan false p w irs x = flat_map (fun '(q, (_, b)) => flat_map (fun '(ix, (mul, a)) => map (fun sym => ((mul, b), [keep_cell w q (SPath ix mul a b sym)])) (kinds p b a)) (enumerate x)) (enumerate (regroup_irreps irs)).
Proof. unfold lin_plan. apply flat_map_ext. intros [q [m b]]. unfold keep_plan. cbn [fst snd]. rewrite lpaths_kinds, map_flat_map. apply flat_map_ext. intros [ix [mul a]]. now rewrite map_map. Qed.
Lemma flat_map_pointwise {A B C} (f : A -> list B) (g : A -> list C) (h : B -> C) l : (forall a, map h (f a) = g a) -> map h (flat_map f l) = flat_map g l.
Proof. intros H. rewrite map_flat_map. now apply flat_map_ext. Qed.
Definition cell_block (x : irreps) (row : list R) (o : mulirrep * list cell) : mulirrep * list R := (fst o, concat (tab2 (fst (fst o)) (ir_dim (snd (fst o))) (pl_val x row (snd o)))).
Lemma kept_row p w irs x row : map fst (kept_blocks p w irs x row) = pl_out (lin_plan false p w irs x) /\ flat_map snd (kept_blocks p w irs x row) = pl_row (lin_plan false p w irs x) x row.
Proof.
  assert (E : kept_blocks p w irs x row = map (cell_block x row) (lin_plan false p w irs x)).
  { rewrite kept_plan_flat. unfold kept_blocks. symmetry. apply flat_map_pointwise. intros [q [m b]]. apply flat_map_pointwise. intros [ix [mul a]]. rewrite map_map. apply map_ext. intros sym. unfold cell_block, kept_block. cbn [fst snd]. f_equal. rewrite flat_map_concat_map. f_equal. unfold tab2, tab at 1. apply map_ext_in. intros u Hu. apply in_seq in Hu. apply tab_ext. intros k Hk.
    unfold pl_val. cbn [lsum fold_right]. rewrite Rplus_0_r. cbn [keep_cell fst snd s_mul s_sym s_in]. rewrite (rsum_pick mul u); [|lia|intros u' Hu' N; apply rsum_zero; intros c Hc; destruct (Nat.eqb_spec u' u); [contradiction|ring]].
    rewrite Nat.eqb_refl. unfold s_n. cbn [s_sym s_ir s_out]. rewrite <- channels_nchan. apply rsum_ext. intros c Hc. unfold cval. cbn [s_sym s_ir s_out s_in]. rewrite <- channel_band by assumption. reflexivity. }
  rewrite E. split; [unfold pl_out; rewrite map_map; apply map_ext; reflexivity|]. unfold pl_row, pl_out, cells.
  rewrite (rowof_map_in ((0%nat, Irrep 0 Even), []) fst (fun o v k => pl_val x row (snd o) v k)). generalize (lin_plan false p w irs x) as pl. induction pl as [|o pl IH]; [reflexivity|]. cbn [map flat_map]. rewrite IH. reflexivity.
Qed.

(* ---- theorems ---- *)
(* when it succeeds *)
Theorem C68_accepts mix w irs x v : coherent x -> coherent v -> positive_copies (irr x) ->
  (exists z, linear_shtp mix w irs x v = Ok z) <-> one_row x /\ one_row v /\ exists p, irr v = [(1%nat, Irrep 1 p)] /\ (mix = true -> forall m b, In (m, b) irs -> exists mul a, In (mul, a) (irr x) /\ kinds p b a <> []).
Proof.
  intros Cx Cv _. unfold one_row. split.
  - intros [z H]. destruct (lin_shape _ _ _ _ _ _ H) as (A & B & p & Iv). split; [exact A|]. split; [exact B|]. exists p. split; [exact Iv|]. intros -> m b Hin. destruct (lin_makes true w irs x v p Cx A Cv B Iv) as [H1 _]. specialize (H1 (ex_intro _ z H)). cbn [all_reached] in H1. rewrite Forall_forall in H1. specialize (H1 _ Hin). now apply lpaths_nil in H1.
  - intros (A & B & p & Iv & K). destruct (lin_makes mix w irs x v p Cx A Cv B Iv) as [_ H2]. destruct H2 as (g & _ & _ & z & H & _); [|eauto]. destruct mix; [|exact Logic.I]. cbn [all_reached]. apply Forall_forall. intros [m b] Hin. apply lpaths_nil. now apply (K eq_refl m b).
Qed.
(* the irreps of the result: sorted and without duplicates; with mix = True, those asked for *)
Theorem C68_irreps mix w irs x v p z : coherent x -> coherent v -> positive_copies (irr x) -> irr v = [(1%nat, Irrep 1 p)] -> linear_shtp mix w irs x v = Ok z ->
  lead z = [] /\ regroup_irreps (irr z) = irr z /\ irr z = regroup_irreps (if mix then irs else flat_map (fun '(_, b) => flat_map (fun '(mul, a) => map (fun _ => (mul, b)) (kinds p b a)) (irr x)) (regroup_irreps irs)).
Proof.
  intros Cx Cv _ Iv H. destruct (lin_value mix w irs x v p z Cx Cv Iv H) as (Iz & Lz & _). split; [exact Lz|]. split; [rewrite Iz; apply regroup_iff; intros ir; apply regroup_count|]. rewrite Iz. f_equal. destruct mix.
  - unfold pl_out, lin_plan. rewrite map_map. cbn [mix_plan fst]. unfold enumerate. generalize 0%nat. clear. induction irs as [|m l IH]; intros o; [reflexivity|]. cbn [length seq combine map fst snd]. now rewrite IH.
  - unfold pl_out. rewrite kept_plan_flat. rewrite <- (enum_flat (fun '(_, b) => flat_map (fun '(mul, a) => map (fun _ => (mul, b)) (kinds p b a)) (irr x)) (regroup_irreps irs) 0). apply flat_map_pointwise. intros [q [m b]].
    rewrite <- (enum_flat (fun '(mul, a) => map (fun _ => (mul, b)) (kinds p b a)) (irr x) 0). apply flat_map_pointwise. intros [ix [mul a]]. rewrite map_map. apply map_ext. reflexivity.
Qed.
(* equivariance under rotations, reflections and the inversion, for every value of the parameters *)
Theorem C68_equivariant r mix w irs x v z : orthogonal3 r -> coherent x -> coherent v -> positive_copies (irr x) -> nonzero v -> linear_shtp mix w irs x v = Ok z ->
  agree (transform_by_matrix z r) (let! x' := transform_by_matrix x r in let! v' := transform_by_matrix v r in linear_shtp mix w irs x' v').
Proof.
  intros O Cx Cv _ Nv H. destruct (lin_shape _ _ _ _ _ _ H) as (Lx & Lv & p & Iv). destruct (lin_makes mix w irs x v p Cx Lx Cv Lv Iv) as [H1 _]. specialize (H1 (ex_intro _ z H)). destruct (lin_value mix w irs x v p z Cx Cv Iv H) as (Iz & Lz & Cz & g & Rg & Eg & Az). set (pl := lin_plan mix p w irs (irr x)) in *.
  pose proof (vector_row v p Cv Lv Iv) as L3. assert (Vn : len2 (arr v []) <> 0) by (apply nonzero_len2; [exact L3|apply Nv; rewrite Lv; constructor]).
  rewrite !by_matrix. set (D := rep_of r) in *. assert (HD : rep_ok D) by apply as_rep_ok.
  destruct (transform_act D x Cx HD) as (x' & -> & Ix' & Lx' & Cx' & Rx'). cbn [bind]. destruct (transform_act D v Cv HD) as (v' & -> & Iv' & Lv' & Cv' & Rv'). cbn [bind]. rewrite Lx in Lx', Rx'. rewrite Lv in Lv', Rv'. assert (V0 : valid (@nil nat) []) by constructor. specialize (Rx' [] V0). specialize (Rv' [] V0). rewrite Iv in Iv', Rv'.
  destruct (lin_makes mix w irs x' v' p Cx' Lx' Cv' Lv' Iv') as [_ H2]. rewrite Ix' in H2. fold pl in H2. destruct (H2 H1) as (g' & Rg' & Eg' & z' & Ew & Iw & Lw & Cw & _ & Rw).
  apply (yields_agree _ _ (irr z) (lead z) (fun i => act D (irr z) (arr z i))); [apply transform_act; assumption|]. rewrite Lz. exists z'. split; [exact Ew|]. split; [now rewrite Iw, Iz|]. split; [exact Lw|]. split; [exact Cw|]. intros i Hi. inversion Hi; subst i. rewrite (Rw [] V0), Iz, Az, Rx'.
  assert (L : length (arr x []) = dim (irr x)) by (apply Cx; rewrite Lx; constructor).
  subst D. rewrite (palong_move p pl (irr x) (arr x []) g g' r); [|apply lin_plan_ok|exact L|exact Rg|exact Rg'|exact O|].
  - symmetry. apply (maybe_sort_row_act (rep_of r) true (pl_out pl)); [exact HD|]. unfold palong. apply act_length, as_rep_ok.
  - rewrite Eg', Eg, Rv'. now apply dir_act.
Qed.
(* linear in the input: t * x + x1 gives t * z + z1 *)
Theorem C68_linear mix w irs x x1 x2 v t z : coherent x -> coherent x1 -> coherent x2 -> coherent v -> positive_copies (irr x) -> irr x1 = irr x -> irr x2 = irr x -> lead x1 = lead x -> lead x2 = lead x ->
  arr x2 [] = zipR Rplus (map (Rmult t) (arr x [])) (arr x1 []) -> linear_shtp mix w irs x v = Ok z ->
  exists z1 z2, linear_shtp mix w irs x1 v = Ok z1 /\ linear_shtp mix w irs x2 v = Ok z2 /\ irr z1 = irr z /\ irr z2 = irr z /\ arr z2 [] = zipR Rplus (map (Rmult t) (arr z [])) (arr z1 []).
Proof.
  intros Cx C1 C2 Cv _ I1 I2 L1 L2 E H. destruct (lin_shape _ _ _ _ _ _ H) as (Lx & Lv & p & Iv). destruct (lin_makes mix w irs x v p Cx Lx Cv Lv Iv) as [H1 _]. specialize (H1 (ex_intro _ z H)). destruct (lin_value mix w irs x v p z Cx Cv Iv H) as (Iz & Lz & Cz & g & Rg & Eg & Az). set (pl := lin_plan mix p w irs (irr x)) in *.
  destruct (lin_makes mix w irs x1 v p C1 ltac:(congruence) Cv Lv Iv) as [_ G1]. destruct (lin_makes mix w irs x2 v p C2 ltac:(congruence) Cv Lv Iv) as [_ G2]. rewrite I1 in G1. rewrite I2 in G2. fold pl in G1, G2.
  destruct (G1 H1) as (g1 & Rg1 & Eg1 & z1 & E1 & Iz1 & _ & _ & _ & R1). destruct (G2 H1) as (g2 & Rg2 & Eg2 & z2 & E2 & Iz2 & _ & _ & _ & R2).
  assert (V0 : valid (@nil nat) []) by constructor. specialize (R1 [] V0). specialize (R2 [] V0).
  exists z1, z2. split; [exact E1|]. split; [exact E2|]. split; [congruence|]. split; [congruence|].
  assert (La : length (arr x []) = dim (irr x)) by (apply Cx; rewrite Lx; constructor). assert (Lb : length (arr x1 []) = dim (irr x)) by (rewrite <- I1; apply C1; rewrite L1, Lx; constructor).
  rewrite Az, R1, R2, E. fold (lin t (arr x []) (arr x1 [])). fold (lin t (sort_row (pl_out pl) (palong pl (irr x) (arr x []) g)) (sort_row (pl_out pl) (palong pl (irr x) (arr x1 []) g1))).
  pose proof (lin_plan_ok mix p w irs (irr x)) as F. fold pl in F.
  rewrite (palong_unique p pl (irr x) (lin t (arr x []) (arr x1 [])) g g2) by (try assumption; rewrite ?lin_length; congruence).
  rewrite (palong_unique p pl (irr x) (arr x1 []) g g1) by (try assumption; congruence).
  assert (HD : forall r, rep_ok (rep_of r)) by (intros r; apply as_rep_ok).
  unfold palong. rewrite act_lin by auto. rewrite (pl_row_lin p) by (try assumption; rewrite act_length by auto; reflexivity). rewrite act_lin by (auto; apply pl_row_length). apply TPProofs3.sort_row_lin. rewrite !act_length by auto. reflexivity.
Qed.
Lemma lin_pole mix w irs x v p z t : coherent x -> coherent v -> irr v = [(1%nat, Irrep 1 p)] -> 0 < t -> arr v [] = [0; t; 0] -> linear_shtp mix w irs x v = Ok z -> let pl := lin_plan mix p w irs (irr x) in
  irr z = regroup_irreps (pl_out pl) /\ lead z = [] /\ coherent z /\ arr z [] = sort_row (pl_out pl) (pl_row pl (irr x) (arr x [])).
Proof.
  intros Cx Cv Iv Ht Ev H pl. destruct (lin_shape _ _ _ _ _ _ H) as (Lx & Lv & _). destruct (lin_value mix w irs x v p z Cx Cv Iv H) as (Iz & Lz & Cz & g & Rg & Eg & Az). fold pl in Iz, Az.
  assert (L : length (arr x []) = dim (irr x)) by (apply Cx; rewrite Lx; constructor).
  assert (Eg1 : mapply g pole_vec = mapply mone pole_vec).
  { rewrite Eg, Ev. assert (E2 : len2 [0; t; 0] = t ^ 2) by (unfold len2, lsum; cbn [map fold_right]; ring). assert (T2 : t ^ 2 <> 0) by (apply pow_nonzero; lra). unfold dir. rewrite E2. destruct (Req_EM_T (t ^ 2) 0); [contradiction|]. rewrite normalized_vec by (rewrite ?E2; auto). rewrite E2, sqrt_pow2 by lra. unfold pole_vec, row_vec, vmul. cbn [nth vx vy vz]. apply vec_eq; cbn; field; lra. }
  rewrite (palong_unique p pl (irr x) (arr x []) mone g) in Az; [|apply lin_plan_ok|exact L|apply rotation_one|exact Rg|exact Eg1]. rewrite palong_one in Az by exact L. auto.
Qed.
(* the values for a direction along the pole; with C68_equivariant they determine every value *)
Theorem C68_pole mix w irs x v p z t : coherent x -> coherent v -> positive_copies (irr x) -> irr v = [(1%nat, Irrep 1 p)] -> 0 < t -> arr v [] = [0; t; 0] -> linear_shtp mix w irs x v = Ok z ->
  agree (Ok z) (ia_regroup (if mix then mixed_at_pole p w irs x else kept_at_pole p w irs x)).
Proof.
  intros Cx Cv _ Iv Ht Ev H. destruct (lin_pole mix w irs x v p z t Cx Cv Iv Ht Ev H) as (Iz & Lz & Cz & Az). set (pl := lin_plan mix p w irs (irr x)) in *.
  set (y := if mix then _ else _). assert (Ey : irr y = pl_out pl /\ lead y = [] /\ arr y [] = pl_row pl (irr x) (arr x []) /\ zf y = None /\ chs y = None).
  { unfold y, pl. destruct mix; cbn [mixed_at_pole kept_at_pole irr lead arr zf chs].
    - rewrite mixed_row. repeat split. unfold pl_out, lin_plan. rewrite map_map. cbn [mix_plan fst]. unfold enumerate. generalize 0%nat. clear. induction irs as [|m l IH]; intros o; [reflexivity|]. cbn [length seq combine map fst snd]. now rewrite <- IH.
    - destruct (kept_row p w irs (irr x) (arr x [])) as [E1 E2]. auto. }
  destruct Ey as (E1 & E2 & E3 & E4 & E5).
  assert (Cy : coherent y). { destruct y as [iy ly ay zy cy]. cbn [irr lead arr zf chs] in *. subst. apply fresh_chunks. intros i Hi. inversion Hi; subst i. rewrite E3. apply pl_row_length. }
  pose proof (ia_regroup_yields y Cy) as Y. rewrite E1, E2 in Y.
  eapply yields_agree; [|exact Y]. exists z. split; [reflexivity|]. split; [exact Iz|]. split; [exact Lz|]. split; [exact Cz|]. intros i Hi. inversion Hi; subst i. rewrite E3. exact Az.
Qed.

(* ---- a concrete case ---- *)
Definition some_weights : weights := fun _ _ _ c _ _ => IZR (Z.of_nat (c + 1)).
Lemma mixed_positive : positive_copies (irr mixed). Proof. repeat constructor. Qed.
Lemma kinds_01 : kinds Odd (Irrep 1 Odd) (Irrep 0 Even) = [true].
Proof. rewrite kinds_has. reflexivity. Qed.
Example C68_nonvacuous : exists z z', linear_shtp false some_weights [(5%nat, Irrep 1 Odd)] mixed up = Ok z /\ irr z = [(2%nat, Irrep 1 Odd)] /\ arr z [] = [0; 1; 0; 2; 2; 6] /\
  linear_shtp true some_weights [(5%nat, Irrep 1 Odd)] mixed up = Ok z' /\ irr z' = [(5%nat, Irrep 1 Odd)] /\ orthogonal3 half_x /\
  agree (transform_by_matrix z' half_x) (let! x' := transform_by_matrix mixed half_x in let! v' := transform_by_matrix up half_x in linear_shtp true some_weights [(5%nat, Irrep 1 Odd)] x' v').
Proof.
  assert (K : forall mix, exists z, linear_shtp mix some_weights [(5%nat, Irrep 1 Odd)] mixed up = Ok z).
  { intros mix. apply (C68_accepts mix _ _ _ _ mixed_coherent up_coherent mixed_positive). split; [reflexivity|]. split; [reflexivity|]. exists Odd. split; [reflexivity|]. intros _ m b [Hin|[]]. injection Hin as <- <-. exists 1%nat, (Irrep 0 Even). split; [now left|]. rewrite kinds_01. discriminate. }
  destruct (K false) as [z H], (K true) as [z' H']. exists z, z'. split; [exact H|].
  destruct (lin_pole _ _ _ _ _ Odd _ 1 mixed_coherent up_coherent eq_refl ltac:(lra) eq_refl H) as (Iz & _ & _ & Az).
  split; [rewrite Iz; reflexivity|]. split; [|split; [exact H'|split; [|split; [apply o3_rotation, half_x_rotation|apply C68_equivariant; auto using mixed_coherent, up_coherent, up_nonzero, mixed_positive; apply o3_rotation, half_x_rotation]]]].
  - rewrite Az. lazy -[Rmult Rplus Ropp IZR]. repeat (apply f_equal2; [ring|]). reflexivity.
  - destruct (C68_irreps true _ _ _ _ Odd _ mixed_coherent up_coherent mixed_positive eq_refl H') as (_ & _ & I'). rewrite I'. reflexivity.
Qed.
