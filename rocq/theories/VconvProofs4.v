(* The call of the voxel convolution. *)
From Coq Require Import Reals ZArith Arith Lia Lra Bool List.
From Verif Require Import PyBase IrrepsModel IrrepsProofs IrrepsProofs2 NormModel NormProofs ArrayModel ArrayProofs ArrayProps3 ArrayOps RechunkProofs LeadModel LeadProofs SumR CGModel ActProofs EquivProofs EquivProofs2 EntryProofs TPModel TPProofs LinearModel LinearProofs LinearProps BlockProofs LinModProofs ConvProps2.
From Verif Require Import LegacyModel LegacyProofs LegacyProofs2 RadialModel GradProofs RotationModel WignerModel WignerProofs WignerProofs2 WignerProps S2Model SHModel.
From Verif Require Import VconvModel VconvProofs VconvProofs2 VconvProofs3.
From Coq Require Import Permutation.

Import ListNotations.
Open Scope R_scope.

(* ---- the kernel ---- *)
Definition resolved (C : vconv) (steps : option (nat -> R)) : nat -> R := match steps with Some s => s | None => v_steps C end.
Definition ok_or {A} (d : A) (r : res A) : A := match r with Ok a => a | Err _ => d end.
Lemma kernel_run C P x y steps q T L M : fct C x y T -> sh_good C q -> length (p_tp P) = length (tp_ins T) -> functional_linear x y None NoBias (v_pn C) (v_gn C) = Ok L -> linear_matrix L (p_self P) = Ok M ->
  exists K, kernel C P x y steps = Ok K /\ forall a b c v, (a < side_len C 0)%nat -> (b < side_len C 1)%nat -> (c < side_len C 2)%nat -> length v = dim x ->
    vecmat (dim y) v (nth c (nth b (nth a K []) []) []) = response C T P (dim y) M (voxel_eqb (a, b, c) (reach C 0, reach C 1, reach C 2)) (lattice C (resolved C steps) a b c) v.
Proof.
  intros F G LP EL EM. unfold kernel. fold (resolved C steps). cbv zeta. rewrite (fct_run _ _ _ _ F), EL. cbn [bind]. rewrite EM. cbn [bind].
  set (k := fun a b c => if ((a =? side_len C 0 / 2) && (b =? side_len C 1 / 2) && (c =? side_len C 2 / 2))%nat then M else ok_or [] (off_center C T P (lattice C (resolved C steps) a b c))).
  rewrite (PermProofs.mapM_Ok _ (fun a => map (fun b => map (fun c => k a b c) (seq 0 (side_len C 2))) (seq 0 (side_len C 1)))).
  2: { intros a _. apply PermProofs.mapM_Ok. intros b _. apply PermProofs.mapM_Ok. intros c _. destruct (off_run C x y T P q (lattice C (resolved C steps) a b c) F G LP eq_refl) as (KO & EK & _). unfold k. rewrite EK. reflexivity. }
  eexists. split; [reflexivity|]. intros a b c v Ha Hb Hc Lv. rewrite !(ArrayProps3.nth_map_in _ _ _ 0%nat) by (rewrite seq_length; assumption). rewrite !seq_nth by assumption. cbn [Nat.add].
  unfold k, response. assert (Half : forall j, (side_len C j / 2 = reach C j)%nat) by (intros j; unfold side_len; rewrite Nat.add_comm, Nat.mul_comm, Nat.div_add by lia; reflexivity). rewrite !Half. unfold voxel_eqb.
  destruct ((a =? reach C 0) && (b =? reach C 1) && (c =? reach C 2))%nat; [reflexivity|].
  destruct (off_run C x y T P q (lattice C (resolved C steps) a b c) F G LP eq_refl) as (KO & EK & _ & V). rewrite EK. cbn [ok_or]. exact (V v Lv).
Qed.
(* ---- the entries that are left out ---- *)
Section Place.
Variable r : mulirrep -> bool.
Fixpoint place_row (out : irreps) (row : list R) : list R :=
  match out with
  | [] => []
  | m :: out => if r m then firstn (mi_dim m) row ++ place_row out (skipn (mi_dim m) row) else repeat 0 (mi_dim m) ++ place_row out row
  end.
Lemma place_chunks_spec s : forall out cs, Forall2 (wf_opt s) (filter r out) cs -> Forall2 (wf_opt s) out (place_chunks out (filter r out) cs) /\ forall i, valid s i -> chunks_row out (place_chunks out (filter r out) cs) i = place_row out (chunks_row (filter r out) cs i).
Proof.
  induction out as [|m out IH]; intros cs H; [split; [constructor|reflexivity]|]. cbn [filter] in *. destruct (r m) eqn:Rm.
  - inversion H as [|m' c l cs' Hc H']. subst. destruct (IH cs' H') as [I1 I2]. cbn [place_chunks]. replace (irreps_eqb [m] [m]) with true by (symmetry; apply irreps_eqb_eq; reflexivity). split; [constructor; assumption|]. intros i Hi.
    cbn [place_row]. rewrite Rm. change (chunks_row (m :: out) (c :: place_chunks out (filter r out) cs') i) with (den m c i ++ chunks_row out (place_chunks out (filter r out) cs') i). change (chunks_row (m :: filter r out) (c :: cs') i) with (den m c i ++ chunks_row (filter r out) cs' i).
    assert (Ld : length (den m c i) = mi_dim m) by (eapply den_length; eassumption). rewrite firstn_length_app, skipn_length_app by exact Ld. rewrite I2 by exact Hi. reflexivity.
  - destruct (IH cs H) as [I1 I2]. assert (E : place_chunks (m :: out) (filter r out) cs = None :: place_chunks out (filter r out) cs).
    { cbn [place_chunks]. destruct (filter r out) as [|m' kept'] eqn:Ek; [reflexivity|]. destruct cs as [|c cs']; [inversion H|]. destruct (irreps_eqb [m'] [m]) eqn:Q; [|reflexivity]. apply irreps_eqb_eq in Q. injection Q as ->.
      assert (In m (filter r out)) by (rewrite Ek; now left). apply filter_In in H0 as [_ H0]. congruence. }
    rewrite E. split; [constructor; [exact Logic.I|exact I1]|]. intros i Hi. cbn [place_row]. rewrite Rm. change (chunks_row (m :: out) (None :: place_chunks out (filter r out) cs) i) with (den m None i ++ chunks_row out (place_chunks out (filter r out) cs) i). rewrite I2 by exact Hi. reflexivity.
Qed.
Lemma place_row_all : forall out row, filter r out = out -> length row = dim out -> place_row out row = row.
Proof.
  induction out as [|m out IH]; intros row E L; [destruct row; [reflexivity|discriminate]|]. cbn [filter] in E. destruct (r m) eqn:Rm.
  - injection E as E. rewrite dim_cons in L. cbn [place_row]. rewrite Rm, IH; [apply firstn_skipn|exact E|rewrite skipn_length; lia].
  - exfalso. assert (In m (filter r out)) by (rewrite E; now left). apply filter_In in H as [_ H]. congruence.
Qed.
Lemma place_row_length : forall out row, length row = dim (filter r out) -> length (place_row out row) = dim out.
Proof.
  induction out as [|m out IH]; intros row L; [reflexivity|]. cbn [filter place_row] in *. rewrite dim_cons. destruct (r m); rewrite app_length; [rewrite dim_cons in L; rewrite firstn_length, IH by (rewrite skipn_length; lia); lia|rewrite repeat_length, IH by exact L; reflexivity].
Qed.
Lemma place_row_act D : rep_ok D -> forall out row, length row = dim (filter r out) -> act D out (place_row out row) = place_row out (act D (filter r out) row).
Proof.
  intros HD. induction out as [|m out IH]; intros row L; [reflexivity|]. cbn [filter place_row] in *. change (m :: out) with ([m] ++ out). destruct (r m).
  - rewrite dim_cons in L. assert (Lf : length (firstn (mi_dim m) row) = mi_dim m) by (rewrite firstn_length; lia). assert (D1 : dim [m] = mi_dim m) by (unfold dim, sum; cbn; unfold mi_dim; destruct m; cbn; lia).
    rewrite act_app by (rewrite D1; exact Lf). rewrite IH by (rewrite skipn_length; lia). replace (act D (m :: filter r out) row) with (act D [m] (firstn (mi_dim m) row) ++ act D (filter r out) (skipn (mi_dim m) row)).
    2: { change (m :: filter r out) with ([m] ++ filter r out). rewrite <- act_app by (rewrite D1; exact Lf). now rewrite firstn_skipn. }
    assert (La : length (act D [m] (firstn (mi_dim m) row)) = mi_dim m) by (rewrite act_length by exact HD; exact D1). rewrite firstn_length_app, skipn_length_app by exact La. reflexivity.
  - assert (D1 : dim [m] = mi_dim m) by (unfold dim, sum; cbn; unfold mi_dim; destruct m; cbn; lia). rewrite act_app by (rewrite repeat_length; now rewrite D1). rewrite IH by exact L. f_equal. rewrite <- D1. apply act_zero. exact HD.
Qed.
End Place.
(* ---- the call ---- *)
Definition vox (i : idx) : voxel := (nth 1 i 0%nat, nth 2 i 0%nat, nth 3 i 0%nat).
Definition fed_irreps (fl : list bool) (x : irreps) : irreps := simplify (select (map negb fl) x).
Lemma valid4 B X Y Z i : valid [B; X; Y; Z] i -> exists n p, i = at_voxel n p /\ (n < B)%nat /\ In p (box X Y Z).
Proof.
  intros H. unfold valid in H. repeat match goal with Q : Forall2 lt _ _ |- _ => inversion Q; clear Q; subst end.
  match goal with |- exists n p, [?n0; ?a; ?b; ?c] = _ /\ _ => exists n0, (a, b, c) end. split; [reflexivity|]. split; [assumption|]. apply in_box. auto.
Qed.
Lemma at_valid B X Y Z n p : (n < B)%nat -> In p (box X Y Z) -> valid [B; X; Y; Z] (at_voxel n p).
Proof. destruct p as [[a b] c]. intros Hn Hp. apply in_box in Hp. cbn [at_voxel]. repeat constructor; tauto. Qed.
Section Call.
Variables (C : vconv) (P : vparams) (steps : option (nat -> R)) (x : irreps) (fl : list bool) (q : parity) (T : ftp) (L : flinear) (M : kmatrix).
Let x1 := fed_irreps fl x.
Let y := kept_out C x1.
Hypothesis Lfl : length fl = length x.
Hypothesis F : fct C x1 y T.
Hypothesis G : sh_good C q.
Hypothesis LP : length (p_tp P) = length (tp_ins T).
Hypothesis EL : functional_linear x1 y None NoBias (v_pn C) (v_gn C) = Ok L.
Hypothesis LW : Forall2 (fun o w => length w = nprod (li_shape o)) (fl_ins L) (p_self P).
Hypothesis EM : linear_matrix L (p_self P) = Ok M.
Hypothesis Sm : v_same C = true.
Hypothesis Fi : fine C (resolved C steps).
Definition response_to (p q : voxel) (row : list R) : list R := response C T P (dim y) M (voxel_eqb p q) (displacement (resolved C steps) p q) (drop_row fl x row).
Definition voxel_row (X Y Z : nat) (p : voxel) (rows : voxel -> list R) : list R :=
  place_row (fun m => reachable C x1 (snd m)) (v_out C) (rowsum (dim y) (map (fun q => response_to p q (rows q)) (box X Y Z))).
Lemma M_length : forall v, length v = dim x1 -> length (vecmat (dim y) v M) = dim y.
Proof. destruct (center_row x1 y (v_pn C) (v_gn C) L (p_self P) EL LW) as (M' & E' & _ & H & _). rewrite EM in E'. injection E' as <-. exact H. Qed.
Lemma M_act : forall D v, rep_ok D -> length v = dim x1 -> act D y (vecmat (dim y) v M) = vecmat (dim y) (act D x1 v) M.
Proof. destruct (center_row x1 y (v_pn C) (v_gn C) L (p_self P) EL LW) as (M' & E' & _ & _ & H). rewrite EM in E'. injection E' as <-. exact H. Qed.
Lemma fed_length row : length row = dim x -> length (drop_row fl x row) = dim x1.
Proof.
  intros Lr. unfold x1, fed_irreps. transitivity (dim (select (map negb fl) x)); [|apply dim_of_simplify; symmetry; apply simplify_idem].
  assert (V0 : valid [] []) by constructor. exact (st_len _ _ _ _ _ _ _ (drop_stage fl x [] Lfl) (fun _ => row) [] V0 (fun _ _ => Lr)).
Qed.
Lemma call_yields a B X Y Z : coherent a -> irr a = x -> zero_flags a = fl -> lead a = [B; X; Y; Z] ->
  yields (vconv_call C P a steps) (v_out C) [B; X; Y; Z] (fun i => voxel_row X Y Z (vox i) (fun q => arr a (at_voxel (nth 0 i 0%nat) q))).
Proof.
  intros Ca Ia Za La. destruct (remove_zero_chunks_yields a Ca) as (a1 & E1 & I1 & L1 & C1 & A1). rewrite Ia, Za, La in *. destruct (ia_simplify_yields a1 C1) as (a2 & E2 & I2 & L2 & C2 & A2). rewrite I1, L1 in *.
  unfold vconv_call. rewrite E1. cbn [bind]. rewrite E2. cbn [bind]. cbv zeta. change (simplify (select (map negb fl) x)) with x1 in I2. rewrite I2, L2. fold y. rewrite Sm.
  destruct (kernel_run C P x1 y steps q T L M F G LP EL EM) as (K & EK & HK). rewrite EK. cbn [bind].
  assert (Rows : forall n p, (n < B)%nat -> In p (box X Y Z) -> arr a2 (at_voxel n p) = drop_row fl x (arr a (at_voxel n p))).
  { intros n p Hn Hp. pose proof (at_valid B X Y Z n p Hn Hp) as V. rewrite A2 by exact V. rewrite A1 by exact V. reflexivity. }
  assert (Conv : forall n p, (n < B)%nat -> In p (box X Y Z) -> conv_row C K (dim y) X Y Z a2 (at_voxel n p) = rowsum (dim y) (map (fun q => response_to p q (arr a (at_voxel n q))) (box X Y Z))).
  { intros n p Hn Hp. rewrite (conv_same C T P x1 y M (resolved C steps) K F LP M_length HK a2 X Y Z n p Sm Fi); [| |exact Hp].
    - f_equal. apply map_ext_in. intros q' Hq. unfold response_to. now rewrite Rows.
    - intros q' Hq. rewrite Rows by assumption. apply fed_length. rewrite <- Ia. apply (proj1 Ca). rewrite La. apply at_valid; assumption. }
  assert (Len : forall n p, (n < B)%nat -> In p (box X Y Z) -> length (rowsum (dim y) (map (fun q => response_to p q (arr a (at_voxel n q))) (box X Y Z))) = dim y).
  { intros n p Hn Hp. apply rowsum_length, Forall_map, Forall_forall. intros q' Hq. unfold response_to. apply (response_length C x1); [exact F|exact M_length|]. apply fed_length. rewrite <- Ia. apply (proj1 Ca). rewrite La. apply at_valid; assumption. }
  rewrite mkIA_ok by auto. cbn [bind].
  set (o := IA y [B; X; Y; Z] (conv_row C K (dim y) X Y Z a2) None None). assert (Co : coherent o).
  { apply (fresh_chunks y [B; X; Y; Z] (conv_row C K (dim y) X Y Z a2)). intros i Hi. apply valid4 in Hi as (n & p & -> & Hn & Hp). rewrite Conv by assumption. now apply Len. }
  destruct (irreps_eqb y (v_out C)) eqn:Ey.
  - apply irreps_eqb_eq in Ey. exists o. split; [reflexivity|]. split; [exact Ey|]. split; [reflexivity|]. split; [exact Co|]. intros i Hi. apply valid4 in Hi as (n & p & -> & Hn & Hp). cbn [o arr]. rewrite Conv by assumption. unfold voxel_row.
    replace (vox (at_voxel n p)) with p by (destruct p as [[? ?] ?]; reflexivity). replace (nth 0 (at_voxel n p) 0%nat) with n by (destruct p as [[? ?] ?]; reflexivity).
    symmetry. apply place_row_all; [exact Ey|]. rewrite Len by assumption. now rewrite Ey.
  - pose proof (chunks_wf o Co) as W. cbn [o irr lead] in W. destruct (place_chunks_spec (fun m => reachable C x1 (snd m)) [B; X; Y; Z] (v_out C) (chunks o) W) as [W' R']. change (filter (fun m => reachable C x1 (snd m)) (v_out C)) with y in W', R'.
    destruct (from_chunks_ok (v_out C) (place_chunks (v_out C) y (chunks o)) [B; X; Y; Z] true W' (or_introl eq_refl)) as (z & Ez & Iz & Lz & Cz & Az & _). exists z. cbn [o lead]. split; [exact Ez|]. split; [exact Iz|]. split; [exact Lz|]. split; [exact Cz|].
    intros i Hi. rewrite Az by exact Hi. rewrite (R' i Hi). pose proof (chunks_row_arr o Co i Hi) as Q. cbn [o irr] in Q. unfold voxel_row. rewrite Q. apply valid4 in Hi as (n & p & -> & Hn & Hp). cbn [o arr]. rewrite Conv by assumption.
    replace (vox (at_voxel n p)) with p by (destruct p as [[? ?] ?]; reflexivity). replace (nth 0 (at_voxel n p) 0%nat) with n by (destruct p as [[? ?] ?]; reflexivity). reflexivity.
Qed.
(* ---- turning the grid ---- *)
Lemma voxel_row_length X Y Z p rows : (forall q, In q (box X Y Z) -> length (rows q) = dim x) -> length (voxel_row X Y Z p rows) = dim (v_out C).
Proof.
  intros H. unfold voxel_row. apply place_row_length. change (filter (fun m => reachable C x1 (snd m)) (v_out C)) with y. apply rowsum_length, Forall_map, Forall_forall. intros q' Hq. unfold response_to. apply (response_length C x1); [exact F|exact M_length|]. apply fed_length, H, Hq.
Qed.
Lemma voxel_row_turn X Y Z r (t : voxel -> voxel) rows rows' p : orthogonal3 r -> (q = Odd \/ sg r = false) ->
  (forall v, In v (box X Y Z) -> In (t v) (box X Y Z)) -> (forall v w, In v (box X Y Z) -> In w (box X Y Z) -> t v = t w -> v = w) ->
  (forall v w, In v (box X Y Z) -> In w (box X Y Z) -> displacement (resolved C steps) (t v) (t w) = moved r (displacement (resolved C steps) v w)) ->
  (forall v, In v (box X Y Z) -> length (rows v) = dim x) -> (forall v, In v (box X Y Z) -> rows' (t v) = act (rep_of r) x (rows v)) -> In p (box X Y Z) ->
  voxel_row X Y Z (t p) rows' = act (rep_of r) (v_out C) (voxel_row X Y Z p rows).
Proof.
  intros O Hq T1 T2 T3 Lr Er Hp. pose proof (as_rep_ok (D_from_matrix r) : rep_ok (rep_of r)) as HD.
  assert (LG : forall v, In v (box X Y Z) -> length (response_to p v (rows v)) = dim y) by (intros v Hv; unfold response_to; apply (response_length C x1); [exact F|exact M_length|apply fed_length, Lr, Hv]).
  unfold voxel_row. rewrite place_row_act; [|exact HD|]. 2: { change (filter (fun m => reachable C x1 (snd m)) (v_out C)) with y. apply rowsum_length, Forall_map, Forall_forall. exact LG. }
  change (filter (fun m => reachable C x1 (snd m)) (v_out C)) with y. f_equal. rewrite act_rowsum by (auto; apply Forall_map, Forall_forall; exact LG). rewrite map_map.
  assert (Pm : Permutation (map t (box X Y Z)) (box X Y Z)).
  { apply NoDup_Permutation_bis; [apply nodup_on; [apply nodup_box|exact T2]|rewrite map_length; lia|]. intros v Hv. apply in_map_iff in Hv as (w & <- & Hw). auto. }
  rewrite <- (rowsum_perm (dim y) _ _ (Permutation_map (fun v => response_to (t p) v (rows' v)) Pm)).
  2: { apply Forall_map, Forall_map, Forall_forall. intros v Hv. rewrite Er by exact Hv. unfold response_to. apply (response_length C x1); [exact F|exact M_length|]. apply fed_length. rewrite act_length by exact HD. reflexivity. }
  rewrite map_map. f_equal. apply map_ext_in. intros v Hv. unfold response_to. rewrite T3, Er by assumption.
  rewrite (response_act C x1 y T P M q); auto using M_act; [|destruct p as [[? ?] ?], v as [[? ?] ?]; reflexivity|apply fed_length, Lr, Hv].
  f_equal.
  - apply eq_true_iff_eq. rewrite !voxel_eqb_eq. split; [intros E; apply T2; auto|now intros ->].
  - unfold x1, fed_irreps. rewrite (act_flat _ (simplify (select (map negb fl) x)) (select (map negb fl) x)) by apply flat_simplify. unfold drop_row. symmetry. rewrite <- select_act; auto.
Qed.
End Call.
