(* C67: the entries that are left out; translations; a concrete layer. *)
From Coq Require Import Reals ZArith Arith Lia Lra Bool List Permutation.
From Verif Require Import PyBase IrrepsModel IrrepsProofs IrrepsProofs2 NormModel NormProofs ArrayModel ArrayProofs ArrayProps3 ArrayOps RechunkProofs LeadModel LeadProofs ArithProofs SumR CGModel ActProofs EquivProofs EquivProofs2 EntryProofs TPModel TPProofs LinearModel LinearProofs LinearProps BlockProofs LinModProofs ConvProps2 TransformerProps4.
From Verif Require Import LegacyModel LegacyProofs LegacyProofs2 RadialModel GradProofs RotationModel RotationProofs WignerModel WignerProofs WignerProofs2 WignerProps S2Model SHModel SHProps TpshModel.
From Verif Require Import VconvModel VconvProofs VconvProofs2 VconvProofs3 VconvProofs4 VconvProps VconvProps2.
Import ListNotations.
Open Scope R_scope.

(* ---- C67_left_out ---- *)
(* no path of the tensor product reaches the irrep *)
Definition out_of_reach (C : vconv) (x : irreps) (ir : irrep) : Prop := forall a b, In a x -> In b (v_sh C) -> ~ In ir (ir_mul (snd a) (snd b)).
Lemma filled_blocks C x row k m : length row = dim (kept_out C x) -> nth_error (v_out C) k = Some m -> reachable C x (snd m) = false -> nth k (blocks (v_out C) (filled C x row)) [] = repeat 0 (mi_dim m).
Proof.
  unfold filled, kept_out. generalize (v_out C). intros out. revert k row. induction out as [|m' out IH]; intros [|k] row L E N; try discriminate.
  - injection E as <-. cbn [place_row]. rewrite N. cbn [blocks nth]. rewrite firstn_app, repeat_length, Nat.sub_diag, firstn_O, app_nil_r. apply firstn_all2. rewrite repeat_length. lia.
  - cbn [nth_error] in E. cbn [place_row filter] in *. destruct (reachable C x (snd m')); cbn [blocks nth].
    + rewrite dim_cons in L. rewrite skipn_length_app by (rewrite firstn_length; lia). apply IH; [rewrite skipn_length; lia|exact E|exact N].
    + rewrite skipn_length_app by apply repeat_length. now apply IH.
Qed.
Theorem C67_left_out C P q steps a B X Y Z z n p k m : ready C q steps -> grid a B X Y Z -> supplied C P (read_irreps a) -> vconv_call C P a steps = Ok z -> (n < B)%nat -> In p (box X Y Z) ->
  nth_error (v_out C) k = Some m -> out_of_reach C (read_irreps a) (snd m) -> nth k (blocks (v_out C) (voxel_at z n p)) [] = repeat 0 (mi_dim m).
Proof.
  intros Rd Ga Su E Hn Hp Ek N. destruct (C67_correlation C P q steps (read_irreps a) Rd Su) as (kk & _ & _ & _ & K). destruct (K a B X Y Z Ga eq_refl) as (z1 & E1 & V1). assert (z1 = z) by congruence. subst z1.
  rewrite V1 by assumption. apply filled_blocks; [|exact Ek|].
  - apply rowsum_length, Forall_map, Forall_forall. intros w _. apply tab_length.
  - apply not_true_is_false. intros Q. unfold reachable in Q. apply existsb_exists in Q as (u & Hu & Q). apply existsb_exists in Q as (v & Hv & Q). apply existsb_exists in Q as (ir & Hi & Q). apply irrep_eqb_eq in Q. subst ir. exact (N u v Hu Hv Hi).
Qed.
(* ---- C67_translation ---- *)
Record zshift := By { by_0 : Z; by_1 : Z; by_2 : Z }.
(* w is v moved by d *)
Definition shifted (d : zshift) (v w : voxel) : Prop := let d0 := by_0 d in let d1 := by_1 d in let d2 := by_2 d in let '(a, b, c) := v in let '(a', b', c') := w in
    (Z.of_nat a' = Z.of_nat a + d0 /\ Z.of_nat b' = Z.of_nat b + d1 /\ Z.of_nat c' = Z.of_nat c + d2)%Z.
Definition shift (d : zshift) (v : voxel) : voxel := let d0 := by_0 d in let d1 := by_1 d in let d2 := by_2 d in let '(a, b, c) := v in (Z.to_nat (Z.of_nat a + d0), Z.to_nat (Z.of_nat b + d1), Z.to_nat (Z.of_nat c + d2)).
Definition shiftable (X Y Z' : nat) (d : zshift) (v : voxel) : bool := let d0 := by_0 d in let d1 := by_1 d in let d2 := by_2 d in let '(a, b, c) := v in
  ((0 <=? Z.of_nat a + d0) && (Z.of_nat a + d0 <? Z.of_nat X) && (0 <=? Z.of_nat b + d1) && (Z.of_nat b + d1 <? Z.of_nat Y) && (0 <=? Z.of_nat c + d2) && (Z.of_nat c + d2 <? Z.of_nat Z'))%Z.
Definition neg (d : zshift) : zshift := By (Z.opp (by_0 d)) (Z.opp (by_1 d)) (Z.opp (by_2 d)).
Lemma shiftable_spec X Y Z' d v : shiftable X Y Z' d v = true <-> In (shift d v) (box X Y Z') /\ shifted d v (shift d v).
Proof. destruct d as [d0 d1 d2], v as [[a b] c]. unfold shiftable, shift, shifted. cbn [by_0 by_1 by_2]. rewrite in_box, !andb_true_iff, !Z.leb_le, !Z.ltb_lt. lia. Qed.
Lemma shifted_eq d v w : shifted d v w -> w = shift d v.
Proof. destruct d as [d0 d1 d2], v as [[a b] c], w as [[a' b'] c']. unfold shift, shifted. cbn [by_0 by_1 by_2]. intros H. repeat f_equal; lia. Qed.
Lemma shifted_neg d v w : shifted d v w <-> shifted (neg d) w v.
Proof. destruct d as [d0 d1 d2], v as [[a b] c], w as [[a' b'] c']. unfold shifted, neg. cbn [by_0 by_1 by_2]. lia. Qed.
Lemma shifted_displacement st d v w v' w' : shifted d v v' -> shifted d w w' -> displacement st v' w' = displacement st v w.
Proof.
  destruct d as [d0 d1 d2], v as [[a b] c], w as [[a' b'] c'], v' as [[e f] g], w' as [[e' f'] g']. unfold shifted, displacement. cbn [by_0 by_1 by_2]. intros (H1 & H2 & H3) (H4 & H5 & H6). rewrite !INR_IZR_INZ. rewrite H1, H2, H3, H4, H5, H6. rewrite !plus_IZR. repeat (apply (f_equal2 (@cons R)); [ring|]). reflexivity.
Qed.
Lemma shift_perm X Y Z' d : Permutation (map (shift d) (filter (shiftable X Y Z' d) (box X Y Z'))) (filter (shiftable X Y Z' (neg d)) (box X Y Z')).
Proof.
  apply NoDup_Permutation.
  - apply nodup_on; [apply NoDup_filter, nodup_box|]. intros v w Hv Hw E. apply filter_In in Hv as [_ Hv], Hw as [_ Hw]. apply shiftable_spec in Hv as [_ Hv], Hw as [_ Hw]. rewrite <- E in Hw. apply shifted_neg, shifted_eq in Hv, Hw. congruence.
  - apply NoDup_filter, nodup_box.
  - intros w. rewrite in_map_iff, filter_In. split.
    + intros (v & <- & H). apply filter_In in H as [Hv H]. apply shiftable_spec in H as [H1 H2]. split; [exact H1|]. apply shiftable_spec. apply shifted_neg in H2. pose proof (shifted_eq _ _ _ H2) as E. rewrite <- E. auto.
    + intros [Hw H]. apply shiftable_spec in H as [H1 H2]. exists (shift (neg d) w). assert (H3 : shifted d (shift (neg d) w) w) by (apply shifted_neg; exact H2). split; [symmetry; now apply shifted_eq|]. apply filter_In. split; [exact H1|]. apply shiftable_spec. rewrite <- (shifted_eq _ _ _ H3). auto.
Qed.
Lemma vecmat_zero cols n M : vecmat cols (repeat 0 n) M = repeat 0 cols.
Proof. unfold vecmat. apply (nth_ext _ _ 0 0); [rewrite tab_length, repeat_length; reflexivity|]. intros c Hc. rewrite tab_length in Hc. rewrite nth_tab by exact Hc. rewrite nth_repeat. apply rsum_zero. intros j _. rewrite nth_repeat. ring. Qed.
Lemma select_zeros (sel : list bool) : forall (x : irreps), concat (select sel (blocks x (repeat 0 (dim x)))) = repeat 0 (dim (select sel x)).
Proof.
  induction sel as [|s sel IH]; intros [|m x]; try reflexivity. cbn [blocks]. rewrite dim_cons, repeat_app. rewrite firstn_length_app, skipn_length_app by apply repeat_length. destruct s; cbn [select concat]; rewrite IH; [rewrite dim_cons, repeat_app; reflexivity|reflexivity].
Qed.
Lemma read_zero a : read_row a (repeat 0 (dim (irr a))) = repeat 0 (dim (select (map negb (zero_flags a)) (irr a))).
Proof. unfold read_row, drop_row. apply select_zeros. Qed.
(* the image of a is moved by d: what leaves the grid and what enters it is zero *)
Definition moved_by (d : zshift) (a a' : iarray) (X Y Z' n : nat) : Prop :=
  (forall v w, In v (box X Y Z') -> In w (box X Y Z') -> shifted d v w -> voxel_at a' n w = voxel_at a n v) /\
  (forall v, In v (box X Y Z') -> (forall w, In w (box X Y Z') -> ~ shifted d v w) -> voxel_at a n v = repeat 0 (dim (irr a))) /\
  (forall w, In w (box X Y Z') -> (forall v, In v (box X Y Z') -> ~ shifted d v w) -> voxel_at a' n w = repeat 0 (dim (irr a))).
Theorem C67_translation C P q steps a a' B X Y Z' z z' n d : ready C q steps -> grid a B X Y Z' -> grid a' B X Y Z' -> alike a a' -> supplied C P (read_irreps a) ->
  vconv_call C P a steps = Ok z -> vconv_call C P a' steps = Ok z' -> (n < B)%nat -> moved_by d a a' X Y Z' n ->
  forall v w, In v (box X Y Z') -> In w (box X Y Z') -> shifted d v w -> voxel_at z' n w = voxel_at z n v.
Proof.
  intros Rd Ga Ga' [Ia Za] Su E E' Hn (M1 & M2 & M3) v w Hv Hw Hs. destruct (C67_correlation C P q steps (read_irreps a) Rd Su) as (k & _ & _ & _ & K). set (y := kept_out C (read_irreps a)) in K.
  assert (Er : read_irreps a' = read_irreps a) by (unfold read_irreps; now rewrite Ia, Za). assert (Ew : forall u, read_row a' u = read_row a u) by (intros u; unfold read_row; now rewrite Ia, Za).
  destruct (K a B X Y Z' Ga eq_refl) as (z1 & E1 & V1). destruct (K a' B X Y Z' Ga' Er) as (z2 & E2 & V2). assert (z1 = z) by congruence. assert (z2 = z') by congruence. subst z1 z2.
  rewrite V1, V2 by assumption. f_equal.
  set (f := fun u => vecmat (dim y) (read_row a (voxel_at a n u)) (k (displacement (resolved C steps) v u))). set (g := fun u => vecmat (dim y) (read_row a' (voxel_at a' n u)) (k (displacement (resolved C steps) w u))).
  rewrite (rowsum_drop_zero (dim y) f (shiftable X Y Z' d) (box X Y Z')); [|intros; apply tab_length|].
  2: { intros u Hu N. unfold f. rewrite M2; [rewrite read_zero; apply vecmat_zero|exact Hu|]. intros u' Hu' S1. apply not_true_iff_false in N. apply N, shiftable_spec. rewrite <- (shifted_eq _ _ _ S1). auto. }
  rewrite (rowsum_drop_zero (dim y) g (shiftable X Y Z' (neg d)) (box X Y Z')); [|intros; apply tab_length|].
  2: { intros u Hu N. unfold g. rewrite M3; [rewrite Ew, read_zero; apply vecmat_zero|exact Hu|]. intros u' Hu' S1. apply shifted_neg in S1. apply not_true_iff_false in N. apply N, shiftable_spec. rewrite <- (shifted_eq _ _ _ S1). auto. }
  rewrite <- (rowsum_perm (dim y) _ _ (Permutation_map g (shift_perm X Y Z' d))) by (apply Forall_map, Forall_map, Forall_forall; intros; apply tab_length). rewrite map_map. f_equal. apply map_ext_in. intros u Hu. apply filter_In in Hu as [Hu S1]. apply shiftable_spec in S1 as [S1 S2].
  unfold f, g. rewrite (shifted_displacement _ d v u w (shift d u) Hs S2). rewrite (M1 u (shift d u)) by assumption. now rewrite Ew.
Qed.
(* ---- a concrete layer ---- *)
Lemma supplied_exists C x : v_inorm C <> NOther -> exists P, supplied C P x.
Proof.
  intros N. destruct (fct_exists C x (kept_out C x) N) as (T & F). destruct (center_run x (kept_out C x) (v_pn C) (v_gn C)) as (L & EL).
  exists (VP (repeat [] (length (tp_ins T))) (map (fun o => repeat 1 (nprod (li_shape o))) (fl_ins L))). split.
  - intros T' E. rewrite (fct_run _ _ _ _ F) in E. injection E as <-. apply repeat_length.
  - intros L' E. rewrite EL in E. injection E as <-. cbn [p_self]. induction (fl_ins L) as [|o l IH]; constructor; [apply repeat_length|exact IH].
Qed.
Definition demo_C : vconv := VC [(2%nat, Irrep 1 Odd); (1%nat, Irrep 5 Odd); (3%nat, Irrep 0 Even)] [(1%nat, Irrep 0 Even); (1%nat, Irrep 1 Odd)] 3 (fun l => 2 + l)%nat (fun _ => 0) (fun _ => 1) true NComponent 0 0 S2Model.Component None.
Definition demo_a : iarray := IA [(1%nat, Irrep 0 Even); (1%nat, Irrep 1 Odd)] [2; 3; 3; 1]%nat (fun i => [INR (nth 1 i 0%nat); 1; 2; INR (nth 2 i 0%nat)]) None None.
Definition quarter_turn : mat := Mx 0 (-1) 0 1 0 0 0 0 1.
Definition quarter_map (v : voxel) : voxel := let '(a, b, c) := v in (2 - b, a, c)%nat.
Definition quarter_back (v : voxel) : voxel := let '(a, b, c) := v in (b, 2 - a, c)%nat.
Definition mirror : mat := Mx (-1) 0 0 0 1 0 0 0 1.
Definition mirror_map (v : voxel) : voxel := let '(a, b, c) := v in (2 - a, b, c)%nat.
Example C67_nonvacuous : ready demo_C Odd None /\ grid demo_a 2 3 3 1 /\ (exists P, supplied demo_C P (read_irreps demo_a)) /\
  rotation quarter_turn /\ turns (resolved demo_C None) 3 3 1 quarter_turn quarter_map /\ orthogonal3 mirror /\ ~ rotation mirror /\ turns (resolved demo_C None) 3 3 1 mirror mirror_map /\
  (exists a', grid a' 2 3 3 1 /\ alike demo_a a' /\ forall n v, (n < 2)%nat -> In v (box 3 3 1) -> voxel_at a' n (quarter_map v) = act (rep_of quarter_turn) (irr demo_a) (voxel_at demo_a n v)) /\
  out_of_reach demo_C (read_irreps demo_a) (Irrep 5 Odd) /\ ~ out_of_reach demo_C (read_irreps demo_a) (Irrep 1 Odd).
Proof.
  assert (Ca : grid demo_a 2 3 3 1) by (split; [apply (fresh_chunks (irr demo_a) [2; 3; 3; 1]%nat (arr demo_a)); reflexivity|reflexivity]).
  assert (B : forall a b c, In (a, b, c) (box 3 3 1) -> (a <= 2 /\ b <= 2 /\ c < 1)%nat) by (intros a b c H; apply in_box in H; lia).
  split; [|split; [exact Ca|split; [apply supplied_exists; discriminate|split; [|split; [|split; [|split; [|split; [|split; [|split]]]]]]]]].
  - split; [repeat constructor|]. split; [right; exact Logic.I|]. split; [discriminate|]. split; [reflexivity|]. split; [cbn; lra|]. split; [intros k; cbn; lra|intros l; cbn; lra].
  - split; [|split]; [unfold quarter_turn, mmul, mtr, mone; cbn; f_equal; ring..|unfold det, quarter_turn; cbn; ring].
  - split; [|split].
    + intros [[a b] c] H. apply B in H. apply in_box. lia.
    + intros [[a b] c] [[a' b'] c'] H H' E. apply B in H, H'. unfold quarter_map, mirror_map in E. apply pair_equal_spec in E as [E E3]. apply pair_equal_spec in E as [E1 E2]. assert (a = a') by lia. assert (b = b') by lia. congruence.
    + intros [[a b] c] [[a' b'] c'] H H'. apply B in H, H'. unfold quarter_map, displacement, moved, mapply, row_vec, quarter_turn. cbn [nth vx vy vz m00 m01 m02 m10 m11 m12 m20 m21 m22 resolved demo_C v_steps]. rewrite !minus_INR by lia. repeat (apply (f_equal2 (@cons R)); [ring|]). reflexivity.
  - split; unfold mirror, mmul, mtr, mone; cbn; f_equal; ring.
  - intros (_ & _ & D). unfold det, mirror in D. cbn in D. lra.
  - split; [|split].
    + intros [[a b] c] H. apply B in H. apply in_box. lia.
    + intros [[a b] c] [[a' b'] c'] H H' E. apply B in H, H'. unfold quarter_map, mirror_map in E. apply pair_equal_spec in E as [E E3]. apply pair_equal_spec in E as [E1 E2]. assert (a = a') by lia. assert (b = b') by lia. congruence.
    + intros [[a b] c] [[a' b'] c'] H H'. apply B in H, H'. unfold mirror_map, displacement, moved, mapply, row_vec, mirror. cbn [nth vx vy vz m00 m01 m02 m10 m11 m12 m20 m21 m22 resolved demo_C v_steps]. rewrite !minus_INR by lia. repeat (apply (f_equal2 (@cons R)); [ring|]). reflexivity.
  - exists (IA (irr demo_a) [2; 3; 3; 1]%nat (fun i => act (rep_of quarter_turn) (irr demo_a) (arr demo_a (at_voxel (nth 0 i 0%nat) (quarter_back (vox i))))) None None). split; [|split].
    + split; [|reflexivity]. apply (fresh_chunks (irr demo_a) [2; 3; 3; 1]%nat). intros i _. rewrite act_length by apply as_rep_ok. reflexivity.
    + split; reflexivity.
    + intros n [[a b] c] _ H. apply B in H. unfold voxel_at. cbn [arr]. f_equal. f_equal. unfold quarter_map, at_voxel, vox, quarter_back. cbn [nth]. repeat f_equal; lia.
  - intros u v Hu Hv. change (read_irreps demo_a) with [(1%nat, Irrep 0 Even); (1%nat, Irrep 1 Odd)] in Hu. cbn [v_sh demo_C] in Hv. destruct Hu as [<-|[<-|[]]], Hv as [<-|[<-|[]]]; vm_compute; intuition discriminate.
  - intros H. apply (H (1%nat, Irrep 0 Even) (1%nat, Irrep 1 Odd)); [now left|right; now left|]. vm_compute. now left.
Qed.
