(* The kernel of the voxel convolution: its values at the points of the lattice, their covariance and their support. *)
From Coq Require Import Reals ZArith Arith Lia Lra Bool List.
From Verif Require Import PyBase IrrepsModel IrrepsProofs IrrepsProofs2 NormModel ArrayModel ArrayProofs ArrayProps3 ArrayOps RechunkProofs LeadModel LeadProofs SumR CGModel CGProofs10 ActProofs EquivProofs EquivProofs2 EntryProofs TPModel TPProofs LinearModel LinearProofs StableSort.
From Verif Require Import LegacyModel LegacyProofs LegacyProofs2 LegacyProofs3 LegacyProofs4 LegacyProofs5 LegacyProofs6 LegacyProofs7 LegacyProofs8 LegacyProps LegacyProps2 LegacyProps3 LegacyProps5 RadialModel RadialProps GradProofs.
From Verif Require Import RotationModel RotationProofs RadialProofs WignerModel WignerProofs WignerProofs2 WignerProps S2Model S2Proofs S2Proofs2 SHModel SHProofs SHProps SHProps2 SHProps3 ConvProofs3 ConvProofs5 ShtpProofs6.
From Verif Require Import VconvModel.
Import ListNotations.
Open Scope R_scope.

(* ---- the harmonics ---- *)
Definition vsh_row (C : vconv) (p : list R) : list R := rowof (v_sh C) (fun k u j => value (v_shnorm C) true p (deg (v_sh C) k) j).
Definition sh_good (C : vconv) (q : parity) : Prop := natural q (v_sh C) /\ (num_irreps (v_sh C) = 0%nat \/ usable (v_auto C) None (v_sh C)).
Lemma vsh_row_length C p : length (vsh_row C p) = dim (v_sh C). Proof. apply rowof_length. Qed.
Lemma vsh_yields C q p : sh_good C q -> length p = 3%nat -> yields (spherical_harmonics (v_auto C) (OutIrreps (v_sh C)) (InArray [] 3 (fun _ => p)) true (v_shnorm C) None) (v_sh C) [] (fun _ => vsh_row C p).
Proof.
  intros [N U] L. apply (sh_yields (v_auto C) (OutIrreps (v_sh C)) (InArray [] 3 (fun _ => p)) true (v_shnorm C) None q (v_sh C)); [intros i _; exact L|reflexivity|exact Logic.I|exact N|]. destruct U as [U|U]; [now left|right; split; [reflexivity|exact U]].
Qed.
Lemma vsh_good C p s : spherical_harmonics (v_auto C) (OutIrreps (v_sh C)) (InArray [] 3 (fun _ => p)) true (v_shnorm C) None = Ok s -> exists q, sh_good C q.
Proof.
  intros H. destruct (sh_accepts_inv _ _ _ _ _ _ _ H) as (q & x & Rq & _ & N & U). cbn [requests] in Rq. subst x. exists q. split; [exact N|]. destruct U as [U|[_ U]]; auto.
Qed.
Definition vec1 (q : parity) : irreps := [(1%nat, Irrep 1 q)].
Lemma vsh_act C q r p : sh_good C q -> orthogonal3 r -> length p = 3%nat -> vsh_row C (act (rep_of r) (vec1 q) p) = act (rep_of r) (v_sh C) (vsh_row C p).
Proof.
  intros [N U] O L. set (a := IA (vec1 q) [] (fun _ => p) None None). assert (Ca : coherent a) by (apply (fresh_chunks (vec1 q) [] (fun _ => p)); intros; exact L). pose proof (as_rep_ok (D_from_matrix r) : rep_ok (rep_of r)) as HD.
  assert (Y : forall w, coherent w -> irr w = vec1 q -> lead w = [] -> yields (spherical_harmonics (v_auto C) (OutIrreps (v_sh C)) (InIrreps w) true (v_shnorm C) None) (v_sh C) [] (fun i => vsh_row C (arr w i))).
  { intros w Cw Iw Lw. pose proof (sh_yields (v_auto C) (OutIrreps (v_sh C)) (InIrreps w) true (v_shnorm C) None q (v_sh C) Cw) as Q. cbn [shape_of points] in Q. rewrite Lw in Q. apply Q; [reflexivity|exact Iw|exact N|destruct U as [U|U]; [now left|right; split; [reflexivity|exact U]]]. }
  destruct (Y a Ca eq_refl eq_refl) as (z & Ez & Iz & Lz & Cz & Az). destruct (C52_equivariant _ _ a _ _ _ r z O Ca Ez) as (x' & s' & b & Y1 & Y2).
  rewrite by_matrix in Y1. fold (rep_of r) in Y1. pose proof (transform_act (rep_of r) z Cz HD) as T1. rewrite Iz, Lz in T1. destruct (yields_same _ _ _ _ _ _ _ Y1 T1) as (-> & -> & B1).
  rewrite by_matrix in Y2. fold (rep_of r) in Y2. destruct (transform_act (rep_of r) a Ca HD) as (a' & Ea & Ia & La & Ca' & Aa). rewrite Ea in Y2. cbn [bind] in Y2. destruct (yields_same _ _ _ _ _ _ _ Y2 (Y a' Ca' Ia La)) as (_ & _ & B2).
  assert (V0 : valid [] []) by constructor. rewrite <- (Aa [] V0 : arr a' [] = act (rep_of r) (vec1 q) p). rewrite <- (B2 [] V0), (B1 [] V0), (Az [] V0). reflexivity.
Qed.
(* ---- the weights ---- *)
Definition emb (C : vconv) (l : nat) (t : R) : list R := match soft_one_hot_linspace t (v_start C l * v_diameter C / 2) (v_diameter C / 2) (v_number C l) SmoothFinite None (Some true) (Some true) with Ok v => v | Err _ => [] end.
Definition weight_at (C : vconv) (T : ftp) (t : R) (o : tinstr) (w : list R) : tensor :=
  let l := ir_l (snd (entry_of (tp_in2 T) (ti_2 o))) in
  Tensor (path_shape o) (map (fun j => rsum (v_number C l) (fun k => nth k (emb C l t) 0 * nth (k * nprod (path_shape o) + j) w 0) / INR (side_len C 0 * side_len C 1 * side_len C 2)) (seq 0 (nprod (path_shape o)))).
Definition weights_at (C : vconv) (T : ftp) (ws : list (list R)) (t : R) : list tensor := map (fun ow => weight_at C T t (fst ow) (snd ow)) (combine (tp_ins T) ws).
Lemma emb_ok C l t : soft_one_hot_linspace t (v_start C l * v_diameter C / 2) (v_diameter C / 2) (v_number C l) SmoothFinite None (Some true) (Some true) = Ok (emb C l t).
Proof. unfold emb, soft_one_hot_linspace. cbn [one_hot_flags bind]. destruct (one_hot_values _ _ _ _ _). reflexivity. Qed.
Lemma weights_run C T ws p : mapM (fun ow => tp_weight C T p (fst ow) (snd ow)) (combine (tp_ins T) ws) = Ok (weights_at C T ws (norm3 p)).
Proof. unfold weights_at. apply PermProofs.mapM_Ok. intros [o w] _. unfold tp_weight. cbv zeta. rewrite emb_ok. cbn [bind]. reflexivity. Qed.
Lemma weights_at_fit C T ws t : Forall (fun o => ti_hw o = true) (tp_ins T) -> length ws = length (tp_ins T) -> weights_fit (tp_ins T) (weights_at C T ws t).
Proof.
  intros H L. unfold weights_fit, weights_at. replace (filter ti_hw (tp_ins T)) with (tp_ins T). 2: { clear L. induction H as [|o l Ho H IH]; [reflexivity|]. cbn [filter]. rewrite Ho. now f_equal. }
  revert ws L. clear H. generalize (tp_ins T) as l. induction l as [|o l IH]; intros [|w ws] L; try discriminate; [constructor|]. cbn [combine map fst snd]. constructor; [|apply IH; now injection L]. split; [reflexivity|]. cbn [t_val weight_at]. rewrite map_length. apply seq_length.
Qed.
(* from the radius of the kernel on the weights are 0 *)
Lemma emb_far C l t : 0 < v_diameter C -> v_start C l < 1 -> v_diameter C / 2 <= t -> Forall (fun y => y = 0) (emb C l t).
Proof.
  intros D S1 T1. destruct (C48_one_hot_support t (v_start C l * v_diameter C / 2) (v_diameter C / 2) (v_number C l) SmoothFinite true true (emb C l t)) as [_ F]; [|apply emb_ok|auto|now apply F].
  assert (v_start C l * v_diameter C < 1 * v_diameter C) by (apply Rmult_lt_compat_r; assumption). lra.
Qed.
(* ---- the tensor product at a point ---- *)
Definition tp_row (T : ftp) (ws : list tensor) (v s : list R) : list R :=
  rowof (tp_out T) (legacy_entry clebsch_gordan (tp_in1 T) (tp_in2 T) (tp_out T) (assign (tp_ins T) ws) (entry (tp_in1 T) v) (entry (tp_in2 T) s)).
Record fct (C : vconv) (x y : irreps) (T : ftp) : Prop := {
  fct_run : functional_fctp x (v_sh C) y None None None (v_inorm C) (v_pn C) (v_gn C) = Ok T;
  fct_1 : tp_in1 T = x; fct_2 : tp_in2 T = v_sh C; fct_o : tp_out T = y;
  fct_c : Forall (coupled_ins (tp_in1 T) (tp_in2 T) (tp_out T)) (tp_ins T);
  fct_s : Forall suits (tp_ins T); fct_r : Forall rightable (tp_ins T); fct_w : Forall (fun o => ti_hw o = true) (tp_ins T); fct_m : Forall (fun o => ti_mode o = Uvw) (tp_ins T) }.
Lemma fct_exists C x y : v_inorm C <> NOther -> exists T, fct C x y T.
Proof.
  intros N. destruct (C49_fully_connected_total x (v_sh C) y (v_inorm C) (v_pn C) (v_gn C) N) as (T & E & S1 & F1 & R1 & _). exists T. destruct (C49_fully_connected x (v_sh C) y) as [_ HF].
  pose proof (coupled_all _ _ _ _ _ _ _ _ _ _ _ E) as HC. pose proof (constructor_coupled _ _ _ _ _ _ _ _ _ _ _ E) as F. destruct (constructor_inv _ _ _ _ _ _ _ _ _ _ _ E) as (ins & Ei & Ex & Ey & Ez & _). split; auto.
  - apply Forall_forall. intros o Ho. destruct (Forall2_of_r _ _ _ o F Ho) as ([[[[[i1 i2] io] m] hw] pw] & Hu & Hm & Hc). apply HF in Hu as (-> & -> & _). destruct Hm as (_ & _ & _ & Hm & Hh & _). exact Hh.
  - apply Forall_forall. intros o Ho. destruct (Forall2_of_r _ _ _ o F Ho) as ([[[[[i1 i2] io] m] hw] pw] & Hu & Hm & Hc). apply HF in Hu as (-> & -> & _). destruct Hm as (_ & _ & _ & Hm & Hh & _). exact Hm.
Qed.
Lemma tp_row_length T ws v s : length (tp_row T ws v s) = dim (tp_out T). Proof. apply rowof_length. Qed.
Lemma off_run C x y T P q p : fct C x y T -> sh_good C q -> length (p_tp P) = length (tp_ins T) -> length p = 3%nat ->
  exists K, off_center C T P p = Ok K /\ length K = dim x /\ forall v, length v = dim x -> vecmat (dim y) v K = tp_row T (weights_at C T (p_tp P) (norm3 p)) v (vsh_row C p).
Proof.
  intros F G L Lp. pose proof (fct_1 _ _ _ _ F) as T1. pose proof (fct_2 _ _ _ _ F) as T2. pose proof (fct_o _ _ _ _ F) as T3.
  destruct (vsh_yields C q p G Lp) as (s & Es & Is & Ls & Cs & As). assert (V0 : valid [] []) by constructor.
  assert (Er : rechunk s (tp_in2 T) = Ok s). { unfold rechunk, rechunk_opt. rewrite Is, T2. replace (irreps_eqb (simplify (v_sh C)) (simplify (v_sh C))) with true by (symmetry; apply irreps_eqb_eq; reflexivity). replace (irreps_eqb (v_sh C) (v_sh C)) with true by (symmetry; apply irreps_eqb_eq; reflexivity). reflexivity. }
  assert (NZ : Forall (fun o => nth (ti_2 o) (chunks s) None <> None) (tp_ins T)).
  { pose proof (sh_flags _ _ _ _ _ _ _ Es) as Z. rewrite (chunks_flags s Cs) in Z. eapply Forall_impl; [|exact (fct_c _ _ _ _ F)]. intros o (m1 & a & m2 & b & mo & c & _ & E2 & _). rewrite T2 in E2. assert (B : (ti_2 o < length (irr s))%nat) by (rewrite Is; apply nth_error_Some; congruence).
    intros Q. assert (Lc : length (chunks s) = length (irr s)) by (rewrite <- (map_length is_none), Z; apply repeat_length). assert (Q' : nth (ti_2 o) (map is_none (chunks s)) true = true) by (rewrite (ArrayProps3.nth_map_in _ _ _ None) by lia; rewrite Q; reflexivity).
    rewrite Z in Q'. rewrite (nth_error_nth (repeat false (length (irr s))) _ true (x := false)) in Q' by (apply nth_error_repeat; exact B). discriminate. }
  assert (Y : forall v, length v = dim x -> exists M, right clebsch_gordan T (weights_at C T (p_tp P) (norm3 p)) s = Ok M /\ length M = dim x /\ vecmat (dim y) v M = tp_row T (weights_at C T (p_tp P) (norm3 p)) v (vsh_row C p)).
  { intros v Lv. rewrite <- T1 in Lv. destruct (right_yields clebsch_gordan T (weights_at C T (p_tp P) (norm3 p)) s s v Cs Ls Er Lv (fct_c _ _ _ _ F) (fct_s _ _ _ _ F) (fct_r _ _ _ _ F) (weights_at_fit C T (p_tp P) (norm3 p) (fct_w _ _ _ _ F) L) NZ) as (M & EM & LM & VM).
    exists M. split; [exact EM|]. rewrite <- T1 at 1. split; [exact LM|]. rewrite <- T3 at 1. rewrite VM. unfold tp_row. rewrite (As [] V0). reflexivity. }
  destruct (Y (repeat 0 (dim x)) (repeat_length _ _)) as (M & EM & LM & _). exists M. split; [|split; [exact LM|]].
  - unfold off_center. rewrite (weights_run C T (p_tp P) p). cbn [bind]. rewrite Es. cbn [bind]. exact EM.
  - intros v Lv. destruct (Y v Lv) as (M' & EM' & _ & V). rewrite EM in EM'. injection EM' as <-. exact V.
Qed.
Lemma tp_row_act C x y T D ws v s : fct C x y T -> rep_ok D -> intertwines clebsch_gordan D -> length v = dim x -> length s = dim (v_sh C) -> act D y (tp_row T ws v s) = tp_row T ws (act D x v) (act D (v_sh C) s).
Proof.
  intros F HD HI Lv Ls. pose proof (fct_1 _ _ _ _ F) as T1. pose proof (fct_2 _ _ _ _ F) as T2. pose proof (fct_o _ _ _ _ F) as T3. pose proof (fct_c _ _ _ _ F) as Hc. unfold tp_row. rewrite <- T1 in Lv. rewrite <- T2 in Ls.
  pose proof (legacy_act clebsch_gordan D T (assign (tp_ins T) ws) v s HD HI) as Q. rewrite T1, T2, T3 in *. apply Q; auto. apply Forall_forall. intros [o w] Ho. apply assign_in in Ho. rewrite Forall_forall in Hc. exact (Hc o Ho).
Qed.
Lemma assign_weights ins ws o w : length ws = length ins -> Forall (fun o => ti_hw o = true) ins -> In (o, w) (assign ins ws) -> exists t, In t ws /\ w = t_val t.
Proof.
  revert ws. induction ins as [|o' ins IH]; intros [|t ws] L F H; try discriminate; [destruct H|]. cbn [assign] in H. inversion F as [|? ? F1 F2]. subst. rewrite F1 in H. cbn [tl] in H. destruct H as [H|H].
  - injection H as <- <-. exists t. split; [now left|reflexivity].
  - destruct (IH ws) as (t' & H1 & H2); auto. exists t'. split; [now right|exact H2].
Qed.
Lemma weight_far C T t o w : 0 < v_diameter C -> (forall l, v_start C l < 1) -> v_diameter C / 2 <= t -> forall k, nth k (t_val (weight_at C T t o w)) 0 = 0.
Proof.
  intros D S1 Ht k. cbn [weight_at t_val]. destruct (lt_dec k (nprod (path_shape o))) as [B|B]; [|apply nth_overflow; rewrite map_length, seq_length; lia].
  rewrite (ArrayProps3.nth_map_in _ _ _ 0%nat) by (rewrite seq_length; exact B). rewrite rsum_zero; [unfold Rdiv; ring|]. intros j _. pose proof (emb_far C (ir_l (snd (entry_of (tp_in2 T) (ti_2 o)))) t D (S1 _) Ht) as E.
  replace (nth j (emb C (ir_l (snd (entry_of (tp_in2 T) (ti_2 o)))) t) 0) with 0 by (symmetry; rewrite Forall_forall in E; destruct (lt_dec j (length (emb C (ir_l (snd (entry_of (tp_in2 T) (ti_2 o)))) t))) as [Bj|Bj]; [apply E, nth_In, Bj|apply nth_overflow; lia]). ring.
Qed.
Lemma tp_row_far C x y T ws t v s : fct C x y T -> length ws = length (tp_ins T) -> 0 < v_diameter C -> (forall l, v_start C l < 1) -> v_diameter C / 2 <= t -> tp_row T (weights_at C T ws t) v s = repeat 0 (dim y).
Proof.
  intros F L D S1 Ht. pose proof (fct_o _ _ _ _ F) as T3. apply (rows_equal y); [rewrite tp_row_length, T3; reflexivity|apply repeat_length|]. intros j u c Hin. unfold tp_row. rewrite T3. rewrite entry_rowof by exact Hin.
  rewrite entry_nth by exact Hin. rewrite nth_repeat. unfold legacy_entry. apply lsum_zero. intros [o w] Ho. destruct (Nat.eqb_spec (ti_o o) j); [|reflexivity].
  pose proof (assign_in _ _ _ _ Ho) as Io. apply assign_weights in Ho; [|unfold weights_at; rewrite map_length, combine_length; lia|exact (fct_w _ _ _ _ F)]. destruct Ho as (tt & Htt & ->). unfold weights_at in Htt. apply in_map_iff in Htt as ([o' w'] & <- & _).
  pose proof (fct_m _ _ _ _ F) as M. rewrite Forall_forall in M. unfold term. rewrite (M o Io). cbn [coefficient fst snd]. apply rsum_zero. intros a _. apply rsum_zero. intros b _. rewrite (weight_far C T t o' w' D S1 Ht). ring.
Qed.
