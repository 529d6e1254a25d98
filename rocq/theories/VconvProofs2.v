(* The response of the voxel convolution to one voxel, and how it turns with a rotation of the grid. *)
From Coq Require Import Reals ZArith Arith Lia Lra Bool List.
From Verif Require Import PyBase IrrepsModel IrrepsProofs IrrepsProofs2 NormModel NormProofs ArrayModel ArrayProofs ArrayProps3 ArrayOps RechunkProofs LeadModel LeadProofs SumR CGModel CGProofs10 ActProofs EquivProofs EquivProofs2 EntryProofs TPModel TPProofs LinearModel LinearProofs LinearProps StableSort.
From Verif Require Import LegacyModel LegacyProofs LegacyProofs2 RadialModel GradProofs.
From Verif Require Import RotationModel RotationProofs RotationProofs2 WignerModel WignerProofs WignerProofs2 WignerProps S2Model SHModel TpshModel ConvProofs3 ConvProofs5 ShtpProofs6.
From Verif Require Import VconvModel VconvProofs.
Import ListNotations.
Open Scope R_scope.

(* ---- moving a displacement ---- *)
Definition moved (r : mat) (p : list R) : list R := let v := mapply r (row_vec p) in [vx v; vy v; vz v].
Lemma row_vec_list v : length v = 3%nat -> v = [vx (row_vec v); vy (row_vec v); vz (row_vec v)].
Proof. destruct v as [|a [|b [|c [|d v]]]]; intros L; try discriminate. reflexivity. Qed.
Lemma moved_act q r p : orthogonal3 r -> length p = 3%nat -> (q = Odd \/ sg r = false) -> act (rep_of r) (vec1 q) p = moved r p.
Proof.
  intros O L Hq. assert (La : length (act (rep_of r) (vec1 q) p) = 3%nat) by (rewrite act_length by apply as_rep_ok; reflexivity). rewrite (row_vec_list _ La). unfold moved. cbv zeta. unfold vec1. rewrite (row_vec_o3 r q p O L).
  replace (mat_scale (chi r q) (proper r)) with r; [reflexivity|]. unfold chi, proper. destruct (sg r) eqn:Sg.
  - destruct Hq as [->|]; [|discriminate]. destruct r. unfold mat_scale. cbn. f_equal; ring.
  - destruct r. unfold mat_scale. cbn. f_equal; ring.
Qed.
Lemma norm3_row p : length p = 3%nat -> norm3 p = distance p.
Proof. destruct p as [|a [|b [|c [|d v]]]]; intros L; try discriminate. unfold norm3, distance, norm_row, dotR. cbn [nth zipR combine map fold_right]. replace (a ^ 2 + b ^ 2 + c ^ 2) with (a * a + (b * b + (c * c + 0))) by ring.
  unfold safe_sqrt. destruct (Req_EM_T _ 0) as [->|]; [apply sqrt_0|reflexivity].
Qed.
Lemma norm3_moved q r p : orthogonal3 r -> length p = 3%nat -> (q = Odd \/ sg r = false) -> norm3 (moved r p) = norm3 p.
Proof.
  intros O L Hq. rewrite <- (moved_act q r p O L Hq). rewrite !norm3_row; [|exact L|rewrite act_length by apply as_rep_ok; reflexivity]. exact (vec_act r q p O L).
Qed.
(* ---- the center ---- *)
Lemma center_run x y pn gn : exists L, functional_linear x y None NoBias pn gn = Ok L.
Proof. apply (C27_biases x y NoBias pn gn). exact Logic.I. Qed.
Lemma center_row x y pn gn L ws : functional_linear x y None NoBias pn gn = Ok L -> Forall2 (fun o w => length w = nprod (li_shape o)) (fl_ins L) ws ->
  exists M, linear_matrix L ws = Ok M /\ length M = dim x /\ (forall v, length v = dim x -> length (vecmat (dim y) v M) = dim y) /\
    (forall D v, rep_ok D -> length v = dim x -> act D y (vecmat (dim y) v M) = vecmat (dim y) (act D x v) M).
Proof.
  intros E Hw. pose proof (constructor_ok _ _ _ _ _ _ _ E (default_connects x y)) as Hins. destruct (constructor_shape _ _ _ _ _ _ _ E) as (bs & Eb & Ex & Ey & Ei & _).
  assert (N : Forall (fun o => li_in o <> None) (fl_ins L)).
  { rewrite Ei. apply Forall_app. split; [apply Forall_map, Forall_forall; intros [i j] _; discriminate|]. apply Forall_forall. intros o Ho. apply in_flat_map in Ho as ([j [bb m]] & Hj & Ho). apply in_enumerate in Hj. apply nth_error_In, in_combine_l in Hj.
    unfold biases_of in Eb. rewrite repeat_length, Nat.eqb_refl in Eb. cbn [assert bind] in Eb. destruct (forallb _ _); [|discriminate]. cbn [assert bind] in Eb. injection Eb as <-. apply repeat_spec in Hj as ->. destruct Ho. }
  pose proof Hins as Hins'. rewrite <- Ex, <- Ey in Hins. destruct (matrix_ok L ws (ins_ok_dim_all _ _ _ Hins) N) as (M & EM & LM & _). exists M. split; [exact EM|]. split; [rewrite LM, Ex; reflexivity|].
  assert (V : forall v, length v = dim x -> vecmat (dim y) v M = rowof y (layer_entry (fl_ins L) ws (entry x v))). { intros v Lv. pose proof (matrix_represents L ws v M (ins_ok_dim_all _ _ _ Hins) N EM) as Q. rewrite Ex, Ey in Q. exact (Q Lv). }
  split; [intros v Lv; rewrite (V v Lv); apply rowof_length|]. intros D v HD Lv. rewrite (V v Lv), V by (rewrite act_length by exact HD; reflexivity). apply layer_act; auto.
  intros Ex'. exfalso. apply Exists_exists in Ex' as (o & Ho & Ho'). rewrite Forall_forall in N. exact (N o Ho Ho').
Qed.
(* ---- the response at a voxel to another one ---- *)
(* [same]: the two voxels are the same one; [p]: the displacement; [v]: the features of the other voxel *)
Definition response (C : vconv) (T : ftp) (P : vparams) (dout : nat) (M : kmatrix) (same : bool) (p v : list R) : list R :=
  if same then vecmat dout v M else tp_row T (weights_at C T (p_tp P) (norm3 p)) v (vsh_row C p).
Lemma response_length C x y T P M same p v : fct C x y T -> (forall v, length v = dim x -> length (vecmat (dim y) v M) = dim y) -> length v = dim x -> length (response C T P (dim y) M same p v) = dim y.
Proof. intros F HM Lv. unfold response. destruct same; [apply HM, Lv|]. rewrite tp_row_length, (fct_o _ _ _ _ F). reflexivity. Qed.
Lemma response_act C x y T P M q same r p v : fct C x y T -> sh_good C q -> orthogonal3 r -> (q = Odd \/ sg r = false) -> (forall D v, rep_ok D -> length v = dim x -> act D y (vecmat (dim y) v M) = vecmat (dim y) (act D x v) M) ->
  length p = 3%nat -> length v = dim x -> act (rep_of r) y (response C T P (dim y) M same p v) = response C T P (dim y) M same (moved r p) (act (rep_of r) x v).
Proof.
  intros F G O Hq HM Lp Lv. pose proof (as_rep_ok (D_from_matrix r) : rep_ok (rep_of r)) as HD. unfold response. destruct same; [apply HM; auto|].
  rewrite (norm3_moved q r p O Lp Hq). rewrite <- (moved_act q r p O Lp Hq). rewrite (vsh_act C q r p G O Lp). apply (tp_row_act C x y T); auto; [apply rep_of_intertwines; exact O|apply vsh_row_length].
Qed.
