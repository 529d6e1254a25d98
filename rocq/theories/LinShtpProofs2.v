(* Combinations of channels: equivariance and independence of the aligning rotation. *)
From Coq Require Import Reals ZArith Arith Lia Lra Bool List.
From Verif Require Import PyBase IrrepsModel IrrepsProofs ArrayModel ArrayProofs ArrayOps RechunkProofs LeadModel LeadProofs SumR EntryProofs ActProofs EquivProofs GradProofs CGModel TPProofs TPProofs2.
From Verif Require Import RotationModel RotationProofs RotationProofs2 WignerModel WignerProofs WignerProofs2 S2Model S2Proofs2 SHModel SHProofs SHProofs2 TpshModel TpshProofs TpshProofs2 TpshProofs3 ShtpModel ShtpProofs ShtpProofs2 ShtpProofs3 ShtpProofs4 ShtpProofs5 LinShtpModel LinShtpProofs.
Import ListNotations.
Open Scope R_scope.

(* channel c of copy u of the entry read by s *)
Definition cval (x : irreps) (row : list R) (s : spath) (u c k : nat) : R :=
  rsum (ir_dim (s_ir s)) (fun i => band (s_sym s) (ir_l (s_ir s)) (ir_l (s_out s)) c k i * entry x row (s_in s) u i).
(* a path and the coefficient of channel c of copy u in copy v of the output *)
Definition cell : Type := (spath * (nat -> nat -> nat -> R))%type.
Definition plan : Type := list (mulirrep * list cell).
Definition pl_out (pl : plan) : irreps := map fst pl.
Definition cells (pl : plan) (q : nat) : list cell := snd (nth q pl ((0%nat, Irrep 0 Even), [])).
Definition pl_val (x : irreps) (row : list R) (cs : list cell) (v k : nat) : R :=
  lsum cs (fun t => rsum (s_mul (fst t)) (fun u => rsum (s_n (fst t)) (fun c => snd t u c v * cval x row (fst t) u c k))).
Definition pl_row (pl : plan) (x : irreps) (row : list R) : list R := rowof (pl_out pl) (fun q v k => pl_val x row (cells pl q) v k).
Definition pl_ok (p : parity) (x : irreps) (pl : plan) : Prop := Forall (fun o => Forall (fun t : cell => sp_ok p x (fst t) /\ s_out (fst t) = snd (fst o)) (snd o)) pl.

Lemma pl_row_length pl x row : length (pl_row pl x row) = dim (pl_out pl). Proof. apply rowof_length. Qed.
Lemma pl_inside p x pl q v k : pl_ok p x pl -> inside (pl_out pl) q v k -> exists mul ir, nth q (pl_out pl) (0%nat, Irrep 0 Even) = (mul, ir) /\ (v < mul)%nat /\ (k < ir_dim ir)%nat /\ Forall (fun t : cell => sp_ok p x (fst t) /\ s_out (fst t) = ir) (cells pl q).
Proof.
  intros F (mul & ir & E & Hv & Hk). exists mul, ir. split; [apply nth_error_nth, E|]. split; [exact Hv|]. split; [exact Hk|]. unfold pl_out in E. rewrite nth_error_map in E. destruct (nth_error pl q) as [o|] eqn:Eo; [|discriminate]. cbn [option_map] in E. injection E as E.
  unfold cells. rewrite (nth_error_nth _ _ _ Eo). unfold pl_ok in F. rewrite Forall_forall in F. specialize (F o (nth_error_In _ _ Eo)). rewrite E in F. exact F.
Qed.
Lemma cval_act p h x row s u c k : fixes p h -> sp_ok p x s -> length row = dim x -> (u < s_mul s)%nat -> (c < s_n s)%nat -> (k < ir_dim (s_out s))%nat ->
  rsum (ir_dim (s_out s)) (fun j => mat_at (rep_of h (s_out s)) k j * cval x row s u c j) = cval x (act (rep_of h) x row) s u c k.
Proof.
  intros Fx [Ei Hp] L Hu Hc Hk. assert (HD : rep_ok (rep_of h)) by apply as_rep_ok. unfold cval. symmetry.
  rewrite (rsum_ext (ir_dim (s_ir s)) (fun i => band _ _ _ c k i * entry x (act (rep_of h) x row) (s_in s) u i) (fun i => rsum (ir_dim (s_ir s)) (fun i' => band (s_sym s) (ir_l (s_ir s)) (ir_l (s_out s)) c k i * D_from_matrix h (s_ir s) i i' * entry x row (s_in s) u i'))).
  2: { intros i Hi. rewrite act_entry by (auto; exists (s_mul s), (s_ir s); auto). cbv zeta. rewrite (nth_error_nth _ _ _ Ei). cbn [snd]. rewrite <- rsum_scal. apply rsum_ext. intros i' Hi'. unfold rep_of. rewrite as_rep_at by assumption. ring. }
  symmetry. rewrite rsum_swap. rewrite (rsum_ext (ir_dim (s_out s)) _ (fun j => rsum (ir_dim (s_ir s)) (fun i => D_from_matrix h (s_out s) k j * band (s_sym s) (ir_l (s_ir s)) (ir_l (s_out s)) c j i * entry x row (s_in s) u i))).
  2: { intros j Hj. unfold rep_of. rewrite as_rep_at by assumption. rewrite <- rsum_scal. apply rsum_ext. intros; ring. }
  rewrite rsum_swap. apply rsum_ext. intros i Hi.
  transitivity (entry x row (s_in s) u i * rsum (ir_dim (s_out s)) (fun j => D_from_matrix h (s_out s) k j * band (s_sym s) (ir_l (s_ir s)) (ir_l (s_out s)) c j i)); [rewrite <- rsum_scal; apply rsum_ext; intros; ring|].
  rewrite (band_commutes _ p) by assumption. rewrite <- rsum_scal. apply rsum_ext. intros; ring.
Qed.
Lemma pl_row_act p h x pl row : fixes p h -> pl_ok p x pl -> length row = dim x -> act (rep_of h) (pl_out pl) (pl_row pl x row) = pl_row pl x (act (rep_of h) x row).
Proof.
  intros Fx F L. assert (HD : rep_ok (rep_of h)) by apply as_rep_ok. unfold pl_row at 1. rewrite act_rowof by exact HD. unfold pl_row. apply rowof_ext. intros q v k Hin. cbv zeta. destruct (pl_inside p x pl q v k F Hin) as (mul & ir & -> & Hv & Hk & Fc). cbn [snd].
  unfold pl_val. transitivity (lsum (cells pl q) (fun t => rsum (s_mul (fst t)) (fun u => rsum (s_n (fst t)) (fun c => snd t u c v * rsum (ir_dim ir) (fun j => mat_at (rep_of h ir) k j * cval x row (fst t) u c j))))).
  - rewrite (rsum_ext _ _ (fun j => lsum (cells pl q) (fun t => mat_at (rep_of h ir) k j * rsum (s_mul (fst t)) (fun u => rsum (s_n (fst t)) (fun c => snd t u c v * cval x row (fst t) u c j))))) by (intros j Hj; now rewrite <- lsum_scal).
    rewrite <- lsum_rsum. apply lsum_ext. intros t _. rewrite (rsum_ext _ _ (fun j => rsum (s_mul (fst t)) (fun u => rsum (s_n (fst t)) (fun c => snd t u c v * (mat_at (rep_of h ir) k j * cval x row (fst t) u c j))))).
    + rewrite rsum_swap. apply rsum_ext. intros u Hu. rewrite rsum_swap. apply rsum_ext. intros c Hc. apply rsum_scal.
    + intros j Hj. rewrite <- rsum_scal. apply rsum_ext. intros u Hu. rewrite <- rsum_scal. apply rsum_ext. intros c Hc. ring.
  - apply lsum_ext. intros t Ht. rewrite Forall_forall in Fc. destruct (Fc t Ht) as [Ok0 So]. apply rsum_ext. intros u Hu. apply rsum_ext. intros c Hc. f_equal. subst ir. now apply (cval_act p).
Qed.
Definition palong (pl : plan) (x : irreps) (row : list R) (g : mat) : list R := act (rep_of g) (pl_out pl) (pl_row pl x (act (rep_of (mtr g)) x row)).
Lemma palong_move p pl x row g0 g1 r : pl_ok p x pl -> length row = dim x -> rotation g0 -> rotation g1 -> orthogonal3 r ->
  mapply g1 pole_vec = mapply (mat_scale (chi r p) (proper r)) (mapply g0 pole_vec) ->
  palong pl x (act (rep_of r) x row) g1 = act (rep_of r) (pl_out pl) (palong pl x row g0).
Proof.
  intros F L R0 R1 O E. pose proof (o3_rotation _ R0) as O0. pose proof (o3_rotation _ R1) as O1. pose proof (o3_tr _ O0) as O0t. pose proof (o3_tr _ O1) as O1t.
  set (h := mmul (mtr g1) (mmul r g0)). assert (Oh : orthogonal3 h) by (unfold h; auto using o3_mul).
  assert (Ch : chi h p = chi r p). { unfold h. rewrite !chi_mul by auto using o3_mul. rewrite (chi_rotation (mtr g1)) by now apply rotation_mtr. rewrite (chi_rotation g0) by exact R0. ring. }
  assert (Ph : proper h = mmul (mtr g1) (mmul (proper r) g0)). { unfold h. rewrite !proper_mul by auto using o3_mul. rewrite (proper_of_rotation (mtr g1)) by now apply rotation_mtr. now rewrite (proper_of_rotation g0). }
  assert (Fh : fixes p h).
  { split; [exact Oh|]. rewrite Ph, Ch. rewrite !mapply_mmul. pose proof (chi_sq r p) as Sq.
    assert (Q : mapply (proper r) (mapply g0 (V 0 1 0)) = mapply (mat_scale (chi r p) mone) (mapply g1 pole_vec)). { rewrite E. unfold pole_vec. rewrite <- (mapply_mmul (mat_scale (chi r p) mone)). rewrite scale_mul, Sq, mmul_one_l. now rewrite scale_one. }
    rewrite Q. assert (Z : forall u, mapply (mtr g1) (mapply (mat_scale (chi r p) mone) (mapply g1 u)) = mapply (mat_scale (chi r p) (mmul (mtr g1) g1)) u) by (intros u; apply vec_eq; cbn; ring). rewrite Z. rewrite (proj2 O1). unfold pole_vec. apply vec_eq; cbn; ring. }
  assert (Lt : length (act (rep_of (mtr g0)) x row) = dim x) by (apply act_length, as_rep_ok).
  unfold palong. set (y := act (rep_of (mtr g0)) x row) in *.
  rewrite (act_comp r g0 (pl_out pl) (pl_row pl x y)) by (auto; apply pl_row_length). replace (mmul r g0) with (mmul g1 h). 2: { unfold h. rewrite <- mmul_as, (proj1 O1). apply mmul_one_l. }
  rewrite <- (act_comp g1 h (pl_out pl) (pl_row pl x y)) by (auto; apply pl_row_length). f_equal. rewrite (pl_row_act p h x pl) by assumption. f_equal. unfold y. rewrite !act_comp by auto. f_equal. f_equal. unfold h. rewrite !mmul_as, (proj1 O0). now rewrite mmul_one_r.
Qed.
Lemma palong_unique p pl x row g0 g1 : pl_ok p x pl -> length row = dim x -> rotation g0 -> rotation g1 -> mapply g1 pole_vec = mapply g0 pole_vec -> palong pl x row g1 = palong pl x row g0.
Proof.
  intros F L R0 R1 E. assert (Q := palong_move p pl x row g0 g1 mone F L R0 R1 o3_one). rewrite act_id in Q by exact L. rewrite Q; [apply act_id; unfold palong; rewrite act_length by apply as_rep_ok; reflexivity|].
  rewrite (chi_rotation mone), (proper_of_rotation mone), scale_one by apply rotation_one. rewrite E. set (w := mapply g0 pole_vec). apply vec_eq; cbn; ring.
Qed.
Lemma palong_one pl x row : length row = dim x -> palong pl x row mone = pl_row pl x row.
Proof. intros L. unfold palong. rewrite mtr_one, (act_id x row L). apply act_id, pl_row_length. Qed.
Lemma pl_val_lin p x cs v k t a b ir : Forall (fun t : cell => sp_ok p x (fst t) /\ s_out (fst t) = ir) cs -> length a = dim x -> length b = dim x ->
  pl_val x (lin t a b) cs v k = t * pl_val x a cs v k + pl_val x b cs v k.
Proof.
  intros F La Lb. unfold pl_val. rewrite <- lsum_scal, <- lsum_plus. apply lsum_ext. intros s Hs. rewrite Forall_forall in F. destruct (F s Hs) as [[Ei _] _].
  rewrite <- rsum_scal, <- rsum_plus. apply rsum_ext. intros u Hu. rewrite <- rsum_scal, <- rsum_plus. apply rsum_ext. intros c Hc.
  transitivity (snd s u c v * (t * cval x a (fst s) u c k + cval x b (fst s) u c k)); [|ring]. f_equal. unfold cval. rewrite <- rsum_scal, <- rsum_plus. apply rsum_ext. intros i Hi. rewrite entry_lin by (auto; exists (s_mul (fst s)), (s_ir (fst s)); auto). ring.
Qed.
Lemma pl_row_lin p x pl t a b : pl_ok p x pl -> length a = dim x -> length b = dim x -> pl_row pl x (lin t a b) = lin t (pl_row pl x a) (pl_row pl x b).
Proof.
  intros F La Lb. unfold pl_row. rewrite <- rowof_lin. apply rowof_ext. intros q v k Hin. destruct (pl_inside p x pl q v k F Hin) as (mul & ir & _ & _ & _ & Fc). now apply (pl_val_lin p x _ v k t a b ir).
Qed.
