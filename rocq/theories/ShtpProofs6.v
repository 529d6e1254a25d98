(* The direction under an orthogonal matrix; when shtp succeeds. *)
From Coq Require Import Reals ZArith Arith Lia Lra Bool List.
From Verif Require Import PyBase IrrepsModel IrrepsProofs IrrepsProofs2 ArrayModel ArrayProofs ArrayOps RechunkProofs LeadModel LeadProofs ArithProofs SumR CGModel CGProofs10 ActProofs EquivProofs EquivProofs2 EntryProofs TPModel TPProofs TPProofs2 TPProofs3 StableSort GradProofs.
From Verif Require Import RotationModel RotationProofs RotationProofs2 RotationProps WignerModel WignerProofs WignerProofs2 WignerProps S2Model S2Proofs2 SHModel SHProofs SHProofs2 SHProps SHProps2 SHProps3 TpshCG TpshModel TpshProofs TpshProofs2 TpshProofs3 ShtpModel ShtpProofs ShtpProofs2 ShtpProofs3 ShtpProofs4 ShtpProofs5.
Import ListNotations.
Open Scope R_scope.

Lemma row_vec_o3 r p v : orthogonal3 r -> length v = 3%nat -> row_vec (act (rep_of r) [(1%nat, Irrep 1 p)] v) = mapply (mat_scale (chi r p) (proper r)) (row_vec v).
Proof.
  intros O L. pose proof (proper_rotation r O) as Rp. assert (A : forall c, (c < 3)%nat -> nth c (act (rep_of r) [(1%nat, Irrep 1 p)] v) 0 = rsum 3 (fun j => entry3 (proper r) c j * chi r p * fn v j)).
  { intros c Hc. pose proof (act_vector (rep_of r) p v c (as_rep_ok _) L Hc) as E. unfold fn at 1 in E. rewrite E. apply rsum_ext. intros j Hj. f_equal. unfold rep_of. rewrite as_rep_at by assumption. rewrite D_matrix_eq by assumption. cbn [ir_l ir_p]. now rewrite W_l1. }
  unfold row_vec. rewrite !A by lia. clear A. destruct (proper r) as [r0 r1 r2 r3 r4 r5 r6 r7 r8]. unfold mapply, mat_scale. cbn [rsum entry3 vx vy vz m00 m01 m02 m10 m11 m12 m20 m21 m22]. unfold fn. apply vec_eq; cbn [vx vy vz]; ring.
Qed.
Definition sqn (u : vec) : R := vx u ^ 2 + vy u ^ 2 + vz u ^ 2.
Lemma sqn_mapply m u : orthogonal3 m -> sqn (mapply m u) = sqn u.
Proof.
  intros [_ B]. transitivity (vx u * vx (mapply (mmul (mtr m) m) u) + vy u * vy (mapply (mmul (mtr m) m) u) + vz u * vz (mapply (mmul (mtr m) m) u)); [unfold sqn; destruct m, u; cbn; ring|]. rewrite B. unfold sqn. destruct u. cbn. ring.
Qed.
Lemma len2_sqn v : length v = 3%nat -> len2 v = sqn (row_vec v).
Proof. intros L. destruct (three v L) as (a & b & c & ->). unfold len2, lsum, sqn, row_vec. cbn [map fold_right nth vx vy vz]. ring. Qed.
Definition vmul (t : R) (u : vec) : vec := V (t * vx u) (t * vy u) (t * vz u).
Lemma normalized_vec v : length v = 3%nat -> len2 v <> 0 -> row_vec (normalized v) = vmul (/ sqrt (len2 v)) (row_vec v).
Proof.
  intros L N. destruct (three v L) as (a & b & c & ->). unfold normalized. fold (len2 [a; b; c]). destruct (Req_EM_T (len2 [a; b; c]) 0); [contradiction|]. unfold row_vec, vmul. cbn [map nth vx vy vz]. unfold Rdiv. apply vec_eq; cbn [vx vy vz]; ring.
Qed.
Lemma signed_o3 r p : orthogonal3 r -> orthogonal3 (mat_scale (chi r p) (proper r)).
Proof.
  intros O. pose proof (o3_rotation _ (proper_rotation r O)) as [A B]. pose proof (chi_sq r p) as Q. assert (T : mtr (mat_scale (chi r p) (proper r)) = mat_scale (chi r p) (mtr (proper r))) by (apply mat_eq; cbn; ring). split; rewrite T, scale_mul, Q, ?A, ?B; apply scale_one.
Qed.
Lemma dir_act r p v : orthogonal3 r -> length v = 3%nat -> len2 v <> 0 -> row_vec (normalized (dir (act (rep_of r) [(1%nat, Irrep 1 p)] v))) = mapply (mat_scale (chi r p) (proper r)) (row_vec (normalized (dir v))).
Proof.
  intros O L N. set (w := act (rep_of r) [(1%nat, Irrep 1 p)] v). assert (Lw : length w = 3%nat) by (unfold w; rewrite act_length by apply as_rep_ok; reflexivity).
  assert (Ew : row_vec w = mapply (mat_scale (chi r p) (proper r)) (row_vec v)) by now apply row_vec_o3. assert (Nw : len2 w = len2 v) by (rewrite !len2_sqn by assumption; rewrite Ew; apply sqn_mapply, signed_o3, O).
  unfold dir. rewrite Nw. destruct (Req_EM_T (len2 v) 0); [contradiction|]. rewrite !normalized_vec by (rewrite ?Nw; assumption). rewrite Nw, Ew. apply vec_eq; cbn; ring.
Qed.
(* ---- success ---- *)
Lemma num_irreps_one x : length x = 1%nat -> num_irreps x = 1%nat -> exists ir, x = [(1%nat, ir)].
Proof. destruct x as [|[m ir] [|]]; try discriminate. intros _ H. exists ir. unfold num_irreps in H. cbn in H. repeat f_equal. lia. Qed.
Lemma sorted_irs_in l ir : In ir (sorted_irs l) <-> In ir l.
Proof.
  unfold sorted_irs, sorted_by. rewrite <- (nodup_In irrep_eq_dec l ir). generalize (nodup irrep_eq_dec l) as k. assert (Ins : forall a (k : list irrep), In ir (insert_sorted ir_ltb a k) <-> a = ir \/ In ir k).
  { intros a k. induction k as [|b k IH]; [reflexivity|]. cbn [insert_sorted]. destruct (ir_ltb b a); [|reflexivity]. cbn [In]. rewrite IH. tauto. }
  induction k as [|a k IH]; [reflexivity|]. cbn [fold_right]. rewrite Ins, IH. reflexivity.
Qed.
Lemma sorted_irs_nil l : sorted_irs l = [] <-> l = [].
Proof.
  split; [|intros ->; reflexivity]. intros E. destruct l as [|a l]; [reflexivity|]. exfalso. assert (H : In a (sorted_irs (a :: l))) by (apply sorted_irs_in; now left). rewrite E in H. exact H.
Qed.
Lemma shtp_inv x v f z : coherent x -> coherent v -> shtp x v f = Ok z -> lead x = [] /\ lead v = [] /\ (exists p, irr v = [(1%nat, Irrep 1 p)]) /\ irr x <> [] /\ sorted_irs (requested f) <> [].
Proof.
  intros Cx Cv H. unfold shtp in H. destruct (lead x) as [|? ?] eqn:Lx; cbn [assert bind] in H; [|discriminate]. destruct (lead v) as [|? ?] eqn:Lv; cbn [assert bind] in H; [|discriminate].
  destruct (dim (irr v) =? 3)%nat; cbn [assert bind] in H; [|discriminate]. destruct (Nat.eqb_spec (length (irr v)) 1) as [E1|]; cbn [assert bind] in H; [|discriminate]. destruct (Nat.eqb_spec (num_irreps (irr v)) 1) as [E2|]; cbn [assert bind] in H; [|discriminate].
  destruct (num_irreps_one _ E1 E2) as [ir Iv]. rewrite Iv in H. cbn [nth snd] in H. assert (Ip : exists p, irr v = [(1%nat, Irrep 1 p)]).
  { destruct (irrep_eqb ir (Irrep 1 Odd)) eqn:Q1; [apply irrep_eqb_eq in Q1; subst ir; eauto|]. destruct (irrep_eqb ir (Irrep 1 Even)) eqn:Q2; [apply irrep_eqb_eq in Q2; subst ir; eauto|]. discriminate H. }
  destruct Ip as [p Ip]. rewrite Ip in Iv. injection Iv as <-. assert (L3 : length (arr v []) = 3%nat) by (rewrite (proj1 Cv []) by (rewrite Lv; constructor); rewrite Ip; reflexivity).
  replace (irrep_eqb (Irrep 1 p) (Irrep 1 Odd) || irrep_eqb (Irrep 1 p) (Irrep 1 Even)) with true in H by (destruct p; reflexivity). cbn [assert bind ir_p] in H.
  destruct (new_makes [(1%nat, Irrep 1 p)] [] (fun i => normalize_row (arr v i))) as (v1 & E & I1 & L1 & C1 & _ & R1). { intros i Hi. inversion Hi. rewrite normalize_row_normalized, normalized_length. exact L3. }
  change (dim [(1%nat, Irrep 1 p)]) with 3%nat in E. rewrite E in H. clear E. cbn [bind] in H. cbv zeta in H. set (lock := gimbal_lock (arr v1 [])) in *.
  destruct (fix_makes lock true x Cx) as (x2 & E & I2 & L2 & C2 & N2 & _). rewrite E in H. clear E. cbn [bind] in H. destruct (fix_makes lock true v1 C1) as (v2 & E & _). rewrite E in H. clear E. cbn [bind] in H. destruct (xyz_to_angles _) as [alpha beta].
  destruct (by_angles_makes x2 (Some alpha) (Some beta) None true C2 N2) as (x3 & E & I3 & _). rewrite E in H. clear E. cbn [bind] in H. rewrite I3, I2 in H.
  split; [reflexivity|]. split; [reflexivity|]. split; [eauto|]. destruct (sorted_irs (requested f)) as [|i0 is0]; [discriminate H|]. destruct (irr x); [discriminate H|]. split; discriminate.
Qed.
