(* C66, completeness: the channels of shtp span the linear maps that respect the symmetry about the direction, each in one way; linearity in the input.
   Vocabulary: ShtpProps.v ([channel], [allowed], [channels]), RotationModel/WignerModel ([D_from_matrix r ir]: the matrix of r in the irrep ir). *)
From Coq Require Import Reals ZArith Arith Lia Lra Bool List.
From Verif Require Import PyBase IrrepsModel IrrepsProofs IrrepsProofs2 ArrayModel ArrayProofs ArrayOps RechunkProofs LeadModel LeadProofs ArithProofs SumR CGModel CGProofs10 ActProofs EquivProofs EquivProofs2 EntryProofs TPModel TPProofs TPProofs2 TPProofs3 StableSort GradProofs.
From Verif Require Import RotationModel RotationProofs RotationProofs2 RotationProps WignerModel WignerProofs WignerProofs2 WignerProps WignerProps2 S2Model S2Proofs2 SHModel SHProofs SHProofs2 SHProps SHProps2 SHProps3 TpshCG TpshModel TpshProofs TpshProofs2 TpshProofs3 TpshProps.
From Verif Require Import ShtpModel ShtpProofs ShtpProofs2 ShtpProofs3 ShtpProofs4 ShtpProofs5 ShtpProofs6 ShtpProps ShtpProofs7.
Import ListNotations.
Open Scope R_scope.

(* ---- specification ---- *)
(* h is orthogonal and fixes the vector (0, 1, 0), read as a vector (Odd) or as a pseudovector (Even) *)
Definition keeps_vector (p : parity) (h : mat) : Prop :=
  orthogonal3 h /\ mapply (mat_scale (match p with Odd => 1 | Even => det h end) h) (V 0 1 0) = V 0 1 0.
(* the matrix T (component j of irrep b, component i of irrep a) commutes with the action of h *)
Definition respects (h : mat) (a b : irrep) (T : nat -> nat -> R) : Prop :=
  forall j i, (j < ir_dim b)%nat -> (i < ir_dim a)%nat -> rsum (ir_dim b) (fun k => D_from_matrix h b j k * T k i) = rsum (ir_dim a) (fun k => T j k * D_from_matrix h a k i).
(* w sym c times channel c of the kind sym, over the channels shtp computes *)
Definition combination (p : parity) (a b : irrep) (w : bool -> nat -> R) (y : nat -> R) (k : nat) : R :=
  let over sym := if allowed sym p a b then rsum (channels sym a b) (fun c => w sym c * channel sym (ir_l a) (ir_l b) c y k) else 0 in
  over true + over false.

(* ---- lemmas ---- *)
Lemma over_part (sym : bool) p a b w y k : (if allowed sym p a b then rsum (channels sym a b) (fun c => w sym c * channel sym (ir_l a) (ir_l b) c y k) else 0)
  = if has_part sym p a b then rsum (nchan sym (ir_l a) (ir_l b)) (fun c => w sym c * channel sym (ir_l a) (ir_l b) c y k) else 0.
Proof.
  rewrite <- allowed_has, channels_nchan. destruct (allowed sym p a b); [|reflexivity]. cbn [andb]. destruct (Nat.ltb_spec 0 (nchan sym (ir_l a) (ir_l b))) as [L|L]; [reflexivity|]. replace (nchan sym (ir_l a) (ir_l b)) with 0%nat by lia. reflexivity.
Qed.
Lemma band_channels sym a b (w : nat -> R) y k : (k < ir_dim b)%nat ->
  rsum (ir_dim a) (fun i => rsum (nchan sym (ir_l a) (ir_l b)) (fun c => w c * band sym (ir_l a) (ir_l b) c k i) * y i) = rsum (nchan sym (ir_l a) (ir_l b)) (fun c => w c * channel sym (ir_l a) (ir_l b) c y k).
Proof.
  intros Hk. rewrite (rsum_ext _ _ (fun i => rsum (nchan sym (ir_l a) (ir_l b)) (fun c => w c * (band sym (ir_l a) (ir_l b) c k i * y i)))).
  { rewrite rsum_swap. apply rsum_ext. intros c Hc. rewrite rsum_scal. f_equal. symmetry. apply channel_band; [now rewrite channels_nchan|exact Hk]. }
  intros i Hi. rewrite Rmult_comm, <- rsum_scal. apply rsum_ext. intros c Hc. ring.
Qed.

Lemma keeps_fixes p h : keeps_vector p h -> fixes p h.
Proof.
  intros [O E]. split; [exact O|]. unfold proper, chi. pose proof (sg_spec h O) as D. destruct h as [a b c d e f x y z]. unfold mapply, mat_scale in *. cbn [m00 m01 m02 m10 m11 m12 m20 m21 m22 vx vy vz] in *. rewrite D in E. destruct p, (sg _); cbn [pR] in *; injection E as E1 E2 E3; apply vec_eq; cbn; lra.
Qed.
Lemma combination_delta p a b w i k : (k < ir_dim b)%nat -> (i < ir_dim a)%nat -> combination p a b w (fun m => if (m =? i)%nat then 1 else 0) k =
  (if has_part true p a b then rsum (nchan true (ir_l a) (ir_l b)) (fun c => w true c * band true (ir_l a) (ir_l b) c k i) else 0) +
  (if has_part false p a b then rsum (nchan false (ir_l a) (ir_l b)) (fun c => w false c * band false (ir_l a) (ir_l b) c k i) else 0).
Proof.
  intros Hk Hi. unfold combination. cbv zeta. rewrite !over_part. f_equal; (destruct (has_part _ p a b); [|reflexivity]); (rewrite <- band_channels by exact Hk; rewrite (rsum_pick _ i); [now rewrite Nat.eqb_refl, Rmult_1_r|exact Hi|]; intros m Hm N; destruct (Nat.eqb_spec m i); [contradiction|ring]).
Qed.
Lemma respects_sum h a b T1 T2 : respects h a b T1 -> respects h a b T2 -> respects h a b (fun k i => T1 k i + T2 k i).
Proof.
  intros H1 H2 j i Hj Hi. rewrite (rsum_ext _ _ (fun k => D_from_matrix h b j k * T1 k i + D_from_matrix h b j k * T2 k i)) by (intros; ring). rewrite (rsum_ext (ir_dim a) _ (fun k => T1 j k * D_from_matrix h a k i + T2 j k * D_from_matrix h a k i)) by (intros; ring). rewrite !rsum_plus. f_equal; auto.
Qed.
Lemma respects_ext h a b T1 T2 : (forall k i, (k < ir_dim b)%nat -> (i < ir_dim a)%nat -> T1 k i = T2 k i) -> respects h a b T1 -> respects h a b T2.
Proof.
  intros E H1 j i Hj Hi. rewrite (rsum_ext _ _ (fun k => D_from_matrix h b j k * T1 k i)) by (intros k Hk; now rewrite E). rewrite (rsum_ext (ir_dim a) _ (fun k => T1 j k * D_from_matrix h a k i)) by (intros k Hk; now rewrite E). now apply H1.
Qed.
Lemma respects_bands p h sym a b w : fixes p h -> respects h a b (fun k i => if has_part sym p a b then rsum (nchan sym (ir_l a) (ir_l b)) (fun c => w c * band sym (ir_l a) (ir_l b) c k i) else 0).
Proof.
  intros F j i Hj Hi. destruct (has_part sym p a b) eqn:HP; [|rewrite !rsum_zero; [reflexivity|intros; ring..]].
  rewrite (rsum_ext _ _ (fun k => rsum (nchan sym (ir_l a) (ir_l b)) (fun c => w c * (D_from_matrix h b j k * band sym (ir_l a) (ir_l b) c k i)))) by (intros k Hk; rewrite <- rsum_scal; apply rsum_ext; intros; ring).
  rewrite (rsum_ext (ir_dim a) _ (fun k => rsum (nchan sym (ir_l a) (ir_l b)) (fun c => w c * (band sym (ir_l a) (ir_l b) c j k * D_from_matrix h a k i)))) by (intros k Hk; rewrite (Rmult_comm (rsum _ _)), <- rsum_scal; apply rsum_ext; intros; ring).
  rewrite !(rsum_swap (ir_dim _) (nchan _ _ _)). apply rsum_ext. intros c Hc. rewrite !rsum_scal. f_equal. now apply (band_commutes sym p).
Qed.

(* ---- theorems ---- *)
(* the channels respect the symmetry about the direction, and so does every combination of them *)
Theorem C66_sound p a b w h : keeps_vector p h -> respects h a b (fun k i => combination p a b w (fun m => if (m =? i)%nat then 1 else 0) k).
Proof.
  intros K. apply keeps_fixes in K. apply (respects_ext h a b (fun k i => (if has_part true p a b then rsum (nchan true (ir_l a) (ir_l b)) (fun c => w true c * band true (ir_l a) (ir_l b) c k i) else 0) +
  (if has_part false p a b then rsum (nchan false (ir_l a) (ir_l b)) (fun c => w false c * band false (ir_l a) (ir_l b) c k i) else 0))).
  - intros k i Hk Hi. symmetry. now apply combination_delta.
  - apply (respects_sum h a b); now apply (respects_bands p).
Qed.
(* every map that respects it is a combination of the channels *)
Theorem C66_complete p a b T : (forall h, keeps_vector p h -> respects h a b T) ->
  exists w, forall y k, (k < ir_dim b)%nat -> rsum (ir_dim a) (fun i => T k i * y i) = combination p a b w y k.
Proof.
  intros C. exists (coef (ir_l a) (ir_l b) T). intros y k Hk. unfold combination. cbv zeta. rewrite !over_part.
  rewrite (rsum_ext _ _ (fun i => (if has_part true p a b then rsum (nchan true (ir_l a) (ir_l b)) (fun c => coef (ir_l a) (ir_l b) T true c * band true (ir_l a) (ir_l b) c k i) else 0) * y i +
    (if has_part false p a b then rsum (nchan false (ir_l a) (ir_l b)) (fun c => coef (ir_l a) (ir_l b) T false c * band false (ir_l a) (ir_l b) c k i) else 0) * y i)).
  2: { intros i Hi. rewrite (complete p a b T) at 1; [ring|exact C|exact Hk|exact Hi]. }
  rewrite rsum_plus. f_equal.
  - destruct (has_part true p a b); [now apply band_channels|]. apply rsum_zero. intros. ring.
  - destruct (has_part false p a b); [now apply band_channels|]. apply rsum_zero. intros. ring.
Qed.

(* in one way *)
Theorem C66_unique p a b w w' : (forall y k, (k < ir_dim b)%nat -> combination p a b w y k = combination p a b w' y k) ->
  forall sym c, allowed sym p a b = true -> (c < channels sym a b)%nat -> w sym c = w' sym c.
Proof.
  intros E sym c A Hc. pose proof Hc as Hc'. rewrite channels_nchan in Hc'. unfold nchan in Hc'.
  set (k := if sym then (ir_l b + c)%nat else (ir_l b - S c)%nat). set (i := if sym then (ir_l a + c)%nat else (ir_l a + S c)%nat).
  assert (Hk : (k < ir_dim b)%nat) by (unfold k, ir_dim; destruct sym; lia). assert (Hi : (i < ir_dim a)%nat) by (unfold i, ir_dim; destruct sym; lia).
  assert (G : forall v, combination p a b v (fun m => if (m =? i)%nat then 1 else 0) k = v sym c).
  { intros v. unfold combination. cbv zeta.
    assert (Z : forall s d, (d < channels s a b)%nat -> (s, d) <> (sym, c) -> channel s (ir_l a) (ir_l b) d (fun m => if (m =? i)%nat then 1 else 0) k = 0).
    { intros s d Hd N. rewrite channels_nchan in Hd. unfold nchan in Hd. unfold channel, k, i. destruct s, sym; nb; try ring; exfalso; apply N; f_equal; lia. }
    assert (O : channel sym (ir_l a) (ir_l b) c (fun m => if (m =? i)%nat then 1 else 0) k = 1). { unfold channel, k, i. destruct sym; nb; ring. }
    assert (P : (if allowed sym p a b then rsum (channels sym a b) (fun d => v sym d * channel sym (ir_l a) (ir_l b) d (fun m => if (m =? i)%nat then 1 else 0) k) else 0) = v sym c).
    { rewrite A. rewrite (rsum_pick _ c); [rewrite O; ring|exact Hc|]. intros d Hd N. rewrite Z by (auto; congruence). ring. }
    assert (Q : (if allowed (negb sym) p a b then rsum (channels (negb sym) a b) (fun d => v (negb sym) d * channel (negb sym) (ir_l a) (ir_l b) d (fun m => if (m =? i)%nat then 1 else 0) k) else 0) = 0).
    { destruct (allowed (negb sym) p a b); [|reflexivity]. apply rsum_zero. intros d Hd. rewrite Z by (auto; destruct sym; discriminate). ring. }
    destruct sym; cbn [negb] in Q; rewrite P, Q; ring. }
  rewrite <- !G. now apply E.
Qed.
Lemma shtp_row_lin p x ps t a b : Forall (sp_ok p x) ps -> length a = dim x -> length b = dim x -> shtp_row ps x (lin t a b) = lin t (shtp_row ps x a) (shtp_row ps x b).
Proof.
  intros F La Lb. unfold shtp_row. rewrite <- rowof_lin. apply rowof_ext. intros q w k Hin. destruct (inside_out p x ps q w k F Hin) as (s & -> & [Ei Hp] & Hm & Hd & Hk & _).
  unfold s_val. rewrite <- rsum_scal, <- rsum_plus. apply rsum_ext. intros i Hi. rewrite entry_lin by (auto; exists (s_mul s), (s_ir s); auto). ring.
Qed.
(* linear in the input: t * x + x1 gives t * z + z1 *)
Theorem C66_linear x x1 x2 v f t z : coherent x -> coherent x1 -> coherent x2 -> coherent v -> irr x1 = irr x -> irr x2 = irr x -> lead x1 = lead x -> lead x2 = lead x ->
  arr x2 [] = zipR Rplus (map (Rmult t) (arr x [])) (arr x1 []) -> shtp x v f = Ok z ->
  exists z1 z2, shtp x1 v f = Ok z1 /\ shtp x2 v f = Ok z2 /\ irr z1 = irr z /\ irr z2 = irr z /\ arr z2 [] = zipR Rplus (map (Rmult t) (arr z [])) (arr z1 []).
Proof.
  intros Cx C1 C2 Cv I1 I2 L1 L2 E H. destruct (shtp_inv x v f z Cx Cv H) as (Lx & Lv & (p & Iv) & Nx & Nf). destruct (shtp_value x v f p z Cx Cv Iv H) as (Iz & Lz & Cz & g & Rg & Eg & Az). set (ps := shtp_paths p (sorted_irs (requested f)) (irr x)) in *.
  destruct (shtp_makes x1 v f p C1 ltac:(congruence) ltac:(congruence) Cv Lv Iv Nf) as (g1 & Rg1 & Eg1 & z1 & E1 & Iz1 & _ & _ & _ & R1).
  destruct (shtp_makes x2 v f p C2 ltac:(congruence) ltac:(congruence) Cv Lv Iv Nf) as (g2 & Rg2 & Eg2 & z2 & E2 & Iz2 & _ & _ & _ & R2).
  assert (V0 : valid (@nil nat) []) by constructor. specialize (R1 [] V0). specialize (R2 [] V0). rewrite I1 in Iz1, R1. rewrite I2 in Iz2, R2. fold ps in Iz1, R1, Iz2, R2.
  exists z1, z2. split; [exact E1|]. split; [exact E2|]. split; [congruence|]. split; [congruence|].
  assert (La : length (arr x []) = dim (irr x)) by (apply Cx; rewrite Lx; constructor). assert (Lb : length (arr x1 []) = dim (irr x)) by (rewrite <- I1; apply C1; rewrite L1, Lx; constructor).
  rewrite Az, R1, R2, E. fold (lin t (arr x []) (arr x1 [])). fold (lin t (sort_row (shtp_out ps) (along ps (irr x) (arr x []) g)) (sort_row (shtp_out ps) (along ps (irr x) (arr x1 []) g1))).
  pose proof (shtp_paths_ok p (sorted_irs (requested f)) (irr x)) as F. fold ps in F.
  rewrite (along_unique p ps (irr x) (lin t (arr x []) (arr x1 [])) g g2) by (try assumption; rewrite ?lin_length; congruence).
  rewrite (along_unique p ps (irr x) (arr x1 []) g g1) by (try assumption; congruence).
  assert (HD : forall r, rep_ok (rep_of r)) by (intros r; apply as_rep_ok).
  unfold along. rewrite act_lin by auto. rewrite (shtp_row_lin p) by (try assumption; rewrite act_length by auto; reflexivity). rewrite act_lin by (auto; apply shtp_row_length). apply TPProofs3.sort_row_lin. rewrite !act_length by auto. reflexivity.
Qed.
(* how many channels: for a direction of parity p, as many as there are degrees l such that the product of a with the harmonic of degree l and parity p ^ l contains b *)
Theorem C66_count p a b : ((if allowed true p a b then channels true a b else 0) + (if allowed false p a b then channels false a b else 0) =
  length (filter (fun l => Reqb (sign_of p ^ l) (sign_of (ir_p a) * sign_of (ir_p b))) (seq (Nat.max (ir_l a) (ir_l b) - Nat.min (ir_l a) (ir_l b)) (2 * Nat.min (ir_l a) (ir_l b) + 1))))%nat.
Proof.
  destruct a as [la pa], b as [lb pb]. unfold allowed, channels. cbn [ir_l ir_p]. set (m := Nat.min la lb). set (d := (Nat.max la lb - m)%nat). replace (la + lb + 0)%nat with (d + 2 * m)%nat by lia. replace (la + lb + 1)%nat with (d + 2 * m + 1)%nat by lia.
  assert (P2 : forall n, sign_of p ^ (d + 2 * n) = sign_of p ^ d) by (intros n; rewrite pow_add, pow_mult; replace (sign_of p ^ 2) with 1 by (destruct p; cbn; ring); rewrite pow1; ring).
  assert (P1 : forall n, sign_of p ^ (d + 2 * n + 1) = sign_of p ^ (d + 1)) by (intros n; rewrite !pow_add with (m := 1%nat), P2; reflexivity).
  rewrite P2, P1. set (u := sign_of pa * sign_of pb). set (A := Reqb (sign_of p ^ d) u). set (B := Reqb (sign_of p ^ (d + 1)) u).
  clearbody d. clearbody m. clear -P1 P2. induction m as [|m IH].
  - cbn [Nat.mul Nat.add seq filter]. fold A. destruct A, B; reflexivity.
  - replace (2 * S m + 1)%nat with (S (S (2 * m + 1))) by lia. rewrite !seq_S, !filter_app, !app_length, <- IH. replace (d + (2 * m + 1))%nat with (d + 2 * m + 1)%nat by lia. replace (d + S (2 * m + 1))%nat with (d + 2 * S m)%nat by lia. cbn [filter]. rewrite P1, P2. fold A B. destruct A, B; cbn [length]; lia.
Qed.
(* a map that is not zero and meets the hypothesis of C66_complete: from 2e to 1o, about a vector *)
Example C66_complete_nonvacuous : exists T, (forall h, keeps_vector Odd h -> respects h (Irrep 2 Even) (Irrep 1 Odd) T) /\ T 1%nat 2%nat = 1 /\ T 0%nat 1%nat = 1 /\ T 0%nat 0%nat = 0.
Proof.
  exists (fun k i => combination Odd (Irrep 2 Even) (Irrep 1 Odd) (fun _ _ => 1) (fun m => if (m =? i)%nat then 1 else 0) k). split; [intros h K; now apply C66_sound|].
  assert (H1 : allowed true Odd (Irrep 2 Even) (Irrep 1 Odd) = true) by (apply reqb_iff; cbn; ring). assert (H2 : allowed false Odd (Irrep 2 Even) (Irrep 1 Odd) = false) by (unfold allowed, Reqb; destruct (Req_EM_T _ _) as [e|]; [cbn in e; lra|reflexivity]).
  unfold combination. cbv zeta. rewrite H1, H2. cbn [channels ir_l Nat.min Nat.add rsum channel Nat.eqb Nat.sub]. repeat split; ring.
Qed.
