(* C67: the voxel convolution is a correlation with one kernel; linearity, translations, locality. *)
From Coq Require Import Reals ZArith Arith Lia Lra Bool List Permutation.
From Verif Require Import PyBase IrrepsModel IrrepsProofs IrrepsProofs2 NormModel NormProofs ArrayModel ArrayProofs ArrayProps3 ArrayOps RechunkProofs LeadModel LeadProofs ArithProofs SumR CGModel ActProofs EquivProofs EquivProofs2 EntryProofs TPModel TPProofs LinearModel LinearProofs LinearProps BlockProofs LinModProofs ConvProps2 TransformerProps4.
From Verif Require Import LegacyModel LegacyProofs LegacyProofs2 RadialModel GradProofs RotationModel RotationProofs WignerModel WignerProofs WignerProofs2 WignerProps S2Model SHModel SHProps.
From Verif Require Import VconvModel VconvProofs VconvProofs2 VconvProofs3 VconvProofs4 VconvProps.
Import ListNotations.
Open Scope R_scope.

Definition k_at (C : vconv) (T : ftp) (P : vparams) (M : kmatrix) (p : list R) : kmatrix := if Req_EM_T (norm3 p) 0 then M else ok_or [] (off_center C T P p).
Lemma sq3_zero u v w : sqrt (u ^ 2 + v ^ 2 + w ^ 2) = 0 -> u = 0 /\ v = 0 /\ w = 0.
Proof.
  intros H. pose proof (pow2_ge_0 u). pose proof (pow2_ge_0 v). pose proof (pow2_ge_0 w). apply sqrt_eq_0 in H; [|lra]. repeat split; apply Rsqr_0_uniq; unfold Rsqr; [replace (u * u) with (u ^ 2) by ring|replace (v * v) with (v ^ 2) by ring|replace (w * w) with (w ^ 2) by ring]; lra.
Qed.
Lemma same_place steps p q : (forall k, 0 < steps k) -> voxel_eqb p q = if Req_EM_T (norm3 (displacement steps p q)) 0 then true else false.
Proof.
  intros Hs. destruct p as [[a b] c], q as [[a' b'] c']. destruct (Req_EM_T _ 0) as [E|E].
  - unfold norm3 in E. cbn [displacement nth] in E. apply sq3_zero in E as (E1 & E2 & E3). assert (K : forall k u u', (INR u' - INR u) * steps k = 0 -> u = u').
    { intros k u u' Q. apply Rmult_integral in Q as [Q|Q]; [apply INR_eq; lra|specialize (Hs k); lra]. }
    apply voxel_eqb_eq. rewrite (K _ _ _ E1), (K _ _ _ E2), (K _ _ _ E3). reflexivity.
  - apply not_true_is_false. intros Q. apply voxel_eqb_eq in Q. injection Q as <- <- <-. apply E. unfold norm3. cbn [displacement nth]. replace (_ ^ 2 + _ ^ 2 + _ ^ 2) with 0 by ring. apply sqrt_0.
Qed.
Lemma response_at C x y T P M q same p v : fct C x y T -> sh_good C q -> length (p_tp P) = length (tp_ins T) -> length p = 3%nat -> length v = dim x -> same = (if Req_EM_T (norm3 p) 0 then true else false) ->
  response C T P (dim y) M same p v = vecmat (dim y) v (k_at C T P M p).
Proof.
  intros F G LP Lp Lv ->. unfold response, k_at. destruct (Req_EM_T (norm3 p) 0); [reflexivity|]. destruct (off_run C x y T P q p F G LP Lp) as (K & -> & _ & V). cbn [ok_or]. symmetry. exact (V v Lv).
Qed.
(* ---- C67_correlation ---- *)
Definition read_row (a : iarray) (row : list R) : list R := drop_row (zero_flags a) (irr a) row.
(* entries of v_out C that no path reaches are filled with zeros *)
Definition filled (C : vconv) (x : irreps) (row : list R) : list R := place_row (fun m => reachable C x (snd m)) (v_out C) row.
Theorem C67_correlation C P q steps x : ready C q steps -> supplied C P x -> let y := kept_out C x in exists k : list R -> kmatrix,
  (forall p v, length p = 3%nat -> length v = dim x -> v_diameter C / 2 <= norm3 p -> vecmat (dim y) v (k p) = repeat 0 (dim y)) /\
  (forall r p v, orthogonal3 r -> (q = Odd \/ rotation r) -> length p = 3%nat -> length v = dim x -> act (rep_of r) y (vecmat (dim y) v (k p)) = vecmat (dim y) (act (rep_of r) x v) (k (moved r p))) /\
  (exists L, functional_linear x y None NoBias (v_pn C) (v_gn C) = Ok L /\ linear_matrix L (p_self P) = Ok (k [0; 0; 0])) /\
  forall a B X Y Z, grid a B X Y Z -> read_irreps a = x -> exists z, vconv_call C P a steps = Ok z /\
    forall n p, (n < B)%nat -> In p (box X Y Z) -> voxel_at z n p = filled C x (rowsum (dim y) (map (fun w => vecmat (dim y) (read_row a (voxel_at a n w)) (k (displacement (resolved C steps) p w))) (box X Y Z))).
Proof.
  intros Rd Su y. destruct (setup _ _ _ _ _ Rd Su) as (T & L & M & F & G & LP & EL & LW & EM & Fi). fold y in F, EL. assert (Hs : forall k, 0 < resolved C steps k) by (intros k; destruct (proj1 (proj2 Fi) k); lra).
  assert (N : forall p v, length p = 3%nat -> length v = dim x -> vecmat (dim y) v (k_at C T P M p) = response C T P (dim y) M (if Req_EM_T (norm3 p) 0 then true else false) p v) by (intros; symmetry; eapply response_at; eauto).
  exists (k_at C T P M). split; [|split; [|split]].
  - intros p v Lp Lv Hf. rewrite N by assumption. destruct Fi as (D & _ & S1). destruct (Req_EM_T (norm3 p) 0); [exfalso; lra|]. unfold response. apply (tp_row_far C x y); auto.
  - intros r p v O Hq Lp Lv. pose proof (as_rep_ok (D_from_matrix r) : rep_ok (rep_of r)) as HD. assert (Hq' : q = Odd \/ sg r = false) by (destruct Hq as [->|Hr]; [now left|right; now apply sg_rotation]).
    rewrite N by assumption. rewrite N by (auto; rewrite act_length by exact HD; reflexivity). rewrite (norm3_moved q r p O Lp Hq'). apply (response_act C x y T P M q); auto.
    destruct (center_row x y (v_pn C) (v_gn C) L (p_self P) EL LW) as (M' & E' & _ & _ & H). rewrite EM in E'. injection E' as <-. exact H.
  - exists L. split; [exact EL|]. rewrite EM. unfold k_at. destruct (Req_EM_T _ 0) as [|NE]; [reflexivity|]. exfalso. apply NE. unfold norm3. cbn [nth]. replace (_ ^ 2 + _ ^ 2 + _ ^ 2) with 0 by ring. apply sqrt_0.
  - intros a B X Y Z [Ca La] Ex. subst x. pose proof (zero_flags_length a Ca) as Lf.
    destruct (call_yields C P steps (irr a) (zero_flags a) q T L M Lf F G LP EL LW EM (proj1 (proj2 (proj2 (proj2 Rd)))) Fi a B X Y Z Ca eq_refl eq_refl La) as (z & E & I1 & L1 & C1 & A1). exists z. split; [exact E|].
    intros n p Hn Hp. unfold voxel_at. destruct (in_grid B X Y Z n p Hn Hp) as (V1 & V2 & V3). rewrite A1 by exact V3. rewrite V1, V2. unfold voxel_row, filled. f_equal. fold (read_irreps a). fold y. f_equal. apply map_ext_in. intros w Hw. unfold response_to. fold (read_irreps a). fold y.
    apply (response_at C (read_irreps a) y T P M q); auto; [destruct p as [[? ?] ?], w as [[? ?] ?]; reflexivity| |now apply same_place].
    apply (fed_length (irr a) (zero_flags a)); auto. apply (proj1 Ca). rewrite La. now apply at_valid.
Qed.
(* ---- C67_local: what happens at the distance diameter / 2 and further has no influence ---- *)
Lemma read_length a B X Y Z n w : grid a B X Y Z -> (n < B)%nat -> In w (box X Y Z) -> length (read_row a (voxel_at a n w)) = dim (read_irreps a).
Proof. intros [Ca La] Hn Hw. apply (fed_length (irr a) (zero_flags a)); [now apply zero_flags_length|]. apply (proj1 Ca). rewrite La. now apply at_valid. Qed.
Theorem C67_local C P q steps a a' B X Y Z z z' n p : ready C q steps -> grid a B X Y Z -> grid a' B X Y Z -> alike a a' -> supplied C P (read_irreps a) ->
  vconv_call C P a steps = Ok z -> vconv_call C P a' steps = Ok z' -> (n < B)%nat -> In p (box X Y Z) ->
  (forall w, In w (box X Y Z) -> norm3 (displacement (resolved C steps) p w) < v_diameter C / 2 -> voxel_at a' n w = voxel_at a n w) -> voxel_at z' n p = voxel_at z n p.
Proof.
  intros Rd Ga Ga' [Ia Za] Su E E' Hn Hp H. destruct (C67_correlation C P q steps (read_irreps a) Rd Su) as (k & Far & _ & _ & K).
  assert (Er : read_irreps a' = read_irreps a) by (unfold read_irreps; now rewrite Ia, Za). assert (Ew : forall w, read_row a' w = read_row a w) by (intros w; unfold read_row; now rewrite Ia, Za).
  destruct (K a B X Y Z Ga eq_refl) as (z1 & E1 & V1). destruct (K a' B X Y Z Ga' Er) as (z2 & E2 & V2). assert (z1 = z) by congruence. assert (z2 = z') by congruence. subst z1 z2.
  rewrite V1, V2 by assumption. f_equal. f_equal. apply map_ext_in. intros w Hw. destruct (Rlt_dec (norm3 (displacement (resolved C steps) p w)) (v_diameter C / 2)) as [Lt|Ge].
  - rewrite H by assumption. now rewrite Ew.
  - assert (Ld : length (displacement (resolved C steps) p w) = 3%nat) by (destruct p as [[? ?] ?], w as [[? ?] ?]; reflexivity). apply Rnot_lt_le in Ge.
    pose proof (read_length a B X Y Z n w Ga Hn Hw) as R1. pose proof (read_length a' B X Y Z n w Ga' Hn Hw) as R2. rewrite Er in R2. rewrite (Far _ _ Ld R1 Ge), (Far _ _ Ld R2 Ge). reflexivity.
Qed.
(* ---- C67_linear ---- *)
Lemma lin_len t u v : length u = length v -> length (lin t u v) = length v.
Proof. intros L. unfold lin. rewrite zipR_length, map_length. lia. Qed.
Lemma nth_lin t u v j : length u = length v -> (j < length v)%nat -> nth j (lin t u v) 0 = t * nth j u 0 + nth j v 0.
Proof. intros L Hj. unfold lin. rewrite nth_zipR by (rewrite ?map_length; lia). rewrite (ArrayProps3.nth_map_in _ _ _ 0) by lia. reflexivity. Qed.
Lemma vecmat_lin cols t u v M : length u = length v -> vecmat cols (lin t u v) M = lin t (vecmat cols u M) (vecmat cols v M).
Proof.
  intros L. assert (Lt : forall w, length (vecmat cols w M) = cols) by (intros; apply tab_length). apply (nth_ext _ _ 0 0); [rewrite lin_len by (now rewrite !Lt); now rewrite !Lt|]. intros c Hc. rewrite Lt in Hc. rewrite nth_lin by (rewrite ?Lt; auto).
  unfold vecmat. rewrite !nth_tab by exact Hc. rewrite lin_len by exact L. rewrite L. rewrite <- rsum_scal, <- rsum_plus. apply rsum_ext. intros j Hj. rewrite nth_lin by auto. ring.
Qed.
Lemma lin_zero t n : repeat 0 n = lin t (repeat 0 n) (repeat 0 n).
Proof. apply (nth_ext _ _ 0 0); [rewrite lin_len by (reflexivity); reflexivity|]. intros j Hj. rewrite repeat_length in Hj. rewrite nth_lin by (rewrite ?repeat_length; auto). rewrite !nth_repeat. ring. Qed.
Lemma lin_firstn t k u v : firstn k (lin t u v) = lin t (firstn k u) (firstn k v).
Proof. unfold lin. rewrite <- firstn_map. apply zipR_firstn. Qed.
Lemma lin_skipn t k u v : length u = length v -> skipn k (lin t u v) = lin t (skipn k u) (skipn k v).
Proof. intros L. unfold lin. rewrite <- skipn_map. apply zipR_skipn. Qed.
Lemma filled_lin C x t u v : length u = dim (kept_out C x) -> length v = dim (kept_out C x) -> filled C x (lin t u v) = lin t (filled C x u) (filled C x v).
Proof.
  unfold filled, kept_out. generalize (v_out C). intros out. revert u v. induction out as [|m out IH]; intros u v Lu Lv; [reflexivity|]. cbn [filter place_row] in *. destruct (reachable C x (snd m)).
  - rewrite dim_cons in Lu, Lv. rewrite lin_app by (rewrite !firstn_length; lia). rewrite <- IH by (rewrite skipn_length; lia). rewrite lin_firstn, lin_skipn by lia. reflexivity.
  - rewrite lin_app by reflexivity. rewrite <- IH by assumption. f_equal. apply lin_zero.
Qed.
Theorem C67_linear C P q steps a b c B X Y Z s za zb zc n p : ready C q steps -> grid a B X Y Z -> grid b B X Y Z -> grid c B X Y Z -> alike a b -> alike a c -> supplied C P (read_irreps a) ->
  (forall n w, (n < B)%nat -> In w (box X Y Z) -> voxel_at c n w = lin s (voxel_at a n w) (voxel_at b n w)) ->
  vconv_call C P a steps = Ok za -> vconv_call C P b steps = Ok zb -> vconv_call C P c steps = Ok zc -> (n < B)%nat -> In p (box X Y Z) ->
  voxel_at zc n p = lin s (voxel_at za n p) (voxel_at zb n p).
Proof.
  intros Rd Ga Gb Gc [Ib Zb] [Ic Zc] Su H Ea Eb Ec Hn Hp. destruct (C67_correlation C P q steps (read_irreps a) Rd Su) as (k & _ & _ & _ & K). set (y := kept_out C (read_irreps a)) in K.
  assert (Erb : read_irreps b = read_irreps a) by (unfold read_irreps; now rewrite Ib, Zb). assert (Erc : read_irreps c = read_irreps a) by (unfold read_irreps; now rewrite Ic, Zc).
  assert (Wb : forall w, read_row b w = read_row a w) by (intros w; unfold read_row; now rewrite Ib, Zb). assert (Wc : forall w, read_row c w = read_row a w) by (intros w; unfold read_row; now rewrite Ic, Zc).
  destruct (K a B X Y Z Ga eq_refl) as (z1 & E1 & V1). destruct (K b B X Y Z Gb Erb) as (z2 & E2 & V2). destruct (K c B X Y Z Gc Erc) as (z3 & E3 & V3). assert (z1 = za) by congruence. assert (z2 = zb) by congruence. assert (z3 = zc) by congruence. subst z1 z2 z3.
  assert (Le : forall d u, length (vecmat (dim y) d u) = dim y) by (intros; apply tab_length).
  rewrite V1, V2, V3 by assumption. rewrite <- filled_lin by (apply rowsum_length, Forall_map, Forall_forall; intros; apply Le). f_equal. apply rowsum_lin. intros w Hw. split; [apply Le|]. split; [apply Le|].
  rewrite Wb, Wc, H by assumption. unfold read_row. destruct Ga as [Ca La], Gb as [Cb Lb]. assert (Q : length (voxel_at a n w) = length (voxel_at b n w)).
  { transitivity (dim (irr a)); [|rewrite <- Ib; symmetry]; [apply (proj1 Ca); rewrite La|apply (proj1 Cb); rewrite Lb]; now apply at_valid. }
  rewrite drop_row_lin by exact Q. apply vecmat_lin. transitivity (dim (read_irreps a)); [exact (read_length a B X Y Z n w (conj Ca La) Hn Hw)|]. pose proof (read_length b B X Y Z n w (conj Cb Lb) Hn Hw) as Q2. rewrite Wb, Erb in Q2. symmetry. exact Q2.
Qed.
