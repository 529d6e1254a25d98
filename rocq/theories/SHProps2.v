(* C52 (continued): symmetry, homogeneity, norm, addition theorem, orthonormality and derivatives of the spherical harmonics. *)
From Coq Require Import Reals Lra ZArith Lia List Bool Arith.
From Coquelicot Require Import Coquelicot.
From Verif Require Import PyBase IrrepsModel IrrepsProofs ArrayModel ArrayProofs LeadModel LeadProofs SumR TPProofs CGModel RotationModel RotationProofs RadialProofs RadialProofs4 TrigProofs PolyProofs LegendreProofs S2Model S2Proofs S2Proofs2 S2Props2 S2Props3 ActProofs EquivProofs WignerModel WignerProofs WignerProofs2 WignerProps SHModel SHProofs SHProofs2 SHProofs3 SHProofs4 SHProofs5 SHProofs6 SHProofs7 SHProofs8 SHProps.
From Verif Require Import EntryProofs.
Import ListNotations.
Open Scope R_scope.

Lemma rows_agree z z' : coherent z -> coherent z' -> irr z = irr z' -> lead z = lead z' -> (forall i k u j, valid (lead z) i -> inside (irr z) k u j -> entry (irr z) (arr z i) k u j = entry (irr z) (arr z' i) k u j) -> forall i, valid (lead z) i -> arr z i = arr z' i.
Proof. intros C C' E L H i Hi. apply (rows_equal (irr z)); [apply C, Hi|rewrite E; apply C'; rewrite <- L; exact Hi|]. intros. now apply H. Qed.
Lemma requests_unique out inp x y : requests out inp x -> requests out inp y -> x = y.
Proof. intros A B. apply irreps_iff in A. apply irreps_iff in B. congruence. Qed.
(* whatever the configuration and the choice of algorithm, calls that succeed agree *)
Theorem C52_algorithms_agree auto auto' out inp normalize n algorithm algorithm' z z' : well_formed inp ->
  spherical_harmonics auto out inp normalize n algorithm = Ok z -> spherical_harmonics auto' out inp normalize n algorithm' = Ok z' ->
  irr z = irr z' /\ lead z = lead z' /\ forall i, valid (lead z) i -> arr z i = arr z' i.
Proof.
  intros W H H'. destruct (sh_spec _ _ _ _ _ _ _ W H) as (A & B & _ & D & _). destruct (sh_spec _ _ _ _ _ _ _ W H') as (A' & B' & _ & D' & _). pose proof (requests_unique _ _ _ _ A A') as E.
  split; [exact E|split; [congruence|]]. intros i Hi. rewrite D by exact Hi. rewrite D' by (rewrite B', <- B; exact Hi). rewrite E. reflexivity.
Qed.
(* the same degree gives the same numbers in every copy and in every call *)
Theorem C52_depends_on_degree auto auto' out out' inp normalize n algorithm algorithm' z z' i k k' u u' j : well_formed inp ->
  spherical_harmonics auto out inp normalize n algorithm = Ok z -> spherical_harmonics auto' out' inp normalize n algorithm' = Ok z' ->
  valid (lead z) i -> inside (irr z) k u j -> inside (irr z') k' u' j -> deg (irr z) k = deg (irr z') k' -> entry (irr z) (arr z i) k u j = entry (irr z') (arr z' i) k' u' j.
Proof.
  intros W H H' Hi I I' E. destruct (sh_spec _ _ _ _ _ _ _ W H) as (A & B & _ & D & _). destruct (sh_spec _ _ _ _ _ _ _ W H') as (A' & B' & _ & D' & _).
  rewrite D by exact Hi. rewrite D' by (rewrite B', <- B; exact Hi). rewrite !entry_rowof by assumption. rewrite E. reflexivity.
Qed.
(* homogeneity of degree l; t = -1 gives the parity (-1)^l *)
Lemma inside_deg x k u j : inside x k u j -> (j < 2 * deg x k + 1)%nat.
Proof. intros (mul & ir & E & _ & Hj). unfold deg. rewrite (nth_error_nth _ _ none E). exact Hj. Qed.
Lemma fn_map t x i : fn (map (Rmult t) x) i = t * fn x i.
Proof. unfold fn. rewrite <- (Rmult_0_r t) at 1. rewrite map_nth. reflexivity. Qed.
Theorem C52_homogeneous auto auto' out out' inp inp' n algorithm algorithm' z z' t i k u j : well_formed inp -> well_formed inp' ->
  spherical_harmonics auto out inp false n algorithm = Ok z -> spherical_harmonics auto' out' inp' false n algorithm' = Ok z' -> irr z = irr z' -> lead z = lead z' ->
  valid (lead z) i -> inside (irr z) k u j -> points inp' i = map (Rmult t) (points inp i) -> entry (irr z') (arr z' i) k u j = t ^ deg (irr z) k * entry (irr z) (arr z i) k u j.
Proof.
  intros W W' H H' E L Hi I Ep. destruct (sh_spec _ _ _ _ _ _ _ W H) as (A & B & _ & D & _). destruct (sh_spec _ _ _ _ _ _ _ W' H') as (A' & B' & _ & D' & _).
  rewrite D by exact Hi. rewrite D' by (rewrite <- L; exact Hi). rewrite <- E. rewrite !entry_rowof by assumption. unfold value. rewrite Ep. rewrite (P_ext _ _ (fun i0 => t * fn (points inp i) i0)); [|intros; apply fn_map|apply inside_deg with (u := u), I]. rewrite P_scale. ring.
Qed.
(* with normalize=True only the direction matters: a factor t multiplies the harmonics of degree l by sign(t)^l *)
Definition len2 (x : list R) : R := lsum x (fun t => t ^ 2).
Lemma len2_map t x : len2 (map (Rmult t) x) = t ^ 2 * len2 x.
Proof. unfold len2, lsum. induction x as [|a x IH]; cbn [map fold_right]; [ring|]. rewrite IH. ring. Qed.
Lemma len2_pos x : 0 <= len2 x.
Proof. unfold len2, lsum. induction x as [|a x IH]; cbn [fold_right]; [lra|]. nra. Qed.
Lemma fn_normalized x i : fn (normalized x) i = / sqrt (if Req_EM_T (len2 x) 0 then 1 else len2 x) * fn x i.
Proof. unfold normalized, fn. fold (len2 x). set (r := sqrt _). replace 0 with (0 / r) at 1 by (unfold Rdiv; ring). rewrite (map_nth (fun t => t / r)). unfold Rdiv. ring. Qed.
Theorem C52_direction auto auto' out out' inp inp' n algorithm algorithm' z z' t i k u j : well_formed inp -> well_formed inp' -> t <> 0 ->
  spherical_harmonics auto out inp true n algorithm = Ok z -> spherical_harmonics auto' out' inp' true n algorithm' = Ok z' -> irr z = irr z' -> lead z = lead z' ->
  valid (lead z) i -> inside (irr z) k u j -> points inp' i = map (Rmult t) (points inp i) -> entry (irr z') (arr z' i) k u j = (if Rlt_dec 0 t then 1 else -1) ^ deg (irr z) k * entry (irr z) (arr z i) k u j.
Proof.
  intros W W' T H H' E L Hi I Ep. destruct (sh_spec _ _ _ _ _ _ _ W H) as (A & B & _ & D & _). destruct (sh_spec _ _ _ _ _ _ _ W' H') as (A' & B' & _ & D' & _).
  rewrite D by exact Hi. rewrite D' by (rewrite <- L; exact Hi). rewrite <- E. rewrite !entry_rowof by assumption. unfold value. rewrite Ep. set (sg := if Rlt_dec 0 t then 1 else -1). set (x := points inp i).
  rewrite (P_ext _ (fn (normalized (map (Rmult t) x))) (fun i0 => sg * fn (normalized x) i0)); [rewrite P_scale; ring| |apply inside_deg with (u := u), I].
  intros c Hc. rewrite !fn_normalized, fn_map, len2_map. assert (T2 : 0 < t ^ 2) by nra. destruct (Req_EM_T (len2 x) 0) as [Z|Z].
  - assert (F0 : fn x c = 0). { clear -Z. unfold fn. revert c. unfold len2, lsum in Z. induction x as [|a x IH]; intros c; [destruct c; reflexivity|]. cbn [fold_right] in Z. pose proof (len2_pos x) as Q. unfold len2, lsum in Q. assert (a = 0) by nra. assert (fold_right (fun a s => a ^ 2 + s) 0 x = 0) by nra. destruct c; [exact H|apply IH, H0]. }
    rewrite F0. ring.
  - pose proof (len2_pos x) as Q. destruct (Req_EM_T (t ^ 2 * len2 x) 0) as [Z2|_]; [exfalso; apply Z; nra|]. rewrite sqrt_mult by lra. assert (S0 : 0 < sqrt (len2 x)) by (apply sqrt_lt_R0; lra).
    assert (ST : sqrt (t ^ 2) = sg * t). { unfold sg. destruct (Rlt_dec 0 t); [replace (t ^ 2) with (t * t) by ring; rewrite sqrt_square by lra; ring|replace (t ^ 2) with ((- t) * (- t)) by ring; rewrite sqrt_square by lra; ring]. }
    rewrite ST. assert (sg * sg = 1) by (unfold sg; destruct (Rlt_dec 0 t); ring). assert (sg <> 0) by (intros Q0; rewrite Q0 in H0; lra). apply (Rmult_eq_reg_l sg); [|assumption]. transitivity (sg * sg * (/ sqrt (len2 x) * fn x c)); [rewrite H0|ring]. field. repeat split; lra.
Qed.
(* the addition theorem; for u = v: the norm of the harmonics of degree l is the l-th power of the norm of the point *)
Definition legendre_polynomial (l : nat) (c : R) : R := Derive_n (fun t => (t ^ 2 - 1) ^ l) l c / (2 ^ l * INR (fact l)).
Definition len (x : list R) : R := sqrt (nth 0 x 0 ^ 2 + nth 1 x 0 ^ 2 + nth 2 x 0 ^ 2).
Definition inner (x y : list R) : R := nth 0 x 0 * nth 0 y 0 + nth 1 x 0 * nth 1 y 0 + nth 2 x 0 * nth 2 y 0.
Lemma pullback r (v : nat -> R) : orthogonal3 r -> let A := mat_at (rep_of r (Irrep 1 Odd)) in let w q := rsum 3 (fun k => A k q * v k) in
  (forall k, (k < 3)%nat -> v k = rsum 3 (fun q => A k q * w q)) /\ rsum 3 (fun k => v k ^ 2) = rsum 3 (fun k => w k ^ 2).
Proof.
  intros O A w. assert (Ev : forall k, (k < 3)%nat -> v k = rsum 3 (fun q => A k q * w q)).
  { intros k Hk. symmetry. transitivity (rsum 3 (fun q => rsum 3 (fun m => A k q * A m q * v m))); [apply rsum_ext; intros q _; unfold w; rewrite <- rsum_scal; apply rsum_ext; intros; ring|].
    rewrite rsum_swap. transitivity (rsum 3 (fun m => (if (k =? m)%nat then 1 else 0) * v m)); [|apply rsum_delta_r, Hk]. apply rsum_ext. intros m Hm. rewrite rsum_scal_r. f_equal. exact (rep_rows r (Irrep 1 Odd) k m O Hk Hm). }
  split; [exact Ev|]. transitivity (rsum 3 (fun k => rsum 3 (fun q => A k q * w q * v k))); [apply rsum_ext; intros k Hk; rewrite (Ev k Hk) at 1; cbn [pow]; rewrite Rmult_1_r; rewrite rsum_scal_r, <- Ev by exact Hk; reflexivity|].
  rewrite rsum_swap. apply rsum_ext. intros q _. transitivity (w q * rsum 3 (fun k => A k q * v k)); [rewrite <- rsum_scal; apply rsum_ext; intros; ring|]. fold (w q). ring.
Qed.
Lemma Ylm_zonal l y a : Ylm l 0 y a = c4 l * legendre_polynomial l y.
Proof.
  rewrite <- harmonic_Ylm by (cbn; lia). unfold harmonic, legendre_polynomial, c4. cbn [Z.abs_nat Z.ltb Z.compare Z.eqb]. rewrite Nat.sub_0_r, Nat.add_0_r. replace (INR (fact l) / INR (fact l)) with 1 by (field; apply INR_fact_neq_0). rewrite Rmult_1_r. cbn [pow]. rewrite Rmult_1_l, Rmult_1_r. reflexivity.
Qed.
Lemma c4_pos l : 0 < c4 l. Proof. apply sqrt_lt_R0, pos4. Qed.
Lemma P_middle l (x : nat -> R) : exists r y, 0 <= r /\ -1 <= y <= 1 /\ x 1%nat = r * y /\ r ^ 2 = rsum 3 (fun k => x k ^ 2) /\ P l x l = r ^ l * legendre_polynomial l y.
Proof.
  destruct (polar [x 0%nat; x 1%nat; x 2%nat] eq_refl) as (Ht & Hy & E). cbv zeta in E, Hy, Ht. set (y := _ / _) in *. set (a := arctan2 _ _) in *. set (t := vec_norm _) in *. exists t, y. split; [exact Ht|split; [exact Hy|]].
  assert (E' : forall i, (i < 3)%nat -> x i = t * vec3 (sqrt (1 - y ^ 2) * sin a) y (sqrt (1 - y ^ 2) * cos a) i) by (intros i Hi; rewrite <- E by exact Hi; destruct i as [|[|[|i]]]; reflexivity || lia).
  split; [exact (E' 1%nat ltac:(lia))|split].
  - cbn [rsum]. rewrite (E' 0%nat), (E' 1%nat), (E' 2%nat) by lia. cbn [vec3]. rewrite Rplus_0_l. symmetry. apply sq_norm, Hy.
  - rewrite (P_ext l x (fun i => t * vec3 (sqrt (1 - y ^ 2) * sin a) y (sqrt (1 - y ^ 2) * cos a) i)) by (assumption || lia). rewrite P_scale. f_equal. apply (Rmult_eq_reg_l (c4 l)); [|apply Rgt_not_eq, c4_pos]. rewrite P_sphere by (assumption || lia). rewrite Z.sub_diag. apply Ylm_zonal.
Qed.
Lemma legendre_0 c : legendre_polynomial 0 c = 1. Proof. unfold legendre_polynomial. cbn [Derive_n pow fact INR]. field. Qed.
Lemma addition l x y nx ny c : 0 <= nx -> 0 <= ny -> nx ^ 2 = rsum 3 (fun k => x k ^ 2) -> ny ^ 2 = rsum 3 (fun k => y k ^ 2) -> rsum 3 (fun k => x k * y k) = nx * ny * c ->
  rsum (2 * l + 1) (fun k => P l x k * P l y k) = nx ^ l * ny ^ l * legendre_polynomial l c.
Proof.
  intros Px Py Nx Ny Dc. destruct (reach x) as (r & t & O & Ht & Ex). set (D := rep_of r) in *. set (A := mat_at (D (Irrep 1 Odd))) in *. set (C := mat_at (D (Irrep l (ppow Odd l)))).
  destruct (pullback r y O) as [Ey Sy]. cbv zeta in Ey, Sy. set (w := fun q => rsum 3 (fun k => A k q * y k)). fold D in Ey, Sy. fold A in Ey, Sy.
  pose proof (rep_of_intertwines r O) as HI. assert (H0 : mat_at (D (Irrep 0 Even)) 0 0 = 1) by (unfold D, rep_of; rewrite as_rep_at by (cbn; lia); apply (C39_low_degrees r 0 0 O); lia).
  assert (Ap : forall i, rsum 3 (fun j => A i j * pole j) = A i 1%nat) by (intros i; unfold pole; cbn [rsum Nat.eqb]; ring).
  assert (Nt : nx = t). { assert (Q : nx ^ 2 = t ^ 2). { rewrite Nx. transitivity (t ^ 2 * rsum 3 (fun k => A k 1%nat * A k 1%nat)); [rewrite <- rsum_scal; apply rsum_ext; intros k Hk; rewrite (Ex k Hk), Ap; ring|]. unfold A, D. replace 3%nat with (ir_dim (Irrep 1 Odd)) by reflexivity. rewrite (rep_cols r (Irrep 1 Odd) 1 1 O) by (cbn; lia). cbn [Nat.eqb]. ring. } nra. }
  destruct (P_middle l w) as (q & y0 & Hq & Hy0 & W1 & Wn & Wl). assert (Nq : ny = q) by (assert (ny ^ 2 = q ^ 2) by (rewrite Ny, Wn; exact Sy); nra).
  assert (Dt : rsum 3 (fun k => x k * y k) = t * w 1%nat). { unfold w. rewrite <- rsum_scal. apply rsum_ext. intros k Hk. rewrite (Ex k Hk), Ap. ring. }
  transitivity (t ^ l * P l w l).
  - assert (EP : forall k, (k < 2 * l + 1)%nat -> P l x k = t ^ l * C k l). { intros k Hk. rewrite (P_ext l x (fun i => t * rsum 3 (fun j => A i j * pole j))) by assumption. rewrite P_scale. f_equal. etransitivity; [exact (P_equivariant D Odd pole HI H0 l k Hk)|]. apply sum_pole. }
    assert (EQ : forall k, (k < 2 * l + 1)%nat -> P l y k = rsum (2 * l + 1) (fun k' => C k k' * P l w k')). { intros k Hk. rewrite (P_ext l y (fun i => rsum 3 (fun j => A i j * w j))) by (try exact Hk; intros; now apply Ey). exact (P_equivariant D Odd w HI H0 l k Hk). }
    rewrite (rsum_ext _ _ (fun k => rsum (2 * l + 1) (fun k' => t ^ l * (C k l * C k k') * P l w k'))) by (intros k Hk; rewrite EP, EQ by exact Hk; rewrite <- rsum_scal; apply rsum_ext; intros; ring).
    rewrite rsum_swap. transitivity (t ^ l * rsum (2 * l + 1) (fun k' => (if (l =? k')%nat then 1 else 0) * P l w k')); [|rewrite rsum_delta_r by lia; reflexivity].
    rewrite <- rsum_scal. apply rsum_ext. intros k' Hk'. rewrite rsum_scal_r, rsum_scal. pose proof (rep_cols r (Irrep l (ppow Odd l)) l k' O ltac:(unfold ir_dim; cbn [ir_l]; lia) Hk') as Q. unfold ir_dim in Q at 1. cbn [ir_l] in Q. fold D in Q. fold C in Q. rewrite Q. ring.
  - rewrite Wl, <- Nt, <- Nq. rewrite Dt, W1, <- Nt, <- Nq in Dc. destruct l as [|l]; [rewrite !legendre_0; cbn [pow]; ring|]. destruct (Req_dec (nx * ny) 0) as [Z|Z].
    + cbn [pow]. transitivity 0; [|symmetry]. { transitivity (nx * ny * (nx ^ l * ny ^ l * legendre_polynomial (S l) y0)); [ring|rewrite Z; ring]. } { transitivity (nx * ny * (nx ^ l * ny ^ l * legendre_polynomial (S l) c)); [ring|rewrite Z; ring]. }
    + replace y0 with c; [ring|]. apply (Rmult_eq_reg_l (nx * ny)); [lra|exact Z].
Qed.
Lemma len_sq x : len x ^ 2 = rsum 3 (fun k => fn x k ^ 2).
Proof. unfold len, fn. cbn [rsum]. rewrite Rplus_0_l. replace (sqrt (nth 0 x 0 ^ 2 + nth 1 x 0 ^ 2 + nth 2 x 0 ^ 2) ^ 2) with (sqrt (nth 0 x 0 ^ 2 + nth 1 x 0 ^ 2 + nth 2 x 0 ^ 2) * sqrt (nth 0 x 0 ^ 2 + nth 1 x 0 ^ 2 + nth 2 x 0 ^ 2)) by ring. apply sqrt_sqrt. nra. Qed.
Definition square_constant (n : s2norm) (l : nat) : R := match n with Integral => (2 * INR l + 1) / (4 * PI) | Component => 2 * INR l + 1 | Norm => 1 end.
Lemma kappa_sq n l : kappa n l ^ 2 = square_constant n l.
Proof.
  pose proof (pos4 l). pose proof (pos_INR l). destruct n; unfold kappa, square_constant; cbn [pow]; rewrite ?Rmult_1_r; try reflexivity; apply sqrt_sqrt; lra.
Qed.
Theorem C52_addition auto out inp n algorithm z i i' k u u' c : well_formed inp -> spherical_harmonics auto out inp false n algorithm = Ok z -> valid (lead z) i -> valid (lead z) i' ->
  (k < length (irr z))%nat -> (u < mult (irr z) k)%nat -> (u' < mult (irr z) k)%nat -> inner (points inp i) (points inp i') = len (points inp i) * len (points inp i') * c ->
  let l := deg (irr z) k in
  rsum (2 * l + 1) (fun j => entry (irr z) (arr z i) k u j * entry (irr z) (arr z i') k u' j) = square_constant n l * (len (points inp i) ^ l * len (points inp i') ^ l * legendre_polynomial l c).
Proof.
  intros W H Hi Hi' Hk Hu Hu' Hc l. destruct (sh_spec _ _ _ _ _ _ _ W H) as (A & B & _ & D & _). rewrite (D i Hi), (D i' Hi').
  assert (In : forall u j, (u < mult (irr z) k)%nat -> (j < 2 * l + 1)%nat -> inside (irr z) k u j). { intros v j Hv Hj. unfold mult in Hv. unfold l, deg in Hj. destruct (nth k (irr z) none) as [mul ir] eqn:E. exists mul, ir. split; [rewrite (nth_error_nth' _ none Hk), E; reflexivity|split; [exact Hv|exact Hj]]. }
  rewrite (rsum_ext _ _ (fun j => kappa n l ^ 2 * (P l (fn (points inp i)) j * P l (fn (points inp i')) j))).
  - rewrite rsum_scal, kappa_sq. f_equal. apply addition; try apply sqrt_pos; try apply len_sq. rewrite <- Hc. unfold inner, fn. cbn [rsum]. ring.
  - intros j Hj. rewrite !entry_rowof by (apply In; assumption). unfold value. fold l. ring.
Qed.
Theorem C52_norm auto out inp n algorithm z i k u : well_formed inp -> spherical_harmonics auto out inp false n algorithm = Ok z -> valid (lead z) i -> (k < length (irr z))%nat -> (u < mult (irr z) k)%nat ->
  let l := deg (irr z) k in rsum (2 * l + 1) (fun j => entry (irr z) (arr z i) k u j ^ 2) = square_constant n l * (len (points inp i) ^ 2) ^ l.
Proof.
  intros W H Hi Hk Hu l. pose proof (C52_addition auto out inp n algorithm z i i k u u 1 W H Hi Hi Hk Hu Hu) as Q. cbv zeta in Q. fold l in Q. rewrite (rsum_ext _ _ (fun j => entry (irr z) (arr z i) k u j * entry (irr z) (arr z i) k u j)) by (intros; ring).
  rewrite Q; [|rewrite Rmult_1_r; transitivity (len (points inp i) ^ 2); [|ring]; rewrite len_sq; unfold inner, fn; cbn [rsum]; ring]. f_equal. replace (legendre_polynomial l 1) with 1; [rewrite <- pow_mult, Rmult_1_r; replace (2 * l)%nat with (l + l)%nat by lia; rewrite pow_add; reflexivity|].
  pose proof (addition l pole pole 1 1 1 ltac:(lra) ltac:(lra) ltac:(unfold pole; cbn [rsum Nat.eqb]; ring) ltac:(unfold pole; cbn [rsum Nat.eqb]; ring) ltac:(unfold pole; cbn [rsum Nat.eqb]; ring)) as E. rewrite !pow1, !Rmult_1_l in E. rewrite <- E. rewrite sum_pole. symmetry. rewrite P_pole by lia. rewrite Nat.eqb_refl. reflexivity.
Qed.
