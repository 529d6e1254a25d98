(* C45 (continued): rotating the coefficients of a function on the sphere rotates the function; to_s2point is equivariant. *)
From Coq Require Import Reals Lra ZArith Lia List Bool Arith.
From Coquelicot Require Import Coquelicot.
From Verif Require Import PyBase IrrepsModel IrrepsProofs ArrayModel ArrayProofs LeadModel LeadProofs SumR TPProofs CGModel RotationModel RotationProofs RadialProofs S2Model S2Proofs S2Proofs2 S2Proofs3 S2Props S2Props2 S2Props3 ActProofs EquivProofs WignerModel WignerProofs WignerProofs2 WignerProps ActivationProps SHModel SHProofs SHProofs2 SHProofs3 SHProofs4 SHProofs5 SHProofs6 SHProofs7 SHProofs8 SHProps SHProps2 SHProps3 S2PointModel S2PointProps.
From Verif Require Import EntryProofs.
Import ListNotations.
Open Scope R_scope.

Lemma value_act r p row n normalize l j : orthogonal3 r -> length row = 3%nat -> (j < 2 * l + 1)%nat ->
  value n normalize (act (rep_of r) [(1%nat, Irrep 1 p)] row) l j = rsum (2 * l + 1) (fun j' => mat_at (rep_of r (Irrep l (ppow p l))) j j' * value n normalize row l j').
Proof.
  intros O L3 Hj. set (D := rep_of r). assert (HD : rep_ok D) by apply as_rep_ok.
  assert (HI : intertwines clebsch_gordan D) by (apply rep_of_intertwines, O). assert (H0 : mat_at (D (Irrep 0 Even)) 0 0 = 1) by (unfold D, rep_of; rewrite as_rep_at by (cbn; lia); apply (C39_low_degrees r 0 0 O); lia).
  unfold value.
  set (w := if normalize then normalized row else row). set (w' := if normalize then normalized (act D [(1%nat, Irrep 1 p)] row) else act D [(1%nat, Irrep 1 p)] row).
  assert (Ew : forall c, (c < 3)%nat -> fn w' c = rsum 3 (fun j => mat_at (D (Irrep 1 p)) c j * fn w j)).
  { intros c Hc. unfold w, w'. destruct normalize; [|now apply act_vector]. rewrite fn_normalized, act_vector by assumption.
    assert (S2 : len2 (act D [(1%nat, Irrep 1 p)] row) = len2 row).
    { rewrite !len2_fn by (try (now rewrite act_length); exact L3). rewrite (rsum_ext _ _ (fun k => rsum 3 (fun j => rsum 3 (fun j' => fn row j * fn row j' * (mat_at (D (Irrep 1 p)) k j * mat_at (D (Irrep 1 p)) k j'))))).
      2: { intros q Hq. rewrite act_vector by assumption. cbn [pow]. rewrite Rmult_1_r, rsum_prod. apply rsum_ext; intros; apply rsum_ext; intros; ring. }
      rewrite rsum_swap. apply rsum_ext. intros b Hb. rewrite rsum_swap. rewrite (rsum_ext _ _ (fun j' => (if (b =? j')%nat then 1 else 0) * (fn row b * fn row j'))); [rewrite (rsum_delta_r 3 b (fun j' => fn row b * fn row j')) by exact Hb; ring|].
      intros b' Hb'. rewrite rsum_scal. pose proof (rep_cols r (Irrep 1 p) b b' O Hb Hb') as Q. change (ir_dim (Irrep 1 p)) with 3%nat in Q. fold D in Q. rewrite Q. ring. }
    rewrite S2. rewrite <- rsum_scal. apply rsum_ext. intros j' _. rewrite fn_normalized. ring. }
  transitivity (kappa n l * rsum (2 * l + 1) (fun j' => mat_at (D (Irrep l (ppow p l))) j j' * P l (fn w) j')); [|rewrite <- rsum_scal; apply rsum_ext; intros; ring]. rewrite <- (P_equivariant D p (fn w) HI H0 l j Hj). f_equal. now apply P_ext.
Qed.
Lemma rep_pmul r l a q i j : (i < 2 * l + 1)%nat -> (j < 2 * l + 1)%nat -> mat_at (rep_of r (Irrep l (pmul a q))) i j = chi r a * mat_at (rep_of r (Irrep l q)) i j.
Proof. intros Hi Hj. unfold rep_of. rewrite !as_rep_at by assumption. rewrite !D_matrix_eq by assumption. cbn [ir_l ir_p]. rewrite chi_pmul. ring. Qed.
Lemma expansion_act r n x a p row v : orthogonal3 r -> form x a p -> length row = dim x -> length v = 3%nat ->
  expansion n x (act (rep_of r) x row) (Yval (act (rep_of r) [(1%nat, Irrep 1 p)] v)) = chi r a * expansion n x row (Yval v).
Proof.
  intros O F L L3. unfold expansion. assert (HD : rep_ok (rep_of r)) by apply as_rep_ok. rewrite <- rsum_scal. apply rsum_ext. intros k Hk. rewrite <- rsum_scal. apply rsum_ext. intros u Hu. set (l := deg x k).
  assert (Ei : snd (nth k x none) = Irrep l (pmul a (ppow p l))). { pose proof (has_nth x k Hk ltac:(lia)) as H. apply F in H. unfold l, deg. destruct (snd (nth k x none)) as [l0 q]. cbn [ir_l ir_p] in *. now subst q. }
  assert (In : forall j, (j < 2 * l + 1)%nat -> inside x k u j). { intros j Hj. unfold S2Proofs2.mult in Hu. destruct (nth k x none) as [mul ir] eqn:E. exists mul, ir. split; [rewrite (nth_error_nth' _ none Hk), E; reflexivity|]. cbn [fst snd] in *. split; [exact Hu|]. rewrite Ei. exact Hj. }
  set (N := mat_at (rep_of r (Irrep l (ppow p l)))).
  rewrite (rsum_ext _ _ (fun j => rsum (2 * l + 1) (fun b => rsum (2 * l + 1) (fun b' => chi r a * n l * entry x row k u b * value Integral true v l b' * (N j b * N j b'))))).
  - rewrite rsum_swap. rewrite <- rsum_scal. apply rsum_ext. intros b Hb. rewrite rsum_swap. rewrite (rsum_ext _ _ (fun b' => (if (b =? b')%nat then 1 else 0) * (chi r a * n l * entry x row k u b * value Integral true v l b'))).
    + rewrite (rsum_delta_r (2 * l + 1) b (fun b' => chi r a * n l * entry x row k u b * value Integral true v l b')) by exact Hb. unfold Yval. rewrite Z.sub_add, Nat2Z.id. ring.
    + intros b' Hb'. rewrite rsum_scal. pose proof (rep_cols r (Irrep l (ppow p l)) b b' O Hb Hb') as Q. change (ir_dim (Irrep l (ppow p l))) with (2 * l + 1)%nat in Q. fold N in Q. rewrite Q. ring.
  - intros j Hj. rewrite act_entry by (try apply In; assumption). cbv zeta. change (0%nat, Irrep 0 Even) with none. rewrite Ei. change (ir_dim (Irrep l (pmul a (ppow p l)))) with (2 * l + 1)%nat. unfold Yval. rewrite Z.sub_add, Nat2Z.id. rewrite value_act by assumption. fold N. rewrite Rmult_assoc. rewrite rsum_prod. rewrite <- rsum_scal. apply rsum_ext. intros b Hb. rewrite <- rsum_scal. apply rsum_ext. intros b' Hb'. rewrite rep_pmul by assumption. fold N. ring.
Qed.

Lemma act_scalar1 r a (t : R) : act (rep_of r) [(1%nat, Irrep 0 a)] [t] = [chi r a * t].
Proof.
  change [t] with (rowof [(1%nat, Irrep 0 a)] (fun _ _ _ => t)) at 1. rewrite act_rowof by apply as_rep_ok. cbn [rowof fst snd nth app concat tab2 tab seq map ir_dim ir_l Nat.mul Nat.add]. rewrite rep_of_scalar_p. apply (f_equal (fun z : R => z :: nil)). cbn [rsum]. unfold mat_at. cbn [nth]. ring.
Qed.
(* ---- theorems ---- *)
(* the sign by which an odd number is multiplied under r *)
Definition flips (r : mat) (a : parity) : R := if Rlt_dec (mat_det r) 0 then sgnR a else 1.
Lemma flips_chi r a : flips r a = chi r a.
Proof. unfold flips, chi, sg, Rltb. destruct (Rlt_dec (mat_det r) 0); destruct a; reflexivity. Qed.
(* rotating, reflecting or inverting the coefficients of a function whose values have parity a and whose argument has parity p gives the function moved by r: its value at the moved point is the former value (times the sign of r on values) *)
Theorem C45_rotated_function r c c' pt pt' n a p i i' v y alpha y' alpha' : orthogonal3 r -> coherent c -> coherent pt -> irr pt = [(1%nat, Irrep 1 p)] -> form (irr c) a p ->
  transform_by_matrix c r = Ok c' -> transform_by_matrix pt r = Ok pt' -> valid (lead c) i -> valid (lead pt) i' -> v <> 0 ->
  coordinates (arr pt i') v y alpha -> coordinates (arr pt' i') v y' alpha' ->
  value_at n (irr c') (arr c' i) y' alpha' = flips r a * value_at n (irr c) (arr c i) y alpha.
Proof.
  intros O Cc Cp Ip F Ec Ep Vi Vi' Nv H H'. assert (HD : rep_ok (rep_of r)) by apply as_rep_ok. rewrite by_matrix in Ec, Ep. rewrite flips_chi.
  destruct (transform_act (rep_of r) c Cc HD) as (c0 & E0 & I0 & _ & _ & R0). assert (c0 = c') by congruence. subst c0. destruct (transform_act (rep_of r) pt Cp HD) as (p0 & E1 & I1 & _ & _ & R1). assert (p0 = pt') by congruence. subst p0.
  rewrite <- (expansion_value _ _ _ _ _ _ _ H' Nv), <- (expansion_value _ _ _ _ _ _ _ H Nv). rewrite I0, R0, R1, Ip by assumption. apply expansion_act; [exact O|exact F|apply Cc, Vi|]. rewrite (proj1 Cp i' Vi'), Ip. reflexivity.
Qed.
(* to_s2point commutes with every orthogonal transformation of the coefficients and of the points, for any leading shapes *)
Theorem C45_to_s2point_equivariant auto c pt n r z : orthogonal3 r -> coherent c -> coherent pt -> to_s2point auto c pt n = Ok z ->
  agree (transform_by_matrix z r) (let! c' := transform_by_matrix c r in let! pt' := transform_by_matrix pt r in to_s2point auto c' pt' n).
Proof.
  intros O Cc Cp E. destruct (proj1 (C45_to_s2point_accepts auto c pt n Cc Cp) (ex_intro _ z E)) as ([L T] & Sg & (p & a & Ip & F) & U). assert (HD : rep_ok (rep_of r)) by apply as_rep_ok.
  rewrite !by_matrix. destruct (transform_act (rep_of r) c Cc HD) as (c' & Ec & I0 & L0 & C0 & R0). destruct (transform_act (rep_of r) pt Cp HD) as (pt' & Ep & I1 & L1 & C1 & R1). rewrite Ec. cbn [bind]. rewrite Ep. cbn [bind].
  destruct (point_eval auto c pt n p a L Cc Cp Ip T Sg F U) as (z0 & E' & Z1 & Z2 & Z3 & Z4). assert (z0 = z) by congruence. subst z0.
  exists [(1%nat, Irrep 0 a)], (lead c ++ lead pt), (fun i => act (rep_of r) [(1%nat, Irrep 0 a)] (arr z i)). split.
  - pose proof (transform_act (rep_of r) z Z3 HD) as Q. rewrite Z1, Z2 in Q. exact Q.
  - pose proof (point_eval auto c' pt' n p a L C0 C1) as Q. rewrite I0, I1, L0, L1 in Q. specialize (Q Ip T Sg F U). refine (yields_ext _ _ _ _ _ _ Q). intros i Vi. rewrite Z4 by exact Vi.
    destruct (split_index _ _ _ Vi) as [B1 B2]. unfold from_coeffs, from_point. rewrite L0, L1. set (ip := unravel (lead pt) _). set (ic := unravel (lead c) _). assert (Vp : valid (lead pt) ip) by apply unravel_valid, B1. assert (Vc : valid (lead c) ic) by apply unravel_valid, B2.
    rewrite R0, R1, Ip by assumption. rewrite (expansion_act r (norm_to_s2 L n) (irr c) a p); [|exact O|exact F|apply Cc, Vc|rewrite (proj1 Cp ip Vp), Ip; reflexivity].
    symmetry. apply act_scalar1.
Qed.
