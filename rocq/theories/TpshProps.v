(* C59: tensor_product_with_spherical_harmonics(input, vector, degree) is the tensor product of the input with the spherical harmonics of the direction of the vector.
   Vocabulary: see ArrayProps.v ([yields]/[agree] say what a call returns) and SHProps.v ([usable]: the configured algorithm of spherical_harmonics evaluates these degrees). *)
From Coq Require Import Reals ZArith Arith Lia Lra Bool List Permutation Sorted.
From Verif Require Import PyBase IrrepsModel IrrepsProofs IrrepsProofs2 ArrayModel ArrayProofs ArrayOps RechunkProofs LeadModel LeadProofs ArithProofs StackProofs BilinProofs SumR CGModel CGProofs6 ActProofs EquivProofs EquivProofs2 EntryProofs TPModel TPProofs TPProofs2 TPProofs3 StableSort GradProofs TPProps TPProps4.
From Verif Require Import RotationModel RotationProofs WignerModel WignerProofs WignerProofs2 WignerProps WignerProps2 S2Model S2Proofs2 SHModel SHProofs SHProofs2 SHProps SHProps2 SHProps3 TpshCG TpshModel TpshProofs TpshProofs2 TpshProofs3.
Import ListNotations.
Open Scope R_scope.

(* ---- specification ---- *)
Definition is_vector (v : iarray) : Prop := exists p, irr v = [(1%nat, Irrep 1 p)].
Definition nonzero (v : iarray) : Prop := forall i, valid (lead v) i -> exists c, (c < 3)%nat /\ nth c (arr v i) 0 <> 0.
(* where(vector == 0, (0, 0, 1), vector) *)
Definition aimed (v : iarray) : iarray := IA (irr v) (lead v) (fun i => if Req_EM_T (nth 0 (arr v i) 0 ^ 2 + nth 1 (arr v i) 0 ^ 2 + nth 2 (arr v i) 0 ^ 2) 0 then [0; 0; 1] else arr v i) None None.
(* spherical_harmonics(range(degree + 1), vector, True) *)
Definition harmonics_of (auto : option (list keyword)) (n : s2norm) (v : iarray) (degree : Z) : res iarray :=
  spherical_harmonics auto (OutList (seq 0 (Z.to_nat (degree + 1)))) (InIrreps v) true n None.
(* tensor_product(input, harmonics) with the default options *)
Definition times (x y : iarray) : res iarray := tensor_product clebsch_gordan NComponent None true x y.

(* ---- lemmas ---- *)
Lemma dir_of v : length v = 3%nat -> (if Req_EM_T (nth 0 v 0 ^ 2 + nth 1 v 0 ^ 2 + nth 2 v 0 ^ 2) 0 then [0; 0; 1] else v) = dir v.
Proof. intros L. destruct (three v L) as (a & b & c & ->). unfold dir, len2, lsum. cbn [nth map fold_right]. replace (a ^ 2 + (b ^ 2 + (c ^ 2 + 0))) with (a ^ 2 + b ^ 2 + c ^ 2) by ring. reflexivity. Qed.
Lemma dir_nonzero v c : length v = 3%nat -> (c < 3)%nat -> nth c v 0 <> 0 -> dir v = v.
Proof. intros L Hc N. unfold dir. destruct (Req_EM_T (len2 v) 0) as [Z|]; [|reflexivity]. exfalso. apply N. rewrite (len2_zero v L Z). destruct c as [|[|[|c]]]; [reflexivity..|lia]. Qed.
Lemma vector_length v i : coherent v -> is_vector v -> valid (lead v) i -> length (arr v i) = 3%nat.
Proof. intros C [p E] Hi. rewrite (proj1 C i Hi), E. reflexivity. Qed.
Lemma aimed_coherent v : coherent v -> is_vector v -> coherent (aimed v).
Proof. intros C V0. split; [|split; [apply flags_false|exact Logic.I]]. intros i Hi. cbn [aimed arr irr]. destruct (Req_EM_T _ 0); [|apply C, Hi]. destruct V0 as [p ->]. reflexivity. Qed.
Lemma aimed_nonzero v : coherent v -> is_vector v -> nonzero v -> forall i, valid (lead v) i -> arr (aimed v) i = arr v i.
Proof. intros C V0 N i Hi. cbn [aimed arr]. rewrite dir_of by (now apply vector_length). destruct (N i Hi) as (c & Hc & Nc). apply (dir_nonzero _ c); auto. now apply vector_length. Qed.
Lemma harmonics_inv auto n v degree p y : coherent v -> irr v = [(1%nat, Irrep 1 p)] -> harmonics_of auto n v degree = Ok y ->
  irr y = sh_of p degree /\ lead y = lead v /\ coherent y /\ (num_irreps (sh_of p degree) = 0%nat \/ usable auto None (sh_of p degree)) /\ forall i, valid (lead v) i -> arr y i = sh_row n (sh_of p degree) (arr v i).
Proof.
  intros C Iv H. unfold harmonics_of in H. destruct (sh_accepts_inv _ _ _ _ _ _ _ H) as (q & x & Rq & _ & _ & U). destruct (sh_spec _ _ (InIrreps v) _ _ _ _ C H) as (Rq' & Ld & Cy & Ry & _). pose proof (requests_unique _ _ _ _ Rq Rq') as Ex.
  assert (E : irr y = sh_of p degree). { cbn [requests] in Rq'. destruct Rq' as (q' & Eq & ->). rewrite Iv in Eq. injection Eq as <-. reflexivity. }
  cbn [shape_of points] in *. rewrite Ex, E in U. rewrite Ld, E in Ry. split; [exact E|]. split; [exact Ld|]. split; [exact Cy|]. split; [destruct U as [U|[_ U]]; auto|exact Ry].
Qed.
Lemma harmonics_ok auto n v degree p : coherent v -> irr v = [(1%nat, Irrep 1 p)] -> num_irreps (sh_of p degree) = 0%nat \/ usable auto None (sh_of p degree) -> exists y, harmonics_of auto n v degree = Ok y.
Proof.
  intros C Iv U. destruct (sh_yields auto (OutList (degrees degree)) (InIrreps v) true n None p (sh_of p degree) (C : well_formed (InIrreps v)) (ex_intro _ p (conj Iv eq_refl)) (Iv : vector_of_parity (InIrreps v) p) (sh_of_natural p degree)) as (y & E & _); [destruct U as [U|U]; [left; exact U|right; split; [reflexivity|exact U]]|]. exists y. exact E.
Qed.
(* everything the call returns, for all vectors *)
Lemma tpsh_row auto n x v degree y s : coherent x -> coherent v -> is_vector v -> irr x <> [] -> broadcast_shapes (lead x) (lead v) = Ok s -> harmonics_of auto n (aimed v) degree = Ok y ->
  coherent y /\ lead y = lead v /\ regroup_irreps (irr y) = irr y /\ (forall i, valid (lead v) i -> sort_row (irr y) (arr y i) = arr y i) /\
  yields (tensor_product_with_sh auto n x v degree) (tp_out NComponent None true (irr x) (irr y)) s
    (fun i => let ps := tp_paths NComponent None (irr x) (irr y) in sort_row (bil_out ps) (bil_row clebsch_gordan ps (irr x) (irr y) (arr x (bidx (lead x) i)) (arr y (bidx (lead v) i)))).
Proof.
  intros Cx Cv Vv Nx E H. pose proof (aimed_coherent v Cv Vv) as Ca. pose proof Vv as [p Iv]. destruct (harmonics_inv auto n (aimed v) degree p y Ca Iv H) as (Iy & Ly & Cy & U & Ry). cbn [aimed lead arr] in Ly, Ry.
  split; [exact Cy|]. split; [exact Ly|]. split; [rewrite Iy; apply increasing_regroup; [apply sh_of_increasing|apply sh_of_positive]|]. split.
  { intros i Hi. apply increasing_sort_row; [rewrite Iy; apply sh_of_increasing|apply Cy; now rewrite Ly]. }
  rewrite Iy, <- tp_out_regrouped. eapply yields_ext; [|apply (tpsh_yields auto n x v degree p s Cx Nx Cv Iv E U)]. intros i Hi. cbv beta zeta. unfold computed. destruct (broadcast_valid _ _ _ _ E Hi) as [_ Hv]. rewrite Ry by exact Hv. rewrite dir_of by (now apply vector_length). reflexivity.
Qed.
Lemma times_unregrouped x y s : coherent x -> coherent y -> broadcast_shapes (lead x) (lead y) = Ok s ->
  yields (let! z := tensor_product clebsch_gordan NComponent None false x y in ia_regroup z) (tp_out NComponent None true (irr x) (irr y)) s
    (fun i => let ps := tp_paths NComponent None (irr x) (irr y) in sort_row (bil_out ps) (bil_row clebsch_gordan ps (irr x) (irr y) (arr x (bidx (lead x) i)) (arr y (bidx (lead y) i)))).
Proof.
  intros Cx Cy E. apply (yields_bind _ _ _ _ _ _ _ _ (tensor_product_yields clebsch_gordan NComponent None false x y s Cx Cy ltac:(discriminate) E)). intros z _ Iz Lz Cz Rz.
  assert (O : regroup_irreps (irr z) = tp_out NComponent None true (irr x) (irr y)). { rewrite <- tp_out_regrouped, Iz. unfold tp_out. cbn [maybe_regroup]. unfold regroup_irreps. now rewrite sort_irreps_idem. }
  rewrite <- O, <- Lz. eapply yields_ext; [|apply (ia_regroup_yields z Cz)]. intros i Hi. rewrite Lz in Hi. cbv beta. rewrite Rz by exact Hi. rewrite Iz. change (concat _) with (sort_row (tp_out NComponent None false (irr x) (irr y)) (tp_row clebsch_gordan NComponent None false (irr x) (irr y) (arr x (bidx (lead x) i)) (arr y (bidx (lead y) i)))).
  unfold tp_out, tp_row. cbn [maybe_regroup maybe_sort_row]. now rewrite sort_row_idem by apply bil_row_length.
Qed.
Lemma harmonics_aimed auto n v degree y : coherent v -> is_vector v -> nonzero v -> harmonics_of auto n v degree = Ok y ->
  exists y', harmonics_of auto n (aimed v) degree = Ok y' /\ irr y' = irr y /\ lead y' = lead y /\ coherent y /\ lead y = lead v /\ forall i, valid (lead v) i -> arr y' i = arr y i.
Proof.
  intros C [p Iv] N H. destruct (harmonics_inv _ _ _ _ _ _ C Iv H) as (Iy & Ly & Cy & U & Ry). pose proof (aimed_coherent v C (ex_intro _ p Iv)) as Ca. destruct (harmonics_ok auto n (aimed v) degree p Ca Iv U) as [y' H']. destruct (harmonics_inv _ _ _ _ _ _ Ca Iv H') as (Iy' & Ly' & Cy' & _ & Ry'). cbn [aimed lead] in *.
  exists y'. split; [exact H'|]. split; [congruence|]. split; [congruence|]. split; [exact Cy|]. split; [exact Ly|]. intros i Hi. rewrite Ry, Ry' by exact Hi. f_equal. exact (aimed_nonzero v C (ex_intro _ p Iv) N i Hi).
Qed.
Lemma yields_agree r r' x s a : yields r x s a -> yields r' x s a -> agree r r'. Proof. intros A B. exists x, s, a. auto. Qed.

(* ---- theorems ---- *)
(* For every input with at least one entry and every batch of vectors other than zero: the product of the input, copies in the order given, with the harmonics, then regrouped *)
Theorem C59_product auto n x v degree y s : coherent x -> coherent v -> is_vector v -> nonzero v -> irr x <> [] -> broadcast_shapes (lead x) (lead v) = Ok s -> harmonics_of auto n v degree = Ok y ->
  agree (tensor_product_with_sh auto n x v degree) (let! z := tensor_product clebsch_gordan NComponent None false x y in ia_regroup z).
Proof.
  intros Cx Cv Vv Nv Nx E H. destruct (harmonics_aimed auto n v degree y Cv Vv Nv H) as (y' & H' & Iy & Ly & Cy & Lv & Ry). destruct (tpsh_row auto n x v degree y' s Cx Cv Vv Nx E H') as (_ & _ & _ & _ & T).
  rewrite <- Lv in E. pose proof (times_unregrouped x y s Cx Cy E) as Q. apply (yields_agree _ _ _ _ _ T). rewrite Iy. eapply yields_ext; [|exact Q]. intros i Hi. cbv beta zeta. destruct (broadcast_valid _ _ _ _ E Hi) as [_ Hy]. rewrite Lv in *. rewrite Ry by exact Hy. reflexivity.
Qed.
(* the documented equivalence, for inputs whose irreps are already sorted and merged *)
Theorem C59_documented auto n x v degree y s : coherent x -> coherent v -> is_vector v -> nonzero v -> irr x <> [] -> regroup_irreps (irr x) = irr x -> broadcast_shapes (lead x) (lead v) = Ok s -> harmonics_of auto n v degree = Ok y ->
  agree (tensor_product_with_sh auto n x v degree) (times x y).
Proof.
  intros Cx Cv Vv Nv Nx Rx E H. destruct (harmonics_aimed auto n v degree y Cv Vv Nv H) as (y' & H' & Iy & Ly & Cy & Lv & Ry). destruct (tpsh_row auto n x v degree y' s Cx Cv Vv Nx E H') as (_ & _ & Gy & Sy & T).
  rewrite <- Lv in E. apply (yields_agree _ _ _ _ _ T). rewrite Iy in *. eapply yields_ext; [|apply (tensor_product_yields clebsch_gordan NComponent None true x y s Cx Cy ltac:(discriminate) E)]. intros i Hi. cbv beta zeta. unfold tp_row. cbn [maybe_regroup maybe_sort_row]. destruct (broadcast_valid _ _ _ _ E Hi) as [Hx Hy]. rewrite Lv in *. rewrite Rx, Gy.
  rewrite (increasing_sort_row (irr x)) by (try (now apply regrouped_increasing); apply Cx, Hx). rewrite <- Ry by exact Hy. rewrite Sy by exact Hy. reflexivity.
Qed.
(* whatever the order of the input: regrouping it first gives the documented product *)
Theorem C59_regrouped_first auto n x v degree y s : coherent x -> coherent v -> is_vector v -> nonzero v -> regroup_irreps (irr x) <> [] -> broadcast_shapes (lead x) (lead v) = Ok s -> harmonics_of auto n v degree = Ok y ->
  agree (let! x' := ia_regroup x in tensor_product_with_sh auto n x' v degree) (times x y).
Proof.
  intros Cx Cv Vv Nv Nx E H. destruct (ia_regroup_yields x Cx) as (x' & -> & Ix & Lx & Cx' & Rx). cbn [bind]. assert (Rg : regroup_irreps (irr x') = irr x') by (rewrite Ix; apply regroup_iff; intros ir; apply regroup_count).
  destruct (C59_documented auto n x' v degree y s Cx' Cv Vv Nv ltac:(now rewrite Ix) Rg ltac:(now rewrite Lx) H) as (z & t & a & A & B). pose proof Vv as [p Iv]. destruct (harmonics_inv _ _ _ _ _ _ Cv Iv H) as (_ & Ly & Cy & _ & _).
  assert (E' : broadcast_shapes (lead x) (lead y) = Ok s) by now rewrite Ly. apply (yields_agree _ _ _ _ _ A). unfold times in *.
  pose proof (tensor_product_yields clebsch_gordan NComponent None true x y s Cx Cy ltac:(discriminate) E') as Q. pose proof (tensor_product_yields clebsch_gordan NComponent None true x' y s Cx' Cy ltac:(discriminate) ltac:(rewrite Lx; exact E')) as Q'.
  destruct B as (b & Eb & B1 & B2 & B3 & B4). destruct Q' as (b' & Eb' & Q1 & Q2 & Q3 & Q4). assert (b' = b) by congruence. subst b'.
  assert (F : forall i, valid s i -> arr b i = tp_row clebsch_gordan NComponent None true (irr x) (irr y) (arr x (bidx (lead x) i)) (arr y (bidx (lead y) i))).
  { intros i Hi. rewrite Q4 by exact Hi. unfold tp_row. cbn [maybe_regroup maybe_sort_row]. destruct (broadcast_valid _ _ _ _ E' Hi) as [Hx _]. rewrite Rg, Lx. rewrite Rx by exact Hx. rewrite Ix. rewrite (increasing_sort_row (regroup_irreps (irr x))); [reflexivity|apply regroup_strict|]. exact (maybe_sort_row_length true _ _ (proj1 Cx _ Hx)). }
  rewrite <- B1, <- B2, Q1, Q2. assert (O : tp_out NComponent None true (irr x') (irr y) = tp_out NComponent None true (irr x) (irr y)) by (unfold tp_out; cbn [maybe_regroup]; rewrite Rg, Ix; reflexivity). rewrite O. eapply yields_ext; [|exact Q]. intros i Hi. cbv beta. rewrite <- B4 by (rewrite <- B2, Q2; exact Hi). symmetry. apply F, Hi.
Qed.
(* zero vectors are given the direction (0, 0, 1) *)
Theorem C59_zero_vectors auto n x v degree y s : coherent x -> coherent v -> is_vector v -> irr x <> [] -> broadcast_shapes (lead x) (lead v) = Ok s -> harmonics_of auto n (aimed v) degree = Ok y ->
  agree (tensor_product_with_sh auto n x v degree) (let! z := tensor_product clebsch_gordan NComponent None false x y in ia_regroup z).
Proof.
  intros Cx Cv Vv Nx E H. destruct (tpsh_row auto n x v degree y s Cx Cv Vv Nx E H) as (Cy & Ly & _ & _ & T). rewrite <- Ly in E. apply (yields_agree _ _ _ _ _ T). rewrite <- Ly. exact (times_unregrouped x y s Cx Cy E).
Qed.
(* the irreps and the leading shape are those of the documented product, for every input and every vector, zero or not, sorted or not *)
Theorem C59_irreps auto n x v degree y z s : coherent x -> coherent v -> is_vector v -> irr x <> [] -> broadcast_shapes (lead x) (lead v) = Ok s -> harmonics_of auto n v degree = Ok y -> times x y = Ok z ->
  exists w, tensor_product_with_sh auto n x v degree = Ok w /\ irr w = irr z /\ lead w = lead z /\ coherent w /\ forall b, In b (zero_flags w) -> b = false.
Proof.
  intros Cx Cv Vv Nx E H Hz. pose proof Vv as [p Iv]. destruct (harmonics_inv _ _ _ _ _ _ Cv Iv H) as (Iy & Ly & Cy & U & _). pose proof (tpsh_yields auto n x v degree p s Cx Nx Cv Iv E U) as T. rewrite tp_out_regrouped in T.
  destruct (tensor_product_yields clebsch_gordan NComponent None true x y s Cx Cy ltac:(discriminate) ltac:(now rewrite Ly)) as (z' & Ez & I1 & L1 & _). assert (z' = z) by (unfold times in Hz; congruence). subst z'. destruct T as (w & Ew & Iw & Lw & Cw & _). exists w. split; [exact Ew|]. split; [congruence|]. split; [congruence|]. split; [exact Cw|].
  unfold tensor_product_with_sh in Ew. rewrite (vector_check v p Iv), E in Ew. cbn [bind] in Ew. destruct (broadcast_absorb _ _ _ E) as [Ex Ev]. destruct (broadcast_to_yields x s Cx Ex) as (x1 & Q & Ix1 & _). rewrite Q in Ew. clear Q. cbn [bind] in Ew. destruct (broadcast_to_yields v s Cv Ev) as (v1 & Q & Iv1 & _). rewrite Q in Ew. clear Q. cbn [bind] in Ew.
  destruct (impl_makes auto n (blank x1) (blank v1) degree p (blank_coherent x1) eq_refl) as (t & Q & It & Lt & Ct & Nt & _); [cbn [blank irr]; now rewrite Ix1|apply blank_coherent|reflexivity|cbn [blank irr]; now rewrite Iv1|exact U|]. rewrite Q in Ew. clear Q. cbn [bind] in Ew.
  unfold mkIA in Ew. repeat (destruct (negb _) in Ew; [discriminate|]). injection Ew as <-. unfold zero_flags at 1. cbn [zf]. apply dense_flags in Nt; [|exact Ct]. rewrite Forall_forall in Nt. exact Nt.
Qed.
(* which calls succeed *)
Theorem C59_accepts auto n x v degree : coherent x -> coherent v ->
  (exists z, tensor_product_with_sh auto n x v degree = Ok z) <-> is_vector v /\ (exists s, broadcast_shapes (lead x) (lead v) = Ok s) /\ irr x <> [] /\ exists y, harmonics_of auto n v degree = Ok y.
Proof.
  intros Cx Cv. split.
  - intros [z H]. unfold tensor_product_with_sh in H. destruct (negb _) eqn:Ve in H; [discriminate|]. apply vector_check_inv in Ve. destruct Ve as [p Iv]. split; [exists p; exact Iv|]. destruct (broadcast_shapes (lead x) (lead v)) as [s|] eqn:E; cbn [bind] in H; [|discriminate]. split; [exists s; reflexivity|].
    destruct (broadcast_absorb _ _ _ E) as [Ex Ev]. destruct (broadcast_to_yields x s Cx Ex) as (x1 & Q & Ix1 & _). rewrite Q in H. clear Q. cbn [bind] in H. destruct (broadcast_to_yields v s Cv Ev) as (v1 & Q & Iv1 & _). rewrite Q in H. clear Q. cbn [bind] in H.
    destruct (impl auto n (blank x1) (blank v1) degree) as [t|] eqn:Et; cbn [bind] in H; [|discriminate].
    assert (Y : exists y, harmonics_of auto n v degree = Ok y).
    { unfold impl in Et. destruct (new_makes (irr (blank v1)) (lead (blank v1)) (fun i => normalize_row (arr (blank v1) i))) as (w & Q & Iw & _ & Cw & _). { intros i Hi. rewrite normalize_row_normalized, normalized_length. apply (blank_coherent v1), Hi. }
      cbn [blank irr lead] in Q, Iw. rewrite Iv1, Iv in Q. change (dim [(1%nat, Irrep 1 p)]) with 3%nat in Q. cbn [blank irr lead] in Et. rewrite Iv1, Iv, Q in Et. clear Q. cbn [bind] in Et. cbv zeta in Et.
      destruct (fix_makes (gimbal_lock (arr w [])) true (blank x1) (blank_coherent x1)) as (x2 & Q & _ & _ & C2 & N2 & _). rewrite Q in Et. clear Q. cbn [bind] in Et. destruct (fix_makes (gimbal_lock (arr w [])) true w Cw) as (w2 & Q & Iw2 & _). rewrite Q in Et. clear Q. cbn [bind] in Et. destruct (xyz_to_angles _) as [a b].
      destruct (by_angles_makes x2 (Some a) (Some b) None true C2 N2) as (x3 & Q & _). rewrite Q in Et. clear Q. cbn [bind] in Et. rewrite Iw2, Iw, Iv1, Iv in Et. destruct (new_makes [(1%nat, Irrep 1 p)] [] (fun _ => [0; 1; 0])) as (q & Q & Iq & _ & Cq & _); [reflexivity|]. change (dim [(1%nat, Irrep 1 p)]) with 3%nat in Q. rewrite Q in Et. clear Q. cbn [bind] in Et.
      destruct (spherical_harmonics auto (OutList (degrees degree)) (InIrreps q) true n None) as [sh|] eqn:Es; cbn [bind] in Et; [|discriminate]. destruct (harmonics_inv auto n q degree p sh Cq Iq Es) as (_ & _ & _ & U & _). exact (harmonics_ok auto n v degree p Cv Iv U). }
    split; [|exact Y]. intros Nx. destruct Y as [y Hy]. destruct (harmonics_inv auto n v degree p y Cv Iv Hy) as (_ & _ & _ & U & _). rewrite (impl_empty auto n (blank x1) (blank v1) degree p) in Et; [discriminate|apply blank_coherent|reflexivity|cbn [blank irr]; congruence|apply blank_coherent|reflexivity|cbn [blank irr]; congruence|exact U].
  - intros ([p Iv] & [s E] & Nx & [y H]). destruct (harmonics_inv auto n v degree p y Cv Iv H) as (_ & _ & _ & U & _). destruct (tpsh_yields auto n x v degree p s Cx Nx Cv Iv E U) as (z & Ez & _). exists z. exact Ez.
Qed.
(* with the default configuration the harmonics never fail *)
Theorem C59_default_accepts n x v degree : coherent x -> coherent v -> (exists z, tensor_product_with_sh None n x v degree = Ok z) <-> is_vector v /\ (exists s, broadcast_shapes (lead x) (lead v) = Ok s) /\ irr x <> [].
Proof.
  intros Cx Cv. rewrite (C59_accepts None n x v degree Cx Cv). split; [tauto|]. intros (Vv & E & Nx). repeat (split; [assumption|]). destruct Vv as [p Iv]. apply (harmonics_ok None n v degree p Cv Iv). right. exact Logic.I.
Qed.
Theorem C59_rejects_non_vector auto n x v degree : ~ is_vector v -> tensor_product_with_sh auto n x v degree = Err ValueError.
Proof. intros N. unfold tensor_product_with_sh. destruct (negb _) eqn:E; [reflexivity|]. exfalso. apply N. now apply vector_check_inv. Qed.
Theorem C59_rejects_empty n x v degree s : coherent x -> coherent v -> is_vector v -> broadcast_shapes (lead x) (lead v) = Ok s -> irr x = [] -> tensor_product_with_sh None n x v degree = Err NameError.
Proof.
  intros Cx Cv [p Iv] E Nx. unfold tensor_product_with_sh. rewrite (vector_check v p Iv), E. cbn [bind]. destruct (broadcast_absorb _ _ _ E) as [Ex Ev]. destruct (broadcast_to_yields x s Cx Ex) as (x1 & -> & Ix1 & _). cbn [bind]. destruct (broadcast_to_yields v s Cv Ev) as (v1 & -> & Iv1 & _). cbn [bind].
  rewrite (impl_empty None n (blank x1) (blank v1) degree p); [reflexivity|apply blank_coherent|reflexivity|cbn [blank irr]; congruence|apply blank_coherent|reflexivity|cbn [blank irr]; congruence|right; exact Logic.I].
Qed.
(* no degree: an array without irreps *)
Theorem C59_negative_degree auto n x v degree s : coherent x -> coherent v -> is_vector v -> irr x <> [] -> broadcast_shapes (lead x) (lead v) = Ok s -> (degree < 0)%Z ->
  exists z, tensor_product_with_sh auto n x v degree = Ok z /\ irr z = [] /\ lead z = s.
Proof.
  intros Cx Cv [p Iv] Nx E Hd. assert (Ey : sh_of p degree = []) by (unfold sh_of, degrees; replace (Z.to_nat (degree + 1)) with 0%nat by lia; reflexivity).
  destruct (tpsh_yields auto n x v degree p s Cx Nx Cv Iv E ltac:(left; rewrite Ey; reflexivity)) as (z & Ez & Iz & Lz & _). exists z. split; [exact Ez|]. split; [|exact Lz]. rewrite Iz, Ey. rewrite bil_out_tp. unfold product_entries. assert (F : flat_map (fun '(m1, a) => flat_map (fun '(m2, b) => map (fun c => ((m1 * m2)%nat, c)) (filter (passes None) (ir_mul a b))) []) (irr x) = []). { generalize (irr x) as l0. intros l0. induction l0 as [|[m a] l IH]; [reflexivity|]. exact IH. } rewrite F. reflexivity.
Qed.
(* equivariance under rotations, reflections and the inversion *)
Lemma act_nonzero r p v : orthogonal3 r -> length v = 3%nat -> (exists c, (c < 3)%nat /\ nth c v 0 <> 0) -> exists c, (c < 3)%nat /\ nth c (act (rep_of r) [(1%nat, Irrep 1 p)] v) 0 <> 0.
Proof.
  intros O L (c & Hc & Nc). set (w := act (rep_of r) [(1%nat, Irrep 1 p)] v). assert (Lw : length w = 3%nat) by (unfold w; rewrite act_length by apply as_rep_ok; reflexivity).
  destruct (Req_dec (nth 0 w 0) 0) as [E0|N0]; [|exists 0%nat; split; [lia|exact N0]]. destruct (Req_dec (nth 1 w 0) 0) as [E1|N1]; [|exists 1%nat; split; [lia|exact N1]]. destruct (Req_dec (nth 2 w 0) 0) as [E2|N2]; [|exists 2%nat; split; [lia|exact N2]].
  exfalso. apply Nc. assert (Ew : w = [0; 0; 0]). { destruct (three w Lw) as (a & b & d & Q). rewrite Q in *. cbn [nth] in *. congruence. }
  assert (Ev : v = act (rep_of (mtr r)) [(1%nat, Irrep 1 p)] w). { unfold w. rewrite act_comp by (try apply o3_tr; try exact O; exact L). rewrite (proj2 O). symmetry. apply act_id. exact L. }
  rewrite Ev. pose proof (act_vector (rep_of (mtr r)) p w c (as_rep_ok _) Lw Hc) as Q. unfold fn at 1 in Q. rewrite Q, Ew. apply rsum_zero. intros j Hj. unfold fn. destruct j as [|[|[|j]]]; [cbn; ring..|lia].
Qed.
Theorem C59_equivariant auto n x v degree r z : orthogonal3 r -> coherent x -> coherent v -> nonzero v -> tensor_product_with_sh auto n x v degree = Ok z ->
  agree (transform_by_matrix z r) (let! x' := transform_by_matrix x r in let! v' := transform_by_matrix v r in tensor_product_with_sh auto n x' v' degree).
Proof.
  intros O Cx Cv Nv H. destruct (proj1 (C59_accepts auto n x v degree Cx Cv) (ex_intro _ z H)) as ([p Iv] & [s E] & Nx & [y Hy]). destruct (harmonics_inv auto n v degree p y Cv Iv Hy) as (Iy & Ly & Cy & U & Ry). set (Y := sh_of p degree) in *.
  destruct (tpsh_yields auto n x v degree p s Cx Nx Cv Iv E U) as (z' & Ez & Iz & Lz & Cz & Rz). assert (z' = z) by congruence. subst z'. fold Y in Iz, Rz. pose proof (C52_equivariant auto (OutList (degrees degree)) v true n None r y O Cv Hy) as Q. rewrite !by_matrix in *. set (D := rep_of r) in *. assert (HD : rep_ok D) by apply as_rep_ok.
  destruct (transform_act D x Cx HD) as (x' & -> & Ix' & Lx' & Cx' & Rx'). cbn [bind]. destruct (transform_act D v Cv HD) as (v' & Ev' & Iv' & Lv' & Cv' & Rv'). rewrite Ev' in Q |- *. cbn [bind] in Q |- *.
  destruct Q as (o & t & a & A & B). destruct (transform_act D y Cy HD) as (y1 & Ey1 & Iy1 & Ly1 & Cy1 & Ry1). destruct A as (y1' & Ey1' & A1 & A2 & A3 & A4). assert (y1' = y1) by congruence. subst y1'. destruct B as (y2 & Ey2 & B1 & B2 & B3 & B4).
  destruct (harmonics_inv auto n v' degree p y2 Cv' ltac:(now rewrite Iv') Ey2) as (_ & _ & _ & _ & Ry2). fold Y in Ry2.
  apply (yields_agree _ _ (irr z) (lead z) (fun i => act D (irr z) (arr z i))); [apply transform_act; assumption|]. rewrite Iz, Lz.
  pose proof (tpsh_yields auto n x' v' degree p s Cx' ltac:(now rewrite Ix') Cv' ltac:(now rewrite Iv') ltac:(now rewrite Lx', Lv') U) as T. fold Y in T. rewrite Ix' in T. eapply yields_ext; [|exact T]. intros i Hi. cbv beta. rewrite Rz by exact Hi. destruct (broadcast_valid _ _ _ _ E Hi) as [Hx Hv]. rewrite Lx', Lv'. rewrite Rx' by exact Hx. rewrite Rv' by exact Hv.
  assert (L3 : length (arr v (bidx (lead v) i)) = 3%nat) by (apply vector_length; [exact Cv|exists p; exact Iv|exact Hv]). rewrite Iv. destruct (Nv _ Hv) as (c & Hc & Nc). rewrite (dir_nonzero (arr v (bidx (lead v) i)) c L3 Hc Nc).
  destruct (act_nonzero r p (arr v (bidx (lead v) i)) O L3 (ex_intro _ c (conj Hc Nc))) as (c' & Hc' & Nc'). fold D in Nc'. rewrite (dir_nonzero (act D [(1%nat, Irrep 1 p)] (arr v (bidx (lead v) i))) c' (act_length D [(1%nat, Irrep 1 p)] _ HD) Hc' Nc').
  assert (Sh : sh_row n Y (act D [(1%nat, Irrep 1 p)] (arr v (bidx (lead v) i))) = act D Y (sh_row n Y (arr v (bidx (lead v) i)))).
  { rewrite <- Ry by exact Hv. rewrite <- Iv, <- Rv' by exact Hv. rewrite <- Ry2 by (rewrite Lv'; exact Hv). rewrite <- Iy, <- Ry1 by (rewrite Ly; exact Hv). rewrite A4, B4; [reflexivity|rewrite <- A2, Ly1, Ly; exact Hv|rewrite <- A2, Ly1, Ly; exact Hv]. }
  unfold computed. rewrite Sh. set (ps := tp_paths _ _ _ _). assert (Lx : length (arr x (bidx (lead x) i)) = dim (irr x)) by (apply Cx, Hx).
  rewrite <- (bil_row_act clebsch_gordan D ps (irr x) Y) by (auto using rep_of_intertwines, sh_row_length; try apply tp_paths_ok; apply rep_of_intertwines, O). symmetry. exact (maybe_sort_row_act D true (bil_out ps) (bil_row clebsch_gordan ps (irr x) Y (arr x (bidx (lead x) i)) (sh_row n Y (arr v (bidx (lead v) i)))) HD (bil_row_length _ _ _ _ _ _)).
Qed.
(* only the direction of the vector matters *)
Theorem C59_direction auto n x v v' degree z z' : coherent x -> coherent v -> coherent v' -> lead v' = lead v -> irr v' = irr v -> (forall i, valid (lead v) i -> exists t, 0 < t /\ arr v' i = map (Rmult t) (arr v i)) ->
  tensor_product_with_sh auto n x v degree = Ok z -> tensor_product_with_sh auto n x v' degree = Ok z' -> irr z' = irr z /\ lead z' = lead z /\ forall i, valid (lead z) i -> arr z' i = arr z i.
Proof.
  intros Cx Cv Cv' Lv' Iv' S0 H H'. destruct (proj1 (C59_accepts auto n x v degree Cx Cv) (ex_intro _ z H)) as ([p Iv] & [s E] & Nx & [y Hy]). destruct (harmonics_inv auto n v degree p y Cv Iv Hy) as (_ & _ & _ & U & _).
  destruct (tpsh_yields auto n x v degree p s Cx Nx Cv Iv E U) as (w & Ew & Iw & Lw & _ & Rw). assert (w = z) by congruence. subst w. destruct (tpsh_yields auto n x v' degree p s Cx Nx Cv' ltac:(now rewrite Iv') ltac:(now rewrite Lv') U) as (w & Ew' & Iw' & Lw' & _ & Rw'). assert (w = z') by congruence. subst w.
  split; [congruence|]. split; [congruence|]. rewrite Lw. intros i Hi. rewrite Rw, Rw' by exact Hi. destruct (broadcast_valid _ _ _ _ E Hi) as [_ Hv]. rewrite Lv'. set (u := arr v (bidx (lead v) i)) in *. destruct (S0 _ Hv) as (t & Ht & ->). fold u.
  assert (L3 : length u = 3%nat) by (apply vector_length; [exact Cv|exists p; exact Iv|exact Hv]). unfold computed, sh_row. cbv zeta. f_equal. f_equal. apply rowof_ext. intros k m j Hin. unfold value. f_equal. apply P_ext; [|exact (inside_deg _ _ _ _ Hin)]. intros c Hc. f_equal. clear - L3 Ht.
  destruct (three u L3) as (a & b & d & ->). cbn [map]. unfold dir. assert (Sc : len2 [t * a; t * b; t * d] = t ^ 2 * len2 [a; b; d]) by (unfold len2, lsum; cbn [map fold_right]; ring). rewrite Sc. assert (T2 : t ^ 2 <> 0) by (apply pow_nonzero; lra).
  destruct (Req_EM_T (t ^ 2 * len2 [a; b; d]) 0) as [Z|Z], (Req_EM_T (len2 [a; b; d]) 0) as [Z'|Z']; [reflexivity|exfalso; apply Rmult_integral in Z; tauto|exfalso; apply Z; rewrite Z'; ring|].
  unfold normalized. fold (len2 [t * a; t * b; t * d]). fold (len2 [a; b; d]). rewrite Sc. destruct (Req_EM_T (t ^ 2 * len2 [a; b; d]) 0); [contradiction|]. destruct (Req_EM_T (len2 [a; b; d]) 0); [contradiction|]. pose proof (len2_nonneg [a; b; d]) as P0. rewrite sqrt_mult by (try exact P0; apply pow2_ge_0). rewrite sqrt_pow2 by lra. assert (sqrt (len2 [a; b; d]) <> 0) by (apply Rgt_not_eq, sqrt_lt_R0; lra). cbn [map]. f_equal; [field; lra|f_equal; [field; lra|f_equal; field; lra]].
Qed.
(* ---- where the documented equivalence fails ---- *)
(* an input whose irreps are not sorted, "1o + 0e": the two 1o outputs come in the other order *)
Definition mixed : iarray := IA [(1%nat, Irrep 1 Odd); (1%nat, Irrep 0 Even)] [] (fun _ => [1; 0; 0; 0]) None None.
Definition up : iarray := IA [(1%nat, Irrep 1 Odd)] [] (fun _ => [0; 1; 0]) None None.
Lemma mixed_coherent : coherent mixed. Proof. apply fresh_chunks. reflexivity. Qed.
Lemma up_coherent : coherent up. Proof. apply fresh_chunks. reflexivity. Qed.
Lemma up_nonzero : nonzero up. Proof. intros i _. exists 1%nat. split; [lia|]. cbn. lra. Qed.
Theorem C59_unsorted_refuted n : exists y, harmonics_of None n up 1 = Ok y /\ ~ agree (tensor_product_with_sh None n mixed up 1) (times mixed y).
Proof.
  destruct (harmonics_ok None n up 1 Odd up_coherent eq_refl (or_intror Logic.I)) as [y Hy]. exists y. split; [exact Hy|]. intros (o & t & a & (w & Ew & _ & Lw & _ & Rw) & (z & Ez & _ & Lz & _ & Rz)).
  destruct (harmonics_inv None n up 1 Odd y up_coherent eq_refl Hy) as (Iy & Ly & Cy & U & Ry). set (Y := sh_of Odd 1) in *.
  destruct (tpsh_yields None n mixed up 1 Odd [] mixed_coherent ltac:(discriminate) up_coherent eq_refl eq_refl U) as (w' & Ew' & _ & Lw' & _ & Rw'). assert (w' = w) by congruence. subst w'.
  destruct (tensor_product_yields clebsch_gordan NComponent None true mixed y [] mixed_coherent Cy ltac:(discriminate) ltac:(now rewrite Ly)) as (z' & Ez' & _ & Lz' & _ & Rz'). assert (z' = z) by (unfold times in Ez; congruence). subst z'.
  assert (V0 : valid [] []) by constructor. assert (Et : t = []) by congruence. rewrite Et in *. specialize (Rw [] V0). specialize (Rz [] V0). specialize (Rw' [] V0). specialize (Rz' [] V0). cbv beta in Rw', Rz'.
  assert (F : nth 2 (arr w []) 0 = nth 2 (arr z []) 0) by congruence. rewrite Rw', Rz' in F. clear Rw Rz Rw' Rz' Ew Ew' Ez Ez' Lw Lz Lw' Lz'. rewrite Ly, Iy in F.
  change (bidx (lead mixed) []) with (@nil nat) in F. change (bidx (lead up) []) with (@nil nat) in F. rewrite (Ry [] V0) in F. cbn [mixed up arr irr] in F.
  assert (Ed : dir [0; 1; 0] = [0; 1; 0]) by (apply (dir_nonzero _ 1); [reflexivity|lia|cbn; lra]). rewrite Ed in F. unfold computed, tp_row in F. cbv zeta in F. fold Y in F. set (q := sh_row n Y [0; 1; 0]) in F. assert (Lq : length q = 4%nat) by (unfold q; rewrite sh_row_length; reflexivity).
  assert (Q0 : nth 0 q 0 <> 0).
  { unfold q, sh_row, Y, sh_of, degrees. change (Z.to_nat (1 + 1)) with 2%nat. cbn [seq map]. cbn [rowof fst snd tab ir_dim ir_l concat app]. unfold value, deg. cbn. intros Z. assert (K : kappa n 0 <> 0) by (apply Rgt_not_eq, kappa_pos). apply K. lra. }
  cbn [maybe_regroup maybe_sort_row] in F. unfold Y, sh_of, degrees in F. change (Z.to_nat (1 + 1)) with 2%nat in F. cbn [seq map] in F. change (ppow Odd 0) with Even in F. change (ppow Odd 1) with Odd in F.
  set (x0 := [(1%nat, Irrep 1 Odd); (1%nat, Irrep 0 Even)]) in F. set (y0 := [(1%nat, Irrep 0 Even); (1%nat, Irrep 1 Odd)]) in F.
  destruct q as [|q0 [|q1 [|q2 [|q3 [|]]]]]; try discriminate Lq. cbn [nth] in Q0.
  assert (A : nth 2 (sort_row (bil_out (tp_paths NComponent None x0 y0)) (bil_row clebsch_gordan (tp_paths NComponent None x0 y0) x0 y0 [1; 0; 0; 0] [q0; q1; q2; q3])) 0 = path_val clebsch_gordan x0 y0 [1; 0; 0; 0] [q0; q1; q2; q3] (BP 0 0 (pairs_all 1 1) 1 (Irrep 1 Odd) (sqrt (INR 3))) 0 0) by reflexivity.
  set (x1 := [(1%nat, Irrep 0 Even); (1%nat, Irrep 1 Odd)]).
  assert (B : nth 2 (sort_row (bil_out (tp_paths NComponent None (regroup_irreps x0) (regroup_irreps y0))) (bil_row clebsch_gordan (tp_paths NComponent None (regroup_irreps x0) (regroup_irreps y0)) (regroup_irreps x0) (regroup_irreps y0) (sort_row x0 [1; 0; 0; 0]) (sort_row y0 [q0; q1; q2; q3]))) 0 = path_val clebsch_gordan x1 y0 [0; 1; 0; 0] [q0; q1; q2; q3] (BP 0 1 (pairs_all 1 1) 1 (Irrep 1 Odd) (sqrt (INR 3))) 0 0) by reflexivity.
  rewrite A, B in F. unfold path_val in F. cbn [b_in1 b_in2 b_pairs b_out b_alpha nth pairs_all seq flat_map map app snd x0 y0 x1] in F. change (ir_dim (Irrep 1 Odd)) with 3%nat in F. change (ir_dim (Irrep 0 Even)) with 1%nat in F. cbn [rsum ir_l] in F.
  change (entry x0 [1; 0; 0; 0] 0 0 0) with 1 in F. change (entry x0 [1; 0; 0; 0] 0 0 1) with 0 in F. change (entry x0 [1; 0; 0; 0] 0 0 2) with 0 in F. change (entry y0 [q0; q1; q2; q3] 0 0 0) with q0 in F. change (entry x1 [0; 1; 0; 0] 0 0 0) with 0 in F.
  pose proof (cg_scalar_right 1 0 0 ltac:(lia) ltac:(lia)) as C1. cbn [Nat.eqb] in C1. assert (S3 : sqrt (INR 3) <> 0) by (apply Rgt_not_eq, sqrt_lt_R0, lt_0_INR; lia).
  assert (G : sh_cg 1 0 1 0 0 0 * q0 = 0) by (apply (Rmult_eq_reg_l (sqrt (INR 3))); [lra|exact S3]). rewrite C1 in G. apply Q0. apply Rmult_integral in G. destruct G as [G|G]; [|exact G]. exfalso. revert G. apply Rinv_neq_0_compat. exact S3.
Qed.
(* a zero vector: the harmonics of degree 1 of the documented product vanish, those of (0, 0, 1) do not *)
Definition scalar : iarray := IA [(1%nat, Irrep 0 Even)] [] (fun _ => [1]) None None.
Definition nowhere : iarray := IA [(1%nat, Irrep 1 Odd)] [] (fun _ => [0; 0; 0]) None None.
Lemma scalar_coherent : coherent scalar. Proof. apply fresh_chunks. reflexivity. Qed.
Lemma nowhere_coherent : coherent nowhere. Proof. apply fresh_chunks. reflexivity. Qed.
Theorem C59_zero_refuted n : exists y, harmonics_of None n nowhere 1 = Ok y /\ ~ agree (tensor_product_with_sh None n scalar nowhere 1) (times scalar y).
Proof.
  destruct (harmonics_ok None n nowhere 1 Odd nowhere_coherent eq_refl (or_intror Logic.I)) as [y Hy]. exists y. split; [exact Hy|]. intros (o & t & a & (w & Ew & _ & Lw & _ & Rw) & (z & Ez & _ & Lz & _ & Rz)).
  destruct (harmonics_inv None n nowhere 1 Odd y nowhere_coherent eq_refl Hy) as (Iy & Ly & Cy & U & Ry). set (Y := sh_of Odd 1) in *.
  destruct (tpsh_yields None n scalar nowhere 1 Odd [] scalar_coherent ltac:(discriminate) nowhere_coherent eq_refl eq_refl U) as (w' & Ew' & _ & Lw' & _ & Rw'). assert (w' = w) by congruence. subst w'.
  destruct (tensor_product_yields clebsch_gordan NComponent None true scalar y [] scalar_coherent Cy ltac:(discriminate) ltac:(now rewrite Ly)) as (z' & Ez' & _ & Lz' & _ & Rz'). assert (z' = z) by (unfold times in Ez; congruence). subst z'.
  assert (V0 : valid [] []) by constructor. assert (Et : t = []) by congruence. rewrite Et in *. specialize (Rw [] V0). specialize (Rz [] V0). specialize (Rw' [] V0). specialize (Rz' [] V0). cbv beta in Rw', Rz'.
  assert (F : nth 3 (arr w []) 0 = nth 3 (arr z []) 0) by congruence. rewrite Rw', Rz' in F. clear Rw Rz Rw' Rz' Ew Ew' Ez Ez' Lw Lz Lw' Lz'. rewrite Ly, Iy in F.
  change (bidx (lead scalar) []) with (@nil nat) in F. change (bidx (lead nowhere) []) with (@nil nat) in F. rewrite (Ry [] V0) in F. cbn [scalar nowhere arr irr] in F.
  assert (Ed : dir [0; 0; 0] = [0; 0; 1]). { unfold dir. destruct (Req_EM_T (len2 [0; 0; 0]) 0) as [_|N]; [reflexivity|]. exfalso. apply N. unfold len2, lsum. cbn [map fold_right]. ring. }
  rewrite Ed in F. unfold computed, tp_row in F. cbv zeta in F. fold Y in F. set (q := sh_row n Y [0; 0; 1]) in F. set (q' := sh_row n Y [0; 0; 0]) in F. assert (Lq : length q = 4%nat) by (unfold q; rewrite sh_row_length; reflexivity). assert (Lq' : length q' = 4%nat) by (unfold q'; rewrite sh_row_length; reflexivity).
  assert (Q3 : nth 3 q 0 = kappa n 1 * P 1 (fn (normalized [0; 0; 1])) 2) by reflexivity. assert (Q3' : nth 3 q' 0 = kappa n 1 * P 1 (fn (normalized [0; 0; 0])) 2) by reflexivity. clearbody q q'.
  destruct q as [|q0 [|q1 [|q2 [|q3 [|]]]]]; try discriminate Lq. destruct q' as [|r0 [|r1 [|r2 [|r3 [|]]]]]; try discriminate Lq'. cbn [nth] in Q3, Q3'.
  unfold Y, sh_of, degrees in F. change (Z.to_nat (1 + 1)) with 2%nat in F. cbn [seq map] in F. change (ppow Odd 0) with Even in F. change (ppow Odd 1) with Odd in F. cbn [maybe_regroup maybe_sort_row] in F.
  set (x0 := [(1%nat, Irrep 0 Even)]) in F. set (y0 := [(1%nat, Irrep 0 Even); (1%nat, Irrep 1 Odd)]) in F.
  assert (A : forall a b c d, nth 3 (sort_row (bil_out (tp_paths NComponent None x0 y0)) (bil_row clebsch_gordan (tp_paths NComponent None x0 y0) x0 y0 [1] [a; b; c; d])) 0 = path_val clebsch_gordan x0 y0 [1] [a; b; c; d] (BP 0 1 (pairs_all 1 1) 1 (Irrep 1 Odd) (sqrt (INR 3))) 0 2) by reflexivity.
  assert (B : forall a b c d, nth 3 (sort_row (bil_out (tp_paths NComponent None (regroup_irreps x0) (regroup_irreps y0))) (bil_row clebsch_gordan (tp_paths NComponent None (regroup_irreps x0) (regroup_irreps y0)) (regroup_irreps x0) (regroup_irreps y0) (sort_row x0 [1]) (sort_row y0 [a; b; c; d]))) 0 = path_val clebsch_gordan x0 y0 [1] [a; b; c; d] (BP 0 1 (pairs_all 1 1) 1 (Irrep 1 Odd) (sqrt (INR 3))) 0 2) by reflexivity.
  assert (G : forall a b c d, path_val clebsch_gordan x0 y0 [1] [a; b; c; d] (BP 0 1 (pairs_all 1 1) 1 (Irrep 1 Odd) (sqrt (INR 3))) 0 2 = d).
  { intros a0 b0 c0 d1. unfold path_val. cbn [b_in1 b_in2 b_pairs b_out b_alpha nth pairs_all seq flat_map map app snd x0 y0]. change (ir_dim (Irrep 1 Odd)) with 3%nat. change (ir_dim (Irrep 0 Even)) with 1%nat. cbn [rsum ir_l]. rewrite !cg_scalar_left by lia. cbn [Nat.eqb]. change (INR (2 * 1 + 1)) with (INR 3).
    change (entry x0 [1] 0 0 0) with 1. change (entry y0 [a0; b0; c0; d1] 1 0 2) with d1. assert (S3 : sqrt (INR 3) <> 0) by (apply Rgt_not_eq, sqrt_lt_R0, lt_0_INR; lia). field. exact S3. }
  rewrite A, B, !G, Q3, Q3', !P_1 in F. assert (K : kappa n 1 <> 0) by (apply Rgt_not_eq, kappa_pos). apply Rmult_eq_reg_l in F; [|exact K]. unfold fn, normalized in F.
  destruct (Req_EM_T (lsum [0; 0; 1] (fun t => t ^ 2)) 0) as [N|N] in F; [unfold lsum in N; cbn [map fold_right] in N; lra|]. cbn [map nth] in F. unfold Rdiv in F. rewrite Rmult_0_l, Rmult_1_l in F. revert F. apply Rinv_neq_0_compat, Rgt_not_eq, sqrt_lt_R0. unfold lsum. cbn [map fold_right]. lra.
Qed.

(* the hypotheses of C59_documented are met: a batch of two inputs "0e + 1o" against one vector *)
Definition pair : iarray := IA [(1%nat, Irrep 0 Even); (1%nat, Irrep 1 Odd)] [2%nat] (fun i => [INR (nth 0 i 0%nat); 1; 2; 3]) None None.
Example C59_nonvacuous : coherent pair /\ coherent up /\ is_vector up /\ nonzero up /\ irr pair <> [] /\ regroup_irreps (irr pair) = irr pair /\ broadcast_shapes (lead pair) (lead up) = Ok [2%nat] /\ exists y, harmonics_of None Component up 3 = Ok y.
Proof.
  split; [apply fresh_chunks; reflexivity|]. split; [apply up_coherent|]. split; [exists Odd; reflexivity|]. split; [apply up_nonzero|]. split; [discriminate|]. split; [reflexivity|]. split; [reflexivity|].
  apply (harmonics_ok None Component up 3 Odd up_coherent eq_refl). right. exact Logic.I.
Qed.
