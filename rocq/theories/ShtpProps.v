(* C66: shtp(input, direction, filter_irreps_out) of experimental/linear_shtp.py.
   Vocabulary: ArrayProps.v ([yields]/[agree] say what a call returns, [coherent] is the invariant of IrrepsArray), TpshProps.v ([is_vector]: irreps "1o" or "1e"). *)
From Coq Require Import Reals ZArith Arith Lia Lra Bool List.
From Verif Require Import PyBase IrrepsModel IrrepsProofs IrrepsProofs2 ArrayModel ArrayProofs ArrayOps RechunkProofs LeadModel LeadProofs ArithProofs SumR CGModel CGProofs10 ActProofs EquivProofs EquivProofs2 EntryProofs TPModel TPProofs TPProofs2 TPProofs3 StableSort GradProofs.
From Verif Require Import RotationModel RotationProofs RotationProofs2 RotationProps WignerModel WignerProofs WignerProofs2 WignerProps WignerProps2 S2Model S2Proofs2 SHModel SHProofs SHProofs2 SHProps SHProps2 SHProps3 TpshCG TpshModel TpshProofs TpshProofs2 TpshProofs3 TpshProps.
From Verif Require Import ShtpModel ShtpProofs ShtpProofs2 ShtpProofs3 ShtpProofs4 ShtpProofs5 ShtpProofs6.
Import ListNotations.
Open Scope R_scope.

(* ---- specification ---- *)
(* a channel keeps the order m of the components: the symmetric one takes m = c to m = c and m = -c to m = -c;
   the antisymmetric one takes m = c + 1 to m = -(c + 1) and m = -(c + 1) to minus m = c + 1.  y is a vector of degree la, k a component of the result of degree lb *)
Definition channel (sym : bool) (la lb c : nat) (y : nat -> R) (k : nat) : R :=
  if sym then if (k =? lb + c)%nat then y (la + c)%nat else if (k + c =? lb)%nat then y (la - c)%nat else 0
  else if (k + (c + 1) =? lb)%nat then y (la + (c + 1))%nat else if (k =? lb + (c + 1))%nat then - y (la - (c + 1))%nat else 0.
(* the symmetric channels exist when p ** (la + lb) is the product of the parities, the antisymmetric ones when p ** (la + lb + 1) is *)
Definition sign_of (p : parity) : R := match p with Even => 1 | Odd => -1 end.
Definition allowed (sym : bool) (p : parity) (a b : irrep) : bool :=
  Reqb (sign_of p ^ (ir_l a + ir_l b + if sym then 0 else 1)) (sign_of (ir_p a) * sign_of (ir_p b)).
Definition channels (sym : bool) (a b : irrep) : nat := if sym then (Nat.min (ir_l a) (ir_l b) + 1)%nat else Nat.min (ir_l a) (ir_l b).
(* the copies computed from one entry of the input (its number k, multiplicity, irrep a) for a direction at the pole: for each copy of the input, each channel *)
Definition kind (x : irreps) (row : list R) (b a : irrep) (k mul : nat) (sym : bool) : mulirrep * list R :=
  let n := channels sym a b in
  ((mul * n, b)%nat, flat_map (fun u => flat_map (fun c => tab (ir_dim b) (channel sym (ir_l a) (ir_l b) c (entry x row k u))) (seq 0 n)) (seq 0 mul)).
(* the requested irreps in order and without duplicates; for each, the entries of the input; for each, the kinds that parity allows and that have a channel *)
Definition blocks_at_pole (p : parity) (irs : list irrep) (x : irreps) (row : list R) : list (mulirrep * list R) :=
  flat_map (fun b => flat_map (fun '(k, (mul, a)) => map (kind x row b a k mul) (filter (fun sym => allowed sym p a b && (0 <? channels sym a b)%nat) [true; false])) (enumerate x)) irs.
Definition at_pole (p : parity) (irs : list irrep) (x : iarray) : iarray :=
  IA (map fst (blocks_at_pole p irs (irr x) (arr x []))) [] (fun _ => flat_map snd (blocks_at_pole p irs (irr x) (arr x []))) None None.
Definition one_row (x : iarray) : Prop := lead x = [].

(* ---- lemmas ---- *)
Lemma reqb_iff u v : Reqb u v = true <-> u = v.
Proof. unfold Reqb. destruct (Req_EM_T u v); split; congruence. Qed.
Lemma sign_pR p : sign_of p = pR p. Proof. destruct p; reflexivity. Qed.
Lemma channels_nchan sym a b : channels sym a b = nchan sym (ir_l a) (ir_l b).
Proof. unfold channels, nchan. destruct sym; lia. Qed.
Lemma allowed_has sym p a b : allowed sym p a b && (0 <? channels sym a b)%nat = has_part sym p a b.
Proof.
  apply eq_true_iff_eq. rewrite has_part_iff, andb_true_iff, Nat.ltb_lt, channels_nchan. unfold allowed. rewrite reqb_iff, !sign_pR. rewrite pow_add. destruct sym; cbn [pow]; rewrite ?Rmult_1_r; tauto.
Qed.
Lemma channel_band sym a b c y k : (c < channels sym a b)%nat -> (k < ir_dim b)%nat -> channel sym (ir_l a) (ir_l b) c y k = rsum (ir_dim a) (fun i => band sym (ir_l a) (ir_l b) c k i * y i).
Proof.
  intros Hc Hk. rewrite channels_nchan in Hc. unfold ir_dim in *. rewrite band_sum_r by assumption. unfold channel. replace (c + 1)%nat with (S c) by lia. reflexivity.
Qed.
Lemma rowof_map_in {A} (d : A) (f : A -> mulirrep) (g : A -> nat -> nat -> R) l : rowof (map f l) (fun q w k => g (nth q l d) w k) = flat_map (fun s => concat (tab2 (fst (f s)) (ir_dim (snd (f s))) (g s))) l.
Proof. induction l as [|s l IH]; [reflexivity|]. cbn [map rowof flat_map nth]. f_equal. exact IH. Qed.
Lemma flat_map_seq_S {A} (f : nat -> list A) n : flat_map f (seq 0 (S n)) = flat_map f (seq 0 n) ++ f n.
Proof. rewrite seq_S, flat_map_app. cbn [flat_map Nat.add]. now rewrite app_nil_r. Qed.
Lemma copies_channels {A} n mul (g : nat -> nat -> list A) : (0 < n)%nat -> flat_map (fun u => flat_map (g u) (seq 0 n)) (seq 0 mul) = flat_map (fun w => g (w / n)%nat (w mod n)%nat) (seq 0 (mul * n)).
Proof.
  intros Hn. induction mul as [|mul IH]; [reflexivity|]. rewrite flat_map_seq_S, IH. cbn [Nat.mul]. rewrite Nat.add_comm, seq_app, flat_map_app. f_equal. cbn [Nat.add].
  assert (G : forall k, (k <= n)%nat -> flat_map (g mul) (seq 0 k) = flat_map (fun w => g (w / n)%nat (w mod n)%nat) (seq (mul * n) k)); [|apply G; lia].
  induction k as [|k IHk]; intros Hk; [reflexivity|]. rewrite !seq_S, !flat_map_app, IHk by lia. f_equal. cbn [flat_map Nat.add]. replace ((mul * n + k) / n)%nat with mul by (rewrite Nat.add_comm, Nat.div_add by lia; rewrite Nat.div_small by lia; lia). replace ((mul * n + k) mod n)%nat with k by (rewrite Nat.add_comm, Nat.mod_add by lia; now rewrite Nat.mod_small by lia). reflexivity.
Qed.
Lemma blocks_at_pole_ok p irs x row : map fst (blocks_at_pole p irs x row) = shtp_out (shtp_paths p irs x) /\ flat_map snd (blocks_at_pole p irs x row) = shtp_row (shtp_paths p irs x) x row.
Proof.
  set (h := fun s : spath => kind x row (s_out s) (s_ir s) (s_in s) (s_mul s) (s_sym s)).
  assert (E : blocks_at_pole p irs x row = map h (shtp_paths p irs x)).
  { unfold blocks_at_pole, shtp_paths. rewrite map_flat_map. apply flat_map_ext. intros b. rewrite map_flat_map. apply flat_map_ext. intros [k [mul a]]. rewrite map_map. rewrite (filter_ext (fun sym => allowed sym p a b && (0 <? channels sym a b)%nat) (fun sym => has_part sym p a b)) by (intros sym; apply allowed_has). reflexivity. }
  rewrite E. split.
  - rewrite map_map. unfold shtp_out. apply map_ext. intros s. unfold h, kind. cbv zeta. cbn [fst]. now rewrite channels_nchan.
  - unfold shtp_row, shtp_out. rewrite (rowof_map_in no_path (fun s => ((s_mul s * s_n s)%nat, s_out s)) (fun s => s_val x row s)). pose proof (shtp_paths_ok p irs x) as F. revert F. generalize (shtp_paths p irs x) as ps. induction ps as [|s ps IH]; intros F; [reflexivity|]. inversion F as [|? ? H1 H2]; subst. cbn [map flat_map]. rewrite IH by exact H2. f_equal. clear IH F H2 ps E.
    pose proof (s_n_pos _ _ _ H1) as Pn. unfold h, kind. cbv zeta. cbn [fst snd]. rewrite channels_nchan. fold (s_n s). rewrite (copies_channels (s_n s) (s_mul s) (fun u c => tab (ir_dim (s_out s)) (channel (s_sym s) (ir_l (s_ir s)) (ir_l (s_out s)) c (entry x row (s_in s) u)))) by exact Pn.
    rewrite flat_map_concat_map. f_equal. unfold tab2, tab at 1. apply map_ext. intros w. apply tab_ext. intros k Hk. apply channel_band; [|exact Hk]. rewrite channels_nchan. apply Nat.mod_upper_bound. unfold s_n in Pn. lia.
Qed.
Lemma at_pole_coherent p irs x : coherent (at_pole p irs x).
Proof.
  destruct (blocks_at_pole_ok p irs (irr x) (arr x [])) as [E1 E2]. split; [|split; [apply flags_false|exact Logic.I]]. intros i _. cbn [at_pole arr irr]. rewrite E1, E2. apply shtp_row_length.
Qed.
Lemma vector_row v p : coherent v -> lead v = [] -> irr v = [(1%nat, Irrep 1 p)] -> length (arr v []) = 3%nat.
Proof. intros C L E. rewrite (proj1 C []) by (rewrite L; constructor). rewrite E. reflexivity. Qed.
Lemma nonzero_len2 v : length v = 3%nat -> (exists c, (c < 3)%nat /\ nth c v 0 <> 0) -> len2 v <> 0.
Proof. intros L (c & Hc & N) Z. apply N. rewrite (len2_zero v L Z). destruct c as [|[|[|c]]]; [reflexivity..|lia]. Qed.

(* ---- theorems ---- *)
(* when it succeeds *)
Theorem C66_accepts x v f : coherent x -> coherent v ->
  (exists z, shtp x v f = Ok z) <-> one_row x /\ one_row v /\ is_vector v /\ irr x <> [] /\ requested f <> [].
Proof.
  intros Cx Cv. unfold one_row, is_vector. split.
  - intros [z H]. destruct (shtp_inv x v f z Cx Cv H) as (A & B & D & E & F). rewrite sorted_irs_nil in F. auto.
  - intros (A & B & (p & D) & E & F). rewrite <- sorted_irs_nil in F. destruct (shtp_makes x v f p Cx A E Cv B D F) as (g & _ & _ & z & H & _). eauto.
Qed.
Lemma shtp_value x v f p z : coherent x -> coherent v -> irr v = [(1%nat, Irrep 1 p)] -> shtp x v f = Ok z -> let ps := shtp_paths p (sorted_irs (requested f)) (irr x) in
  irr z = regroup_irreps (shtp_out ps) /\ lead z = [] /\ coherent z /\ exists g, rotation g /\ mapply g pole_vec = row_vec (normalized (dir (arr v []))) /\ arr z [] = sort_row (shtp_out ps) (along ps (irr x) (arr x []) g).
Proof.
  intros Cx Cv Iv H ps. destruct (shtp_inv x v f z Cx Cv H) as (A & B & _ & E & F). destruct (shtp_makes x v f p Cx A E Cv B Iv F) as (g & Rg & Eg & z' & H' & I' & L' & C' & _ & V'). assert (z' = z) by congruence. subst z'. split; [exact I'|]. split; [exact L'|]. split; [exact C'|]. exists g. split; [exact Rg|]. split; [exact Eg|]. apply V'. constructor.
Qed.
Lemma enum_flat {A B} (G : A -> list B) (y : list A) o : flat_map (fun '(_, e) => G e) (combine (seq o (length y)) y) = flat_map G y.
Proof. revert o. induction y as [|e y IH]; intros o; [reflexivity|]. cbn [length seq combine flat_map]. f_equal. apply IH. Qed.
(* the output irreps: sorted, without duplicates, and each requested irrep once per entry of the input, copy and channel *)
Theorem C66_irreps x v f p z : coherent x -> coherent v -> irr v = [(1%nat, Irrep 1 p)] -> shtp x v f = Ok z ->
  regroup_irreps (irr z) = irr z /\ irr z = regroup_irreps (flat_map (fun b => flat_map (fun '(mul, a) => map (fun sym => ((mul * channels sym a b)%nat, b)) (filter (fun sym => allowed sym p a b && (0 <? channels sym a b)%nat) [true; false])) (irr x)) (sorted_irs (requested f))) /\ lead z = [].
Proof.
  intros Cx Cv Iv H. destruct (shtp_value x v f p z Cx Cv Iv H) as (I0 & L0 & _). split; [|split; [|exact L0]].
  - rewrite I0. apply regroup_iff. intros ir. apply regroup_count.
  - rewrite I0. f_equal. unfold shtp_out. clear. generalize (irr x) as y, (sorted_irs (requested f)) as irs. intros y irs. unfold shtp_paths. rewrite map_flat_map. apply flat_map_ext. intros b. rewrite map_flat_map.
    rewrite <- (enum_flat (fun '(mul, a) => map (fun sym => ((mul * channels sym a b)%nat, b)) (filter (fun sym => allowed sym p a b && (0 <? channels sym a b)%nat) [true; false])) y 0).
    apply flat_map_ext. intros [k [mul a]]. rewrite map_map. rewrite (filter_ext (fun sym => allowed sym p a b && (0 <? channels sym a b)%nat) (fun sym => has_part sym p a b)) by (intros sym; apply allowed_has). apply map_ext. intros sym. unfold s_n. cbn [s_mul s_sym s_ir s_out]. now rewrite channels_nchan.
Qed.
(* equivariance under rotations, reflections and the inversion *)
Theorem C66_equivariant r x v f z : orthogonal3 r -> coherent x -> coherent v -> nonzero v -> shtp x v f = Ok z ->
  agree (transform_by_matrix z r) (let! x' := transform_by_matrix x r in let! v' := transform_by_matrix v r in shtp x' v' f).
Proof.
  intros O Cx Cv Nv H. destruct (shtp_inv x v f z Cx Cv H) as (Lx & Lv & (p & Iv) & Nx & Nf). destruct (shtp_value x v f p z Cx Cv Iv H) as (Iz & Lz & Cz & g & Rg & Eg & Az). set (ps := shtp_paths p (sorted_irs (requested f)) (irr x)) in *.
  pose proof (vector_row v p Cv Lv Iv) as L3. assert (Vn : len2 (arr v []) <> 0) by (apply nonzero_len2; [exact L3|apply Nv; rewrite Lv; constructor]).
  rewrite !by_matrix. set (D := rep_of r) in *. assert (HD : rep_ok D) by apply as_rep_ok.
  destruct (transform_act D x Cx HD) as (x' & -> & Ix' & Lx' & Cx' & Rx'). cbn [bind]. destruct (transform_act D v Cv HD) as (v' & -> & Iv' & Lv' & Cv' & Rv'). cbn [bind]. rewrite Lx in Lx', Rx'. rewrite Lv in Lv', Rv'. assert (V0 : valid (@nil nat) []) by constructor. specialize (Rx' [] V0). specialize (Rv' [] V0). rewrite Iv in Iv', Rv'.
  destruct (shtp_makes x' v' f p Cx' Lx' ltac:(now rewrite Ix') Cv' Lv' Iv' Nf) as (g' & Rg' & Eg' & w & Ew & Iw & Lw & Cw & _ & Rw). rewrite Ix' in Iw, Rw. fold ps in Iw, Rw.
  apply (yields_agree _ _ (irr z) (lead z) (fun i => act D (irr z) (arr z i))); [apply transform_act; assumption|]. rewrite Lz. exists w. split; [exact Ew|]. split; [now rewrite Iw, Iz|]. split; [exact Lw|]. split; [exact Cw|]. intros i Hi. inversion Hi; subst i. rewrite (Rw [] V0), Iz, Az, Rx'.
  assert (L : length (arr x []) = dim (irr x)) by (apply Cx; rewrite Lx; constructor).
  subst D. rewrite (along_move p ps (irr x) (arr x []) g g' r); [|apply shtp_paths_ok|exact L|exact Rg|exact Rg'|exact O|].
  - symmetry. apply (maybe_sort_row_act (rep_of r) true (shtp_out ps)); [exact HD|]. unfold along. apply act_length, as_rep_ok.
  - rewrite Eg', Eg, Rv'. now apply dir_act.
Qed.
(* only the direction of the vector matters; a zero vector is read as (0, 0, 1) *)
Theorem C66_direction x v v' f z z' t : coherent x -> coherent v -> coherent v' -> irr v' = irr v -> 0 < t -> arr v' [] = map (Rmult t) (arr v []) -> shtp x v f = Ok z -> shtp x v' f = Ok z' ->
  irr z' = irr z /\ lead z' = lead z /\ arr z' [] = arr z [].
Proof.
  intros Cx Cv Cv' Iv' Ht Ev' H H'. destruct (shtp_inv x v f z Cx Cv H) as (Lx & Lv & (p & Iv) & _). destruct (shtp_value x v f p z Cx Cv Iv H) as (Iz & Lz & Cz & g & Rg & Eg & Az). rewrite Iv in Iv'. destruct (shtp_value x v' f p z' Cx Cv' Iv' H') as (Iz' & Lz' & Cz' & g' & Rg' & Eg' & Az').
  set (ps := shtp_paths p (sorted_irs (requested f)) (irr x)) in *. split; [congruence|]. split; [congruence|]. rewrite Az, Az'. f_equal. assert (L : length (arr x []) = dim (irr x)) by (apply Cx; rewrite Lx; constructor).
  apply (along_unique p); [apply shtp_paths_ok|exact L|exact Rg|exact Rg'|]. rewrite Eg', Eg, Ev'. pose proof (vector_row v p Cv Lv Iv) as L3. set (u := arr v []) in *. unfold dir. rewrite len2_map. assert (T2 : t ^ 2 <> 0) by (apply pow_nonzero; lra).
  destruct (Req_EM_T (t ^ 2 * len2 u) 0) as [Z|Z], (Req_EM_T (len2 u) 0) as [Z'|Z']; [reflexivity|exfalso; apply Rmult_integral in Z; tauto|exfalso; apply Z; rewrite Z'; ring|].
  rewrite !normalized_vec by (rewrite ?map_length, ?len2_map; assumption). rewrite len2_map. pose proof (len2_nonneg u) as P0. rewrite sqrt_mult by (try exact P0; apply pow2_ge_0). rewrite sqrt_pow2 by lra. assert (sqrt (len2 u) <> 0) by (apply Rgt_not_eq, sqrt_lt_R0; lra).
  destruct (three u L3) as (a & b & c & Eu). rewrite Eu. unfold vmul, row_vec. cbn [map nth vx vy vz]. rewrite <- Eu. apply vec_eq; cbn [vx vy vz]; field; lra.
Qed.
Theorem C66_zero x v v' f z z' : coherent x -> coherent v -> coherent v' -> irr v' = irr v -> arr v [] = [0; 0; 0] -> arr v' [] = [0; 0; 1] -> shtp x v f = Ok z -> shtp x v' f = Ok z' ->
  irr z' = irr z /\ lead z' = lead z /\ arr z' [] = arr z [].
Proof.
  intros Cx Cv Cv' Iv' Ev Ev' H H'. destruct (shtp_inv x v f z Cx Cv H) as (Lx & Lv & (p & Iv) & _). destruct (shtp_value x v f p z Cx Cv Iv H) as (Iz & Lz & Cz & g & Rg & Eg & Az). rewrite Iv in Iv'. destruct (shtp_value x v' f p z' Cx Cv' Iv' H') as (Iz' & Lz' & Cz' & g' & Rg' & Eg' & Az').
  set (ps := shtp_paths p (sorted_irs (requested f)) (irr x)) in *. split; [congruence|]. split; [congruence|]. rewrite Az, Az'. f_equal. assert (L : length (arr x []) = dim (irr x)) by (apply Cx; rewrite Lx; constructor).
  apply (along_unique p); [apply shtp_paths_ok|exact L|exact Rg|exact Rg'|]. rewrite Eg', Eg, Ev, Ev'. unfold dir. destruct (Req_EM_T (len2 [0; 0; 0]) 0) as [_|N]; [|exfalso; apply N; unfold len2, lsum; cbn [map fold_right]; ring]. destruct (Req_EM_T (len2 [0; 0; 1]) 0) as [_|_]; reflexivity.
Qed.
Lemma pole_value x v f p z t : coherent x -> coherent v -> irr v = [(1%nat, Irrep 1 p)] -> 0 < t -> arr v [] = [0; t; 0] -> shtp x v f = Ok z -> let ps := shtp_paths p (sorted_irs (requested f)) (irr x) in
  irr z = regroup_irreps (shtp_out ps) /\ lead z = [] /\ coherent z /\ arr z [] = sort_row (shtp_out ps) (shtp_row ps (irr x) (arr x [])).
Proof.
  intros Cx Cv Iv Ht Ev H ps. destruct (shtp_inv x v f z Cx Cv H) as (Lx & Lv & _). destruct (shtp_value x v f p z Cx Cv Iv H) as (Iz & Lz & Cz & g & Rg & Eg & Az). fold ps in Iz, Az.
  assert (L : length (arr x []) = dim (irr x)) by (apply Cx; rewrite Lx; constructor).
  assert (Eg1 : mapply g pole_vec = mapply mone pole_vec).
  { rewrite Eg, Ev. assert (E2 : len2 [0; t; 0] = t ^ 2) by (unfold len2, lsum; cbn [map fold_right]; ring). assert (T2 : t ^ 2 <> 0) by (apply pow_nonzero; lra). unfold dir. rewrite E2. destruct (Req_EM_T (t ^ 2) 0); [contradiction|]. rewrite normalized_vec by (rewrite ?E2; auto). rewrite E2, sqrt_pow2 by lra. unfold pole_vec, row_vec, vmul. cbn [nth vx vy vz]. apply vec_eq; cbn; field; lra. }
  rewrite (along_unique p ps (irr x) (arr x []) mone g) in Az; [|apply shtp_paths_ok|exact L|apply rotation_one|exact Rg|exact Eg1]. rewrite along_one in Az by exact L. auto.
Qed.
(* the values for a direction along the pole; with C66_equivariant they determine every value *)
Theorem C66_pole x v f p z t : coherent x -> coherent v -> irr v = [(1%nat, Irrep 1 p)] -> 0 < t -> arr v [] = [0; t; 0] -> shtp x v f = Ok z ->
  agree (Ok z) (ia_regroup (at_pole p (sorted_irs (requested f)) x)).
Proof.
  intros Cx Cv Iv Ht Ev H. destruct (pole_value x v f p z t Cx Cv Iv Ht Ev H) as (Iz & Lz & Cz & Az). set (ps := shtp_paths p (sorted_irs (requested f)) (irr x)) in *.
  destruct (blocks_at_pole_ok p (sorted_irs (requested f)) (irr x) (arr x [])) as [E1 E2]. fold ps in E1, E2. pose proof (ia_regroup_yields (at_pole p (sorted_irs (requested f)) x) (at_pole_coherent _ _ _)) as Y. cbn [at_pole irr lead arr] in Y. rewrite E1, E2 in Y.
  eapply yields_agree; [|exact Y]. exists z. split; [reflexivity|]. split; [exact Iz|]. split; [exact Lz|]. split; [exact Cz|]. intros i Hi. inversion Hi; subst i. exact Az.
Qed.

(* ---- a concrete case ---- *)
Definition mixed : iarray := IA [(1%nat, Irrep 0 Even); (1%nat, Irrep 1 Odd)] [] (fun _ => [1; 1; 2; 3]) None None.
Definition wanted : filter_arg := FList [Irrep 1 Odd; Irrep 0 Even; Irrep 1 Odd].
Lemma mixed_coherent : coherent mixed. Proof. apply fresh_chunks. reflexivity. Qed.
Example C66_nonvacuous : exists z, shtp mixed up wanted = Ok z /\ irr z = [(2%nat, Irrep 0 Even); (3%nat, Irrep 1 Odd)] /\ arr z [] = [1; 2; 0; 1; 0; 0; 2; 0; 1; 0; 3] /\ orthogonal3 half_x /\
  agree (transform_by_matrix z half_x) (let! x' := transform_by_matrix mixed half_x in let! v' := transform_by_matrix up half_x in shtp x' v' wanted).
Proof.
  destruct (proj2 (C66_accepts mixed up wanted mixed_coherent up_coherent)) as [z H].
  { split; [reflexivity|]. split; [reflexivity|]. split; [exists Odd; reflexivity|]. split; discriminate. }
  exists z. split; [exact H|].
  destruct (pole_value _ _ _ Odd _ 1 mixed_coherent up_coherent eq_refl ltac:(lra) eq_refl H) as (Iz & _ & _ & Az).
  split; [rewrite Iz; reflexivity|]. split; [|split; [apply o3_rotation, half_x_rotation|apply C66_equivariant; auto using mixed_coherent, up_coherent, up_nonzero; apply o3_rotation, half_x_rotation]].
  rewrite Az. lazy -[Rmult Rplus Ropp IZR].
  repeat (apply f_equal2; [ring|]). reflexivity.
Qed.
