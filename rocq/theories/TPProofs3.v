(* Tensor products: filtering, bilinearity, output irreps, dimension of the square. *)
From Coq Require Import Reals Lra Permutation Sorted.
From Verif Require Import PyBase PermModel PermProofs IrrepsModel IrrepsProofs IrrepsProofs2 ArrayModel ArrayProofs ArrayOps RechunkProofs ArithProofs BlockProofs LeadModel LeadProofs StackProofs BilinProofs ActProofs EquivProofs EquivProofs2 SumR EntryProofs TPModel LinearProofs TPProofs StableSort TPProofs2.
Open Scope nat_scope.

(* ---------- sorting is linear ---------- *)
Lemma zipR_firstn f a b n : firstn n (zipR f a b) = zipR f (firstn n a) (firstn n b).
Proof. unfold zipR. rewrite firstn_map, combine_firstn. reflexivity. Qed.
Lemma zipR_skipn f a b n : length a = length b -> skipn n (zipR f a b) = zipR f (skipn n a) (skipn n b).
Proof.
  revert a b. induction n as [|n IH]; intros [|u a] [|v b] L; try discriminate; try reflexivity. rewrite zipR_cons. cbn [skipn]. apply IH. cbn in L. lia.
Qed.
Lemma lin_firstn r a b n : firstn n (lin r a b) = lin r (firstn n a) (firstn n b).
Proof. unfold lin. rewrite zipR_firstn, firstn_map. reflexivity. Qed.
Lemma lin_skipn r a b n : length a = length b -> skipn n (lin r a b) = lin r (skipn n a) (skipn n b).
Proof. intros L. unfold lin. rewrite zipR_skipn, skipn_map by (rewrite map_length; exact L). reflexivity. Qed.
Lemma lin_app r a b c d : length a = length c -> lin r (a ++ b) (c ++ d) = lin r a c ++ lin r b d.
Proof. intros L. unfold lin. rewrite map_app, zipR_app'; [reflexivity|]. rewrite map_length. exact L. Qed.
Lemma blocks_lin r x a b k : length a = length b -> nth k (blocks x (lin r a b)) [] = lin r (nth k (blocks x a) []) (nth k (blocks x b) []) .
Proof.
  revert k a b. induction x as [|m x IH]; intros k a b L; [destruct k; reflexivity|]. cbn [blocks]. destruct k; cbn [nth].
  - apply lin_firstn.
  - rewrite lin_skipn by exact L. apply IH. rewrite !skipn_length. lia.
Qed.
Lemma blocks_same_length x (a b : list R) k : length a = length b -> length (nth k (blocks x a) []) = length (nth k (blocks x b) []).
Proof.
  revert k a b. induction x as [|m x IH]; intros k a b L; [destruct k; reflexivity|]. cbn [blocks]. destruct k; cbn [nth]; [rewrite !firstn_length; lia|]. apply IH. rewrite !skipn_length. lia.
Qed.
Lemma sort_row_lin r x a b : length a = length b -> sort_row x (lin r a b) = lin r (sort_row x a) (sort_row x b).
Proof.
  intros L. unfold sort_row. generalize (sort_inv_list x). intros l. induction l as [|k l IH]; [reflexivity|]. cbn [map concat]. rewrite IH, blocks_lin by exact L. symmetry. apply lin_app. apply blocks_same_length, L.
Qed.
Lemma tp_row_lin_l cg nrm flt rg x y r rx rx' ry : length rx = dim x -> length rx' = dim x ->
  tp_row cg nrm flt rg x y (lin r rx rx') ry = lin r (tp_row cg nrm flt rg x y rx ry) (tp_row cg nrm flt rg x y rx' ry).
Proof.
  intros L L'. unfold tp_row. cbv zeta. assert (E : maybe_sort_row rg x (lin r rx rx') = lin r (maybe_sort_row rg x rx) (maybe_sort_row rg x rx')) by (destruct rg; [apply sort_row_lin; congruence|reflexivity]).
  rewrite E, bil_row_lin_l by (try apply tp_paths_ok; apply maybe_sort_row_length; assumption). apply sort_row_lin. rewrite !bil_row_length. reflexivity.
Qed.
Lemma tp_row_lin_r cg nrm flt rg x y r rx ry ry' : length ry = dim y -> length ry' = dim y ->
  tp_row cg nrm flt rg x y rx (lin r ry ry') = lin r (tp_row cg nrm flt rg x y rx ry) (tp_row cg nrm flt rg x y rx ry').
Proof.
  intros L L'. unfold tp_row. cbv zeta. assert (E : maybe_sort_row rg y (lin r ry ry') = lin r (maybe_sort_row rg y ry) (maybe_sort_row rg y ry')) by (destruct rg; [apply sort_row_lin; congruence|reflexivity]).
  rewrite E, bil_row_lin_r by (try apply tp_paths_ok; apply maybe_sort_row_length; assumption). apply sort_row_lin. rewrite !bil_row_length. reflexivity.
Qed.

(* ---------- filtering ---------- *)
Definition pblock (cg : coupling) (x y : irreps) (rx ry : list R) (p : bpath) : list R := concat (tab2 (b_mul p) (ir_dim (b_out p)) (path_val cg x y rx ry p)).
Lemma labelled_bil cg ps x y rx ry : labelled (bil_out ps) (bil_row cg ps x y rx ry) = map (fun p => ((b_mul p, b_out p), pblock cg x y rx ry p)) ps.
Proof.
  set (l := map (fun p => ((b_mul p, b_out p), pblock cg x y rx ry p)) ps). assert (E1 : bil_out ps = map fst l) by (unfold l; rewrite map_map; reflexivity).
  assert (E2 : bil_row cg ps x y rx ry = unlabel l).
  { unfold bil_row, unlabel, l. rewrite map_map. cbn [snd]. assert (G : forall qs F, (forall q, q < length qs -> F q = path_val cg x y rx ry (nth q qs dpath)) -> rowof (bil_out qs) F = concat (map (pblock cg x y rx ry) qs)); [|apply G; reflexivity].
    induction qs as [|p qs IH]; intros F HF; [reflexivity|]. cbn [bil_out map rowof concat fst snd]. rewrite (HF 0) by (cbn; lia). cbn [nth]. f_equal. apply IH. intros q Hq. apply (HF (S q)). cbn. lia. }
  rewrite E1, E2. apply labelled_unlabel. unfold wide, l. apply Forall_map, Forall_forall. intros p _. cbn [fst snd]. unfold pblock. destruct (tab2_wf (b_mul p) (ir_dim (b_out p)) (path_val cg x y rx ry p)) as [L W]. rewrite (concat_length_uniform (ir_dim (b_out p))) by exact W. rewrite L. reflexivity.
Qed.
Lemma filter_flat_map {A B} (P : B -> bool) (f : A -> list B) l : filter P (flat_map f l) = flat_map (fun a => filter P (f a)) l.
Proof. induction l as [|a l IH]; [reflexivity|]. cbn [flat_map]. rewrite filter_app, IH. reflexivity. Qed.
Lemma filter_map_comm {A B} (P : B -> bool) (f : A -> B) l : filter P (map f l) = map f (filter (fun a => P (f a)) l).
Proof. induction l as [|a l IH]; [reflexivity|]. cbn [map filter]. rewrite IH. destruct (P (f a)); reflexivity. Qed.
Lemma filter_all {A} (l : list A) : filter (fun _ => true) l = l.
Proof. induction l as [|a l IH]; [reflexivity|]. cbn. rewrite IH. reflexivity. Qed.
Lemma tp_paths_filter nrm l x y : tp_paths nrm (Some l) x y = filter (fun p => passes (Some l) (b_out p)) (tp_paths nrm None x y).
Proof.
  unfold tp_paths. rewrite filter_flat_map. apply flat_map_ext. intros [k1 [m1 a]]. rewrite filter_flat_map. apply flat_map_ext. intros [k2 [m2 b]]. rewrite filter_map_comm. cbn [b_out passes]. rewrite filter_all. reflexivity.
Qed.
Lemma ew_paths_filter nrm l x y : ew_paths nrm (Some l) x y = filter (fun p => passes (Some l) (b_out p)) (ew_paths nrm None x y).
Proof.
  unfold ew_paths. rewrite filter_flat_map. apply flat_map_ext. intros [k1 [[m1 a] [m2 b]]]. rewrite filter_map_comm. cbn [b_out passes]. rewrite filter_all. reflexivity.
Qed.
(* row of the selected entries *)
Definition sel_row (P : irrep -> bool) (x : irreps) (row : list R) : list R := unlabel (filter (fun q => P (snd (fst q))) (labelled x row)).
Definition sel_irreps (P : irrep -> bool) (x : irreps) : irreps := filter (fun m => P (snd m)) x.
Lemma bil_filter P cg ps x y rx ry : let qs := filter (fun p => P (b_out p)) ps in
  bil_out qs = sel_irreps P (bil_out ps) /\ bil_row cg qs x y rx ry = sel_row P (bil_out ps) (bil_row cg ps x y rx ry).
Proof.
  cbv zeta. split.
  - unfold bil_out, sel_irreps. rewrite filter_map_comm. reflexivity.
  - unfold sel_row. rewrite labelled_bil, filter_map_comm. cbn [fst snd]. rewrite <- (unlabel_labelled _ _ (bil_row_length cg (filter (fun p => P (b_out p)) ps) x y rx ry)). rewrite labelled_bil. reflexivity.
Qed.
Lemma sel_sort_irreps P x : sel_irreps P (sort_irreps x) = sort_irreps (sel_irreps P x).
Proof.
  pose (row := repeat 0%R (dim x)). rewrite (sort_irreps_ssort x row). unfold sel_irreps. rewrite (filter_map_comm (fun m => P (snd m)) fst). rewrite ssort_filter.
  set (l := filter _ (labelled x row)). assert (E : map fst l = filter (fun m => P (snd m)) x). { unfold l. rewrite <- (filter_map_comm (fun m => P (snd m)) fst), labelled_fst. reflexivity. }
  rewrite <- E. assert (W : wide l). { unfold wide. apply Forall_forall. intros p Hp. apply filter_In in Hp as [Hp _]. pose proof (labelled_wide x row (repeat_length _ _)) as W. unfold wide in W. rewrite Forall_forall in W. apply W, Hp. }
  rewrite <- (labelled_unlabel l W) at 1. rewrite <- sort_irreps_ssort. reflexivity.
Qed.
Lemma sel_sort_row P x row : length row = dim x -> sel_row P (sort_irreps x) (sort_row x row) = sort_row (sel_irreps P x) (sel_row P x row).
Proof.
  intros L. unfold sel_row. rewrite labelled_sorted by exact L. rewrite ssort_filter. set (l := filter _ (labelled x row)).
  assert (E : map fst l = sel_irreps P x). { unfold l, sel_irreps. rewrite <- (filter_map_comm (fun m => P (snd m)) fst), labelled_fst. reflexivity. }
  assert (W : wide l). { unfold wide. apply Forall_forall. intros p Hp. apply filter_In in Hp as [Hp _]. pose proof (labelled_wide x row L) as W. unfold wide in W. rewrite Forall_forall in W. apply W, Hp. }
  rewrite <- E, sort_row_ssort, labelled_unlabel by exact W. reflexivity.
Qed.
Lemma sel_row_flat P x x' row : flat x = flat x' -> sel_row P x row = sel_row P x' row.
Proof. intros E. unfold sel_row. rewrite !keep_flat_select, E. reflexivity. Qed.
Lemma flat_sel P x : flat (sel_irreps P x) = filter P (flat x).
Proof.
  induction x as [|[m ir] x IH]; [reflexivity|]. unfold sel_irreps in *. cbn [filter snd]. change (flat ((m, ir) :: x)) with (repeat ir m ++ flat x). rewrite filter_app, <- IH.
  assert (R : filter P (repeat ir m) = if P ir then repeat ir m else []). { clear. induction m as [|m IH]; [destruct (P ir); reflexivity|]. cbn [repeat filter]. rewrite IH. destruct (P ir); reflexivity. }
  rewrite R. destruct (P ir); reflexivity.
Qed.
Lemma StronglySorted_filter {A} (S : A -> A -> Prop) P l : StronglySorted S l -> StronglySorted S (filter P l).
Proof.
  induction 1 as [|a l H IH Ha]; [constructor|]. cbn [filter]. destruct (P a); [|exact IH]. constructor; [exact IH|]. rewrite Forall_forall in *. intros b Hb. apply filter_In in Hb as [Hb _]. auto.
Qed.
(* strictly sorted, positive lists are determined by their expansion *)
Lemma strict_unique x y : StronglySorted (fun a b => ir_ltb (snd a) (snd b) = true) x -> StronglySorted (fun a b => ir_ltb (snd a) (snd b) = true) y ->
  Forall (fun m => 0 < fst m) x -> Forall (fun m => 0 < fst m) y -> (forall ir, count ir x = count ir y) -> x = y.
Proof.
  assert (C0 : forall x ir, Forall (fun b => ir_ltb ir (snd b) = true) x -> count ir x = 0).
  { clear. intros x ir H. rewrite count_flat. apply count_occ_not_In. unfold flat. rewrite in_flat_map. intros ([m a] & Hm & Ha). apply repeat_spec in Ha. subst a. rewrite Forall_forall in H. specialize (H _ Hm). cbn [snd] in H. rewrite ir_ltb_irrefl in H. discriminate. }
  assert (CC : forall m a x ir, count ir ((m, a) :: x) = (if irrep_eqb ir a then m else 0) + count ir x).
  { clear. intros. rewrite !count_flat. change (flat ((m, a) :: x)) with (repeat a m ++ flat x). rewrite count_occ_app, count_occ_repeat. reflexivity. }
  revert y. induction x as [|[m a] x IH]; intros [|[n b] y] Sx Sy Px Py C; [reflexivity| | |].
  - exfalso. specialize (C b). rewrite CC in C. rewrite (proj2 (irrep_eqb_eq b b) eq_refl) in C. inversion Py; subst. cbn [fst] in *. rewrite (C0 []) in C by constructor. lia.
  - exfalso. specialize (C a). rewrite CC in C. rewrite (proj2 (irrep_eqb_eq a a) eq_refl) in C. inversion Px; subst. cbn [fst] in *. rewrite (C0 []) in C by constructor. lia.
  - inversion Sx as [|? ? Sx' Hx]; subst. inversion Sy as [|? ? Sy' Hy]; subst. inversion Px; subst. inversion Py; subst. cbn [fst snd] in *.
    assert (Eab : a = b).
    { destruct (ir_ltb_total a b) as [L|[Q|L]]; [|exact Q|]; exfalso.
      - pose proof (C a) as Ca. rewrite !CC in Ca. rewrite (proj2 (irrep_eqb_eq a a) eq_refl) in Ca. rewrite (C0 y a) in Ca. { destruct (irrep_eqb a b) eqn:Q; [apply irrep_eqb_eq in Q; subst; rewrite ir_ltb_irrefl in L; discriminate|]. lia. }
        rewrite Forall_forall in *. intros q Hq. apply (ir_ltb_trans a b); [exact L|apply Hy, Hq].
      - pose proof (C b) as Cb. rewrite !CC in Cb. rewrite (proj2 (irrep_eqb_eq b b) eq_refl) in Cb. rewrite (C0 x b) in Cb. { destruct (irrep_eqb b a) eqn:Q; [apply irrep_eqb_eq in Q; subst; rewrite ir_ltb_irrefl in L; discriminate|]. lia. }
        rewrite Forall_forall in *. intros q Hq. apply (ir_ltb_trans b a); [exact L|apply Hx, Hq]. }
    subst b. assert (m = n). { specialize (C a). rewrite !CC in C. rewrite (proj2 (irrep_eqb_eq a a) eq_refl) in C. rewrite (C0 x a Hx), (C0 y a Hy) in C. lia. } subst n.
    f_equal. apply IH; auto. intros ir. specialize (C ir). rewrite !CC in C. lia.
Qed.
Lemma sel_regroup P x : sel_irreps P (regroup_irreps x) = regroup_irreps (sel_irreps P x).
Proof.
  apply strict_unique.
  - apply StronglySorted_filter, regroup_strict.
  - apply regroup_strict.
  - apply Forall_forall. intros m Hm. apply filter_In in Hm as [Hm _]. pose proof (positive_simplify (sort_irreps x)) as Q. unfold positive in Q. rewrite Forall_forall in Q. apply Q, Hm.
  - apply positive_simplify.
  - intros ir. rewrite regroup_count, !count_flat, !flat_sel. assert (Pm : Permutation (flat (regroup_irreps x)) (flat x)) by (apply (Permutation_count_occ irrep_eq_dec); intros i; rewrite <- !count_flat; apply regroup_count).
    assert (G : forall l l' : list irrep, Permutation l l' -> Permutation (filter P l) (filter P l')). { clear. induction 1; cbn [filter]; repeat (match goal with |- context [P ?a] => destruct (P a) end); auto; [apply perm_swap|eapply Permutation_trans; eassumption]. }
    exact (proj1 (Permutation_count_occ irrep_eq_dec _ _) (G _ _ Pm) ir).
Qed.
(* filtering the outputs or filtering afterwards *)
Lemma tp_filter cg nrm l rg x y rx ry : tp_out nrm (Some l) rg x y = sel_irreps (passes (Some l)) (tp_out nrm None rg x y) /\
  tp_row cg nrm (Some l) rg x y rx ry = sel_row (passes (Some l)) (tp_out nrm None rg x y) (tp_row cg nrm None rg x y rx ry).
Proof.
  unfold tp_out, tp_row. cbv zeta. rewrite tp_paths_filter. set (ps := tp_paths nrm None _ _). destruct (bil_filter (passes (Some l)) cg ps (maybe_regroup rg x) (maybe_regroup rg y) (maybe_sort_row rg x rx) (maybe_sort_row rg y ry)) as [E1 E2]. rewrite E1, E2. split.
  - rewrite <- sel_sort_irreps. destruct rg; [|reflexivity]. cbn [maybe_regroup]. symmetry. apply sel_regroup.
  - rewrite <- sel_sort_row by apply bil_row_length. apply sel_row_flat. destruct rg; [|reflexivity]. cbn [maybe_regroup]. unfold regroup_irreps. rewrite flat_simplify, sort_irreps_idem. reflexivity.
Qed.

(* ---------- output irreps ---------- *)
Lemma bil_out_dim ps : dim (bil_out ps) = sum (map (fun p => b_mul p * ir_dim (b_out p)) ps).
Proof. unfold bil_out. induction ps as [|p ps IH]; [reflexivity|]. cbn [map]. rewrite dim_cons, IH. reflexivity. Qed.
Lemma count_app ir x y : count ir (x ++ y) = count ir x + count ir y.
Proof. rewrite !count_flat. unfold flat. rewrite flat_map_app, count_occ_app. reflexivity. Qed.
Lemma count_flat_map {A} ir (f : A -> irreps) l : count ir (flat_map f l) = sum (map (fun a => count ir (f a)) l).
Proof. induction l as [|a l IH]; [reflexivity|]. cbn [flat_map map]. rewrite count_app, IH. reflexivity. Qed.
Lemma map_flat_map {A B C} (g : B -> C) (f : A -> list B) l : map g (flat_map f l) = flat_map (fun a => map g (f a)) l.
Proof. induction l as [|a l IH]; [reflexivity|]. cbn [flat_map]. rewrite map_app, IH. reflexivity. Qed.
Lemma enumerate_snd {A} (l : list A) : map snd (enumerate l) = l.
Proof. unfold enumerate. apply combine_map_snd. rewrite seq_length. reflexivity. Qed.
Lemma flat_map_enumerate {A B} (f : A -> list B) (l : list A) : flat_map (fun p => f (snd p)) (enumerate l) = flat_map f l.
Proof. rewrite !flat_map_concat_map, <- (map_map snd f), enumerate_snd. reflexivity. Qed.
(* the entries in order of the two inputs and of the product of their irreps *)
Definition product_entries (flt : option (list irrep)) (x y : irreps) : irreps :=
  flat_map (fun '(m1, a) => flat_map (fun '(m2, b) => map (fun c => (m1 * m2, c)) (filter (passes flt) (ir_mul a b))) y) x.
Lemma bil_out_tp nrm flt x y : bil_out (tp_paths nrm flt x y) = product_entries flt x y.
Proof.
  unfold bil_out, tp_paths, product_entries. rewrite map_flat_map. rewrite <- (flat_map_enumerate (fun '(m1, a) => flat_map (fun '(m2, b) => map (fun c => (m1 * m2, c)) (filter (passes flt) (ir_mul a b))) y) x). apply flat_map_ext. intros [k1 [m1 a]]. cbn [snd].
  rewrite map_flat_map. rewrite <- (flat_map_enumerate (fun '(m2, b) => map (fun c => (m1 * m2, c)) (filter (passes flt) (ir_mul a b))) y). apply flat_map_ext. intros [k2 [m2 b]]. cbn [snd]. rewrite map_map. reflexivity.
Qed.
Definition pair_irreps (flt : option (list irrep)) (la lb : list irrep) : list irrep := flat_map (fun a => flat_map (fun b => filter (passes flt) (ir_mul a b)) lb) la.
Lemma count_occ_flat_sum {A} (f : irrep -> list A) dec x c : count_occ dec (flat_map f (flat x)) c = sum (map (fun m => fst m * count_occ dec (f (snd m)) c) x).
Proof.
  induction x as [|[m a] x IH]; [reflexivity|]. change (flat ((m, a) :: x)) with (repeat a m ++ flat x). rewrite flat_map_app, count_occ_app, IH. cbn [map fst snd]. change (sum (?a :: ?l)) with (a + sum l). f_equal.
  clear. induction m as [|m IH]; [reflexivity|]. cbn [repeat flat_map]. rewrite count_occ_app, IH. reflexivity.
Qed.
Lemma count_map_const m l ir : count ir (map (fun c : irrep => (m, c)) l) = m * count_occ irrep_eq_dec l ir.
Proof.
  induction l as [|c l IH]; [cbn; lia|]. cbn [map]. change ((m, c) :: ?r) with ([(m, c)] ++ r). rewrite count_app, IH. rewrite count_flat. cbn [flat flat_map]. rewrite app_nil_r, count_occ_repeat. cbn [count_occ].
  destruct (irrep_eqb ir c) eqn:Q; [apply irrep_eqb_eq in Q; subst; destruct (irrep_eq_dec c c); [lia|congruence]|]. destruct (irrep_eq_dec c ir) as [->|]; [rewrite (proj2 (irrep_eqb_eq ir ir) eq_refl) in Q; discriminate|]. lia.
Qed.
Lemma sum_scale k l : sum (map (fun n => k * n) l) = k * sum l.
Proof. induction l as [|a l IH]; [cbn; lia|]. cbn [map]. change (sum (?a :: ?l)) with (a + sum l). rewrite IH. lia. Qed.
Lemma product_entries_flat flt x y : Permutation (flat (product_entries flt x y)) (pair_irreps flt (flat x) (flat y)).
Proof.
  apply (Permutation_count_occ irrep_eq_dec). intros c. rewrite <- count_flat. unfold product_entries, pair_irreps. rewrite count_flat_map, count_occ_flat_sum. f_equal. apply map_ext. intros [m1 a]. cbn [fst snd].
  rewrite count_flat_map, count_occ_flat_sum. rewrite <- sum_scale, map_map. f_equal. apply map_ext. intros [m2 b]. cbn [fst snd]. rewrite count_map_const. lia.
Qed.
Lemma regroup_flat_perm x : Permutation (flat (regroup_irreps x)) (flat x).
Proof. apply (Permutation_count_occ irrep_eq_dec). intros i. rewrite <- !count_flat. apply regroup_count. Qed.
Lemma pair_irreps_perm flt a a' b b' : Permutation a a' -> Permutation b b' -> Permutation (pair_irreps flt a b) (pair_irreps flt a' b').
Proof.
  intros Ha Hb. unfold pair_irreps. transitivity (flat_map (fun a => flat_map (fun b => filter (passes flt) (ir_mul a b)) b') a).
  - clear Ha. induction a as [|u a IH]; [reflexivity|]. cbn [flat_map]. apply Permutation_app; [|exact IH]. apply Permutation_flat_map, Hb.
  - apply Permutation_flat_map, Ha.
Qed.
Lemma flat_sort_perm x : Permutation (flat (sort_irreps x)) (flat x).
Proof. unfold flat. apply Permutation_flat_map, sort_irreps_perm. Qed.
Lemma tp_out_flat nrm flt rg x y : Permutation (flat (tp_out nrm flt rg x y)) (pair_irreps flt (flat x) (flat y)).
Proof.
  assert (M : forall z, Permutation (flat (maybe_regroup rg z)) (flat z)) by (intros z; destruct rg; [apply regroup_flat_perm|reflexivity]).
  unfold tp_out. rewrite M, flat_sort_perm, bil_out_tp, product_entries_flat. apply pair_irreps_perm; apply M.
Qed.
Lemma sum_perm l l' : Permutation l l' -> sum l = sum l'.
Proof. induction 1; repeat change (sum (?a :: ?l)) with (a + sum l) in *; lia. Qed.
Lemma sum_app' l l' : sum (l ++ l') = sum l + sum l'.
Proof. induction l as [|a l IH]; [reflexivity|]. cbn [app]. change (sum (?a :: ?l)) with (a + sum l). lia. Qed.
Lemma pair_irreps_dim la lb : sum (map ir_dim (pair_irreps None la lb)) = sum (map ir_dim la) * sum (map ir_dim lb).
Proof.
  unfold pair_irreps. induction la as [|a la IH]; [reflexivity|]. cbn [flat_map map]. rewrite map_app, sum_app', IH. change (sum (?a :: ?l)) with (a + sum l). rewrite Nat.mul_add_distr_r. f_equal. clear. induction lb as [|b lb IH]; [cbn; lia|].
  cbn [flat_map map]. rewrite map_app, sum_app', IH. cbn [passes]. rewrite filter_all, ir_mul_dim. change (sum (?a :: ?l)) with (a + sum l). lia.
Qed.
Lemma tp_out_dim nrm rg x y : dim (tp_out nrm None rg x y) = dim x * dim y.
Proof. rewrite !dim_flat. rewrite (sum_perm _ _ (Permutation_map ir_dim (tp_out_flat nrm None rg x y))). apply pair_irreps_dim. Qed.

(* ---------- tensor_square ---------- *)
Lemma even_l_dim a : 2 * sum (map ir_dim (filter (fun c => Nat.even (ir_l c)) (ir_mul a a))) = ir_dim a * (ir_dim a + 1).
Proof.
  assert (G : forall n p, 2 * sum (map ir_dim (filter (fun c => Nat.even (ir_l c)) (map (fun l => Irrep l p) (seq 0 (2 * n + 1))))) = (2 * n + 1) * (2 * n + 2)).
  { clear. induction n as [|n IH]; intros p; [reflexivity|]. replace (2 * S n + 1) with ((2 * n + 1) + 2) by lia. rewrite seq_app, map_app, filter_app, map_app, sum_app', Nat.mul_add_distr_l, IH.
    cbn [seq map filter ir_l]. replace (Nat.even (0 + (2 * n + 1))) with false. 2:{ replace (0 + (2 * n + 1)) with (S (2 * n)) by lia. rewrite Nat.even_succ, <- Nat.negb_even, Nat.even_mul. reflexivity. }
    replace (Nat.even (S (0 + (2 * n + 1)))) with true. 2:{ replace (S (0 + (2 * n + 1))) with (2 * (S n)) by lia. rewrite Nat.even_mul. reflexivity. }
    cbn [map]. change (sum [?a]) with (a + 0). unfold ir_dim. cbn [ir_l]. lia. }
  destruct a as [l p]. unfold ir_mul. cbn [ir_l ir_p]. change (ir_dim (Irrep l p)) with (2 * l + 1).
  replace (Z.to_nat (Z.abs (Z.of_nat l - Z.of_nat l))) with 0 in * by lia. match goal with |- context [seq ?s ?n] => replace (seq s n) with (seq 0 (2 * l + 1)) by (f_equal; lia) end.
  rewrite G. lia.
Qed.
Definition pdims (ps : list bpath) : nat := sum (map (fun p => b_mul p * ir_dim (b_out p)) ps).
Lemma pdims_app p q : pdims (p ++ q) = pdims p + pdims q.
Proof. unfold pdims. rewrite map_app. apply sum_app'. Qed.
Lemma pdims_flat_map {A} (f : A -> list bpath) l : pdims (flat_map f l) = sum (map (fun a => pdims (f a)) l).
Proof. induction l as [|a l IH]; [reflexivity|]. cbn [flat_map map]. rewrite pdims_app, IH. reflexivity. Qed.
Lemma sum_plus {A} (f g : A -> nat) l : sum (map (fun a => f a + g a) l) = sum (map f l) + sum (map g l).
Proof. induction l as [|a l IH]; [reflexivity|]. cbn [map]. repeat change (sum (?a :: ?l)) with (a + sum l). lia. Qed.
Lemma half_even m : 2 * (m * (m - 1) / 2) = m * (m - 1).
Proof. rewrite <- pairs_lt_length. rewrite pairs_lt_length. rewrite <- Nat.divide_div_mul_exact; [rewrite Nat.mul_comm; apply Nat.div_mul; lia|lia|].
  destruct (Nat.Even_or_Odd m) as [[k ->]|[k ->]]; [exists (k * (2 * k - 1)); nia|exists (k * (2 * k + 1)); nia].
Qed.
Lemma ts_pair_dim nrm nm (k1 k2 m1 m2 : nat) (a b : irrep) : (k1 = k2 -> (m1, a) = (m2, b)) ->
  2 * pdims (flat_map (fun c => let al := sqrt (ts_alpha nrm nm a b c) in
    if (k1 <? k2) then [BP k1 k2 (pairs_all m1 m2) (m1 * m2) c al]
    else if (k1 =? k2) then
      (if (1 <? m1) then [BP k1 k1 (pairs_lt m1) (m1 * (m1 - 1) / 2) c al] else [])
      ++ (if Nat.even (ir_l c) then [BP k1 k1 (pairs_diag m1) m1 c (sqrt (ts_alpha_diag nrm nm a c))] else [])
    else []) (ir_mul a b)) = if k1 <? k2 then 2 * (m1 * ir_dim a) * (m2 * ir_dim b) else if k1 =? k2 then (m1 * ir_dim a) * (m1 * ir_dim a + 1) else 0.
Proof.
  intros E. rewrite pdims_flat_map. cbv zeta. destruct (Nat.ltb_spec k1 k2) as [L|L].
  - transitivity (2 * (m1 * m2 * sum (map ir_dim (ir_mul a b)))); [|rewrite ir_mul_dim; nia]. f_equal. rewrite <- (sum_scale (m1 * m2)), map_map. f_equal. apply map_ext. intros c. unfold pdims. cbn [map b_mul b_out]. change (sum [?a]) with (a + 0). lia.
  - destruct (Nat.eqb_spec k1 k2) as [->|N].
    + specialize (E eq_refl). injection E as <- <-.
      transitivity (2 * (sum (map (fun c => m1 * (m1 - 1) / 2 * ir_dim c + (if Nat.even (ir_l c) then m1 * ir_dim c else 0)) (ir_mul a a)))).
      * f_equal. f_equal. apply map_ext. intros c. rewrite pdims_app. f_equal.
        -- destruct (Nat.ltb_spec 1 m1) as [G|G]; [unfold pdims; cbn [map b_mul b_out]; change (sum [?a]) with (a + 0); lia|]. assert (m1 = 0 \/ m1 = 1) as [->| ->] by lia; reflexivity.
        -- destruct (Nat.even (ir_l c)); [unfold pdims; cbn [map b_mul b_out]; change (sum [?a]) with (a + 0); lia|reflexivity].
      * rewrite sum_plus. rewrite <- (map_map ir_dim (fun n => m1 * (m1 - 1) / 2 * n)), sum_scale, ir_mul_dim.
        assert (F : sum (map (fun c => if Nat.even (ir_l c) then m1 * ir_dim c else 0) (ir_mul a a)) = m1 * sum (map ir_dim (filter (fun c => Nat.even (ir_l c)) (ir_mul a a)))).
        { generalize (ir_mul a a). intros l. induction l as [|c l IH]; [cbn; lia|]. cbn [map filter]. change (sum (?a :: ?l)) with (a + sum l). rewrite IH. destruct (Nat.even (ir_l c)); [cbn [map]; change (sum (?a :: ?l)) with (a + sum l); lia|lia]. }
        rewrite F. pose proof (even_l_dim a) as Ev. pose proof (half_even m1) as Hv. set (Sm := sum _) in *. set (h := m1 * (m1 - 1) / 2) in *. set (d := ir_dim a) in *. destruct m1 as [|m]; [cbn in *; nia|]. replace (S m - 1) with m in Hv by lia. clearbody Sm h d. nia.
    + rewrite (map_ext _ (fun _ => 0)) by reflexivity. generalize (ir_mul a b). intros l. induction l; [reflexivity|exact IHl].
Qed.

Definition enum_from {A} (o : nat) (l : list A) : list (nat * A) := combine (seq o (length l)) l.
Lemma enum_from_ge {A} o (l : list A) k a : In (k, a) (enum_from o l) -> o <= k.
Proof. intros H. apply in_combine_l in H. apply in_seq in H. lia. Qed.
Lemma sum_zero {A} (f : A -> nat) l : (forall a, In a l -> f a = 0) -> sum (map f l) = 0.
Proof. induction l as [|a l IH]; intros H; [reflexivity|]. cbn [map]. change (sum (?a :: ?l)) with (a + sum l). rewrite (H a) by (left; reflexivity). apply IH. intros b Hb. apply H. right; exact Hb. Qed.
Lemma sum_const_fst {A} (g : A -> nat) o l : sum (map (fun p : nat * A => g (snd p)) (enum_from o l)) = sum (map g l).
Proof. rewrite <- (map_map snd g). unfold enum_from. rewrite combine_map_snd by apply seq_length. reflexivity. Qed.
Lemma triangle_sum {A} (d : A -> nat) l o : sum (map (fun p => sum (map (fun q => if fst p <? fst q then 2 * d (snd p) * d (snd q) else if fst p =? fst q then d (snd p) * (d (snd p) + 1) else 0) (enum_from o l))) (enum_from o l)) = sum (map d l) * (sum (map d l) + 1).
Proof.
  revert o. induction l as [|a l IH]; intros o; [reflexivity|]. unfold enum_from. cbn [length seq combine map]. change (combine (seq (S o) (length l)) l) with (enum_from (S o) l). repeat change (sum (?a :: ?l)) with (a + sum l). cbn [fst snd]. rewrite Nat.ltb_irrefl, Nat.eqb_refl.
  rewrite (map_ext_in _ (fun q : nat * A => (fun b => 2 * d a * d b) (snd q)) (enum_from (S o) l)) by (intros [k b] Hb; apply enum_from_ge in Hb; cbn [fst snd]; destruct (Nat.ltb_spec o k); [reflexivity|lia]).
  rewrite (sum_const_fst (fun b => 2 * d a * d b) (S o) l). rewrite <- (map_map d (fun n => 2 * d a * n)), sum_scale.
  rewrite (map_ext_in _ (fun p : nat * A => sum (map (fun q => if fst p <? fst q then 2 * d (snd p) * d (snd q) else if fst p =? fst q then d (snd p) * (d (snd p) + 1) else 0) (enum_from (S o) l))) (enum_from (S o) l)).
  - rewrite IH. nia.
  - intros [k b] Hb. apply enum_from_ge in Hb. change (sum (?a :: ?l)) with (a + sum l). cbn [fst snd]. destruct (Nat.ltb_spec k o); [lia|]. destruct (Nat.eqb_spec k o); [lia|]. reflexivity.
Qed.
Lemma dim_sum x : dim x = sum (map (fun m => fst m * ir_dim (snd m)) x).
Proof. induction x as [|[m a] x IH]; [reflexivity|]. rewrite dim_cons, IH. reflexivity. Qed.
Lemma ts_out_dim nrm nm x : 2 * dim (bil_out (ts_paths nrm nm x)) = dim x * (dim x + 1).
Proof.
  rewrite bil_out_dim. fold (pdims (ts_paths nrm nm x)). unfold ts_paths. rewrite pdims_flat_map, <- sum_scale, map_map. rewrite dim_sum, <- (triangle_sum (fun m => fst m * ir_dim (snd m)) x 0). change (enum_from 0 x) with (enumerate x). f_equal.
  apply map_ext_in. intros [k1 [m1 a]] H1. rewrite pdims_flat_map, <- sum_scale, map_map. f_equal. apply map_ext_in. intros [k2 [m2 b]] H2. cbn [fst snd]. apply enumerate_in in H1, H2.
  rewrite ts_pair_dim; [reflexivity|]. intros ->. congruence.
Qed.
Definition ts_out (nrm : inorm) (nm rg : bool) (x : irreps) : irreps := maybe_regroup rg (sort_irreps (bil_out (ts_paths nrm nm (maybe_regroup rg x)))).
Definition ts_row (cg : coupling) (nrm : inorm) (nm rg : bool) (x : irreps) (rx : list R) : list R :=
  let x' := maybe_regroup rg x in let ps := ts_paths nrm nm x' in sort_row (bil_out ps) (bil_row cg ps x' x' (maybe_sort_row rg x rx) (maybe_sort_row rg x rx)).
Lemma maybe_regroup_dim rg x : dim (maybe_regroup rg x) = dim x.
Proof. destruct rg; [apply regroup_dim|reflexivity]. Qed.
Lemma tensor_square_yields cg nrm nm rg x : coherent x -> nrm <> NOther ->
  yields (tensor_square cg nrm nm rg x) (ts_out nrm nm rg (irr x)) (lead x) (fun i => ts_row cg nrm nm rg (irr x) (arr x i)).
Proof.
  intros Hx Hn. unfold tensor_square. destruct (maybe_regroup_yields rg x Hx) as (x2 & -> & U1 & U2 & U3 & U4). cbn [bind]. assert (A : assert (match nrm with NOther => false | _ => true end) = Ok tt) by (destruct nrm; try reflexivity; contradiction). rewrite A. cbn [bind]. clear A.
  unfold ts_out, ts_row. rewrite <- U1. rewrite U2.
  eapply yields_ext; [|apply (sort_then_regroup rg _ _ _ _ (bil_core_yields cg nrm _ x2 x2 (lead x) U3 U3 U2 U2 (ts_paths_ok nrm nm _) Hn))].
  - intros i Hi. cbv beta zeta. rewrite U4 by exact Hi. reflexivity.
  - intros i Hi. apply bil_row_length.
Qed.
Lemma ts_row_act D cg nrm nm rg x rx : rep_ok D -> intertwines cg D -> length rx = dim x -> act D (ts_out nrm nm rg x) (ts_row cg nrm nm rg x rx) = ts_row cg nrm nm rg x (act D x rx).
Proof.
  intros HD HI Lx. unfold ts_row. cbv zeta. rewrite <- !(maybe_sort_row_act D rg) by assumption. set (ps := ts_paths nrm nm _).
  transitivity (act D (sort_irreps (bil_out ps)) (sort_row (bil_out ps) (bil_row cg ps (maybe_regroup rg x) (maybe_regroup rg x) (maybe_sort_row rg x rx) (maybe_sort_row rg x rx)))).
  - unfold ts_out. fold ps. destruct rg; [|reflexivity]. cbn [maybe_regroup]. apply act_flat. unfold regroup_irreps. rewrite flat_simplify, sort_irreps_idem. reflexivity.
  - unfold sort_row at 1. rewrite permuted_act by (auto; apply bil_row_length). rewrite bil_row_act; auto; [apply ts_paths_ok| |]; apply maybe_sort_row_length; assumption.
Qed.

(* ---------- elementwise ---------- *)
Lemma num_irreps_fst x y : map fst x = map fst y -> num_irreps x = num_irreps y.
Proof. unfold num_irreps. intros ->. reflexivity. Qed.
Lemma elementwise_yields cg nrm flt x y s u v : coherent x -> coherent y -> nrm <> NOther -> broadcast_shapes (lead x) (lead y) = Ok s -> align_two_irreps (irr x) (irr y) = Ok (u, v) ->
  yields (elementwise_tensor_product cg nrm flt x y) (bil_out (ew_paths nrm flt u v)) s (fun i => bil_row cg (ew_paths nrm flt u v) u v (arr x (bidx (lead x) i)) (arr y (bidx (lead y) i))).
Proof.
  intros Hx Hy Hn E Al. assert (N : num_irreps (irr x) = num_irreps (irr y)). { destruct (Nat.eq_dec (num_irreps (irr x)) (num_irreps (irr y))) as [Q|Q]; [exact Q|]. rewrite align_rejects in Al by exact Q. discriminate. }
  unfold elementwise_tensor_product. destruct (prepare_yields x y s Hx Hy E) as (x1 & y1 & -> & X1 & X2 & X3 & X4 & Y1 & Y2 & Y3 & Y4). cbn [bind]. rewrite X1, Y1, N, Nat.eqb_refl. cbn [negb].
  rewrite <- X1, <- Y1 in Al. destruct (align_arrays_yields x1 y1 u v X3 Y3 Al) as (x2 & y2 & -> & M & U1 & U2 & U3 & U4 & V1 & V2 & V3 & V4). cbn [bind]. rewrite X2 in *. rewrite Y2 in *. rewrite U1, V1.
  pose proof (bil_core_yields cg nrm (ew_paths nrm flt u v) x2 y2 s U3 V3 U2 V2) as B. rewrite U1, V1 in B. eapply yields_ext; [|apply (B (ew_paths_ok nrm flt u v M) Hn)]. intros i Hi. cbv beta. rewrite U4, V4, X4, Y4 by exact Hi. reflexivity.
Qed.
