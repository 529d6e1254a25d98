(* IrrepsArrays as families of multiplets, and what regroup, filter and reduce_basis_product do to them. *)
From Coq Require Import Reals Lra Lia List Arith Permutation.
From Verif Require Import PyBase PermModel PermProofs IrrepsModel IrrepsProofs IrrepsProofs2 ArrayModel ArrayProofs ArrayOps RechunkProofs LeadModel LeadProofs StackProofs ActProofs EquivProofs EntryProofs LinearProofs ScatterProps SumR S2Proofs3 TPModel TPProofs TPProofs2 RotationModel RotationProofs CGModel WignerModel WignerProofs WignerProofs2 WignerProps WignerProps2 CGComplete SchurProofs MultProofs CouplingProofs ReducedProofs ConstrainProofs RtpModel RtpSpace RtpTools.
Import ListNotations.
Open Scope R_scope.

(* ---------- the multiplets of an array ---------- *)
Fixpoint plets (l : list irrep) (off : nat) (a : idx -> list R) : list (mult idx) :=
  match l with [] => [] | ir :: l => (ir, fun z c => nth (off + c) (a z) 0) :: plets l (off + ir_dim ir) a end.
Definition mflat (m : mulirrep) : list irrep := repeat (snd m) (fst m).
Lemma dims_mflat m : dims (mflat m) = mi_dim m.
Proof. unfold mflat. rewrite dims_repeat. reflexivity. Qed.
Lemma flat_mflat x : flat x = flat_map mflat x.
Proof. unfold flat. apply flat_map_ext. intros []. reflexivity. Qed.
Lemma plets_app l l' off a : plets (l ++ l') off a = plets l off a ++ plets l' (off + dims l) a.
Proof.
  revert off. induction l as [|ir l IH]; intros off; [cbn [app plets]; unfold dims; cbn; rewrite Nat.add_0_r; reflexivity|]. cbn [app plets]. rewrite IH, dims_cons. f_equal. f_equal. f_equal. lia.
Qed.
Lemma plets_types l off a : map fst (plets l off a) = l.
Proof. revert off. induction l as [|ir l IH]; intros off; [reflexivity|]. cbn [plets map fst]. rewrite IH. reflexivity. Qed.
Section Arr.
Variable X : list idx.
Lemma plets_same l off off' a b : (forall z j, In z X -> (j < dims l)%nat -> nth (off + j) (a z) 0 = nth (off' + j) (b z) 0) -> sames X (plets l off a) (plets l off' b).
Proof.
  revert off off'. induction l as [|ir l IH]; intros off off' H; [constructor|]. cbn [plets]. constructor.
  - split; [reflexivity|]. cbn [fst snd]. intros z m Hz Hm. apply H; [exact Hz|]. rewrite dims_cons. lia.
  - apply IH. intros z j Hz Hj. rewrite <- !Nat.add_assoc. apply H; [exact Hz|]. rewrite dims_cons. lia.
Qed.
Lemma plets_concat {S} (m : S -> mulirrep) (B : S -> idx -> list R) sg : (forall s z, In s sg -> In z X -> length (B s z) = mi_dim (m s)) ->
  sames X (plets (flat (map m sg)) 0 (fun z => concat (map (fun s => B s z) sg))) (flat_map (fun s => plets (mflat (m s)) 0 (B s)) sg).
Proof.
  induction sg as [|s sg IH]; intros H; [constructor|]. rewrite flat_mflat. cbn [map flat_map concat]. rewrite <- flat_mflat, plets_app. apply sames_app.
  - apply plets_same. intros z j Hz Hj. rewrite dims_mflat in Hj. rewrite !Nat.add_0_l. apply app_nth1. rewrite H by (auto; left; reflexivity). exact Hj.
  - eapply sames_trans; [|apply IH; intros s' z Hs' Hz; apply H; [right; exact Hs'|exact Hz]]. apply plets_same. intros z j Hz Hj. rewrite dims_mflat, !Nat.add_0_l. rewrite app_nth2 by (rewrite H by (auto; left; reflexivity); lia). f_equal. rewrite H by (auto; left; reflexivity). lia.
Qed.
Definition block_plets (x : irreps) (a : idx -> list R) (k : nat) : list (mult idx) := plets (mflat (nth k x dflt)) 0 (fun z => nth k (blocks x (a z)) []).
Lemma block_length x (row : list R) k : length row = dim x -> (k < length x)%nat -> length (nth k (blocks x row) []) = mi_dim (nth k x dflt).
Proof.
  assert (G : forall (x : irreps) (bs : list (list R)), Forall2 (fun m b => length b = mi_dim m) x bs -> forall k, (k < length x)%nat -> length (nth k bs []) = mi_dim (nth k x dflt)).
  { clear. induction 1 as [|m b x bs H F IH]; intros k Hk; [cbn in Hk; lia|]. destruct k as [|k]; [exact H|]. cbn [nth]. apply IH. cbn in Hk. lia. }
  intros L Hk. apply G; [apply blocks_widths, L|exact Hk].
Qed.
Lemma plets_select x a sg : (forall z, In z X -> length (a z) = dim x) -> (forall k, In k sg -> (k < length x)%nat) ->
  sames X (plets (flat (map (fun k => nth k x dflt) sg)) 0 (fun z => concat (map (fun k => nth k (blocks x (a z)) []) sg))) (flat_map (block_plets x a) sg).
Proof. intros L H. apply (plets_concat (fun k => nth k x dflt) (fun k z => nth k (blocks x (a z)) [])). intros k z Hk Hz. apply block_length; auto. Qed.
Lemma map_nth_all {T} (l : list T) d : map (fun k => nth k l d) (seq 0 (length l)) = l.
Proof. apply map_nth_seq. Qed.
Lemma plets_blocks x a : (forall z, In z X -> length (a z) = dim x) -> sames X (plets (flat x) 0 a) (flat_map (block_plets x a) (seq 0 (length x))).
Proof.
  intros L. eapply sames_trans; [|apply plets_select; [exact L|intros k Hk; apply in_seq in Hk; lia]]. rewrite map_nth_all. apply plets_same. intros z j Hz Hj. f_equal. rewrite <- (blocks_length x (a z)). rewrite map_nth_all. symmetry. apply concat_blocks, L, Hz.
Qed.
Lemma plets_ext l off a b : (forall z, In z X -> a z = b z) -> sames X (plets l off a) (plets l off b).
Proof. intros H. apply plets_same. intros z j Hz _. rewrite H by exact Hz. reflexivity. Qed.
(* the same, copy by copy *)
Definition epl (x : irreps) (a : idx -> list R) (k u : nat) : mult idx := (snd (nth k x dflt), fun z c => entry x (a z) k u c).
Definition eplets (x : irreps) (a : idx -> list R) : list (mult idx) := flat_map (fun k => map (epl x a k) (seq 0 (fst (nth k x dflt)))) (seq 0 (length x)).
Lemma plets_copies ir n off (b : idx -> list R) : sames X (plets (repeat ir n) off b) (map (fun u => (ir, fun z c => nth (off + (u * ir_dim ir + c)) (b z) 0)) (seq 0 n)).
Proof.
  revert off. induction n as [|n IH]; intros off; [constructor|]. cbn [repeat plets seq map]. constructor; [split; [reflexivity|intros; reflexivity]|]. rewrite <- seq_shift, map_map. eapply sames_trans; [apply IH|]. apply sames_map. intros u _. split; [reflexivity|]. cbn [fst snd]. intros z m _ _. f_equal. cbn [Nat.mul]. lia.
Qed.
Lemma block_eplets x a k : sames X (block_plets x a k) (map (epl x a k) (seq 0 (fst (nth k x dflt)))).
Proof. unfold block_plets, mflat. eapply sames_trans; [apply plets_copies|]. apply sames_map. intros u _. split; [reflexivity|]. intros z m _ _. reflexivity. Qed.
Lemma plets_eplets x a : (forall z, In z X -> length (a z) = dim x) -> sames X (plets (flat x) 0 a) (eplets x a).
Proof. intros L. eapply sames_trans; [apply plets_blocks, L|]. apply sames_flat_map. intros k _. apply block_eplets. Qed.
End Arr.

(* ---------- regroup and filter ---------- *)
Lemma in_valid s z : In z (all_idx s) -> valid s z. Proof. apply all_idx_valid. Qed.
Lemma coherent_len x z : coherent x -> In z (all_idx (lead x)) -> length (arr x z) = dim (irr x).
Proof. intros [H _] Hz. apply H, in_valid, Hz. Qed.
Definition family (x : iarray) : list (mult idx) := plets (flat (irr x)) 0 (arr x).
Lemma regroup_family x : coherent x -> exists y, ia_regroup x = Ok y /\ irr y = regroup_irreps (irr x) /\ lead y = lead x /\ coherent y /\ similar (all_idx (lead x)) (family x) (family y).
Proof.
  intros H. destruct (ia_regroup_yields x H) as (y & E & E1 & E2 & E3 & E4). exists y. split; [exact E|]. split; [exact E1|]. split; [exact E2|]. split; [exact E3|].
  assert (L : forall z, In z (all_idx (lead x)) -> length (arr x z) = dim (irr x)) by (intros; apply coherent_len; assumption).
  unfold family. rewrite E1. unfold regroup_irreps. rewrite flat_simplify, sort_irreps_map. pose proof (sort_inv_perm (irr x)) as Pi. apply is_perm_iff in Pi. rewrite sort_inv_length in Pi.
  assert (B : forall k, In k (sort_inv_list (irr x)) -> (k < length (irr x))%nat) by (intros k Hk; apply (Permutation_in _ Pi) in Hk; apply in_seq in Hk; lia).
  eapply similar_trans; [apply similar_sames, plets_blocks, L|]. eapply similar_trans; [apply similar_perm, Permutation_flat_map, Permutation_sym, Pi|]. apply similar_sames, sames_sym. eapply sames_trans; [|apply plets_select; assumption]. apply plets_ext. intros z Hz. apply E4, in_valid, Hz.
Qed.
Lemma regroup_reduced rh K W x : coherent x -> subspace (all_idx (lead x)) W -> reduced (all_idx (lead x)) rh K W (family x) -> exists y, ia_regroup x = Ok y /\ irr y = regroup_irreps (irr x) /\ lead y = lead x /\ coherent y /\ reduced (all_idx (lead x)) rh K W (family y).
Proof. intros H SW HR. destruct (regroup_family x H) as (y & E & E1 & E2 & E3 & Q). exists y. repeat (split; [assumption|]). exact (reduced_similar _ _ K W _ _ SW Q HR). Qed.
Lemma flat_filter (k : irrep -> bool) x : flat (filter (fun m => k (snd m)) x) = filter k (flat x).
Proof.
  rewrite !flat_mflat. induction x as [|[n ir] x IH]; [reflexivity|]. cbn [filter flat_map snd]. rewrite filter_app, <- IH. unfold mflat at 2. cbn [fst snd].
  assert (E : filter k (repeat ir n) = if k ir then repeat ir n else []) by (clear; induction n as [|n IH]; [destruct (k ir); reflexivity|]; cbn [repeat filter]; rewrite IH; destruct (k ir); reflexivity).
  rewrite E. destruct (k ir); reflexivity.
Qed.
Lemma filter_block (k : irrep -> bool) ir n off b : filter (fun t : mult idx => k (fst t)) (plets (repeat ir n) off b) = if k ir then plets (repeat ir n) off b else [].
Proof. revert off. induction n as [|n IH]; intros off; [destruct (k ir); reflexivity|]. cbn [repeat plets filter fst]. rewrite IH. destruct (k ir); reflexivity. Qed.

Lemma select_index {T U} (f : T -> bool) (x : list T) d (bs : list U) e : length bs = length x -> select (map f x) bs = map (fun k => nth k bs e) (filter (fun k => f (nth k x d)) (seq 0 (length x))).
Proof.
  revert bs. induction x as [|t x IH]; intros [|b bs] L; try discriminate; [reflexivity|]. injection L as L. cbn [map select length seq]. cbn [filter nth]. rewrite <- seq_shift, (filter_true_map S _ (fun k => f (nth k x d))) by reflexivity. rewrite (IH bs L). destruct (f t); cbn [map nth]; rewrite ?map_map; reflexivity.
Qed.

Lemma sames_filter X (k : irrep -> bool) (L L' : list (mult idx)) : sames X L L' -> sames X (filter (fun t => k (fst t)) L) (filter (fun t => k (fst t)) L').
Proof. induction 1 as [|t s L L' [E H] F IH]; [constructor|]. cbn [filter]. rewrite E. destruct (k (fst s)); [|exact IH]. constructor; [split; [exact E|exact H]|exact IH]. Qed.
Lemma flat_map_filter {T U} (k : T -> bool) (f : T -> list U) l : flat_map f (filter k l) = flat_map (fun a => if k a then f a else []) l.
Proof. induction l as [|a l IH]; [reflexivity|]. cbn [filter flat_map]. destruct (k a); cbn [flat_map]; rewrite IH; reflexivity. Qed.
Lemma filter_reduced rh K W x l : preserving (all_idx (lead x)) rh -> coherent x -> subspace (all_idx (lead x)) W -> reduced (all_idx (lead x)) rh K W (family x) ->
  exists y, ia_filter x (Some (ByIrreps l)) None None = Ok y /\ irr y = filter (fun m => existsb (irrep_eqb (snd m)) l) (irr x) /\ lead y = lead x /\ coherent y /\ reduced (all_idx (lead x)) rh (fun c => K c /\ existsb (irrep_eqb c) l = true) W (family y).
Proof.
  intros Pr H SW HR. destruct (filter_yields x (Some (ByIrreps l)) None None (filter (wants (Some (ByIrreps l)) None None) (irr x)) H) as (y & E & E1 & E2 & E3 & E4).
  - discriminate.
  - unfold filter_irreps. reflexivity.
  - intros m n _ _ Q. unfold wants, selects. rewrite Q. reflexivity.
  - exists y. split; [exact E|]. split; [exact E1|]. split; [exact E2|]. split; [exact E3|].
    set (k := fun c => existsb (irrep_eqb c) l). apply (reduced_sames _ _ _ W (filter (fun t => k (fst t)) (family x)) (family y) SW); [|apply (reduced_filter _ _ Pr k K); [intros c; reflexivity|exact HR]].
    assert (L : forall z, In z (all_idx (lead x)) -> length (arr x z) = dim (irr x)) by (intros; apply coherent_len; assumption).
    eapply sames_trans; [apply sames_filter, plets_blocks, L|]. rewrite filter_flat_map. apply sames_sym. unfold family. rewrite E1.
    set (sg := filter (fun j => wants (Some (ByIrreps l)) None None (nth j (irr x) dflt)) (seq 0 (length (irr x)))).
    assert (F : filter (wants (Some (ByIrreps l)) None None) (irr x) = map (fun j => nth j (irr x) dflt) sg) by (rewrite <- (ArrayOps.select_filter (wants (Some (ByIrreps l)) None None) (irr x)); apply select_index; reflexivity). rewrite F.
    eapply sames_trans; [apply plets_ext; intros z Hz; rewrite (E4 z (in_valid _ _ Hz)); rewrite (select_index _ (irr x) dflt _ []) by apply blocks_length; reflexivity|]. fold sg.
    eapply sames_trans; [apply plets_select; [exact L|]; intros j Hj; apply filter_In in Hj as [Hj _]; apply in_seq in Hj; lia|].
    unfold sg. rewrite flat_map_filter. apply sames_flat_map. intros j Hj. unfold block_plets, mflat. rewrite filter_block. unfold wants, selects. fold k. destruct (k (snd (nth j (irr x) dflt))) eqn:Q; unfold k in Q; rewrite Q; apply sames_refl.
Qed.

(* ---------- reduce_basis_product ---------- *)
Lemma flat_map_swap {T U S} (f : T -> U -> list S) A B : Permutation (flat_map (fun a => flat_map (fun b => f a b) B) A) (flat_map (fun b => flat_map (fun a => f a b) A) B).
Proof.
  induction A as [|a A IH]; cbn [flat_map]; [induction B; [constructor|assumption]|].
  transitivity (flat_map (fun b => f a b) B ++ flat_map (fun b => flat_map (fun a => f a b) A) B); [apply Permutation_app_head, IH|]. clear.
  induction B as [|b B IH]; [constructor|]. cbn [flat_map]. rewrite <- !app_assoc. apply Permutation_app_head. rewrite <- IH. rewrite !app_assoc. apply Permutation_app_tail, Permutation_app_comm.
Qed.
Lemma flat_map_perm_in {T S} (f g : T -> list S) A : (forall a, In a A -> Permutation (f a) (g a)) -> Permutation (flat_map f A) (flat_map g A).
Proof. induction A as [|a A IH]; intros H; [constructor|]. cbn [flat_map]. apply Permutation_app; [apply H; left; reflexivity|apply IH; intros b Hb; apply H; right; exact Hb]. Qed.
Lemma flat_map_flat_map {T U S} (f : U -> list S) (g : T -> list U) A : flat_map f (flat_map g A) = flat_map (fun a => flat_map f (g a)) A.
Proof. induction A as [|a A IH]; [reflexivity|]. cbn [flat_map]. rewrite flat_map_app, IH. reflexivity. Qed.
Lemma flat_map_map {T U S} (f : U -> list S) (g : T -> U) A : flat_map f (map g A) = flat_map (fun a => f (g a)) A.
Proof. induction A as [|a A IH]; [reflexivity|]. cbn [flat_map map]. rewrite IH. reflexivity. Qed.
Lemma map_flat {T S} (f : T -> S) A : map f A = flat_map (fun a => [f a]) A.
Proof. induction A as [|a A IH]; [reflexivity|]. cbn [flat_map map app]. rewrite IH. reflexivity. Qed.
Lemma rowof_paths (cs : list bpath) (V : bpath -> nat -> nat -> R) : rowof (bil_out cs) (fun q => V (nth q cs dpath)) = concat (map (fun p => concat (tab2 (b_mul p) (ir_dim (b_out p)) (V p))) cs).
Proof. induction cs as [|p cs IH]; [reflexivity|]. cbn [bil_out map rowof concat fst snd nth]. f_equal. exact IH. Qed.
Lemma enumerate_map {T} (l : list T) d : enumerate l = map (fun k => (k, nth k l d)) (seq 0 (length l)).
Proof. unfold enumerate. rewrite <- (map_nth_all l d) at 2. generalize (seq 0 (length l)). intros s. induction s as [|k s IH]; [reflexivity|]. cbn [map combine]. rewrite IH. reflexivity. Qed.
Lemma map_nth_pairs {S} (f : nat * nat -> S) l d : map (fun w => f (nth w l d)) (seq 0 (length l)) = map f l.
Proof. rewrite <- (map_map (fun w => nth w l d) f). rewrite map_nth_all. reflexivity. Qed.
Lemma tp_paths_form nrm flt x y : tp_paths nrm flt x y = flat_map (fun k1 => flat_map (fun k2 => map (fun c => BP k1 k2 (pairs_all (fst (nth k1 x dflt)) (fst (nth k2 y dflt))) (fst (nth k1 x dflt) * fst (nth k2 y dflt)) c (norm_factor nrm (snd (nth k1 x dflt)) (snd (nth k2 y dflt)) c)) (filter (passes flt) (ir_mul (snd (nth k1 x dflt)) (snd (nth k2 y dflt))))) (seq 0 (length y))) (seq 0 (length x)).
Proof.
  unfold tp_paths. rewrite (enumerate_map x dflt), (enumerate_map y dflt), flat_map_map. apply flat_map_ext. intros k1. destruct (nth k1 x dflt) as [m1 a]. rewrite flat_map_map. apply flat_map_ext. intros k2. destruct (nth k2 y dflt) as [m2 b]. reflexivity.
Qed.
Section Prod.
Variables (Z : list idx) (ia ib : idx -> idx) (k : option (list irrep)) (x y : irreps) (a b : idx -> list R).
Let f (k1 k2 u v : nat) (c : irrep) : mult idx := product ia ib (epl x a k1 u) (epl y b k2 v) c.
Lemma products_eplets : Permutation (products ia ib (passes k) (eplets x a) (eplets y b))
  (flat_map (fun k1 => flat_map (fun k2 => flat_map (fun c => flat_map (fun u => map (fun v => f k1 k2 u v c) (seq 0 (fst (nth k2 y dflt)))) (seq 0 (fst (nth k1 x dflt)))) (filter (passes k) (ir_mul (snd (nth k1 x dflt)) (snd (nth k2 y dflt))))) (seq 0 (length y))) (seq 0 (length x))).
Proof.
  unfold products, eplets. rewrite flat_map_flat_map. apply flat_map_perm_in. intros k1 _. rewrite flat_map_map.
  rewrite (flat_map_ext _ (fun u => flat_map (fun k2 => flat_map (fun v => map (f k1 k2 u v) (filter (passes k) (ir_mul (snd (nth k1 x dflt)) (snd (nth k2 y dflt))))) (seq 0 (fst (nth k2 y dflt)))) (seq 0 (length y)))).
  2:{ intros u. rewrite flat_map_flat_map. apply flat_map_ext. intros k2. rewrite flat_map_map. reflexivity. }
  rewrite flat_map_swap. apply flat_map_perm_in. intros k2 _.
  transitivity (flat_map (fun u => flat_map (fun c => map (fun v => f k1 k2 u v c) (seq 0 (fst (nth k2 y dflt)))) (filter (passes k) (ir_mul (snd (nth k1 x dflt)) (snd (nth k2 y dflt))))) (seq 0 (fst (nth k1 x dflt)))).
  - apply flat_map_perm_in. intros u _. rewrite (flat_map_ext _ (fun v => flat_map (fun c => [f k1 k2 u v c]) (filter (passes k) (ir_mul (snd (nth k1 x dflt)) (snd (nth k2 y dflt)))))) by (intros; apply map_flat). rewrite flat_map_swap. apply flat_map_perm_in. intros c _. rewrite map_flat. reflexivity.
  - apply flat_map_swap.
Qed.
Lemma bil_similar (rx ry : idx -> list R) : (forall z, In z Z -> rx z = a (ia z)) -> (forall z, In z Z -> ry z = b (ib z)) ->
  similar Z (products ia ib (passes k) (eplets x a) (eplets y b)) (plets (flat (bil_out (tp_paths NComponent k x y))) 0 (fun z => bil_row clebsch_gordan (tp_paths NComponent k x y) x y (rx z) (ry z))).
Proof.
  intros Hx Hy. eapply similar_trans; [apply similar_perm, products_eplets|]. apply similar_sames, sames_sym. set (ps := tp_paths NComponent k x y).
  eapply sames_trans; [apply plets_ext; intros z Hz; unfold bil_row; rewrite rowof_paths; reflexivity|].
  eapply sames_trans; [apply (plets_concat Z (fun p => (b_mul p, b_out p)) (fun p z => concat (tab2 (b_mul p) (ir_dim (b_out p)) (path_val clebsch_gordan x y (rx z) (ry z) p))))|].
  { intros p z _ _. destruct (tab2_wf (b_mul p) (ir_dim (b_out p)) (path_val clebsch_gordan x y (rx z) (ry z) p)) as [L W]. rewrite (concat_length_uniform _ _ W), L. reflexivity. }
  unfold ps. rewrite tp_paths_form, flat_map_flat_map. apply sames_flat_map. intros k1 Hk1. rewrite flat_map_flat_map. apply sames_flat_map. intros k2 Hk2. rewrite flat_map_map. apply sames_flat_map. intros c Hc. cbn [b_mul b_out].
  set (m1 := fst (nth k1 x dflt)). set (m2 := fst (nth k2 y dflt)). set (p := BP k1 k2 (pairs_all m1 m2) (m1 * m2) c (norm_factor NComponent (snd (nth k1 x dflt)) (snd (nth k2 y dflt)) c)).
  unfold mflat. cbn [fst snd]. eapply sames_trans; [apply plets_copies|].
  assert (E : flat_map (fun u => map (fun v => f k1 k2 u v c) (seq 0 m2)) (seq 0 m1) = map (fun w => f k1 k2 (fst (nth w (pairs_all m1 m2) (0, 0)%nat)) (snd (nth w (pairs_all m1 m2) (0, 0)%nat)) c) (seq 0 (m1 * m2))).
  { rewrite <- (pairs_all_length m1 m2) at 1. rewrite (map_nth_pairs (fun q => f k1 k2 (fst q) (snd q) c)). unfold pairs_all. rewrite !map_flat, flat_map_flat_map. apply flat_map_ext. intros u. rewrite <- map_flat, map_map. reflexivity. }
  rewrite E. apply sames_map. intros w Hw. apply in_seq in Hw. split; [reflexivity|]. cbn [fst snd]. intros z q Hz Hq. rewrite Nat.add_0_l.
  destruct (tab2_wf (m1 * m2) (ir_dim c) (path_val clebsch_gordan x y (rx z) (ry z) p)) as [TL TW]. rewrite (nth_concat (ir_dim c)) by (auto; lia). unfold tab2. rewrite nth_tab by lia. rewrite nth_tab by exact Hq.
  unfold path_val, p. cbn [b_in1 b_in2 b_pairs b_out b_alpha]. destruct (nth w (pairs_all m1 m2) (0, 0)%nat) as [u v]. unfold f, product, couple, epl, pair_family. cbn [fst snd]. rewrite (Hx z Hz), (Hy z Hz). rewrite <- rsum_scal. apply rsum_ext. intros i _. rewrite <- rsum_scal. apply rsum_ext. intros j _. unfold cpl, norm_factor. change (nth k1 x d0) with (nth k1 x dflt). change (nth k2 y d0) with (nth k2 y dflt). ring.
Qed.
End Prod.

(* ---------- broadcasting of two masked shapes ---------- *)
Lemma bshape_rev_snoc s t u a b c : length s = length t -> bshape_rev s t = Ok u -> bdim a b = Ok c -> bshape_rev (s ++ [a]) (t ++ [b]) = Ok (u ++ [c]).
Proof.
  revert t u. induction s as [|p s IH]; intros [|q t] u L E Ec; try discriminate.
  - cbn in *. injection E as <-. rewrite Ec. reflexivity.
  - injection L as L. cbn [bshape_rev app] in *. destruct (bdim p q) as [d|]; [|discriminate]. cbn [bind] in *. destruct (bshape_rev s t) as [r|] eqn:Er; [|discriminate]. cbn [bind] in E. injection E as <-. rewrite (IH t r L Er Ec). reflexivity.
Qed.
Lemma broadcast_cons a b c s t u : length s = length t -> broadcast_shapes s t = Ok u -> bdim a b = Ok c -> broadcast_shapes (a :: s) (b :: t) = Ok (c :: u).
Proof.
  intros L E Ec. unfold broadcast_shapes in *. destruct (bshape_rev (rev s) (rev t)) as [r|] eqn:Er; [|discriminate]. cbn [rmap] in E. injection E as <-. cbn [rev]. rewrite (bshape_rev_snoc (rev s) (rev t) r a b c) by (rewrite ?rev_length; auto). cbn [rmap]. rewrite rev_app_distr. reflexivity.
Qed.
Lemma bidx_rev_snoc s z a k : length s = length z -> bidx_rev (s ++ [a]) (z ++ [k]) = bidx_rev s z ++ [if (a =? 1)%nat then 0%nat else k].
Proof. revert z. induction s as [|p s IH]; intros [|q z] L; try discriminate; [reflexivity|]. injection L as L. cbn [app bidx_rev]. rewrite IH by exact L. reflexivity. Qed.
Lemma bidx_cons a s k z : length s = length z -> bidx (a :: s) (k :: z) = (if (a =? 1)%nat then 0%nat else k) :: bidx s z.
Proof. intros L. unfold bidx. cbn [rev]. rewrite bidx_rev_snoc by (rewrite !rev_length; exact L). rewrite rev_app_distr. reflexivity. Qed.
Lemma mk_length m ls : length ls = length m -> length (mk m ls) = length m.
Proof. revert ls. induction m as [|b m IH]; intros [|l ls] L; try discriminate; [reflexivity|]. injection L as L. cbn [mk length]. rewrite IH by exact L. reflexivity. Qed.
Lemma tdims_length ls : length (tdims ls) = length ls. Proof. apply map_length. Qed.
Lemma dm_length ma mb mu : disjoint_masks ma mb mu -> length ma = length mu /\ length mb = length mu.
Proof. induction 1 as [| | |]; cbn [length]; intuition. Qed.
Lemma bdim_1_r d : bdim d 1 = Ok d.
Proof. unfold bdim. destruct (Nat.eqb_spec d 1) as [-> |N]; reflexivity. Qed.
Lemma bdim_1_l d : bdim 1 d = Ok d.
Proof. unfold bdim. destruct (Nat.eqb_spec 1 d) as [<- |N]; reflexivity. Qed.
Lemma broadcast_masks ma mb mu ls : disjoint_masks ma mb mu -> length ls = length mu -> broadcast_shapes (tdims (mk ma ls)) (tdims (mk mb ls)) = Ok (tdims (mk mu ls)).
Proof.
  intros H. revert ls. induction H as [|m m' u H IH|m m' u H IH|m m' u H IH]; intros ls L.
  - reflexivity.
  - destruct ls as [|l ls]; [discriminate|]. injection L as L. destruct (dm_length _ _ _ H). cbn [mk tdims map]. apply broadcast_cons; [rewrite !map_length, !mk_length; congruence|apply IH, L|apply bdim_1_r].
  - destruct ls as [|l ls]; [discriminate|]. injection L as L. destruct (dm_length _ _ _ H). cbn [mk tdims map]. apply broadcast_cons; [rewrite !map_length, !mk_length; congruence|apply IH, L|apply bdim_1_l].
  - destruct ls as [|l ls]; [discriminate|]. injection L as L. destruct (dm_length _ _ _ H). cbn [mk tdims map]. apply broadcast_cons; [rewrite !map_length, !mk_length; congruence|apply IH, L|reflexivity].
Qed.
(* m keeps a part of the coordinates kept by u *)
Inductive submask : list bool -> list bool -> Prop := sm_nil : submask [] [] | sm_cons b c m u : (b = true -> c = true) -> submask m u -> submask (b :: m) (c :: u).
Lemma dm_sub ma mb mu : disjoint_masks ma mb mu -> submask ma mu /\ submask mb mu.
Proof. induction 1 as [| | |]; split; constructor; intuition. Qed.
Lemma bidx_mask m u ls z : submask m u -> length ls = length u -> In z (space (mk u ls)) -> bidx (tdims (mk m ls)) z = keepz m z.
Proof.
  intros H. revert ls z. induction H as [|b c m u Hb H IH]; intros ls z L Hz.
  - destruct Hz as [<-|[]]. reflexivity.
  - destruct ls as [|l ls]; [discriminate|]. injection L as L. cbn [mk] in Hz. apply in_all_idx_inv in Hz as (k & i & -> & Hk & Hi). cbn [mk tdims map keepz].
    assert (Lm : length m = length u) by (clear -H; induction H; cbn [length]; congruence).
    rewrite bidx_cons. 2:{ rewrite map_length, mk_length by congruence. apply all_idx_valid in Hi. apply Forall2_length in Hi. rewrite Hi. fold (tdims (mk u ls)). rewrite tdims_length, mk_length by exact L. exact Lm. }
    f_equal; [|apply IH; [exact L|exact Hi]]. destruct b; [|reflexivity]. rewrite (Hb eq_refl) in Hk. destruct (Nat.eqb_spec (dims l) 1) as [E|N]; [lia|reflexivity].
Qed.

(* ---------- the product of two bases ---------- *)
Definition good (ls : list (list irrep)) (K : irrep -> Prop) (W : (idx -> R) -> Prop) (b : iarray) : Prop :=
  coherent b /\ lead b = tdims ls /\ subspace (space ls) W /\ reduced (space ls) (rho ls) K W (family b).
Lemma good_regroup ls K W b : good ls K W b -> exists y, ia_regroup b = Ok y /\ irr y = regroup_irreps (irr b) /\ good ls K W y.
Proof.
  intros (C & L & SW & HR). unfold space in *. rewrite <- L in *. destruct (regroup_reduced (rho ls) K W b C SW HR) as (y & E & E1 & E2 & E3 & E4). exists y. split; [exact E|]. split; [exact E1|]. unfold good, space. rewrite <- L. auto.
Qed.
Theorem product_step keep ma mb mu ls Ka Wa a Kb Wb b : disjoint_masks ma mb mu -> length ls = length mu -> good (mk ma ls) Ka Wa a -> good (mk mb ls) Kb Wb b ->
  (forall ir c, passes keep ir = true -> reach ir (mk mb ls) c -> Ka c) -> (forall ir c, passes keep ir = true -> reach ir (mk ma ls) c -> Kb c) ->
  exists y, reduce_basis_product a b keep = Ok y /\ positive (irr y) /\ good (mk mu ls) (fun c => passes keep c = true) (both (space (mk ma ls)) (space (mk mb ls)) (joinz ma) Wa Wb) y.
Proof.
  intros DM L Ga Gb HKa HKb. destruct (dm_sub _ _ _ DM) as [Sa Sb]. pose proof (masked_product ma mb mu ls DM L) as PS.
  destruct (good_regroup _ _ _ _ Ga) as (a1 & Ea & Ia & Ga1). destruct (good_regroup _ _ _ _ Gb) as (b1 & Eb & Ib & Gb1). destruct Ga1 as (Ca & La & SWa & Ra). destruct Gb1 as (Cb & Lb & SWb & Rb).
  pose proof (broadcast_masks ma mb mu ls DM L) as BS. assert (BS' : broadcast_shapes (lead a1) (lead b1) = Ok (tdims (mk mu ls))) by (rewrite La, Lb; exact BS).
  destruct (prepare_yields a1 b1 _ Ca Cb BS') as (a2 & b2 & Ep & Ia2 & La2 & Ca2 & Va2 & Ib2 & Lb2 & Cb2 & Vb2).
  unfold reduce_basis_product. rewrite Ea. cbn [bind]. rewrite Eb. cbn [bind]. rewrite Ep. cbn [bind].
  destruct (bil_core_yields clebsch_gordan NComponent (tp_paths NComponent keep (irr a2) (irr b2)) a2 b2 (tdims (mk mu ls)) Ca2 Cb2 La2 Lb2 (tp_paths_ok NComponent keep _ _) ltac:(discriminate)) as (z & Ez & Iz & Lz & Cz & Vz). rewrite Ez. cbn [bind].
  set (W := both (space (mk ma ls)) (space (mk mb ls)) (joinz ma) Wa Wb).
  assert (SW : subspace (space (mk mu ls)) W) by (apply (both_subspace _ _ _ _ _ _ _ _ _ PS); assumption).
  assert (Gz : good (mk mu ls) (fun c => passes keep c = true) W z).
  { split; [exact Cz|]. split; [exact Lz|]. split; [exact SW|]. destruct (space_full (mk ma ls)) as (Fa & FFa & Ta). destruct (space_full (mk mb ls)) as (Fb & FFb & Tb).
    assert (Ra' : reduced (space (mk ma ls)) (rho (mk ma ls)) Ka Wa (eplets (irr a1) (arr a1))) by (apply (reduced_sames _ _ Ka Wa (family a1) _ SWa); [|exact Ra]; apply plets_eplets; intros y Hy; apply coherent_len; [exact Ca|rewrite La; exact Hy]).
    assert (Rb' : reduced (space (mk mb ls)) (rho (mk mb ls)) Kb Wb (eplets (irr b1) (arr b1))) by (apply (reduced_sames _ _ Kb Wb (family b1) _ SWb); [|exact Rb]; apply plets_eplets; intros y Hy; apply coherent_len; [exact Cb|rewrite Lb; exact Hy]).
    pose proof (product_reduced _ _ _ _ _ _ _ _ _ PS (space_preserving _) (space_preserving _) (passes keep) Ka Wa _ Kb Wb _ Fa Fb Ra' Rb' SWa SWb FFa FFb) as Q.
    refine (reduced_similar _ _ _ W _ (family z) SW _ (Q _ _)).
    - unfold family. rewrite Iz, Ia2, Ib2. eapply similar_trans; [apply (bil_similar (space (mk mu ls)) (keepz ma) (keepz mb) keep (irr a1) (irr b1) (arr a1) (arr b1) (arr a2) (arr b2))|].
      + intros y Hy. rewrite (Va2 y (in_valid _ _ Hy)), La. f_equal. apply (bidx_mask ma mu); assumption.
      + intros y Hy. rewrite (Vb2 y (in_valid _ _ Hy)), Lb. f_equal. apply (bidx_mask mb mu); assumption.
      + apply similar_sames, plets_ext. intros y Hy. rewrite (Vz y (in_valid _ _ Hy)), Ia2, Ib2. reflexivity.
    - intros ir u c Kir Hu Hc. apply (HKa ir c Kir). exact (Tb u ir c Hu Hc).
    - intros ir u c Kir Hu Hc. apply (HKb ir c Kir). exact (Ta u ir c Hu Hc). }
  destruct (good_regroup _ _ _ _ Gz) as (y & Ey & Iy & Gy). exists y. split; [exact Ey|]. split; [rewrite Iy; apply positive_simplify|exact Gy].
Qed.
