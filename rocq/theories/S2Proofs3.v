(* What to_s2grid and from_s2grid compute: sums of spherical harmonics and discrete inner products. *)
From Coq Require Import Reals Lra ZArith Lia FunctionalExtensionality Permutation Sorted.
From Coquelicot Require Import Coquelicot.
From Verif Require Import PyBase IrrepsModel IrrepsProofs IrrepsProofs2 PermProofs ArrayModel ArrayProofs ArrayOps ArithProofs RechunkProofs EquivProofs StableSort SumR CGModel TrigProofs PolyProofs S2Model LegendreProofs S2Proofs S2Proofs2.
From Verif Require Import EntryProofs.
Open Scope R_scope.

(* the sum over all coefficients of a row *)
Definition expansion (n : nat -> R) (x : irreps) (row : list R) (Y : nat -> Z -> R) : R :=
  rsum (length x) (fun k => rsum (mult x k) (fun u => rsum (2 * deg x k + 1) (fun j => n (deg x k) * entry x row k u j * Y (deg x k) (Z.of_nat j - Z.of_nat (deg x k))%Z))).
Lemma expansion_coeffs n x row Y : length row = dim x ->
  rsum (num_coeffs (ls x)) (fun i => n (fst (decode (ls x) i)) * nth i row 0 * Y (fst (decode (ls x) i)) (order_of (decode (ls x) i))) = expansion n x row Y.
Proof. intros L. exact (rsum_entries x row (fun p v => n (fst p) * v * Y (fst p) (order_of p)) L). Qed.

(* regrouping does not change the sum *)
Lemma rsum_blocks (F : nat * nat -> R -> R) x bs : Forall2 (fun m b => length b = mi_dim m) x bs ->
  rsum (num_coeffs (ls x)) (fun i => F (decode (ls x) i) (nth i (concat bs) 0)) =
  lsum (combine x bs) (fun mb => rsum (mi_dim (fst mb)) (fun i => F (decode (repeat (ir_l (snd (fst mb))) (fst (fst mb))) i) (nth i (snd mb) 0))).
Proof.
  induction 1 as [|[mul ir] b x bs Hb H IH]; [reflexivity|]. change (ls ((mul, ir) :: x)) with (repeat (ir_l ir) mul ++ ls x). cbn [combine concat]. rewrite lsum_cons, <- IH, num_coeffs_app, rsum_add. cbn [fst snd].
  assert (E : num_coeffs (repeat (ir_l ir) mul) = mi_dim (mul, ir)) by (rewrite num_repeat; unfold mi_dim, ir_dim; cbn [fst snd]; lia). rewrite E. f_equal.
  - apply rsum_ext. intros i Hi. rewrite decode_app, E. replace (i <? mi_dim (mul, ir))%nat with true by (symmetry; apply Nat.ltb_lt; exact Hi). rewrite app_nth1 by (rewrite Hb; exact Hi). reflexivity.
  - apply rsum_ext. intros i Hi. rewrite decode_app, E. replace (mi_dim (mul, ir) + i <? mi_dim (mul, ir))%nat with false by (symmetry; apply Nat.ltb_ge; lia). rewrite app_nth2 by (rewrite Hb; lia). rewrite Hb. replace (mi_dim (mul, ir) + i - mi_dim (mul, ir))%nat with i by lia. reflexivity.
Qed.
Lemma lsum_perm {A} (l l' : list A) f : Permutation l l' -> lsum l f = lsum l' f.
Proof. induction 1; rewrite ?lsum_cons; try lra; congruence. Qed.
Lemma ls_flat_eq x y : flat x = flat y -> ls x = ls y.
Proof. intros E. rewrite !ls_flat, E. reflexivity. Qed.
Lemma sort_bound x k : In k (sort_inv_list x) -> (k < length x)%nat.
Proof. intros Hk. pose proof (sort_inv_perm x) as P. apply is_perm_iff in P. rewrite sort_inv_length in P. apply (Permutation_in _ P) in Hk. apply in_seq in Hk. lia. Qed.
Lemma sort_blocks_wf x (row : list R) : length row = dim x -> Forall2 (fun m b => length b = mi_dim m) (sort_irreps x) (map (fun k => nth k (blocks x row) []) (sort_inv_list x)).
Proof.
  intros L. rewrite sort_irreps_map. pose proof (sort_bound x) as B. revert B. generalize (sort_inv_list x). intros l B. induction l as [|k l IH]; [constructor|]. cbn [map]. constructor; [|apply IH; intros j Hj; apply B; right; exact Hj].
  assert (Hk : (k < length x)%nat) by (apply B; left; reflexivity). pose proof (blocks_widths x row L) as W. revert Hk W. generalize (blocks x row) as bs. clear. revert k.
  induction x as [|m x IH]; intros k [|b bs] Hk W; cbn [length] in Hk; try lia; inversion W; subst. destruct k; cbn [nth]; [assumption|]. apply IH; [lia|assumption].
Qed.
Lemma expansion_regroup n x row Y : length row = dim x -> expansion n (regroup_irreps x) (sort_row x row) Y = expansion n x row Y.
Proof.
  intros L. assert (W := sort_blocks_wf x row L).
  assert (Ld : length (sort_row x row) = dim (sort_irreps x)).
  { unfold sort_row. clear -W. induction W as [|m b x0 bs Hb H IH]; [reflexivity|]. cbn [concat]. rewrite app_length, Hb, IH, dim_cons. reflexivity. }
  assert (Lr : length (sort_row x row) = dim (regroup_irreps x)) by (rewrite Ld; unfold regroup_irreps; rewrite !dim_flat, flat_simplify; reflexivity).
  rewrite <- (expansion_coeffs n (regroup_irreps x)), <- (expansion_coeffs n x) by assumption.
  rewrite (ls_flat_eq (regroup_irreps x) (sort_irreps x)) by apply flat_simplify.
  set (F := fun (p : nat * nat) v => n (fst p) * v * Y (fst p) (order_of p)).
  etransitivity; [exact (rsum_blocks F (sort_irreps x) _ W)|]. rewrite sort_irreps_map, combine_of_map, lsum_map.
  pose proof (rsum_blocks F x (blocks x row) (blocks_widths x row L)) as Q. rewrite (concat_blocks x row L) in Q. change (rsum (num_coeffs (ls x)) (fun i => n (fst (decode (ls x) i)) * nth i row 0 * Y (fst (decode (ls x) i)) (order_of (decode (ls x) i)))) with (rsum (num_coeffs (ls x)) (fun i => F (decode (ls x) i) (nth i row 0))). rewrite Q. clear Q.
  set (h := fun mb : mulirrep * list R => _).
  rewrite (lsum_perm (sort_inv_list x) (seq 0 (length x))).
  2:{ pose proof (sort_inv_perm x) as P. apply is_perm_iff in P. rewrite sort_inv_length in P. exact P. }
  rewrite lsum_seq. rewrite (lsum_nth _ (dflt, [])). rewrite combine_length, blocks_length, Nat.min_id. apply rsum_ext. intros k Hk. rewrite combine_nth by (rewrite blocks_length; reflexivity). reflexivity.
Qed.

(* ---- what the checks of to_s2grid and from_s2grid say ---- *)
Definition has (x : irreps) (ir : irrep) : Prop := (0 < count ir x)%nat.
Definition singles (x : irreps) : Prop := forall ir, (count ir x <= 1)%nat.
Definition top (x : irreps) (L : nat) : Prop := (exists ir, has x ir /\ ir_l ir = L) /\ forall ir, has x ir -> (ir_l ir <= L)%nat.
Lemma has_flat x ir : has x ir <-> In ir (flat x).
Proof. unfold has. rewrite count_flat. rewrite (count_occ_In irrep_eq_dec). lia. Qed.
Lemma has_regroup x ir : has (regroup_irreps x) ir <-> has x ir.
Proof. unfold has. rewrite regroup_count. reflexivity. Qed.
Lemma singles_regroup x : singles (regroup_irreps x) <-> singles x.
Proof. unfold singles. split; intros H ir; specialize (H ir); rewrite regroup_count in *; exact H. Qed.
Lemma top_regroup x L : top (regroup_irreps x) L <-> top x L.
Proof. unfold top. split; intros [(ir & A & B) C]; (split; [exists ir; rewrite has_regroup in *; auto|intros ir' H; apply C; rewrite has_regroup in *; exact H]). Qed.
Lemma count_cons ir m x : count ir (m :: x) = ((if irrep_eqb ir (snd m) then fst m else 0) + count ir x)%nat.
Proof. rewrite !count_flat. destruct m as [mul a]. cbn [flat flat_map]. rewrite count_occ_app. f_equal. cbn [fst snd]. induction mul as [|mul IH]; cbn [repeat count_occ]; [destruct (irrep_eqb _ _); reflexivity|]. rewrite IH.
  destruct (irrep_eq_dec a ir) as [->|N]; [replace (irrep_eqb ir ir) with true by (symmetry; unfold irrep_eqb; rewrite Nat.eqb_refl; destruct (ir_p ir); reflexivity); reflexivity|].
  replace (irrep_eqb ir a) with false; [reflexivity|]. symmetry. destruct (irrep_eqb ir a) eqn:E; [|reflexivity]. exfalso. apply N. destruct a as [l p], ir as [l' p']. unfold irrep_eqb in E. cbn [ir_l ir_p] in E. apply andb_prop in E as [E1 E2]. apply Nat.eqb_eq in E1. destruct p, p'; try discriminate; congruence. Qed.
Lemma irrep_eqb_refl a : irrep_eqb a a = true.
Proof. unfold irrep_eqb. rewrite Nat.eqb_refl. destruct (ir_p a); reflexivity. Qed.
Lemma count_In mul ir x : In (mul, ir) x -> (mul <= count ir x)%nat.
Proof. induction x as [|m x IH]; [contradiction|]. intros [->|H]; rewrite count_cons; [cbn [fst snd]; rewrite irrep_eqb_refl; lia|specialize (IH H); lia]. Qed.
Lemma regroup_all_ones x : all_ones (regroup_irreps x) = true <-> singles x.
Proof.
  unfold all_ones. rewrite forallb_forall. rewrite <- singles_regroup. pose proof (regroup_strict x) as S. assert (P : positive (regroup_irreps x)) by apply positive_simplify. revert S P. generalize (regroup_irreps x) as r. clear x. intros r S P. split.
  - intros H ir. induction S as [|[mul a] r S IH F]; [cbn; lia|]. rewrite count_cons. cbn [fst snd]. inversion_clear P as [|? ? P1 P2].
    assert (I : (count ir r <= 1)%nat) by (apply IH; [exact P2|intros m Hm; apply H; right; exact Hm]). destruct (irrep_eqb ir a) eqn:E; [|exact I].
    assert (M : mul = 1%nat) by (specialize (H (mul, a) (or_introl eq_refl)); cbn [fst] in H; apply Nat.eqb_eq in H; exact H). rewrite M.
    assert (Z : count ir r = 0%nat); [|rewrite Z; cbn; lia]. clear -F E. rewrite Forall_forall in F. induction r as [|[m' a'] r IH]; [reflexivity|]. rewrite count_cons, IH by (intros z Hz; apply F; right; exact Hz). cbn [fst snd].
    specialize (F (m', a') (or_introl eq_refl)). cbn [snd] in F. destruct (irrep_eqb ir a') eqn:E'; [|reflexivity]. exfalso. assert (a = a').
    { destruct a as [l p], a' as [l' p'], ir as [l0 p0]. unfold irrep_eqb in E, E'. cbn [ir_l ir_p] in *. apply andb_prop in E as [E1 E2]. apply andb_prop in E' as [E3 E4]. apply Nat.eqb_eq in E1, E3. destruct p, p', p0; try discriminate; congruence. }
    subst a'. rewrite ir_ltb_irrefl in F. discriminate.
  - intros H [mul a] I. pose proof (count_In _ _ _ I). specialize (H a). unfold positive in P. rewrite Forall_forall in P. specialize (P _ I). cbn [fst] in *. apply Nat.eqb_eq. lia.
Qed.
Lemma ir_le_l a b : ir_le a b -> (ir_l a <= ir_l b)%nat.
Proof.
  intros [H| ->]; [|lia]. unfold ir_ltb, ir_key in H. apply orb_prop in H as [H|H]; [apply Nat.ltb_lt in H; lia|]. apply andb_prop in H as [H _]. apply Nat.eqb_eq in H. lia.
Qed.
Lemma sorted_last (l : list nat) a t : StronglySorted le l -> rev l = a :: t -> Forall (fun z => (z <= a)%nat) l.
Proof.
  intros S E. assert (El : l = rev t ++ [a]) by (rewrite <- (rev_involutive l), E; reflexivity). rewrite El in *. clear E El. revert S. generalize (rev t) as r. clear. induction r as [|b r IH]; intros S; [repeat constructor|]. cbn [app] in *. inversion_clear S as [|? ? S1 S2]. constructor; [|apply IH, S1].
  rewrite Forall_forall in S2. apply S2. apply in_or_app. right. left. reflexivity.
Qed.
Lemma regroup_last x L : top x L -> exists t, rev (ls (regroup_irreps x)) = L :: t.
Proof.
  intros T. apply top_regroup in T as [(ir & H & E) B]. rewrite ls_flat. set (r := regroup_irreps x) in *.
  assert (So : StronglySorted le (map ir_l (flat r))).
  { assert (S : StronglySorted ir_le (flat r)) by (unfold r, regroup_irreps; rewrite flat_simplify; apply sorted_flat, sort_irreps_StronglySorted). induction S as [|a l S IH F]; [constructor|]. cbn [map]. constructor; [exact IH|]. rewrite Forall_map. eapply Forall_impl; [|exact F]. intros b. apply ir_le_l. }
  apply has_flat in H. assert (I : In L (map ir_l (flat r))) by (rewrite <- E; apply in_map, H).
  destruct (rev (map ir_l (flat r))) as [|a t] eqn:R; [rewrite <- (rev_involutive (map ir_l (flat r))), R in I; contradiction|]. exists t. f_equal.
  pose proof (sorted_last _ _ _ So R) as F. rewrite Forall_forall in F. specialize (F L I).
  assert (Ia : In a (map ir_l (flat r))) by (rewrite <- (rev_involutive (map ir_l (flat r))), R; apply in_rev; rewrite rev_involutive; left; reflexivity). apply in_map_iff in Ia as (ir' & <- & H'). apply has_flat, B in H'. lia.
Qed.
Lemma top_bound x L : top x L -> Forall (fun l => (l <= L)%nat) (ls x).
Proof. intros [_ B]. rewrite ls_flat, Forall_map, Forall_forall. intros ir H. apply B, has_flat, H. Qed.
Lemma no_last x : (forall ir, ~ has x ir) -> rev (ls (regroup_irreps x)) = [].
Proof. intros H. rewrite ls_flat. destruct (flat (regroup_irreps x)) as [|a l] eqn:E; [reflexivity|]. exfalso. apply (H a). apply has_regroup, has_flat. rewrite E. left. reflexivity. Qed.

(* ---- to_s2grid ---- *)
Lemma rsum_swap_delta n N (f : nat -> nat -> R) (g : nat -> nat) : (forall k, (k < N)%nat -> (g k < n)%nat) -> rsum n (fun c => rsum N (fun k => if (c =? g k)%nat then f c k else 0)) = rsum N (fun k => f (g k) k).
Proof. intros H. rewrite rsum_swap. apply rsum_ext. intros k Hk. apply (rsum_delta n (g k) (fun c => f c k)). apply H, Hk. Qed.
Lemma signal_value L x n y row b alpha : top x L -> length row = dim x ->
  rsum (2 * L + 1) (fun m => nth m (tab (2 * L + 1) (fun m => rsum (num_coeffs (ls x)) (fun k => beta_matrix L (ls x) n y m b k * nth k row 0))) 0 * trig (Z.of_nat m - Z.of_nat L) alpha) =
  expansion n x row (fun l m => Ylm l m (y b) alpha).
Proof.
  intros T Lr. rewrite <- expansion_coeffs by exact Lr. pose proof (top_bound x L T) as B.
  assert (D : forall k, (k < num_coeffs (ls x))%nat -> (L - fst (decode (ls x) k) + snd (decode (ls x) k) < 2 * L + 1)%nat /\ (fst (decode (ls x) k) <= L)%nat).
  { intros k Hk. destruct (decode_spec _ _ Hk) as [A C]. rewrite Forall_forall in B. specialize (B _ A). lia. }
  rewrite (rsum_ext _ _ (fun c => rsum (num_coeffs (ls x)) (fun k => if (c =? L - fst (decode (ls x) k) + snd (decode (ls x) k))%nat then
     n (fst (decode (ls x) k)) * sh_beta (fst (decode (ls x) k)) (Z.abs_nat (order_of (decode (ls x) k))) (y b) * nth k row 0 * trig (Z.of_nat c - Z.of_nat L) alpha else 0))).
  - rewrite (rsum_swap_delta _ _ (fun c k => n (fst (decode (ls x) k)) * sh_beta (fst (decode (ls x) k)) (Z.abs_nat (order_of (decode (ls x) k))) (y b) * nth k row 0 * trig (Z.of_nat c - Z.of_nat L) alpha) (fun k => (L - fst (decode (ls x) k) + snd (decode (ls x) k))%nat)) by (intros k Hk; apply D, Hk).
    apply rsum_ext. intros k Hk. destruct (D k Hk) as [_ D2]. unfold Ylm. replace (Z.of_nat (L - fst (decode (ls x) k) + snd (decode (ls x) k)) - Z.of_nat L)%Z with (order_of (decode (ls x) k)) by (unfold order_of; lia). ring.
  - intros c Hc. rewrite nth_tab by exact Hc. rewrite <- rsum_scal_r. apply rsum_ext. intros k Hk. rewrite beta_matrix_spec by assumption. cbv zeta. destruct (c =? _)%nat; ring.
Qed.
Lemma to_s2grid_eval lg x B A q n fft pv pa L a b r : coherent x -> top (irr x) L -> singles (irr x) ->
  (pv = None <-> pa = None) -> check_parities (regroup_irreps (irr x)) pv pa = Ok (Some a, Some b) -> quadrature_weights lg q B = Ok r -> (fft = true -> (A mod 2 = 1)%nat /\ (2 * L + 1 <= A)%nat) ->
  exists s, to_s2grid lg x B A q n fft pv pa = Ok s /\ g_lead s = lead x /\ g_beta s = B /\ g_alpha s = A /\ g_quad s = q /\ g_pval s = a /\ g_parg s = b /\
  forall i u v, valid (lead x) i -> (u < B)%nat -> (v < A)%nat -> g_val s i u v = expansion (norm_to_s2 L n) (irr x) (arr x i) (fun l m => Ylm l m (fst r u) (alpha_grid A v)).
Proof.
  intros Co T S1 PN P Q F. unfold to_s2grid. destruct (ia_regroup_yields x Co) as (x' & -> & E1 & E2 & E3 & E4). cbn [bind]. rewrite E1.
  destruct (regroup_last _ _ T) as (t & ->). cbn [bind]. rewrite (proj2 (regroup_all_ones (irr x)) S1). cbn [negb].
  replace (match pv with Some _ => match pa with Some _ => false | None => true end | None => match pa with Some _ => true | None => false end end) with false by (destruct pv, pa; try reflexivity; [destruct PN as [_ PN]; specialize (PN eq_refl); discriminate|destruct PN as [PN _]; specialize (PN eq_refl); discriminate]).
  rewrite P. cbn [bind]. rewrite Q. cbn [bind].
  assert (V : forall i u v, valid (lead x) i -> rsum (2 * L + 1) (fun m => nth m (tab (2 * L + 1) (fun m => rsum (num_coeffs (ls (regroup_irreps (irr x)))) (fun k => beta_matrix L (ls (regroup_irreps (irr x))) (norm_to_s2 L n) (fst r) m u k * nth k (arr x' i) 0))) 0 * trig (Z.of_nat m - Z.of_nat L) (alpha_grid A v)) =
     expansion (norm_to_s2 L n) (irr x) (arr x i) (fun l m => Ylm l m (fst r u) (alpha_grid A v))).
  { intros i u v V. pose proof Co as (Lx & _). pose proof E3 as (Lx' & _). rewrite signal_value.
    - rewrite E4 by exact V. apply (expansion_regroup _ (irr x)). apply Lx, V.
    - apply top_regroup, T.
    - rewrite <- E1. apply Lx'. rewrite E2. exact V. }
  destruct fft.
  - destruct (F eq_refl) as [O H]. rewrite O. cbn [Nat.eqb]. eexists. split; [reflexivity|]. cbn [g_lead g_beta g_alpha g_quad g_pval g_parg g_val]. do 6 (split; [first [reflexivity|exact E2]|]).
    intros i u v Vi Hu Hv. destruct (irfft_row_spec L A (tab (2 * L + 1) (fun m => rsum (num_coeffs (ls (regroup_irreps (irr x)))) (fun k => beta_matrix L (ls (regroup_irreps (irr x))) (norm_to_s2 L n) (fst r) m u k * nth k (arr x' i) 0))) (tab_length _ _) O H) as (w & -> & Lw & W).
    rewrite W by exact Hv. rewrite <- (V i u v Vi). rewrite <- alpha_points. reflexivity.
  - eexists. split; [reflexivity|]. cbn [g_lead g_beta g_alpha g_quad g_pval g_parg g_val]. do 6 (split; [first [reflexivity|exact E2]|]).
    intros i u v Vi Hu Hv. rewrite <- (V i u v Vi). apply rsum_ext. intros m Hm. rewrite sh_alpha_nth by exact Hm. reflexivity.
Qed.

(* ---- from_s2grid ---- *)
Lemma top_max x L : top x L -> max_of (ls x) = Ok L.
Proof.
  intros T. pose proof (top_bound x L T) as B. destruct T as [(ir & H & E) B']. apply has_flat in H. assert (I : In L (ls x)) by (rewrite ls_flat, <- E; apply in_map, H).
  destruct (max_of (ls x)) as [m|e] eqn:M; [|unfold max_of in M; destruct (ls x); [contradiction|discriminate]]. f_equal.
  pose proof (max_of_bound _ _ M) as Bm. pose proof (max_of_in _ _ M) as Im. rewrite Forall_forall in B, Bm. specialize (B _ Im). specialize (Bm _ I). lia.
Qed.
Definition coefficient (A B : nat) (y w : nat -> R) (val : nat -> nat -> R) (l : nat) (m : Z) : R := rsum B (fun b => w b * (rsum A (fun a => val b a * Ylm l m (y b) (alpha_grid A a)) / INR A)).
Lemma from_s2grid_eval lg x out n lin fft L r : top out L -> singles out -> (exists p, check_parities out (Some (g_pval x)) (Some (g_parg x)) = Ok p) ->
  quadrature_weights lg (g_quad x) (g_beta x) = Ok r -> (fft = true -> (L <= g_alpha x / 2)%nat) ->
  exists row, yields (from_s2grid lg x out n lin fft) out (g_lead x) row /\ forall i k u j, inside out k u j ->
    entry out (row i) k u j = norm_from_s2 L n (match lin with None => L | Some l => l end) (deg out k) * coefficient (g_alpha x) (g_beta x) (fst r) (snd r) (g_val x i) (deg out k) (Z.of_nat j - Z.of_nat (deg out k)).
Proof.
  intros T S1 (p & P) Q F. unfold from_s2grid. rewrite regroup_Ok. cbn [bind]. rewrite (proj2 (regroup_all_ones out) S1). cbn [negb]. rewrite P. cbn [bind]. rewrite (top_max out L T). cbn [bind]. rewrite Q. cbn [bind].
  replace (fft && negb (L <=? g_alpha x / 2)%nat) with false by (destruct fft; [rewrite (leb_correct _ _ (F eq_refl)); reflexivity|reflexivity]).
  set (lin' := match lin with None => L | Some l => l end). set (A := g_alpha x) in *. set (B := g_beta x) in *.
  set (int_a := fun (i : idx) (b m : nat) => (if fft then match rfft_row L (tab A (fun a => g_val x i b a)) with Ok v => nth m v 0 | Err _ => 0 end else rsum A (fun a => nth a (tab A (fun a => g_val x i b a)) 0 * nth m (sh_alpha L (alpha_grid A a)) 0)) / INR A).
  assert (IA : forall i b m, (m < 2 * L + 1)%nat -> int_a i b m = rsum A (fun a => g_val x i b a * trig (Z.of_nat m - Z.of_nat L) (alpha_grid A a)) / INR A).
  { intros i b m Hm. unfold int_a. f_equal. destruct fft.
    - rewrite rfft_row_spec by (rewrite tab_length; apply F; reflexivity). rewrite nth_tab by exact Hm. rewrite tab_length. apply rsum_ext. intros a Ha. rewrite nth_tab, alpha_points by exact Ha. reflexivity.
    - apply rsum_ext. intros a Ha. rewrite nth_tab, sh_alpha_nth by assumption. reflexivity. }
  set (row := fun i : idx => tab (num_coeffs (ls out)) (fun k => rsum (2 * L + 1) (fun m => rsum B (fun b => beta_matrix L (ls out) (norm_from_s2 L n lin') (fst r) m b k * snd r b * int_a i b m)))).
  exists row. split.
  - change (yields (mkIA out (g_lead x) (num_coeffs (ls out)) row None None) out (g_lead x) row). rewrite num_ls. apply new_yields. intros i _. unfold row. rewrite tab_length. apply num_ls.
  - intros i k u j H. unfold row. clearbody int_a. pose proof (top_bound out L T) as Bd.
    assert (E : tab (num_coeffs (ls out)) (fun k => rsum (2 * L + 1) (fun m => rsum B (fun b => beta_matrix L (ls out) (norm_from_s2 L n lin') (fst r) m b k * snd r b * int_a i b m)))
       = tab (num_coeffs (ls out)) (fun k => (fun q => norm_from_s2 L n lin' (fst q) * coefficient A B (fst r) (snd r) (g_val x i) (fst q) (order_of q)) (decode (ls out) k))).
    { apply tab_ext. intros c Hc. cbv beta. set (q := decode (ls out) c). destruct (decode_spec _ _ Hc) as [D1 D2]. fold q in D1, D2. assert (D3 : (fst q <= L)%nat) by (rewrite Forall_forall in Bd; apply Bd, D1).
      rewrite rsum_swap. unfold coefficient. rewrite <- rsum_scal. apply rsum_ext. intros b Hb.
      rewrite (rsum_ext _ _ (fun m => if (m =? L - fst q + snd q)%nat then norm_from_s2 L n lin' (fst q) * sh_beta (fst q) (Z.abs_nat (order_of q)) (fst r b) * snd r b * int_a i b m else 0)).
      - rewrite (rsum_delta _ _ (fun m => norm_from_s2 L n lin' (fst q) * sh_beta (fst q) (Z.abs_nat (order_of q)) (fst r b) * snd r b * int_a i b m)) by lia. rewrite IA by lia.
        replace (Z.of_nat (L - fst q + snd q) - Z.of_nat L)%Z with (order_of q) by (unfold order_of; lia).
        rewrite (rsum_ext A (fun a => g_val x i b a * Ylm (fst q) (order_of q) (fst r b) (alpha_grid A a)) (fun a => sh_beta (fst q) (Z.abs_nat (order_of q)) (fst r b) * (g_val x i b a * trig (order_of q) (alpha_grid A a)))) by (intros a _; unfold Ylm; ring). rewrite rsum_scal. unfold Rdiv. ring.
      - intros m _. rewrite beta_matrix_spec by assumption. cbv zeta. fold q. destruct (m =? _)%nat; ring. }
    rewrite E. exact (entry_tab out (fun q => norm_from_s2 L n lin' (fst q) * coefficient A B (fst r) (snd r) (g_val x i) (fst q) (order_of q)) k u j H).
Qed.

(* ---- orthonormality on the grid ---- *)
Lemma Ylm_orthonormal A B d y w l m l' m' : exact_rule B d y w -> (l + l' < d)%nat -> (l + l' < A)%nat -> (Z.abs_nat m <= l)%nat -> (Z.abs_nat m' <= l')%nat ->
  rsum B (fun b => w b / 2 * (rsum A (fun a => Ylm l m (y b) (alpha_grid A a) * Ylm l' m' (y b) (alpha_grid A a)) / INR A)) = if ((l =? l')%nat && (m =? m')%Z) then / (4 * PI) else 0.
Proof.
  intros X D HA Hm Hm'. assert (NA : INR A <> 0) by (apply not_0_INR; lia).
  rewrite (rsum_ext B _ (fun b => if (m =? m')%Z then w b / 2 * (sh_beta l (Z.abs_nat m) (y b) * sh_beta l' (Z.abs_nat m') (y b)) else 0)).
  - destruct (Z.eqb_spec m m') as [<-|N].
    + rewrite (sh_beta_orthonormal B d y w l l' (Z.abs_nat m)) by assumption. rewrite andb_true_r. reflexivity.
    + rewrite andb_false_r. apply rsum_zero. reflexivity.
  - intros b _. rewrite (rsum_ext A _ (fun a => sh_beta l (Z.abs_nat m) (y b) * sh_beta l' (Z.abs_nat m') (y b) * (trig m (points A a) * trig m' (points A a)))) by (intros a _; unfold Ylm; rewrite alpha_points; ring).
    rewrite rsum_scal, trig_orthogonal by lia. destruct (m =? m')%Z; field; exact NA.
Qed.
Lemma order_bound ls i : (i < num_coeffs ls)%nat -> (Z.abs_nat (order_of (decode ls i)) <= fst (decode ls i))%nat.
Proof. intros H. destruct (decode_spec _ _ H) as [_ D]. unfold order_of. lia. Qed.
Lemma coefficient_expansion A B d y w n x L row val l m : exact_rule B d y w -> (L + l < d)%nat -> (L + l < A)%nat -> (Z.abs_nat m <= l)%nat -> top x L -> length row = dim x ->
  (forall b a, (b < B)%nat -> (a < A)%nat -> val b a = expansion n x row (fun l m => Ylm l m (y b) (alpha_grid A a))) ->
  coefficient A B y (fun b => w b / 2) val l m = expansion n x row (fun l' m' => if ((l' =? l)%nat && (m' =? m)%Z) then / (4 * PI) else 0).
Proof.
  intros X D HA Hm T Lr V. unfold coefficient. pose proof (top_bound x L T) as Bd. rewrite <- expansion_coeffs by exact Lr.
  rewrite (rsum_ext B _ (fun b => rsum (num_coeffs (ls x)) (fun i => n (fst (decode (ls x) i)) * nth i row 0 * (w b / 2 * (rsum A (fun a => Ylm (fst (decode (ls x) i)) (order_of (decode (ls x) i)) (y b) (alpha_grid A a) * Ylm l m (y b) (alpha_grid A a)) / INR A))))).
  - rewrite rsum_swap. apply rsum_ext. intros i Hi. rewrite rsum_scal. f_equal. destruct (decode_spec _ _ Hi) as [D1 _]. rewrite Forall_forall in Bd. specialize (Bd _ D1). apply (Ylm_orthonormal A B d); [exact X|lia|lia|apply order_bound, Hi|exact Hm].
  - intros b Hb. rewrite (rsum_ext A _ (fun a => rsum (num_coeffs (ls x)) (fun i => n (fst (decode (ls x) i)) * nth i row 0 * (Ylm (fst (decode (ls x) i)) (order_of (decode (ls x) i)) (y b) (alpha_grid A a) * Ylm l m (y b) (alpha_grid A a))))).
    + rewrite rsum_swap. unfold Rdiv. rewrite <- rsum_scal_r, <- rsum_scal. apply rsum_ext. intros i _. rewrite rsum_scal. ring.
    + intros a Ha. rewrite V by assumption. rewrite <- expansion_coeffs by exact Lr. rewrite <- rsum_scal_r. apply rsum_ext. intros i _. ring.
Qed.
Lemma singles_unique x : singles x -> forall k k', (k < length x)%nat -> (k' < length x)%nat -> (0 < mult x k)%nat -> (0 < mult x k')%nat -> snd (nth k x none) = snd (nth k' x none) -> k = k' /\ mult x k = 1%nat.
Proof.
  unfold mult. induction x as [|[mul ir] x IH]; intros S k k' Hk Hk' M M' E; [cbn in Hk; lia|].
  assert (S' : singles x) by (intros a; specialize (S a); rewrite count_cons in S; lia).
  assert (C : forall k, (k < length x)%nat -> (fst (nth k x none) <= count (snd (nth k x none)) x)%nat) by (intros j Hj; destruct (nth j x none) as [m a] eqn:N; cbn [fst snd]; apply count_In; rewrite <- N; apply nth_In, Hj).
  destruct k as [|k], k' as [|k']; cbn [nth fst snd length] in *.
  - split; [reflexivity|]. specialize (S ir). rewrite count_cons in S. cbn [fst snd] in S. rewrite irrep_eqb_refl in S. lia.
  - exfalso. specialize (S ir). rewrite count_cons in S. cbn [fst snd] in S. rewrite irrep_eqb_refl in S. specialize (C k' ltac:(lia)). rewrite <- E in C. lia.
  - exfalso. specialize (S ir). rewrite count_cons in S. cbn [fst snd] in S. rewrite irrep_eqb_refl in S. specialize (C k ltac:(lia)). rewrite E in C. lia.
  - destruct (IH S' k k' ltac:(lia) ltac:(lia) M M' E) as [-> Q]. auto.
Qed.
Definition form (x : irreps) (a b : parity) : Prop := forall ir, has x ir -> ir_p ir = pmul a (ppow b (ir_l ir)).
Lemma has_nth x k : (k < length x)%nat -> (0 < mult x k)%nat -> has x (snd (nth k x none)).
Proof. intros H M. unfold mult in M. destruct (nth k x none) as [m a] eqn:N. cbn [fst snd] in *. assert (I : In (m, a) x) by (rewrite <- N; apply nth_In, H). apply count_In in I. unfold has. lia. Qed.
Lemma degree_unique x a b k k' : singles x -> form x a b -> (k < length x)%nat -> (k' < length x)%nat -> (0 < mult x k)%nat -> (0 < mult x k')%nat -> deg x k = deg x k' -> k = k' /\ mult x k = 1%nat.
Proof.
  intros S F Hk Hk' M M' E. apply singles_unique; try assumption. pose proof (F _ (has_nth x k Hk M)) as P. pose proof (F _ (has_nth x k' Hk' M')) as P'. unfold deg in E.
  destruct (snd (nth k x none)) as [l p], (snd (nth k' x none)) as [l' p']. cbn [ir_l ir_p] in *. congruence.
Qed.
Lemma expansion_pick n x row a b k u j c : singles x -> form x a b -> inside x k u j ->
  expansion n x row (fun l' m' => if ((l' =? deg x k)%nat && (m' =? Z.of_nat j - Z.of_nat (deg x k))%Z) then c else 0) = n (deg x k) * entry x row k u j * c.
Proof.
  intros S F I. apply inside_cases in I as (Hk & Hu & Hj). unfold expansion.
  destruct (degree_unique x a b k k S F Hk Hk ltac:(lia) ltac:(lia) eq_refl) as [_ M1]. assert (U0 : u = 0%nat) by lia. subst u.
  rewrite (rsum_ext (length x) _ (fun k' => if (k' =? k)%nat then n (deg x k) * entry x row k 0 j * c else 0)).
  - rewrite (rsum_delta (length x) k (fun _ => n (deg x k) * entry x row k 0 j * c)) by exact Hk. reflexivity.
  - intros k' Hk'. destruct (Nat.eqb_spec k' k) as [->|N].
    + rewrite M1. cbn [rsum]. rewrite Rplus_0_l. rewrite (rsum_ext _ _ (fun j' => if (j' =? j)%nat then n (deg x k) * entry x row k 0 j * c else 0)).
      * apply (rsum_delta _ j (fun _ => n (deg x k) * entry x row k 0 j * c)). exact Hj.
      * intros j' _. rewrite Nat.eqb_refl. cbn [andb]. destruct (Nat.eqb_spec j' j) as [->|Nj]; [rewrite Z.eqb_refl; reflexivity|]. replace (Z.of_nat j' - Z.of_nat (deg x k) =? Z.of_nat j - Z.of_nat (deg x k))%Z with false by (symmetry; apply Z.eqb_neq; lia). ring.
    + apply rsum_zero. intros u' Hu'. apply rsum_zero. intros j' _. destruct (Nat.eqb_spec (deg x k') (deg x k)) as [E|_]; [|cbn [andb]; ring].
      exfalso. apply N. apply (degree_unique x a b k' k S F Hk' Hk); [lia|lia|exact E].
Qed.
Lemma expansion_none n x row l m c : (forall k, (k < length x)%nat -> (0 < mult x k)%nat -> deg x k <> l) ->
  expansion n x row (fun l' m' => if ((l' =? l)%nat && (m' =? m)%Z) then c else 0) = 0.
Proof.
  intros H. unfold expansion. apply rsum_zero. intros k Hk. apply rsum_zero. intros u Hu. apply rsum_zero. intros j _. specialize (H k Hk ltac:(lia)). replace (deg x k =? l)%nat with false by (symmetry; apply Nat.eqb_neq; exact H). cbn [andb]. ring.
Qed.
