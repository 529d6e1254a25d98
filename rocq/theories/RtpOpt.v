(* The optimised branch: the all the tuples together. *)
From Coq Require Import Reals Lra Lia List Arith Permutation Sorted ZArith.
From Verif Require Import PyBase PermModel PermProofs IrrepsModel IrrepsProofs IrrepsProofs2 ArrayModel ArrayProofs ArrayOps RechunkProofs LeadModel LeadProofs StackProofs ActProofs EquivProofs EntryProofs LinearProofs ScatterProps SumR S2Proofs3 TPModel TPProofs TPProofs2 RotationModel RotationProofs CGModel WignerModel WignerProofs WignerProofs2 WignerProps WignerProps2 CGComplete MathModel GSProofs BasisProofs MathProps2 BasisProofs2 SymModel SymProofs SymProofs2 SymProps SymProps2 SymProps3 SchurProofs MultProofs CouplingProofs ReducedProofs ConstrainProofs RtpModel RtpSpace RtpTools RtpArr RtpMasks RtpPerm RtpSymModel RtpWords RtpSymmetrize RtpFamily RtpTuples RtpChain RtpMain RtpTerm RtpTerm2 RtpTerm3.
From Verif Require GradProofs RtpProps.
Import ListNotations.
Open Scope R_scope.
Local Notation one := (map (fun ir : irrep => (1%nat, ir))).

(* ---------- the groups of a tuple ---------- *)
Definition groups (p : list nat) : list (nat * nat) := combine (non_zero_indices p) (non_zero_powers p).
Lemma powers_indices p : non_zero_powers p = map (fun i => nth i p 0%nat) (non_zero_indices p).
Proof.
  induction p as [|m p IH]; [reflexivity|]. rewrite nonzero_cons. unfold non_zero_powers in *. cbn [filter]. destruct (Nat.eqb_spec m 0) as [-> |N]; cbn [negb app map nth]; rewrite map_map; cbn [nth]; rewrite IH; reflexivity.
Qed.
Lemma groups_map p : groups p = map (fun i => (i, nth i p 0%nat)) (non_zero_indices p).
Proof. unfold groups. rewrite powers_indices. induction (non_zero_indices p) as [|i l IH]; [reflexivity|]. cbn [map combine]. rewrite IH. reflexivity. Qed.
Lemma groups_fst p : map fst (groups p) = non_zero_indices p.
Proof. rewrite groups_map, map_map. cbn [fst]. apply map_id. Qed.
Lemma groups_snd p : map snd (groups p) = non_zero_powers p.
Proof. rewrite groups_map, map_map, powers_indices. reflexivity. Qed.
Lemma groups_in p i m : In (i, m) (groups p) -> (i < length p)%nat /\ m = nth i p 0%nat /\ m <> 0%nat.
Proof.
  rewrite groups_map, in_map_iff. intros (j & E & H). injection E as -> <-. unfold non_zero_indices in H. apply filter_In in H as [H Q]. apply in_seq in H. split; [lia|]. split; [reflexivity|]. apply Bool.negb_true_iff, Nat.eqb_neq in Q. exact Q.
Qed.
Lemma groups_nodup p : NoDup (map fst (groups p)).
Proof. rewrite groups_fst. apply NoDup_filter, seq_NoDup. Qed.
Lemma letters_groups p : letters (groups p) = word_of p. Proof. reflexivity. Qed.
Lemma nth_le_sum p i : (nth i p 0 <= PyBase.sum p)%nat.
Proof. revert i. unfold PyBase.sum. induction p as [|a p IH]; intros [|i]; cbn [nth fold_right]; try lia. specialize (IH i). lia. Qed.

(* ---------- the symmetrised array ---------- *)
Section Up.
Variables (cs : list irrep) (n : nat) (s : list nat) (b : iarray).
Lemma plets_up l off N : (off + dims l <= N)%nat ->
  sames (space (repeat cs n)) (plets l off (fun z => map (fun c => lsum (distinct_permutations s) (fun '(u, p) => if in_slices (map ir_dim cs) u z then nth c (arr b (transposed p (local (map ir_dim cs) u z))) 0 else 0) / sqrt (INR (length (distinct_permutations s)))) (seq 0 N))) (map (up cs s) (plets l off (arr b))).
Proof.
  revert off. induction l as [|ir l IH]; intros off H; [constructor|]. rewrite dims_cons in H. cbn [plets map]. constructor; [|apply IH; lia]. split; [reflexivity|]. cbn [up fst snd]. intros z m Hz Hm.
  rewrite (nth_map_at (fun c => lsum (distinct_permutations s) (fun '(u, p) => if in_slices (map ir_dim cs) u z then nth c (arr b (transposed p (local (map ir_dim cs) u z))) 0 else 0) / sqrt (INR (length (distinct_permutations s)))) (seq 0 N) (off + m) 0%nat 0) by (rewrite seq_length; lia). rewrite seq_nth by lia. reflexivity.
Qed.
Lemma symmetrized_ok : coherent b -> exists y, symmetrized (map ir_dim cs) n s b = Ok y /\ irr y = irr b /\ lead y = tdims (repeat cs n) /\ coherent y /\ sames (space (repeat cs n)) (family y) (map (up cs s) (family b)).
Proof.
  intros Cb. unfold symmetrized. rewrite mkIA_ok by (trivial; reflexivity). eexists. split; [reflexivity|]. cbn [irr lead]. split; [reflexivity|]. split; [unfold tdims; rewrite map_repeat; reflexivity|]. split.
  - split; [intros i V; cbn [arr irr]; rewrite map_length; apply seq_length|]. split; [apply no_flags|exact Logic.I].
  - unfold family. cbn [irr arr]. apply plets_up. rewrite dims_flat. lia.
Qed.
End Up.
Lemma family_nil b : dim (irr b) = 0%nat -> family b = [].
Proof.
  intros H. unfold family. rewrite <- dims_flat in H. destruct (flat (irr b)) as [|c l]; [reflexivity|]. rewrite dims_cons in H. unfold ir_dim in H. lia.
Qed.
(* concatenating arrays along the last axis appends their multiplets *)
Lemma concat_family X xs (b : iarray) : (forall y z, In y xs -> In z X -> length (arr y z) = dim (irr y)) -> irr b = flat_map irr xs -> (forall z, In z X -> arr b z = flat_map (fun y => arr y z) xs) -> sames X (family b) (flat_map family xs).
Proof.
  intros Lx Ib Ab. unfold family at 1. rewrite Ib. eapply sames_trans; [apply plets_ext, Ab|]. clear Ib Ab b. induction xs as [|x xs IH]; [constructor|]. cbn [flat_map]. rewrite flat_mflat, flat_map_app, <- !flat_mflat, plets_app. apply sames_app.
  - apply plets_same. intros z j Hz Hj. rewrite dims_flat in Hj. rewrite !Nat.add_0_l. apply app_nth1. rewrite Lx by (auto; left; reflexivity). exact Hj.
  - eapply sames_trans; [|apply IH; intros y z Hy Hz; apply Lx; [right; exact Hy|exact Hz]]. apply plets_same. intros z j Hz Hj. rewrite dims_flat, !Nat.add_0_l. rewrite app_nth2 by (rewrite Lx by (auto; left; reflexivity); lia). f_equal. rewrite Lx by (auto; left; reflexivity). lia.
Qed.
Lemma concatenate_last y ys : concatenate (y :: ys) (-1) = concat_last (y :: ys).
Proof.
  unfold concatenate. set (k := length (lead y)). assert (E : standard_axis (-1) (S k) = Ok k).
  { unfold standard_axis. destruct (Z.leb_spec (- Z.of_nat (S k)) (-1)) as [_|Q]; [|lia]. destruct (Z.ltb_spec (-1) (Z.of_nat (S k))) as [_|Q]; [|lia]. cbn [andb]. f_equal. replace (-1)%Z with (Z.of_nat k + (-1) * Z.of_nat (S k))%Z by lia. rewrite Z.mod_add by lia. rewrite Z.mod_small by lia. apply Nat2Z.id. }
  rewrite E. cbn [bind]. unfold k. rewrite Nat.eqb_refl. reflexivity.
Qed.
Lemma dim_simplify x : dim (simplify x) = dim x.
Proof. rewrite <- !dims_flat, flat_simplify. reflexivity. Qed.
(* sorted() followed by IrrepsArray(irreps.simplify(), array) *)
Lemma sort_simplify_good ls K W b : good ls K W b -> exists y, (let! c := ia_sort b in mkIA (simplify (irr c)) (lead c) (dim (irr c)) (arr c) None None) = Ok y /\ irr y = regroup_irreps (irr b) /\ good ls K W y.
Proof.
  intros G. destruct (good_regroup ls K W b G) as (y0 & E0 & I0 & C0 & L0 & SW & HR). assert (Cb : coherent b) by apply G. destruct (sort_yields b Cb) as (c & Ec & Ic & Lc & Cc & Ac). rewrite Ec. cbn [bind]. rewrite mkIA_ok by (trivial; rewrite dim_simplify; reflexivity).
  assert (Lb : lead b = tdims ls) by apply G. eexists. split; [reflexivity|]. cbn [irr lead]. rewrite Ic. split; [reflexivity|]. split; [|split; [rewrite Lc; exact Lb|]].
  - split; [|split; [apply no_flags|exact Logic.I]]. cbn [arr irr lead]. intros i V. rewrite <- Ic, dim_simplify. apply Cc, V.
  - split; [exact SW|]. apply (reduced_sames _ _ _ _ (family y0) _ SW); [|exact HR]. unfold family. cbn [irr arr]. rewrite I0. apply plets_ext. intros z Hz. assert (V : valid (lead b) z) by (rewrite Lb; apply all_idx_valid, Hz). rewrite Ac by exact V. unfold ia_regroup in E0. rewrite Ec in E0. cbn [bind] in E0. destruct (ia_simplify_yields c Cc) as (y1 & E1 & _ & _ & _ & A1). assert (Q : y1 = y0) by congruence. rewrite <- Q, A1 by (rewrite Lc; exact V). apply Ac, V.
Qed.

Section Opt.
Variables (eigh : list (list R) -> list R * list (list R)) (eps : R) (x : irreps) (n : nat) (keep : option (list irrep)).
Notation cs := (flat x).
Hypothesis Ev : forall d b1 b2, of_width d b1 -> of_width d b2 -> eigen_ok (length b1 + length b2) (overlap b1 b2) (fst (eigh (overlap b1 b2))) (snd (eigh (overlap b1 b2))).
Hypothesis He : 0 < eps <= 1.
Hypothesis Sm : 4 * INR (prod (repeat (dims cs) n)) * (eps * eps) < 1.
Hypothesis Hn : (1 <= n)%nat.
Hypothesis Hk : (1 <= length cs)%nat.
Let dt : iarray := IA [] [] (fun _ => []) None None.
Lemma table_ok : exists pw, mapM (fun c => mapM (power_basis eigh eps (fun v => v) cs n keep c) (seq 1 n)) cs = Ok pw /\
  forall i m, (i < length cs)%nat -> (1 <= m <= n)%nat -> exists t, (let! l := ArrayModel.get pw i in ArrayModel.get l (m - 1)) = Ok t /\ good (repeat [piece cs i] m) (kept cs n keep m) (insens (piece cs i) m) t.
Proof.
  destruct (mapM_ok (fun c => mapM (power_basis eigh eps (fun v => v) cs n keep c) (seq 1 n)) (fun c l => Forall2 (fun m t => good (repeat [c] m) (kept cs n keep m) (insens c m) t) (seq 1 n) l) cs) as (pw & Ep & Fp).
  - intros c Hc. apply mapM_ok. intros m Hm. apply in_seq in Hm. apply (power_ok eigh eps cs n keep Ev He Sm); [exact Hc|lia].
  - exists pw. split; [exact Ep|]. intros i m Hi Hm. assert (G : forall T U (P : T -> U -> Prop) l l' d k, Forall2 P l l' -> (k < length l)%nat -> exists u, ArrayModel.get l' k = Ok u /\ P (nth k l d) u).
    { clear. intros T U P l l' d k F. revert k. induction F as [|a u l l' Pa F IH]; intros [|k] Hk; cbn in Hk; try lia; [exists u; split; [reflexivity|exact Pa]|]. destruct (IH k ltac:(lia)) as (v & E & Q). exists v. split; [exact E|exact Q]. }
    destruct (G _ _ _ _ _ (Irrep 0 Even) i Fp Hi) as (l & El & Fl). rewrite El. cbn [bind]. destruct (G _ _ _ _ _ 0%nat (m - 1)%nat Fl ltac:(rewrite seq_length; lia)) as (t & Et & Gt). exists t. split; [exact Et|]. rewrite seq_nth in Gt by lia. replace (1 + (m - 1))%nat with m in Gt by lia. exact Gt.
Qed.
Definition product_of (pw : list (list iarray)) (p : list nat) : res iarray :=
  let! ts := mapM (fun '(i, m) => let! l := ArrayModel.get pw i in ArrayModel.get l (m - 1)) (groups p) in let! ys := reshape_terms ts (map snd (groups p)) in product_basis ys keep.
Lemma term_basis_eq pw p : term_basis cs n keep pw p = let! b := product_of pw p in if (dim (irr b) =? 0)%nat then Ok None else let! y := symmetrized (map ir_dim cs) n (word_of p) b in Ok (Some y).
Proof.
  unfold term_basis, product_of. rewrite groups_snd. fold (groups p). destruct (mapM (fun '(i, m) => let! l := ArrayModel.get pw i in ArrayModel.get l (m - 1)) (groups p)) as [ts|e]; [|reflexivity]. cbn [bind]. destruct (reshape_terms ts (non_zero_powers p)) as [ys|e]; reflexivity.
Qed.
Variable pw : list (list iarray).
Hypothesis Hpw : forall i m, (i < length cs)%nat -> (1 <= m <= n)%nat -> exists t, (let! l := ArrayModel.get pw i in ArrayModel.get l (m - 1)) = Ok t /\ good (repeat [piece cs i] m) (kept cs n keep m) (insens (piece cs i) m) t.
Lemma product_ok p : In p (tuples_with_sum (length cs) n) -> exists b, product_of pw p = Ok b /\ good (lw cs (word_of p)) (fun c => passes keep c = true) (fixed cs n (word_of p)) b.
Proof.
  intros Hp. apply C50_tuples in Hp as [Lp Sp]; [|exact Hk]. unfold product_of.
  destruct (mapM_ok (fun '(i, m) => let! l := ArrayModel.get pw i in ArrayModel.get l (m - 1)) (fun '(i, m) t => good (repeat [piece cs i] m) (kept cs n keep m) (insens (piece cs i) m) t) (groups p)) as (ts & Et & Ft).
  - intros [i m] H. apply groups_in in H as (H1 & -> & H3). apply Hpw; [lia|]. pose proof (nth_le_sum p i). lia.
  - rewrite Et. cbn [bind]. rewrite <- letters_groups. apply (term_ok cs n keep (groups p) ts dt).
    + apply groups_nodup.
    + intros i H. rewrite groups_fst in H. unfold non_zero_indices in H. apply filter_In in H as [H _]. apply in_seq in H. lia.
    + rewrite letters_groups, word_length. exact Sp.
    + intros Q. pose proof (word_length p) as W. rewrite <- letters_groups, Q, Sp in W. cbn in W. lia.
    + symmetry. apply (Forall2_length _ _ _ Ft).
    + clear Et. induction Ft as [|[i m] t l ts Pa Ft IH]; intros k Hk0; [cbn in Hk0; lia|]. destruct k as [|k]; [exact Pa|]. cbn [nth]. apply IH. cbn in Hk0. lia.
Qed.
Definition got (p : list nat) : iarray := match product_of pw p with Ok b => b | Err _ => dt end.
Definition fam (s : list nat) : list (mult idx) := family (got (map (count_occ Nat.eq_dec s) (seq 0 (length cs)))).
Lemma fam_word p : In p (tuples_with_sum (length cs) n) -> fam (word_of p) = family (got p).
Proof. intros Hp. unfold fam. apply C50_tuples in Hp as [Lp _]; [|exact Hk]. rewrite <- (tuple_counts cs Hk p (word_of p) Lp (Permutation_refl _)). reflexivity. Qed.
Lemma fam_reduced : reduced (space (repeat cs n)) (rho (repeat cs n)) (fun c => passes keep c = true) (symm cs n) (ups cs (map word_of (tuples_with_sum (length cs) n)) fam).
Proof.
  destruct (tuple_words cs n Hk) as (T1 & T2 & T3). apply ups_reduced; [exact T1|exact T2|exact T3|]. intros s Hs. apply in_map_iff in Hs as (p & <- & Hp). rewrite fam_word by exact Hp. destruct (product_ok p Hp) as (b & Eb & _ & _ & _ & Rb). unfold got. rewrite Eb. exact Rb.
Qed.
Definition stacked (o : option iarray) : list (mult idx) := match o with None => [] | Some y => family y end.
Lemma terms_ok : exists os, mapM (term_basis cs n keep pw) (tuples_with_sum (length cs) n) = Ok os /\ sames (space (repeat cs n)) (flat_map stacked os) (ups cs (map word_of (tuples_with_sum (length cs) n)) fam) /\
  Forall (fun y => (coherent y /\ lead y = tdims (repeat cs n)) /\ (0 < dim (irr y))%nat) (flat_map (fun o => match o with None => [] | Some y => [y] end) os).
Proof.
  destruct (mapM_ok (term_basis cs n keep pw) (fun p o => sames (space (repeat cs n)) (stacked o) (map (up cs (word_of p)) (fam (word_of p))) /\ match o with None => True | Some y => (coherent y /\ lead y = tdims (repeat cs n)) /\ (0 < dim (irr y))%nat end) (tuples_with_sum (length cs) n)) as (os & Eo & Fo).
  - intros p Hp. rewrite term_basis_eq, fam_word by exact Hp. unfold got. destruct (product_ok p Hp) as (b & Eb & Gb). rewrite Eb. cbn [bind]. destruct (Nat.eqb_spec (dim (irr b)) 0) as [D|D].
    + exists None. split; [reflexivity|]. rewrite family_nil by exact D. split; [constructor|trivial].
    + destruct (symmetrized_ok cs n (word_of p) b (proj1 Gb)) as (y & Ey & Iy & Ly & Cy & Sy). rewrite Ey. cbn [bind]. exists (Some y). split; [reflexivity|]. split; [exact Sy|]. rewrite Iy. split; [auto|lia].
  - exists os. split; [exact Eo|]. clear Eo. unfold ups. induction Fo as [|p o l os [P1 P2] Fo [IH1 IH2]]; [split; constructor|]. cbn [map flat_map]. split; [apply sames_app; assumption|]. apply Forall_app. split; [|exact IH2]. destruct o as [y|]; [constructor; [exact P2|constructor]|constructor].
Qed.
Lemma stacked_flat os : flat_map stacked os = flat_map family (flat_map (fun o : option iarray => match o with None => [] | Some y => [y] end) os).
Proof. induction os as [|[y|] os IH]; [reflexivity| |exact IH]. cbn [flat_map app stacked]. rewrite IH. reflexivity. Qed.
End Opt.

(* the empty basis *)
Definition empty_basis (irs : list irreps) : iarray := IA [] (map dim irs) (fun _ => []) None None.
Lemma empty_coherent irs : coherent (empty_basis irs).
Proof. split; [reflexivity|]. split; [apply no_flags|exact Logic.I]. Qed.
(* the group of all permutations, without signs *)
Definition all_perms (n : nat) (g : list signed) : Prop := forall s p, In (s, p) g <-> s = 1%Z /\ is_perm p = true /\ length p = n.
Lemma symm_iff x n g f : all_perms n g -> symm (flat x) n f <-> symmetric_under g (repeat x n) f.
Proof.
  intros Hg. unfold symm, symmetric_under, invariant. assert (E : space (repeat (flat x) n) = all_idx (map dim (repeat x n))) by (unfold space, tdims; rewrite !map_repeat, dims_flat; reflexivity). rewrite E. split.
  - intros H s p z Hp V. apply Hg in Hp as (-> & P & L). rewrite Rmult_1_l. apply H; [exact P|exact L|apply all_idx_valid, V].
  - intros H q z P L Hz. rewrite (H 1%Z q z); [ring|apply Hg; auto|apply all_idx_valid, Hz].
Qed.
Theorem optimized_ok eigh eps x n keep g :
  (forall d b1 b2, of_width d b1 -> of_width d b2 -> eigen_ok (length b1 + length b2) (overlap b1 b2) (fst (eigh (overlap b1 b2))) (snd (eigh (overlap b1 b2)))) -> 0 < eps <= 1 -> 4 * INR (prod (map dim (repeat x n))) * (eps * eps) < 1 -> (1 <= n)%nat -> (1 <= num_irreps x)%nat -> all_perms n g ->
  (exists y, optimized eigh eps (fun v => v) x n keep = Ok y /\ result (repeat x n) g keep y /\ (0 < dim (irr y))%nat) \/ (optimized eigh eps (fun v => v) x n keep = Err ValueError /\ result (repeat x n) g keep (empty_basis (repeat x n))).
Proof.
  intros Ev He Sm Hn Hx Hg. assert (Lc : length (flat x) = num_irreps x) by apply flat_length. assert (Hk : (1 <= length (flat x))%nat) by lia. assert (Sm' : 4 * INR (prod (repeat (dims (flat x)) n)) * (eps * eps) < 1) by (rewrite dims_flat; rewrite map_repeat in Sm; exact Sm).
  destruct (table_ok eigh eps x n keep Ev He Sm' Hn Hk) as (pw & Ep & Hpw). destruct (terms_ok eigh x n keep Ev Hn Hk pw Hpw) as (os & Eo & So & Fo). pose proof (fam_reduced eigh x n keep Ev Hn Hk pw Hpw) as HR.
  assert (EF : flats (repeat x n) = repeat (flat x) n) by (unfold flats; apply map_repeat). assert (Et : tdims (repeat (flat x) n) = map dim (repeat x n)) by (rewrite <- EF; apply tdims_flats).
  assert (SW : subspace (space (repeat (flat x) n)) (symm (flat x) n)) by (apply symm_subspace; exact Hn || apply symm_subspace).
  pose proof (reduced_sames _ _ _ _ _ _ SW (sames_sym _ _ _ So) HR) as HR'. rewrite stacked_flat in HR'. set (ys := flat_map (fun o : option iarray => match o with None => [] | Some y => [y] end) os) in *.
  unfold optimized. change (flat_map (fun '(mul, ir) => repeat ir mul) x) with (flat x). rewrite Ep. cbn [bind]. rewrite Eo. cbn [bind]. fold ys.
  assert (Fin : forall b K, good (repeat (flat x) n) K (symm (flat x) n) b -> good (flats (repeat x n)) K (symmetric_under g (repeat x n)) b) by (intros b K G; rewrite EF; refine (good_weaken _ _ _ _ _ _ _ _ G); [reflexivity|intros f; apply symm_iff, Hg]).
  pose proof (Forall_impl _ (fun y H => proj1 H) Fo) as Fo1. destruct ys as [|y0 ys'] eqn:Ey.
  - right. split; [reflexivity|]. split; [|exists []; reflexivity]. apply Fin. split; [apply empty_coherent|]. split; [symmetry; exact Et|]. split; [exact SW|exact HR'].
  - left. rewrite concatenate_last. rewrite <- Ey in *. assert (Ne : ys <> []) by (rewrite Ey; discriminate). destruct (concat_last_yields (tdims (repeat (flat x) n)) ys Ne Fo1) as (b & Eb & Ib & Lb & Cb & Ab). rewrite Ey, <- Ey in Eb. rewrite Eb. cbn [bind].
    assert (Gb : good (repeat (flat x) n) (fun c => passes keep c = true) (symm (flat x) n) b).
    { split; [exact Cb|]. split; [exact Lb|]. split; [exact SW|]. refine (reduced_sames _ _ _ _ _ _ SW (sames_sym _ _ _ _) HR'). apply concat_family; [|exact Ib|intros z Hz; apply Ab, all_idx_valid, Hz]. intros y z Hy Hz. rewrite Forall_forall in Fo1. destruct (Fo1 y Hy) as [Cy Ly]. apply Cy. rewrite Ly. apply all_idx_valid, Hz. }
    destruct (sort_simplify_good _ _ _ b Gb) as (y & Ey' & Iy & Gy). exists y. split; [exact Ey'|]. split; [split; [apply Fin, Gy|exists (irr b); exact Iy]|]. rewrite Iy, regroup_dim, Ib, Ey. cbn [flat_map]. rewrite dim_app. rewrite Ey in Fo. inversion Fo as [|? ? [_ D] _]. lia.
Qed.
