(* tensor_product_with_spherical_harmonics: batches, and the order of the copies. *)
From Coq Require Import Reals ZArith Arith Lia Lra Bool List Permutation Sorted.
From Verif Require Import PyBase IrrepsModel IrrepsProofs IrrepsProofs2 ArrayModel ArrayProofs ArrayOps RechunkProofs LeadModel LeadProofs ArithProofs StackProofs BilinProofs SumR CGModel ActProofs EquivProofs EquivProofs2 EntryProofs TPModel TPProofs TPProofs2 TPProofs3 StableSort GradProofs.
From Verif Require Import RotationModel WignerModel S2Model S2Proofs2 SHModel SHProofs SHProofs2 SHProps SHProps2 TpshModel TpshProofs TpshProofs2.
Import ListNotations.
Open Scope R_scope.

Lemma flags_at s x fl a i : valid s i -> flags_ok s x fl a -> flags_ok [] x fl (fun _ => a i).
Proof.
  intros Hi. revert fl a. induction x as [|m x IH]; intros [|f fl] a H; try exact H. cbn [flags_ok] in *. destruct H as [H1 H2]. split; [intros E j _; now apply H1|]. exact (IH fl _ H2).
Qed.
Definition chunk_at (i : idx) (c : chunk) : chunk := Chunk [] (c_mul c) (c_dim c) (fun _ => c_val c i).
Lemma chunks_at s x fl cs a i : valid s i -> chunks_ok s x fl cs a -> chunks_ok [] x fl (map (option_map (chunk_at i)) cs) (fun _ => a i).
Proof.
  intros Hi. revert fl cs a. induction x as [|m x IH]; intros [|f fl] [|c cs] a H; try exact H. cbn [chunks_ok map] in *. destruct H as [H1 H2]. split; [|exact (IH fl cs _ H2)].
  destruct c as [c|]; [|exact H1]. cbn [option_map chunk_ok] in *. destruct H1 as (F & (W1 & W2 & W3 & W4) & V). split; [exact F|]. split; [|intros j _; exact (V i Hi)]. split; [reflexivity|]. split; [exact W2|]. split; [exact W3|]. intros j _. exact (W4 i Hi).
Qed.
Lemma element_coherent x i : coherent x -> valid (lead x) i -> coherent (element x i).
Proof.
  intros (A & B & C) Hi. split; [intros j _; exact (A i Hi)|]. split; [exact (flags_at _ _ _ _ i Hi B)|]. cbn [element chs lead irr arr]. destruct (chs x) as [cs|]; [|exact Logic.I]. exact (chunks_at _ _ _ _ _ i Hi C).
Qed.
Lemma blank_coherent x : coherent (blank x).
Proof. split; [intros j _; apply repeat_length|]. split; [apply flags_false|exact Logic.I]. Qed.
Lemma vector_check v p : irr v = [(1%nat, Irrep 1 p)] -> negb (irreps_eqb (irr v) [(1%nat, Irrep 1 Odd)] || irreps_eqb (irr v) [(1%nat, Irrep 1 Even)]) = false.
Proof. intros ->. destruct p; reflexivity. Qed.
Lemma vector_check_inv v : negb (irreps_eqb (irr v) [(1%nat, Irrep 1 Odd)] || irreps_eqb (irr v) [(1%nat, Irrep 1 Even)]) = false -> exists p, irr v = [(1%nat, Irrep 1 p)].
Proof. intros H. apply negb_false_iff, orb_true_iff in H. destruct H as [H|H]; apply irreps_eqb_eq in H; eauto. Qed.

Lemma tpsh_yields auto n x v degree p s : coherent x -> irr x <> [] -> coherent v -> irr v = [(1%nat, Irrep 1 p)] -> broadcast_shapes (lead x) (lead v) = Ok s ->
  let Y := sh_of p degree in num_irreps Y = 0%nat \/ usable auto None Y ->
  yields (tensor_product_with_sh auto n x v degree) (regroup_irreps (bil_out (tp_paths NComponent None (irr x) Y))) s
    (fun i => computed n (irr x) Y (arr x (bidx (lead x) i)) (dir (arr v (bidx (lead v) i)))).
Proof.
  intros Cx Nx Cv Iv E Y U. unfold tensor_product_with_sh. rewrite (vector_check v p Iv), E. cbn [bind]. destruct (broadcast_absorb _ _ _ E) as [Ex Ev].
  destruct (broadcast_to_yields x s Cx Ex) as (x1 & -> & Ix1 & Lx1 & Cx1 & Rx1). cbn [bind]. destruct (broadcast_to_yields v s Cv Ev) as (v1 & -> & Iv1 & Lv1 & Cv1 & Rv1). cbn [bind].
  destruct (impl_makes auto n (blank x1) (blank v1) degree p (blank_coherent x1) eq_refl) as (t & -> & It & Lt & Ct & Nt & _); [cbn [blank irr]; now rewrite Ix1|apply blank_coherent|reflexivity|cbn [blank irr]; now rewrite Iv1|exact U|].
  cbn [bind]. cbn [blank irr] in It. rewrite Ix1 in It. fold Y in It. set (o := regroup_irreps _) in It |- *. rewrite It. assert (Zt : zero_flags t = repeat false (length o)).
  { apply dense_flags in Nt; [|exact Ct]. destruct Ct as (_ & F & _). apply flags_ok_length in F. rewrite It in F. rewrite <- F. clear - Nt. induction Nt as [|b l -> _ IH]; [reflexivity|]. cbn [length repeat]. now rewrite <- IH. }
  rewrite Zt, mkIA_ok by (auto; apply repeat_length).
  assert (V : forall i, valid s i -> values (impl auto n (element x1 i) (element v1 i) degree) = computed n (irr x) Y (arr x (bidx (lead x) i)) (dir (arr v (bidx (lead v) i))) /\ length (computed n (irr x) Y (arr x (bidx (lead x) i)) (dir (arr v (bidx (lead v) i)))) = dim o).
  { intros i Hi. destruct (impl_makes auto n (element x1 i) (element v1 i) degree p) as (z & -> & Iz & Lz & Cz & _ & Rz); [apply element_coherent; [exact Cx1|now rewrite Lx1]|reflexivity|cbn [element irr]; now rewrite Ix1|apply element_coherent; [exact Cv1|now rewrite Lv1]|reflexivity|cbn [element irr]; now rewrite Iv1|exact U|].
    cbn [values]. specialize (Rz [] ltac:(constructor)). cbn [element irr arr] in Rz, Iz. rewrite Ix1, Rx1, Rv1 in Rz by exact Hi. rewrite Ix1 in Iz. fold Y in Rz, Iz. fold o in Iz. split; [exact Rz|]. rewrite <- Rz, <- Iz. apply Cz. rewrite Lz. constructor. }
  eexists. split; [reflexivity|]. cbn [irr lead arr]. split; [reflexivity|]. split; [reflexivity|]. split; [|intros i Hi; apply (V i Hi)]. split; [cbn [arr lead irr]; intros i Hi; destruct (V i Hi) as [-> L]; exact L|]. split; [apply flags_false|exact Logic.I].
Qed.

(* ---- strictly increasing irreps ---- *)
Definition increasing (x : irreps) : Prop := StronglySorted (fun a b => ir_ltb (snd a) (snd b) = true) x.
Lemma increasing_ssort x row : increasing x -> ssort (labelled x row) = labelled x row.
Proof.
  intros H. apply ssort_id. unfold labelled. assert (L : length (blocks x row) = length x) by apply blocks_length. revert L. generalize (blocks x row). induction H as [|a x H IH F]; intros [|b bs] L; try discriminate; cbn [combine]; constructor; [apply IH; cbn in L; lia|].
  rewrite Forall_forall in *. intros [c d] Hin. apply in_combine_l in Hin. unfold le_ir. cbn [fst]. apply ir_ltb_asym, F, Hin.
Qed.
Lemma increasing_sort_row x row : increasing x -> length row = dim x -> sort_row x row = row.
Proof. intros H L. rewrite sort_row_ssort, increasing_ssort by exact H. now apply unlabel_labelled. Qed.
Lemma increasing_regroup x : increasing x -> positive x -> regroup_irreps x = x.
Proof.
  intros H Pz. unfold regroup_irreps. rewrite (sort_irreps_ssort x []), increasing_ssort, labelled_fst by exact H. apply simplify_fixed; [exact Pz|]. clear Pz. induction H as [|a x H IH F]; [exact Logic.I|]. destruct x as [|b x]; [exact Logic.I|]. split; [|exact IH]. inversion F as [|? ? Q _]. intros E. rewrite E, ir_ltb_irrefl in Q. discriminate.
Qed.
Lemma regrouped_increasing x : regroup_irreps x = x -> increasing x.
Proof. intros E. rewrite <- E. apply regroup_strict. Qed.
Lemma sh_of_increasing p d : increasing (sh_of p d).
Proof.
  unfold increasing, sh_of, degrees. generalize (Z.to_nat (d + 1)) as k. intros k. assert (G : forall o, StronglySorted (fun a b : mulirrep => ir_ltb (snd a) (snd b) = true) (map (fun l => (1%nat, Irrep l (ppow p l))) (seq o k))); [|apply G]. induction k as [|k IH]; intros o; [constructor|]. cbn [seq map]. constructor; [apply IH|]. apply Forall_map, Forall_forall. intros l Hl. apply in_seq in Hl. cbn [snd]. unfold ir_ltb. cbn [ir_key ir_l]. unfold ir_key. cbn [ir_l ir_p]. rewrite (proj2 (Nat.ltb_lt o l)) by lia. reflexivity.
Qed.
Lemma sh_of_positive p d : positive (sh_of p d).
Proof. unfold positive, sh_of. apply Forall_map, Forall_forall. intros l _. cbn. lia. Qed.
Lemma sh_row_length n Y v : length (sh_row n Y v) = dim Y. Proof. apply rowof_length. Qed.
Lemma tp_row_regrouped n x Y row v : regroup_irreps x = x -> regroup_irreps Y = Y -> length row = dim x -> tp_row clebsch_gordan NComponent None true x Y row (sh_row n Y v) = computed n x Y row v.
Proof.
  intros Ex Ey L. unfold tp_row, computed. cbn [maybe_regroup maybe_sort_row]. rewrite Ex, Ey. rewrite (increasing_sort_row x) by (auto using regrouped_increasing). rewrite (increasing_sort_row Y) by (auto using regrouped_increasing, sh_row_length). reflexivity.
Qed.
Lemma tp_out_regrouped x Y : regroup_irreps (bil_out (tp_paths NComponent None x Y)) = tp_out NComponent None true x Y.
Proof.
  assert (E : tp_out NComponent None true x Y = regroup_irreps (tp_out NComponent None true x Y)). { unfold tp_out at 1. cbn [maybe_regroup]. apply regroup_iff. intros ir. unfold tp_out. cbn [maybe_regroup]. symmetry. apply regroup_count. }
  rewrite E. apply regroup_iff. intros ir. rewrite !count_flat. apply (Permutation_count_occ irrep_eq_dec). rewrite tp_out_flat, bil_out_tp. apply product_entries_flat.
Qed.
