(* The row of parts, its equivariance, and what shtp returns. *)
From Coq Require Import Reals ZArith Arith Lia Lra Bool List.
From Verif Require Import PyBase IrrepsModel IrrepsProofs ArrayModel ArrayProofs ArrayOps RechunkProofs LeadModel LeadProofs SumR EntryProofs ActProofs EquivProofs CGModel TPProofs TPProofs2.
From Verif Require Import RotationModel RotationProofs RotationProofs2 WignerModel WignerProofs2 S2Model SHModel SHProofs TpshModel TpshProofs TpshProofs2 TpshProofs3 ShtpModel ShtpProofs ShtpProofs2 ShtpProofs3.
Import ListNotations.
Open Scope R_scope.

(* one part: the entry of the input it reads, its multiplicity and irrep, the irrep of the output, the kind *)
Record spath := SPath { s_in : nat; s_mul : nat; s_ir : irrep; s_out : irrep; s_sym : bool }.
Definition s_n (s : spath) : nat := nchan (s_sym s) (ir_l (s_ir s)) (ir_l (s_out s)).
Definition shtp_paths (p : parity) (irs : list irrep) (x : irreps) : list spath :=
  flat_map (fun irz => flat_map (fun '(k, (mul, irx)) => map (SPath k mul irx irz) (filter (fun sym => has_part sym p irx irz) [true; false])) (enumerate x)) irs.
Definition shtp_out (ps : list spath) : irreps := map (fun s => ((s_mul s * s_n s)%nat, s_out s)) ps.
Definition s_val (x : irreps) (row : list R) (s : spath) (w k : nat) : R :=
  rsum (ir_dim (s_ir s)) (fun i => band (s_sym s) (ir_l (s_ir s)) (ir_l (s_out s)) (w mod s_n s) k i * entry x row (s_in s) (w / s_n s) i).
Definition no_path : spath := SPath 0 0 (Irrep 0 Even) (Irrep 0 Even) true.
Definition shtp_row (ps : list spath) (x : irreps) (row : list R) : list R := rowof (shtp_out ps) (fun q w k => s_val x row (nth q ps no_path) w k).
Definition sp_ok (p : parity) (x : irreps) (s : spath) : Prop := nth_error x (s_in s) = Some (s_mul s, s_ir s) /\ has_part (s_sym s) p (s_ir s) (s_out s) = true.

Lemma shtp_paths_ok p irs x : Forall (sp_ok p x) (shtp_paths p irs x).
Proof.
  unfold shtp_paths. apply Forall_flat_map, Forall_forall. intros b _. apply Forall_flat_map, Forall_forall. intros [k [mul a]] Hin. apply Forall_map, Forall_forall. intros sym Hs. apply filter_In in Hs as [_ Hs]. split; [|exact Hs]. cbn [s_in s_mul s_ir].
  unfold enumerate in Hin. apply In_nth_error in Hin as [q Hq]. apply nth_error_combine in Hq as [H1 H2]. assert (Q : (q < length x)%nat) by (apply nth_error_Some; congruence). assert (E : nth q (seq 0 (length x)) 0%nat = k) by (apply nth_error_nth, H1). rewrite seq_nth in E by exact Q. cbn in E. now subst q.
Qed.
Lemma s_n_pos p x s : sp_ok p x s -> (0 < s_n s)%nat.
Proof. intros [_ H]. apply has_part_iff in H. tauto. Qed.
Lemma inside_out p x ps q w k : Forall (sp_ok p x) ps -> inside (shtp_out ps) q w k -> exists s, nth q ps no_path = s /\ sp_ok p x s /\ (w mod s_n s < s_n s)%nat /\ (w / s_n s < s_mul s)%nat /\ (k < ir_dim (s_out s))%nat /\ nth q (shtp_out ps) (0%nat, Irrep 0 Even) = ((s_mul s * s_n s)%nat, s_out s).
Proof.
  intros F (mul & ir & E & Hw & Hk). unfold shtp_out in E. destruct (nth_error ps q) as [s|] eqn:Es; [|rewrite nth_error_map, Es in E; discriminate]. pose proof (map_nth_error (fun s => ((s_mul s * s_n s)%nat, s_out s)) _ _ Es) as E'. rewrite E' in E. injection E as <- <-.
  rewrite Forall_forall in F. pose proof (F s (nth_error_In _ _ Es)) as Ok0. pose proof (s_n_pos p x s Ok0) as P. exists s. split; [apply nth_error_nth, Es|]. split; [exact Ok0|]. split; [apply Nat.mod_upper_bound; lia|]. split; [apply Nat.div_lt_upper_bound; lia|]. split; [exact Hk|]. apply nth_error_nth, E'.
Qed.
Lemma shtp_row_length ps x row : length (shtp_row ps x row) = dim (shtp_out ps). Proof. apply rowof_length. Qed.
Lemma shtp_row_act p h x ps row : fixes p h -> Forall (sp_ok p x) ps -> length row = dim x -> act (rep_of h) (shtp_out ps) (shtp_row ps x row) = shtp_row ps x (act (rep_of h) x row).
Proof.
  intros Fx F L. assert (HD : rep_ok (rep_of h)) by apply as_rep_ok. unfold shtp_row at 1. rewrite act_rowof by exact HD. unfold shtp_row. apply rowof_ext. intros q w k Hin. cbv zeta. destruct (inside_out p x ps q w k F Hin) as (s & -> & [Ei Hp] & Hm & Hd & Hk & ->). cbn [snd].
  unfold s_val. set (c := (w mod s_n s)%nat) in *. set (u := (w / s_n s)%nat) in *.
  rewrite (rsum_ext (ir_dim (s_ir s)) (fun i => band _ _ _ c k i * entry x (act (rep_of h) x row) (s_in s) u i) (fun i => rsum (ir_dim (s_ir s)) (fun i' => band (s_sym s) (ir_l (s_ir s)) (ir_l (s_out s)) c k i * D_from_matrix h (s_ir s) i i' * entry x row (s_in s) u i'))).
  2: { intros i Hi. rewrite act_entry by (auto; exists (s_mul s), (s_ir s); auto). cbv zeta. rewrite (nth_error_nth _ _ _ Ei). cbn [snd]. rewrite <- rsum_scal. apply rsum_ext. intros i' Hi'. unfold rep_of. rewrite as_rep_at by assumption. ring. }
  rewrite rsum_swap. rewrite (rsum_ext (ir_dim (s_out s)) _ (fun j => rsum (ir_dim (s_ir s)) (fun i => D_from_matrix h (s_out s) k j * band (s_sym s) (ir_l (s_ir s)) (ir_l (s_out s)) c j i * entry x row (s_in s) u i))).
  2: { intros j Hj. unfold rep_of. rewrite as_rep_at by assumption. rewrite <- rsum_scal. apply rsum_ext. intros; ring. }
  rewrite rsum_swap. apply rsum_ext. intros i Hi.
  transitivity (entry x row (s_in s) u i * rsum (ir_dim (s_out s)) (fun j => D_from_matrix h (s_out s) k j * band (s_sym s) (ir_l (s_ir s)) (ir_l (s_out s)) c j i)); [rewrite <- rsum_scal; apply rsum_ext; intros; ring|].
  rewrite (band_commutes _ p) by assumption. rewrite <- rsum_scal. apply rsum_ext. intros; ring.
Qed.
(* ---- the loops ---- *)
Lemma flat_map_rel {A P B} (Rel : P -> B -> Prop) (f : A -> list P) (g : A -> list B) l : (forall a, In a l -> Forall2 Rel (f a) (g a)) -> Forall2 Rel (flat_map f l) (flat_map g l).
Proof. induction l as [|a l IH]; intros H; [constructor|]. cbn [flat_map]. apply Forall2_app; [apply H; now left|apply IH; intros b Hb; apply H; now right]. Qed.
Lemma enumerate_rel {A P B} (Rel : P -> B -> Prop) (f : nat * A -> list P) (g : A -> list B) (l : list A) : (forall k a, nth_error l k = Some a -> Forall2 Rel (f (k, a)) (g a)) -> Forall2 Rel (flat_map f (enumerate l)) (flat_map g l).
Proof.
  unfold enumerate. assert (G : forall o, (forall k a, nth_error l k = Some a -> Forall2 Rel (f ((o + k)%nat, a)) (g a)) -> Forall2 Rel (flat_map f (combine (seq o (length l)) l)) (flat_map g l)); [|intros H; apply (G 0%nat), H].
  induction l as [|a l IH]; intros o H; [constructor|]. cbn [length seq combine flat_map]. apply Forall2_app; [specialize (H 0%nat a eq_refl); now rewrite Nat.add_0_r in H|]. apply IH. intros k b Hk. specialize (H (S k) b Hk). now rewrite Nat.add_succ_r in H.
Qed.
Lemma shtp_parts_yields p irs x : coherent x -> lead x = [] -> Forall (fun c => c <> None) (chunks x) -> let ps := shtp_paths p irs (irr x) in
  yields (from_chunks (map fst (shtp_parts p irs x)) (map (fun o => Some (snd o)) (shtp_parts p irs x)) [] true) (shtp_out ps) [] (fun i => shtp_row ps (irr x) (arr x i)).
Proof.
  intros Hx Lx Nx ps. pose proof (chunks_wf x Hx) as Wx. rewrite Lx in Wx. assert (Vx : valid (lead x) []) by (rewrite Lx; constructor).
  set (Rel := fun (s : spath) (o : mulirrep * chunk) => fst o = ((s_mul s * s_n s)%nat, s_out s) /\ wf_chunk [] (fst o) (snd o) /\ forall w k, (w < s_mul s * s_n s)%nat -> (k < ir_dim (s_out s))%nat -> nth k (nth w (c_val (snd o) []) []) 0 = s_val (irr x) (arr x []) s w k).
  assert (F : Forall2 Rel ps (shtp_parts p irs x)).
  { unfold ps, shtp_paths, shtp_parts. apply flat_map_rel. intros irz _.
    set (f := fun q : nat * mulirrep => let '(k, (mul, irx)) := q in map (SPath k mul irx irz) (filter (fun sym => has_part sym p irx irz) [true; false])).
    assert (Ef : flat_map f (enumerate (irr x)) = flat_map (fun q => f (fst q, fst (snd q))) (enumerate (combine (irr x) (chunks x)))) by (symmetry; apply combine_enumerate; eapply Forall2_length, Wx).
    rewrite Ef. apply (enumerate_rel Rel (fun q => f (fst q, fst (snd q)))). intros k [[mul a] oc] E. apply nth_error_combine in E as [E1 C1]. destruct oc as [c|]; [|exfalso; rewrite Forall_forall in Nx; exact (Nx None (nth_error_In _ _ C1) eq_refl)].
    assert (Wc : wf_chunk [] (mul, a) c). { destruct (Forall2_nth_error_l _ _ _ Wx _ _ E1) as (oc & C1' & W). rewrite C1 in C1'. injection C1' as <-. exact W. }
    assert (One : forall sym, has_part sym p a irz = true -> Rel (SPath k mul a irz sym) (part sym mul a irz c)).
    { intros sym Hs. destruct (part_ok sym mul a irz c Wc) as (P1 & P2 & P3). split; [exact P1|]. split; [exact P2|]. intros w q Hw Hq. cbn [s_mul s_out] in *. rewrite P3 by assumption. unfold s_val. cbn [s_ir s_sym s_out s_in]. apply rsum_ext. intros i Hi. unfold s_n. cbn [s_sym s_ir s_out]. f_equal.
      assert (Hn : (0 < nchan sym (ir_l a) (ir_l irz))%nat) by (apply has_part_iff in Hs; tauto). unfold s_n in Hw. cbn [s_sym s_ir s_out] in Hw. rewrite <- (entry_chunks x [] k _ i Hx Vx) by (exists mul, a; repeat split; [exact E1|apply Nat.div_lt_upper_bound; lia|exact Hi]). rewrite (nth_error_nth _ _ _ C1). reflexivity. }
    cbn [f fst snd filter]. destruct (has_part true p a irz) eqn:H1, (has_part false p a irz) eqn:H2; cbn [map app]; repeat constructor; apply One; assumption. }
  set (o := shtp_parts p irs x) in *. assert (Eo : map fst o = shtp_out ps). { unfold shtp_out. clear - F. induction F as [|s o ps os (H & _) _ IH]; [reflexivity|]. cbn [map]. now rewrite H, IH. }
  rewrite Eo. eapply yields_ext; [|apply from_chunks_rowof].
  - intros i Hi. inversion Hi; subst. cbv beta. unfold shtp_row. apply rowof_ext. intros q w k (mul & ir & Eq & Hw & Hk). unfold shtp_out in Eq. rewrite nth_error_map in Eq. destruct (nth_error ps q) as [s|] eqn:Es; [|discriminate]. cbn [option_map] in Eq. injection Eq as <- <-.
    destruct (Forall2_nth_error_l _ _ _ F _ _ Es) as (z & Ez & _ & _ & Vz). rewrite (nth_error_nth _ _ _ Es). rewrite (nth_error_nth _ _ None (map_nth_error (fun o => Some (snd o)) _ _ Ez)). cbn [centry]. now apply Vz.
  - unfold shtp_out. clear - F. induction F as [|s o ps os (H & W & _) _ IH]; cbn [map]; constructor; [|exact IH]. cbn [wf_opt]. rewrite <- H. exact W.
Qed.
