(* From the multiplets computed by the model to the specification RtpSpec.reduced_basis. *)
From Coq Require Import Reals Lra Lia List Arith Permutation Sorted ZArith.
From Verif Require Import PyBase PermModel PermProofs IrrepsModel IrrepsProofs IrrepsProofs2 ArrayModel ArrayProofs ArrayOps RechunkProofs LeadModel LeadProofs StackProofs ActProofs EquivProofs EntryProofs LinearProofs ScatterProps SumR S2Proofs3 TPModel TPProofs TPProofs2 RotationModel RotationProofs CGModel WignerModel WignerProofs WignerProofs2 WignerProps WignerProps2 CGComplete MathModel GSProofs BasisProofs MathProps2 BasisProofs2 SymModel SymProofs SymProofs2 SymProps3 SchurProofs MultProofs CouplingProofs ReducedProofs ConstrainProofs RtpModel RtpSpace RtpTools RtpArr RtpConstrain RtpConstrain2 RtpMasks RtpPerm RtpMain RtpSpec.
Import ListNotations.
Open Scope R_scope.

(* ---------- the matrix of irreps ---------- *)
Lemma block_entry r l off total p q : (off + dims l = total)%nat -> (p < dims l)%nat -> (q < total)%nat ->
  mat_at (block_diag_from off total (map (rep_of r) l)) p q = if (q <? off)%nat then 0 else bd r l p (q - off).
Proof.
  revert off p. induction l as [|ir l IH]; intros off p E Hp Hq; [cbn in Hp; lia|]. rewrite dims_cons in E, Hp. cbn [map block_diag_from]. pose proof (as_rep_ok (D_from_matrix r) ir) as [L F]. fold (rep_of r) in L, F. unfold mat_at.
  destruct (Nat.lt_ge_cases p (ir_dim ir)) as [H|H].
  - rewrite app_nth1 by (rewrite map_length, L; exact H). rewrite (nth_map_at _ _ _ []) by (rewrite L; exact H). assert (Lr : length (nth p (rep_of r ir) []) = ir_dim ir) by (rewrite Forall_forall in F; apply F, nth_In; rewrite L; exact H).
    destruct (Nat.ltb_spec q off) as [Q|Q]; [rewrite app_nth1 by (rewrite repeat_length; exact Q); apply nth_repeat|]. rewrite app_nth2 by (rewrite repeat_length; exact Q). rewrite repeat_length. destruct (Nat.lt_ge_cases (q - off) (ir_dim ir)) as [H2|H2].
    + rewrite app_nth1 by (rewrite Lr; exact H2). rewrite bd_low by assumption. change (mat_at (rep_of r ir) p (q - off)%nat = D_from_matrix r ir p (q - off)%nat). unfold rep_of. apply as_rep_at; assumption.
    + rewrite app_nth2 by (rewrite Lr; exact H2). rewrite nth_repeat. replace (q - off)%nat with (ir_dim ir + (q - off - ir_dim ir))%nat by lia. rewrite bd_low_high by exact H. reflexivity.
  - rewrite app_nth2 by (rewrite map_length, L; exact H). rewrite map_length, L. change (mat_at (block_diag_from (off + ir_dim ir) total (map (rep_of r) l)) (p - ir_dim ir) q = if (q <? off)%nat then 0 else bd r (ir :: l) p (q - off)). rewrite IH by lia.
    replace p with (ir_dim ir + (p - ir_dim ir))%nat at 2 by lia. destruct (Nat.ltb_spec q off) as [Q|Q]; [rewrite (proj2 (Nat.ltb_lt _ _)) by lia; reflexivity|]. destruct (Nat.ltb_spec q (off + ir_dim ir)) as [Q2|Q2].
    + rewrite bd_high_low by lia. reflexivity.
    + replace (q - off)%nat with (ir_dim ir + (q - (off + ir_dim ir)))%nat by lia. rewrite bd_high. reflexivity.
Qed.
Lemma reps_flat (D : rep) x : flat_map (fun '(mul, ir) => map (fun _ => D ir) (seq 0 mul)) x = map D (flat x).
Proof.
  unfold flat. induction x as [|[m ir] x IH]; [reflexivity|]. cbn [flat_map]. rewrite map_app, IH. f_equal. rewrite map_repeat. generalize 0%nat. induction m as [|m IHm]; intros k; [reflexivity|]. cbn [seq map repeat]. rewrite IHm. reflexivity.
Qed.
Lemma Dmat_bd r x p q : (p < dim x)%nat -> (q < dim x)%nat -> Dmat r x p q = bd r (flat x) p q.
Proof.
  intros Hp Hq. unfold Dmat, D_irreps, block_diag. rewrite reps_flat, map_map. assert (E : PyBase.sum (map (fun ir => length (rep_of r ir)) (flat x)) = dims (flat x)) by (unfold dims; f_equal; apply map_ext; intros ir; apply (as_rep_ok (D_from_matrix r) ir)).
  rewrite E, block_entry by (rewrite ?dims_flat; lia). cbn [Nat.ltb Nat.leb]. rewrite Nat.sub_0_r. reflexivity.
Qed.
Lemma Dtensor_rho r irs z z' : valid (map dim irs) z -> valid (map dim irs) z' -> Dtensor r irs z z' = rho (flats irs) r z z'.
Proof.
  revert z z'. induction irs as [|x irs IH]; intros z z' V V'; inversion V; inversion V'; subst; [reflexivity|]. cbn [Dtensor flats map rho]. rewrite IH by assumption. rewrite Dmat_bd by assumption. reflexivity.
Qed.
Lemma turned_rot r irs T z : valid (map dim irs) z -> turned r irs T z = rot (space (flats irs)) (rho (flats irs)) r T z.
Proof. intros V. unfold turned, rot, space. rewrite tdims_flats. apply lsum_ext. intros z' Hz'. rewrite Dtensor_rho by (try exact V; apply in_valid, Hz'). reflexivity. Qed.
Lemma D_one r ir p q : (p < ir_dim ir)%nat -> (q < ir_dim ir)%nat -> Dmat r [(1%nat, ir)] p q = D_from_matrix r ir p q.
Proof. intros Hp Hq. assert (E : dim [(1%nat, ir)] = ir_dim ir) by (unfold dim; cbn; lia). rewrite Dmat_bd by (rewrite E; assumption). cbn [flat flat_map repeat app]. apply bd_low; assumption. Qed.

(* ---------- the columns of an array ---------- *)
Lemma columns_plets l off (a : idx -> list R) : columns (plets l off a) = map (fun j z => nth j (a z) 0) (seq off (dims l)).
Proof.
  revert off. induction l as [|ir l IH]; intros off; [reflexivity|]. cbn [plets]. unfold columns. cbn [flat_map]. fold (columns (plets l (off + ir_dim ir) a)). rewrite IH, dims_cons, seq_app, map_app. f_equal. cbn [fst snd].
  assert (Q : forall d k, map (fun m => (off + m)%nat) (seq k d) = seq (off + k) d) by (induction d as [|d IHd]; intros k; [reflexivity|]; cbn [seq map]; f_equal; rewrite IHd; f_equal; lia).
  pose proof (Q (ir_dim ir) 0%nat) as Q0. rewrite Nat.add_0_r in Q0. rewrite <- Q0, map_map. reflexivity.
Qed.
Lemma columns_family b : columns (family b) = map (tensor b) (seq 0 (dim (irr b))).
Proof. unfold family. rewrite columns_plets, dims_flat. reflexivity. Qed.
Lemma plets_turn X rh r l off (a : idx -> list R) z c : orthogonal3 r -> In z X -> Forall (covariant X rh) (plets l off a) -> (c < dims l)%nat ->
  rot X rh r (fun y => nth (off + c) (a y) 0) z = rsum (dims l) (fun c' => bd r l c' c * nth (off + c') (a z) 0).
Proof.
  intros O Hz. revert off c. induction l as [|ir l IH]; intros off c F Hc; [cbn in Hc; lia|]. cbn [plets] in F. inversion F as [|? ? F1 F2]. subst. rewrite dims_cons in *. rewrite rsum_add. destruct (Nat.lt_ge_cases c (ir_dim ir)) as [H|H].
  - rewrite (rsum_zero (dims l)), Rplus_0_r by (intros k Hk; rewrite bd_high_low by exact H; ring). pose proof (F1 r z c O Hz H) as Q. cbn [fst snd] in Q. etransitivity; [exact Q|]. apply rsum_ext. intros k Hk. rewrite bd_low by assumption. reflexivity.
  - rewrite (rsum_zero (ir_dim ir)), Rplus_0_l. 2:{ intros k Hk. replace c with (ir_dim ir + (c - ir_dim ir))%nat by lia. rewrite bd_low_high by exact Hk. ring. }
    specialize (IH (off + ir_dim ir)%nat (c - ir_dim ir)%nat F2 ltac:(lia)). replace (off + ir_dim ir + (c - ir_dim ir))%nat with (off + c)%nat in IH by lia. rewrite IH. apply rsum_ext. intros k Hk. replace c with (ir_dim ir + (c - ir_dim ir))%nat at 2 by lia. rewrite bd_high. f_equal. f_equal. lia.
Qed.
Lemma plets_kept (P : irrep -> Prop) x off (a : idx -> list R) m : Forall (fun t : mult idx => P (fst t)) (plets (flat x) off a) -> In m x -> (0 < fst m)%nat -> P (snd m).
Proof.
  intros F Hm Hp. assert (Q : Forall P (map fst (plets (flat x) off a))) by (apply Forall_map; exact F). rewrite plets_types in Q. rewrite Forall_forall in Q. apply Q. rewrite flat_mflat. apply in_flat_map. exists m. split; [exact Hm|]. unfold mflat. destruct (fst m); [lia|left; reflexivity].
Qed.

Lemma Forall2_refl_in {T} (P : T -> T -> Prop) l : (forall p, In p l -> P p p) -> Forall2 P l l.
Proof. induction l as [|a l IH]; intros H; constructor; [apply H; left; reflexivity|apply IH; intros; apply H; right; assumption]. Qed.
(* a reduced family for all irreps spans the whole subspace, when the subspace is stable *)
Lemma reduced_spans {A : Type} (X : list A) (rh : mat -> A -> A -> R) W S L F : preserving X rh -> adjoint X rh -> orthonormal_list X S -> (forall f, W f <-> repro X S f) -> (forall r f, orthogonal3 r -> W f -> W (rot X rh r f)) -> full X rh F ->
  reduced X rh (fun _ => True) W L -> forall f, W f -> repro X (columns L) f.
Proof.
  intros Pr Adj OS WS Inv [FC _ _ FA] RL f Wf.
  assert (G : forall t m, In t F -> (m < ir_dim (fst t))%nat -> repro X (columns L) (expand X S (comp t m))).
  { intros t m Ht Hm. rewrite Forall_forall in FC. pose proof (FC t Ht) as Ct. set (N := (fst t, fun x k => expand X S (comp t k) x) : mult A).
    apply (red_all _ _ _ _ _ RL N); [|exact Logic.I| |exact Hm].
    - intros r x k O Hx Hk. cbn [fst snd N] in *. change (rot X rh r (expand X S (comp t k)) x = rsum (ir_dim (fst t)) (fun k' => D_from_matrix r (fst t) k' k * expand X S (comp t k') x)). rewrite (project_commutes X rh Adj W S OS WS Inv r (comp t k) x O Hx).
      rewrite (expand_ext X S _ (fun y => rsum (ir_dim (fst t)) (fun k' => D_from_matrix r (fst t) k' k * snd t y k'))) by (intros y Hy; apply (Ct r y k O Hy Hk)).
      rewrite <- lsum_seq. rewrite <- (expand_lsum X S (seq 0 (ir_dim (fst t))) (fun k' => D_from_matrix r (fst t) k' k) (fun k' => comp t k') x). apply expand_ext. intros y _. rewrite lsum_seq. reflexivity.
    - intros k Hk. cbn [fst snd N]. apply WS. change (repro X S (expand X S (comp t k))). apply expand_repro, OS. }
  apply WS in Wf. apply (repro_ext X (columns L) (fun x => lsum (columns F) (fun s => dot X f s * expand X S s x))).
  - intros x Hx. rewrite <- (expand_lsum X S (columns F) (fun s => dot X f s) (fun s => s) x). rewrite <- (Wf x Hx). apply expand_ext. exact (FA f).
  - apply (repro_lsum X (columns L) (columns F) (fun s => dot X f s) (fun s => expand X S s)). intros s Hs. unfold columns in Hs. apply in_flat_map in Hs as (t & Ht & Hs). apply in_map_iff in Hs as (m & <- & Hm). apply in_seq in Hm. apply G; [exact Ht|lia].
Qed.
Theorem result_spec irs g keep b : signed_group (length irs) g -> compatible g irs -> result irs g keep b -> reduced_basis irs keep (symmetric_under g irs) b.
Proof.
  intros Gg Co [(C & L & SW & HR) (x0 & Ix)]. set (ls := flats irs) in *. assert (XS : space ls = all_idx (map dim irs)) by (unfold space, ls; rewrite tdims_flats; reflexivity).
  pose proof (columns_orthonormal _ (family b) (red_unit _ _ _ _ _ HR) (red_orth _ _ _ _ _ HR)) as ON. rewrite columns_family in ON.
  assert (PJ : forall T z, In z (space ls) -> expand (space ls) (columns (family b)) T z = projected irs b T z).
  { intros T z Hz. unfold expand, projected, inner_product. rewrite columns_family, lsum_map, lsum_seq. rewrite XS. reflexivity. }
  assert (VZ : forall z, valid (map dim irs) z -> In z (space ls)) by (intros z V; rewrite XS; apply all_idx_valid, V).
  constructor.
  - exact C.
  - rewrite L. apply tdims_flats.
  - rewrite Ix. apply regroup_strict.
  - intros m Hm. assert (Pm : (0 < fst m)%nat) by (rewrite Ix in Hm; pose proof (positive_simplify (sort_irreps x0)) as P; unfold positive in P; rewrite Forall_forall in P; apply P, Hm). split; [exact Pm|]. exact (plets_kept (fun c => passes keep c = true) _ _ _ m (red_keep _ _ _ _ _ HR) Hm Pm).
  - intros c c' Hc Hc'. unfold inner_product. rewrite <- XS. change (dot (space ls) (tensor b c) (tensor b c') = delta c c'). destruct ON as [U P]. destruct (Nat.eqb_spec c c') as [<-|N].
    + rewrite Forall_forall in U. apply U, in_map, in_seq. lia.
    + rewrite pairwise_map in P. assert (G : forall i j, (i < j < dim (irr b))%nat -> dot (space ls) (tensor b i) (tensor b j) = 0) by (intros i j Hij; pose proof (pairwise_nth _ _ 0%nat i j P ltac:(rewrite seq_length; lia)) as Q; rewrite !seq_nth in Q by lia; exact Q).
      destruct (Nat.lt_ge_cases c c') as [H|H]; [apply G; lia|]. rewrite dot_sym. apply G. lia.
  - intros c Hc. assert (I : In (tensor b c) (columns (family b))) by (rewrite columns_family; apply in_map, in_seq; lia). unfold columns in I. apply in_flat_map in I as (t & Ht & I). apply in_map_iff in I as (m & Em & Hm). apply in_seq in Hm. rewrite <- Em. apply (red_in _ _ _ _ _ HR t m Ht). lia.
  - intros r c z O Hc V. rewrite turned_rot by exact V. fold ls. rewrite <- dims_flat in Hc. etransitivity; [exact (plets_turn (space ls) (rho ls) r (flat (irr b)) 0 (arr b) z c O (VZ z V) (red_cov _ _ _ _ _ HR) Hc)|]. rewrite dims_flat in *. apply rsum_ext. intros k Hk. rewrite Dmat_bd by assumption. reflexivity.
  - intros ir t Kp St Ct m z Hm V. rewrite <- PJ by apply VZ, V. apply (red_all _ _ _ _ _ HR (ir, fun z k => t k z)); cbn [fst snd].
    + intros r z' k O Hz' Hk. cbn [fst snd] in *. assert (V' : valid (map dim irs) z') by (apply in_valid; rewrite <- XS; exact Hz'). unfold ls. rewrite <- turned_rot by exact V'. change (fun x => t k x) with (t k). rewrite (Ct r k z' O Hk V'). apply rsum_ext. intros k' Hk'. rewrite D_one by assumption. reflexivity.
    + exact Kp.
    + exact St.
    + exact Hm.
    + apply VZ, V.
  - intros -> T z HT V. rewrite <- PJ by apply VZ, V. destruct (rows_of_group g irs Gg Co g Gg ltac:(tauto)) as (base & _ & Q). destruct (Q _ (Forall2_refl_in _ _ (fun p _ z _ => eq_refl))) as [OS WS]. destruct (space_full ls) as (F & FF & _).
    refine (reduced_spans (space ls) (rho ls) (symmetric_under g irs) _ (family b) F (space_preserving ls) (space_adjoint ls) OS WS (fun r f _ Hf => symmetric_rot g irs Gg Co r f Hf) FF _ T HT z (VZ z V)).
    refine (reduced_keep_iff _ _ _ _ _ _ _ HR). intros c. cbn [passes]. tauto.
Qed.
