(* What LinearSHTP returns. *)
From Coq Require Import Reals ZArith Arith Lia Lra Bool List.
From Verif Require Import PyBase IrrepsModel IrrepsProofs IrrepsProofs2 ArrayModel ArrayProofs ArrayOps RechunkProofs LeadModel LeadProofs ArithProofs SumR CGModel CGProofs10 ActProofs EquivProofs EquivProofs2 EntryProofs TPModel TPProofs TPProofs2 TPProofs3 StableSort GradProofs.
From Verif Require Import RotationModel RotationProofs RotationProofs2 WignerModel WignerProofs WignerProofs2 WignerProps S2Model S2Proofs2 SHModel SHProofs SHProofs2 SHProps SHProps2 SHProps3 TpshCG TpshModel TpshProofs TpshProofs2 TpshProofs3 ShtpModel ShtpProofs ShtpProofs2 ShtpProofs3 ShtpProofs4 ShtpProofs5 ShtpProofs6 LinShtpModel LinShtpProofs LinShtpProofs2.
Import ListNotations.
Open Scope R_scope.

Definition lpaths (p : parity) (irz : irrep) (x : irreps) : list spath := shtp_paths p [irz] x.
Definition mix_cell (w : weights) (iz n : nat) (s : spath) : cell := (s, fun u c v => sgn (s_sym s) * w (s_in s) iz (s_sym s) c u v / sqrt (INR n)).
Definition keep_cell (w : weights) (iz : nat) (s : spath) : cell := (s, fun u c v => if (u =? v)%nat then sgn (s_sym s) * w (s_in s) iz (s_sym s) c u 0%nat else 0).
Definition mix_plan (p : parity) (w : weights) (x : irreps) (q : nat * mulirrep) : mulirrep * list cell :=
  (snd q, map (mix_cell w (fst q) (list_sum (map s_mul (lpaths p (snd (snd q)) x)))) (lpaths p (snd (snd q)) x)).
Definition keep_plan (p : parity) (w : weights) (x : irreps) (q : nat * mulirrep) : plan :=
  map (fun s => ((s_mul s, snd (snd q)), [keep_cell w (fst q) s])) (lpaths p (snd (snd q)) x).
Definition lin_plan (mix : bool) (p : parity) (w : weights) (irs x : irreps) : plan :=
  if mix then map (mix_plan p w x) (enumerate irs) else flat_map (keep_plan p w x) (enumerate (regroup_irreps irs)).
Definition all_reached (mix : bool) (p : parity) (irs x : irreps) : Prop := if mix then Forall (fun m => lpaths p (snd m) x <> []) irs else True.

Lemma lpaths_ok p irz x : Forall (fun s => sp_ok p x s /\ s_out s = irz) (lpaths p irz x).
Proof.
  apply Forall_forall. intros s Hs. split; [pose proof (shtp_paths_ok p [irz] x) as F; rewrite Forall_forall in F; now apply F|].
  unfold lpaths, shtp_paths in Hs. cbn [flat_map] in Hs. rewrite app_nil_r in Hs. apply in_flat_map in Hs as ([k [mul a]] & _ & Hs). apply in_map_iff in Hs as (sym & <- & _). reflexivity.
Qed.
Lemma lin_plan_ok mix p w irs x : pl_ok p x (lin_plan mix p w irs x).
Proof.
  unfold pl_ok, lin_plan. destruct mix.
  - apply Forall_map, Forall_forall. intros [iz [m irz]] _. cbn [mix_plan fst snd]. apply Forall_map. eapply Forall_impl; [|apply lpaths_ok]. intros s [H1 H2]. cbn [mix_cell fst]. auto.
  - apply Forall_flat_map, Forall_forall. intros [iz [m irz]] _. unfold keep_plan. cbn [fst snd]. apply Forall_map. eapply Forall_impl; [|apply lpaths_ok]. intros s [H1 H2]. constructor; [|constructor]. cbn [keep_cell fst snd]. auto.
Qed.
Lemma in_enumerate {A} (l : list A) k a : In (k, a) (enumerate l) -> nth_error l k = Some a.
Proof.
  unfold enumerate. assert (G : forall o, In (k, a) (combine (seq o (length l)) l) -> (o <= k)%nat /\ nth_error l (k - o) = Some a); [|intros H; apply G in H as [_ H]; now rewrite Nat.sub_0_r in H].
  induction l as [|b l IH]; intros o H; [destruct H|]. cbn [length seq combine] in H. destruct H as [H|H]; [injection H as -> ->; split; [lia|now rewrite Nat.sub_diag]|]. apply IH in H as [L E]. split; [lia|]. replace (k - o)%nat with (S (k - S o)) by lia. exact E.
Qed.
Lemma over_input_rel {A} p irz x (g : nat -> nat -> irrep -> bool -> chunk -> A) (Rel : spath -> A -> Prop) : coherent x -> lead x = [] -> Forall (fun c => c <> None) (chunks x) ->
  (forall k mul a sym c, nth_error (irr x) k = Some (mul, a) -> wf_chunk [] (mul, a) c -> (forall u i, (u < mul)%nat -> (i < ir_dim a)%nat -> nth i (nth u (c_val c []) []) 0 = entry (irr x) (arr x []) k u i) -> has_part sym p a irz = true -> Rel (SPath k mul a irz sym) (g k mul a sym c)) ->
  Forall2 Rel (lpaths p irz (irr x)) (over_input p irz x g).
Proof.
  intros Hx Lx Nx HR. pose proof (chunks_wf x Hx) as Wx. rewrite Lx in Wx. assert (Vx : valid (lead x) []) by (rewrite Lx; constructor).
  unfold lpaths, shtp_paths, over_input. cbn [flat_map]. rewrite app_nil_r.
  set (f := fun q : nat * mulirrep => let '(k, (mul, irx)) := q in map (SPath k mul irx irz) (filter (fun sym => has_part sym p irx irz) [true; false])).
  assert (Ef : flat_map f (enumerate (irr x)) = flat_map (fun q => f (fst q, fst (snd q))) (enumerate (combine (irr x) (chunks x)))) by (symmetry; apply combine_enumerate; eapply Forall2_length, Wx).
  rewrite Ef. apply flat_map_rel. intros [k [[mul a] oc]] Hin. apply in_enumerate in Hin. apply nth_error_combine in Hin as [E1 C1]. destruct oc as [c|]; [|exfalso; rewrite Forall_forall in Nx; exact (Nx None (nth_error_In _ _ C1) eq_refl)].
  assert (Wc : wf_chunk [] (mul, a) c). { destruct (Forall2_nth_error_l _ _ _ Wx _ _ E1) as (oc & C1' & W). rewrite C1 in C1'. injection C1' as <-. exact W. }
  assert (En : forall u i, (u < mul)%nat -> (i < ir_dim a)%nat -> nth i (nth u (c_val c []) []) 0 = entry (irr x) (arr x []) k u i). { intros u i Hu Hi. rewrite <- (entry_chunks x [] k _ i Hx Vx) by (exists mul, a; auto). rewrite (nth_error_nth _ _ _ C1). reflexivity. }
  cbn [f fst snd filter]. destruct (has_part true p a irz) eqn:H1, (has_part false p a irz) eqn:H2; cbn [map app]; repeat constructor; apply HR; assumption.
Qed.
(* the plan describes the outputs *)
Definition built (x : iarray) (o : mulirrep * list cell) (z : mulirrep * chunk) : Prop :=
  fst z = fst o /\ wf_chunk [] (fst o) (snd z) /\ forall v k, (v < fst (fst o))%nat -> (k < ir_dim (snd (fst o)))%nat -> nth k (nth v (c_val (snd z) []) []) 0 = pl_val (irr x) (arr x []) (snd o) v k.
Lemma rel_lsum {A B} (Rel : A -> B -> Prop) (f : A -> R) (g : B -> R) l l' : Forall2 Rel l l' -> (forall a b, Rel a b -> f a = g b) -> lsum l f = lsum l' g.
Proof. intros F H. induction F as [|a b l l' Hab F IH]; [reflexivity|]. rewrite !lsum_cons, IH, (H _ _ Hab). reflexivity. Qed.
Lemma mix_entry_ok p w x q : coherent x -> lead x = [] -> Forall (fun c => c <> None) (chunks x) -> lpaths p (snd (snd q)) (irr x) <> [] ->
  exists z, mix_entry p w x q = Ok z /\ built x (mix_plan p w (irr x) q) z.
Proof.
  intros Hx Lx Nx Np. destruct q as [iz [mulz irz]]. cbn [fst snd] in Np.
  set (Rel := fun (s : spath) (z : nat * chunk) => fst z = s_mul s /\ s_out s = irz /\ forall v k, (v < mulz)%nat -> (k < ir_dim irz)%nat -> nth k (nth v (c_val (snd z) []) []) 0 = rsum (s_mul s) (fun u => rsum (s_n s) (fun c => sgn (s_sym s) * w (s_in s) iz (s_sym s) c u v * cval (irr x) (arr x []) s u c k))).
  assert (F : Forall2 Rel (lpaths p irz (irr x)) (over_input p irz x (fun ix mul irx sym c => (mul, mix_part sym mul mulz irx irz (w ix iz sym) c)))).
  { apply over_input_rel; try assumption. intros k mul a sym c E1 Wc En Hp. split; [reflexivity|]. split; [reflexivity|]. intros v j Hv Hj. cbn [snd s_mul s_sym s_in]. rewrite mix_part_at by assumption. apply rsum_ext. intros u Hu. apply rsum_ext. intros n Hn. f_equal. unfold cval. cbn [s_ir s_sym s_out s_in]. apply rsum_ext. intros i Hi. now rewrite En. }
  unfold mix_entry. set (zs := over_input _ _ _ _) in *. cbv zeta.
  assert (Nz : zs <> []) by (intros Z; rewrite Z in F; inversion F; congruence).
  assert (En : list_sum (map fst zs) = list_sum (map s_mul (lpaths p irz (irr x)))). { f_equal. clear - F. induction F as [|s z l l' (H & _) F IH]; [reflexivity|]. cbn [map]. now rewrite IH, H. }
  assert (Sh : forall (l : list (nat * chunk)) (y : irreps) (a b c : res (mulirrep * chunk)), l <> [] -> match l, y with [], [] => a | [], _ => b | _, _ => c end = c) by (intros [|? ?] y a b c N; [contradiction|reflexivity]).
  rewrite Sh by exact Nz. eexists. split; [reflexivity|]. rewrite En. unfold mix_plan. cbn [fst snd]. split; [reflexivity|]. cbn [fst snd]. split.
  - split; [reflexivity|split; [reflexivity|split; [reflexivity|]]]. intros i Hi. cbn [c_val]. split; [now rewrite map_length, seq_length|]. apply Forall_map, Forall_forall. intros v _. apply tab_length.
  - intros v k Hv Hk. cbn [c_val]. rewrite (nth_map_at _ _ _ 0%nat) by (rewrite seq_length; exact Hv). rewrite seq_nth by exact Hv. cbn [Nat.add]. rewrite nth_tab by exact Hk. unfold pl_val. rewrite lsum_map. set (n := list_sum _). unfold Rdiv. rewrite Rmult_comm, <- lsum_scal. symmetry.
    apply (rel_lsum Rel _ _ _ _ F). intros s z (_ & _ & H). rewrite H by assumption. cbn [mix_cell fst snd]. rewrite <- rsum_scal. apply rsum_ext. intros u Hu. rewrite <- rsum_scal. apply rsum_ext. intros c Hc. unfold Rdiv. ring.
Qed.
Lemma mix_entry_err p w x q z : coherent x -> lead x = [] -> Forall (fun c => c <> None) (chunks x) -> mix_entry p w x q = Ok z -> lpaths p (snd (snd q)) (irr x) <> [].
Proof.
  intros Hx Lx Nx H Z. destruct q as [iz [mulz irz]]. cbn [snd] in Z. unfold mix_entry in H.
  assert (F : Forall2 (fun _ _ => True) (lpaths p irz (irr x)) (over_input p irz x (fun ix mul irx sym c => (mul, mix_part sym mul mulz irx irz (w ix iz sym) c)))) by (apply over_input_rel; auto).
  rewrite Z in F. destruct (over_input _ _ _ _); [|inversion F]. destruct (irr x); discriminate H.
Qed.
Lemma keep_entries_ok p w x q : coherent x -> lead x = [] -> Forall (fun c => c <> None) (chunks x) -> Forall2 (built x) (keep_plan p w (irr x) q) (keep_entries p w x q).
Proof.
  intros Hx Lx Nx. destruct q as [iz [m irz]]. unfold keep_plan, keep_entries. cbn [fst snd].
  set (h := fun s => ((s_mul s, irz), [keep_cell w iz s])). assert (G : forall l (l' : list (mulirrep * chunk)), Forall2 (fun s z => built x (h s) z) l l' -> Forall2 (built x) (map h l) l') by (intros l l' F; induction F; constructor; assumption).
  apply G. apply over_input_rel; try assumption. intros k mul a sym c E1 Wc En Hp. unfold h. split; [reflexivity|]. cbn [fst snd s_mul]. split; [apply keep_part_wf|].
  intros v j Hv Hj. rewrite keep_part_at by assumption. unfold pl_val. cbn [lsum fold_right]. rewrite Rplus_0_r. cbn [keep_cell fst snd s_mul s_sym s_in]. rewrite (rsum_pick mul v); [|exact Hv|intros u Hu N; apply rsum_zero; intros n Hn; destruct (Nat.eqb_spec u v); [contradiction|ring]].
  rewrite Nat.eqb_refl. apply rsum_ext. intros n Hn. f_equal. unfold cval. cbn [s_ir s_sym s_out s_in]. apply rsum_ext. intros i Hi. now rewrite En.
Qed.
Lemma mapM_rel {A B C} (f : A -> res B) (h : A -> C) (Rel : C -> B -> Prop) l : (forall a, In a l -> exists b, f a = Ok b /\ Rel (h a) b) -> exists bs, mapM f l = Ok bs /\ Forall2 Rel (map h l) bs.
Proof.
  induction l as [|a l IH]; intros H; [exists []; split; [reflexivity|constructor]|]. destruct (H a (or_introl eq_refl)) as (b & E & Rb). destruct IH as (bs & Eb & F); [intros c Hc; apply H; now right|]. exists (b :: bs). split; [cbn [mapM]; rewrite E; cbn [bind]; now rewrite Eb|]. constructor; assumption.
Qed.
Lemma mapM_each {A B} (f : A -> res B) l bs : mapM f l = Ok bs -> forall a, In a l -> exists b, f a = Ok b.
Proof.
  revert bs. induction l as [|a l IH]; intros bs H c Hc; [destruct Hc|]. cbn [mapM] in H. destruct (f a) as [b|] eqn:E; cbn [bind] in H; [|discriminate]. destruct (mapM f l) as [bs'|] eqn:E'; cbn [bind] in H; [|discriminate]. destruct Hc as [<-|Hc]; eauto.
Qed.
Lemma lin_parts_ok mix p w irs x : coherent x -> lead x = [] -> Forall (fun c => c <> None) (chunks x) -> all_reached mix p irs (irr x) -> exists o, lin_parts mix p w irs x = Ok o /\ Forall2 (built x) (lin_plan mix p w irs (irr x)) o.
Proof.
  intros Hx Lx Nx Ar. unfold lin_parts, lin_plan. destruct mix.
  - apply mapM_rel. intros [iz m] Hin. apply mix_entry_ok; try assumption. cbn [all_reached] in Ar. rewrite Forall_forall in Ar. apply Ar. apply in_enumerate in Hin. exact (nth_error_In _ _ Hin).
  - rewrite regroup_Ok. cbn [bind]. eexists. split; [reflexivity|]. apply flat_map_rel. intros q _. now apply keep_entries_ok.
Qed.
Lemma lin_parts_err mix p w irs x o : coherent x -> lead x = [] -> Forall (fun c => c <> None) (chunks x) -> lin_parts mix p w irs x = Ok o -> all_reached mix p irs (irr x).
Proof.
  intros Hx Lx Nx H. destruct mix; [|exact Logic.I]. cbn [all_reached]. apply Forall_forall. intros m Hm. apply In_nth_error in Hm as [k E]. assert (Hin : In (k, m) (enumerate irs)).
  { unfold enumerate. assert (Lk : (k < length irs)%nat) by (apply nth_error_Some; congruence). apply (nth_error_In _ k). clear - E. unfold enumerate. assert (G : forall o, nth_error (combine (seq o (length irs)) irs) k = Some ((o + k)%nat, m)); [|apply (G 0%nat)]. revert k E. induction irs as [|a l IH]; intros k E o; [now destruct k|]. destruct k; [injection E as ->; cbn; now rewrite Nat.add_0_r|]. cbn [length seq combine nth_error]. rewrite (IH k E (S o)). do 2 f_equal. lia. }
  destruct (mapM_each _ _ _ H _ Hin) as [z Ez]. exact (mix_entry_err p w x (k, m) z Hx Lx Nx Ez).
Qed.
Lemma built_yields x pl o : Forall2 (built x) pl o -> yields (from_chunks (map fst o) (map (fun o => Some (snd o)) o) [] true) (pl_out pl) [] (fun i => pl_row pl (irr x) (arr x [])).
Proof.
  intros F. assert (Eo : map fst o = pl_out pl). { unfold pl_out. clear - F. induction F as [|s o ps os (H & _) _ IH]; [reflexivity|]. cbn [map]. now rewrite H, IH. }
  rewrite Eo. eapply yields_ext; [|apply from_chunks_rowof].
  - intros i Hi. inversion Hi; subst. cbv beta. unfold pl_row. apply rowof_ext. intros q v k (mul & ir & Eq & Hv & Hk). unfold pl_out in Eq. rewrite nth_error_map in Eq. destruct (nth_error pl q) as [s|] eqn:Es; [|discriminate]. cbn [option_map] in Eq. injection Eq as Eq.
    destruct (Forall2_nth_error_l _ _ _ F _ _ Es) as (z & Ez & _ & _ & Vz). unfold cells. rewrite (nth_error_nth _ _ _ Es). rewrite (nth_error_nth _ _ None (map_nth_error (fun o => Some (snd o)) _ _ Ez)). cbn [centry]. apply Vz; rewrite Eq; assumption.
  - unfold pl_out. clear - F. induction F as [|s o ps os (H & W & _) _ IH]; cbn [map]; constructor; [|exact IH]. exact W.
Qed.
