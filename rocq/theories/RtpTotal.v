(* The optimised branch: the the recursion with the optimised branch switched on. *)
From Coq Require Import Reals Lra Lia List Arith Permutation Sorted ZArith.
From Verif Require Import PyBase PermModel PermProofs IrrepsModel IrrepsProofs IrrepsProofs2 ArrayModel ArrayProofs ArrayOps RechunkProofs LeadModel LeadProofs StackProofs ActProofs EquivProofs EntryProofs LinearProofs ScatterProps SumR S2Proofs3 TPModel TPProofs TPProofs2 RotationModel RotationProofs CGModel WignerModel WignerProofs WignerProofs2 WignerProps WignerProps2 CGComplete MathModel GSProofs BasisProofs MathProps2 BasisProofs2 SymModel SymProofs SymProofs2 SymProps SymProps2 SymProps3 SchurProofs MultProofs CouplingProofs ReducedProofs ConstrainProofs RtpModel RtpSpace RtpTools RtpArr RtpMasks RtpPerm RtpSymModel RtpWords RtpSymmetrize RtpFamily RtpTuples RtpChain RtpMain RtpTerm RtpTerm2 RtpTerm3 RtpOpt RtpSpec RtpResult.
From Verif Require GradProofs RtpProps.
Import ListNotations.
Open Scope R_scope.

Lemma keep_without_none f irs : keep_without f irs None = None.
Proof. unfold keep_without. induction (enumerate irs) as [|[i x] l IH]; [reflexivity|]. cbn [fold_left]. destruct (inb f i); exact IH. Qed.
(* errors of the recursive call that say that nothing is kept, replaced by the empty basis *)
Definition patched (rec : list irreps -> list signed -> option (list irrep) -> res iarray) (irs : list irreps) (g : list signed) (keep : option (list irrep)) : res iarray :=
  match rec irs g keep with Err ValueError => match keep with None => Err RuntimeError | Some _ => Ok (empty_basis irs) end | r => r end.
Lemma empty_good ls K W y e : good ls K W y -> family y = [] -> coherent e -> lead e = tdims ls -> family e = [] -> good ls K W e.
Proof. intros (C & L & SW & HR) E Ce Le Ee. split; [exact Ce|]. split; [exact Le|]. split; [exact SW|]. rewrite Ee, <- E. exact HR. Qed.
Lemma result_family irs g keep y : result irs g keep y -> family y = [] -> result irs g keep (empty_basis irs).
Proof.
  intros [G _] E. split; [|exists []; reflexivity]. apply (empty_good _ _ _ y _ G E (empty_coherent irs)); [symmetry; apply tdims_flats|reflexivity].
Qed.
Lemma no_columns {A} (X : list A) f : repro X [] f -> forall z, In z X -> f z = 0.
Proof. intros H z Hz. rewrite <- (H z Hz). reflexivity. Qed.

Section Total.
Variables (eigh : list (list R) -> list R * list (list R)) (eps : R).
Hypothesis Ev : forall d b1 b2, of_width d b1 -> of_width d b2 -> eigen_ok (length b1 + length b2) (overlap b1 b2) (fst (eigh (overlap b1 b2))) (snd (eigh (overlap b1 b2))).
Hypothesis E1 : 0 < eps <= 1.
Section Level.
Variables (irs : list irreps) (g : list signed) (keep : option (list irrep)).
Hypothesis In_ok : input_ok eps irs g.
Notation n := (length irs).
Notation ls := (flats irs).
(* when there is nothing on some of the indices, there is nothing on all of them *)
Lemma nothing f e y : basis_ok irs g keep (f, e) -> family e = [] -> found irs g keep y -> family y = [].
Proof.
  intros (Sf & Nf & K & W & (Ce & Le & SWe & Re) & HK & HW & _) Ee (Cy & Ly & SWy & Ry). cbn [fst snd] in *. set (m := maskof n f) in *. assert (LL : length ls = length m) by (unfold m; rewrite maskof_length; apply flats_length). pose proof (mk_all ls) as Mk.
  assert (PS : product_space (space (mk m ls)) (space (mk (map negb m) ls)) (space ls) (rho (mk m ls)) (rho (mk (map negb m) ls)) (rho ls) (keepz m) (keepz (map negb m)) (joinz m)) by (pose proof (masked_product m (map negb m) (repeat true (length m)) ls (negb_disjoint m) ltac:(rewrite repeat_length; exact LL)) as PS; rewrite <- LL, Mk in PS; exact PS).
  destruct (space_full (mk (map negb m) ls)) as (Fb & FF & FT').
  destruct (family y) as [|T L] eqn:EF; [reflexivity|]. exfalso. assert (IT : In T (T :: L)) by (left; reflexivity). pose proof (red_cov _ _ _ _ _ Ry) as Q1. pose proof (red_unit _ _ _ _ _ Ry) as Q2. pose proof (red_keep _ _ _ _ _ Ry) as Q3. rewrite Forall_forall in Q1, Q2, Q3. specialize (Q1 T IT). specialize (Q2 T IT). specialize (Q3 T IT).
  assert (D : (0 < ir_dim (fst T))%nat) by (unfold ir_dim; lia).
  assert (Zr : forall z, In z (space ls) -> comp T 0%nat z = 0).
  { intros z Hz. pose proof (ps_z _ _ _ _ _ _ _ _ _ PS z Hz) as Ej. pose proof (ps_ia _ _ _ _ _ _ _ _ _ PS z Hz) as Ha. pose proof (ps_ib _ _ _ _ _ _ _ _ _ PS z Hz) as Hb. rewrite <- Ej.
    pose proof (slice_repro _ _ _ _ _ _ _ _ _ PS (space_preserving _) K W (family e) Fb T Re SWe FF Q1) as Sl. rewrite Ee in Sl. assert (Hr : repro (space (mk m ls)) [] (fun a => snd T (joinz m a (keepz (map negb m) z)) 0%nat)); [|exact (no_columns _ _ Hr _ Ha)].
    refine (Sl _ _ (keepz (map negb m) z) 0%nat Hb D).
    - intros u d Hu Hd. apply (HK (fst T) d Q3). apply (FT' u (fst T) d Hu Hd).
    - intros b k Hb' Hk. apply (HW (comp T k)); [|exact Hb']. apply (red_in _ _ _ _ _ Ry T k IT Hk). }
  specialize (Q2 0%nat 0%nat D D). rewrite Nat.eqb_refl in Q2. unfold dot in Q2. rewrite lsum_zero in Q2; [lra|]. intros z Hz. rewrite (Zr z Hz). ring.
Qed.
Variable rec : list irreps -> list signed -> option (list irrep) -> res iarray.
Hypothesis Rec : forall irs' g' keep', (2 <= length irs' < n)%nat -> (forall x, In x irs' -> In x irs) -> (length g = 1%nat -> length g' = 1%nat) -> input_ok eps irs' g' ->
  (exists b, rec irs' g' keep' = Ok b /\ result irs' g' keep' b) \/ (keep' <> None /\ rec irs' g' keep' = Err ValueError /\ result irs' g' keep' (empty_basis irs')).
Lemma Rec' : forall irs' g' keep', (2 <= length irs' < n)%nat -> (forall x, In x irs' -> In x irs) -> (length g = 1%nat -> length g' = 1%nat) -> input_ok eps irs' g' -> exists b, patched rec irs' g' keep' = Ok b /\ result irs' g' keep' b.
Proof.
  intros irs' g' keep' H1 H2 H3 H4. unfold patched. destruct (Rec irs' g' keep' H1 H2 H3 H4) as [(b & E & Rb)|(Nk & E & Rb)]; rewrite E; [exists b; auto|]. destruct keep'; [|contradiction]. exists (empty_basis irs'). auto.
Qed.
Lemma reshape_empty irs' s y : ia_reshape (empty_basis irs') s = Ok y -> family y = [].
Proof.
  unfold ia_reshape. destruct (negb (prod s =? prod (lead (empty_basis irs')))%nat); [discriminate|]. unfold gathered. intros E. unfold mkIA in E. unfold family. repeat match type of E with context [if ?b then _ else _] => destruct b; try discriminate end; injection E as <-; reflexivity.
Qed.
Lemma merge_patched bases bases' : bases_ok irs g keep bases -> merge_step (patched rec) irs g keep bases = Ok bases' -> bases_ok irs g keep bases' ->
  merge_step rec irs g keep bases = Ok bases' \/ (keep <> None /\ merge_step rec irs g keep bases = Err ValueError /\ exists f e, In (f, e) bases' /\ family e = []).
Proof.
  intros B E B'. unfold merge_step in *. match type of E with context [bind ?c _] => destruct c as [cand|e] end; [|discriminate]. cbn [bind] in *. destruct (first_min cand) as [[[i j] f]|]; [|discriminate]. destruct (subrepr_permutation f g) as [h|e]; [|discriminate]. cbn [bind] in *. unfold patched in E.
  destruct (rec (picked f irs []) h (keep_without f irs keep)) as [b|e] eqn:Er; [left; exact E|]. destruct e; try discriminate. cbn [bind] in *. right. split; [|split; [reflexivity|]].
  - intros ->. rewrite keep_without_none in E. discriminate.
  - destruct (keep_without f irs keep); [|discriminate]. cbn [bind] in E. destruct (ia_reshape (empty_basis (picked f irs [])) (masked f (map dim irs))) as [y|e] eqn:Ey; [|discriminate]. cbn [bind] in E. exists f, y. split; [assert (Q : bases' = (f, y) :: remove_at i (remove_at j bases)) by congruence; rewrite Q; left; reflexivity|]. exact (reshape_empty _ _ _ Ey).
Qed.
Lemma loop_patched steps bases y : (1 <= length bases <= steps + 2)%nat -> bases_ok irs g keep bases -> rtp_loop eigh eps (fun v => v) steps (patched rec) irs g keep bases = Ok y ->
  rtp_loop eigh eps (fun v => v) steps rec irs g keep bases = Ok y \/ (keep <> None /\ rtp_loop eigh eps (fun v => v) steps rec irs g keep bases = Err ValueError /\ exists f e, basis_ok irs g keep (f, e) /\ family e = []).
Proof.
  revert bases. induction steps as [|steps IH]; intros bases L B E; (destruct bases as [|[fa a] [|[fb b] [|[fc c] bases]]]; [cbn in L; lia|left; exact E|left; exact E|]).
  - cbn in L. lia.
  - change (rtp_loop eigh eps (fun v => v) (S steps) (patched rec) irs g keep ((fa, a) :: (fb, b) :: (fc, c) :: bases)) with (let! bases := merge_step (patched rec) irs g keep ((fa, a) :: (fb, b) :: (fc, c) :: bases) in rtp_loop eigh eps (fun v => v) steps (patched rec) irs g keep bases) in E.
    change (rtp_loop eigh eps (fun v => v) (S steps) rec irs g keep ((fa, a) :: (fb, b) :: (fc, c) :: bases)) with (let! bases := merge_step rec irs g keep ((fa, a) :: (fb, b) :: (fc, c) :: bases) in rtp_loop eigh eps (fun v => v) steps rec irs g keep bases).
    set (bs := (fa, a) :: (fb, b) :: (fc, c) :: bases) in *. destruct (merge_ok eigh eps Ev irs g keep In_ok (patched rec) Rec' bs) as (bs' & Em & B' & Lb); [unfold bs; cbn; lia|exact B|]. rewrite Em in E. cbn [bind] in E.
    assert (Lbs : length bs = S (S (S (length bases)))) by reflexivity. destruct (merge_patched bs bs' B Em B') as [Q|(Nk & Q & f & e & Hfe & Fe)]; rewrite Q; cbn [bind].
    + apply IH; [unfold bs in Lb, L; cbn [length] in Lb, L; change (list basis) with (list (shape * iarray)) in *; change basis with (shape * iarray)%type in *; lia|exact B'|exact E].
    + right. split; [exact Nk|]. split; [reflexivity|]. exists f, e. split; [|exact Fe]. destruct B' as [B' _]. rewrite Forall_forall in B'. apply B', Hfe.
Qed.
Theorem general_total : (exists y, rtp_general eigh eps (fun v => v) rec irs g keep = Ok y /\ result irs g keep y) \/ (keep <> None /\ rtp_general eigh eps (fun v => v) rec irs g keep = Err ValueError /\ result irs g keep (empty_basis irs)).
Proof.
  destruct (general_ok eigh eps Ev E1 irs g keep In_ok (patched rec) Rec') as (y & E & Ry). unfold rtp_general in *. set (start := mapM (fun i => let! b := eye_basis irs i in Ok ([i], b)) (seq 0 n)) in *.
  destruct (mapM_ok (fun i => let! b := eye_basis irs i in Ok ([i], b)) (fun i (fb : basis) => fst fb = [i] /\ basis_ok irs g keep fb) (seq 0 n)) as (bs & Eb & F).
  { intros i Hi. apply in_seq in Hi. destruct (eye_good irs i) as (b & Ebi & Gb); [lia|]. rewrite Ebi. cbn [bind]. eexists. split; [reflexivity|]. split; [reflexivity|]. split; [apply iset_one; lia|]. split; [discriminate|]. exists (fun _ => True), (fun _ => True). cbn [fst snd]. split; [exact Gb|]. auto. }
  fold start in Eb. rewrite Eb in *. cbn [bind] in *.
  assert (G : forall l bs, Forall2 (fun i (fb : basis) => fst fb = [i] /\ basis_ok irs g keep fb) l bs -> Forall (basis_ok irs g keep) bs /\ concat (map fst bs) = l).
  { induction 1 as [|i c is bs' H F' IH]; [split; [constructor|reflexivity]|]. destruct IH as [IH1 IH2]. split; [constructor; [apply H|exact IH1]|]. cbn [map concat]. rewrite IH2, (proj1 H). reflexivity. }
  assert (Lb : length (seq 0 n) = length bs) by (eapply Forall2_length, F). rewrite seq_length in Lb. assert (Nn : (0 < n)%nat) by (pose proof (in_ne _ _ _ In_ok) as N; destruct (Nat.eq_dec n 0) as [Q|Q]; [exfalso; apply N, length_zero_iff_nil, Q|lia]).
  destruct (loop_patched n bs y) as [Q|(Nk & Q & f & e & Bo & Fe)].
  - change (basis) with (shape * iarray)%type. lia.
  - split; [exact (proj1 (G _ _ F))|]. rewrite (proj2 (G _ _ F)). apply Permutation_refl.
  - exact E.
  - left. exists y. split; [exact Q|exact Ry].
  - right. split; [exact Nk|]. split; [exact Q|]. apply (result_family irs g keep y Ry). exact (nothing f e y Bo Fe (proj1 Ry)).
Qed.
End Level.

(* ---------- the recursion ---------- *)
Lemma uniform irs g : all_perms (length irs) g -> compatible g irs -> irs = repeat (nth 0 irs []) (length irs).
Proof.
  intros Hg Co. apply (nth_ext _ _ [] []); [rewrite repeat_length; reflexivity|]. intros k Hk. rewrite RtpProps.nth_repeat_at by exact Hk. destruct (in_split k (seq 0 (length irs))) as (l1 & l2 & E); [apply in_seq; lia|]. set (p := k :: l1 ++ l2). assert (P : Permutation p (seq 0 (length irs))) by (rewrite E; apply Permutation_middle).
  assert (Lp : length p = length irs) by (rewrite (Permutation_length P); apply seq_length). assert (Q : In (1%Z, p) g) by (apply Hg; split; [reflexivity|]; split; [apply is_perm_iff; rewrite Lp; exact P|exact Lp]). apply Co in Q. apply (f_equal (fun l => nth 0 l [])) in Q. rewrite <- Q. reflexivity.
Qed.
Lemma same_set_all n g sym : symmetric_perm_repr n = Ok sym -> same_set g sym = true -> all_perms n g.
Proof.
  intros Es S. destruct (sym_group n) as (g' & Eg & _ & _ & _ & Hg). assert (Q : g' = sym) by congruence. subst g'. unfold same_set in S. apply andb_prop in S as [S1 S2]. rewrite forallb_forall in S1, S2. intros s p. rewrite <- Hg. split; intros H; [apply S1 in H|apply S2 in H]; apply smem_In, H.
Qed.
Lemma never_empty x n g : (1 <= n)%nat -> (0 < dim x)%nat -> all_perms n g -> signed_group n g -> compatible g (repeat x n) -> ~ result (repeat x n) g None (empty_basis (repeat x n)).
Proof.
  intros Hn Dx Hg Gg Co H. apply result_spec in H; [|rewrite repeat_length; exact Gg|exact Co]. pose proof (rb_all _ _ _ _ H eq_refl (fun _ => 1) (repeat 0%nat n)) as Q. unfold projected in Q. cbn [empty_basis irr] in Q. change (dim []) with 0%nat in Q. assert (Z : 0 = 1); [|lra]. apply Q.
  - intros s p z Hp _. apply Hg in Hp as (-> & _). ring.
  - apply valid_iff. rewrite map_length, !repeat_length. split; [reflexivity|]. intros j Hj. rewrite map_repeat, !RtpProps.nth_repeat_at by exact Hj. exact Dx.
Qed.
Theorem rtp_total fuel flag irs g keep : (length irs < fuel)%nat -> input_ok eps irs g ->
  (exists y, rtp eigh eps (fun v => v) (optimized eigh eps (fun v => v)) fuel flag irs g keep = Ok y /\ result irs g keep y) \/
  (keep <> None /\ rtp eigh eps (fun v => v) (optimized eigh eps (fun v => v)) fuel flag irs g keep = Err ValueError /\ result irs g keep (empty_basis irs)).
Proof.
  revert irs g keep. induction fuel as [|fuel IH]; intros irs g keep Lf Io; [lia|]. cbn [rtp]. set (rc := rtp eigh eps (fun v => v) (optimized eigh eps (fun v => v)) fuel flag) in *.
  assert (G : (exists y, rtp_general eigh eps (fun v => v) rc irs g keep = Ok y /\ result irs g keep y) \/ (keep <> None /\ rtp_general eigh eps (fun v => v) rc irs g keep = Err ValueError /\ result irs g keep (empty_basis irs))).
  { apply general_total; [exact Io|]. intros irs' g' keep' L' Hs Ht Io'. apply IH; [lia|exact Io']. }
  destruct flag; [|exact G]. destruct (sym_group (length irs)) as (sym & Es & _). rewrite Es. cbn [bind andb].
  destruct (same_set g sym) eqn:Ss; [|exact G]. destruct (Nat.ltb_spec 1 (length irs)) as [Hn|Hn]; [|exact G]. destruct (Nat.ltb_spec 1 (num_irreps (nth 0 irs []))) as [Hx|Hx]; [|exact G]. cbn [andb].
  pose proof (same_set_all _ _ _ Es Ss) as Hg. pose proof (uniform irs g Hg (in_comp _ _ _ Io)) as U. set (x := nth 0 irs []) in *. set (n := length irs) in *.
  destruct (in_adm _ _ _ Io) as [A|[Pos Small]]; [exfalso; pose proof (trivial_not_symmetric eigh Ev (fun _ _ _ => Err RuntimeError) n g sym Hn A Es); congruence|]. pose proof (in_group _ _ _ Io) as Gg. pose proof (in_comp _ _ _ Io) as Co. fold n in Gg.
  assert (Dx : (0 < dim x)%nat) by (rewrite Forall_forall in Pos; apply Pos, nth_In; fold n; lia).
  destruct (optimized_ok eigh eps x n keep g Ev E1) as [(y & Ey & Ry & _)|(Ee & Re)]; [rewrite <- U; exact Small|lia|lia|exact Hg| |].
  - rewrite Ey. cbn [bind]. left. rewrite U. apply rounded, Ry.
  - rewrite Ee. cbn [bind]. right. rewrite U. split; [|split; [reflexivity|exact Re]]. intros ->. apply (never_empty x n g); [lia|exact Dx|exact Hg|exact Gg|rewrite <- U; exact Co|exact Re].
Qed.
End Total.
