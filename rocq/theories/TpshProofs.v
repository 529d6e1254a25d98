(* The aligned product of tensor_product_with_spherical_harmonics is the product with the harmonics of the pole. *)
From Coq Require Import Reals ZArith Arith Lia Lra Bool List.
From Verif Require Import PyBase IrrepsModel IrrepsProofs ArrayModel ArrayProofs LeadModel LeadProofs ArithProofs SumR CGModel EquivProofs EntryProofs TPModel TPProofs TPProofs2 WignerProps2 TpshCG TpshModel.
From Verif Require Import RotationModel WignerModel S2Model SHModel.
Import ListNotations.
Open Scope R_scope.

(* ---- the slice at the centre ---- *)
Lemma slice_orders l1 l2 l3 i k : (i < 2 * l1 + 1)%nat -> (k < 2 * l3 + 1)%nat -> clebsch_gordan l1 l2 l3 i l2 k <> 0 -> (Z.abs (Z.of_nat i - Z.of_nat l1) = Z.abs (Z.of_nat k - Z.of_nat l3))%Z.
Proof. intros Hi Hk N. destruct (cg_orders l1 l2 l3 i l2 k Hi ltac:(lia) Hk N) as (e1 & e2 & e3 & [->| ->] & _ & [->| ->] & E); lia. Qed.
(* l1 + l2 + l3 even: the orders are equal; odd: opposite, and not zero *)
Lemma slice_even l1 l2 l3 i k : (i < 2 * l1 + 1)%nat -> (k < 2 * l3 + 1)%nat -> Nat.even (l1 + l2 + l3) = true -> clebsch_gordan l1 l2 l3 i l2 k <> 0 -> (i + l3 = k + l1)%nat.
Proof.
  intros Hi Hk Ev N. pose proof (slice_orders _ _ _ _ _ Hi Hk N) as A. pose proof (cg_mirror l1 l2 l3 i l2 k Hi ltac:(lia) Hk) as M. apply Nat.even_spec in Ev as [q Eq]. rewrite Eq, pow_mult in M. replace ((-1) ^ 2) with 1 in M by ring. rewrite pow1 in M.
  unfold side in M. rewrite (leb_correct l2 l2) in M by lia. destruct (le_lt_dec l1 i), (le_lt_dec l3 k); try lia.
  - rewrite (leb_correct l1 i), (leb_correct_conv k l3) in M by lia. exfalso. apply N. lra.
  - rewrite (leb_correct_conv i l1), (leb_correct l3 k) in M by lia. exfalso. apply N. lra.
Qed.
Lemma slice_odd l1 l2 l3 i k : (i < 2 * l1 + 1)%nat -> (k < 2 * l3 + 1)%nat -> Nat.even (l1 + l2 + l3) = false -> clebsch_gordan l1 l2 l3 i l2 k <> 0 -> (i + k = l1 + l3)%nat.
Proof.
  intros Hi Hk Ev N. pose proof (slice_orders _ _ _ _ _ Hi Hk N) as A. pose proof (cg_mirror l1 l2 l3 i l2 k Hi ltac:(lia) Hk) as M. assert (Od : Nat.odd (l1 + l2 + l3) = true) by (rewrite <- Nat.negb_even, Ev; reflexivity). apply Nat.odd_spec in Od as [q Eq]. rewrite Eq, pow_add, pow_mult in M. replace ((-1) ^ 2) with 1 in M by ring. rewrite pow1 in M.
  unfold side in M. rewrite (leb_correct l2 l2) in M by lia. destruct (le_lt_dec l1 i), (le_lt_dec l3 k); try lia.
  - rewrite (leb_correct l1 i), (leb_correct l3 k) in M by lia. exfalso. apply N. lra.
  - rewrite (leb_correct_conv i l1), (leb_correct_conv k l3) in M by lia. exfalso. apply N. lra.
Qed.
Lemma is_diag_iff d m : is_diag d m = true <-> forall a b, (a < d)%nat -> (b < d)%nat -> a <> b -> m a b = 0.
Proof.
  unfold is_diag. rewrite forallb_forall. split.
  - intros H a b Ha Hb N. specialize (H a ltac:(apply in_seq; lia)). rewrite forallb_forall in H. specialize (H b ltac:(apply in_seq; lia)). rewrite (proj2 (Nat.eqb_neq a b) N) in H. cbn [orb] in H. unfold Reqb in H. destruct (Req_EM_T (m a b) 0); [assumption|discriminate].
  - intros H a Ha. apply in_seq in Ha. apply forallb_forall. intros b Hb. apply in_seq in Hb. destruct (Nat.eqb_spec a b) as [->|N]; [reflexivity|]. cbn [orb]. unfold Reqb. destruct (Req_EM_T (m a b) 0) as [|E]; [reflexivity|]. exfalso. apply E, H; lia.
Qed.
(* ---- one output ---- *)
Definition aligned_entry (irx iry irz : irrep) (y : R) (row : list R) (k : nat) : R :=
  rsum (ir_dim irx) (fun e => nth e row 0 * y * (clebsch_gordan (ir_l irx) (ir_l iry) (ir_l irz) e (ir_l iry) k * sqrt (INR (ir_dim irz)))).
Lemma aligned_ok mul irx iry irz y c : wf_chunk [] (mul, irx) c ->
  exists z, aligned_chunk mul irx iry irz y c = Ok z /\ wf_chunk [] (mul, irz) z /\
    forall u k, (u < mul)%nat -> (k < ir_dim irz)%nat -> nth k (nth u (c_val z []) []) 0 = aligned_entry irx iry irz y (nth u (c_val c []) []) k.
Proof.
  intros (W1 & W2 & W3 & W4). cbn [fst snd] in *. unfold aligned_chunk. cbv zeta. set (l1 := ir_l irx). set (l2 := ir_l iry). set (l3 := ir_l irz). set (l := Nat.min l1 l3). set (w := fun a b => sqrt (INR (ir_dim irz)) * clebsch_gordan l1 l2 l3 (l1 - l + a) l2 (l3 - l + b)).
  assert (Nz : forall a b, w a b <> 0 -> clebsch_gordan l1 l2 l3 (l1 - l + a) l2 (l3 - l + b) <> 0) by (intros a b N E; apply N; unfold w; rewrite E; ring).
  assert (Dz : ir_dim irz = (2 * l3 + 1)%nat) by reflexivity. assert (Dx : ir_dim irx = (2 * l1 + 1)%nat) by reflexivity.
  set (diag := is_diag (2 * l + 1) w). set (w' := if diag then w else fun a b => w (2 * l - a)%nat b).
  assert (F : is_diag (2 * l + 1) w' = true).
  { unfold w'. destruct diag eqn:Ed; [exact Ed|]. apply is_diag_iff. intros a b Ha Hb Nab. destruct (Req_dec (w (2 * l - a)%nat b) 0) as [|N]; [assumption|exfalso]. apply Nz in N. destruct (Nat.even (l1 + l2 + l3)) eqn:Ev.
    - assert (diag = true); [|congruence]. unfold diag. apply is_diag_iff. intros a' b' Ha' Hb' N'. destruct (Req_dec (w a' b') 0) as [|M]; [assumption|exfalso]. apply Nz in M. apply slice_even in M; [|lia..|exact Ev]. lia.
    - apply slice_odd in N; [|lia..|exact Ev]. lia. }
  change (fun a b : nat => sqrt (INR (ir_dim irz)) * clebsch_gordan l1 l2 l3 (l1 - l + (2 * l - a)) l2 (l3 - l + b)) with (fun a b : nat => w (2 * l - a)%nat b). fold w'. rewrite F. cbn [assert bind]. eexists. split; [reflexivity|]. split.
  - split; [reflexivity|split; [reflexivity|split; [reflexivity|]]]. intros i Hi. cbn [c_val fst snd]. destruct (W4 i Hi) as [L _]. split; [now rewrite map_length|]. apply Forall_map, Forall_forall. intros row _. rewrite !app_length, !repeat_length, tab_length, Dz. lia.
  - intros u k Hu Hk. destruct (W4 [] (Forall2_nil _)) as [L _]. cbn [c_val]. rewrite (nth_map_at _ _ _ []) by (rewrite L; exact Hu). set (row := nth u (c_val c []) []). unfold aligned_entry. fold l1 l2 l3. rewrite Dx. rewrite Dz in Hk.
    set (sz := sqrt (INR (ir_dim irz))) in *.
    destruct (lt_dec k (l3 - l)) as [K1|K1]; [|destruct (lt_dec k (l3 + l + 1)) as [K2|K2]].
    + rewrite app_nth1 by (rewrite repeat_length; exact K1). rewrite nth_repeat. symmetry. apply rsum_zero. intros e He. destruct (Req_dec (clebsch_gordan l1 l2 l3 e l2 k) 0) as [E|N]; [rewrite E; ring|exfalso]. apply slice_orders in N; lia.
    + rewrite app_nth2 by (rewrite repeat_length; lia). rewrite repeat_length. rewrite app_nth1 by (rewrite tab_length; lia). rewrite nth_tab by lia. set (b := (k - (l3 - l))%nat). assert (Eb : (l3 - l + b = k)%nat) by (unfold b; lia). assert (Hb : (b < 2 * l + 1)%nat) by (unfold b; lia).
      set (e0 := (l1 - l + (if diag then b else 2 * l - b))%nat).
      assert (We : w' b b = sz * clebsch_gordan l1 l2 l3 e0 l2 k). { unfold w', e0. destruct diag; unfold w; rewrite Eb; reflexivity. }
      assert (He0 : (e0 < 2 * l1 + 1)%nat) by (unfold e0; destruct diag; lia).
      rewrite (rsum_ext _ _ (fun e => if (e =? e0)%nat then nth e row 0 * y * (clebsch_gordan l1 l2 l3 e l2 k * sz) else 0)).
      * rewrite (rsum_delta _ e0 (fun e => nth e row 0 * y * (clebsch_gordan l1 l2 l3 e l2 k * sz))) by exact He0. rewrite We. ring.
      * intros e He. destruct (Nat.eqb_spec e e0) as [|Ne]; [reflexivity|]. destruct (Req_dec (clebsch_gordan l1 l2 l3 e l2 k) 0) as [E|N]; [rewrite E; ring|exfalso]. pose proof (slice_orders _ _ _ _ _ He Hk N) as A.
        assert (Sz : sz <> 0). { unfold sz. apply Rgt_not_eq, sqrt_lt_R0, lt_0_INR. unfold ir_dim. lia. }
        set (a := (e - (l1 - l))%nat). assert (Ea : (l1 - l + a = e)%nat) by (unfold a; lia). assert (Ha : (a < 2 * l + 1)%nat) by (unfold a; lia).
        set (a' := if diag then a else (2 * l - a)%nat). assert (Wa : w' a' b = sz * clebsch_gordan l1 l2 l3 e l2 k). { unfold w', a'. destruct diag; unfold w; rewrite Eb; [now rewrite Ea|]. replace (l1 - l + (2 * l - (2 * l - a)))%nat with e by lia. reflexivity. }
        rewrite is_diag_iff in F. specialize (F a' b). rewrite Wa in F. assert (Z : sz * clebsch_gordan l1 l2 l3 e l2 k = 0); [apply F|]; [unfold a'; destruct diag; lia|exact Hb| |apply Rmult_integral in Z; tauto].
        intros Q. apply Ne. unfold e0. unfold a' in Q. destruct diag; lia.
    + rewrite app_nth2 by (rewrite repeat_length; lia). rewrite repeat_length. rewrite app_nth2 by (rewrite tab_length; lia). rewrite nth_repeat. symmetry. apply rsum_zero. intros e He. destruct (Req_dec (clebsch_gordan l1 l2 l3 e l2 k) 0) as [E|N]; [rewrite E; ring|exfalso]. apply slice_orders in N; lia.
Qed.
(* ---- all the outputs ---- *)
Definition pole_like (l : nat) (F : nat -> R) : Prop := forall j, (j < 2 * l + 1)%nat -> j <> l -> F j = 0.
Lemma central_ok l y : length y = (2 * l + 1)%nat -> pole_like l (fun j => nth j y 0) -> central l y = Ok (nth l y 0).
Proof.
  intros L H. unfold central. match goal with |- context [assert ?b] => assert (E : b = true) end; [|rewrite E; reflexivity]. apply forallb_forall. intros j Hj. apply in_seq in Hj. destruct (Nat.eqb_spec j l) as [|N]; [reflexivity|]. cbn [orb]. unfold Reqb. destruct (Req_EM_T (nth j y 0) 0) as [|E]; [reflexivity|]. exfalso. apply E, H; lia.
Qed.
Lemma mapM_rel {A B P} (Rel : P -> B -> Prop) (f : nat * A -> list P) (g : A -> res (list B)) (l : list A) :
  (forall k a, nth_error l k = Some a -> exists out, g a = Ok out /\ Forall2 Rel (f (k, a)) out) ->
  exists outs, mapM g l = Ok outs /\ Forall2 Rel (flat_map f (enumerate l)) (concat outs).
Proof.
  unfold enumerate. assert (G : forall o, (forall k a, nth_error l k = Some a -> exists out, g a = Ok out /\ Forall2 Rel (f ((o + k)%nat, a)) out) -> exists outs, mapM g l = Ok outs /\ Forall2 Rel (flat_map f (combine (seq o (length l)) l)) (concat outs)); [|intros H; apply (G 0%nat), H].
  induction l as [|a l IH]; intros o H; [exists []; split; [reflexivity|constructor]|]. destruct (H 0%nat a eq_refl) as (out & E & F). rewrite Nat.add_0_r in F. destruct (IH (S o)) as (outs & E' & F'). { intros k b Hk. destruct (H (S k) b Hk) as (out' & E1 & F1). exists out'. split; [exact E1|]. now rewrite Nat.add_succ_r in F1. }
  exists (out :: outs). cbn [mapM]. rewrite E, E'. split; [reflexivity|]. cbn [length seq combine flat_map concat]. now apply Forall2_app.
Qed.
Lemma nth_error_combine {A B} (l : list A) (l' : list B) k a b : nth_error (combine l l') k = Some (a, b) -> nth_error l k = Some a /\ nth_error l' k = Some b.
Proof. revert l' k. induction l as [|x l IH]; intros [|y l'] [|k] H; try discriminate; cbn in *; [injection H as <- <-; auto|apply IH, H]. Qed.
Lemma Forall2_nth_error_l {A B} (P : A -> B -> Prop) l l' : Forall2 P l l' -> forall k a, nth_error l k = Some a -> exists b, nth_error l' k = Some b /\ P a b.
Proof. induction 1 as [|x y l l' H _ IH]; intros [|k] a E; try discriminate; cbn in *; [injection E as <-; eauto|apply IH, E]. Qed.
Lemma combine_enumerate {A B C} (f : nat * A -> list C) (l : list A) (l' : list B) : length l = length l' -> flat_map (fun q => f (fst q, fst (snd q))) (enumerate (combine l l')) = flat_map f (enumerate l).
Proof.
  intros L. unfold enumerate. rewrite combine_length, <- L, Nat.min_id. generalize 0%nat. revert l' L. induction l as [|a l IH]; intros [|b l'] L o; try discriminate; [reflexivity|]. cbn [length seq combine flat_map fst snd]. f_equal. apply IH. cbn in L. lia.
Qed.
Lemma pairs_all_one m u : (u < m)%nat -> nth u (pairs_all m 1) (0, 0)%nat = (u, 0%nat).
Proof.
  intros H. unfold pairs_all. cbn [seq map]. assert (E : forall l : list nat, flat_map (fun u => [(u, 0%nat)]) l = map (fun u => (u, 0%nat)) l) by (induction l as [|a l IH]; [reflexivity|cbn; now rewrite IH]). rewrite E. rewrite (nth_map_at _ _ _ 0%nat) by (rewrite seq_length; exact H). now rewrite seq_nth by exact H.
Qed.
Lemma aligned_product_yields x shs : coherent x -> coherent shs -> lead x = [] -> lead shs = [] -> Forall (fun c => c <> None) (chunks x) -> Forall (fun c => c <> None) (chunks shs) ->
  Forall (fun m => fst m = 1%nat) (irr shs) -> (forall k m, nth_error (irr shs) k = Some m -> pole_like (ir_l (snd m)) (fun j => entry (irr shs) (arr shs []) k 0 j)) ->
  let ps := tp_paths NComponent None (irr x) (irr shs) in
  yields (let! o := aligned_product x shs in from_chunks (map fst o) (map (fun o => Some (snd o)) o) [] true) (bil_out ps) [] (fun i => bil_row clebsch_gordan ps (irr x) (irr shs) (arr x i) (arr shs i)).
Proof.
  intros Hx Hs Lx Ls Nx Ns M1 Pl ps.
  pose proof (chunks_wf x Hx) as Wx. pose proof (chunks_wf shs Hs) as Ws. rewrite Lx in Wx. rewrite Ls in Ws.
  assert (Vx : valid (lead x) []) by (rewrite Lx; constructor). assert (Vs : valid (lead shs) []) by (rewrite Ls; constructor).
  set (Rel := fun (p : bpath) (o : mulirrep * chunk) => fst o = (b_mul p, b_out p) /\ wf_chunk [] (fst o) (snd o) /\ forall u k, (u < b_mul p)%nat -> (k < ir_dim (b_out p))%nat -> nth k (nth u (c_val (snd o) []) []) 0 = path_val clebsch_gordan (irr x) (irr shs) (arr x []) (arr shs []) p u k).
  assert (G : exists o, aligned_product x shs = Ok o /\ Forall2 Rel ps o).
  { unfold aligned_product.
    set (inner := fun (k1 : nat) (m1 : nat) (a : irrep) (q : nat * mulirrep) => let '(k2, (m2, b)) := q in map (fun c => BP k1 k2 (pairs_all m1 m2) (m1 * m2) c (norm_factor NComponent a b c)) (filter (passes None) (ir_mul a b))).
    set (outer := fun (q : nat * mulirrep) => let '(k1, (m1, a)) := q in flat_map (inner k1 m1 a) (enumerate (irr shs))).
    match goal with |- context [mapM ?g (combine (irr x) (chunks x))] => destruct (mapM_rel Rel (fun q => outer (fst q, fst (snd q))) g (combine (irr x) (chunks x))) as (outs & E & F) end.
    2: { rewrite E. cbn [bind]. eexists. split; [reflexivity|]. rewrite combine_enumerate in F by (eapply Forall2_length, Wx). exact F. }
    intros k1 [[m1 a] oc] E1. apply nth_error_combine in E1 as [E1 C1]. destruct oc as [c|]; [|exfalso; rewrite Forall_forall in Nx; exact (Nx None (nth_error_In _ _ C1) eq_refl)].
    assert (Wc : wf_chunk [] (m1, a) c). { destruct (Forall2_nth_error_l _ _ _ Wx _ _ E1) as (oc & C1' & W). rewrite C1 in C1'. injection C1' as <-. exact W. }
    assert (A1 : assert ((c_mul c =? m1)%nat && (c_dim c =? ir_dim a)%nat) = Ok tt). { destruct Wc as (_ & W2 & W3 & _). cbn [fst snd] in *. rewrite W2, W3, !Nat.eqb_refl. reflexivity. }
    rewrite A1. cbn [bind fst snd outer].
    match goal with |- context [mapM ?g (combine (irr shs) (chunks shs))] => destruct (mapM_rel Rel (fun q => inner k1 m1 a (fst q, fst (snd q))) g (combine (irr shs) (chunks shs))) as (outs & E & F) end.
    2: { rewrite E. cbn [bind]. eexists. split; [reflexivity|]. rewrite combine_enumerate in F by (eapply Forall2_length, Ws). exact F. }
    intros k2 [[m2 b] od] E2. apply nth_error_combine in E2 as [E2 C2]. destruct od as [d|]; [|exfalso; rewrite Forall_forall in Ns; exact (Ns None (nth_error_In _ _ C2) eq_refl)].
    assert (Wd : wf_chunk [] (m2, b) d). { destruct (Forall2_nth_error_l _ _ _ Ws _ _ E2) as (od & C2' & W). rewrite C2 in C2'. injection C2' as <-. exact W. }
    rewrite Forall_forall in M1. pose proof (M1 _ (nth_error_In _ _ E2)) as M2. cbn [fst] in M2. subst m2.
    assert (A2 : assert ((c_mul d =? 1)%nat && (c_dim d =? ir_dim b)%nat) = Ok tt). { destruct Wd as (_ & W2 & W3 & _). cbn [fst snd] in *. rewrite W2, W3, !Nat.eqb_refl. reflexivity. }
    rewrite A2. cbn [bind fst snd inner].
    assert (En : forall j, (j < ir_dim b)%nat -> nth j (nth 0 (c_val d []) []) 0 = entry (irr shs) (arr shs []) k2 0 j). { intros j Hj. rewrite <- (entry_chunks shs [] k2 0 j Hs Vs) by (exists 1%nat, b; repeat split; [exact E2|lia|exact Hj]). rewrite (nth_error_nth _ _ _ C2). reflexivity. }
    pose proof (Pl k2 (1%nat, b) E2) as Pb. cbn [snd] in Pb.
    rewrite central_ok.
    2: { destruct Wd as (_ & _ & _ & W4). destruct (W4 [] ltac:(constructor)) as [L Fr]. cbn [fst snd] in *. destruct (c_val d []) as [|r rs]; [discriminate|]. cbn [nth]. inversion Fr. assumption. }
    2: { intros j Hj N. rewrite En by exact Hj. apply Pb; assumption. }
    cbn [bind]. rewrite En by (unfold ir_dim; lia). set (y := entry (irr shs) (arr shs []) k2 0 (ir_l b)).
    assert (Fl : filter (passes None) (ir_mul a b) = ir_mul a b) by apply TPProofs3.filter_all. rewrite Fl. clear Fl.
    generalize (ir_mul a b) as zs. intros zs. induction zs as [|irz zs IH]; [exists []; split; [reflexivity|constructor]|]. destruct IH as (out & E & F). cbn [mapM map].
    destruct (aligned_ok m1 a b irz y c Wc) as (z & Ez & Wz & Vz). rewrite Ez. cbn [bind]. rewrite E. eexists. split; [reflexivity|]. constructor; [|exact F]. split; [cbn [fst b_mul b_out]; f_equal; lia|]. cbn [fst snd b_mul b_out]. split; [exact Wz|].
    intros u k Hu Hk. rewrite Nat.mul_1_r in Hu. rewrite Vz by assumption. unfold path_val, aligned_entry. cbn [b_in1 b_in2 b_pairs b_out b_alpha]. rewrite (nth_error_nth _ _ _ E1), (nth_error_nth _ _ _ E2), pairs_all_one by exact Hu. cbn [snd norm_factor].
    rewrite <- rsum_scal. apply rsum_ext. intros e He.
    rewrite (rsum_ext _ _ (fun f => if (f =? ir_l b)%nat then clebsch_gordan (ir_l a) (ir_l b) (ir_l irz) e f k * entry (irr x) (arr x []) k1 u e * entry (irr shs) (arr shs []) k2 0 f else 0)).
    - rewrite (rsum_delta _ (ir_l b) (fun f => clebsch_gordan (ir_l a) (ir_l b) (ir_l irz) e f k * entry (irr x) (arr x []) k1 u e * entry (irr shs) (arr shs []) k2 0 f)) by (unfold ir_dim; lia). fold y.
      rewrite <- (entry_chunks x [] k1 u e Hx Vx) by (exists m1, a; auto). rewrite (nth_error_nth _ _ _ C1). cbn [centry]. ring.
    - intros f Hf. destruct (Nat.eqb_spec f (ir_l b)) as [|N]; [reflexivity|]. rewrite (Pb f Hf N). ring. }
  destruct G as (o & -> & F). cbn [bind].
  assert (Eo : map fst o = bil_out ps). { unfold bil_out. clear - F. induction F as [|p o ps os (H & _) _ IH]; [reflexivity|]. cbn [map]. now rewrite H, IH. }
  rewrite Eo. eapply yields_ext; [|apply from_chunks_rowof].
  - intros i Hi. inversion Hi; subst. cbv beta. unfold bil_row. apply rowof_ext. intros q w k (mul & ir & Eq & Hw & Hk). rewrite bil_out_nth in Eq. destruct (nth_error ps q) as [p|] eqn:Ep; [|discriminate]. cbn [option_map] in Eq. injection Eq as <- <-.
    destruct (Forall2_nth_error_l _ _ _ F _ _ Ep) as (z & Ez & _ & _ & Vz). rewrite (nth_error_nth _ _ _ Ep). rewrite (nth_error_nth _ _ None (map_nth_error (fun o => Some (snd o)) _ _ Ez)). cbn [centry]. now apply Vz.
  - unfold bil_out. clear - F. induction F as [|p o ps os (H & W & _) _ IH]; cbn [map]; constructor; [|exact IH]. cbn [wf_opt]. rewrite <- H. exact W.
Qed.
