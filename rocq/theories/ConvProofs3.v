(* The messages of the convolution, edge by edge. *)
From Coq Require Import Reals Lra Lia List Arith Bool.
From Verif Require Import PyBase PermModel PermProofs IrrepsModel IrrepsProofs IrrepsProofs2 IrrepsStr ArrayModel ArrayProofs ArrayOps RechunkProofs ArithProofs LeadModel LeadProofs BlockProofs AxisProofs StackProofs BilinProofs ActProofs EquivProofs EquivProofs2 SumR EntryProofs ArrayProps2 TPModel TPProofs TPProofs2 StableSort TPProofs3 TPProps TPProps2 GradProofs CGModel RotationModel WignerModel WignerProofs WignerProofs2 WignerProps S2Model SHModel S2Proofs2 SHProps SHProps3 ScatterModel ScatterProps NormProofs LinearModel LinearProofs LinearProps LinearComplete LinModModel LinModProofs LinModProofs2 LinModProps MlpModel MlpProps ConvModel ConvProofs ConvProofs2.
Import ListNotations.
Open Scope nat_scope.

(* an operation that works on each row separately, the same way on all arrays of one kind *)
Definition step (op : iarray -> res iarray) (x : irreps) (fl : list bool) (x' : irreps) (fl' : list bool) (T : list R -> list R) : Prop :=
  forall a, coherent a -> irr a = x -> zero_flags a = fl -> exists z, op a = Ok z /\ irr z = x' /\ zero_flags z = fl' /\ lead z = lead a /\ coherent z /\ forall i, valid (lead a) i -> arr z i = T (arr a i).
(* with a second argument whose zero flags do not matter *)
Definition step2 (op : iarray -> iarray -> res iarray) (x : irreps) (fl : list bool) (y : irreps) (x' : irreps) (fl' : list bool) (T : list R -> list R -> list R) : Prop :=
  forall a b, coherent a -> coherent b -> irr a = x -> zero_flags a = fl -> irr b = y -> lead a = lead b ->
    exists z, op a b = Ok z /\ irr z = x' /\ zero_flags z = fl' /\ lead z = lead a /\ coherent z /\ forall i, valid (lead a) i -> arr z i = T (arr a i) (arr b i).

Lemma step_of op x fl x' T : length fl = length x -> (forall a, coherent a -> irr a = x -> zero_flags a = fl -> yields (op a) x' (lead a) (fun i => T (arr a i))) ->
  (forall a b u v, kin a b -> irr a = x -> zero_flags a = fl -> op a = Ok u -> op b = Ok v -> zero_flags u = zero_flags v) -> exists fl', length fl' = length x' /\ step op x fl x' fl' T.
Proof.
  intros L Y K. destruct (zero_like_coherent x [] fl L) as [C0 F0]. destruct (Y _ C0 eq_refl F0) as (z & E & I & _ & C & _). exists (zero_flags z). split; [rewrite <- I; apply zero_flags_length, C|].
  intros a Ca Ia Fa. destruct (Y a Ca Ia Fa) as (w & E1 & I1 & L1 & C1 & A1). exists w. split; [exact E1|]. split; [exact I1|]. split; [|auto]. apply (K a (zero_like x [] fl) w z); auto. constructor; auto; rewrite F0; exact Fa.
Qed.
Lemma step2_of op x fl y x' T : length fl = length x ->
  (forall a b, coherent a -> coherent b -> irr a = x -> zero_flags a = fl -> irr b = y -> lead a = lead b -> yields (op a b) x' (lead a) (fun i => T (arr a i) (arr b i))) ->
  (forall a b c d u v, kin a b -> coherent c -> coherent d -> lead a = lead c -> lead b = lead d -> irr a = x -> zero_flags a = fl -> irr c = y -> irr d = y -> op a c = Ok u -> op b d = Ok v -> zero_flags u = zero_flags v) ->
  exists fl', length fl' = length x' /\ step2 op x fl y x' fl' T.
Proof.
  intros L Y K. destruct (zero_like_coherent x [] fl L) as [C0 F0]. destruct (zero_like_coherent y [] (repeat true (length y)) (repeat_length _ _)) as [C1 F1]. destruct (Y _ _ C0 C1 eq_refl F0 eq_refl eq_refl) as (z & E & I & _ & C & _). exists (zero_flags z). split; [rewrite <- I; apply zero_flags_length, C|].
  intros a b Ca Cb Ia Fa Ib Lab. destruct (Y a b Ca Cb Ia Fa Ib Lab) as (w & E1 & I1 & L1 & Cw & A1). exists w. split; [exact E1|]. split; [exact I1|]. split; [|auto]. apply (K a (zero_like x [] fl) b (zero_like y [] (repeat true (length y))) w z); auto. constructor; auto; rewrite F0; exact Fa.
Qed.

(* ---- the edge attributes ---- *)
Definition shx (C : conv) (p : parity) : irreps := map (fun l => (1, Irrep l (ppow p l))) (seq 1 (c_sh_lmax C)).
Definition scalars (C : conv) : mulirrep := (c_width C, Irrep 0 Even).
Definition sh_row (C : conv) (p : parity) (v : list R) : list R := rowof (shx C p) (fun k u j => value (c_sh_norm C) true v (deg (shx C p) k) j).
Definition distance (v : list R) : R := norm_row false v.
Lemma mkIA_new_flags x s w a y : mkIA x s w a None None = Ok y -> zero_flags y = repeat false (length x).
Proof. unfold mkIA. repeat (destruct (negb _); [discriminate|]). intros E. injection E as <-. reflexivity. Qed.
Lemma sh_flags auto out inp nm n alg z : spherical_harmonics auto out inp nm n alg = Ok z -> zero_flags z = repeat false (length (irr z)).
Proof.
  unfold spherical_harmonics. destruct (sh_irreps out inp) as [x|]; [|discriminate]. cbn [bind]. destruct (negb _); [discriminate|]. destruct (negb _); [discriminate|].
  destruct (match inp with InIrreps a => _ | InArray s d a => _ end) as [[[s d] a]|]; [|discriminate]. cbn [bind fst snd]. destruct (num_irreps x =? 0).
  - intros E. rewrite (mkIA_irr _ _ _ _ _ _ _ E). exact (mkIA_new_flags _ _ _ _ _ E).
  - destruct (match alg with Some _ => _ | None => _ end) as [al|]; [|discriminate]. cbn [bind]. destruct (has_kw KOther al); [discriminate|]. destruct (negb _); [discriminate|]. destruct (harmonics _ _ _ _); [|discriminate]. cbn [bind]. intros E. apply from_chunks_flags in E as [I F]. rewrite F, I. rewrite map_map.
    assert (G : forall (l : list (nat * mulirrep)), map (fun p : nat * mulirrep => is_none (let '(k, m) := p in Some (Chunk s (fst m) (ir_dim (snd m)) (fun i => repeat (row_or_nil (harmonics (map (fun m0 => ir_l (snd m0)) x) (if nm then normalized (a i) else a i) n al) k) (fst m))))) l = repeat false (length l)).
    { induction l as [|[k m] l IH]; [reflexivity|]. cbn [map length repeat]. rewrite IH. reflexivity. }
    rewrite G. f_equal. unfold enumerate. rewrite combine_length, seq_length. lia.
Qed.
Lemma norm_one v : length v = 3 -> nth 0 (map (norm_row false) (group_rows 1 3 v)) 0%R = norm_row false v.
Proof. intros L. destruct v as [|a [|b [|c [|d v]]]]; try discriminate. reflexivity. Qed.
Record edge_ok (C : conv) (p : parity) : Prop := {
  eo_width : forall r, length (c_radial C r) = c_width C;
  eo_positive : c_width C <> 0;
  eo_usable : num_irreps (shx C p) = 0 \/ SHProps.usable (c_auto C) None (shx C p) }.
Lemma shx_natural C p : natural p (shx C p).
Proof. apply Forall_map, Forall_forall. reflexivity. Qed.
Lemma shx_not_scalar C p : Forall (fun m => snd m <> Irrep 0 Even) (shx C p).
Proof. apply Forall_map, Forall_forall. intros l Hl E. apply in_seq in Hl. cbn [snd] in E. injection E as -> _. lia. Qed.
Lemma attrs_yields C p v : edge_ok C p -> coherent v -> irr v = [(1, Irrep 1 p)] -> yields (edge_attrs C v) (scalars C :: shx C p) (lead v) (fun i => c_radial C (distance (arr v i)) ++ sh_row C p (arr v i)).
Proof.
  intros [W0 _ U] Cv Iv. unfold edge_attrs. eapply yields_bind; [apply (norm_yields v false Cv)|]. intros r _ Ir Lr Cr Ar.
  eapply yields_bind; [unfold as_irreps_array; assert (D : dim [(c_width C, Irrep 0 Even)] = c_width C) by (cbn; lia); rewrite <- D at 2; apply new_yields; intros i Hi; cbv beta; rewrite D; apply W0|]. intros rad _ I1 L1 C1 A1.
  eapply yields_bind; [apply (sh_yields (c_auto C) (OutList (seq 1 (c_sh_lmax C))) (InIrreps v) true (c_sh_norm C) None p (shx C p) Cv); [exists p; split; [exact Iv|reflexivity]|exact Iv|apply shx_natural|destruct U as [U|U]; [now left|right; split; [reflexivity|exact U]]]|].
  intros sh _ I2 L2 C2 A2. cbn [shape_of points] in L2, A2. rewrite Lr in L1.
  assert (F : Forall (fun y => coherent y /\ lead y = lead v) [rad; sh]) by (constructor; [split; assumption|constructor; [split; assumption|constructor]]).
  pose proof (concat_last_yields (lead v) [rad; sh] ltac:(discriminate) F) as Y. replace (flat_map irr [rad; sh]) with (scalars C :: shx C p) in Y by (cbn [flat_map]; rewrite I1, I2, app_nil_r; reflexivity). eapply yields_ext; [|exact Y].
  - intros i Hi. cbv beta. cbn [flat_map]. rewrite app_nil_r. rewrite A1 by (rewrite Lr; exact Hi). rewrite A2 by exact Hi. rewrite Ar by exact Hi. rewrite Iv. unfold blockwise. cbn [blockwise]. rewrite app_nil_r. f_equal. f_equal. unfold V_norm, distance. cbn [fst snd]. change (ir_dim (Irrep 1 p)) with 3.
    assert (L3 : length (arr v i) = 3) by (rewrite (proj1 Cv i Hi), Iv; reflexivity). rewrite firstn_all2 by (rewrite L3; cbn; lia). apply norm_one, L3.
Qed.
Lemma attrs_flags C p v z : edge_ok C p -> coherent v -> irr v = [(1, Irrep 1 p)] -> edge_attrs C v = Ok z -> zero_flags z = repeat false (S (length (shx C p))).
Proof.
  intros [W0 _ U] Cv Iv. unfold edge_attrs. destruct (norm v false true) as [r|]; [|discriminate]. cbn [bind]. destruct (as_irreps_array _ _ _) as [rad|] eqn:E1; [|discriminate]. cbn [bind].
  destruct (sh_yields (c_auto C) (OutList (seq 1 (c_sh_lmax C))) (InIrreps v) true (c_sh_norm C) None p (shx C p) Cv) as (sh & Es & I2 & _); [exists p; split; [exact Iv|reflexivity]|exact Iv|apply shx_natural|destruct U as [U|U]; [now left|right; split; [reflexivity|exact U]]|].
  rewrite Es. cbn [bind]. unfold concat_last. destruct (forallb _ _); [|discriminate]. intros E. apply mkIA_flags in E. rewrite E. cbn [flat_map]. rewrite app_nil_r. apply sh_flags in Es. rewrite Es, I2. unfold as_irreps_array in E1. apply mkIA_new_flags in E1. rewrite E1. reflexivity.
Qed.
Lemma scalars_dim C : mi_dim (scalars C) = c_width C. Proof. unfold mi_dim, scalars. cbn. lia. Qed.
Lemma select_none {A} (l : list A) : select (map (fun _ => false) l) l = [].
Proof. induction l as [|a l IH]; [reflexivity|exact IH]. Qed.
Lemma filter_false {A} (f : A -> bool) l : Forall (fun a => f a = false) l -> filter f l = [].
Proof. induction 1 as [|a l H F IH]; [reflexivity|]. cbn. now rewrite H. Qed.
Lemma filter_true {A} (f : A -> bool) l : Forall (fun a => f a = true) l -> filter f l = l.
Proof. induction 1 as [|a l H F IH]; [reflexivity|]. cbn. now rewrite H, IH. Qed.
Lemma select_falses {A B} (f : B -> bool) (l : list B) : Forall (fun a => f a = false) l -> forall m : list A, select (map f l) m = [].
Proof. induction 1 as [|a l H F IH]; intros [|b m]; try reflexivity. cbn. rewrite H. apply IH. Qed.
Lemma select_trues {A B} (f : B -> bool) (l : list B) : Forall (fun a => f a = true) l -> forall m : list A, length m = length l -> select (map f l) m = m.
Proof. induction 1 as [|a l H F IH]; intros [|b m] E; try discriminate; [reflexivity|]. cbn. rewrite H. f_equal. apply IH. now injection E. Qed.
Lemma not_scalar_b (m : mulirrep) : snd m <> Irrep 0 Even -> existsb (irrep_eqb (snd m)) [Irrep 0 Even] = false.
Proof. intros H. cbn. rewrite orb_false_r. apply not_true_is_false. intros E. apply H. now apply irrep_eqb_eq in E. Qed.
Lemma attrs_keep C p z : coherent z -> irr z = scalars C :: shx C p -> yields (ia_filter z (Some (ByIrreps [Irrep 0 Even])) None None) [scalars C] (lead z) (fun i => firstn (c_width C) (arr z i)).
Proof.
  intros Cz Iz. set (f := fun m : mulirrep => existsb (irrep_eqb (snd m)) [Irrep 0 Even]). assert (N : Forall (fun m => f m = false) (shx C p)) by (eapply Forall_impl; [|apply shx_not_scalar]; intros m; apply not_scalar_b).
  assert (T : f (scalars C) = true) by reflexivity.
  eapply yields_ext; [|apply (filter_yields z (Some (ByIrreps [Irrep 0 Even])) None None [scalars C] Cz ltac:(discriminate))].
  - intros i Hi. cbv beta. rewrite Iz. cbn [blocks map]. change (wants (Some (ByIrreps [Irrep 0 Even])) None None) with f. rewrite T. cbn [select concat]. rewrite select_falses by exact N. cbn [concat]. rewrite app_nil_r, scalars_dim. reflexivity.
  - change (Ok (filter f (irr z)) = Ok [scalars C]). rewrite Iz. cbn [filter]. rewrite T. rewrite filter_false by exact N. reflexivity.
  - intros m n _ _ E. cbn. now rewrite E.
Qed.
Lemma attrs_drop C p z : coherent z -> irr z = scalars C :: shx C p -> yields (ia_filter z None (Some (ByIrreps [Irrep 0 Even])) None) (shx C p) (lead z) (fun i => skipn (c_width C) (arr z i)).
Proof.
  intros Cz Iz. set (f := fun m : mulirrep => negb (existsb (irrep_eqb (snd m)) [Irrep 0 Even])). assert (N : Forall (fun m => f m = true) (shx C p)) by (eapply Forall_impl; [|apply shx_not_scalar]; intros m Hm; unfold f; now rewrite not_scalar_b).
  assert (T : f (scalars C) = false) by reflexivity.
  eapply yields_ext; [|apply (filter_yields z None (Some (ByIrreps [Irrep 0 Even])) None (shx C p) Cz ltac:(discriminate))].
  - intros i Hi. cbv beta. pose proof (proj1 Cz i Hi) as Lz. rewrite Iz in *. cbn [blocks map]. change (wants None (Some (ByIrreps [Irrep 0 Even])) None) with f. rewrite T. cbn [select concat]. rewrite select_trues by (try exact N; apply blocks_length). rewrite scalars_dim. rewrite dim_cons, scalars_dim in Lz. apply concat_blocks. rewrite skipn_length. lia.
  - change (Ok (filter f (irr z)) = Ok (shx C p)). rewrite Iz. cbn [filter]. rewrite T. now rewrite filter_true by exact N.
  - intros m n _ _ E. cbn. now rewrite E.
Qed.
