(* C27: with the default instructions the layer is the most general linear map (with biases: affine map) that commutes with every rotation and
   reflection, and no two settings of its weights give the same map.
   [linear_rows x y T]: T is a linear map from rows of length dim x to rows of length dim y; [equivariant_rows x y T]: T(D(r) a) = D(r) T(a) for every
   orthogonal r; [unit_row]: a row with a single 1 (GradProofs.v). *)
From Coq Require Import Reals Lra Lia List Arith Bool.
From Verif Require Import PyBase PermModel IrrepsModel IrrepsProofs IrrepsProofs2 ArrayModel ArrayProofs RechunkProofs LeadModel LeadProofs StackProofs ActProofs EquivProofs SumR EntryProofs TPModel TPProofs TPProps4 GradProofs GradProps LinearModel LinearProofs LinearProps LinearComplete.
From Verif Require Import RotationModel WignerModel WignerProofs WignerProofs2 SchurProofs IrrepsProofs PermProofs ArrayOps ArrayProps3 BlockProofs.
Import ListNotations.
Open Scope R_scope.

Definition path_key (o : linstr) : option nat * nat := (li_in o, li_out o).
(* a bias entry of the constructor *)
Definition bias_entries (bs : list bool) (y : irreps) : list (nat * mulirrep) := flat_map (fun '(j, (b, m)) => if (b : bool) then [(j, m)] else []) (enumerate (combine bs y)).
Lemma bias_instrs bs y : flat_map (fun '(j, (b, m)) => if (b : bool) then [LIns None j [mi_dim m] 1%R 0%R] else []) (enumerate (combine bs y)) = map (fun '(j, m) => LIns None j [mi_dim m] 1%R 0%R) (bias_entries bs y).
Proof. unfold bias_entries. induction (enumerate (combine bs y)) as [|[j [b m]] l IH]; [reflexivity|]. cbn [flat_map]. rewrite IH, map_app. destruct b; reflexivity. Qed.
Lemma lsum_connections x y j mo b (F : nat -> nat -> R) : nth_error y j = Some (mo, b) ->
  lsum (default_instructions x y) (fun '(i, j') => if (j' =? j)%nat then F i j' else 0) = rsum (length x) (fun k => let '(m, a) := nth k x d0 in if irrep_eqb a b then F k j else 0).
Proof.
  intros Ej. unfold default_instructions. rewrite lsum_flat_map.
  transitivity (lsum (enumerate x) (fun '(i, m) => let '(m, a) := (m : mulirrep) in if irrep_eqb a b then F i j else 0)).
  - apply lsum_ext. intros [i [m a]] _. rewrite lsum_flat_map.
    transitivity (lsum (enumerate y) (fun '(j', m') => if (j' =? j)%nat then (if irrep_eqb a (snd m') then F i j' else 0) else 0)).
    + apply lsum_ext. intros [j' [m' b']] _. cbn [snd]. destruct (irrep_eqb a b'); [rewrite lsum_cons; cbn; destruct (j' =? j)%nat; ring|]. cbn. destruct (j' =? j)%nat; reflexivity.
    + rewrite (lsum_enumerate y d0 (fun j' m' => if (j' =? j)%nat then (if irrep_eqb a (snd m') then F i j' else 0) else 0)). rewrite (rsum_delta _ j (fun j' => if irrep_eqb a (snd (nth j' y d0)) then F i j' else 0)) by (apply nth_error_Some; congruence). rewrite (nth_error_nth _ _ _ Ej). reflexivity.
  - apply (lsum_enumerate x d0 (fun i m => let '(m, a) := m in if irrep_eqb a b then F i j else 0)).
Qed.
Lemma lsum_biases bs y j m (G : nat -> mulirrep -> R) : length bs = length y -> nth_error y j = Some m ->
  lsum (bias_entries bs y) (fun '(j', m') => if (j' =? j)%nat then G j' m' else 0) = if nth j bs false then G j m else 0.
Proof.
  intros Lb Ej. unfold bias_entries. rewrite lsum_flat_map. assert (Hj : (j < length y)%nat) by (apply nth_error_Some; congruence).
  transitivity (lsum (enumerate (combine bs y)) (fun '(j', bm) => if (j' =? j)%nat then (if fst bm then G j' (snd bm) else 0) else 0)).
  - apply lsum_ext. intros [j' [[|] m']] _; cbn [fst snd]; [rewrite lsum_cons; cbn; ring|]. cbn. destruct (j' =? j)%nat; reflexivity.
  - rewrite (lsum_enumerate (combine bs y) (false, d0) (fun j' bm => if (j' =? j)%nat then (if fst bm then G j' (snd bm) else 0) else 0)). rewrite (rsum_delta _ j (fun j' => if fst (nth j' (combine bs y) (false, d0)) then G j' (snd (nth j' (combine bs y) (false, d0))) else 0)) by (rewrite combine_length; lia).
    rewrite combine_nth by exact Lb. cbn [fst snd]. rewrite (nth_error_nth _ _ _ Ej). reflexivity.
Qed.
Lemma combine_map2 {A B C} (f : A -> B) (g : A -> C) l : combine (map f l) (map g l) = map (fun a => (f a, g a)) l.
Proof. induction l as [|a l IH]; [reflexivity|]. cbn. now rewrite IH. Qed.
Lemma biases_length b y bs : biases_of b y = Ok bs -> length bs = length y.
Proof. unfold biases_of. intros H. match type of H with context [assert (?a =? ?c)%nat] => destruct (Nat.eqb_spec a c) as [E|]; [|discriminate] end. cbn [assert bind] in H. match type of H with context [assert ?a] => destruct a; [|discriminate] end. cbn [assert bind] in H. injection H as <-. exact E. Qed.
(* the weights of a connection, and those of a bias *)
Definition flat_weights (mi mo : nat) (f : nat -> nat -> R) : list R := tab (mi * mo) (fun q => f (q / mo)%nat (q mod mo)%nat).
Lemma flat_weights_nth mi mo f u v : (u < mi)%nat -> (v < mo)%nat -> nth (u * mo + v) (flat_weights mi mo f) 0 = f u v.
Proof. intros Hu Hv. unfold flat_weights. rewrite nth_tab by nia. f_equal; [rewrite Nat.div_add_l by lia; rewrite Nat.div_small by exact Hv; lia|rewrite Nat.add_comm, Nat.mod_add by lia; now apply Nat.mod_small]. Qed.
Lemma layer_of x y b pn gn L bs (wf : nat * nat -> list R) (bf : nat * mulirrep -> list R) X j v c mo ib : functional_linear x y None b pn gn = Ok L -> biases_of b y = Ok bs -> nth_error y j = Some (mo, ib) ->
  layer_entry (fl_ins L) (map wf (default_instructions x y) ++ map bf (bias_entries bs y)) X j v c
  = rsum (length x) (fun k => let '(m, a) := nth k x d0 in if irrep_eqb a ib then Rpower (sqrt (alpha x pn (default_instructions x y) (k, j))) gn * rsum m (fun u => nth (u * mo + v) (wf (k, j)) 0 * X k u c) else 0)
    + (if nth j bs false then nth v (bf (j, (mo, ib))) 0 else 0).
Proof.
  intros E Eb Ej. destruct (constructor_shape _ _ _ _ _ _ _ E) as (bs' & Eb' & _ & _ & Ei & _). assert (bs' = bs) by congruence. subst bs'. cbn [connections] in Ei. rewrite Ei, bias_instrs. unfold layer_entry. rewrite combine_app' by (rewrite !map_length; reflexivity). rewrite lsum_app. f_equal.
  - rewrite combine_map2, lsum_map.
    transitivity (lsum (default_instructions x y) (fun '(i, j') => if (j' =? j)%nat then Rpower (sqrt (alpha x pn (default_instructions x y) (i, j'))) gn * rsum (mul_of x i) (fun u => nth (u * mul_of y j' + v) (wf (i, j')) 0 * X i u c) else 0)); [apply lsum_ext; intros [i j'] _; reflexivity|].
    rewrite (lsum_connections x y j mo ib (fun i j' => Rpower (sqrt (alpha x pn (default_instructions x y) (i, j'))) gn * rsum (mul_of x i) (fun u => nth (u * mul_of y j' + v) (wf (i, j')) 0 * X i u c)) Ej).
    apply rsum_ext. intros k Hk. unfold mul_of. rewrite (nth_error_nth _ _ _ Ej). change (0%nat, Irrep 0 Even) with d0. destruct (nth k x d0) as [m a]. reflexivity.
  - rewrite combine_map2, lsum_map. rewrite <- (lsum_biases bs y j (mo, ib) (fun j' m' => nth v (bf (j', m')) 0) (biases_length _ _ _ Eb) Ej). apply lsum_ext. intros [j' m'] _. cbn [li_out]. destruct (j' =? j)%nat; [|reflexivity]. unfold path_entry. cbn [li_in li_pw]. ring.
Qed.
Lemma Forall2_both {A B C} (P : B -> C -> Prop) (f : A -> B) (g : A -> C) l : (forall a, P (f a) (g a)) -> Forall2 P (map f l) (map g l).
Proof. intros H. induction l; constructor; auto. Qed.
Lemma weights_fit x y b pn gn L bs (wf : nat * nat -> list R) (bf : nat * mulirrep -> list R) : functional_linear x y None b pn gn = Ok L -> biases_of b y = Ok bs -> (forall i j, length (wf (i, j)) = (mul_of x i * mul_of y j)%nat) -> (forall j m, length (bf (j, m) : list R) = mi_dim m) ->
  Forall2 (fun o w => length w = nprod (li_shape o)) (fl_ins L) (map wf (default_instructions x y) ++ map bf (bias_entries bs y)).
Proof.
  intros E Eb Hw Hb. destruct (constructor_shape _ _ _ _ _ _ _ E) as (bs' & Eb' & _ & _ & Ei & _). assert (bs' = bs) by congruence. subst bs'. cbn [connections] in Ei. rewrite Ei, bias_instrs. apply Forall2_app.
  - apply Forall2_both. intros [i j]. cbn [li_shape]. unfold nprod. cbn [fold_right]. rewrite Hw. lia.
  - apply Forall2_both. intros [j m]. cbn [li_shape]. unfold nprod. cbn [fold_right]. rewrite Hb. lia.
Qed.
Lemma realises x y b pn gn L bs T' beta : functional_linear x y None b pn gn = Ok L -> biases_of b y = Ok bs -> linear_rows x y T' -> equivariant_rows x y T' -> length beta = dim y ->
  (forall j v c mo ib, nth_error y j = Some (mo, ib) -> (v < mo)%nat -> (c < ir_dim ib)%nat -> nth j bs false = false -> entry y beta j v c = 0) ->
  exists ws, Forall2 (fun o w => length w = nprod (li_shape o)) (fl_ins L) ws /\ forall a, coherent a -> simplify (irr a) = simplify x ->
    yields (linear_call L (map (fun w _ => w) ws) a) y (lead a) (fun i => zipR Rplus (T' (arr a i)) beta).
Proof.
  intros E Eb HL HE Lb Z. set (pw := fun k j => Rpower (sqrt (alpha x pn (default_instructions x y) (k, j))) gn). assert (P : forall k j, pw k j <> 0) by (intros; apply Rgt_not_eq, exp_pos).
  set (wf := fun '(i, j) => flat_weights (mul_of x i) (mul_of y j) (fun u v => block x y T' j v 0 i u 0 / pw i j)). set (bf := fun '(j, m) => tab (mi_dim m) (fun v => entry y beta j v 0)). set (ws := map wf (default_instructions x y) ++ map bf (bias_entries bs y)).
  assert (W : Forall2 (fun o w => length w = nprod (li_shape o)) (fl_ins L) ws) by (apply (weights_fit x y b pn gn L bs); [exact E|exact Eb|intros; apply tab_length|intros; apply tab_length]).
  exists ws. split; [exact W|]. intros a Ca Sa. pose proof (constructor_ok _ _ _ _ _ _ _ E (default_connects x y)) as Hins. destruct (constructor_shape _ _ _ _ _ _ _ E) as (bs' & Eb' & Ex & Ey & Ei & _).
  rewrite <- Ey. eapply yields_ext; [|apply linear_call_yields; [exact Ca|rewrite Ex; exact Sa|rewrite Ex, Ey; apply ins_ok_dim_all, Hins|clear -W; induction W; constructor; auto]]. intros i Hi. cbv beta. rewrite map_map, map_id, Ex, Ey.
  assert (La : length (arr a i) = dim x) by (rewrite (proj1 Ca i Hi); now apply dim_of_simplify). assert (LT : length (T' (arr a i)) = dim y) by (apply HL, La).
  assert (Q : zipR Rplus (T' (arr a i)) beta = lin 1 (T' (arr a i)) beta) by (unfold lin; f_equal; symmetry; rewrite <- map_id; apply map_ext; intros; ring). rewrite Q. symmetry.
  apply (row_eq y); [now apply lin_length|apply rowof_length|]. intros j v c Hin. rewrite entry_lin by assumption. rewrite entry_rowof by exact Hin. destruct Hin as (mo & ib & Ej & Hv & Hc). unfold ws. rewrite (layer_of x y b pn gn L bs wf bf _ j v c mo ib E Eb Ej).
  rewrite (schur_entry x y T' HL HE (arr a i) j v c mo ib La Ej Hv Hc), Rmult_1_l. f_equal.
  - apply rsum_ext. intros k Hk. destruct (nth k x d0) as [m ia] eqn:En. destruct (irrep_eqb ia ib); [|reflexivity]. fold (pw k j). rewrite <- rsum_scal. apply rsum_ext. intros u Hu. unfold wf. assert (Ek : mul_of x k = m) by (unfold mul_of; change (0%nat, Irrep 0 Even) with d0; now rewrite En). assert (Ej' : mul_of y j = mo) by (unfold mul_of; now rewrite (nth_error_nth _ _ _ Ej)).
    rewrite Ek, Ej', flat_weights_nth by assumption. field. apply P.
  - destruct (nth j bs false) eqn:Ebj; [|exact (Z j v c mo ib Ej Hv Hc Ebj)]. assert (S0 : ib = Irrep 0 Even). { apply (biases_scalar b y bs j (mo, ib) Eb). rewrite nth_error_combine, Ej. assert (Hj : (j < length bs)%nat) by (rewrite (biases_length _ _ _ Eb); apply nth_error_Some; congruence). rewrite (nth_error_nth' bs false Hj), Ebj. reflexivity. }
    subst ib. assert (c = 0%nat) by (unfold ir_dim in Hc; cbn in Hc; lia). subst c. unfold bf. rewrite nth_tab by (unfold mi_dim, ir_dim; cbn; lia). reflexivity.
Qed.
(* every equivariant linear map is the layer for some weights *)
Theorem C27_complete x y pn gn L T : functional_linear x y None NoBias pn gn = Ok L -> linear_rows x y T -> equivariant_rows x y T ->
  exists ws, Forall2 (fun o w => length w = nprod (li_shape o)) (fl_ins L) ws /\ forall a, coherent a -> simplify (irr a) = simplify x -> yields (linear_call L (map (fun w _ => w) ws) a) y (lead a) (fun i => T (arr a i)).
Proof.
  intros E HL HE. destruct (constructor_shape _ _ _ _ _ _ _ E) as (bs & Eb & _). destruct (realises x y NoBias pn gn L bs T (origin y) E Eb HL HE (rowof_length _ _)) as (ws & W & H).
  - intros j v c mo ib Ej Hv Hc _. unfold origin. apply entry_rowof. exists mo, ib. auto.
  - exists ws. split; [exact W|]. intros a Ca Sa. eapply yields_ext; [|apply (H a Ca Sa)]. intros i Hi. cbv beta. assert (La : length (arr a i) = dim x) by (rewrite (proj1 Ca i Hi); now apply dim_of_simplify). assert (LT : length (T (arr a i)) = dim y) by (apply HL, La).
    assert (Q : zipR Rplus (T (arr a i)) (origin y) = lin 1 (T (arr a i)) (origin y)) by (unfold lin; f_equal; symmetry; rewrite <- map_id; apply map_ext; intros; ring). rewrite Q. apply (row_eq y); [apply lin_length; [exact LT|apply rowof_length]|exact LT|]. intros j v c Hin. rewrite entry_lin by (try exact LT; try apply rowof_length; exact Hin). unfold origin. rewrite entry_rowof by exact Hin. ring.
Qed.
(* with biases: every equivariant affine map, a linear map plus a constant row *)
Theorem C27_complete_affine x y pn gn L T T' beta : functional_linear x y None (BoolBias true) pn gn = Ok L -> linear_rows x y T' -> length beta = dim y -> (forall a, length a = dim x -> T a = zipR Rplus (T' a) beta) -> equivariant_rows x y T ->
  exists ws, Forall2 (fun o w => length w = nprod (li_shape o)) (fl_ins L) ws /\ forall a, coherent a -> simplify (irr a) = simplify x -> yields (linear_call L (map (fun w _ => w) ws) a) y (lead a) (fun i => T (arr a i)).
Proof.
  intros E HL Lb HT HE. destruct (constructor_shape _ _ _ _ _ _ _ E) as (bs & Eb & Ex & _).
  assert (one : forall a, length a = dim x -> forall j v c, inside y j v c -> entry y (T a) j v c = entry y (T' a) j v c + entry y beta j v c).
  { intros a La j v c Hin. rewrite HT by exact La. replace (zipR Rplus (T' a) beta) with (lin 1 (T' a) beta) by (unfold lin; f_equal; rewrite <- map_id; apply map_ext; intros; ring). rewrite entry_lin by (try exact Hin; try exact Lb; apply HL, La). ring. }
  assert (KT : keeps x y T). { intros a La. rewrite HT by exact La. unfold zipR. rewrite map_length, combine_length, Lb, (proj1 HL a La). lia. }
  assert (L0 : length (origin x) = dim x) by apply rowof_length.
  assert (A0 : forall r, act (rep_of r) x (origin x) = origin x). { intros r. unfold origin. rewrite act_rowof by apply as_rep_ok. apply rowof_ext. intros k u c _. cbv zeta. apply rsum_zero. intros; ring. }
  assert (T0 : T (origin x) = beta). { apply (row_eq y); [apply KT, L0|exact Lb|]. intros j v c Hin. rewrite one by assumption. rewrite (linear_origin x y T' j v c HL Hin). ring. }
  assert (Inv : forall r, orthogonal3 r -> act (rep_of r) y beta = beta). { intros r Or. rewrite <- T0. rewrite <- (HE r _ Or L0), A0. reflexivity. }
  assert (HE' : equivariant_rows x y T').
  { intros r a Or La. assert (Lra : length (act (rep_of r) x a) = dim x) by (rewrite act_length by apply as_rep_ok; reflexivity). apply (row_eq y); [apply HL, Lra|rewrite act_length by apply as_rep_ok; reflexivity|]. intros j v c Hin.
    pose proof (HE r a Or La) as Q. apply (f_equal (fun z => entry y z j v c)) in Q. rewrite one in Q by assumption. rewrite act_entry in Q by (try apply as_rep_ok; try exact Hin; apply KT, La). rewrite act_entry by (try apply as_rep_ok; try exact Hin; apply HL, La).
    pose proof (Inv r Or) as I0. apply (f_equal (fun z => entry y z j v c)) in I0. rewrite act_entry in I0 by (try apply as_rep_ok; try exact Hin; exact Lb). cbv zeta in *. destruct Hin as (mo & ib & Ej & Hv & Hc). rewrite (nth_error_nth _ _ _ Ej) in *. cbn [snd] in *.
    rewrite (rsum_ext _ (fun q => mat_at (rep_of r ib) c q * entry y (T a) j v q) (fun q => mat_at (rep_of r ib) c q * entry y (T' a) j v q + mat_at (rep_of r ib) c q * entry y beta j v q)) in Q by (intros q Hq; rewrite one by (try exact La; exists mo, ib; auto); ring). rewrite rsum_plus in Q. lra. }
  destruct (realises x y (BoolBias true) pn gn L bs T' beta E Eb HL HE' Lb) as (ws & W & H).
  - intros j v c mo ib Ej Hv Hc Bj. assert (Hj : (j < length y)%nat) by (apply nth_error_Some; congruence). assert (Ns : ib <> Irrep 0 Even).
    { intros ->. unfold biases_of in Eb. rewrite map_length, Nat.eqb_refl in Eb. cbn [assert bind] in Eb. destruct (forallb _ _); [|discriminate]. cbn [assert bind] in Eb. injection Eb as <-. match type of Bj with nth _ ?l _ = _ => assert (B : nth_error l j = Some true) by (rewrite nth_error_map, Ej; reflexivity); rewrite (nth_error_nth l j false B) in Bj end. discriminate. }
    assert (Cm : commutes ib (Irrep 0 Even) (fun c _ => entry y beta j v c)).
    { intros r c0 e Or Hc0 He. pose proof (Inv r Or) as I0. apply (f_equal (fun z => entry y z j v c0)) in I0. rewrite act_entry in I0 by (try apply as_rep_ok; try exact Lb; exists mo, ib; auto). cbv zeta in I0. rewrite (nth_error_nth _ _ _ Ej) in I0. cbn [snd] in I0.
      assert (e = 0%nat) by (unfold ir_dim in He; cbn in He; lia). subst e. change (ir_dim (Irrep 0 Even)) with 1%nat. cbn [rsum]. pose proof (rep_of_scalar r Or) as S1. unfold scalar_trivial in S1. assert (D1 : D_from_matrix r (Irrep 0 Even) 0%nat 0%nat = 1) by (rewrite <- (as_rep_at (D_from_matrix r) (Irrep 0 Even) 0 0) by (cbn; lia); change (as_rep (D_from_matrix r) (Irrep 0 Even)) with (rep_of r (Irrep 0 Even)); rewrite S1; reflexivity). rewrite D1.
      rewrite (rsum_ext _ _ (fun q => mat_at (rep_of r ib) c0 q * entry y beta j v q)) by (intros q Hq; unfold rep_of; rewrite as_rep_at by assumption; reflexivity). rewrite I0. ring. }
    exact (schur_zero ib (Irrep 0 Even) _ Cm Ns c 0%nat Hc ltac:(cbn; lia)).
  - exists ws. split; [exact W|]. intros a Ca Sa. eapply yields_ext; [|apply (H a Ca Sa)]. intros i Hi. cbv beta. symmetry. apply HT. rewrite (proj1 Ca i Hi). now apply dim_of_simplify.
Qed.
(* ---- the weights are determined by the map ---- *)
Lemma keys_distinct x y b pn gn L : functional_linear x y None b pn gn = Ok L -> NoDup (map path_key (fl_ins L)).
Proof.
  intros E. destruct (constructor_shape _ _ _ _ _ _ _ E) as (bs & Eb & _ & _ & Ei & _). cbn [connections] in Ei. rewrite Ei, bias_instrs, map_app, !map_map. apply NoDup_app_i.
  - apply FinFun.Injective_map_NoDup; [|exact (proj1 (C27_default_instructions x y))]. intros [i j] [i' j'] Q. unfold path_key in Q. cbn [li_in li_out] in Q. congruence.
  - assert (N : NoDup (map fst (bias_entries bs y))).
    { unfold bias_entries. assert (G : forall l : list (nat * (bool * mulirrep)), NoDup (map fst l) -> NoDup (map fst (flat_map (fun '(j, (b0, m)) => if (b0 : bool) then [(j, m)] else []) l)) /\ incl (map fst (flat_map (fun '(j, (b0, m)) => if (b0 : bool) then [(j, m)] else []) l)) (map fst l)).
      { induction l as [|[j [b0 m]] l IH]; [intros; split; [constructor|intros q []]|]. cbn [map fst]. intros H. inversion H as [|? ? Hj Hl]; subst. destruct (IH Hl) as [I1 I2]. cbn [flat_map]. destruct b0; cbn [app map fst].
        - split; [constructor; [|exact I1]; intros Q; apply Hj, I2, Q|]. intros q [<-|Q]; [left; reflexivity|right; apply I2, Q].
        - split; [exact I1|]. intros q Q. right. apply I2, Q. }
      apply G. unfold enumerate. rewrite combine_map_fst by apply seq_length. apply seq_NoDup. }
    rewrite (map_ext _ (fun p => (@None nat, fst p))) by (intros [j m]; reflexivity). rewrite <- (map_map fst (fun j => (@None nat, j))). apply FinFun.Injective_map_NoDup; [|exact N]. intros j j' H. congruence.
  - intros p H1 H2. apply in_map_iff in H1 as ([i j] & <- & _). apply in_map_iff in H2 as ([j' m] & Q & _). unfold path_key in Q. cbn [li_in] in Q. congruence.
Qed.
Lemma rsum_at n q f : (q < n)%nat -> (forall p, (p < n)%nat -> p <> q -> f p = 0) -> rsum n f = f q.
Proof. intros Hq H. rewrite <- (rsum_delta_l n q f Hq). apply rsum_ext. intros p Hp. destruct (Nat.eqb_spec p q) as [->|N]; [ring|]. rewrite H by assumption. ring. Qed.
Definition dins : linstr := LIns None 0 [] 0 0.
Lemma layer_index ins ws X j v c : length ws = length ins -> layer_entry ins ws X j v c = rsum (length ins) (fun q => if (li_out (nth q ins dins) =? j)%nat then path_entry (nth q ins dins) (nth q ws []) X v c else 0).
Proof. intros Lw. unfold layer_entry. rewrite (lsum_nth _ (dins, [])). rewrite combine_length, Lw, Nat.min_id. apply rsum_ext. intros q Hq. rewrite combine_nth by congruence. reflexivity. Qed.
Lemma entry_origin x k u c : inside x k u c -> entry x (origin x) k u c = 0. Proof. intros H. unfold origin. now rewrite entry_rowof. Qed.
Section Determined.
Context (x y : irreps) (b : bias_arg) (pn gn : R) (L : flinear) (E : functional_linear x y None b pn gn = Ok L) (ws : list (list R)) (W : Forall2 (fun o w => length w = nprod (li_shape o)) (fl_ins L) ws).
Let ins := fl_ins L.
Lemma ins_at q : (q < length ins)%nat -> ins_ok eq x y (nth q ins dins).
Proof. intros Hq. pose proof (constructor_ok _ _ _ _ _ _ _ E (default_connects x y)) as H. rewrite Forall_forall in H. apply H, nth_In, Hq. Qed.
Lemma key_at q q' : (q < length ins)%nat -> (q' < length ins)%nat -> path_key (nth q ins dins) = path_key (nth q' ins dins) -> q = q'.
Proof. intros H H' Q. pose proof (keys_distinct _ _ _ _ _ _ E) as N. apply (proj1 (NoDup_nth (map path_key ins) (path_key dins)) N); rewrite ?map_length; try assumption. now rewrite !map_nth. Qed.
Lemma weights_length : length ws = length ins. Proof. symmetry. exact (Forall2_length _ _ _ W). Qed.
Lemma bias_weight q v : (q < length ins)%nat -> li_in (nth q ins dins) = None -> (v < nth 0 (li_shape (nth q ins dins)) 0)%nat ->
  layer_entry ins ws (entry x (origin x)) (li_out (nth q ins dins)) v 0 = li_pw (nth q ins dins) * nth v (nth q ws []) 0.
Proof.
  intros Hq Nq Hv. rewrite layer_index by apply weights_length. rewrite (rsum_at _ q).
  - rewrite Nat.eqb_refl. unfold path_entry. rewrite Nq. reflexivity.
  - exact Hq.
  - intros p Hp Np. destruct (Nat.eqb_spec (li_out (nth p ins dins)) (li_out (nth q ins dins))) as [Eo|]; [|reflexivity].
    destruct (ins_at p Hp) as (mo & ib & Ej & Ho). unfold path_entry. destruct (li_in (nth p ins dins)) as [k|] eqn:Ek.
    + destruct Ho as (mi & ia & Ex & -> & ->). cbn [nth]. rewrite rsum_zero; [ring|]. intros u Hu. rewrite entry_origin by (exists mi, ib; repeat split; auto; unfold ir_dim; lia). ring.
    + exfalso. apply Np, key_at; auto. unfold path_key. congruence.
Qed.
Lemma path_weight q k u v mi mo : (q < length ins)%nat -> li_in (nth q ins dins) = Some k -> li_shape (nth q ins dins) = [mi; mo] -> (u < mi)%nat -> (v < mo)%nat ->
  layer_entry ins ws (entry x (unit_row x k u 0)) (li_out (nth q ins dins)) v 0 - layer_entry ins ws (entry x (origin x)) (li_out (nth q ins dins)) v 0 = li_pw (nth q ins dins) * nth (u * mo + v) (nth q ws []) 0.
Proof.
  intros Hq Kq Sq Hu Hv. rewrite !layer_index by apply weights_length. unfold Rminus. rewrite <- (Rmult_1_l (rsum _ _)) at 1. rewrite Ropp_mult_distr_l_reverse || idtac.
  replace (1 * rsum (length ins) (fun q0 => if (li_out (nth q0 ins dins) =? li_out (nth q ins dins))%nat then path_entry (nth q0 ins dins) (nth q0 ws []) (entry x (unit_row x k u 0)) v 0 else 0)
    + - rsum (length ins) (fun q0 => if (li_out (nth q0 ins dins) =? li_out (nth q ins dins))%nat then path_entry (nth q0 ins dins) (nth q0 ws []) (entry x (origin x)) v 0 else 0))
    with (rsum (length ins) (fun q0 => (if (li_out (nth q0 ins dins) =? li_out (nth q ins dins))%nat then path_entry (nth q0 ins dins) (nth q0 ws []) (entry x (unit_row x k u 0)) v 0 else 0) + (-1) * (if (li_out (nth q0 ins dins) =? li_out (nth q ins dins))%nat then path_entry (nth q0 ins dins) (nth q0 ws []) (entry x (origin x)) v 0 else 0))) by (rewrite rsum_plus, rsum_scal; ring).
  destruct (ins_at q Hq) as (mo' & ib & Ej & Ho). rewrite Kq in Ho. destruct Ho as (mi' & ia & Ex & -> & Sh). rewrite Sq in Sh. injection Sh as <- <-.
  rewrite (rsum_at (length ins) q _ Hq).
  - rewrite Nat.eqb_refl. unfold path_entry. rewrite Kq, Sq. cbn [nth]. rewrite (rsum_ext mi (fun u0 => nth (u0 * mo + v) (nth q ws []) 0 * entry x (origin x) k u0 0) (fun _ => 0)) by (intros u0 Hu0; rewrite entry_origin by (exists mi, ib; repeat split; auto; unfold ir_dim; lia); ring).
    rewrite (rsum_ext mi (fun u0 => nth (u0 * mo + v) (nth q ws []) 0 * entry x (unit_row x k u 0) k u0 0) (fun u0 => (if (u0 =? u)%nat then 1 else 0) * nth (u0 * mo + v) (nth q ws []) 0)).
    + rewrite (rsum_delta_l mi u (fun u0 => nth (u0 * mo + v) (nth q ws []) 0) Hu). rewrite rsum_zero by reflexivity. ring.
    + intros u0 Hu0. unfold unit_row. rewrite entry_rowof by (exists mi, ib; repeat split; auto; unfold ir_dim; lia). rewrite !Nat.eqb_refl. cbn [andb]. rewrite andb_true_r. destruct (u0 =? u)%nat; ring.
  - intros p Hp Np. destruct (Nat.eqb_spec (li_out (nth p ins dins)) (li_out (nth q ins dins))) as [Eo|]; [|ring]. destruct (ins_at p Hp) as (mo2 & ib2 & Ej2 & Ho2). unfold path_entry. destruct (li_in (nth p ins dins)) as [k2|] eqn:Ek2; [|ring]. destruct Ho2 as (mi2 & ia2 & Ex2 & -> & ->). cbn [nth].
    assert (Nk : k2 <> k) by (intros ->; apply Np, key_at; auto; unfold path_key; congruence). rewrite !rsum_zero; [ring| |]; intros u0 Hu0; [rewrite entry_origin by (exists mi2, ib2; repeat split; auto; unfold ir_dim; lia); ring|].
    unfold unit_row. rewrite entry_rowof by (exists mi2, ib2; repeat split; auto; unfold ir_dim; lia). rewrite (proj2 (Nat.eqb_neq k2 k) Nk). cbn [andb]. ring.
Qed.
End Determined.

Definition settled (w : list (list R)) : list (idx -> list R) := map (fun v _ => v) w.
Lemma same_layer x y b pn gn L ws ws' row : functional_linear x y None b pn gn = Ok L -> Forall2 (fun o w => length w = nprod (li_shape o)) (fl_ins L) ws -> Forall2 (fun o w => length w = nprod (li_shape o)) (fl_ins L) ws' ->
  (forall a, coherent a -> irr a = x -> agree (linear_call L (settled ws) a) (linear_call L (settled ws') a)) -> length row = dim x ->
  forall j v c, inside y j v c -> layer_entry (fl_ins L) ws (entry x row) j v c = layer_entry (fl_ins L) ws' (entry x row) j v c.
Proof.
  intros E W W' H Lr j v c Hin. pose proof (constructor_ok _ _ _ _ _ _ _ E (default_connects x y)) as Hins. destruct (constructor_shape _ _ _ _ _ _ _ E) as (bs' & Eb' & Ex & Ey & _ & _).
  set (a := IA x [] (fun _ => row) None None). assert (Ca : coherent a) by (apply (fresh_chunks x [] (fun _ => row)); intros; exact Lr).
  assert (Y : forall w, Forall2 (fun o w => length w = nprod (li_shape o)) (fl_ins L) w -> yields (linear_call L (settled w) a) y [] (fun _ => rowof y (layer_entry (fl_ins L) w (entry x row)))).
  { intros w Hw. rewrite <- Ey. eapply yields_ext; [|apply linear_call_yields; [exact Ca|rewrite Ex; reflexivity|rewrite Ex, Ey; apply ins_ok_dim_all, Hins|unfold settled; clear -Hw; induction Hw; constructor; auto]]. intros i Hi. cbv beta. unfold settled. rewrite map_map, map_id, Ex, Ey. reflexivity. }
  destruct (H a Ca eq_refl) as (x0 & s0 & f & (r1 & E1 & I1 & L1 & _ & A1) & (r2 & E2 & I2 & L2 & _ & A2)). destruct (Y ws W) as (q1 & F1 & J1 & K1 & _ & B1). destruct (Y ws' W') as (q2 & F2 & _ & _ & _ & B2).
  assert (r1 = q1) by congruence. assert (r2 = q2) by congruence. subst r1 r2. assert (V : valid [] []) by constructor. assert (Es : s0 = []) by congruence. rewrite Es in A1, A2.
  assert (R1 : rowof y (layer_entry (fl_ins L) ws (entry x row)) = rowof y (layer_entry (fl_ins L) ws' (entry x row))) by (rewrite <- (B1 [] V), <- (B2 [] V), (A1 [] V), (A2 [] V); reflexivity).
  apply (f_equal (fun z => entry y z j v c)) in R1. now rewrite !entry_rowof in R1 by exact Hin.
Qed.
(* two settings of the weights that give the same map are the same setting: no parameter is redundant *)
Theorem C27_determined x y b pn gn L ws ws' : functional_linear x y None b pn gn = Ok L ->
  Forall2 (fun o w => length w = nprod (li_shape o)) (fl_ins L) ws -> Forall2 (fun o w => length w = nprod (li_shape o)) (fl_ins L) ws' ->
  (forall a, coherent a -> irr a = x -> agree (linear_call L (map (fun w _ => w) ws) a) (linear_call L (map (fun w _ => w) ws') a)) -> ws = ws'.
Proof.
  intros E W W' H. pose proof (same_layer x y b pn gn L ws ws') as SL. assert (Lw : length ws = length (fl_ins L)) by (eapply weights_length; eassumption). assert (Lw' : length ws' = length (fl_ins L)) by (eapply weights_length; eassumption).
  apply (nth_ext _ _ [] []); [congruence|]. intros q Hq. rewrite Lw in Hq. destruct (ins_at x y b pn gn L E q Hq) as (mo & ib & Ej & Ho).
  assert (Lq : forall w : list (list R), Forall2 (fun o w => length w = nprod (li_shape o)) (fl_ins L) w -> length (nth q w []) = nprod (li_shape (nth q (fl_ins L) dins))).
  { intros w Hw. clear -Hw Hq. revert q Hq. induction Hw as [|o v l l' H1 H2 IH]; intros [|q] Hq; cbn [length nth] in *; [lia|lia|exact H1|]. apply IH. lia. }
  assert (P : li_pw (nth q (fl_ins L) dins) <> 0).
  { destruct (constructor_shape _ _ _ _ _ _ _ E) as (bs & Eb & _ & _ & Ei & _). pose proof (nth_In (fl_ins L) dins Hq) as Hn. rewrite Ei in Hn at 2. rewrite bias_instrs in Hn. apply in_app_iff in Hn as [Hn|Hn]; apply in_map_iff in Hn as ([i j] & <- & _); cbn [li_pw]; [apply Rgt_not_eq, exp_pos|lra]. }
  apply (nth_ext _ _ 0 0); [rewrite !Lq by assumption; reflexivity|]. intros z Hz. rewrite Lq in Hz by exact W.
  assert (L0 : length (origin x) = dim x) by apply rowof_length.
  destruct (li_in (nth q (fl_ins L) dins)) as [k|] eqn:Ek.
  - destruct Ho as (mi & ia & Exk & -> & Sh). rewrite Sh in Hz. unfold nprod in Hz. cbn [fold_right] in Hz. rewrite Nat.mul_1_r in Hz. assert (Mo : (0 < mo)%nat) by (destruct mo; lia).
    assert (Hu : (z / mo < mi)%nat) by (apply Nat.div_lt_upper_bound; lia). assert (Hv : (z mod mo < mo)%nat) by (apply Nat.mod_upper_bound; lia). assert (Ez : z = (z / mo * mo + z mod mo)%nat) by (rewrite (Nat.div_mod z mo) at 1; lia).
    assert (Lu : length (unit_row x k (z / mo) 0) = dim x) by apply rowof_length. assert (In1 : inside y (li_out (nth q (fl_ins L) dins)) (z mod mo) 0) by (exists mo, ib; repeat split; auto; unfold ir_dim; lia).
    pose proof (path_weight x y b pn gn L E ws W q k _ _ mi mo Hq Ek Sh Hu Hv) as P1. pose proof (path_weight x y b pn gn L E ws' W' q k _ _ mi mo Hq Ek Sh Hu Hv) as P2.
    rewrite (SL _ E W W' H Lu _ _ _ In1), (SL _ E W W' H L0 _ _ _ In1) in P1. rewrite P2 in P1. apply Rmult_eq_reg_l in P1; [|exact P]. rewrite Ez. symmetry. exact P1.
  - destruct Ho as [-> Sh]. rewrite Sh in Hz. unfold nprod in Hz. cbn [fold_right] in Hz. rewrite Nat.mul_1_r in Hz.
    assert (Hv : (z < nth 0 (li_shape (nth q (fl_ins L) dins)) 0)%nat) by (rewrite Sh; exact Hz). assert (In1 : inside y (li_out (nth q (fl_ins L) dins)) z 0) by (exists mo, (Irrep 0 Even); repeat split; auto; unfold ir_dim; cbn; lia).
    pose proof (bias_weight x y b pn gn L E ws W q z Hq Ek Hv) as P1. pose proof (bias_weight x y b pn gn L E ws' W' q z Hq Ek Hv) as P2. rewrite (SL _ E W W' H L0 _ _ _ In1), P2 in P1. apply Rmult_eq_reg_l in P1; [|exact P]. symmetry. exact P1.
Qed.
(* the hypotheses are met: doubling the row is linear and equivariant, so it is a layer *)
Example complete_nonvacuous : let x := [(2, Irrep 1 Odd); (1, Irrep 0 Even)]%nat in exists L, functional_linear x x None NoBias 0 0 = Ok L /\ linear_rows x x (map (Rmult 2)) /\ equivariant_rows x x (map (Rmult 2)).
Proof.
  intros x. eexists. split; [reflexivity|]. assert (K : keeps x x (map (Rmult 2))) by (intros a La; now rewrite map_length).
  assert (Z : forall a, length a = dim x -> map (Rmult 2) a = lin 1 a a). { intros a _. unfold lin, zipR. induction a as [|r a IH]; [reflexivity|]. cbn [map combine]. rewrite <- IH. f_equal. ring. }
  split; [split; [exact K|]|].
  - intros t a b La Lb. change (zipR Rplus (map (Rmult t) a) b) with (lin t a b). change (zipR Rplus (map (Rmult t) (map (Rmult 2) a)) (map (Rmult 2) b)) with (lin t (map (Rmult 2) a) (map (Rmult 2) b)). assert (Ll : length (lin t a b) = dim x) by (now apply lin_length).
    rewrite !Z by assumption. apply (row_eq x); try (repeat apply lin_length; assumption). intros k u c Hin. rewrite !entry_lin by (try exact Hin; repeat apply lin_length; assumption). ring.
  - intros r a Or La. assert (Lra : length (act (rep_of r) x a) = dim x) by (rewrite act_length by apply as_rep_ok; reflexivity). rewrite !Z by assumption. assert (La2 : length (lin 1 a a) = dim x) by (now apply lin_length).
    apply (row_eq x); [now apply lin_length|rewrite act_length by apply as_rep_ok; reflexivity|]. intros k u c Hin. rewrite entry_lin by assumption. rewrite !act_entry by (try apply as_rep_ok; assumption). cbv zeta.
    rewrite Rmult_1_l, <- rsum_plus. apply rsum_ext. intros q Hq. destruct Hin as (m & ir & Ek & Hu & Hc). rewrite (nth_error_nth _ _ _ Ek) in *. cbn [snd] in *. rewrite entry_lin by (try assumption; exists m, ir; auto). ring.
Qed.
