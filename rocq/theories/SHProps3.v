(* C52 (continued): equivariance under O(3), orthonormality, derivatives, examples. *)
From Coq Require Import Reals Lra ZArith Lia List Bool Arith.
From Coquelicot Require Import Coquelicot.
From Verif Require Import PyBase IrrepsModel IrrepsProofs ArrayModel ArrayProofs LeadModel LeadProofs SumR TPProofs CGModel RotationModel RotationProofs RadialProofs RadialProofs4 TrigProofs PolyProofs LegendreProofs S2Model S2Proofs S2Proofs2 S2Props2 S2Props3 ActProofs EquivProofs WignerModel WignerProofs WignerProofs2 WignerProps SHModel SHProofs SHProofs2 SHProofs3 SHProofs4 SHProofs5 SHProofs6 SHProofs7 SHProofs8 SHProps SHProps2.
From Verif Require Import EntryProofs.
Import ListNotations.
Open Scope R_scope.

Lemma act_vector D p row c : rep_ok D -> length row = 3%nat -> (c < 3)%nat -> fn (act D [(1%nat, Irrep 1 p)] row) c = rsum 3 (fun j => mat_at (D (Irrep 1 p)) c j * fn row j).
Proof.
  intros HD L Hc. assert (En : forall r j, length r = 3%nat -> entry [(1%nat, Irrep 1 p)] r 0 0 j = fn r j). { intros r j Lr. unfold entry, fn. cbn [nth blocks snd]. replace (mi_dim (1%nat, Irrep 1 p)) with (length r) by (rewrite Lr; reflexivity). rewrite firstn_all. reflexivity. }
  pose proof (act_entry D [(1%nat, Irrep 1 p)] row 0 0 c HD L ltac:(exists 1%nat, (Irrep 1 p); cbn; repeat split; lia)) as E. cbn [nth snd] in E. rewrite En in E.
  - rewrite E. change (ir_dim (Irrep 1 p)) with 3%nat. apply rsum_ext. intros j _. now rewrite En.
  - now rewrite act_length.
Qed.
Lemma len2_fn x : length x = 3%nat -> len2 x = rsum 3 (fun k => fn x k ^ 2).
Proof. intros L. destruct x as [|a [|b [|c [|]]]]; try discriminate L. unfold len2, lsum, fn. cbn [fold_right nth rsum]. ring. Qed.
(* rotating, reflecting or inverting the points multiplies the harmonics of degree l by the matrix of the irrep (l, p^l) *)
Theorem C52_equivariant auto out a normalize n algorithm r z : orthogonal3 r -> coherent a -> spherical_harmonics auto out (InIrreps a) normalize n algorithm = Ok z ->
  agree (transform_by_matrix z r) (let! a' := transform_by_matrix a r in spherical_harmonics auto out (InIrreps a') normalize n algorithm).
Proof.
  intros O Ca H. destruct (sh_spec _ _ (InIrreps a) _ _ _ _ Ca H) as (Rq & Ld & Cz & Dz & (p & Vp & N) & Wz). destruct (sh_accepts_inv _ _ _ _ _ _ _ H) as (p' & x' & Rq' & Vp' & N' & U). pose proof (requests_unique _ _ _ _ Rq Rq') as Ex. subst x'. cbn [shape_of points width_of vector_of_parity] in *. set (x := irr z) in *. set (D := rep_of r).
  assert (HD : rep_ok D) by apply as_rep_ok. rewrite !by_matrix. fold D. destruct (transform_act D a Ca HD) as (a' & Ea & Ia & La & Ca' & Ra). rewrite Ea. cbn [bind].
  assert (Rq2 : requests out (InIrreps a') x) by (destruct out; cbn [requests] in *; rewrite ?Ia; exact Rq).
  pose proof (sh_yields auto out (InIrreps a') normalize n algorithm p x (Ca' : well_formed (InIrreps a')) Rq2 ltac:(cbn [vector_of_parity]; rewrite Ia; exact Vp) N U) as Y'. cbn [shape_of points] in Y'. rewrite La in Y'.
  exists x, (lead a), (fun i => act D x (arr z i)). split.
  - pose proof (transform_act D z Cz HD) as T. rewrite Ld in T. exact T.
  - eapply yields_ext; [|exact Y']. intros i Hi. cbv beta. rewrite Dz by (rewrite Ld; exact Hi). fold x. rewrite act_rowof by exact HD. apply rowof_ext. intros k u j Hin. pose proof (inside_deg x k u j Hin) as Hj. cbv zeta.
    assert (L3 : length (arr a i) = 3%nat) by (rewrite (proj1 Ca i Hi), Vp; reflexivity). rewrite (Ra i Hi), Vp.
    assert (HI : intertwines clebsch_gordan D) by (apply rep_of_intertwines, O). assert (H0 : mat_at (D (Irrep 0 Even)) 0 0 = 1) by (unfold D, rep_of; rewrite as_rep_at by (cbn; lia); apply (C39_low_degrees r 0 0 O); lia).
    assert (Ei : snd (nth k x (0%nat, Irrep 0 Even)) = Irrep (deg x k) (ppow p (deg x k))). { change (0%nat, Irrep 0 Even) with none. destruct Hin as (mul & ir & E & _). unfold deg. rewrite (nth_error_nth _ _ none E). cbn [snd]. unfold natural in N. rewrite Forall_forall in N. specialize (N (mul, ir) (nth_error_In _ _ E)). cbn [snd] in N. destruct ir as [l q]. cbn [ir_l ir_p] in *. now subst q. }
    rewrite Ei. unfold ir_dim. cbn [ir_l]. set (l := deg x k) in *. unfold value.
    set (w := if normalize then normalized (arr a i) else arr a i). set (w' := if normalize then normalized (act D [(1%nat, Irrep 1 p)] (arr a i)) else act D [(1%nat, Irrep 1 p)] (arr a i)).
    assert (Ew : forall c, (c < 3)%nat -> fn w' c = rsum 3 (fun j => mat_at (D (Irrep 1 p)) c j * fn w j)).
    { intros c Hc. unfold w, w'. destruct normalize; [|now apply act_vector]. rewrite fn_normalized, act_vector by assumption.
      assert (S2 : len2 (act D [(1%nat, Irrep 1 p)] (arr a i)) = len2 (arr a i)).
      { rewrite !len2_fn by (try (now rewrite act_length); exact L3). rewrite (rsum_ext _ _ (fun k => rsum 3 (fun j => rsum 3 (fun j' => fn (arr a i) j * fn (arr a i) j' * (mat_at (D (Irrep 1 p)) k j * mat_at (D (Irrep 1 p)) k j'))))).
        2: { intros q Hq. rewrite act_vector by assumption. cbn [pow]. rewrite Rmult_1_r, rsum_prod. apply rsum_ext; intros; apply rsum_ext; intros; ring. }
        rewrite rsum_swap. apply rsum_ext. intros b Hb. rewrite rsum_swap. rewrite (rsum_ext _ _ (fun j' => (if (b =? j')%nat then 1 else 0) * (fn (arr a i) b * fn (arr a i) j'))); [rewrite (rsum_delta_r 3 b (fun j' => fn (arr a i) b * fn (arr a i) j')) by exact Hb; ring|].
        intros b' Hb'. rewrite rsum_scal. pose proof (rep_cols r (Irrep 1 p) b b' O Hb Hb') as Q. change (ir_dim (Irrep 1 p)) with 3%nat in Q. fold D in Q. rewrite Q. ring. }
      rewrite S2. rewrite <- rsum_scal. apply rsum_ext. intros j' _. rewrite fn_normalized. ring. }
    transitivity (kappa n l * rsum (2 * l + 1) (fun j' => mat_at (D (Irrep l (ppow p l))) j j' * P l (fn w) j')); [|rewrite <- rsum_scal; apply rsum_ext; intros; ring]. rewrite <- (P_equivariant D p (fn w) HI H0 l j Hj). f_equal. now apply P_ext.
Qed.
(* ---- orthonormality of the harmonics ---- *)
Lemma is_RInt_eq (f g : R -> R) (a b I J : R) : (forall x, f x = g x) -> I = J -> is_RInt f a b I -> is_RInt g a b J.
Proof. intros E -> H. apply (is_RInt_ext f); [intros x _; apply E|exact H]. Qed.
Lemma int_cosk k : is_RInt (fun a => cos (IZR k * a)) 0 (2 * PI) (if (k =? 0)%Z then 2 * PI else 0).
Proof.
  destruct (Z.eqb_spec k 0) as [->|N].
  - eapply is_RInt_eq; [| |exact (@is_RInt_const R_NormedModule 0 (2 * PI) 1)]; [intros a; rewrite Rmult_0_l, cos_0; reflexivity|]. unfold scal. cbn. unfold Hierarchy.mult. cbn. ring.
  - pose proof (int_cos (IZR k) (2 * PI) ltac:(now apply not_0_IZR)) as Q. replace (sin (IZR k * (2 * PI)) / IZR k) with 0 in Q; [exact Q|]. replace (sin (IZR k * (2 * PI))) with 0; [field; now apply not_0_IZR|]. symmetry. apply sin_eq_0_1. exists (2 * k)%Z. rewrite mult_IZR. ring.
Qed.
Lemma int_sink k : is_RInt (fun a => sin (IZR k * a)) 0 (2 * PI) 0.
Proof.
  destruct (Z.eq_dec k 0) as [->|N].
  - eapply is_RInt_eq; [| |exact (@is_RInt_const R_NormedModule 0 (2 * PI) 0)]; [intros a; rewrite Rmult_0_l, sin_0; reflexivity|]. unfold scal. cbn. unfold Hierarchy.mult. cbn. ring.
  - assert (K : IZR k <> 0) by now apply not_0_IZR. eapply (is_RInt_eq (fun a => sin (IZR k * a)) _ _ _ (minus (- cos (IZR k * (2 * PI)) / IZR k) (- cos (IZR k * 0) / IZR k))); [reflexivity| |].
    2: { apply (is_RInt_derive (fun x => - cos (IZR k * x) / IZR k)).
      * intros x _. auto_derive; [exact Logic.I|]. field. exact K.
      * intros x _. apply (ex_derive_continuous (fun x => sin (IZR k * x))). auto_derive. exact Logic.I. }
    assert (C : cos (IZR k * (2 * PI)) = 1). { assert (E : IZR k * (2 * PI) = 2 * (IZR k * PI)) by ring. rewrite E, cos_2a_sin. assert (S : sin (IZR k * PI) = 0) by (apply sin_eq_0_1; exists k; reflexivity). rewrite S. ring. }
      rewrite C, Rmult_0_r, cos_0. unfold minus, plus, opp. cbn. field. exact K.
Qed.
Lemma is_RInt_half (f g : R -> R) (a b I J c d : R) : is_RInt f a b I -> is_RInt g a b J -> is_RInt (fun x => c * f x + d * g x) a b (c * I + d * J).
Proof. intros F G. apply (@is_RInt_plus R_NormedModule (fun x => c * f x) (fun x => d * g x)); apply (@is_RInt_scal R_NormedModule); assumption. Qed.
Lemma trig_orthonormal m m' : is_RInt (fun a => trig m a * trig m' a) 0 (2 * PI) (if (m =? m')%Z then 2 * PI else 0).
Proof.
  assert (S2 : sqrt 2 * sqrt 2 = 2) by (apply sqrt_sqrt; lra).
  assert (CC : forall a b, (0 <= a)%Z -> (0 <= b)%Z -> (0 < a + b)%Z -> is_RInt (fun t => cos (IZR a * t) * cos (IZR b * t)) 0 (2 * PI) (if (a =? b)%Z then PI else 0)).
  { intros a b Ha Hb Hab. eapply is_RInt_eq; [| |exact (is_RInt_half _ _ _ _ _ _ (1 / 2) (1 / 2) (int_cosk (a - b)) (int_cosk (a + b)))].
    - intros t. rewrite minus_IZR, plus_IZR. replace ((IZR a - IZR b) * t) with (IZR a * t - IZR b * t) by ring. replace ((IZR a + IZR b) * t) with (IZR a * t + IZR b * t) by ring. rewrite cos_minus, cos_plus. field.
    - destruct (Z.eqb_spec (a - b) 0), (Z.eqb_spec (a + b) 0), (Z.eqb_spec a b); try lia; field. }
  assert (SS : forall a b, (0 < a)%Z -> (0 < b)%Z -> is_RInt (fun t => sin (IZR a * t) * sin (IZR b * t)) 0 (2 * PI) (if (a =? b)%Z then PI else 0)).
  { intros a b Ha Hb. eapply is_RInt_eq; [| |exact (is_RInt_half _ _ _ _ _ _ (1 / 2) (- (1 / 2)) (int_cosk (a - b)) (int_cosk (a + b)))].
    - intros t. rewrite minus_IZR, plus_IZR. replace ((IZR a - IZR b) * t) with (IZR a * t - IZR b * t) by ring. replace ((IZR a + IZR b) * t) with (IZR a * t + IZR b * t) by ring. rewrite cos_minus, cos_plus. field.
    - destruct (Z.eqb_spec (a - b) 0), (Z.eqb_spec (a + b) 0), (Z.eqb_spec a b); try lia; field. }
  assert (SC : forall a b, is_RInt (fun t => sin (IZR a * t) * cos (IZR b * t)) 0 (2 * PI) 0).
  { intros a b. eapply is_RInt_eq; [| |exact (is_RInt_half _ _ _ _ _ _ (1 / 2) (1 / 2) (int_sink (a - b)) (int_sink (a + b)))].
    - intros t. rewrite minus_IZR, plus_IZR. replace ((IZR a - IZR b) * t) with (IZR a * t - IZR b * t) by ring. replace ((IZR a + IZR b) * t) with (IZR a * t + IZR b * t) by ring. rewrite sin_minus, sin_plus. field.
    - ring. }
  assert (K2 : forall (f : R -> R) (I : R), is_RInt f 0 (2 * PI) I -> is_RInt (fun t => 2 * f t) 0 (2 * PI) (2 * I)) by (intros f I H; apply (@is_RInt_scal R_NormedModule); exact H).
  assert (K1 : forall (f : R -> R) (I : R), is_RInt f 0 (2 * PI) I -> is_RInt (fun t => sqrt 2 * f t) 0 (2 * PI) (sqrt 2 * I)) by (intros f I H; apply (@is_RInt_scal R_NormedModule); exact H).
  destruct m as [|p|p], m' as [|q|q]; cbn [Z.eqb trig].
  - eapply is_RInt_eq; [| |exact (int_cosk 0)]; [intros t; cbv beta; rewrite Rmult_0_l, cos_0; ring|reflexivity].
  - eapply is_RInt_eq; [| |exact (K1 _ _ (int_cosk (Z.pos q)))]; [intros t; cbv beta; ring|cbn [Z.eqb]; ring].
  - eapply is_RInt_eq; [| |exact (K1 _ _ (int_sink (- Z.neg q)))]; [intros t; cbv beta; ring|ring].
  - eapply is_RInt_eq; [| |exact (K1 _ _ (int_cosk (Z.pos p)))]; [intros t; cbv beta; ring|cbn [Z.eqb]; ring].
  - eapply is_RInt_eq; [| |exact (K2 _ _ (CC (Z.pos p) (Z.pos q) ltac:(lia) ltac:(lia) ltac:(lia)))]; [intros t; cbv beta; rewrite <- S2 at 1; ring|cbn [Z.eqb]; destruct (p =? q)%positive; ring].
  - eapply is_RInt_eq; [| |exact (K2 _ _ (SC (- Z.neg q) (Z.pos p))%Z)]; [intros t; cbv beta; rewrite <- S2 at 1; ring|ring].
  - eapply is_RInt_eq; [| |exact (K1 _ _ (int_sink (- Z.neg p)))]; [intros t; cbv beta; ring|ring].
  - eapply is_RInt_eq; [| |exact (K2 _ _ (SC (- Z.neg p) (Z.pos q))%Z)]; [intros t; cbv beta; rewrite <- S2 at 1; ring|ring].
  - eapply is_RInt_eq; [| |exact (K2 _ _ (SS (- Z.neg p) (- Z.neg q) ltac:(lia) ltac:(lia))%Z)]; [intros t; cbv beta; rewrite <- S2 at 1; ring|cbn [Z.opp Z.eqb]; destruct (p =? q)%positive; ring].
Qed.
Lemma beta_prod_integrable l m l' m' a b : ex_RInt (fun y => sh_beta l m y * sh_beta l' m' y) a b.
Proof. apply (@ex_RInt_continuous R_CompleteNormedModule). intros z _. apply (continuous_mult (sh_beta l m) (sh_beta l' m')); apply sh_beta_continuous. Qed.
Lemma beta_orthonormal l l' m : (m <= l)%nat -> (m <= l')%nat -> RInt (fun y => sh_beta l m y * sh_beta l' m y) (-1) 1 = if (l =? l')%nat then / (2 * PI) else 0.
Proof.
  intros H H'. rewrite (RInt_ext _ (fun y => nlm l m * nlm l' m * ((1 - y ^ 2) ^ m * (LegendreProofs.V l m y * LegendreProofs.V l' m y)))).
  - assert (Pp : exists d, poly d (fun t => (1 - t ^ 2) ^ m * (LegendreProofs.V l m t * LegendreProofs.V l' m t))). { eexists. apply (poly_ext _ (fun t => LegendreProofs.V l m t * LegendreProofs.W l' m t)); [intros t; unfold LegendreProofs.W; ring|]. apply poly_mult; [apply V_poly|]. replace (S (l' + m)) with (l' + m + 1)%nat by lia. apply W_poly, H'. }
    destruct Pp as [d Pp]. change (Int (fun y => nlm l m * nlm l' m * ((1 - y ^ 2) ^ m * (LegendreProofs.V l m y * LegendreProofs.V l' m y))) = if (l =? l')%nat then / (2 * PI) else 0). rewrite (Int_scal d _ _ Pp). rewrite V_orthogonal. destruct (Nat.eqb_spec l l') as [<-|N]; cbn [andb]; [|ring]. rewrite (leb_correct _ _ H). apply nlm_norm, H.
  - intros y Hy. rewrite Rmin_left, Rmax_right in Hy by lra. apply sh_beta_prod; lra || assumption.
Qed.
(* on the sphere of radius 1 the harmonics are orthonormal for "integral" *)
Theorem C52_orthonormal l m l' m' : (Z.abs_nat m <= l)%nat -> (Z.abs_nat m' <= l')%nat ->
  RInt (fun alpha => RInt (fun y => harmonic l m y alpha * harmonic l' m' y alpha) (-1) 1) 0 (2 * PI) = if (l =? l')%nat && (m =? m')%Z then 1 else 0.
Proof.
  intros H H'. set (B := RInt (fun y => sh_beta l (Z.abs_nat m) y * sh_beta l' (Z.abs_nat m') y) (-1) 1).
  rewrite (RInt_ext _ (fun alpha => B * (trig m alpha * trig m' alpha))).
  - rewrite (RInt_mul B (fun alpha => trig m alpha * trig m' alpha)) by (eexists; apply trig_orthonormal). rewrite (is_RInt_unique _ _ _ _ (trig_orthonormal m m')). destruct (Z.eqb_spec m m') as [<-|N]; [|rewrite andb_false_r; change (B * 0 = 0); apply Rmult_0_r]. unfold B. rewrite beta_orthonormal by assumption. rewrite andb_true_r. destruct (l =? l')%nat; [change (/ (2 * PI) * (2 * PI) = 1); field; apply PI_neq0|change (0 * (2 * PI) = 0); ring].
  - intros alpha _. unfold B. rewrite <- (RInt_mul_r (trig m alpha * trig m' alpha) (fun y => sh_beta l (Z.abs_nat m) y * sh_beta l' (Z.abs_nat m') y)) by apply beta_prod_integrable. apply RInt_ext. intros y _. rewrite !harmonic_Ylm by assumption. unfold Ylm. match goal with |- ?a = ?b => change (@eq R a b) end. ring.
Qed.
(* ---- derivatives: the rule used for differentiating spherical_harmonics ---- *)
Lemma kappa_weight n p : kappa n (S p) * jvp_weight Norm (S p) = jvp_weight n (S p) * kappa n p.
Proof.
  pose proof (pos_INR p) as Pp. pose proof PI_RGT_0 as Pi. assert (Q : forall a b, 0 <= a -> 0 <= b -> sqrt (a * b) = sqrt a * sqrt b) by (intros; apply sqrt_mult; assumption).
  assert (E : jvp_weight Norm (S p) = sqrt (2 * (INR p + 1) + 1) * sqrt (INR p + 1) * sqrt (2 * INR p + 1)). { cbn [jvp_weight]. rewrite S_INR. replace (2 * (INR p + 1) - 1) with (2 * INR p + 1) by ring. rewrite !Q by nra. reflexivity. }
  assert (S2 : sqrt (2 * (INR p + 1) + 1) * sqrt (2 * (INR p + 1) + 1) = 2 * (INR p + 1) + 1) by (apply sqrt_sqrt; lra).
  destruct n; rewrite E; unfold kappa; cbn [jvp_weight]; rewrite ?S_INR.
  - transitivity (sqrt (2 * (INR p + 1) + 1) * sqrt (2 * (INR p + 1) + 1) * (sqrt (INR p + 1) * sqrt (2 * INR p + 1))); [ring|]. rewrite S2. ring.
  - ring.
  - rewrite !sqrt_div by lra. assert (0 < sqrt (4 * PI)) by (apply sqrt_lt_R0; lra). transitivity (sqrt (2 * (INR p + 1) + 1) * sqrt (2 * (INR p + 1) + 1) * (sqrt (INR p + 1) * (sqrt (2 * INR p + 1) / sqrt (4 * PI)))); [field; lra|]. rewrite S2. ring.
Qed.
Lemma jvp_rule_spec alg n p x v : jvp_rule alg n (S p) (Y n p x) v = if can_contract alg then Ok (tab (2 * S p + 1) (fun j => kappa n (S p) * DP (S p) (fn x) (fn v) j)) else Err ValueError.
Proof.
  unfold jvp_rule. cbn [Nat.eqb]. replace (S p - 1)%nat with p by lia. replace (2 * S p - 1)%nat with (2 * p + 1)%nat by lia. unfold can_contract.
  assert (G : forall j, (j < 2 * S p + 1)%nat -> rsum (2 * p + 1) (fun i => rsum 3 (fun k => nth i (Y n p x) 0 * nth k v 0 * (clebsch_gordan p (S p) 1 i j k * jvp_weight n (S p)))) = kappa n (S p) * DP (S p) (fn x) (fn v) j).
  { intros j Hj. rewrite gradient by exact Hj. rewrite <- Rmult_assoc, kappa_weight. rewrite <- rsum_scal. apply rsum_ext. intros i Hi. rewrite <- rsum_scal. apply rsum_ext. intros k _. unfold Y. rewrite (nth_tab _ (fun k0 => kappa n p * P p (fn x) k0)) by exact Hi. change (fn v k) with (nth k v 0). ring. }
  destruct (has_kw KDense alg); cbn [orb]; [f_equal; apply tab_ext; exact G|]. destruct (has_kw KSparse alg); [|reflexivity]. f_equal. apply tab_ext. intros j Hj. rewrite <- G by exact Hj. rewrite sparse_sum. apply rsum_ext. intros i _. apply rsum_ext. intros k _. ring.
Qed.
(* the derivative can be taken when the values can, with dense or sparse as soon as some degree is positive *)
Definition differentiable (alg : list keyword) (ls : list nat) : Prop :=
  (In KLegendre alg \/ In KRecursive alg) /\ (In KDense alg \/ In KSparse alg \/ Forall (fun l => l = 0%nat) ls).
Lemma map_res_combine {A B C} (f : A * B -> res C) (g : A -> B -> C) (l : list A) (m : A -> B) : Forall (fun a => f (a, m a) = Ok (g a (m a))) l -> map_res f (combine l (map m l)) = Ok (map (fun a => g a (m a)) l).
Proof. intros H. induction H as [|a l H _ IH]; [reflexivity|]. cbn [map combine map_res]. rewrite H, IH. reflexivity. Qed.
Lemma map_res_err {A B} (f : A -> res B) (l : list A) z : In z l -> (exists e, f z = Err e) -> exists e, map_res f l = Err e.
Proof.
  induction l as [|a l IH]; [intros []|]. intros H [e E]. cbn [map_res]. destruct H as [->|H]; [rewrite E; exists e; reflexivity|]. destruct (f a) as [b|e']; [|exists e'; reflexivity]. cbn [bind]. destruct (IH H (ex_intro _ e E)) as [e' ->]. exists e'. reflexivity.
Qed.
Lemma jvp_value ls n alg x v : length x = 3%nat -> ls <> [] ->
  (differentiable alg ls -> jvp ls n alg x v = Ok (map (fun l => Y n l x) ls, map (fun l => tab (2 * l + 1) (fun j => kappa n l * DP l (fn x) (fn v) j)) ls)) /\
  (~ differentiable alg ls -> exists e, jvp ls n alg x v = Err e).
Proof.
  intros Lx Hn. unfold jvp. set (js := map (fun l => Nat.max 0 (l - 1)) ls). assert (Hn2 : ls ++ js <> []) by (intros Q; apply app_eq_nil in Q; tauto). destruct (harmonics_spec (ls ++ js) x n alg Lx Hn2) as [Good Bad].
  assert (Ok2 : evaluates alg (ls ++ js) -> harmonics (ls ++ js) x n alg = Ok (map (fun l => Y n l x) ls ++ map (fun l => Y n (l - 1) x) ls)). { intros E. rewrite (Good E). f_equal. rewrite map_app. f_equal. unfold js. rewrite map_map. apply map_ext. intros l. rewrite Nat.max_0_l. reflexivity. }
  assert (S1 : forall A B : list (list R), length A = length ls -> skipn (length ls) (A ++ B) = B /\ firstn (length ls) (A ++ B) = A). { intros A B L. rewrite <- L. split; [rewrite skipn_app, skipn_all, Nat.sub_diag; reflexivity|rewrite firstn_app, firstn_all, Nat.sub_diag; cbn [firstn]; apply app_nil_r]. }
  assert (J0 : forall r, jvp_rule alg n 0 r v = Ok (map (fun _ => 0) r)) by reflexivity.
  assert (Low : Forall (fun l => l = 0%nat) ls -> Forall (fun l => (l <= 1)%nat) (ls ++ js)). { intros F. apply Forall_app. split; [|unfold js; apply Forall_map]; apply (Forall_impl _ (P := fun l => l = 0%nat)); try exact F; intros; lia. }
  split.
  - intros [E C]. assert (Ev : evaluates alg (ls ++ js)). { unfold evaluates, recursive_ok, can_contract. rewrite orb_true_iff, !has_kw_in. destruct E as [E|E]; [left; exact E|right; split; [exact E|]]. destruct C as [C|[C|C]]; [left; left; exact C|left; right; exact C|right; apply Low, C]. }
    rewrite (Ok2 Ev). cbn [bind]. destruct (S1 (map (fun l => Y n l x) ls) (map (fun l => Y n (l - 1) x) ls) (map_length _ _)) as [-> ->].
    rewrite (map_res_combine _ (fun l _ => tab (2 * l + 1) (fun j => kappa n l * DP l (fn x) (fn v) j))); [reflexivity|]. apply Forall_forall. intros l Hl. destruct l as [|l].
    + rewrite J0. f_equal. unfold Y. cbn [Nat.sub Nat.mul Nat.add tab seq map]. apply (f_equal (fun z : R => z :: nil)). change (DP 0 (fn x) (fn v) 0) with 0. ring.
    + replace (S l - 1)%nat with l by lia. rewrite jvp_rule_spec. assert (K : can_contract alg = true). { unfold can_contract. rewrite orb_true_iff, !has_kw_in. destruct C as [C|[C|C]]; [left; exact C|right; exact C|exfalso]. rewrite Forall_forall in C. specialize (C _ Hl). discriminate C. } rewrite K. reflexivity.
  - intros ND. destruct (Classical_Prop.classic (evaluates alg (ls ++ js))) as [Ev|Ev]; [|rewrite (Bad Ev); exists ValueError; reflexivity]. rewrite (Ok2 Ev). cbn [bind]. destruct (S1 (map (fun l => Y n l x) ls) (map (fun l => Y n (l - 1) x) ls) (map_length _ _)) as [-> ->].
    assert (E : In KLegendre alg \/ In KRecursive alg) by (unfold evaluates in Ev; rewrite !has_kw_in in Ev; tauto). assert (K : can_contract alg = false). { destruct (can_contract alg) eqn:K; [|reflexivity]. exfalso. apply ND. split; [exact E|]. unfold can_contract in K. rewrite orb_true_iff, !has_kw_in in K. tauto. }
    assert (Pos : exists l, In l ls /\ l <> 0%nat). { assert (NF : ~ Forall (fun l => l = 0%nat) ls) by (intros F; apply ND; split; [exact E|tauto]). clear -NF. induction ls as [|l ls IH]; [exfalso; apply NF; constructor|]. destruct (Nat.eq_dec l 0) as [->|N]; [destruct IH as (m & A & B); [intros F; apply NF; constructor; auto|exists m; split; [now right|exact B]]|exists l; split; [now left|exact N]]. }
    destruct Pos as (l & Hl & N). destruct (map_res_err (fun '(l, r) => jvp_rule alg n l r v) (combine ls (map (fun l => Y n (l - 1) x) ls)) (l, Y n (l - 1) x)) as [e ->]; [| |exists e; reflexivity].
    + clear -Hl. induction ls as [|a ls IH]; [destruct Hl|]. cbn [map combine]. destruct Hl as [->|Hl]; [now left|right; now apply IH].
    + destruct l as [|l]; [contradiction|]. replace (S l - 1)%nat with l by lia. rewrite jvp_rule_spec, K. exists ValueError. reflexivity.
Qed.
Lemma nth_map_any {A B} (f : A -> B) l k d d' : (k < length l)%nat -> nth k (map f l) d = f (nth k l d').
Proof. revert k. induction l as [|a l IH]; intros k H; [inversion H|]. destruct k; [reflexivity|]. cbn [map nth]. apply IH. cbn [length] in H. lia. Qed.
Theorem C52_derivative_accepts ls n alg x v : length x = 3%nat -> ls <> [] -> ((exists r, jvp ls n alg x v = Ok r) <-> differentiable alg ls).
Proof.
  intros L N. destruct (jvp_value ls n alg x v L N) as [G B]. split; [|intros D; eexists; exact (G D)]. intros [r E]. destruct (Classical_Prop.classic (differentiable alg ls)) as [D|D]; [exact D|]. destruct (B D) as [e Q]. congruence.
Qed.
(* the pair it returns: the values of the harmonics, and their derivatives along the path *)
Theorem C52_derivative ls n alg (gamma : R -> list R) (t0 : R) v values tangents : ls <> [] -> (forall t, length (gamma t) = 3%nat) -> (forall c, (c < 3)%nat -> is_derive (fun t => nth c (gamma t) 0) t0 (nth c v 0)) ->
  jvp ls n alg (gamma t0) v = Ok (values, tangents) ->
  harmonics ls (gamma t0) n alg = Ok values /\ length tangents = length ls /\
  forall k j, (k < length ls)%nat -> (j < 2 * nth k ls 0%nat + 1)%nat -> is_derive (fun t => nth j (row_or_nil (harmonics ls (gamma t) n alg) k) 0) t0 (nth j (nth k tangents []) 0).
Proof.
  intros Hn L Dg H. destruct (jvp_value ls n alg (gamma t0) v (L t0) Hn) as [G B]. assert (D : differentiable alg ls) by (apply (C52_derivative_accepts ls n alg (gamma t0) v (L t0) Hn); eexists; exact H). rewrite (G D) in H. assert (HV : values = map (fun l => Y n l (gamma t0)) ls) by congruence. assert (HT : tangents = map (fun l => tab (2 * l + 1) (fun j => kappa n l * DP l (fn (gamma t0)) (fn v) j)) ls) by congruence. rewrite HV, HT. clear HV HT H.
  assert (Ev : evaluates alg ls). { destruct D as [E C]. unfold evaluates, recursive_ok, can_contract. rewrite orb_true_iff, !has_kw_in. destruct E as [E|E]; [left; exact E|right; split; [exact E|]]. destruct C as [C|[C|C]]; [left; left; exact C|left; right; exact C|right]. apply (Forall_impl _ (P := fun l => l = 0%nat)); [intros; lia|exact C]. }
  assert (Hh : forall t, harmonics ls (gamma t) n alg = Ok (map (fun l => Y n l (gamma t)) ls)) by (intros t; apply (proj1 (harmonics_spec ls (gamma t) n alg (L t) Hn) Ev)).
  split; [apply Hh|split; [apply map_length|]]. intros k j Hk Hj.
  apply (der_ext (fun t => kappa n (nth k ls 0%nat) * P (nth k ls 0%nat) (fn (gamma t)) j)).
  - intros t. rewrite Hh. cbn [row_or_nil]. rewrite (nth_indep _ [] (Y n 0 (gamma t))) by (rewrite map_length; exact Hk). rewrite (map_nth (fun l => Y n l (gamma t)) ls 0%nat k). symmetry. exact (nth_tab _ (fun j => kappa n (nth k ls 0%nat) * P (nth k ls 0%nat) (fn (gamma t)) j) j 0 Hj).
  - rewrite (nth_map_any (fun l => tab (2 * l + 1) (fun j => kappa n l * DP l (fn (gamma t0)) (fn v) j)) ls k [] 0%nat Hk).
    rewrite (nth_tab _ (fun j => kappa n (nth k ls 0%nat) * DP (nth k ls 0%nat) (fn (gamma t0)) (fn v) j) j 0 Hj). apply der_scal. apply (DP_derive (fun t => fn (gamma t)) (fn v)); [exact Dg|exact Hj].
Qed.
(* ---- instances ---- *)
(* two points of odd parity; the degrees 2, 0, 1 are asked for as irreps, with a repeated degree and an empty irrep *)
Definition two_points : iarray := IA [(1%nat, Irrep 1 Odd)] [2%nat] (fun i => match i with [0%nat] => [1; 2; -1] | _ => [0; 0; 3] end) None None.
Example C52_example : coherent two_points /\
  (forall alg, In alg [None; Some [KLegendre]; Some [KRecursive; KSparse]; Some [KCustomJvp; KRecursive; KDense]] ->
    exists z, spherical_harmonics None (OutIrreps [(2%nat, Irrep 2 Even); (1%nat, Irrep 0 Even); (0%nat, Irrep 3 Odd); (1%nat, Irrep 1 Odd)]) (InIrreps two_points) true Integral alg = Ok z) /\
  (exists z, spherical_harmonics None (OutList [2%nat; 0%nat; 1%nat; 9%nat]) (InIrreps two_points) false Component None = Ok z /\ irr z = [(1%nat, Irrep 2 Even); (1%nat, Irrep 0 Even); (1%nat, Irrep 1 Odd); (1%nat, Irrep 9 Odd)]) /\
  (forall z, spherical_harmonics None (OutIrreps [(1%nat, Irrep 2 Even)]) (InIrreps two_points) true Integral (Some [KRecursive]) <> Ok z) /\
  (forall z, spherical_harmonics None (OutIrreps [(1%nat, Irrep 1 Even)]) (InIrreps two_points) true Integral None <> Ok z).
Proof.
  assert (C : coherent two_points) by (split; [intros [|[|[|i]] [|b i']] V; inversion V; subst; try reflexivity; match goal with H : valid [] _ |- _ => inversion H end|split; [apply ArithProofs.flags_false|exact Logic.I]]).
  split; [exact C|]. assert (W : well_formed (InIrreps two_points)) by exact C. split; [|split; [|split]].
  - intros alg Ha. apply C52_accepts; [exact W|]. exists Odd. eexists. split; [reflexivity|split; [reflexivity|split; [repeat constructor|right; split; [reflexivity|]]]]. cbn [In] in Ha. destruct Ha as [<-|[<-|[<-|[<-|[]]]]]; cbn; unfold works; cbn; intuition discriminate.
  - destruct (proj2 (C52_accepts None (OutList [2%nat; 0%nat; 1%nat; 9%nat]) (InIrreps two_points) false Component None W)) as [z E]; [|exists z; split; [exact E|]].
    + exists Odd. eexists. split; [exists Odd; split; reflexivity|split; [reflexivity|split; [repeat constructor|right; split; [reflexivity|exact Logic.I]]]].
    + destruct (C52_values _ _ _ _ _ _ _ W E) as [(p & Ep & ->) _]. injection Ep as <-. reflexivity.
  - intros z E. destruct (proj1 (C52_accepts _ _ _ _ _ _ W) (ex_intro _ z E)) as (p & x & Rq & _ & _ & U). cbn in Rq. subst x. destruct U as [U|[_ [_ U]]]; [discriminate U|]. cbn in U. destruct U as [[U|[]]|[_ [[U|[]]|[[U|[]]|U]]]]; try discriminate U. inversion U; subst. cbn in *. lia.
  - intros z E. destruct (proj1 (C52_accepts _ _ _ _ _ _ W) (ex_intro _ z E)) as (p & x & Rq & V & N & _). cbn in Rq, V. subst x. injection V as <-. inversion N; subst. discriminate.
Qed.
Example C52_derivative_example : differentiable [KRecursive; KDense; KCustomJvp] [3%nat; 0%nat] /\ ~ differentiable [KLegendre; KCustomJvp] [1%nat] /\
  exists r, jvp [3%nat; 0%nat] Component [KRecursive; KDense; KCustomJvp] [1; 2; 3] [0; 1; 0] = Ok r.
Proof.
  assert (D : differentiable [KRecursive; KDense; KCustomJvp] [3%nat; 0%nat]) by (split; cbn; tauto). split; [exact D|split; [|apply C52_derivative_accepts; [reflexivity|discriminate|exact D]]].
  intros [_ [[Q|[Q|[]]]|[[Q|[Q|[]]]|Q]]]; try discriminate Q. inversion Q. discriminate.
Qed.
