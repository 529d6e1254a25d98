(* C45: to_s2grid evaluates expansions in spherical harmonics, from_s2grid computes discrete inner products, and they are inverse of each other on fine enough grids. *)
From Coq Require Import Reals Lra ZArith Lia.
From Coquelicot Require Import Coquelicot.
From Verif Require Import PyBase IrrepsModel IrrepsProofs IrrepsProofs2 ArrayModel ArrayProofs ArithProofs ArrayOps RechunkProofs SumR CGModel TrigProofs PolyProofs S2Model LegendreProofs S2Proofs S2Proofs2 S2Proofs3 S2Props.
From Verif Require Import EntryProofs.
Open Scope R_scope.

(* ---- specification ---- *)
(* the real spherical harmonic of degree l and order m at the point of height y and longitude alpha: Rodrigues' formula *)
Definition harmonic (l : nat) (m : Z) (y alpha : R) : R :=
  let k := Z.abs_nat m in
  sqrt ((2 * INR l + 1) / (4 * PI) * (INR (fact (l - k)) / INR (fact (l + k)))) *
  (sqrt (1 - y ^ 2) ^ k * Derive_n (fun t => (t ^ 2 - 1) ^ l) (l + k) y / (2 ^ l * INR (fact l))) *
  (if (m <? 0)%Z then sqrt 2 * sin (INR k * alpha) else if (m =? 0)%Z then 1 else sqrt 2 * cos (INR k * alpha)).
(* the function with the coefficients of one row of an array, weighted by n_l: the sum over copies (k, u) and orders j - l *)
Definition value_at (n : nat -> R) (x : irreps) (row : list R) (y alpha : R) : R :=
  rsum (length x) (fun k => rsum (mult x k) (fun u => rsum (2 * deg x k + 1) (fun j =>
    n (deg x k) * entry x row k u j * harmonic (deg x k) (Z.of_nat j - Z.of_nat (deg x k)) y alpha))).
(* the heights of the grid *)
Definition height (lg : gauss_rule) (q : quadrature) (B b : nat) : R := match q with Soft => - cos ((INR b + 1 / 2) / INR B * PI) | GaussLegendre => fst (lg B) b end.
Definition weight (lg : gauss_rule) (q : quadrature) (B b : nat) : R := match q with Soft => soft_weight B b | GaussLegendre => snd (lg B) b end.
(* a grid integrating polynomials of degree d in the height: for "gausslegendre" it is the property of the nodes and weights returned by numpy *)
Definition fine (lg : gauss_rule) (q : quadrature) (B d : nat) : Prop :=
  match q with
  | Soft => (B mod 2 = 0)%nat /\ (d < B)%nat
  | GaussLegendre => (d < 2 * B)%nat /\ exact_rule B (2 * B) (fst (lg B)) (snd (lg B))
  end.
Lemma harmonic_Ylm l m y alpha : (Z.abs_nat m <= l)%nat -> harmonic l m y alpha = Ylm l m y alpha.
Proof.
  intros H. unfold harmonic, Ylm, sh_beta, lpmn_normalized, assoc_legendre. rewrite (leb_correct _ _ H).
  assert (E : (-1) ^ Z.abs_nat m * (-1) ^ Z.abs_nat m = 1) by (rewrite <- Rpow_mult_distr; replace (-1 * -1) with 1 by ring; apply pow1).
  replace (trig m alpha) with (if (m <? 0)%Z then sqrt 2 * sin (INR (Z.abs_nat m) * alpha) else if (m =? 0)%Z then 1 else sqrt 2 * cos (INR (Z.abs_nat m) * alpha)).
  - set (t := if (m <? 0)%Z then _ else _). set (c := sqrt ((2 * INR l + 1) / (4 * PI) * _)). set (s := sqrt (1 - y ^ 2) ^ _). set (dd := Derive_n _ _ _). set (g := (-1) ^ _) in *. transitivity (g * g * (c * (s * dd / (2 ^ l * INR (fact l))) * t)); [rewrite E; ring|]. unfold Rdiv. ring.
  - destruct m as [|p|p]; cbn [Z.ltb Z.compare Z.eqb trig]; [reflexivity| |]; rewrite INR_IZR_INZ; cbn [Z.abs_nat]; rewrite positive_nat_Z; reflexivity.
Qed.
Lemma value_expansion n x row y alpha : value_at n x row y alpha = expansion n x row (fun l m => Ylm l m y alpha).
Proof.
  unfold value_at, expansion. apply rsum_ext. intros k _. apply rsum_ext. intros u _. apply rsum_ext. intros j Hj. rewrite harmonic_Ylm by lia. reflexivity.
Qed.
(* numpy's nodes and weights for one and two points do have the property *)
Example fine_gauss : exists lg : gauss_rule, fine lg GaussLegendre 1 1 /\ fine lg GaussLegendre 2 3.
Proof.
  exists (fun n => match n with 1%nat => (fun _ => 0, fun _ => 2) | _ => (fun b => match b with 0%nat => - / sqrt 3 | _ => / sqrt 3 end, fun _ => 1) end). unfold fine. cbn [fst snd Nat.mul Nat.add].
  assert (S3 : sqrt 3 * sqrt 3 = 3) by (apply sqrt_sqrt; lra). assert (P3 : 0 < sqrt 3) by (apply sqrt_lt_R0; lra). assert (G3 : 1 < sqrt 3) by nra.
  assert (I3 : / sqrt 3 * / sqrt 3 = / 3) by (rewrite <- Rinv_mult, S3; reflexivity). assert (L3 : 0 < / sqrt 3 < 1) by (split; [apply Rinv_0_lt_compat, P3|]; rewrite <- Rinv_1; apply Rinv_lt_contravar; lra). set (z := / sqrt 3) in *.
  split; (split; [lia|]); apply exact_by_U.
  - intros b _. lra.
  - intros k Hk. rewrite Int_U. destruct k as [|[|k]]; [| |lia]; cbn [rsum U pow INR]; lra.
  - intros b _. destruct b; lra.
  - intros k Hk. rewrite Int_U. destruct k as [|[|[|[|k]]]]; [| | | |lia]; cbn [rsum U pow INR]; try lra.
Qed.
Lemma quadrature_ok lg q B : (q = Soft -> (B mod 2 = 0)%nat) -> exists r, quadrature_weights lg q B = Ok r /\ (forall b, fst r b = height lg q B b) /\ (forall b, snd r b = weight lg q B b / 2).
Proof. intros H. unfold quadrature_weights. destruct q; [rewrite (H eq_refl); cbn [Nat.eqb]|]; eexists; (split; [reflexivity|split; reflexivity]). Qed.
Lemma fine_exact lg q B d : fine lg q B d -> exact_rule B (S d) (height lg q B) (weight lg q B).
Proof.
  destruct q; cbn [fine].
  - intros [E D]. destruct (soft_exact B ltac:(lia) E) as [X Y]. split; [exact X|]. intros f F. apply Y. apply (poly_weaken (S d)); [lia|exact F].
  - intros [D [X Y]]. split; [exact X|]. intros f F. apply Y. apply (poly_weaken (S d)); [lia|exact F].
Qed.
Lemma fine_even lg q B d : fine lg q B d -> q = Soft -> (B mod 2 = 0)%nat.
Proof. intros F ->. apply F. Qed.
Lemma of_form_regroup x a b : of_form (regroup_irreps x) a b <-> form x a b.
Proof.
  unfold of_form, form. split.
  - intros H ir I. apply has_regroup, has_flat in I. unfold flat in I. apply in_flat_map in I as ([m a0] & I & J). apply repeat_spec in J. subst a0. apply (H m ir I).
  - intros H m ir I. apply H. apply has_regroup. unfold has. pose proof (count_In _ _ _ I). assert (P : positive (regroup_irreps x)) by apply positive_simplify. unfold positive in P. rewrite Forall_forall in P. specialize (P _ I). cbn [fst] in P. lia.
Qed.
Lemma has_In x ir : has (regroup_irreps x) ir -> exists m, In (m, ir) (regroup_irreps x).
Proof. intros H. apply has_flat in H. unfold flat in H. apply in_flat_map in H as ([m a] & I & J). apply repeat_spec in J. subst a. exists m. exact I. Qed.
(* the parities can be left out exactly when the irreps determine them: some even and some odd degree must be present *)
Definition determined (x : irreps) : Prop := (exists ir, has x ir /\ (ir_l ir mod 2 = 0)%nat) /\ (exists ir, has x ir /\ (ir_l ir mod 2 = 1)%nat).
Lemma check_none x a b : check_parities (regroup_irreps x) None None = Ok (Some a, Some b) <-> form x a b /\ determined x.
Proof.
  destruct (C44_check_parities (regroup_irreps x) None None) as (A & _ & C).
  assert (K : forall a b, compatible (regroup_irreps x) None None a b <-> form x a b) by (intros a0 b0; unfold compatible; cbn [given]; rewrite of_form_regroup; tauto).
  assert (EV : forall a b ir, form x a b -> has x ir -> (ir_l ir mod 2 = 0)%nat -> ir_p ir = a) by (intros a0 b0 ir F H E; rewrite (F ir H), ppow_mod, E; destruct a0; reflexivity).
  assert (OD : forall a b ir, form x a b -> has x ir -> (ir_l ir mod 2 = 1)%nat -> ir_p ir = pmul a b) by (intros a0 b0 ir F H E; rewrite (F ir H), ppow_mod, E; reflexivity).
  assert (MOD : forall l, (l mod 2 = 0 \/ l mod 2 = 1)%nat) by (intros l; pose proof (Nat.mod_upper_bound l 2); lia). split.
  - intros E. destruct (C _ _ E) as ((a0 & b0 & H) & G & _). assert (G' := G _ _ H). cbn [given] in G'. destruct G' as [-> ->]. apply K in H. split; [exact H|].
    assert (HD : forall P : irrep -> Prop, (forall ir, P ir \/ ~ P ir) -> (exists ir, has x ir /\ P ir) \/ (forall ir, has x ir -> ~ P ir)).
    { intros P D. assert (Q : forall l, (exists ir, In ir l /\ P ir) \/ (forall ir, In ir l -> ~ P ir)).
      { induction l as [|z l IH]; [right; intros ? []|]. destruct (D z) as [Pz|Nz]; [left; exists z; split; [left; reflexivity|exact Pz]|]. destruct IH as [(w & I & W)|IH]; [left; exists w; split; [right; exact I|exact W]|]. right. intros w [<-|I]; [exact Nz|apply IH, I]. }
      destruct (Q (flat x)) as [(ir & I & Pi)|N]; [left; exists ir; split; [apply has_flat, I|exact Pi]|right; intros ir I; apply N, has_flat, I]. }
    split.
    + destruct (HD (fun ir => (ir_l ir mod 2 = 0)%nat) ltac:(intros ir; destruct (Nat.eq_dec (ir_l ir mod 2) 0); auto)) as [Y|N]; [exact Y|]. exfalso.
      assert (H' : form x (pmul a0 Odd) (pmul b0 Odd)) by (intros ir I; rewrite ppow_mod; destruct (MOD (ir_l ir)) as [Z|Z]; [destruct (N ir I Z)|]; rewrite Z; cbn [Nat.eqb]; rewrite (OD _ _ ir H I Z); destruct a0, b0; reflexivity).
      apply K, G in H'. cbn [given] in H'. destruct H' as [H' _]. destruct a0; discriminate.
    + destruct (HD (fun ir => (ir_l ir mod 2 = 1)%nat) ltac:(intros ir; destruct (Nat.eq_dec (ir_l ir mod 2) 1); auto)) as [Y|N]; [exact Y|]. exfalso.
      assert (H' : form x a0 (pmul b0 Odd)) by (intros ir I; rewrite ppow_mod; destruct (MOD (ir_l ir)) as [Z|Z]; [|destruct (N ir I Z)]; rewrite Z; cbn [Nat.eqb]; rewrite (EV _ _ ir H I Z); destruct a0; reflexivity).
      apply K, G in H'. cbn [given] in H'. destruct H' as [_ H']. destruct b0; discriminate.
  - intros [F ((e & He & Pe) & (o & Ho & Po))]. destruct A as ([a' b'] & E); [exists a, b; apply K, F|]. rewrite E. destruct (C _ _ E) as (_ & G & N1 & N2). destruct (G a b (proj2 (K _ _) F)) as [Ga Gb]. f_equal. f_equal.
    + destruct a' as [a'|]; [cbn [given] in Ga; congruence|]. exfalso. destruct (N1 eq_refl) as (p & q & H1 & H2). apply K in H1, H2. pose proof (EV _ _ e H1 He Pe). pose proof (EV _ _ e H2 He Pe). congruence.
    + destruct b' as [b'|]; [cbn [given] in Gb; congruence|]. exfalso. destruct (N2 eq_refl) as [(Z & _)|(p & q & H1 & H2)].
      * destruct (has_In x e) as [m I]; [apply has_regroup, He|]. rewrite Z in I. exact I.
      * apply K in H1, H2. pose proof (EV _ _ e H1 He Pe). pose proof (EV _ _ e H2 He Pe). pose proof (OD _ _ o H1 Ho Po). pose proof (OD _ _ o H2 Ho Po). subst p q. destruct (ir_p e), (ir_p o); discriminate.
Qed.
Definition parities_ok (x : irreps) (p_val p_arg : option parity) (a b : parity) : Prop :=
  form x a b /\ match p_val, p_arg with Some v, Some w => v = a /\ w = b | None, None => determined x | _, _ => False end.
Lemma parities_spec x pv pa a b : parities_ok x pv pa a b <-> (pv = None <-> pa = None) /\ check_parities (regroup_irreps x) pv pa = Ok (Some a, Some b).
Proof.
  unfold parities_ok. destruct pv as [v|], pa as [w|].
  - split.
    + intros [F [-> ->]]. split; [split; discriminate|]. apply C44_check_both. apply of_form_regroup, F.
    + intros [_ E]. destruct (C44_check_parities (regroup_irreps x) (Some v) (Some w)) as (_ & _ & C). destruct (C _ _ E) as ((a' & b' & (A1 & A2 & A3)) & G & _). destruct (G a' b' (conj A1 (conj A2 A3))) as [G1 G2]. cbn [given] in *. subst. split; [apply of_form_regroup, A3|auto].
  - split; [intros [_ []]|]. intros [[_ H] _]. specialize (H eq_refl). discriminate.
  - split; [intros [_ []]|]. intros [[H _] _]. specialize (H eq_refl). discriminate.
  - rewrite check_none. split; [intros H; split; [tauto|exact H]|intros [_ H]; exact H].
Qed.

(* ---- to_s2grid samples the expansion ---- *)
Theorem C45_to_s2grid lg x B A q n fft p_val p_arg a b L : coherent x -> top (irr x) L -> singles (irr x) -> parities_ok (irr x) p_val p_arg a b -> (q = Soft -> (B mod 2 = 0)%nat) -> (fft = true -> (A mod 2 = 1)%nat /\ (2 * L + 1 <= A)%nat) ->
  exists s, to_s2grid lg x B A q n fft p_val p_arg = Ok s /\ g_lead s = lead x /\ g_beta s = B /\ g_alpha s = A /\ g_quad s = q /\ g_pval s = a /\ g_parg s = b /\
  forall i u v, valid (lead x) i -> (u < B)%nat -> (v < A)%nat -> g_val s i u v = value_at (norm_to_s2 L n) (irr x) (arr x i) (height lg q B u) (2 * PI * INR v / INR A).
Proof.
  intros Co T S P Q F. apply parities_spec in P as [P1 P2]. destruct (quadrature_ok lg q B Q) as (r & R & R1 & R2).
  destruct (to_s2grid_eval lg x B A q n fft p_val p_arg L a b r Co T S P1 P2 R F) as (s & E & H1 & H2 & H3 & H4 & H5 & H6 & V). exists s. do 7 (split; [assumption|]). intros i u v Vi Hu Hv. rewrite V by assumption. rewrite value_expansion, R1. replace (2 * PI * INR v / INR A) with (alpha_grid A v) by (unfold alpha_grid, Rdiv; ring). reflexivity.
Qed.
(* it accepts nothing else *)
Theorem C45_to_s2grid_accepts lg x B A q n fft p_val p_arg : coherent x ->
  ((exists s, to_s2grid lg x B A q n fft p_val p_arg = Ok s) <->
   (exists L, top (irr x) L) /\ singles (irr x) /\ (exists a b, parities_ok (irr x) p_val p_arg a b) /\ (q = Soft -> (B mod 2 = 0)%nat) /\ (fft = true -> (A mod 2 = 1)%nat)).
Proof.
  intros Co. destruct (ia_regroup_yields x Co) as (x' & X & E1 & _). split.
  - intros (s & E). unfold to_s2grid in E. rewrite X in E. cbn [bind] in E. rewrite E1 in E.
    destruct (rev (ls (regroup_irreps (irr x)))) as [|L t] eqn:R; [discriminate|]. cbn [bind] in E.
    destruct (all_ones (regroup_irreps (irr x))) eqn:O; [|discriminate]. cbn [negb] in E.
    assert (TT : exists L, top (irr x) L).
    { assert (In L (ls (regroup_irreps (irr x)))) as I by (apply in_rev; rewrite R; left; reflexivity). destruct (max_of (ls (regroup_irreps (irr x)))) as [M|] eqn:EM; [|unfold max_of in EM; destruct (ls (regroup_irreps (irr x))); [contradiction|discriminate]].
      exists M. apply top_regroup. pose proof (max_of_in _ _ EM) as IM. pose proof (max_of_bound _ _ EM) as BM. rewrite ls_flat in IM, BM. apply in_map_iff in IM as (ir & E2 & IM). rewrite Forall_map, Forall_forall in BM. split; [exists ir; split; [apply has_flat, IM|exact E2]|intros ir' H'; apply BM, has_flat, H']. }
    destruct p_val as [v|], p_arg as [w|]; try discriminate.
    + destruct (check_parities (regroup_irreps (irr x)) (Some v) (Some w)) as [[[a|] [b|]]|] eqn:P; try discriminate. cbn [bind] in E. split; [exact TT|]. split; [apply regroup_all_ones, O|]. split; [exists a, b; apply parities_spec; split; [split; discriminate|exact P]|].
      unfold quadrature_weights in E. split.
      * intros ->. destruct (Nat.eqb_spec (B mod 2) 0) as [Z|Z]; [exact Z|discriminate].
      * intros ->. destruct q; [destruct (Nat.eqb_spec (B mod 2) 0); [|discriminate]|]; cbn [bind] in E; destruct (Nat.eqb_spec (A mod 2) 0); try discriminate; pose proof (Nat.mod_upper_bound A 2); lia.
    + destruct (check_parities (regroup_irreps (irr x)) None None) as [[[a|] [b|]]|] eqn:P; try discriminate. cbn [bind] in E. split; [exact TT|]. split; [apply regroup_all_ones, O|]. split; [exists a, b; apply parities_spec; split; [tauto|exact P]|].
      unfold quadrature_weights in E. split.
      * intros ->. destruct (Nat.eqb_spec (B mod 2) 0) as [Z|Z]; [exact Z|discriminate].
      * intros ->. destruct q; [destruct (Nat.eqb_spec (B mod 2) 0); [|discriminate]|]; cbn [bind] in E; destruct (Nat.eqb_spec (A mod 2) 0); try discriminate; pose proof (Nat.mod_upper_bound A 2); lia.
  - intros ((L & T) & S & (a & b & P) & Q & F). apply parities_spec in P as [P1 P2]. destruct (quadrature_ok lg q B Q) as (r & R & _). unfold to_s2grid. rewrite X. cbn [bind]. rewrite E1. destruct (regroup_last _ _ T) as (t & ->). cbn [bind]. rewrite (proj2 (regroup_all_ones (irr x)) S). cbn [negb].
    replace (match p_val with Some _ => match p_arg with Some _ => false | None => true end | None => match p_arg with Some _ => true | None => false end end) with false by (destruct p_val, p_arg; try reflexivity; [destruct P1 as [_ P1]; specialize (P1 eq_refl); discriminate|destruct P1 as [P1 _]; specialize (P1 eq_refl); discriminate]).
    rewrite P2. cbn [bind]. rewrite R. cbn [bind]. destruct fft; [|eexists; reflexivity]. rewrite (F eq_refl). cbn [Nat.eqb]. eexists. reflexivity.
Qed.
(* ---- from_s2grid computes the inner products with the harmonics ---- *)
Definition inner (lg : gauss_rule) (s : signal) (i : idx) (f : R -> R -> R) : R :=
  rsum (g_beta s) (fun u => weight lg (g_quad s) (g_beta s) u / 2 * (rsum (g_alpha s) (fun v => g_val s i u v * f (height lg (g_quad s) (g_beta s) u) (2 * PI * INR v / INR (g_alpha s))) / INR (g_alpha s))).
Theorem C45_from_s2grid lg s out n lmax_in fft L : top out L -> singles out -> of_form out (g_pval s) (g_parg s) -> (g_quad s = Soft -> (g_beta s mod 2 = 0)%nat) -> (fft = true -> (2 * L <= g_alpha s)%nat) ->
  exists row, yields (from_s2grid lg s out n lmax_in fft) out (g_lead s) row /\ forall i k u j, inside out k u j ->
    entry out (row i) k u j = norm_from_s2 L n (match lmax_in with None => L | Some l => l end) (deg out k) * inner lg s i (harmonic (deg out k) (Z.of_nat j - Z.of_nat (deg out k))).
Proof.
  intros T S O Q F. destruct (quadrature_ok lg _ _ Q) as (r & R & R1 & R2).
  destruct (from_s2grid_eval lg s out n lmax_in fft L r T S) as (row & Y & E); [exists (Some (g_pval s), Some (g_parg s)); apply C44_check_both, O|exact R|intros Z; specialize (F Z); apply Nat.div_le_lower_bound; lia|].
  exists row. split; [exact Y|]. intros i k u j I. rewrite E by exact I. f_equal. unfold coefficient, inner. apply rsum_ext. intros b _. rewrite R1, R2. f_equal. f_equal. apply rsum_ext. intros a _. apply inside_cases in I as (_ & _ & Hj). rewrite harmonic_Ylm by lia. replace (2 * PI * INR a / INR (g_alpha s)) with (alpha_grid (g_alpha s) a) by (unfold alpha_grid, Rdiv; ring). reflexivity.
Qed.
Theorem C45_from_s2grid_accepts lg s out n lmax_in fft :
  (exists y, from_s2grid lg s out n lmax_in fft = Ok y) <->
  exists L, top out L /\ singles out /\ of_form out (g_pval s) (g_parg s) /\ (g_quad s = Soft -> (g_beta s mod 2 = 0)%nat) /\ (fft = true -> (2 * L <= g_alpha s)%nat).
Proof.
  split.
  - intros (y & E). unfold from_s2grid in E. rewrite regroup_Ok in E. cbn [bind] in E. destruct (all_ones (regroup_irreps out)) eqn:O; [|discriminate]. cbn [negb] in E.
    destruct (check_parities out (Some (g_pval s)) (Some (g_parg s))) as [[a b]|] eqn:P; [|discriminate]. cbn [bind] in E. destruct (max_of (ls out)) as [M|] eqn:EM; [|discriminate]. cbn [bind] in E.
    assert (T : top out M). { pose proof (max_of_in _ _ EM) as IM. pose proof (max_of_bound _ _ EM) as BM. rewrite ls_flat in IM, BM. apply in_map_iff in IM as (ir & E2 & IM). rewrite Forall_map, Forall_forall in BM. split; [exists ir; split; [apply has_flat, IM|exact E2]|intros ir' H'; apply BM, has_flat, H']. }
    exists M. split; [exact T|]. split; [apply regroup_all_ones, O|]. split.
    { destruct (C44_check_parities out (Some (g_pval s)) (Some (g_parg s))) as (_ & _ & C). destruct (C _ _ P) as ((a' & b' & (A1 & A2 & A3)) & _). cbn [given] in A1, A2. subst. exact A3. }
    destruct (quadrature_weights lg (g_quad s) (g_beta s)) as [r|] eqn:R; [|discriminate]. cbn [bind] in E. split.
    + intros Z. rewrite Z in R. unfold quadrature_weights in R. destruct (Nat.eqb_spec (g_beta s mod 2) 0) as [W|W]; [exact W|discriminate].
    + intros ->. cbn [andb] in E. destruct (Nat.leb_spec M (g_alpha s / 2)) as [W|W]; [|discriminate]. pose proof (Nat.mul_div_le (g_alpha s) 2). lia.
  - intros (L & T & S & O & Q & F). destruct (C45_from_s2grid lg s out n lmax_in fft L T S O Q F) as (row & (y & E & _) & _). exists y. exact E.
Qed.
(* ---- orthonormality of the harmonics on the grid ---- *)
Theorem C45_orthonormal lg q B A l m l' m' : fine lg q B (l + l') -> (l + l' < A)%nat -> (Z.abs_nat m <= l)%nat -> (Z.abs_nat m' <= l')%nat ->
  rsum B (fun b => weight lg q B b / 2 * (rsum A (fun a => harmonic l m (height lg q B b) (2 * PI * INR a / INR A) * harmonic l' m' (height lg q B b) (2 * PI * INR a / INR A)) / INR A)) =
  if ((l =? l')%nat && (m =? m')%Z) then / (4 * PI) else 0.
Proof.
  intros F HA Hm Hm'. rewrite <- (Ylm_orthonormal A B (S (l + l')) _ _ l m l' m' (fine_exact _ _ _ _ F)) by (assumption || lia). apply rsum_ext. intros b _. f_equal. f_equal. apply rsum_ext. intros a _. rewrite !harmonic_Ylm by assumption. replace (2 * PI * INR a / INR A) with (alpha_grid A a) by (unfold alpha_grid, Rdiv; ring). reflexivity.
Qed.

(* ---- the two are inverse of each other ---- *)
Lemma to_facts lg x B A q n fft pv pa s : coherent x -> to_s2grid lg x B A q n fft pv pa = Ok s -> exists L a b, top (irr x) L /\ singles (irr x) /\ parities_ok (irr x) pv pa a b /\ (q = Soft -> (B mod 2 = 0)%nat) /\ (fft = true -> (A mod 2 = 1)%nat).
Proof.
  intros Co E. destruct (proj1 (C45_to_s2grid_accepts lg x B A q n fft pv pa Co) (ex_intro _ s E)) as ((L & T) & S & (a & b & P) & Q & F). exists L, a, b. auto.
Qed.
Lemma top_unique x L L' : top x L -> top x L' -> L = L'.
Proof. intros [(a & H & E) B] [(a' & H' & E') B']. specialize (B _ H'). specialize (B' _ H). lia. Qed.
Lemma round_trip lg x B A q n fft pv pa s out L L' n' lin fft' :
  coherent x -> to_s2grid lg x B A q n fft pv pa = Ok s -> top (irr x) L -> top out L' -> singles out -> of_form out (g_pval s) (g_parg s) ->
  fine lg q B (L + L') -> (L + L' < A)%nat -> (fft = true -> (2 * L + 1 <= A)%nat) -> (fft' = true -> (2 * L' <= A)%nat) ->
  exists row, yields (from_s2grid lg s out n' lin fft') out (lead x) row /\ forall i k u j, valid (lead x) i -> inside out k u j ->
    entry out (row i) k u j = norm_from_s2 L' n' (match lin with None => L' | Some l => l end) (deg out k) *
      expansion (norm_to_s2 L n) (irr x) (arr x i) (fun l' m' => if ((l' =? deg out k)%nat && (m' =? Z.of_nat j - Z.of_nat (deg out k))%Z) then / (4 * PI) else 0).
Proof.
  intros Co E T T' S' O F HA H1 H2. destruct (to_facts _ _ _ _ _ _ _ _ _ _ Co E) as (L0 & a & b & T0 & S0 & P & Q & F0). clear L0 T0.
  destruct (C45_to_s2grid lg x B A q n fft pv pa a b L Co T S0 P Q) as (s' & E' & G1 & G2 & G3 & G4 & G5 & G6 & V); [intros Z; split; [apply F0, Z|apply H1, Z]|]. rewrite E in E'. injection E' as <-. subst.
  destruct (quadrature_ok lg (g_quad s) (g_beta s) Q) as (r & R & R1 & R2).
  destruct (from_s2grid_eval lg s out n' lin fft' L' r T' S') as (row & Y & W); [exists (Some (g_pval s), Some (g_parg s)); apply C44_check_both, O|exact R|intros Z; specialize (H2 Z); apply Nat.div_le_lower_bound; lia|].
  rewrite G1 in Y. exists row. split; [exact Y|]. intros i k u j Vi I. rewrite W by exact I. f_equal. apply inside_cases in I as (Hk & Hu & Hj). pose proof Co as (Lx & _).
  assert (D : (deg out k <= L')%nat) by (apply T'; apply has_nth; [exact Hk|lia]).
  rewrite <- (coefficient_expansion (g_alpha s) (g_beta s) (S (L + L')) (height lg (g_quad s) (g_beta s)) (weight lg (g_quad s) (g_beta s)) (norm_to_s2 L n) (irr x) L (arr x i) (g_val s i) (deg out k)); [|apply fine_exact, F|lia|lia|lia|exact T|apply Lx, Vi|].
  - unfold coefficient. apply rsum_ext. intros c _. rewrite R1, R2. reflexivity.
  - intros c e Hc He. rewrite V by assumption. rewrite value_expansion. replace (2 * PI * INR e / INR (g_alpha s)) with (alpha_grid (g_alpha s) e) by (unfold alpha_grid, Rdiv; ring). reflexivity.
Qed.
(* sampling and transforming back multiplies the coefficients of degree l by a number depending on the two normalizations, and makes up zeros for absent degrees *)
Theorem C45_round_trip lg x B A q n fft p_val p_arg s out L L' n' lmax_in fft' :
  coherent x -> to_s2grid lg x B A q n fft p_val p_arg = Ok s -> top (irr x) L -> top out L' -> singles out -> of_form out (g_pval s) (g_parg s) ->
  fine lg q B (L + L') -> (L + L' < A)%nat -> (fft = true -> (2 * L + 1 <= A)%nat) -> (fft' = true -> (2 * L' <= A)%nat) ->
  exists row, yields (from_s2grid lg s out n' lmax_in fft') out (lead x) row /\ forall i k u j, valid (lead x) i -> inside out k u j ->
    (forall k' u', inside (irr x) k' u' j -> deg (irr x) k' = deg out k ->
       entry out (row i) k u j = norm_from_s2 L' n' (match lmax_in with None => L' | Some l => l end) (deg out k) * norm_to_s2 L n (deg out k) / (4 * PI) * entry (irr x) (arr x i) k' u' j) /\
    ((forall ir, has (irr x) ir -> ir_l ir <> deg out k) -> entry out (row i) k u j = 0).
Proof.
  intros Co E T T' S' O F HA H1 H2. destruct (round_trip lg x B A q n fft p_val p_arg s out L L' n' lmax_in fft' Co E T T' S' O F HA H1 H2) as (row & Y & V). exists row. split; [exact Y|]. intros i k u j Vi I. rewrite (V i k u j Vi I).
  destruct (to_facts _ _ _ _ _ _ _ _ _ _ Co E) as (_ & a & b & _ & S & [P _] & _). split.
  - intros k' u' I' D. rewrite <- D. rewrite (expansion_pick _ (irr x) (arr x i) a b k' u' j (/ (4 * PI)) S P I'). unfold Rdiv. ring.
  - intros N. rewrite expansion_none; [ring|]. intros k' Hk' M E'. apply (N _ (has_nth (irr x) k' Hk' M)). exact E'.
Qed.
(* that number is 1 when the normalizations match *)
Theorem C45_factor L L' n lmax_in l : match n with Component => L = L' | Norm => lmax_in = L | Integral => True end -> norm_from_s2 L' n lmax_in l * norm_to_s2 L n l / (4 * PI) = 1.
Proof.
  intros H. pose proof PI_RGT_0 as P. assert (Q : sqrt (4 * PI) * sqrt (4 * PI) = 4 * PI) by (apply sqrt_sqrt; lra).
  assert (Pl : 0 <= INR l) by apply pos_INR. assert (PL : 0 <= INR L) by apply pos_INR. assert (Sl : sqrt (2 * INR l + 1) <> 0) by (apply Rgt_not_eq, sqrt_lt_R0; lra). assert (SL : sqrt (INR L + 1) <> 0) by (apply Rgt_not_eq, sqrt_lt_R0; lra).
  unfold norm_from_s2, norm_to_s2. destruct n; subst.
  - transitivity (sqrt (4 * PI) * sqrt (4 * PI) / (4 * PI)); [field; repeat split; lra|rewrite Q; field; lra].
  - transitivity (sqrt (4 * PI) * sqrt (4 * PI) / (4 * PI)); [field; repeat split; lra|rewrite Q; field; lra].
  - transitivity (sqrt (4 * PI) * sqrt (4 * PI) / (4 * PI)); [field; repeat split; lra|rewrite Q; field; lra].
Qed.
(* what the normalizations mean: the mean of the squared signal over the sphere is the (weighted) sum of the squared coefficients, so with "component" independent coefficients of variance 1 give a mean of 1, with "norm" features of norm 1 do, and "integral" keeps the L2 norm up to 4 pi *)
Theorem C45_normalizations L : rsum (L + 1) (fun l => (2 * INR l + 1) * norm_to_s2 L Component l ^ 2 / (4 * PI)) = 1 /\ rsum (L + 1) (fun l => norm_to_s2 L Norm l ^ 2 / (4 * PI)) = 1 /\ forall l, norm_to_s2 L Integral l ^ 2 = 4 * PI.
Proof.
  pose proof PI_RGT_0 as P. assert (Q : sqrt (4 * PI) * sqrt (4 * PI) = 4 * PI) by (apply sqrt_sqrt; lra). assert (PL : 0 <= INR L) by apply pos_INR. assert (SL : sqrt (INR L + 1) * sqrt (INR L + 1) = INR L + 1) by (apply sqrt_sqrt; lra). assert (NL : sqrt (INR L + 1) <> 0) by (apply Rgt_not_eq, sqrt_lt_R0; lra).
  assert (C : forall f, (forall l, f l = / (INR L + 1)) -> rsum (L + 1) f = 1).
  { intros f H. rewrite (rsum_ext _ _ (fun _ => / (INR L + 1))) by (intros; apply H). rewrite rsum_const, plus_INR. cbn [INR]. field. lra. }
  split; [|split].
  - apply C. intros l. assert (Pl : 0 <= INR l) by apply pos_INR. assert (Sl : sqrt (2 * INR l + 1) * sqrt (2 * INR l + 1) = 2 * INR l + 1) by (apply sqrt_sqrt; lra). assert (Nl : sqrt (2 * INR l + 1) <> 0) by (apply Rgt_not_eq, sqrt_lt_R0; lra).
    unfold norm_to_s2. transitivity ((2 * INR l + 1) * (sqrt (4 * PI) * sqrt (4 * PI)) / ((sqrt (2 * INR l + 1) * sqrt (2 * INR l + 1)) * (sqrt (INR L + 1) * sqrt (INR L + 1))) / (4 * PI)); [field; repeat split; lra|]. rewrite Q, Sl, SL. field. repeat split; lra.
  - apply C. intros l. unfold norm_to_s2. transitivity ((sqrt (4 * PI) * sqrt (4 * PI)) / (sqrt (INR L + 1) * sqrt (INR L + 1)) / (4 * PI)); [field; repeat split; lra|]. rewrite Q, SL. field. repeat split; lra.
  - intros l. unfold norm_to_s2. transitivity (sqrt (4 * PI) * sqrt (4 * PI)); [ring|exact Q].
Qed.
(* so transforming a sampled array back, with the same normalization, returns it *)
Theorem C45_lossless lg x B A q n fft p_val p_arg s L fft' :
  coherent x -> to_s2grid lg x B A q n fft p_val p_arg = Ok s -> top (irr x) L -> of_form (irr x) (g_pval s) (g_parg s) ->
  fine lg q B (2 * L) -> (2 * L < A)%nat -> yields (from_s2grid lg s (irr x) n None fft') (irr x) (lead x) (arr x).
Proof.
  intros Co E T O F HA. destruct (to_facts _ _ _ _ _ _ _ _ _ _ Co E) as (L0 & a & b & _ & S1 & [P _] & _).
  destruct (C45_round_trip lg x B A q n fft p_val p_arg s (irr x) L L n None fft' Co E T T S1 O) as (row & Y & V); [replace (L + L)%nat with (2 * L)%nat by lia; exact F|lia|lia|lia|].
  destruct Y as (y & E1 & E2 & E3 & E4 & E5). exists y. do 4 (split; [assumption|]). intros i Vi. rewrite E5 by exact Vi. apply (rows_equal (irr x)).
  - rewrite <- E5 by exact Vi. rewrite <- E2. apply E4. rewrite E3. exact Vi.
  - apply Co, Vi.
  - intros k u j I. rewrite (proj1 (V i k u j Vi I) k u I eq_refl). rewrite C45_factor; [ring|]. destruct n; trivial; reflexivity.
Qed.
(* lmax_in is documented as the "maximum degree of the input signal, only used for normalization purposes": with "component" it is ignored, so giving it does not prevent a truncation from rescaling the coefficients *)
Theorem C45_lmax_in_component_refuted : exists lg x B A s out row, coherent x /\ to_s2grid lg x B A Soft Component false (Some Even) (Some Odd) = Ok s /\ top (irr x) 1 /\ fine lg Soft B 2 /\ (2 < A)%nat /\
  yields (from_s2grid lg s out Component (Some 1%nat) false) out (lead x) row /\ irr x = out ++ [(1%nat, Irrep 1 Odd)] /\ entry out (row []) 0 0 0 <> entry (irr x) (arr x []) 0 0 0.
Proof.
  pose (lg := (fun _ => (fun _ => 0, fun _ => 0)) : gauss_rule). pose (x := IA [(1%nat, Irrep 0 Even); (1%nat, Irrep 1 Odd)] [] (fun _ => [1; 0; 0; 0]) None None).
  assert (Co : coherent x) by (split; [intros i V; reflexivity|split; [apply flags_false|exact Logic.I]]).
  assert (T : top (irr x) 1). { split; [exists (Irrep 1 Odd); split; [unfold has; cbn; lia|reflexivity]|]. intros ir H. apply has_flat in H. cbn in H. destruct H as [<-|[<-|[]]]; cbn; lia. }
  assert (S1 : singles (irr x)) by (intros [[|[|l]] []]; unfold count; cbn; lia).
  assert (P : parities_ok (irr x) (Some Even) (Some Odd) Even Odd). { split; [|split; reflexivity]. intros ir H. apply has_flat in H. cbn in H. destruct H as [<-|[<-|[]]]; reflexivity. }
  destruct (C45_to_s2grid lg x 4 5 Soft Component false (Some Even) (Some Odd) Even Odd 1 Co T S1 P) as (s & E & G1 & G2 & G3 & G4 & G5 & G6 & _); [reflexivity|discriminate|].
  pose (out := [(1%nat, Irrep 0 Even)]).
  assert (T' : top out 0). { split; [exists (Irrep 0 Even); split; [unfold has; cbn; lia|reflexivity]|]. intros ir H. apply has_flat in H. cbn in H. destruct H as [<-|[]]; cbn; lia. }
  assert (S' : singles out) by (intros [[|l] []]; unfold count; cbn; lia).
  destruct (C45_round_trip lg x 4 5 Soft Component false (Some Even) (Some Odd) s out 1 0 Component (Some 1%nat) false Co E T T' S') as (row & Y & V).
  - rewrite G5, G6. intros m ir [Q|[]]. injection Q as <- <-. reflexivity.
  - split; [reflexivity|lia].
  - lia.
  - discriminate.
  - discriminate.
  - exists lg, x, 4%nat, 5%nat, s, out, row. do 3 (split; [assumption|]). split; [split; [reflexivity|lia]|]. split; [lia|]. split; [exact Y|]. split; [reflexivity|].
    assert (I : inside out 0 0 0) by (apply inside_cases; cbn; lia). assert (I' : inside (irr x) 0 0 0) by (apply inside_cases; cbn; lia).
    rewrite (proj1 (V [] 0%nat 0%nat 0%nat ltac:(constructor) I) 0%nat 0%nat I' eq_refl). change (entry (irr x) (arr x []) 0 0 0) with 1. change (deg out 0) with 0%nat. unfold norm_from_s2, norm_to_s2. cbn [INR].
    pose proof PI_RGT_0 as Pp. assert (Q : sqrt (4 * PI) * sqrt (4 * PI) = 4 * PI) by (apply sqrt_sqrt; lra). replace (2 * 0 + 1) with 1 by ring. replace (0 + 1) with 1 by ring. replace (1 + 1) with 2 by ring. rewrite sqrt_1. assert (Q2 : sqrt 2 * sqrt 2 = 2) by (apply sqrt_sqrt; lra). assert (P2 : 0 < sqrt 2) by (apply sqrt_lt_R0; lra).
    intros H. assert (H' : sqrt 2 = 1); [|rewrite H' in Q2; lra]. transitivity (sqrt 2 * (sqrt (4 * PI) * (1 * 1) * (sqrt (4 * PI) / (1 * sqrt 2)) / (4 * PI) * 1)); [rewrite H; ring|]. transitivity (sqrt (4 * PI) * sqrt (4 * PI) / (4 * PI)); [field; split; lra|rewrite Q; field; lra].
Qed.

(* ---- the fast and the plain code paths ---- *)
Theorem C45_fft_agrees lg x B A q n p_val p_arg s L : coherent x -> to_s2grid lg x B A q n false p_val p_arg = Ok s -> top (irr x) L -> (A mod 2 = 1)%nat -> (2 * L + 1 <= A)%nat ->
  exists s', to_s2grid lg x B A q n true p_val p_arg = Ok s' /\ agree_on_grid s s'.
Proof.
  intros Co E T O H. destruct (to_facts _ _ _ _ _ _ _ _ _ _ Co E) as (L0 & a & b & _ & S1 & P & Q & _).
  destruct (C45_to_s2grid lg x B A q n false p_val p_arg a b L Co T S1 P Q ltac:(discriminate)) as (s1 & E1 & G1 & G2 & G3 & G4 & G5 & G6 & V). rewrite E in E1. injection E1 as <-.
  destruct (C45_to_s2grid lg x B A q n true p_val p_arg a b L Co T S1 P Q ltac:(auto)) as (s' & E' & K1 & K2 & K3 & K4 & K5 & K6 & W). exists s'. split; [exact E'|]. unfold agree_on_grid.
  do 6 (split; [congruence|]). intros i u v Vi Hu Hv. rewrite G1 in Vi. rewrite G2 in Hu. rewrite G3 in Hv. rewrite V, W by assumption. reflexivity.
Qed.
Theorem C45_fft_from_agrees lg s out n lmax_in y y' : from_s2grid lg s out n lmax_in true = Ok y -> from_s2grid lg s out n lmax_in false = Ok y' -> irr y = irr y' /\ lead y = lead y' /\ forall i, valid (lead y) i -> arr y i = arr y' i.
Proof.
  intros E E'. destruct (proj1 (C45_from_s2grid_accepts lg s out n lmax_in true) (ex_intro _ y E)) as (L & T & S1 & O & Q & F).
  destruct (C45_from_s2grid lg s out n lmax_in true L T S1 O Q F) as (r & (z & Z & A1 & A2 & A3 & A4) & V). rewrite E in Z. injection Z as <-.
  destruct (C45_from_s2grid lg s out n lmax_in false L T S1 O Q ltac:(discriminate)) as (r' & (z' & Z' & B1 & B2 & B3 & B4) & V'). rewrite E' in Z'. injection Z' as <-.
  split; [congruence|]. split; [congruence|]. intros i Vi. apply (rows_equal out).
  - rewrite <- A1. apply A3, Vi.
  - rewrite <- B1. apply B3. rewrite B2, <- A2. exact Vi.
  - intros k u j I. rewrite A2 in Vi. rewrite A4, B4 by exact Vi. rewrite V, V' by exact I. reflexivity.
Qed.
(* on a grid too coarse for the degrees present the fast path silently leaves orders out *)
Theorem C45_fft_coarse_refuted : exists lg x B A s s', coherent x /\ (A mod 2 = 1)%nat /\ to_s2grid lg x B A Soft Integral false (Some Even) (Some Odd) = Ok s /\ to_s2grid lg x B A Soft Integral true (Some Even) (Some Odd) = Ok s' /\
  (0 < B)%nat /\ (0 < A)%nat /\ g_val s [] 0 0 <> 0 /\ g_val s' [] 0 0 = 0.
Proof.
  pose (lg := (fun _ => (fun _ => 0, fun _ => 0)) : gauss_rule). pose (x := IA [(1%nat, Irrep 1 Odd)] [] (fun _ => [0; 0; 1]) None None).
  assert (Co : coherent x) by (split; [intros i V; reflexivity|split; [apply flags_false|exact Logic.I]]).
  assert (T : top (irr x) 1). { split; [exists (Irrep 1 Odd); split; [unfold has; cbn; lia|reflexivity]|]. intros ir H. apply has_flat in H. cbn in H. destruct H as [<-|[]]; cbn; lia. }
  assert (S1 : singles (irr x)) by (intros [[|[|l]] []]; unfold count; cbn; lia).
  assert (P : parities_ok (irr x) (Some Even) (Some Odd) Even Odd). { split; [|split; reflexivity]. intros ir H. apply has_flat in H. cbn in H. destruct H as [<-|[]]; reflexivity. }
  destruct (C45_to_s2grid lg x 2 1 Soft Integral false (Some Even) (Some Odd) Even Odd 1 Co T S1 P) as (s & E & G1 & G2 & G3 & G4 & G5 & G6 & Vs); [reflexivity|discriminate|].
  exists lg, x, 2%nat, 1%nat, s. eexists. split; [exact Co|]. split; [reflexivity|]. split; [exact E|]. split; [reflexivity|]. split; [lia|]. split; [lia|]. split.
  - rewrite Vs; [|constructor|lia|lia]. rewrite value_expansion. rewrite <- expansion_coeffs by reflexivity. change (num_coeffs (ls (irr x))) with 3%nat. cbn [rsum]. change (nth 0 (arr x []) 0) with 0. change (nth 1 (arr x []) 0) with 0. change (nth 2 (arr x []) 0) with 1. change (decode (ls (irr x)) 2) with (1%nat, 2%nat). cbn [fst]. change (order_of (1%nat, 2%nat)) with 1%Z.
    rewrite !Rmult_0_r, !Rmult_0_l, !Rplus_0_l, Rmult_1_r.
    unfold Ylm. change (Z.abs_nat 1) with 1%nat. rewrite sh_beta_V. cbn [Nat.leb]. cbn [trig INR]. replace (1 * (0 / 1)) with 0 by field. rewrite cos_0.
    unfold height. pose proof PI_RGT_0 as Pp. replace ((INR 0 + 1 / 2) / INR 2 * PI) with (PI / 4) by (cbn [INR]; field). rewrite cos_PI4.
    assert (S2 : sqrt 2 * sqrt 2 = 2) by (apply sqrt_sqrt; lra). assert (P2 : 0 < sqrt 2) by (apply sqrt_lt_R0; lra).
    assert (H1 : 0 < 1 - (- (1 / sqrt 2)) ^ 2). { replace ((- (1 / sqrt 2)) ^ 2) with (1 / (sqrt 2 * sqrt 2)) by (field; lra). rewrite S2. lra. }
    assert (H2 : nlm 1 1 <> 0). { unfold nlm. apply Rgt_not_eq. apply Rdiv_lt_0_compat; [|cbn; lra]. apply sqrt_lt_R0. cbn [INR fact Nat.sub Nat.add Nat.mul]. apply Rmult_lt_0_compat; [apply Rdiv_lt_0_compat; lra|lra]. }
    assert (H3 : V 1 1 (- (1 / sqrt 2)) <> 0) by (destruct (V_lead 1 1 (le_n 1)) as (g & (c & Lc & Ec) & Eg); rewrite Eg, Ec; destruct c; [|cbn in Lc; lia]; cbn; lra).
    assert (H4 : norm_to_s2 1 Integral 1 <> 0) by (unfold norm_to_s2; apply Rgt_not_eq; rewrite Rmult_1_l; apply sqrt_lt_R0; lra).
    assert (H5 : sqrt (1 - (- (1 / sqrt 2)) ^ 2) <> 0) by (apply Rgt_not_eq, sqrt_lt_R0, H1).
    apply Rmult_integral_contrapositive_currified; [exact H4|]. apply Rmult_integral_contrapositive_currified; [|lra]. apply Rmult_integral_contrapositive_currified; [|exact H3]. apply Rmult_integral_contrapositive_currified; [exact H2|]. rewrite pow_1. exact H5.
  - change (match irfft_row 1 (tab 3 (fun m => rsum 3 (fun k => beta_matrix 1 [1%nat] (norm_to_s2 1 Integral) (fun i => - cos ((INR i + 1 / 2) / INR 2 * PI)) m 0 k * nth k [0; 0; 1] 0))) with Ok v => nth 0 v 0 * INR 1 | Err _ => 0 end = 0).
    set (f := fun m => rsum 3 _). unfold irfft_row. rewrite tab_length. change (negb (1 mod 2 =? 1)%nat) with false. cbv iota. change ((3 - 1) / 2)%nat with 1%nat. change (tab 3 f) with [f 0%nat; f 1%nat; f 2%nat]. unfold irfft. change ((1 - 1) / 2)%nat with 0%nat. change (1 mod 2 =? 0)%nat with false. cbn [seq map nth list_slice skipn firstn app rsum Nat.add Nat.sub]. change (Re (RtoC (f 1%nat))) with (f 1%nat).
    assert (Z : f 1%nat = 0); [|rewrite Z; cbn [INR]; field]. unfold f. cbn [rsum nth]. rewrite (beta_matrix_spec 1 [1%nat] _ _ 1 0 2) by (repeat constructor || (cbn; lia)). cbn. ring.
Qed.
