(* C45: to_s2point evaluates the same function as to_s2grid (when one of the two leading shapes is trivial; otherwise the values are permuted), and s2_dirac has integral one and reproduces values. *)
From Coq Require Import Reals Lra ZArith Lia List Bool Arith.
From Coquelicot Require Import Coquelicot.
From Verif Require Import PyBase IrrepsModel IrrepsProofs IrrepsProofs2 ArrayModel ArrayProofs ArithProofs ArrayOps RechunkProofs LeadModel LeadProofs SumR TPProofs StableSort CGModel RotationModel RotationProofs RadialProofs S2Model S2Proofs S2Proofs2 S2Proofs3 S2Props S2Props2 S2Props3 ActProofs SHModel SHProofs SHProofs2 SHProofs3 SHProofs4 SHProofs5 SHProofs6 SHProofs7 SHProofs8 S2PointModel SHProps SHProps2.
From Verif Require Import EntryProofs.
Import ListNotations.
Open Scope R_scope.

(* ---- lemmas ---- *)
Lemma rowof_decode y (G : nat * nat -> R) : rowof y (fun k u j => G (deg y k, j)) = tab (num_coeffs (ls y)) (fun i => G (decode (ls y) i)).
Proof.
  rewrite <- (rowof_entry y (tab (num_coeffs (ls y)) (fun i => G (decode (ls y) i)))) by (rewrite tab_length; apply num_ls). apply rowof_ext. intros k u j H. symmetry. apply entry_tab, H.
Qed.
Lemma ls_ones (q : nat -> parity) l : ls (map (fun l => (1%nat, Irrep l (q l))) l) = l.
Proof. induction l as [|a l IH]; [reflexivity|]. cbn [map]. change (ls ((1%nat, Irrep a (q a)) :: map (fun l => (1%nat, Irrep l (q l))) l)) with (a :: ls (map (fun l => (1%nat, Irrep l (q l))) l)). rewrite IH. reflexivity. Qed.
Lemma natural_list p l : natural p (map (fun l => (1%nat, Irrep l (ppow p l))) l).
Proof. unfold natural. rewrite Forall_map. apply Forall_forall. intros a _. reflexivity. Qed.
Lemma lmax_top x L : top x L -> lmax x = Ok L.
Proof.
  intros T. pose proof (top_max x L T) as M. unfold lmax. destruct x as [|m x]; [exfalso; destruct T as [(ir & H & _) _]; apply has_flat in H; exact H|]. cbn [length Nat.eqb]. unfold max_of in M. exact M.
Qed.
Lemma check_arg x p a : (exists b, check_parities (regroup_irreps x) None (Some p) = Ok (Some a, b)) <-> form x a p /\ exists ir, has x ir.
Proof.
  destruct (C44_check_parities (regroup_irreps x) None (Some p)) as (A & _ & C).
  assert (K : forall a b, compatible (regroup_irreps x) None (Some p) a b <-> b = p /\ form x a b) by (intros a0 b0; unfold compatible; cbn [given]; rewrite of_form_regroup; split; [intros (_ & E & F); split; [congruence|exact F]|intros (-> & F); auto]).
  split.
  - intros [b E]. destruct (C _ _ E) as ((a0 & b0 & H) & G & _). destruct (G _ _ H) as [Ga _]. cbn [given] in Ga. subst a0. apply K in H. destruct H as [-> F]. split; [exact F|].
    destruct (flat x) as [|ir t] eqn:Q; [|exists ir; apply has_flat; rewrite Q; left; reflexivity]. exfalso. assert (Z : regroup_irreps x = []).
    { destruct (regroup_irreps x) as [|[m ir] r] eqn:R; [reflexivity|]. exfalso. assert (H : has x ir); [|apply has_flat in H; rewrite Q in H; exact H]. apply has_regroup. rewrite R. unfold has. assert (P : positive (regroup_irreps x)) by apply positive_simplify. rewrite R in P. inversion P as [|? ? P1 _]; subst. pose proof (count_In m ir ((m, ir) :: r) (or_introl eq_refl)). cbn [fst] in P1. lia. }
    rewrite Z in E. discriminate E.
  - intros [F (ir & H)]. destruct A as ([a' b'] & E); [exists a, p; apply K; auto|]. destruct (C _ _ E) as (_ & G & N & _). destruct (G a p (proj2 (K _ _) (conj eq_refl F))) as [Ga _]. exists b'. rewrite E. destruct a' as [a'|]; [cbn [given] in Ga; congruence|]. exfalso.
    destruct (N eq_refl) as (b & c & H1 & H2). apply K in H1, H2. destruct H1 as [-> H1], H2 as [-> H2]. specialize (H1 ir H). specialize (H2 ir H). rewrite H1 in H2. destruct (ppow p (ir_l ir)); discriminate.
Qed.
(* where the code reads the flattened result *)
Definition from_point (c pt : iarray) (i : idx) : idx := unravel (lead pt) (ravel (lead c ++ lead pt) i / prod (lead c))%nat.
Definition from_coeffs (c pt : iarray) (i : idx) : idx := unravel (lead c) (ravel (lead c ++ lead pt) i mod prod (lead c))%nat.
(* the configured algorithm can evaluate the degrees of x *)
Definition configured (auto : option (list keyword)) (x : irreps) : Prop :=
  match auto with
  | None => True
  | Some alg => ~ In KOther alg /\ (In KLegendre alg \/ In KRecursive alg /\ (In KDense alg \/ In KSparse alg \/ forall ir, has x ir -> (ir_l ir <= 1)%nat))
  end.
Lemma configured_iff auto x p : configured auto x <-> usable auto None (map (fun l => (1%nat, Irrep l (ppow p l))) (ls (regroup_irreps x))).
Proof.
  unfold configured, usable. destruct auto as [alg|]; [|tauto]. unfold works. rewrite Forall_map. cbn [snd ir_l]. rewrite ls_flat, Forall_map.
  assert (E : (forall ir, has x ir -> (ir_l ir <= 1)%nat) <-> Forall (fun ir => (ir_l ir <= 1)%nat) (flat (regroup_irreps x))); [|rewrite E; tauto].
  rewrite Forall_forall. split; intros H ir I; apply H; [apply has_regroup, has_flat, I|apply has_flat, has_regroup, I].
Qed.
Lemma value_polar' row r y alpha l j : coordinates row r y alpha -> r <> 0 -> (j < 2 * l + 1)%nat -> value Integral true row l j = harmonic l (Z.of_nat j - Z.of_nat l) y alpha.
Proof.
  intros Hc Nr Hj. pose proof (normalized_coordinates _ _ _ _ Hc) as N. destruct (Req_EM_T r 0) as [|_]; [contradiction|]. unfold value. etransitivity; [exact (value_polar Integral (normalized row) 1 y alpha l j N Hj)|]. rewrite pow1. unfold constant. ring.
Qed.

Definition Yval (row : list R) (l : nat) (m : Z) : R := value Integral true row l (Z.to_nat (m + Z.of_nat l)).
Lemma split_index s t i : valid (s ++ t) i -> (ravel (s ++ t) i / prod s < prod t)%nat /\ (ravel (s ++ t) i mod prod s < prod s)%nat.
Proof.
  intros V. pose proof (ravel_bound _ _ V) as B. rewrite prod_app in B. assert (prod s <> 0)%nat by (intros Z; rewrite Z in B; cbn in B; lia). split; [apply Nat.div_lt_upper_bound; lia|apply Nat.mod_upper_bound; assumption].
Qed.
Lemma point_eval auto c pt n p a L : coherent c -> coherent pt -> irr pt = [(1%nat, Irrep 1 p)] -> top (irr c) L -> singles (irr c) -> form (irr c) a p -> configured auto (irr c) ->
  yields (to_s2point auto c pt n) [(1%nat, Irrep 0 a)] (lead c ++ lead pt) (fun i => [expansion (norm_to_s2 L n) (irr c) (arr c (from_coeffs c pt i)) (Yval (arr pt (from_point c pt i)))]).
Proof.
  intros Cc Cp Ip T Sg F U. unfold to_s2point. destruct (ia_regroup_yields c Cc) as (c' & -> & E1 & E2 & E3 & E4). cbn [bind]. rewrite E1. rewrite (proj2 (regroup_all_ones (irr c)) Sg). cbn [negb]. rewrite Ip.
  destruct T as [(ir0 & H0 & L0) TB]. assert (T : top (irr c) L) by (split; [exists ir0; auto|exact TB]). destruct (proj2 (check_arg (irr c) p a) (conj F (ex_intro _ ir0 H0))) as (b & ->). cbn [bind].
  set (r := regroup_irreps (irr c)) in *. set (w := map (fun l => (1%nat, Irrep l (ppow p l))) (ls r)).
  assert (Lw : ls w = ls r) by apply (ls_ones (fun l => ppow p l)).
  assert (Tw : top w L). { assert (Tr : top r L) by (apply top_regroup, T). pose proof (top_max r L Tr) as M. pose proof (top_bound r L Tr) as B. destruct (proj1 Tr) as (ir & Hi & El). split.
    - exists (Irrep L (ppow p L)). split; [|reflexivity]. apply has_flat. unfold w, flat. apply in_flat_map. exists (1%nat, Irrep L (ppow p L)). split; [|left; reflexivity]. apply in_map_iff. exists L. split; [reflexivity|]. rewrite ls_flat, <- El. apply in_map, has_flat, Hi.
    - intros ir' H. apply has_flat in H. unfold w, flat in H. apply in_flat_map in H as (m & I & J). apply in_map_iff in I as (l & <- & I). cbn [repeat] in J. destruct J as [<-|[]]. cbn [ir_l]. rewrite Forall_forall in B. apply B, I. }
  destruct (sh_yields auto (OutList (ls r)) (InIrreps pt) true Integral None p w (Cp : well_formed (InIrreps pt))) as (sh & Es & S1 & S2 & S3 & S4); [exists p; split; [exact Ip|reflexivity]|exact Ip|apply natural_list|right; split; [reflexivity|apply configured_iff, U]|].
  rewrite Es. cbn [bind]. rewrite S1, (lmax_top w L Tw). cbn [bind fst].
  set (g := fun i => [rsum (dim r) (fun k => nth k (rowof w (fun k0 u j => entry w (arr sh (unravel (lead pt) (ravel (lead c' ++ lead pt) i / prod (lead c'))%nat)) k0 u j * norm_to_s2 L n (deg w k0))) 0 * nth k (arr c' (unravel (lead c') (ravel (lead c' ++ lead pt) i mod prod (lead c'))%nat)) 0)]).
  rewrite <- E2. refine (yields_ext _ _ _ g _ _ (new_yields [(1%nat, Irrep 0 a)] (lead c' ++ lead pt) g (fun _ _ => eq_refl))). unfold g. intros i Vi. apply (f_equal (fun z : R => z :: nil)).
  destruct (split_index _ _ _ Vi) as [B1 B2]. unfold from_coeffs, from_point. rewrite <- E2. set (ip := unravel (lead pt) _). set (ic := unravel (lead c') _). assert (Vp : valid (lead pt) ip) by apply unravel_valid, B1. assert (Vc : valid (lead c') ic) by apply unravel_valid, B2.
  assert (Vc0 : valid (lead c) ic) by (rewrite <- E2; exact Vc).
  rewrite <- (expansion_regroup _ (irr c)) by (apply Cc, Vc0). fold r. change (sort_row (irr c) (arr c ic)) with (concat (map (fun k => nth k (blocks (irr c) (arr c ic)) []) (sort_inv_list (irr c)))). rewrite <- (E4 ic Vc0).
  rewrite <- expansion_coeffs by (rewrite <- E1; apply E3; exact Vc). rewrite num_ls. apply rsum_ext. intros k Hk. rewrite <- (num_ls r) in Hk.
  rewrite (rowof_ext w _ (fun k0 u j => (fun q => value Integral true (arr pt ip) (fst q) (snd q) * norm_to_s2 L n (fst q)) (deg w k0, j))).
  - rewrite (rowof_decode w (fun q => value Integral true (arr pt ip) (fst q) (snd q) * norm_to_s2 L n (fst q))), Lw. cbv beta. rewrite (nth_tab _ (fun i0 => value Integral true (arr pt ip) (fst (decode (ls r) i0)) (snd (decode (ls r) i0)) * norm_to_s2 L n (fst (decode (ls r) i0))) k 0 Hk). unfold Yval, order_of. destruct (decode_spec _ _ Hk) as [_ D]. replace (Z.to_nat (Z.of_nat (snd (decode (ls r) k)) - Z.of_nat (fst (decode (ls r) k)) + Z.of_nat (fst (decode (ls r) k)))) with (snd (decode (ls r) k)) by lia. ring.
  - intros k0 u j Hin. cbn [fst snd]. f_equal. rewrite (S4 ip Vp). exact (entry_rowof w (fun k1 u0 j0 => value Integral true (arr pt ip) (deg w k1) j0) k0 u j Hin).
Qed.
Lemma trivial_split c pt i1 i2 : prod (lead c) = 1%nat \/ prod (lead pt) = 1%nat -> valid (lead c) i1 -> valid (lead pt) i2 -> from_coeffs c pt (i1 ++ i2) = i1 /\ from_point c pt (i1 ++ i2) = i2.
Proof.
  intros H V1 V2. unfold from_coeffs, from_point. rewrite ravel_app by exact V1. pose proof (ravel_bound _ _ V1) as B1. pose proof (ravel_bound _ _ V2) as B2. destruct H as [E|E].
  - rewrite E in *. assert (Z : ravel (lead c) i1 = 0%nat) by lia. rewrite Z, Nat.mod_1_r, Nat.div_1_r. cbn [Nat.mul Nat.add]. split; [|apply unravel_ravel, V2]. rewrite <- Z. apply unravel_ravel, V1.
  - rewrite E in *. assert (Z : ravel (lead pt) i2 = 0%nat) by lia. rewrite Z, Nat.mul_1_r, Nat.add_0_r, Nat.mod_small, Nat.div_small by exact B1. split; [apply unravel_ravel, V1|]. rewrite <- Z. apply unravel_ravel, V2.
Qed.
Lemma expansion_value n x row pt r y alpha : coordinates pt r y alpha -> r <> 0 -> expansion n x row (Yval pt) = value_at n x row y alpha.
Proof.
  intros C N. unfold expansion, value_at. apply rsum_ext. intros k _. apply rsum_ext. intros u _. apply rsum_ext. intros j Hj. f_equal. unfold Yval. rewrite Z.sub_add, Nat2Z.id. apply (value_polar' pt r); assumption.
Qed.

(* ---- theorems ---- *)
(* to_s2point at a direction (in the polar coordinates of C52) is the function of to_s2grid there, with p_val the parity of its values; for one function at many points, or many functions at one point *)
Theorem C45_to_s2point auto c pt n p a L : coherent c -> coherent pt -> irr pt = [(1%nat, Irrep 1 p)] -> top (irr c) L -> singles (irr c) -> form (irr c) a p -> configured auto (irr c) ->
  prod (lead c) = 1%nat \/ prod (lead pt) = 1%nat ->
  exists z, to_s2point auto c pt n = Ok z /\ irr z = [(1%nat, Irrep 0 a)] /\ lead z = lead c ++ lead pt /\ coherent z /\
    forall i1 i2 r y alpha, valid (lead c) i1 -> valid (lead pt) i2 -> coordinates (arr pt i2) r y alpha -> r <> 0 -> arr z (i1 ++ i2) = [value_at (norm_to_s2 L n) (irr c) (arr c i1) y alpha].
Proof.
  intros Cc Cp Ip T Sg F U Tr. destruct (point_eval auto c pt n p a L Cc Cp Ip T Sg F U) as (z & E & Z1 & Z2 & Z3 & Z4). exists z. do 4 (split; [assumption|]). intros i1 i2 r y alpha V1 V2 Hc Nr. rewrite Z4 by (apply valid_app; assumption).
  destruct (trivial_split c pt i1 i2 Tr V1 V2) as [-> ->]. apply (f_equal (fun z : R => z :: nil)). apply (expansion_value _ _ _ _ r); assumption.
Qed.
(* in particular at the points of the grid it agrees with to_s2grid *)
Theorem C45_to_s2point_on_grid auto lg c pt n B A q fft p_val p_arg s z i u v : coherent c -> coherent pt -> lead pt = [] -> to_s2grid lg c B A q n fft p_val p_arg = Ok s -> (forall L, fft = true -> top (irr c) L -> (2 * L + 1 <= A)%nat) ->
  to_s2point auto c pt n = Ok z -> valid (lead c) i -> (u < B)%nat -> (v < A)%nat -> coordinates (arr pt []) 1 (height lg q B u) (2 * PI * INR v / INR A) ->
  irr pt = [(1%nat, Irrep 1 (g_parg s))] -> configured auto (irr c) ->
  arr z i = [g_val s i u v] /\ irr z = [(1%nat, Irrep 0 (g_pval s))].
Proof.
  intros Cc Cp Lp Eg Hf Ez Vi Hu Hv Hc Ip Ok'. destruct (to_facts _ _ _ _ _ _ _ _ _ _ Cc Eg) as (L & a & b & T & Sg & P & Q & Ff).
  destruct (C45_to_s2grid lg c B A q n fft p_val p_arg a b L Cc T Sg P Q (fun F => conj (Ff F) (Hf L F T))) as (s' & E' & _ & _ & _ & _ & G1 & G2 & G). assert (s' = s) by congruence. subst s'.
  assert (Fm : form (irr c) a b). { apply of_form_regroup. pose proof P as P'. apply parities_spec in P' as [_ P']. destruct (C44_check_parities (regroup_irreps (irr c)) p_val p_arg) as (_ & _ & C). destruct (C _ _ P') as ((a0 & b0 & H) & Gv & _). destruct (Gv _ _ H) as [Ga Gb]. cbn [given] in Ga, Gb. subst. apply H. }
  assert (P1 : prod (lead pt) = 1%nat) by (rewrite Lp; reflexivity). assert (V0 : valid (lead pt) []) by (rewrite Lp; constructor).
  rewrite G2 in Ip. destruct (C45_to_s2point auto c pt n b a L Cc Cp Ip T Sg Fm Ok' (or_intror P1)) as (z' & E & Z1 & Z2 & _ & Z4). assert (z' = z) by congruence. subst z'. rewrite G1. split; [|exact Z1].
  specialize (Z4 i [] 1 _ _ Vi V0 Hc ltac:(lra)). rewrite app_nil_r in Z4. rewrite Z4, G by assumption. reflexivity.
Qed.
(* when neither leading shape is trivial the values are computed but stored in the wrong places: einsum gives (point, coeffs) and is reshaped as (coeffs, point) *)
Theorem C45_to_s2point_refuted : exists c pt z i1 i2, coherent c /\ coherent pt /\ irr c = [(1%nat, Irrep 0 Even)] /\ irr pt = [(1%nat, Irrep 1 Odd)] /\ to_s2point None c pt Integral = Ok z /\ valid (lead c) i1 /\ valid (lead pt) i2 /\
  (exists r y alpha, r <> 0 /\ coordinates (arr pt i2) r y alpha) /\
  forall r y alpha, coordinates (arr pt i2) r y alpha -> r <> 0 -> arr z (i1 ++ i2) <> [value_at (norm_to_s2 0 Integral) (irr c) (arr c i1) y alpha].
Proof.
  pose (c := IA [(1%nat, Irrep 0 Even)] [2%nat] (fun i => [match i with [0%nat] => 1 | _ => 0 end]) None None).
  pose (pt := IA [(1%nat, Irrep 1 Odd)] [3%nat] (fun _ => [0; 1; 0]) None None).
  assert (Cc : coherent c) by (split; [intros i V; reflexivity|split; [apply flags_false|exact Logic.I]]).
  assert (Cp : coherent pt) by (split; [intros i V; reflexivity|split; [apply flags_false|exact Logic.I]]).
  assert (H0 : forall ir, has (irr c) ir -> ir = Irrep 0 Even) by (intros ir H; apply has_flat in H; cbn in H; destruct H as [<-|[]]; reflexivity).
  assert (H1 : has (irr c) (Irrep 0 Even)) by (apply has_flat; left; reflexivity).
  destruct (point_eval None c pt Integral Odd Even 0 Cc Cp eq_refl) as (z & E & Z1 & Z2 & Z3 & Z4).
  - split; [exists (Irrep 0 Even); auto|]. intros ir H. rewrite (H0 ir H). cbn. lia.
  - intros ir. cbn. destruct (irrep_eqb _ _); cbn; lia.
  - intros ir H. rewrite (H0 ir H). reflexivity.
  - exact Logic.I.
  - exists c, pt, z, [0%nat], [1%nat]. do 5 (split; [assumption || reflexivity|]). split; [repeat constructor|]. split; [repeat constructor|].
    split; [destruct (C52_coordinates_exist (arr pt [1%nat]) eq_refl) as (r & y & al & H); exists r, y, al; split; [|exact H]; intros ->; destruct H as (_ & _ & H); cbn in H; injection H as _ H _; lra|].
    intros r y alpha Hc Nr. change [0%nat; 1%nat] with ([0%nat] ++ [1%nat]). rewrite Z4 by (cbn; repeat constructor). intros Q. assert (Q' : expansion (norm_to_s2 0 Integral) (irr c) (arr c (from_coeffs c pt ([0%nat] ++ [1%nat]))) (Yval (arr pt (from_point c pt ([0%nat] ++ [1%nat])))) = value_at (norm_to_s2 0 Integral) (irr c) (arr c [0%nat]) y alpha) by congruence.
    change (from_coeffs c pt ([0%nat] ++ [1%nat])) with [1%nat] in Q'. set (w := Yval _) in Q'. unfold expansion, value_at in Q'. change (length (irr c)) with 1%nat in Q'. cbn [rsum] in Q'. change (S2Proofs2.mult (irr c) 0) with 1%nat in Q'. change (2 * deg (irr c) 0 + 1)%nat with 1%nat in Q'. cbn [rsum] in Q'. change (deg (irr c) 0) with 0%nat in Q'.
    change (entry (irr c) (arr c [1%nat]) 0 0 0) with 0 in Q'. change (entry (irr c) (arr c [0%nat]) 0 0 0) with 1 in Q'. change (Z.of_nat 0 - Z.of_nat 0)%Z with 0%Z in Q'. rewrite harmonic_Ylm in Q' by (cbn; lia). unfold Ylm in Q'. change (Z.abs_nat 0) with 0%nat in Q'. rewrite sh_beta_00 in Q'. change (TrigProofs.trig 0 alpha) with 1 in Q'. assert (SP : 0 < sqrt (4 * PI)) by (apply sqrt_lt_R0; pose proof PI_RGT_0; lra). replace (0 + (0 + (0 + _))) with 0 in Q' by ring.
    pose proof (Rinv_0_lt_compat _ SP). match type of Q' with 0 = ?b => assert (b = 1) end; [|lra]. unfold norm_to_s2. field. lra.
Qed.
(* what to_s2point accepts *)
Theorem C45_to_s2point_accepts auto c pt n : coherent c -> coherent pt ->
  (exists z, to_s2point auto c pt n = Ok z) <->
  (exists L, top (irr c) L) /\ singles (irr c) /\ (exists p a, irr pt = [(1%nat, Irrep 1 p)] /\ form (irr c) a p) /\ configured auto (irr c).
Proof.
  intros Cc Cp. split.
  - intros [z H]. unfold to_s2point in H. destruct (ia_regroup_yields c Cc) as (c' & Ec & E1 & E2 & E3 & E4). rewrite Ec in H. cbn [bind] in H. rewrite E1 in H.
    destruct (all_ones (regroup_irreps (irr c))) eqn:O; [|discriminate]. cbn [negb] in H. apply regroup_all_ones in O.
    destruct (irr pt) as [|[[|[|]] [[|[|]] p]] [|]] eqn:Ip; try discriminate.
    destruct (check_parities _ _ _) as [[[a|] b]|] eqn:Ck; cbn [bind fst] in H; [| |discriminate].
    + destruct (proj1 (check_arg (irr c) p a) (ex_intro _ b Ck)) as [F (ir & Hi)].
      destruct (spherical_harmonics _ _ _ _ _ _) as [sh|] eqn:Sh; cbn [bind] in H; [|discriminate].
      split; [|split; [exact O|split; [exists p, a; auto|]]].
      * destruct (max_of (ls (regroup_irreps (irr c)))) as [L|] eqn:M.
        -- exists L. apply top_regroup. pose proof (max_of_in _ _ M) as IM. pose proof (max_of_bound _ _ M) as BM. rewrite ls_flat in IM, BM. apply in_map_iff in IM as (ir1 & Q2 & IM). rewrite Forall_map, Forall_forall in BM. split; [exists ir1; split; [apply has_flat, IM|exact Q2]|intros ir' H'; apply BM, has_flat, H'].
        -- exfalso. destruct (ls (regroup_irreps (irr c))) eqn:Q; [|discriminate M]. rewrite ls_flat in Q. apply map_eq_nil in Q. apply has_regroup, has_flat in Hi. rewrite Q in Hi. exact Hi.
      * destruct (sh_accepts_inv _ _ _ _ _ _ _ Sh) as (q & x & Rq & V & N & U). cbn [requests] in Rq. destruct Rq as (p' & Ip' & ->). assert (p' = p) by congruence. subst p'. apply (configured_iff auto (irr c) p). destruct U as [U|[_ U]]; [|exact U].
        exfalso. apply has_regroup, has_flat in Hi. assert (I : In (ir_l ir) (ls (regroup_irreps (irr c)))) by (rewrite ls_flat; apply in_map, Hi). destruct (ls (regroup_irreps (irr c))); [exact I|]. cbn in U. discriminate.
    + exfalso. destruct (spherical_harmonics _ _ _ _ _ _) as [sh|]; [|discriminate]. cbn [bind] in H. destruct (lmax (irr sh)); discriminate.
  - intros ([L T] & Sg & (p & a & Ip & F) & U). destruct (point_eval auto c pt n p a L Cc Cp Ip T Sg F U) as (z & E & _). exists z. exact E.
Qed.

(* ---- s2_dirac ---- *)
Lemma map_rowof (f : R -> R) x F : map f (rowof x F) = rowof x (fun k u j => f (F k u j)).
Proof.
  revert F. induction x as [|[m ir] x IH]; intros F; [reflexivity|]. cbn [rowof]. rewrite map_app, (IH (fun k => F (S k))). f_equal. rewrite concat_map. f_equal. unfold tab2, tab. rewrite map_map. apply map_ext. intros u. apply map_map.
Qed.
Lemma s2_natural L p : natural p (s2_irreps L Even p).
Proof. unfold natural, s2_irreps. rewrite Forall_map. apply Forall_forall. intros l _. reflexivity. Qed.
Lemma dirac_eval auto pos L p : well_formed pos -> vector_of_parity pos p -> width_of pos = 3%nat -> usable auto None (s2_irreps L Even p) ->
  yields (s2_dirac auto pos L Even p) (s2_irreps L Even p) (shape_of pos) (fun i => rowof (s2_irreps L Even p) (fun k u j => value Integral true (points pos i) (deg (s2_irreps L Even p) k) j / sqrt (4 * PI))).
Proof.
  intros W V D U. unfold s2_dirac. destruct (sh_yields auto (OutIrreps (s2_irreps L Even p)) pos true Integral None p (s2_irreps L Even p) W eq_refl V (s2_natural L p) (or_intror (conj D U))) as (z & E & Z1 & Z2 & Z3 & Z4). rewrite E. cbn [bind].
  assert (N : flat (irr z) <> []) by (rewrite Z1; destruct (s2_top L Even p) as (((ir & H & _) & _) & _); intros Q; apply has_flat in H; rewrite Q in H; exact H).
  assert (Bs : broadcast_shapes (lead z) [] = Ok (lead z)) by apply broadcast_nil.
  rewrite <- Z1. rewrite <- Z2. refine (yields_ext _ _ _ _ _ _ (scale_yields Rdiv z [] (fun _ => sqrt (4 * PI)) (lead z) Z3 N Bs _)).
  - intros i Vi. rewrite bidx_id by exact Vi. rewrite Z4 by (rewrite <- Z2; exact Vi). rewrite Z1. apply map_rowof.
  - intros i _. apply Rmult_0_l.
Qed.
Lemma s2_inside L p k j : (k < L + 1)%nat -> (j < 2 * k + 1)%nat -> inside (s2_irreps L Even p) k 0 j.
Proof. intros Hk Hj. exists 1%nat, (Irrep k (pmul Even (ppow p k))). split; [destruct (C44_s2_irreps L Even p) as (_ & N & _); apply N; lia|]. split; [lia|exact Hj]. Qed.
Lemma dirac_entry L p (v : list R) k j : (k < L + 1)%nat -> (j < 2 * k + 1)%nat -> entry (s2_irreps L Even p) (rowof (s2_irreps L Even p) (fun k u j => value Integral true v (deg (s2_irreps L Even p) k) j / sqrt (4 * PI))) k 0 j = value Integral true v k j / sqrt (4 * PI).
Proof. intros Hk Hj. rewrite (entry_rowof (s2_irreps L Even p) (fun k u j => value Integral true v (deg (s2_irreps L Even p) k) j / sqrt (4 * PI))) by (apply s2_inside; assumption). unfold deg. rewrite nth_s2 by exact Hk. reflexivity. Qed.
Lemma len2_len x : length x = 3%nat -> len2 x = len x ^ 2.
Proof. intros L. rewrite len_sq, (row3 x L). unfold len2, lsum, fn. cbn [fold_right nth rsum]. ring. Qed.
Lemma unit_fn x k : length x = 3%nat -> len x <> 0 -> fn (normalized x) k = fn x k / len x.
Proof.
  intros L N. rewrite fn_normalized, len2_len by exact L. assert (P : 0 <= len x) by apply sqrt_pos. destruct (Req_EM_T (len x ^ 2) 0) as [Z|_]; [exfalso; apply N; nra|]. replace (len x ^ 2) with (len x * len x) by ring. rewrite sqrt_square by exact P. unfold Rdiv. ring.
Qed.
Lemma unit_sq x : length x = 3%nat -> len x <> 0 -> rsum 3 (fun k => fn (normalized x) k ^ 2) = 1.
Proof. intros L N. rewrite (rsum_ext _ _ (fun k => fn x k ^ 2 * / len x ^ 2)) by (intros k _; rewrite unit_fn by assumption; field; exact N). rewrite rsum_scal_r, <- len_sq. field. exact N. Qed.
Lemma coordinates_len v r y alpha : coordinates v r y alpha -> len v = r.
Proof. intros (Hr & Hy & ->). unfold len. cbn [nth]. rewrite sq_norm by exact Hy. apply sqrt_pow2, Hr. Qed.
(* the coefficients of s2_dirac: for every accepted call with even values, one coefficient per l <= lmax and order, whose function has integral one over the sphere and is, at the angle theta from the position, sum_l (2 l + 1) / (4 pi) P_l(cos theta) *)
Theorem C45_s2_dirac auto pos L p : well_formed pos -> vector_of_parity pos p -> width_of pos = 3%nat -> usable auto None (s2_irreps L Even p) ->
  exists z, s2_dirac auto pos L Even p = Ok z /\ irr z = s2_irreps L Even p /\ lead z = shape_of pos /\ coherent z /\
    forall i, valid (lead z) i ->
      RInt (fun alpha => RInt (fun y => value_at (norm_to_s2 L Integral) (irr z) (arr z i) y alpha) (-1) 1) 0 (2 * PI) = 1 /\
      forall v r y alpha c, coordinates v r y alpha -> r <> 0 -> len (points pos i) <> 0 -> inner v (points pos i) = len v * len (points pos i) * c ->
        value_at (norm_to_s2 L Integral) (irr z) (arr z i) y alpha = rsum (L + 1) (fun l => (2 * INR l + 1) / (4 * PI) * legendre_polynomial l c).
Proof.
  intros W V D U. destruct (dirac_eval auto pos L p W V D U) as (z & E & Z1 & Z2 & Z3 & Z4). exists z. do 4 (split; [assumption|]). intros i Vi. rewrite Z1. rewrite Z4 by (rewrite <- Z2; exact Vi). set (row := rowof _ _).
  pose proof PI_RGT_0 as Pp. assert (SP : 0 < sqrt (4 * PI)) by (apply sqrt_lt_R0; lra). assert (SS : sqrt (4 * PI) * sqrt (4 * PI) = 4 * PI) by (apply sqrt_sqrt; lra). split.
  - rewrite (RInt_ext _ (fun alpha => RInt (fun y => expansion (norm_to_s2 L Integral) (s2_irreps L Even p) row (fun l m => Ylm l m y alpha)) (-1) 1)) by (intros alpha _; apply RInt_ext; intros y _; apply value_expansion).
    rewrite expansion_integral by apply rowof_length. rewrite expansion_s2.
    rewrite (rsum_ext _ _ (fun l => (if (0 =? l)%nat then 1 else 0) * 1)); [exact (rsum_delta_r (L + 1) 0 (fun _ => 1) ltac:(lia))|]. intros l Hl. destruct l as [|l].
    + cbn [Nat.mul Nat.add rsum Nat.eqb]. change (Z.of_nat 0 - Z.of_nat 0)%Z with 0%Z. cbn [Z.eqb andb]. unfold row. rewrite dirac_entry by lia. unfold value, norm_to_s2. rewrite P_0. unfold kappa. cbn [INR]. replace (sqrt ((2 * 0 + 1) / (4 * PI))) with (/ sqrt (4 * PI)); [|rewrite <- sqrt_inv; f_equal; field; lra]. rewrite Rplus_0_l. field. lra.
    + rewrite rsum_zero by (intros j _; cbn [Nat.eqb andb]; ring). cbn [Nat.eqb]. ring.
  - intros v r y alpha c Hv Nr Np Hc. rewrite <- (expansion_value _ _ _ v r) by assumption. rewrite expansion_s2. apply rsum_ext. intros l Hl. rewrite (rsum_ext _ _ (fun j => (2 * INR l + 1) / (4 * PI) * (P l (fn (normalized (points pos i))) j * P l (fn (normalized v)) j))).
    + rewrite rsum_scal. f_equal. transitivity (1 ^ l * 1 ^ l * legendre_polynomial l c); [|rewrite !pow1; ring].
      assert (Lv : length v = 3%nat) by (destruct Hv as (_ & _ & ->); reflexivity). assert (Lp : length (points pos i) = 3%nat) by (rewrite <- D; destruct pos as [a|s d a]; cbn [points width_of shape_of] in *; [destruct W as [W _]; rewrite W by (rewrite <- Z2; exact Vi); rewrite V; reflexivity|apply W; rewrite <- Z2; exact Vi]).
      assert (Nv : len v <> 0) by (rewrite (coordinates_len _ _ _ _ Hv); exact Nr). apply addition; try lra.
      * rewrite (unit_sq (points pos i)) by assumption. ring.
      * rewrite (unit_sq v) by assumption. ring.
      * rewrite (rsum_ext _ _ (fun k => fn v k * fn (points pos i) k * / (len v * len (points pos i)))) by (intros k _; rewrite !unit_fn by assumption; field; split; assumption). rewrite rsum_scal_r. replace (rsum 3 (fun k => fn v k * fn (points pos i) k)) with (inner v (points pos i)) by (unfold inner, fn; cbn [rsum]; ring). rewrite Hc. field. split; assumption.
    + intros j Hj. unfold row. rewrite dirac_entry by assumption. unfold Yval. rewrite Z.sub_add, Nat2Z.id. unfold value. pose proof (kappa_sq Integral l) as K. cbn [square_constant] in K. rewrite <- K. unfold norm_to_s2. field. lra.
Qed.
(* non-trivial instances: a bare position, any lmax *)
Example s2_dirac_case : exists z, s2_dirac None (InArray [] 3 (fun _ => [1; 2; 3])) 4 Even Odd = Ok z.
Proof. destruct (C45_s2_dirac None (InArray [] 3 (fun _ => [1; 2; 3])) 4 Odd) as (z & E & _); [intros i _; reflexivity|exact Logic.I|reflexivity|exact Logic.I|]. exists z. exact E. Qed.
(* with p_val = -1 (documented as possible) s2_dirac never succeeds: it asks spherical_harmonics for an odd scalar *)
Theorem C45_s2_dirac_odd_refuted auto pos L p z : s2_dirac auto pos L Odd p <> Ok z.
Proof.
  unfold s2_dirac. destruct (spherical_harmonics _ _ _ _ _ _) as [w|] eqn:E; [|discriminate]. exfalso. destruct (sh_accepts_inv _ _ _ _ _ _ _ E) as (q & x & Rq & _ & N & _). cbn [requests] in Rq. subst x. unfold natural in N. rewrite Forall_forall in N.
  specialize (N (1%nat, Irrep 0 Odd)). cbn [snd ir_p ir_l ppow] in N. discriminate N. apply (nth_error_In _ 0). destruct (C44_s2_irreps L Odd p) as (_ & Hn & _). rewrite Hn by lia. reflexivity.
Qed.
