(* C46 continued: O(3), training histories, masks, rejections, examples.  C47: dropout.  C53: configuration. *)
From Coq Require Import Reals Lra String.
From Verif Require Import PyBase PermModel PermProofs IrrepsModel IrrepsProofs IrrepsProofs2 ArrayModel ArrayProofs ArrayOps RechunkProofs SliceProofs SliceProofs2 ArithProofs LeadModel LeadProofs BlockProofs AxisProofs StackProofs BilinProofs ActProofs EquivProofs EquivProofs2 LinearProofs RotationModel RotationProps CGModel WignerModel WignerProofs2 WignerProps WignerProps2 ActivationModel ActivationProofs GateProofs NormActProofs ActivationProps NormModel NormProofs NormProps.
Open Scope R_scope.

(* a rotation or reflection of the input does the same to the output and leaves the running statistics unchanged *)
Theorem C46_O3 : forall g r x B size, orthogonal3 r -> coherent x -> lead x = B :: size -> fits g B (irr x) ->
  exists y st x' y', batch_norm g x = Ok (y, st) /\ transform_by_matrix x r = Ok x' /\ batch_norm g x' = Ok (y', st) /\ agree (transform_by_matrix y r) (Ok y').
Proof.
  intros g r x B size O H EL F. destruct (C46_equivariant g (rep_of r) x B size) as (y & st & x' & y' & E); auto using rep_of_orthogonal; [apply as_rep_ok| |].
  - intros t. rewrite (rep_of_scalar r O). unfold matvec, dotR, zipR. cbn. f_equal. ring.
  - exists y, st, x', y'. rewrite !by_matrix. exact E.
Qed.

(* ---------- running statistics ---------- *)
Lemma between m a b : 0 <= m <= 1 -> Rmin a b <= (1 - m) * a + m * b <= Rmax a b.
Proof. intros H. unfold Rmin, Rmax. destruct (Rle_dec a b); nra. Qed.
(* with a momentum in [0, 1] the new running statistics lie between the old ones and those of the batch *)
Theorem C46_running_convex : forall g x B size y ms vs j spread, coherent x -> lead x = B :: size -> (0 < prod size)%nat -> fits g B (irr x) -> 0 <= momentum g <= 1 ->
  batch_norm g x = Ok (y, Some (ms, vs)) -> (j < num_irreps (irr x))%nat -> flag_at x j = false ->
  let scalar := ir_is_scalar (ir_at (irr x) j) in let k := even_rank (irr x) j in let om := opt_nth (ra_mean g) k in let ov := opt_nth (ra_var g) j in
  is_spread g B (prod size) scalar om (sample_copy x size j) spread ->
  Rmin ov (average g B spread) <= nth j vs 0 <= Rmax ov (average g B spread) /\
  (scalar = true -> Rmin om (average g B (mean_of (prod size) (sample_copy x size j))) <= nth k ms 0 <= Rmax om (average g B (mean_of (prod size) (sample_copy x size j)))).
Proof.
  intros g x B size y ms vs j spread H EL Hn F Hm E Hj Fl. cbv zeta. intros Hs. destruct (C46_batch_norm g x B size H EL Hn F) as (y' & st' & E' & _ & _ & _ & _ & _ & V). rewrite E in E'. injection E' as <- <-. specialize (V j Hj). cbv zeta in V. rewrite Fl in V.
  destruct (V spread Hs) as (_ & V2). destruct (V2 ms vs eq_refl) as (-> & V3). split; [apply between, Hm|]. intros Sc. rewrite (V3 Sc). apply between, Hm.
Qed.
Lemma average_nonneg g B f : (forall b, (b < B)%nat -> 0 <= weight_of g b) -> (forall b, (b < B)%nat -> 0 <= f b) -> 0 <= average g B f.
Proof.
  intros W Hf. unfold average. assert (A : 0 <= total B (fun b => f b * weight_of g b)) by (apply total_nonneg; intros; apply Rmult_le_pos; auto). assert (T : 0 <= total B (weight_of g)) by (apply total_nonneg, W).
  destruct (Req_dec (total B (weight_of g)) 0) as [Z|Z]; [rewrite Z; unfold Rdiv; rewrite Rinv_0; lra|]. apply div_nonneg; lra.
Qed.
Lemma size2_nonneg g B n sc om v b s : 0 <= size2 g B n sc om v b s.
Proof.
  unfold size2. assert (A : 0 <= fold_right Rplus 0 (map (fun t => (t - mu g B n sc om v b) ^ 2) (v b s))). { induction (v b s) as [|t u IH]; [cbn; lra|]. cbn [map fold_right]. pose proof (pow2_ge_0 (t - mu g B n sc om v b)). lra. }
  destruct (bn_norm g); try (apply div_nonneg; lra). destruct (v b s) as [|t u]; [cbn; unfold Rdiv; rewrite Rmult_0_l; lra|]. apply div_nonneg; [exact A|]. apply lt_0_INR. cbn. lia.
Qed.
Lemma spread_nonneg g B n sc om v spread b : (0 < n)%nat -> is_spread g B n sc om v spread -> (b < B)%nat -> 0 <= spread b.
Proof.
  intros Hn Hs Hb. specialize (Hs b Hb). assert (A : 0 <= total n (size2 g B n sc om v b) / INR n). { apply div_nonneg; [apply total_nonneg; intros; apply size2_nonneg|apply lt_0_INR, Hn]. }
  destruct (bn_reduce g); [lra| |lra]. destruct Hs as ((k & Hk & ->) & _). apply size2_nonneg.
Qed.

(* training: the running statistics returned for one batch are the ones passed with the next *)
Definition with_stats (g : bn_args) (ms vs : list R) : bn_args :=
  BN (Some ms) (Some vs) (bn_weight g) (bn_bias g) (bn_norm g) (bn_reduce g) (is_instance g) (use_running_average g) (use_affine g) (momentum g) (epsilon g) (bn_mask g).
Fixpoint train (g : bn_args) (xs : list iarray) : res bn_args :=
  match xs with
  | [] => Ok g
  | x :: xs => let! z := batch_norm g x in match snd z with Some (ms, vs) => train (with_stats g ms vs) xs | None => train g xs end
  end.
Definition batch_of (g : bn_args) (I : irreps) (x : iarray) : Prop := coherent x /\ irr x = I /\ exists B size, lead x = B :: size /\ (0 < prod size)%nat /\ mask_fits g B /\ forall b, (b < B)%nat -> 0 <= weight_of g b.
Definition vars_nonneg (g : bn_args) : Prop := forall vs, ra_var g = Some vs -> Forall (fun t => 0 <= t) vs.
Lemma fits_batch g B B' x : mask_fits g B' -> fits g B x -> fits g B' x.
Proof. intros M [A1 A2 A3 A4 A5 A6 A7 A8 A9 A10]. split; auto. Qed.
Lemma vars_step g x B size y ms vs : coherent x -> lead x = B :: size -> (0 < prod size)%nat -> fits g B (irr x) -> (forall b, (b < B)%nat -> 0 <= weight_of g b) -> 0 <= momentum g <= 1 -> vars_nonneg g ->
  batch_norm g x = Ok (y, Some (ms, vs)) -> Forall (fun t => 0 <= t) vs.
Proof.
  intros H EL Hn F W Hm Hv E. destruct (C46_batch_norm g x B size H EL Hn F) as (y' & st' & E' & _ & _ & _ & _ & ST & V). rewrite E in E'. injection E' as <- <-. destruct ST as (NI & _ & Lv).
  apply Forall_forall. intros t Ht. destruct (In_nth _ _ 0 Ht) as (j & Hj & <-). rewrite Lv in Hj. specialize (V j Hj). cbv zeta in V. destruct (flag_at x j).
  - destruct V as (_ & V). destruct (V ms vs eq_refl) as (-> & _). lra.
  - destruct (C46_spread_exists g B (prod size) (ir_is_scalar (ir_at (irr x) j)) (opt_nth (ra_mean g) (even_rank (irr x) j)) (sample_copy x size j) (f_mask _ _ _ F) Hn) as (spread & Hs). destruct (V spread Hs) as (_ & V2). destruct (V2 ms vs eq_refl) as (-> & _). unfold next_var.
    assert (A : 0 <= average g B spread) by (apply average_nonneg; [exact W|]; intros; eapply spread_nonneg; eassumption).
    assert (O : 0 <= opt_nth (ra_var g) j). { destruct (f_running _ _ _ F (or_introl NI)) as (_ & N). destruct (ra_var g) as [l|] eqn:Ev; [|contradiction]. cbn [opt_nth]. specialize (Hv l Ev). assert (Ll := f_var _ _ _ F l Ev). rewrite Forall_forall in Hv. apply Hv, nth_In. lia. }
    assert (0 <= (1 - momentum g) * opt_nth (ra_var g) j) by (apply Rmult_le_pos; lra). assert (0 <= momentum g * average g B spread) by (apply Rmult_le_pos; lra). lra.
Qed.
(* After any sequence of training batches every call succeeds, the arguments still fit, and the running variances are never negative,
   so that for 0 < epsilon <= 1 no later call with the running statistics divides by zero. *)
Theorem C46_training_history : forall g I B xs, is_instance g = false -> 0 <= momentum g <= 1 -> fits g B I -> vars_nonneg g -> Forall (batch_of g I) xs ->
  exists g', train g xs = Ok g' /\ (forall B', mask_fits g' B' -> fits g' B' I) /\ vars_nonneg g' /\
    (0 < epsilon g <= 1 -> forall v, In v (match ra_var g' with Some vs => vs | None => [] end) -> 0 < (1 - epsilon g') * v + epsilon g').
Proof.
  intros g I B xs NI Hm F Hv Hx. revert g B NI Hm F Hv Hx. induction xs as [|x xs IH]; intros g B NI Hm F Hv Hx.
  - exists g. split; [reflexivity|]. split; [intros B' M; eapply fits_batch; eassumption|]. split; [exact Hv|]. intros He v Iv. destruct (ra_var g) as [vs|] eqn:Ev; [|contradiction]. specialize (Hv vs Ev). rewrite Forall_forall in Hv. specialize (Hv v Iv). assert (0 <= (1 - epsilon g) * v) by (apply Rmult_le_pos; lra). lra.
  - inversion Hx as [|? ? (H & EI & B1 & size & EL & Hn & M & W) Hx']; subst. pose proof (fits_batch g B B1 (irr x) M F) as F1. destruct (C46_batch_norm g x B1 size H EL Hn F1) as (y & st & E & _ & _ & _ & _ & ST & V). destruct st as [(ms, vs)|]; [|congruence]. destruct ST as (_ & L1 & L2).
    cbn [train]. rewrite E. cbn [bind snd]. pose proof (vars_step g x B1 size y ms vs H EL Hn F1 W Hm Hv E) as Hv'.
    destruct (IH (with_stats g ms vs) B1) as (g' & T & G1 & G2 & G3); try assumption.
    + destruct F1 as [A1 A2 A3 A4 A5 A6 A7 A8 A9 A10]. split; auto; try (intros; split; discriminate).
      * intros l [= <-]. exact L1.
      * intros l [= <-]. exact L2.
    + intros l [= <-]. exact Hv'.
    + exists g'. split; [exact T|]. split; [exact G1|]. split; [exact G2|]. exact G3.
Qed.

(* ---------- masks ---------- *)
Definition with_mask (g : bn_args) (m : option (list R)) : bn_args :=
  BN (ra_mean g) (ra_var g) (bn_weight g) (bn_bias g) (bn_norm g) (bn_reduce g) (is_instance g) (use_running_average g) (use_affine g) (momentum g) (epsilon g) m.
(* a mask of ones is the same as no mask *)
Theorem C46_mask_of_ones : forall g x B size, coherent x -> lead x = B :: size -> fits (with_mask g None) B (irr x) ->
  exists y st y', batch_norm (with_mask g None) x = Ok (y, st) /\ batch_norm (with_mask g (Some (repeat 1 B))) x = Ok (y', st) /\ agree (Ok y) (Ok y').
Proof.
  intros g x B size H EL F. assert (Lf : length (zero_flags x) = length (irr x)) by (eapply flags_ok_length, H). set (g0 := with_mask g None) in *. set (g1 := with_mask g (Some (repeat 1 B))).
  assert (F1 : fits g1 B (irr x)). { destruct F as [A1 A2 A3 A4 A5 A6 A7 A8 A9 A10]. split; auto. intros _. cbn. apply repeat_length. }
  assert (AV : forall f, batch_avg g0 B f = batch_avg g1 B f).
  { intros f. rewrite !average_avg by (exact I || (cbn; apply repeat_length)). unfold average. replace (total B (weight_of g0)) with (total B (weight_of g1)); [f_equal|]; apply total_ext; intros b Hb; cbn; rewrite nth_repeat_lt by exact Hb; reflexivity. }
  assert (MN : forall n c, batch_mean g0 B n c = batch_mean g1 B n c).
  { intros n c. rewrite !batch_mean_average by (exact I || (cbn; apply repeat_length)). rewrite <- !average_avg by (exact I || (cbn; apply repeat_length)). apply AV. }
  assert (CE : forall n sc rm c b s, centered g0 B n sc rm c b s = centered g1 B n sc rm c b s).
  { intros. unfold centered, used_mean. change (use_running_average g1) with (use_running_average g0). change (is_instance g1) with (is_instance g0). rewrite MN. reflexivity. }
  assert (RE : forall n sc rm c b, reduced g0 B n sc rm c b = reduced g1 B n sc rm c b).
  { intros. unfold reduced. change (bn_reduce g1) with (bn_reduce g0). replace (map (norm_squared g1 B n sc rm c b) (seq 0 n)) with (map (norm_squared g0 B n sc rm c b) (seq 0 n)); [reflexivity|]. apply map_ext. intros s. unfold norm_squared. change (bn_norm g1) with (bn_norm g0). rewrite CE. reflexivity. }
  assert (BV : forall n sc rm c, batch_var g0 B n sc rm c = batch_var g1 B n sc rm c).
  { intros. unfold batch_var. rewrite <- AV. apply batch_avg_ext. intros. apply RE. }
  destruct (batch_norm_spec g0 x B size H EL (fits_ready _ _ _ _ F Lf)) as (y & E & I1 & L1 & H1 & Z1 & V).
  destruct (batch_norm_spec g1 x B size H EL (fits_ready _ _ _ _ F1 Lf)) as (y' & E' & I1' & L1' & H1' & Z1' & V').
  exists y, (bn_stats g0 B (prod size) (irr x) (zero_flags x) (bs_row size (arr x))), y'. split; [exact E|]. split.
  - rewrite E'. f_equal. f_equal. unfold bn_stats. change (is_instance g1) with (is_instance g0). destruct (is_instance g0); [reflexivity|]. f_equal. f_equal; apply map_ext; intros j.
    + unfold out_mean. destruct (nth j _ false); [reflexivity|]. unfold new_mean, roll_avg. rewrite MN. reflexivity.
    + unfold out_var. destruct (nth j _ false); [reflexivity|]. unfold new_var, roll_avg. rewrite BV. reflexivity.
  - exists (irr x), (lead x), (arr y). split; [exists y; split; [reflexivity|]; split; [exact I1|]; split; [exact L1|]; split; [exact H1|reflexivity]|]. exists y'. split; [reflexivity|]. split; [exact I1'|]. split; [exact L1'|]. split; [exact H1'|].
    intros i Hi. rewrite EL in Hi. destruct i as [|b i]; [inversion Hi|]. rewrite V, V' by exact Hi. unfold out_row. f_equal. apply map_ext. intros j. unfold out_copy. destruct (nth j _ false); [reflexivity|]. unfold bn_copy, factor, used_var. rewrite CE, RE, BV. reflexivity.
Qed.

(* ---------- rejections ---------- *)
Theorem C46_rejects_scalars_without_batch : forall g x, lead x = [] -> batch_norm g x = Err ValueError.
Proof. intros g x E. unfold batch_norm. rewrite E. reflexivity. Qed.
(* success implies that the given arrays have the lengths the irreps require *)
Lemma triple {A B C} (a a' : A) (b b' : B) (c c' : C) : a = a' -> b = b' -> c = c' -> (a, b, c) = (a', b', c').
Proof. congruence. Qed.
Lemma bn_loop_indices g B n : forall l w r b cs ms vs n', bn_loop g B n l w r b = Ok (cs, ms, vs, n') -> n' = ((w + num_irreps (map fst l))%nat, (r + evens (flat (map fst l)))%nat, if use_affine g then (b + evens (flat (map fst l)))%nat else b).
Proof.
  induction l as [|[[mul ir] c] l IH]; intros w r b cs ms vs n' E.
  - cbn in E. injection E as <- <- <- <-. cbn. rewrite !Nat.add_0_r. destruct (use_affine g); reflexivity.
  - assert (A1 : num_irreps (map fst ((mul, ir, c) :: l)) = (mul + num_irreps (map fst l))%nat) by reflexivity. assert (A2 : evens (flat (map fst ((mul, ir, c) :: l))) = ((if ir_is_scalar ir then mul else 0) + evens (flat (map fst l)))%nat).
    { cbn [map fst]. rewrite flat_cons. unfold evens. rewrite filter_app, app_length, filter_repeat. destruct (ir_is_scalar ir); [rewrite repeat_length|]; reflexivity. }
    rewrite A1, A2. clear A1 A2. cbn [bn_loop] in E. destruct c as [c|].
    + destruct (bn_reads g B (ir_is_scalar ir)) as [[]|]; cbn [bind] in E; [|discriminate]. destruct (bn_loop g B n l _ _ _) as [[[[cs' ms'] vs'] n'']|] eqn:El; cbn [bind] in E; [|discriminate]. injection E as <- <- <- <-. rewrite (IH _ _ _ _ _ _ _ El). destruct (ir_is_scalar ir), (use_affine g); cbn [andb]; apply triple; lia.
    + destruct (bn_loop g B n l _ _ _) as [[[[cs' ms'] vs'] n'']|] eqn:El; cbn [bind] in E; [|discriminate]. injection E as <- <- <- <-. rewrite (IH _ _ _ _ _ _ _ El). destruct (ir_is_scalar ir), (use_affine g); cbn [andb]; apply triple; lia.
Qed.
Theorem C46_success_implies_lengths : forall g x y st, coherent x -> batch_norm g x = Ok (y, st) ->
  given_length (bn_weight g) (num_irreps (irr x)) /\ given_length (ra_var g) (num_irreps (irr x)) /\ given_length (ra_mean g) (evens (flat (irr x))) /\
  given_length (bn_bias g) (if use_affine g then evens (flat (irr x)) else 0%nat) /\ (is_instance g = true <-> st = None).
Proof.
  intros g x y st H E. unfold batch_norm in E. destruct (lead x) as [|B size] eqn:EL; [discriminate|].
  assert (P1 : prod [B; prod size] = prod (lead x)) by (rewrite EL, !prod_cons; change (prod []) with 1%nat; lia).
  destruct (reshape_yields x [B; prod size] H P1) as (x1 & E1 & I1 & L1 & H1 & A1). rewrite E1 in E. cbn [bind] in E.
  destruct (bn_loop g B (prod size) (combine (irr x1) (chunks x1)) 0 0 0) as [[[[cs ms] vs] n']|] eqn:El; cbn [bind] in E; [|discriminate]. pose proof (bn_loop_indices _ _ _ _ _ _ _ _ _ _ _ El) as N.
  rewrite combine_map_fst in N by (symmetry; apply chunks_length, H1). rewrite I1 in N. subst n'. cbn [Nat.add] in E. rewrite <- !len_ok_given.
  destruct (len_ok (bn_weight g) (num_irreps (irr x))); cbn [assert bind] in E; [|discriminate]. destruct (len_ok (ra_var g) (num_irreps (irr x))); cbn [assert bind] in E; [|discriminate].
  destruct (len_ok (bn_bias g) (if use_affine g then evens (flat (irr x)) else 0%nat)); cbn [assert bind] in E; [|discriminate]. destruct (len_ok (ra_mean g) (evens (flat (irr x)))); cbn [assert bind] in E; [|discriminate].
  split; [reflexivity|]. split; [reflexivity|]. split; [reflexivity|]. split; [reflexivity|].
  destruct (from_chunks _ _ _ _) as [y1|]; cbn [bind] in E; [|discriminate]. destruct (ia_reshape y1 _) as [y2|]; cbn [bind] in E; [|discriminate].
  destruct (is_instance g); [injection E as <- <-; split; reflexivity|]. destruct (irr x1); [discriminate|]. injection E as <- <-. split; discriminate.
Qed.

(* ---------- examples ---------- *)
Definition bn_example : bn_args := BN (Some [1]) (Some [1; 2]) (Some [1; 3]) (Some [5]) NComponent RMean false false true (1 / 10) (1 / 100) None.
Definition x_example : iarray := IA [(1%nat, Irrep 0 Even); (1%nat, Irrep 1 Odd)] [2; 1]%nat (fun i => match i with [0; _] => [1; 2; 0; 0] | _ => [3; 0; 1; 1] end) None None.
Example C46_example_fits : fits bn_example 2 (irr x_example) /\ coherent x_example /\ lead x_example = [2; 1]%nat /\ Forall (batch_of bn_example (irr x_example)) [x_example; x_example] /\ vars_nonneg bn_example /\ 0 <= momentum bn_example <= 1.
Proof.
  assert (C : coherent x_example).
  { split; [|split; [apply flags_false|exact Logic.I]]. intros i V. destruct (valid2_inv _ _ i V) as (b & s & -> & Hb & Hs). cbn. destruct b; reflexivity. }
  assert (Bt : batch_of bn_example (irr x_example) x_example). { split; [exact C|]. split; [reflexivity|]. exists 2%nat, [1%nat]. split; [reflexivity|]. split; [cbn; lia|]. split; [exact Logic.I|]. intros. cbn. lra. }
  split; [|split; [exact C|split; [reflexivity|split; [apply Forall_cons; [exact Bt|apply Forall_cons; [exact Bt|apply Forall_nil]]|split; [|cbn; lra]]]]].
  - split; cbn; try discriminate; try (intros; split; discriminate); try (intros; exact Logic.I); intros l [= <-]; reflexivity.
  - intros l [= <-]. repeat constructor; lra.
Qed.

(* The offset is not applied to a chunk recorded as zero, and its running statistics are reset to mean 0 and variance 1 whatever the momentum:
   two inputs with the same values but different bookkeeping get different outputs and statistics. *)
Definition bn_affine : bn_args := BN (Some [4]) (Some [9]) (Some [1]) (Some [5]) NComponent RMean false false true 0 1 None.
Definition x_dense : iarray := IA [(1%nat, Irrep 0 Even)] [1]%nat (fun _ => [0]) None None.
Definition x_zero : iarray := IA [(1%nat, Irrep 0 Even)] [1]%nat (fun _ => [0]) (Some [true]) None.
Lemma valid1 i : valid [1%nat] i -> i = [0%nat].
Proof. intros V. inversion V as [|b ? i1 ? Hb V1]; subst. inversion V1; subst. f_equal. lia. Qed.
Theorem C46_independent_of_zero_flags_refuted : coherent x_dense /\ coherent x_zero /\ (forall i, arr x_dense i = arr x_zero i) /\ momentum bn_affine = 0 /\
  (exists y ms vs, batch_norm bn_affine x_dense = Ok (y, Some (ms, vs)) /\ copy_of y 0 [0%nat] = [5] /\ nth 0 ms 0 = 4 /\ nth 0 vs 0 = 9) /\
  (exists y ms vs, batch_norm bn_affine x_zero = Ok (y, Some (ms, vs)) /\ copy_of y 0 [0%nat] = [0] /\ nth 0 ms 0 = 0 /\ nth 0 vs 0 = 1).
Proof.
  assert (C1 : coherent x_dense) by (split; [intros i V; reflexivity|split; [apply flags_false|exact Logic.I]]).
  assert (C2 : coherent x_zero) by (split; [intros i V; reflexivity|split; [split; [intros _ i V; reflexivity|exact Logic.I]|exact Logic.I]]).
  assert (F : fits bn_affine 1 [(1%nat, Irrep 0 Even)]) by (split; cbn; try discriminate; try (intros; split; discriminate); try (intros; exact Logic.I); intros l [= <-]; reflexivity).
  assert (V0 : valid [1%nat] [0%nat]) by (constructor; [lia|constructor]).
  split; [exact C1|]. split; [exact C2|]. split; [reflexivity|]. split; [reflexivity|]. split.
  - destruct (C46_batch_norm bn_affine x_dense 1 [] C1 eq_refl ltac:(cbn; lia) F) as (y & st & E & _ & _ & _ & _ & ST & V). destruct st as [(ms, vs)|]; [|discriminate]. exists y, ms, vs. split; [exact E|]. specialize (V 0%nat ltac:(cbn; lia)). cbv zeta in V. change (flag_at x_dense 0) with false in V. cbv iota in V.
    destruct (C46_spread_exists bn_affine 1 (prod []) (ir_is_scalar (ir_at (irr x_dense) 0)) (opt_nth (ra_mean bn_affine) (even_rank (irr x_dense) 0)) (sample_copy x_dense [] 0) (fun _ => Logic.I) ltac:(cbn; lia)) as (spread & Hs). destruct (V spread Hs) as (V1 & V2). destruct (V2 ms vs eq_refl) as (V3 & V4). split; [|split].
    + rewrite (V1 0%nat [] V0). unfold normalised, mu, average, total, mean_of, total, weight_of. cbn -[sqrt]. match goal with |- [?t] = _ => assert (Q : t = 5) end; [|rewrite Q; reflexivity]. match goal with |- context [sqrt ?u] => replace u with 1 by ring end. rewrite sqrt_1. field.
    + pose proof (V4 eq_refl) as V5. change (even_rank (irr x_dense) 0) with 0%nat in V5. rewrite V5. unfold next_mean. cbn [momentum bn_affine ra_mean opt_nth nth]. ring.
    + rewrite V3. unfold next_var. cbn [momentum bn_affine ra_var opt_nth nth]. ring.
  - destruct (C46_batch_norm bn_affine x_zero 1 [] C2 eq_refl ltac:(cbn; lia) F) as (y & st & E & _ & _ & _ & _ & ST & V). destruct st as [(ms, vs)|]; [|discriminate]. exists y, ms, vs. split; [exact E|]. specialize (V 0%nat ltac:(cbn; lia)). cbv zeta in V. change (flag_at x_zero 0) with true in V. cbv iota in V. destruct V as (V1 & V2). destruct (V2 ms vs eq_refl) as (V3 & V4). split; [exact (V1 0%nat [] V0)|]. split; [exact (V4 eq_refl)|exact V3].
Qed.

(* ---------- C47: dropout ---------- *)
(* a random draw of one Bernoulli value per copy of each chunk *)
Definition draws_ok (draw : nat -> list bool) : Prop := forall n, length (draw n) = n.
(* which copies are kept: jax.random.bernoulli is called with the same key for every chunk, so the draw depends on the multiplicity only *)
Definition kept (draw : nat -> list bool) (x : irreps) : list bool := flat_map (fun m => draw (fst m)) x.
Definition scale_copy (p : R) (b : bool) (v : list R) : list R := map (fun t => t * (if b then 1 / (1 - p) else 0)) v.
Lemma zipR_split a b c d : length a = length c -> zipR Rmult (a ++ b) (c ++ d) = zipR Rmult a c ++ zipR Rmult b d.
Proof. revert c. induction a as [|u a IH]; intros [|w c] L; try discriminate; [reflexivity|]. unfold zipR in *. cbn [app combine map]. rewrite IH by (cbn in L; lia). reflexivity. Qed.
Lemma zipR_repeat v k : zipR Rmult v (repeat k (length v)) = map (fun t => t * k) v.
Proof. unfold zipR. induction v as [|t v IH]; [reflexivity|]. cbn [length repeat combine map]. rewrite IH. reflexivity. Qed.
Lemma zipR_blocks p d : forall bs b, length b = (length bs * d)%nat -> zipR Rmult b (flat_map (fun b : bool => repeat ((if b then 1 else 0) / (1 - p)) d) bs) = concat (map2 (scale_copy p) bs (group_rows (length bs) d b)).
Proof.
  induction bs as [|k bs IH]; intros b L; [destruct b; [reflexivity|discriminate]|]. cbn [length flat_map]. rewrite group_rows_S, map2_cons. cbn [concat]. cbn [length] in L. rewrite <- IH by (rewrite skipn_length; lia).
  rewrite <- (firstn_skipn d b) at 1. assert (Lf : length (firstn d b) = d) by (rewrite firstn_length; lia). rewrite zipR_split by (rewrite repeat_length; exact Lf). f_equal. rewrite <- Lf at 2. rewrite zipR_repeat. unfold scale_copy. apply map_ext. intros t. destruct k; unfold Rdiv; ring.
Qed.
Lemma scale_zero p b n : scale_copy p b (zero_row n) = zero_row n.
Proof. unfold scale_copy, zero_row. rewrite map_repeat, Rmult_0_l. reflexivity. Qed.
Lemma scale_zeros p bs d : concat (map2 (scale_copy p) bs (zeros_rows (length bs) d)) = zero_row (length bs * d).
Proof.
  unfold zeros_rows. induction bs as [|b bs IH]; [reflexivity|]. cbn [length repeat]. rewrite map2_cons. cbn [concat]. rewrite IH. change (repeat 0 d) with (zero_row d). rewrite scale_zero. unfold zero_row. rewrite <- repeat_app. f_equal.
Qed.
Lemma zipR_zero b n : zipR Rmult b (repeat 0 n) = zero_row (min (length b) n).
Proof. unfold zipR. revert n. induction b as [|t b IH]; intros [|n]; try reflexivity. cbn [repeat combine map length Nat.min]. rewrite IH, Rmult_0_r. reflexivity. Qed.
Section Drop.
Variables (p : R) (draw : nat -> list bool).
Hypothesis Hp : 0 < p < 1.
Hypothesis HB : draws_ok draw.
Lemma noise_case m c : dropout_noise p draw m c = match c with None => (true, repeat 0 (mi_dim m)) | Some _ => (false, flat_map (fun b : bool => repeat ((if b then 1 else 0) / (1 - p)) (ir_dim (snd m))) (draw (fst m))) end.
Proof. destruct m as [mul ir]. unfold dropout_noise. rewrite (Rltb_true p 1), (Rltb_true 0 p) by lra. reflexivity. Qed.
Lemma noise_length m c : length (snd (dropout_noise p draw m c)) = mi_dim m.
Proof.
  rewrite noise_case. destruct c; cbn [snd]; [|apply repeat_length]. unfold mi_dim. rewrite <- (HB (fst m)) at 2. induction (draw (fst m)) as [|b bs IH]; [reflexivity|]. cbn [flat_map length]. rewrite app_length, repeat_length, IH. reflexivity.
Qed.
Lemma drop_row s : forall x fl cs a i, chunks_ok s x fl cs a -> flags_ok s x fl a -> valid s i -> length (a i) = dim x ->
  zipR Rmult (a i) (concat (map snd (map (fun '(m, c) => dropout_noise p draw m c) (combine x cs)))) = concat (map2 (scale_copy p) (kept draw x) (instances x (a i))).
Proof.
  induction x as [|m x IH]; intros fl cs a i C F V L.
  - destruct (a i); [reflexivity|discriminate].
  - destruct fl as [|f fl]; [contradiction|]. destruct cs as [|c cs]; [contradiction|]. destruct C as (C0 & C). destruct F as (F0 & F). rewrite dim_cons in L.
    assert (Lf : length (firstn (mi_dim m) (a i)) = mi_dim m) by (rewrite firstn_length; lia).
    cbn [combine map concat]. rewrite <- (firstn_skipn (mi_dim m) (a i)) at 1. rewrite zipR_split by (rewrite noise_length; exact Lf).
    assert (IH' := IH fl cs (fun i => skipn (mi_dim m) (a i)) i C F V ltac:(cbv beta; rewrite skipn_length; lia)). cbv beta in IH'. rewrite IH'. clear IH IH'.
    assert (EI : instances (m :: x) (a i) = group_rows (fst m) (ir_dim (snd m)) (firstn (mi_dim m) (a i)) ++ instances x (skipn (mi_dim m) (a i))) by (destruct m; reflexivity). rewrite EI.
    change (kept draw (m :: x)) with (draw (fst m) ++ kept draw x). rewrite map2_app by (rewrite group_rows_length; apply HB). rewrite concat_app. f_equal. rewrite noise_case. destruct c as [c|]; cbn [snd].
    + rewrite zipR_blocks by (rewrite HB; exact Lf). rewrite HB. reflexivity.
    + cbn in C0. rewrite F0 by (exact C0 || exact V). rewrite zipR_zero. assert (Lz : length (zero_row (mi_dim m)) = mi_dim m) by apply repeat_length. rewrite Lz, Nat.min_id. unfold mi_dim. rewrite group_rows_zero. pose proof (scale_zeros p (draw (fst m)) (ir_dim (snd m))) as Q. rewrite HB in Q. symmetry. exact Q.
Qed.
Lemma drop_flags s : forall x fl cs a b, chunks_ok s x fl cs a -> (forall i, valid s i -> length (a i) = dim x) -> (forall i, valid s i -> b i = zipR Rmult (a i) (concat (map snd (map (fun '(m, c) => dropout_noise p draw m c) (combine x cs))))) ->
  flags_ok s x (map fst (map (fun '(m, c) => dropout_noise p draw m c) (combine x cs))) b.
Proof.
  induction x as [|m x IH]; intros fl cs a b C L E.
  - destruct fl, cs; try contradiction. exact Logic.I.
  - destruct fl as [|f fl]; [contradiction|]. destruct cs as [|c cs]; [contradiction|]. destruct C as (C0 & C). cbn [combine map] in *. cbn [flags_ok].
    assert (S : forall i, valid s i -> b i = zipR Rmult (firstn (mi_dim m) (a i)) (snd (dropout_noise p draw m c)) ++ zipR Rmult (skipn (mi_dim m) (a i)) (concat (map snd (map (fun '(m, c) => dropout_noise p draw m c) (combine x cs))))).
    { intros i V. rewrite E by exact V. specialize (L i V). rewrite dim_cons in L. rewrite <- (firstn_skipn (mi_dim m) (a i)) at 1. cbn [concat]. apply zipR_split. rewrite noise_length, firstn_length. lia. }
    assert (Lz : forall i, valid s i -> length (zipR Rmult (firstn (mi_dim m) (a i)) (snd (dropout_noise p draw m c))) = mi_dim m). { intros i V. specialize (L i V). rewrite dim_cons in L. unfold zipR. rewrite map_length, combine_length, noise_length, firstn_length. lia. }
    split.
    + intros Fl i V. rewrite S by exact V. rewrite firstn_length_app by (apply Lz, V). rewrite noise_case in Fl |- *. destruct c; [discriminate|]. cbn [snd]. rewrite zipR_zero. specialize (L i V). rewrite dim_cons in L. rewrite firstn_length. f_equal. lia.
    + apply (IH fl cs (fun i => skipn (mi_dim m) (a i))); [exact C| |].
      * intros i V. specialize (L i V). rewrite dim_cons in L. rewrite skipn_length. lia.
      * intros i V. rewrite S by exact V. apply skipn_length_app, Lz, V.
Qed.
End Drop.

Lemma dropout_yields p draw x : 0 < p < 1 -> draws_ok draw -> coherent x -> irr x <> [] ->
  yields (dropout p None draw true x) (irr x) (lead x) (fun i => concat (map2 (scale_copy p) (kept draw (irr x)) (instances (irr x) (arr x i)))).
Proof.
  intros Hp HB H NE. unfold dropout. cbn [negb bind]. set (z := map (fun '(m, c) => dropout_noise p draw m c) (combine (irr x) (chunks x))).
  pose proof (chunks_chunks_ok x H) as C. assert (Lz : length z = length (irr x)) by (unfold z; rewrite map_length, combine_length, chunks_length by exact H; lia).
  assert (NZ : z <> []) by (intros E; rewrite E in Lz; destruct (irr x); [contradiction|discriminate]).
  assert (RW : forall i, valid (lead x) i -> zipR Rmult (arr x i) (concat (map snd z)) = concat (map2 (scale_copy p) (kept draw (irr x)) (instances (irr x) (arr x i)))) by (intros i Hi; eapply drop_row; try eassumption; apply H; exact Hi).
  assert (LL : forall i, valid (lead x) i -> length (zipR Rmult (arr x i) (concat (map snd z))) = dim (irr x)).
  { intros i Hi. rewrite zipR_length, (proj1 H) by exact Hi. assert (Q : length (concat (map snd z)) = dim (irr x)); [|lia]. unfold z. clear - H Hp HB. pose proof (chunks_length x H) as L. revert L. generalize (irr x) (chunks x). clear - Hp HB. intros y. induction y as [|m y IH]; intros [|c cs] L; try discriminate; [reflexivity|]. cbn [combine map concat]. rewrite app_length, noise_length, dim_cons, IH by (try assumption; cbn in L; lia). reflexivity. }
  destruct z as [|z0 z'] eqn:Ez; [contradiction|]. rewrite <- Ez in *. apply (yields_ext _ _ _ (fun i => zipR Rmult (arr x i) (concat (map snd z)))); [exact RW|]. apply build_yields.
  - exact LL.
  - apply (drop_flags p draw Hp HB (lead x) (irr x) (zero_flags x) (chunks x) (arr x)); [exact C|apply H|]. intros i Hi. fold z. rewrite Ez. reflexivity.
  - exact Logic.I.
Qed.
Definition target_of (t : option irreps) (x : iarray) : irreps := match t with None => irr x | Some t => t end.
Lemma dropout_target p t draw x : dropout p t draw true x = let! x := match t with None => Ok x | Some t => rechunk x t end in dropout p None draw true x.
Proof. reflexivity. Qed.
Lemma chunked t x : coherent x -> simplify (irr x) = simplify (target_of t x) -> yields (match t with None => Ok x | Some t => rechunk x t end) (target_of t x) (lead x) (arr x).
Proof. intros H E. destruct t as [t|]; [apply rechunk_yields; assumption|]. exists x. repeat split; try reflexivity; apply H. Qed.
Lemma kept_length draw x : draws_ok draw -> length (kept draw x) = num_irreps x.
Proof. intros HB. induction x as [|m x IH]; [reflexivity|]. change (kept draw (m :: x)) with (draw (fst m) ++ kept draw x). rewrite app_length, HB, IH. reflexivity. Qed.
Lemma scaled_widths p x bs rows : length bs = num_irreps x -> Forall2 (fun ir r => length r = ir_dim ir) (flat x) rows -> Forall2 (fun ir r => length r = ir_dim ir) (flat x) (map2 (scale_copy p) bs rows).
Proof.
  rewrite <- flat_length. intros L F. revert bs L. induction F as [|ir r l rows E F IH]; intros [|b bs] L; try discriminate; [constructor|]. rewrite map2_cons. constructor; [unfold scale_copy; rewrite map_length; exact E|]. apply IH. cbn in L. lia.
Qed.
(* every copy, in every row, is multiplied by 0 or by 1/(1-p): one draw per copy, the same for all rows *)
Theorem C47_dropout : forall p t draw x, 0 < p < 1 -> draws_ok draw -> coherent x -> simplify (irr x) = simplify (target_of t x) -> target_of t x <> [] ->
  exists y, dropout p t draw true x = Ok y /\ irr y = target_of t x /\ lead y = lead x /\ coherent y /\
    forall i, valid (lead x) i -> forall j, (j < num_irreps (target_of t x))%nat ->
      nth j (instances (irr y) (arr y i)) [] = scale_copy p (nth j (kept draw (target_of t x)) false) (nth j (instances (target_of t x) (arr x i)) []).
Proof.
  intros p t draw x Hp HB H E NE. rewrite dropout_target. destruct (chunked t x H E) as (x1 & -> & I1 & L1 & H1 & A1). cbn [bind]. destruct (dropout_yields p draw x1 Hp HB H1 ltac:(rewrite I1; exact NE)) as (y & E1 & I2 & L2 & H2 & A2). exists y. split; [exact E1|]. split; [congruence|]. split; [congruence|]. split; [exact H2|].
  intros i Hi j Hj. rewrite <- L1 in Hi. rewrite I2, A2 by exact Hi. rewrite I1 in *. rewrite L1 in Hi. rewrite A1 by exact Hi.
  assert (W : Forall2 (fun ir r => length r = ir_dim ir) (flat (target_of t x)) (instances (target_of t x) (arr x i))). { rewrite instances_cut. apply cut_widths. rewrite dims_flat, <- A1 by exact Hi. rewrite <- I1. apply H1. rewrite L1. exact Hi. }
  rewrite instances_concat by (apply scaled_widths; [apply kept_length, HB|exact W]). apply nth_map2; [rewrite kept_length by exact HB; exact Hj|]. rewrite kept_length by exact HB. rewrite instances_cut, cut_length, flat_length. reflexivity.
Qed.
Theorem C47_identity_when_not_training : forall p t draw x, dropout p t draw false x = Ok x.
Proof. reflexivity. Qed.
Lemma z_nonempty {A} (f : mulirrep * option chunk -> A) x : coherent x -> irr x <> [] -> map f (combine (irr x) (chunks x)) <> [].
Proof. intros H NE E. apply (f_equal (@length _)) in E. rewrite map_length, combine_length, chunks_length, Nat.min_id in E by exact H. destruct (irr x); [contradiction|discriminate]. Qed.
Lemma noise_const p draw x (f : bool) k : coherent x -> (forall m c, dropout_noise p draw m c = (f, repeat k (mi_dim m))) -> irr x <> [] ->
  dropout p None draw true x = mkIA (irr x) (lead x) (dim (irr x)) (fun i => zipR Rmult (arr x i) (repeat k (dim (irr x)))) (Some (repeat f (length (irr x)))) None.
Proof.
  intros H E NE. unfold dropout. cbn [negb bind].
  assert (Q : map snd (map (fun '(m, c) => dropout_noise p draw m c) (combine (irr x) (chunks x))) = map (fun m => repeat k (mi_dim m)) (irr x) /\ map fst (map (fun '(m, c) => dropout_noise p draw m c) (combine (irr x) (chunks x))) = repeat f (length (irr x))).
  { pose proof (chunks_length x H) as L. revert L. generalize (irr x) (chunks x). clear - E. intros y. induction y as [|m y IH]; intros [|c cs] L; try discriminate; [split; reflexivity|]. cbn [combine map length repeat]. rewrite E. cbn [fst snd]. destruct (IH cs) as (Q1 & Q2); [cbn in L; lia|]. rewrite Q1, Q2. split; reflexivity. }
  destruct Q as (Q1 & Q2). pose proof (z_nonempty (fun '(m, c) => dropout_noise p draw m c) x H NE) as NZ. destruct (map _ (combine (irr x) (chunks x))) as [|z0 z'] eqn:Ez; [contradiction|]. rewrite Q1, Q2. f_equal. apply FunctionalExtensionality.functional_extensionality. intros i. f_equal. clear. induction (irr x) as [|m y IH]; [reflexivity|]. cbn [map concat]. rewrite IH, dim_cons, repeat_app. reflexivity.
Qed.
Lemma dropout_small p draw x : p <= 0 -> coherent x -> irr x <> [] -> yields (dropout p None draw true x) (irr x) (lead x) (arr x).
Proof.
  intros Hp H NE. rewrite (noise_const p draw x false 1); [|exact H| |exact NE].
  - apply (yields_ext _ _ _ (fun i => zipR Rmult (arr x i) (repeat 1 (dim (irr x))))).
    + intros i Hi. rewrite <- (proj1 H i Hi). rewrite zipR_repeat. rewrite <- (map_id (arr x i)) at 2. apply map_ext. intros. ring.
    + apply build_yields; [|apply flags_false|exact Logic.I]. intros i Hi. rewrite zipR_length, repeat_length, (proj1 H i Hi). lia.
  - intros [mul ir] c. unfold dropout_noise. rewrite (Rltb_true p 1), (Rltb_false 0 p) by lra. reflexivity.
Qed.
Lemma flags_true s : forall y a, (forall i, valid s i -> a i = zero_row (dim y)) -> flags_ok s y (repeat true (length y)) a.
Proof.
  induction y as [|m y IH]; intros a E; [exact Logic.I|]. cbn [length repeat flags_ok]. rewrite dim_cons in E. split.
  - intros _ i Hi. rewrite E by exact Hi. unfold zero_row. rewrite repeat_app. apply firstn_length_app, repeat_length.
  - apply IH. intros i Hi. rewrite E by exact Hi. unfold zero_row. rewrite repeat_app. apply skipn_length_app, repeat_length.
Qed.
Lemma dropout_large p draw x : 1 <= p -> coherent x -> irr x <> [] -> yields (dropout p None draw true x) (irr x) (lead x) (fun _ => zero_row (dim (irr x))).
Proof.
  intros Hp H NE. rewrite (noise_const p draw x true 0); [|exact H| |exact NE].
  - assert (E : forall i, valid (lead x) i -> zipR Rmult (arr x i) (repeat 0 (dim (irr x))) = zero_row (dim (irr x))) by (intros i Hi; rewrite zipR_zero, (proj1 H i Hi), Nat.min_id; reflexivity).
    apply (yields_ext _ _ _ (fun i => zipR Rmult (arr x i) (repeat 0 (dim (irr x))))); [exact E|].
    apply build_yields; [| |exact Logic.I]; [intros i Hi; rewrite E by exact Hi; apply repeat_length|]. apply flags_true, E.
  - intros [mul ir] c. unfold dropout_noise. rewrite (Rltb_false p 1) by lra. reflexivity.
Qed.
Theorem C47_identity_when_p_is_0 : forall p t draw x, p <= 0 -> coherent x -> simplify (irr x) = simplify (target_of t x) -> target_of t x <> [] ->
  yields (dropout p t draw true x) (target_of t x) (lead x) (arr x).
Proof.
  intros p t draw x Hp H E NE. rewrite dropout_target. apply (yields_bind _ _ _ _ (dropout p None draw true) _ _ _ (chunked t x H E)). intros y _ I1 L1 H1 A1. rewrite <- I1, <- L1. apply (yields_ext _ _ _ (arr y)); [intros i Hi; apply A1; rewrite <- L1; exact Hi|]. apply dropout_small; try assumption. rewrite I1. exact NE.
Qed.
Theorem C47_zero_when_p_is_1 : forall p t draw x, 1 <= p -> coherent x -> simplify (irr x) = simplify (target_of t x) -> target_of t x <> [] ->
  yields (dropout p t draw true x) (target_of t x) (lead x) (fun _ => zero_row (dim (irr x))).
Proof.
  intros p t draw x Hp H E NE. rewrite dropout_target. apply (yields_bind _ _ _ _ (dropout p None draw true) _ _ _ (chunked t x H E)). intros y _ I1 L1 H1 A1. rewrite <- I1, <- L1. apply (yields_ext _ _ _ (fun _ => zero_row (dim (irr y)))); [|apply dropout_large; try assumption; rewrite I1; exact NE].
  intros i Hi. f_equal. rewrite I1. rewrite <- !dims_flat. f_equal. symmetry. apply simplify_iff, E.
Qed.
(* whatever the probability and the draw, dropout commutes with the action of any representation *)
Theorem C47_commutes : forall p t draw training D x, rep_ok D -> draws_ok draw -> coherent x -> simplify (irr x) = simplify (target_of t x) -> target_of t x <> [] ->
  agree (let! y := dropout p t draw training x in transform D y) (let! y := transform D x in dropout p t draw training y).
Proof.
  intros p t draw training D x HD HB H E NE. destruct training; [|].
  2:{ change (let! y := dropout p t draw false x in transform D y) with (transform D x). destruct (transform_act D x H HD) as (x' & E' & R). exists (irr x), (lead x), (fun i => act D (irr x) (arr x i)). split; [exists x'; auto|]. rewrite E'. cbn [bind]. exists x'. auto. }
  apply (commute D (dropout p t draw true) x (target_of t x) (lead x) (fun a i => if Rlt_dec 0 p then if Rlt_dec p 1 then concat (map2 (scale_copy p) (kept draw (target_of t x)) (instances (target_of t x) (a i))) else zero_row (dim (irr x)) else a i)); auto.
  - intros y Hy E1 E2 _. assert (ET : target_of t y = target_of t x) by (destruct t; [reflexivity|exact E1]). assert (E3 : simplify (irr y) = simplify (target_of t y)) by (rewrite ET, E1; exact E). assert (NE' : target_of t y <> []) by (rewrite ET; exact NE). rewrite <- ET, <- E2. destruct (Rlt_dec 0 p); [destruct (Rlt_dec p 1)|].
    + rewrite dropout_target. apply (yields_bind _ _ _ _ (dropout p None draw true) _ _ _ (chunked t y Hy E3)). intros z _ I1 L1 H1 A1. rewrite <- I1, <- L1. apply (yields_ext _ _ _ (fun i => concat (map2 (scale_copy p) (kept draw (irr z)) (instances (irr z) (arr z i))))).
      * intros i Hi. rewrite A1 by (rewrite <- L1; exact Hi). reflexivity.
      * apply dropout_yields; auto. rewrite I1. exact NE'.
    + rewrite <- E1. apply C47_zero_when_p_is_1; auto. lra.
    + apply C47_identity_when_p_is_0; auto. lra.
  - intros a b i Hi Eab. rewrite Eab by exact Hi. reflexivity.
  - intros a i Hi La. specialize (La i Hi). assert (EF : flat (target_of t x) = flat (irr x)) by (symmetry; apply simplify_iff, E).
    assert (EA : forall row, act D (target_of t x) row = act D (irr x) row) by (intros row; unfold act; rewrite EF; reflexivity).
    destruct (Rlt_dec 0 p); [destruct (Rlt_dec p 1)|].
    + rewrite EA. unfold act. rewrite !instances_cut, EF, cut_acts by exact HD. assert (W : Forall2 (fun ir r => length r = ir_dim ir) (flat (irr x)) (cut (flat (irr x)) (a i))) by (apply cut_widths; rewrite dims_flat; exact La).
      assert (LK : length (kept draw (target_of t x)) = length (flat (irr x))) by (rewrite kept_length by exact HB; rewrite <- EF, flat_length; reflexivity). revert LK W. generalize (kept draw (target_of t x)) (flat (irr x)) (cut (flat (irr x)) (a i)). clear - HD. intros bs l rows LK W.
      rewrite acts_concat.
      * f_equal. revert bs LK. induction W as [|ir v l rows L W IH]; intros [|b bs] LK; try discriminate; [reflexivity|]. rewrite !map2_cons. f_equal; [|apply IH; cbn in LK; lia]. unfold mv, scale_copy. apply matvec_scale.
      * revert bs LK. induction W as [|ir v l rows L W IH]; intros [|b bs] LK; try discriminate; [constructor|]. rewrite map2_cons. constructor; [unfold scale_copy; rewrite map_length; exact L|]. apply IH. cbn in LK. lia.
    + rewrite EA. apply act_zero, HD.
    + apply EA.
Qed.
Theorem C47_rejects_empty : forall p draw x, irr x = [] -> dropout p None draw true x = Err ValueError.
Proof. intros p draw x E. unfold dropout. cbn [negb bind]. rewrite E. reflexivity. Qed.
(* The documentation promises one draw per batch entry and copy, B_zai = x_zi/(1-p) A_zai. In fact the draws are shared by all batch entries, *)
Theorem C47_draw_per_batch_entry_refuted : forall p draw x y i i' j, 0 < p < 1 -> draws_ok draw -> coherent x -> irr x <> [] -> dropout p None draw true x = Ok y -> valid (lead x) i -> valid (lead x) i' -> (j < num_irreps (irr x))%nat ->
  exists k, (k = 0 \/ k = 1 / (1 - p)) /\ copy_of y j i = map (fun t => t * k) (copy_of x j i) /\ copy_of y j i' = map (fun t => t * k) (copy_of x j i').
Proof.
  intros p draw x y i i' j Hp HB H NE E Hi Hi' Hj. destruct (C47_dropout p None draw x Hp HB H eq_refl NE) as (y' & E' & I1 & L1 & H1 & V). rewrite E in E'. injection E' as <-. cbn [target_of] in *. unfold copy_of. exists (if nth j (kept draw (irr x)) false then 1 / (1 - p) else 0).
  split; [destruct (nth j (kept draw (irr x)) false); auto|]. split; apply V; assumption.
Qed.
(* and by all chunks of the same multiplicity: here a scalar and a vector are always kept or dropped together *)
Theorem C47_draw_per_chunk_refuted : forall p draw x y i, 0 < p < 1 -> draws_ok draw -> coherent x -> irr x = [(1%nat, Irrep 0 Even); (1%nat, Irrep 1 Odd)] -> dropout p None draw true x = Ok y -> valid (lead x) i ->
  exists k, (k = 0 \/ k = 1 / (1 - p)) /\ copy_of y 0 i = map (fun t => t * k) (copy_of x 0 i) /\ copy_of y 1 i = map (fun t => t * k) (copy_of x 1 i).
Proof.
  intros p draw x y i Hp HB H EI E Hi. destruct (C47_dropout p None draw x Hp HB H eq_refl ltac:(cbn; rewrite EI; discriminate)) as (y' & E' & I1 & L1 & H1 & V). rewrite E in E'. injection E' as <-. cbn [target_of] in *.
  assert (K : nth 0 (kept draw (irr x)) false = nth 1 (kept draw (irr x)) false). { rewrite EI. unfold kept. cbn [flat_map fst]. pose proof (HB 1%nat) as L. destruct (draw 1%nat) as [|b [|]]; try discriminate. reflexivity. }
  exists (if nth 0 (kept draw (irr x)) false then 1 / (1 - p) else 0). split; [destruct (nth 0 (kept draw (irr x)) false); auto|]. split; [apply (V i Hi 0%nat)|rewrite K; apply (V i Hi 1%nat)]; rewrite EI; cbn; lia.
Qed.
Example C47_example : coherent x_example /\ irr x_example <> [] /\ draws_ok (fun n => repeat true n) /\ 0 < 1 / 2 < 1.
Proof. split; [apply C46_example_fits|]. split; [discriminate|]. split; [intros n; apply repeat_length|lra]. Qed.

(* ---------- C53: the configuration registry ---------- *)
(* a history of calls config(name, value); the result of each call *)
Fixpoint run (h : list (string * option cvalue)) (r : registry) : registry * list (res (option cvalue)) :=
  match h with
  | [] => (r, [])
  | (name, v) :: h => let '(r, o) := config name v r in let '(r, os) := run h r in (r, o :: os)
  end.
(* specification: the last value written under that name, else the default *)
Definition known (name : string) : Prop := In name (map fst default_conf).
Fixpoint last_write (name : string) (h : list (string * option cvalue)) : option cvalue :=
  match h with
  | [] => None
  | (k, v) :: h => match last_write name h with Some w => Some w | None => if String.eqb k name then v else None end
  end.
Definition current (name : string) (h : list (string * option cvalue)) : option cvalue := match last_write name h with Some v => Some v | None => lookup name default_conf end.
Lemma lookup_store name k v r : lookup name (store k v r) = if String.eqb k name then match lookup name r with Some _ => Some v | None => None end else lookup name r.
Proof.
  unfold lookup, store. induction r as [|[k' w] r IH]; [destruct (String.eqb k name); reflexivity|]. cbn [map find]. destruct (String.eqb k' k) eqn:E1; cbn [find].
  - apply String.eqb_eq in E1. subst k'. destruct (String.eqb k name) eqn:E2; [reflexivity|]. exact IH.
  - destruct (String.eqb k' name) eqn:E3; [|exact IH]. apply String.eqb_eq in E3. subst k'. rewrite String.eqb_sym, E1. reflexivity.
Qed.
Lemma lookup_known name r : lookup name r <> None <-> In name (map fst r).
Proof.
  unfold lookup. induction r as [|[k v] r IH]; [split; [intros C; exfalso; apply C; reflexivity|intros []]|]. cbn [find map fst]. destruct (String.eqb k name) eqn:E.
  - apply String.eqb_eq in E. split; [left; exact E|discriminate].
  - apply String.eqb_neq in E. rewrite IH. cbn. tauto.
Qed.
Lemma store_keys k v r : map fst (store k v r) = map fst r.
Proof. unfold store. rewrite map_map. apply map_ext. intros [k' w]. destruct (String.eqb k' k); reflexivity. Qed.
Lemma run_lookup : forall h r name, lookup name (fst (run h r)) = match lookup name r with None => None | Some w => Some (match last_write name h with Some v => v | None => w end) end.
Proof.
  induction h as [|[k v] h IH]; intros r name; [cbn; destruct (lookup name r); reflexivity|]. cbn [run last_write]. destruct (config k v r) as [r1 o] eqn:E. specialize (IH r1 name). destruct (run h r1) as [r2 os]. cbn [fst] in *. rewrite IH. clear IH. unfold config in E. destruct v as [v|].
  - destruct (lookup k r) as [w0|] eqn:L; injection E as <- <-.
    + rewrite lookup_store. destruct (String.eqb k name) eqn:Ek; [|destruct (lookup name r); [destruct (last_write name h); reflexivity|reflexivity]]. destruct (lookup name r); [destruct (last_write name h); reflexivity|reflexivity].
    + destruct (String.eqb k name) eqn:Ek; [apply String.eqb_eq in Ek; subst; rewrite L; reflexivity|]. destruct (lookup name r); [destruct (last_write name h); reflexivity|reflexivity].
  - injection E as <- <-. destruct (lookup name r); [|reflexivity]. destruct (last_write name h); [reflexivity|]. destruct (String.eqb k name); reflexivity.
Qed.
(* After any history of calls (reads, writes, calls with unknown names), reading a known name returns the last value written under it, or its default;
   an unknown name is rejected for reading (KeyError) and writing (ValueError), and rejected calls and reads change nothing. *)
Theorem C53_reads_last_write : forall h name v, last_write name h = Some v -> known name -> snd (config name None (fst (run h default_conf))) = Ok (Some v).
Proof.
  intros h name v L K. cbn [config snd]. rewrite run_lookup, L. apply lookup_known in K. destruct (lookup name default_conf); [reflexivity|contradiction].
Qed.
Theorem C53_reads_default : forall h name, last_write name h = None -> known name -> exists v, lookup name default_conf = Some v /\ snd (config name None (fst (run h default_conf))) = Ok (Some v).
Proof.
  intros h name L K. cbn [config snd]. rewrite run_lookup, L. apply lookup_known in K. destruct (lookup name default_conf) as [v|]; [|contradiction]. exists v. split; reflexivity.
Qed.
Theorem C53_rejects_unknown : forall h name v, ~ known name -> config name None (fst (run h default_conf)) = (fst (run h default_conf), Err KeyError) /\ config name (Some v) (fst (run h default_conf)) = (fst (run h default_conf), Err ValueError).
Proof.
  intros h name v K. assert (L : lookup name (fst (run h default_conf)) = None). { rewrite run_lookup. destruct (lookup name default_conf) as [w|] eqn:E; [|reflexivity]. exfalso. apply K, lookup_known. congruence. } unfold config. rewrite L. split; reflexivity.
Qed.
Theorem C53_write_changes_only_that_name : forall h name v other, known name -> other <> name ->
  exists r, config name (Some v) (fst (run h default_conf)) = (r, Ok None) /\ lookup name r = Some v /\ lookup other r = lookup other (fst (run h default_conf)) /\ map fst r = map fst default_conf.
Proof.
  intros h name v other K N. assert (KS : forall h r, map fst (fst (run h r)) = map fst r).
  { clear. induction h as [|[k v] h IH]; intros r; [reflexivity|]. cbn [run]. destruct (config k v r) as [r1 o] eqn:E. specialize (IH r1). destruct (run h r1). cbn [fst] in *. rewrite IH. unfold config in E. destruct v as [v|]; [destruct (lookup k r)|]; injection E as <- <-; try reflexivity. apply store_keys. }
  assert (L : lookup name (fst (run h default_conf)) <> None) by (apply lookup_known; rewrite KS; exact K). unfold config. destruct (lookup name (fst (run h default_conf))) as [w|] eqn:EL; [|contradiction]. eexists. split; [reflexivity|]. rewrite !lookup_store, String.eqb_refl, EL. split; [reflexivity|]. split; [|rewrite store_keys; apply KS].
  destruct (String.eqb name other) eqn:E; [apply String.eqb_eq in E; congruence|reflexivity].
Qed.
Theorem C53_read_changes_nothing : forall name r, fst (config name None r) = r.
Proof. reflexivity. Qed.
Example C53_example : known "fused" /\ ~ known "fusd" /\ last_write "fused" [("fused", Some (VBool true)); ("sparse_tp", Some (VBool true)); ("fused", None)]%string = Some (VBool true).
Proof. split; [unfold known; cbn; tauto|]. split; [unfold known; cbn; intros H; repeat (destruct H as [H|H]; [discriminate|]); exact H|reflexivity]. Qed.
