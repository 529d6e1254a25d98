(* C46: batch_norm.  C47: dropout.  C53: the configuration registry. *)
From Coq Require Import Reals Lra String.
From Verif Require Import PyBase PermModel PermProofs IrrepsModel IrrepsProofs IrrepsProofs2 ArrayModel ArrayProofs ArrayOps RechunkProofs SliceProofs SliceProofs2 ArithProofs LeadModel LeadProofs BlockProofs AxisProofs StackProofs BilinProofs ActProofs EquivProofs EquivProofs2 RotationModel ActivationModel NormActProofs NormModel NormProofs.
Open Scope R_scope.

(* ---------- specification of batch normalisation of one irrep copy ---------- *)
Definition total (n : nat) (f : nat -> R) : R := fold_right Rplus 0 (map f (seq 0 n)).
(* average over the batch, weighted by the mask when there is one *)
Definition weight_of (g : bn_args) (b : nat) : R := match bn_mask g with Some m => nth b m 0 | None => 1 end.
Definition average (g : bn_args) (B : nat) (f : nat -> R) : R := total B (fun b => f b * weight_of g b) / total B (weight_of g).
(* the largest of f 0, ..., f (n-1) *)
Definition is_max (n : nat) (f : nat -> R) (m : R) : Prop := (exists k, (k < n)%nat /\ m = f k) /\ forall k, (k < n)%nat -> f k <= m.
Section Spec.
Variables (g : bn_args) (B n : nat) (scalar : bool) (old_mean old_var gain offset : R).
(* v b s: the copy in batch entry b, sample s *)
Variable v : nat -> nat -> list R.
Definition mean_of (b : nat) : R := total n (fun s => nth 0 (v b s) 0) / INR n.
Definition mu (b : nat) : R :=
  if scalar then (if use_running_average g then old_mean else if is_instance g then mean_of b else average g B mean_of) else 0.
Definition size2 (b s : nat) : R :=
  fold_right Rplus 0 (map (fun t => (t - mu b) ^ 2) (v b s)) / (match bn_norm g with NComponent => INR (length (v b s)) | _ => 1 end).
(* spread: any function that is the mean of size2 over the samples, or the maximum *)
Definition is_spread (spread : nat -> R) : Prop :=
  forall b, (b < B)%nat -> match bn_reduce g with RMax => is_max n (size2 b) (spread b) | _ => spread b = total n (size2 b) / INR n end.
Definition sigma2 (spread : nat -> R) (b : nat) : R :=
  if use_running_average g then old_var else if is_instance g then spread b else average g B spread.
Definition normalised (spread : nat -> R) (b s : nat) : list R :=
  map (fun t => (t - mu b) / sqrt ((1 - epsilon g) * sigma2 spread b + epsilon g) * (if use_affine g then gain else 1) + (if use_affine g && scalar then offset else 0)) (v b s).
Definition next_mean : R := (1 - momentum g) * old_mean + momentum g * average g B mean_of.
Definition next_var (spread : nat -> R) : R := (1 - momentum g) * old_var + momentum g * average g B spread.
End Spec.

(* ---------- the model computes the specification ---------- *)
Lemma total_ext n f f' : (forall k, (k < n)%nat -> f k = f' k) -> total n f = total n f'.
Proof. intros E. unfold total. f_equal. apply map_seq_ext, E. Qed.
Lemma mean_total n f : mean (map f (seq 0 n)) = total n f / INR n.
Proof. unfold mean. rewrite map_length, seq_length. reflexivity. Qed.
Lemma total_const n c : total n (fun _ => c) = INR n * c.
Proof. unfold total. rewrite map_const', seq_length. induction n as [|n IH]; [cbn; ring|]. cbn [repeat fold_right]. rewrite IH, S_INR. ring. Qed.
Lemma total_scal n f c : total n (fun k => f k * c) = total n f * c.
Proof. unfold total. induction (seq 0 n) as [|k l IH]; [cbn; ring|]. cbn [map fold_right]. rewrite IH. ring. Qed.
Lemma total_plus n f h : total n (fun k => f k + h k) = total n f + total n h.
Proof. unfold total. induction (seq 0 n) as [|k l IH]; [cbn; ring|]. cbn [map fold_right]. rewrite IH. ring. Qed.
Lemma total_mask m : total (length m) (fun b => nth b m 0) = rsum_list m.
Proof. unfold total, rsum_list. rewrite map_nth_seq. reflexivity. Qed.
Lemma rsum_app l l' : fold_right Rplus 0 (l ++ l') = fold_right Rplus 0 l + fold_right Rplus 0 l'.
Proof. induction l as [|a l IH]; [cbn; ring|]. cbn [app fold_right]. rewrite IH. ring. Qed.
Definition mask_fits (g : bn_args) (B : nat) : Prop := match bn_mask g with Some m => length m = B | None => True end.
Lemma average_avg g B f : mask_fits g B -> batch_avg g B f = average g B f.
Proof.
  unfold mask_fits, batch_avg, average, weight_of. destruct (bn_mask g) as [m|].
  - intros <-. rewrite total_mask. reflexivity.
  - intros _. rewrite mean_total, total_const, Rmult_1_r. f_equal. apply total_ext. intros. ring.
Qed.
Lemma batch_mean_average g B n c : mask_fits g B -> batch_mean g B n c = average g B (mean_of n c).
Proof.
  intros M. unfold batch_mean. destruct (bn_mask g) as [m|] eqn:E.
  - rewrite average_avg by exact M. unfold average. f_equal. apply total_ext. intros b _. unfold sample_mean. rewrite mean_total. reflexivity.
  - unfold average, weight_of. rewrite E, total_const, Rmult_1_r. unfold mean.
    assert (L : length (flat_map (fun b => map (fun s => nth 0 (c b s) 0) (seq 0 n)) (seq 0 B)) = (B * n)%nat).
    { transitivity (length (seq 0 B) * n)%nat; [|rewrite seq_length; reflexivity]. induction (seq 0 B) as [|b l IH]; [reflexivity|]. cbn [flat_map length]. rewrite app_length, map_length, seq_length, IH. reflexivity. }
    assert (T : fold_right Rplus 0 (flat_map (fun b => map (fun s => nth 0 (c b s) 0) (seq 0 n)) (seq 0 B)) = total B (fun b => total n (fun s => nth 0 (c b s) 0))).
    { clear L. unfold total at 1. induction (seq 0 B) as [|b l IH]; [reflexivity|]. cbn [flat_map map fold_right]. rewrite rsum_app, IH. reflexivity. }
    rewrite L, T, mult_INR. replace (total B (fun b => mean_of n c b * 1)) with (total B (fun b => total n (fun s => nth 0 (c b s) 0)) * / INR n) by (rewrite <- total_scal; apply total_ext; intros; unfold mean_of, Rdiv; ring).
    unfold Rdiv. rewrite Rinv_mult. ring.
Qed.
Lemma max_list_spec a l : (exists t, In t (a :: l) /\ max_list (a :: l) = t) /\ forall t, In t (a :: l) -> t <= max_list (a :: l).
Proof.
  cbn [max_list]. revert a. induction l as [|c l IH]; intros a; cbn [fold_left].
  - split; [exists a; split; [left; reflexivity|reflexivity]|]. intros t [->|[]]. lra.
  - destruct (IH (Rmax a c)) as ((t & [<-|Ht] & E) & M).
    + rewrite E. split.
      * unfold Rmax. destruct (Rle_dec a c); [exists c|exists a]; cbn; auto.
      * intros u [->|[->|Hu]]; [apply Rmax_l|apply Rmax_r|]. rewrite <- E. apply M. right. exact Hu.
    + split; [exists t; split; [right; right; exact Ht|exact E]|]. intros u [->|[->|Hu]].
      * eapply Rle_trans; [apply Rmax_l|apply M; left; reflexivity].
      * eapply Rle_trans; [apply Rmax_r|apply M; left; reflexivity].
      * apply M. right. exact Hu.
Qed.
Lemma max_list_is_max n f : (0 < n)%nat -> is_max n f (max_list (map f (seq 0 n))).
Proof.
  intros Hn. destruct n as [|n]; [lia|]. cbn [seq map]. destruct (max_list_spec (f 0%nat) (map f (seq 1 n))) as ((t & Ht & E) & M). change (f 0%nat :: map f (seq 1 n)) with (map f (seq 0 (S n))) in *. split.
  - apply in_map_iff in Ht as (k & <- & Hk). apply in_seq in Hk. exists k. split; [lia|exact E].
  - intros k Hk. apply M. apply in_map. apply in_seq. lia.
Qed.
Lemma is_max_unique n f a b : is_max n f a -> is_max n f b -> a = b.
Proof. intros ((k & Hk & ->) & M) ((j & Hj & ->) & M'). apply Rle_antisym; auto. Qed.

Section Agree.
Variables (g : bn_args) (B n : nat) (scalar : bool) (rm rv wt bi : R) (c : nat -> nat -> list R).
Hypothesis M : is_instance g = false -> mask_fits g B.
Lemma used_mean_mu b : scalar = true -> used_mean g B n rm c b = mu g B n scalar rm c b.
Proof. intros ->. unfold used_mean, mu. destruct (use_running_average g); [reflexivity|]. destruct (is_instance g) eqn:EI; [apply mean_total|]. apply batch_mean_average, M, eq_refl. Qed.
Lemma centered_mu b s : centered g B n scalar rm c b s = map (fun t => t - mu g B n scalar rm c b) (c b s).
Proof.
  unfold centered. destruct (Bool.bool_dec scalar true) as [E|E].
  - rewrite used_mean_mu by exact E. rewrite E. reflexivity.
  - apply Bool.not_true_is_false in E. rewrite E. unfold mu. rewrite <- (map_id (c b s)) at 1. apply map_ext. intros. ring.
Qed.
Lemma norm_squared_size2 b s : norm_squared g B n scalar rm c b s = size2 g B n scalar rm c b s.
Proof. unfold norm_squared, size2, rsum_list. rewrite centered_mu, map_map, map_length. destruct (bn_norm g); try reflexivity; field. Qed.
Lemma reduced_spread : (0 < n)%nat -> is_spread g B n scalar rm c (reduced g B n scalar rm c).
Proof.
  intros Hn b Hb. unfold reduced. assert (E : map (norm_squared g B n scalar rm c b) (seq 0 n) = map (size2 g B n scalar rm c b) (seq 0 n)) by (apply map_ext; apply norm_squared_size2). rewrite E.
  destruct (bn_reduce g); [apply mean_total|apply max_list_is_max, Hn|apply mean_total].
Qed.
Lemma spread_unique f h b : is_spread g B n scalar rm c f -> is_spread g B n scalar rm c h -> (b < B)%nat -> f b = h b.
Proof. intros F H Hb. specialize (F b Hb). specialize (H b Hb). destruct (bn_reduce g); [congruence|eapply is_max_unique; eassumption|congruence]. Qed.
Lemma average_ext f h : (forall b, (b < B)%nat -> f b = h b) -> average g B f = average g B h.
Proof. intros E. unfold average. f_equal. apply total_ext. intros. rewrite E by assumption. reflexivity. Qed.
Lemma bn_copy_normalised spread b s : (0 < n)%nat -> (b < B)%nat -> is_spread g B n scalar rm c spread ->
  bn_copy g B n scalar rm rv wt bi c b s = normalised g B n scalar rm rv wt bi c spread b s.
Proof.
  intros Hn Hb Hs. unfold bn_copy, normalised, factor.
  assert (V : used_var g B n scalar rm rv c b = sigma2 g B rv spread b).
  { pose proof (reduced_spread Hn) as RS. unfold used_var, sigma2, batch_var. destruct (use_running_average g); [reflexivity|]. destruct (is_instance g) eqn:EI; [apply spread_unique; auto|]. rewrite average_avg by (apply M; reflexivity). apply average_ext. intros; apply spread_unique; auto. }
  rewrite V, centered_mu. destruct (use_affine g) eqn:U, scalar; cbn [andb]; rewrite !map_map; apply map_ext; intros t; unfold Rdiv; ring.
Qed.
Lemma new_mean_next : is_instance g = false -> new_mean g B n rm c = next_mean g B n rm c.
Proof. intros NI. unfold new_mean, next_mean, roll_avg. rewrite batch_mean_average by (apply M, NI). reflexivity. Qed.
Lemma new_var_next spread : is_instance g = false -> (0 < n)%nat -> is_spread g B n scalar rm c spread -> new_var g B n scalar rm rv c = next_var g B rv spread.
Proof.
  intros NI Hn Hs. unfold new_var, next_var, roll_avg, batch_var. rewrite average_avg by (apply M, NI). rewrite (average_ext (reduced g B n scalar rm c) spread) by (intros; apply spread_unique; auto using reduced_spread). reflexivity.
Qed.
End Agree.

(* ---------- C46: batch_norm ---------- *)
(* the number of even scalars in a list of irreps *)
Definition evens (l : list irrep) : nat := length (filter ir_is_scalar l).
Definition ir_at (x : irreps) (j : nat) : irrep := nth j (flat x) (Irrep 0 Even).
Definition flag_at (x : iarray) (j : nat) : bool := nth j (copy_flags (irr x) (zero_flags x)) false.
(* the place of copy j among the even scalars *)
Definition even_rank (x : irreps) (j : nat) : nat := evens (firstn j (flat x)).
(* copy j of the entry (b, i) of an array; samples are the remaining leading indices in row-major order *)
Definition copy_of (x : iarray) (j : nat) (i : idx) : list R := nth j (instances (irr x) (arr x i)) [].
Definition sample_copy (x : iarray) (size : shape) (j b s : nat) : list R := copy_of x j (b :: unravel size s).
Definition given_length (l : option (list R)) (n : nat) : Prop := forall v, l = Some v -> length v = n.
(* the arguments fit the irreps *)
Record fits (g : bn_args) (B : nat) (x : irreps) : Prop := {
  f_norm : bn_norm g <> NOther; f_reduce : bn_reduce g <> ROther;
  f_mask : is_instance g = false -> mask_fits g B;
  f_running : is_instance g = false \/ use_running_average g = true -> ra_mean g <> None /\ ra_var g <> None;
  f_affine : use_affine g = true -> bn_weight g <> None /\ bn_bias g <> None;
  f_mean : given_length (ra_mean g) (evens (flat x)); f_var : given_length (ra_var g) (num_irreps x);
  f_weight : given_length (bn_weight g) (num_irreps x); f_bias : given_length (bn_bias g) (if use_affine g then evens (flat x) else 0%nat);
  f_some : x <> []
}.
Lemma len_ok_given l n : len_ok l n = true <-> given_length l n.
Proof.
  unfold given_length, len_ok. destruct l as [l|]; [|split; [discriminate|reflexivity]]. rewrite Nat.eqb_eq. split; [intros E v [= <-]; exact E|intros E; apply E; reflexivity].
Qed.
Lemma fits_ready g B x fl : fits g B x -> length fl = length x -> bn_ready g B x fl.
Proof.
  intros F L. split.
  - assert (Q : forall sc, bn_reads g B sc = Ok tt).
    { intros sc. unfold bn_reads. replace (when (negb (is_instance g)) _) with (Ok tt : res unit).
      2:{ destruct (is_instance g) eqn:E; [reflexivity|]. pose proof (f_mask _ _ _ F E) as M. unfold mask_fits in M. cbn [negb when]. destruct (bn_mask g) as [m|]; [|reflexivity]. rewrite M, Nat.eqb_refl. reflexivity. }
      cbn [bind]. assert (G1 : negb (is_instance g) || use_running_average g = true -> given (ra_mean g) = Ok tt /\ given (ra_var g) = Ok tt).
      { intros E. apply orb_true_iff in E. destruct (f_running _ _ _ F) as (N1 & N2); [destruct E as [E|E]; [left; apply negb_true_iff, E|right; exact E]|]. destruct (ra_mean g), (ra_var g); try contradiction. split; reflexivity. }
      assert (G2 : use_affine g = true -> given (bn_weight g) = Ok tt /\ given (bn_bias g) = Ok tt).
      { intros E. destruct (f_affine _ _ _ F E) as (N1 & N2). destruct (bn_weight g), (bn_bias g); try contradiction. split; reflexivity. }
      pose proof (f_norm _ _ _ F) as N1. pose proof (f_reduce _ _ _ F) as N2.
      destruct (negb (is_instance g) || use_running_average g), (use_affine g), sc; cbn [andb when bind];
        try (destruct (G1 eq_refl) as (K1 & K2); rewrite ?K1, ?K2); try (destruct (G2 eq_refl) as (K3 & K4); rewrite ?K3, ?K4); cbn [bind]; destruct (bn_norm g), (bn_reduce g); try contradiction; reflexivity. }
    clear F. revert fl L. induction x as [|m x IH]; intros [|f fl] L; try discriminate; constructor; auto.
  - rewrite flat_length. apply len_ok_given, F.
  - rewrite flat_length. apply len_ok_given, F.
  - apply len_ok_given, F.
  - apply len_ok_given, F.
  - intros _. apply F.
Qed.
Lemma rank_place : forall l j, (j < length l)%nat -> ir_is_scalar (nth j l ir0) = true -> nth (rank l j) (scalar_places l) 0%nat = j.
Proof.
  induction l as [|ir l IH]; intros j Hj Hs; [cbn in Hj; lia|].
  change (ir :: l) with (repeat ir 1 ++ l). rewrite scalar_places_cons. destruct j as [|j].
  - cbn [nth] in Hs. rewrite rank_in by lia. rewrite Hs. reflexivity.
  - cbn [nth length] in *. change (S j) with (1 + j)%nat. rewrite rank_out. assert (Q := IH j ltac:(lia) Hs).
    assert (Lt : (rank l j < length (scalar_places l))%nat).
    { clear - Hj Hs. revert j Hj Hs. induction l as [|ir l IH]; intros j Hj Hs; [cbn in Hj; lia|]. change (ir :: l) with (repeat ir 1 ++ l). rewrite scalar_places_cons, app_length, map_length. destruct j as [|j].
      - rewrite rank_in by lia. cbn [nth] in Hs. rewrite Hs. cbn. lia.
      - change (S j) with (1 + j)%nat. rewrite rank_out. cbn [nth length] in *. specialize (IH j ltac:(lia) Hs). destruct (ir_is_scalar ir); cbn [length seq]; lia. }
    destruct (ir_is_scalar ir).
    + rewrite app_nth2 by (cbn; lia). cbn [seq length]. replace (1 + rank l j - 1)%nat with (rank l j) by lia. rewrite (nth_indep _ 0%nat (1 + 0)%nat) by (rewrite map_length; exact Lt). rewrite (map_nth (fun j => 1 + j)%nat), Q. reflexivity.
    + cbn [app Nat.add]. rewrite (nth_indep _ 0%nat (1 + 0)%nat) by (rewrite map_length; exact Lt). rewrite (map_nth (fun j => 1 + j)%nat), Q. reflexivity.
Qed.
Lemma scalar_places_length l : length (scalar_places l) = evens l.
Proof.
  induction l as [|ir l IH]; [reflexivity|]. change (ir :: l) with (repeat ir 1 ++ l). rewrite scalar_places_cons, app_length, map_length, IH. unfold evens. rewrite filter_app, app_length, filter_repeat. destruct (ir_is_scalar ir); reflexivity.
Qed.
Lemma cells_copy x size j b s : cells (flat (irr x)) (bs_row size (arr x)) j b s = sample_copy x size j b s.
Proof. unfold cells, sample_copy, copy_of, bs_row. rewrite instances_cut. reflexivity. Qed.
Lemma cells_copy' x size j : cells (flat (irr x)) (bs_row size (arr x)) j = sample_copy x size j.
Proof. apply FunctionalExtensionality.functional_extensionality. intros b. apply FunctionalExtensionality.functional_extensionality. intros s. apply cells_copy. Qed.
Lemma widths_by_nth : forall l (f : nat -> list R), (forall j, (j < length l)%nat -> length (f j) = ir_dim (nth j l ir0)) -> Forall2 (fun ir r => length r = ir_dim ir) l (map f (seq 0 (length l))).
Proof.
  induction l as [|ir l IH]; intros f K; [constructor|]. cbn [length seq map]. constructor; [apply (K 0%nat); cbn; lia|]. rewrite <- seq_shift, map_map. apply IH. intros j Hj. apply (K (S j)). cbn. lia.
Qed.
Lemma out_row_cut g B n l fl a w r b s : (b < B)%nat -> (s < n)%nat -> (forall i, valid [B; n] i -> length (a i) = dims l) ->
  cut l (out_row g B n l fl a w r [b; s]) = map (fun j => out_copy g B n l fl a w r j b s) (seq 0 (length l)).
Proof.
  intros Hb Hs La. unfold out_row. cbn [nth]. 
  assert (Q : Forall2 (fun ir r => length r = ir_dim ir) l (map (fun j => out_copy g B n l fl a w r j b s) (seq 0 (length l)))).
  { assert (K : forall j, (j < length l)%nat -> length (out_copy g B n l fl a w r j b s) = ir_dim (nth j l ir0)).
    { intros j Hj. unfold out_copy. destruct (nth j fl false); [apply repeat_length|]. rewrite bn_copy_length. unfold cells.
      pose proof (cut_widths l (a [b; s]) (La _ (valid2 B n b s Hb Hs))) as W. clear - W Hj. revert j Hj. induction W as [|ir r l rows E W IH]; intros j Hj; [cbn in Hj; lia|]. destruct j; [exact E|]. cbn [nth]. apply IH. cbn in Hj. lia. }
    apply widths_by_nth, K. }
  clear La. revert Q. generalize (map (fun j => out_copy g B n l fl a w r j b s) (seq 0 (length l))). clear. intros rows Q. induction Q as [|ir r l rows E Q IH]; [reflexivity|]. cbn [concat cut]. rewrite firstn_length_app, skipn_length_app by exact E. rewrite IH. reflexivity.
Qed.

Theorem C46_batch_norm : forall g x B size, coherent x -> lead x = B :: size -> (0 < prod size)%nat -> fits g B (irr x) ->
  exists y st, batch_norm g x = Ok (y, st) /\ irr y = irr x /\ lead y = lead x /\ coherent y /\ zero_flags y = zero_flags x /\
    match st with
    | None => is_instance g = true
    | Some (ms, vs) => is_instance g = false /\ length ms = evens (flat (irr x)) /\ length vs = num_irreps (irr x)
    end /\
    forall j, (j < num_irreps (irr x))%nat ->
      let scalar := ir_is_scalar (ir_at (irr x) j) in
      let k := even_rank (irr x) j in
      let v := sample_copy x size j in
      let old_mean := opt_nth (ra_mean g) k in let old_var := opt_nth (ra_var g) j in
      if flag_at x j then
        (forall b i, valid (lead x) (b :: i) -> copy_of y j (b :: i) = zero_row (ir_dim (ir_at (irr x) j))) /\
        forall ms vs, st = Some (ms, vs) -> nth j vs 0 = 1 /\ (scalar = true -> nth k ms 0 = 0)
      else forall spread, is_spread g B (prod size) scalar old_mean v spread ->
        (forall b i, valid (lead x) (b :: i) ->
          copy_of y j (b :: i) = normalised g B (prod size) scalar old_mean old_var (opt_nth (bn_weight g) j) (opt_nth (bn_bias g) k) v spread b (ravel size i)) /\
        forall ms vs, st = Some (ms, vs) -> nth j vs 0 = next_var g B old_var spread /\ (scalar = true -> nth k ms 0 = next_mean g B (prod size) old_mean v).
Proof.
  intros g x B size H EL Hn F. assert (Lf : length (zero_flags x) = length (irr x)) by (eapply flags_ok_length, H). destruct (batch_norm_spec g x B size H EL (fits_ready _ _ _ _ F Lf)) as (y & E & I1 & L1 & H1 & F1 & V). eexists y, _. split; [exact E|]. split; [exact I1|]. split; [exact L1|]. split; [exact H1|]. split; [exact F1|]. split.
  - unfold bn_stats. destruct (is_instance g); [reflexivity|]. split; [reflexivity|]. rewrite !map_length, seq_length, scalar_places_length, flat_length. split; reflexivity.
  - intros j Hj. cbv zeta. rewrite <- flat_length in Hj. fold (rank (flat (irr x)) j). unfold even_rank. change (evens (firstn j (flat (irr x)))) with (rank (flat (irr x)) j).
    assert (C : forall b i, valid (lead x) (b :: i) -> copy_of y j (b :: i) = out_copy g B (prod size) (flat (irr x)) (copy_flags (irr x) (zero_flags x)) (bs_row size (arr x)) 0 0 j b (ravel size i)).
    { intros b i Hv. rewrite EL in Hv. unfold copy_of. rewrite I1, instances_cut, V by exact Hv. inversion Hv as [|? ? ? ? Hb Hi]; subst. rewrite out_row_cut; [rewrite nth_map_at by exact Hj; reflexivity|exact Hb|apply ravel_bound, Hi|].
      intros i' Hi'. destruct (valid2_inv _ _ i' Hi') as (b' & s' & -> & Hb' & Hs'). unfold bs_row. cbn [nth]. change (dims (flat (irr x))) with (dims (flat (irr x))). rewrite (proj1 H); [symmetry; apply dims_flat|]. rewrite EL. constructor; [exact Hb'|apply unravel_valid, Hs']. }
    assert (MS : forall ms vs, bn_stats g B (prod size) (irr x) (zero_flags x) (bs_row size (arr x)) = Some (ms, vs) -> is_instance g = false /\ nth j vs 0 = out_var g B (prod size) (flat (irr x)) (copy_flags (irr x) (zero_flags x)) (bs_row size (arr x)) 0 0 j /\
      (ir_is_scalar (ir_at (irr x) j) = true -> nth (rank (flat (irr x)) j) ms 0 = out_mean g B (prod size) (flat (irr x)) (copy_flags (irr x) (zero_flags x)) (bs_row size (arr x)) 0 j)).
    { intros ms vs ES. unfold bn_stats in ES. destruct (is_instance g); [discriminate|]. injection ES as <- <-. split; [reflexivity|]. split; [rewrite nth_map_at by exact Hj; reflexivity|]. intros Sc.
      pose proof (rank_place _ _ Hj Sc) as Q. assert (Lt : (rank (flat (irr x)) j < length (scalar_places (flat (irr x))))%nat).
      { destruct (Nat.lt_ge_cases (rank (flat (irr x)) j) (length (scalar_places (flat (irr x))))) as [Q1|Q1]; [exact Q1|]. exfalso. rewrite scalar_places_length in Q1. unfold rank, evens in Q1. pose proof Sc as Sc'. unfold ir_at in Sc'. rewrite <- (firstn_skipn (S j) (flat (irr x))) in Q1 at 1.
        rewrite filter_app, app_length in Q1. assert (Z : firstn (S j) (flat (irr x)) = firstn j (flat (irr x)) ++ [nth j (flat (irr x)) ir0]). { clear - Hj. revert Hj. generalize (flat (irr x)). intros l. revert j. induction l as [|a l IH]; intros j Hj; [cbn in Hj; lia|]. destruct j; [reflexivity|]. cbn [firstn nth app]. f_equal. apply IH. cbn in Hj. lia. } rewrite Z, filter_app, app_length in Q1. cbn [filter] in Q1. unfold ir0 in Q1. rewrite Sc' in Q1. cbn [length] in Q1. lia. }
      rewrite (nth_indep _ 0 (out_mean g B (prod size) (flat (irr x)) (copy_flags (irr x) (zero_flags x)) (bs_row size (arr x)) 0 0)) by (rewrite map_length; exact Lt). rewrite map_nth, Q. reflexivity. }
    fold (flag_at x j). unfold flag_at. destruct (nth j (copy_flags (irr x) (zero_flags x)) false) eqn:Ef.
    + split.
      * intros b i Hv. rewrite C by exact Hv. unfold out_copy. rewrite Ef. reflexivity.
      * intros ms vs ES. destruct (MS ms vs ES) as (_ & Q1 & Q2). split; [rewrite Q1; unfold out_var; rewrite Ef; reflexivity|]. intros Sc. rewrite (Q2 Sc). unfold out_mean. rewrite Ef. reflexivity.
    + intros spread Hs. split.
      * intros b i Hv. rewrite C by exact Hv. unfold out_copy. rewrite Ef. cbn [Nat.add]. rewrite cells_copy'. rewrite EL in Hv. inversion Hv; subst. apply bn_copy_normalised; try assumption. apply F.
      * intros ms vs ES. destruct (MS ms vs ES) as (NI & Q1 & Q2). split; [|intros Sc; rewrite (Q2 Sc)]; rewrite ?Q1; unfold out_var, out_mean; rewrite Ef; cbn [Nat.add]; rewrite cells_copy'.
        -- apply new_var_next; try assumption. apply F.
        -- apply new_mean_next; [apply F|exact NI].
Qed.

(* the statistics exist: the theorem above is not vacuous *)
Theorem C46_spread_exists : forall g B n scalar old_mean v, (is_instance g = false -> mask_fits g B) -> (0 < n)%nat -> exists spread, is_spread g B n scalar old_mean v spread.
Proof. intros g B n sc om v M Hn. exists (reduced g B n sc om v). apply reduced_spread; assumption. Qed.

(* ---------- equivariance ---------- *)
Lemma combine_maps {A B C} (f : A -> B) (h : A -> C) l : combine (map f l) (map h l) = map (fun t => (f t, h t)) l.
Proof. induction l; cbn; congruence. Qed.
Definition fixes_even_scalars (D : rep) : Prop := forall t, matvec (D (Irrep 0 Even)) [t] = [t].
Section Equi.
Variables (g : bn_args) (B n : nat) (D : rep) (l : list irrep) (fl : list bool) (a : idx -> list R) (w r : nat).
Hypothesis HD : rep_ok D.
Hypothesis HO : orthogonal_rep D.
Hypothesis HF : fixes_even_scalars D.
Hypothesis La : forall i, valid [B; n] i -> length (a i) = dims l.
Let a' i := acts D l (a i).
Lemma is_scalar_eq ir : ir_is_scalar ir = true -> ir = Irrep 0 Even.
Proof. destruct ir as [k p]. unfold ir_is_scalar. cbn [ir_l ir_p]. intros E. apply andb_true_iff in E as (E1 & E2). apply Nat.eqb_eq in E1. destruct p; [|discriminate]. subst. reflexivity. Qed.
Lemma cell_width j b s : (j < length l)%nat -> (b < B)%nat -> (s < n)%nat -> length (cells l a j b s) = ir_dim (nth j l ir0).
Proof.
  intros Hj Hb Hs. unfold cells. pose proof (cut_widths l (a [b; s]) (La _ (valid2 B n b s Hb Hs))) as W. clear - W Hj. revert j Hj. induction W as [|ir r l rows E W IH]; intros j Hj; [cbn in Hj; lia|]. destruct j; [exact E|]. cbn [nth]. apply IH. cbn in Hj. lia.
Qed.
Lemma cells_acts j b s : (j < length l)%nat -> cells l a' j b s = matvec (D (nth j l ir0)) (cells l a j b s).
Proof. intros Hj. unfold cells, a'. rewrite cut_acts by exact HD. rewrite (nth_map2 (mv D) l _ j ir0 [] []); [reflexivity|exact Hj|symmetry; apply cut_length]. Qed.
Lemma cells_acts' j : (j < length l)%nat -> cells l a' j = fun b s => matvec (D (nth j l ir0)) (cells l a j b s).
Proof. intros Hj. apply FunctionalExtensionality.functional_extensionality. intros b. apply FunctionalExtensionality.functional_extensionality. intros s. apply cells_acts, Hj. Qed.
Lemma fixes_place j : fixes (ir_dim (nth j l ir0)) (D (nth j l ir0)) (ir_is_scalar (nth j l ir0)).
Proof. intros E u Lu. apply is_scalar_eq in E. rewrite E in *. destruct u as [|t [|]]; try discriminate. apply HF. Qed.
Lemma out_copy_acts j b s : (j < length l)%nat -> (b < B)%nat -> (s < n)%nat -> out_copy g B n l fl a' w r j b s = mv D (nth j l ir0) (out_copy g B n l fl a w r j b s).
Proof.
  intros Hj Hb Hs. unfold out_copy, mv. destruct (nth j fl false); [rewrite matvec_zero, (proj1 (HD _)); reflexivity|]. rewrite cells_acts' by exact Hj. apply (iso_bn_copy g B n (ir_dim (nth j l ir0))); try assumption.
  - apply HD.
  - intros u Lu. apply HO; assumption.
  - intros b' s' Hb' Hs'. apply cell_width; assumption.
  - apply fixes_place.
Qed.
Lemma out_mean_acts j : (j < length l)%nat -> ir_is_scalar (nth j l ir0) = true -> out_mean g B n l fl a' r j = out_mean g B n l fl a r j.
Proof.
  intros Hj Sc. unfold out_mean. destruct (nth j fl false); [reflexivity|]. rewrite cells_acts' by exact Hj. apply (iso_new_mean g B n (ir_dim (nth j l ir0))).
  - intros b' s' Hb' Hs'. apply cell_width; assumption.
  - pose proof (fixes_place j) as Q. rewrite Sc in Q. exact Q.
Qed.
Lemma out_var_acts j : (j < length l)%nat -> out_var g B n l fl a' w r j = out_var g B n l fl a w r j.
Proof.
  intros Hj. unfold out_var. destruct (nth j fl false); [reflexivity|]. rewrite cells_acts' by exact Hj. apply (iso_new_var g B n (ir_dim (nth j l ir0))).
  - apply HD.
  - intros u Lu. apply HO; assumption.
  - intros b' s' Hb' Hs'. apply cell_width; assumption.
  - apply fixes_place.
Qed.
Lemma out_row_acts b s : (b < B)%nat -> (s < n)%nat -> out_row g B n l fl a' w r [b; s] = acts D l (out_row g B n l fl a w r [b; s]).
Proof.
  intros Hb Hs. rewrite acts_cut, out_row_cut by assumption. unfold out_row. cbn [nth]. f_equal. unfold map2.
  transitivity (map (fun '(ir, v) => mv D ir v) (combine (map (fun j => nth j l ir0) (seq 0 (length l))) (map (fun j => out_copy g B n l fl a w r j b s) (seq 0 (length l))))).
  - rewrite combine_maps, map_map. apply map_seq_ext. intros j Hj. apply out_copy_acts; assumption.
  - rewrite map_nth_seq. reflexivity.
Qed.
End Equi.

Lemma bn_stats_ext g B n x fl a b : (forall i, valid [B; n] i -> a i = b i) -> bn_stats g B n x fl a = bn_stats g B n x fl b.
Proof. intros E. unfold bn_stats. destruct (is_instance g); [reflexivity|]. f_equal. f_equal; apply map_ext; intros j; [apply out_mean_ext, E|apply out_var_ext, E]. Qed.
(* transforming the input by an orthogonal representation that fixes the even scalars transforms the output and leaves the running statistics unchanged *)
Theorem C46_equivariant : forall g D x B size, rep_ok D -> orthogonal_rep D -> fixes_even_scalars D -> coherent x -> lead x = B :: size -> fits g B (irr x) ->
  exists y st x' y', batch_norm g x = Ok (y, st) /\ transform D x = Ok x' /\ batch_norm g x' = Ok (y', st) /\ agree (transform D y) (Ok y').
Proof.
  intros g D x B size HD HO HF H EL F. assert (Lf : length (zero_flags x) = length (irr x)) by (eapply flags_ok_length, H).
  destruct (batch_norm_spec g x B size H EL (fits_ready _ _ _ _ F Lf)) as (y & E & I1 & L1 & H1 & F1 & V).
  destruct (transform_act D x H HD) as (x' & E' & I' & L' & H' & A'). pose proof (transform_flags D x x' H E') as F'. rewrite <- I' in F. rewrite <- L' in EL.
  destruct (batch_norm_spec g x' B size H' EL (fits_ready _ _ _ (zero_flags x') F ltac:(rewrite F', I'; exact Lf))) as (y' & E2 & I2 & L2 & H2 & F2 & V2).
  assert (RW : forall i, valid [B; prod size] i -> bs_row size (arr x') i = acts D (flat (irr x)) (bs_row size (arr x) i)).
  { intros i Hi. destruct (valid2_inv _ _ i Hi) as (b & s & -> & Hb & Hs). unfold bs_row. cbn [nth]. rewrite A'; [reflexivity|]. rewrite <- L', EL. constructor; [exact Hb|apply unravel_valid, Hs]. }
  assert (LA : forall i, valid [B; prod size] i -> length (bs_row size (arr x) i) = dims (flat (irr x))).
  { intros i Hi. destruct (valid2_inv _ _ i Hi) as (b & s & -> & Hb & Hs). unfold bs_row. cbn [nth]. rewrite (proj1 H); [symmetry; apply dims_flat|]. rewrite <- L', EL. constructor; [exact Hb|apply unravel_valid, Hs]. }
  exists y, (bn_stats g B (prod size) (irr x) (zero_flags x) (bs_row size (arr x))), x', y'. split; [exact E|]. split; [exact E'|]. split.
  - rewrite E2. f_equal. f_equal. rewrite F', I'. rewrite (bn_stats_ext _ _ _ _ _ _ (fun i => acts D (flat (irr x)) (bs_row size (arr x) i)) RW). unfold bn_stats. destruct (is_instance g); [reflexivity|]. f_equal. f_equal.
    + apply map_ext_in. intros j Hj. apply filter_In in Hj as (Hj & Sc). apply in_seq in Hj. apply (out_mean_acts g B (prod size) D); try assumption; lia.
    + apply map_ext_in. intros j Hj. apply in_seq in Hj. apply (out_var_acts g B (prod size) D); try assumption; lia.
  - exists (irr x), (lead x), (arr y'). split.
    + rewrite <- I1, <- L1. eapply yields_ext; [|apply (transform_act D y H1 HD)]. intros i Hi. cbv beta. rewrite L1, <- L', EL in Hi. destruct i as [|b i]; [inversion Hi|]. rewrite V by exact Hi. rewrite V2 by exact Hi. inversion Hi; subst. rewrite F', I', I1. unfold act.
      rewrite (out_row_ext _ _ _ _ _ _ (fun i => acts D (flat (irr x)) (bs_row size (arr x) i)) _ _ _ _ RW); [|assumption|apply ravel_bound; assumption]. symmetry. apply out_row_acts; try assumption. apply ravel_bound; assumption.
    + exists y'. split; [reflexivity|]. split; [congruence|]. split; [congruence|]. split; [exact H2|]. reflexivity.
Qed.

(* ---------- the output is normalised ---------- *)
Lemma total_nonneg n f : (forall k, (k < n)%nat -> 0 <= f k) -> 0 <= total n f.
Proof.
  intros H. unfold total. assert (Q : Forall (fun t => 0 <= t) (map f (seq 0 n))). { apply Forall_map, Forall_forall. intros k Hk. apply in_seq in Hk. apply H. lia. }
  induction Q as [|t l Ht Q IH]; cbn [fold_right]; lra.
Qed.
Lemma average_scal g B f c : average g B (fun b => f b * c) = average g B f * c.
Proof. unfold average. replace (total B (fun b => f b * c * weight_of g b)) with (total B (fun b => f b * weight_of g b) * c); [unfold Rdiv; ring|]. rewrite <- total_scal. apply total_ext. intros. ring. Qed.
Lemma average_minus g B f c : total B (weight_of g) <> 0 -> average g B (fun b => f b - c) = average g B f - c.
Proof.
  intros N. unfold average. replace (total B (fun b => (f b - c) * weight_of g b)) with (total B (fun b => f b * weight_of g b) + total B (weight_of g) * (- c)); [field; exact N|]. rewrite <- total_scal, <- total_plus. apply total_ext. intros. ring.
Qed.
Section Normal.
Variables (g : bn_args) (B n : nat) (scalar : bool) (om ov gain offset : R) (v : nat -> nat -> list R) (spread : nat -> R).
Hypothesis NI : is_instance g = false.
Hypothesis NR : use_running_average g = false.
Hypothesis NA : use_affine g = false.
Hypothesis Hn : (0 < n)%nat.
Hypothesis HW : total B (weight_of g) <> 0.
Hypothesis Hs : is_spread g B n scalar om v spread.
Let out := normalised g B n scalar om ov gain offset v spread.
Let sig := average g B spread.
Let den := sqrt ((1 - epsilon g) * sig + epsilon g).
Lemma out_shape b s : out b s = map (fun t => (t - mu g B n scalar om v b) * / den) (v b s).
Proof. unfold out, normalised, sigma2. rewrite NI, NR, NA. cbn [andb]. apply map_ext. intros t. unfold den, sig, Rdiv. ring. Qed.
Lemma nINR : INR n <> 0.
Proof. apply not_0_INR. lia. Qed.
(* scalars have mean zero *)
Hypothesis L1 : scalar = true -> forall b s, (b < B)%nat -> (s < n)%nat -> length (v b s) = 1%nat.
Lemma normalised_mean : scalar = true -> average g B (mean_of n out) = 0.
Proof.
  intros Sc. set (m := average g B (mean_of n v)). pose proof nINR as NN.
  assert (E : forall b, (b < B)%nat -> mean_of n out b = (mean_of n v b - m) * / den).
  { intros b Hb. unfold mean_of. replace (total n (fun s => nth 0 (out b s) 0)) with ((total n (fun s => nth 0 (v b s) 0) + INR n * (- m)) * / den).
    - set (k := / den). field. exact NN.
    - rewrite <- total_const, <- total_plus, <- total_scal. apply total_ext. intros s Hs'. rewrite out_shape. specialize (L1 Sc b s Hb Hs'). destruct (v b s) as [|t [|]]; try discriminate. cbn [map nth]. unfold mu. rewrite Sc, NR, NI. fold m. ring. }
  rewrite (average_ext g B _ (fun b => (mean_of n v b - m) * / den) E). rewrite average_scal, average_minus by exact HW. fold m. ring.
Qed.
Lemma mu_out b : mu g B n scalar om out b = 0.
Proof.
  destruct (Bool.bool_dec scalar true) as [Sc|Sc].
  - unfold mu. rewrite Sc, NR, NI. apply normalised_mean, Sc.
  - apply Bool.not_true_is_false in Sc. unfold mu. rewrite Sc. reflexivity.
Qed.
Lemma size2_out b s : size2 g B n scalar om out b s = size2 g B n scalar om v b s * (/ den) ^ 2.
Proof.
  unfold size2 at 1. rewrite mu_out, out_shape, map_map, map_length. unfold size2, Rdiv. set (k := / den). set (q := mu g B n scalar om v b).
  replace (fold_right Rplus 0 (map (fun x => ((x - q) * k - 0) ^ 2) (v b s))) with (fold_right Rplus 0 (map (fun t => (t - q) ^ 2) (v b s)) * k ^ 2); [ring|].
  induction (v b s) as [|t u IH]; [cbn; ring|]. cbn [map fold_right]. rewrite <- IH. ring.
Qed.
Lemma out_spread : is_spread g B n scalar om out (fun b => spread b * (/ den) ^ 2).
Proof.
  intros b Hb. specialize (Hs b Hb).
  assert (M : forall f, f b = total n (size2 g B n scalar om v b) / INR n -> f b * (/ den) ^ 2 = total n (size2 g B n scalar om out b) / INR n).
  { intros f ->. replace (total n (size2 g B n scalar om out b)) with (total n (size2 g B n scalar om v b) * (/ den) ^ 2); [unfold Rdiv; ring|]. rewrite <- total_scal. apply total_ext. intros s _. symmetry. apply size2_out. }
  destruct (bn_reduce g); [apply M, Hs| |apply M, Hs]. destruct Hs as ((k & Hk & E) & U). split.
  - exists k. split; [exact Hk|]. rewrite size2_out, E. reflexivity.
  - intros j Hj. rewrite size2_out. apply Rmult_le_compat_r; [apply pow2_ge_0|apply U, Hj].
Qed.
Lemma normalised_var spread' : 0 < (1 - epsilon g) * sig + epsilon g -> is_spread g B n scalar om out spread' -> average g B spread' = sig / ((1 - epsilon g) * sig + epsilon g).
Proof.
  intros Hp Hs'. rewrite (average_ext g B spread' (fun b => spread b * (/ den) ^ 2)).
  - rewrite average_scal. fold sig. unfold den. rewrite pow_inv, pow2_sqrt by lra. reflexivity.
  - intros b Hb. exact (spread_unique g B n scalar om out spread' (fun b => spread b * (/ den) ^ 2) b Hs' out_spread Hb).
Qed.
End Normal.

Lemma sample_widths x size B j b s : coherent x -> lead x = B :: size -> (j < num_irreps (irr x))%nat -> (b < B)%nat -> (s < prod size)%nat -> length (sample_copy x size j b s) = ir_dim (ir_at (irr x) j).
Proof.
  intros H EL Hj Hb Hs. rewrite <- cells_copy. rewrite <- flat_length in Hj. apply (cell_width B (prod size)); try assumption. intros i Hi. destruct (valid2_inv _ _ i Hi) as (b' & s' & -> & Hb' & Hs'). unfold bs_row. cbn [nth]. rewrite (proj1 H); [symmetry; apply dims_flat|]. rewrite EL. constructor; [exact Hb'|apply unravel_valid, Hs'].
Qed.
(* In training mode without gain and offset: in the output, every even scalar copy has (weighted) mean zero, and the spread of every copy, measured the same way
   as batch_norm measures it, is var / ((1 - epsilon) var + epsilon), where var is the spread of the input. *)
Theorem C46_normalises : forall g x B size y st j, coherent x -> lead x = B :: size -> (0 < prod size)%nat -> fits g B (irr x) ->
  is_instance g = false -> use_running_average g = false -> use_affine g = false -> total B (weight_of g) <> 0 ->
  batch_norm g x = Ok (y, st) -> (j < num_irreps (irr x))%nat -> flag_at x j = false ->
  let scalar := ir_is_scalar (ir_at (irr x) j) in let om := opt_nth (ra_mean g) (even_rank (irr x) j) in
  (scalar = true -> average g B (mean_of (prod size) (sample_copy y size j)) = 0) /\
  forall spread spread', is_spread g B (prod size) scalar om (sample_copy x size j) spread -> is_spread g B (prod size) scalar om (sample_copy y size j) spread' ->
    let var := average g B spread in 0 < (1 - epsilon g) * var + epsilon g -> average g B spread' = var / ((1 - epsilon g) * var + epsilon g).
Proof.
  intros g x B size y st j H EL Hn F NI NR NA HW E Hj Fl. cbv zeta. destruct (C46_batch_norm g x B size H EL Hn F) as (y' & st' & E' & I1 & L1 & H1 & F1 & _ & V). rewrite E in E'. injection E' as <- <-. specialize (V j Hj). cbv zeta in V. rewrite Fl in V.
  set (scalar := ir_is_scalar (ir_at (irr x) j)) in *. set (om := opt_nth (ra_mean g) (even_rank (irr x) j)) in *.
  assert (L : scalar = true -> forall b s, (b < B)%nat -> (s < prod size)%nat -> length (sample_copy x size j b s) = 1%nat).
  { intros Sc b s Hb Hs. rewrite (sample_widths x size B) by assumption. apply is_scalar_eq in Sc. rewrite Sc. reflexivity. }
  assert (K : forall spread, is_spread g B (prod size) scalar om (sample_copy x size j) spread -> forall b s, (b < B)%nat -> (s < prod size)%nat ->
    sample_copy y size j b s = normalised g B (prod size) scalar om (opt_nth (ra_var g) j) (opt_nth (bn_weight g) j) (opt_nth (bn_bias g) (even_rank (irr x) j)) (sample_copy x size j) spread b s).
  { intros spread Hs b s Hb Hs'. destruct (V spread Hs) as (V1 & _). unfold sample_copy at 1. rewrite V1; [rewrite ravel_unravel by exact Hs'; reflexivity|]. rewrite EL. constructor; [exact Hb|apply unravel_valid, Hs']. }
  split.
  - intros Sc. destruct (C46_spread_exists g B (prod size) scalar om (sample_copy x size j) (f_mask _ _ _ F) Hn) as (spread & Hs).
    rewrite (average_ext g B _ (mean_of (prod size) (normalised g B (prod size) scalar om (opt_nth (ra_var g) j) (opt_nth (bn_weight g) j) (opt_nth (bn_bias g) (even_rank (irr x) j)) (sample_copy x size j) spread))).
    + apply normalised_mean; assumption.
    + intros b Hb. unfold mean_of. f_equal. apply total_ext. intros s Hs'. rewrite (K spread Hs b s Hb Hs'). reflexivity.
  - intros spread spread' Hs Hs' Hp. eapply (normalised_var g B (prod size) scalar om (opt_nth (ra_var g) j) (opt_nth (bn_weight g) j) (opt_nth (bn_bias g) (even_rank (irr x) j)) (sample_copy x size j) spread); try eassumption.
    set (o := normalised g B (prod size) scalar om (opt_nth (ra_var g) j) (opt_nth (bn_weight g) j) (opt_nth (bn_bias g) (even_rank (irr x) j)) (sample_copy x size j) spread) in *.
    assert (EM : forall b, (b < B)%nat -> mean_of (prod size) (sample_copy y size j) b = mean_of (prod size) o b). { intros b Hb. unfold mean_of. f_equal. apply total_ext. intros s Hss. rewrite (K spread Hs b s Hb Hss). reflexivity. }
    assert (EU : forall b, (b < B)%nat -> mu g B (prod size) scalar om (sample_copy y size j) b = mu g B (prod size) scalar om o b). { intros b Hb. unfold mu. rewrite (average_ext g B _ _ EM), EM by exact Hb. reflexivity. }
    assert (E2 : forall b s, (b < B)%nat -> (s < prod size)%nat -> size2 g B (prod size) scalar om (sample_copy y size j) b s = size2 g B (prod size) scalar om o b s). { intros b s Hb Hss. unfold size2. rewrite EU, (K spread Hs b s Hb Hss) by exact Hb. reflexivity. }
    intros b Hb. specialize (Hs' b Hb). assert (ET : total (prod size) (size2 g B (prod size) scalar om (sample_copy y size j) b) = total (prod size) (size2 g B (prod size) scalar om o b)) by (apply total_ext; intros; apply E2; assumption). destruct (bn_reduce g); [rewrite <- ET; exact Hs'| |rewrite <- ET; exact Hs']. destruct Hs' as ((k & Hk & Ek) & U). split.
    + exists k. split; [exact Hk|]. rewrite <- E2 by assumption. exact Ek.
    + intros k' Hk'. rewrite <- E2 by assumption. apply U, Hk'.
Qed.
