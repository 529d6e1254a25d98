(* batch_norm: one copy, then the loop *)
From Coq Require Import Reals Lra FunctionalExtensionality.
From Verif Require Import PyBase PermModel PermProofs IrrepsModel IrrepsProofs IrrepsProofs2 ArrayModel ArrayProofs ArrayOps RechunkProofs SliceProofs SliceProofs2 ArithProofs LeadModel LeadProofs BlockProofs AxisProofs StackProofs BilinProofs ActProofs EquivProofs EquivProofs2 RotationModel ActivationModel NormActProofs NormModel.
Open Scope nat_scope.

Lemma map_seq_ext {A} (f g : nat -> A) n : (forall k, k < n -> f k = g k) -> map f (seq 0 n) = map g (seq 0 n).
Proof. intros E. apply map_ext_in. intros k Hk. apply in_seq in Hk. apply E. lia. Qed.
Lemma flat_map_seq_ext {A} (f g : nat -> list A) n : (forall k, k < n -> f k = g k) -> flat_map f (seq 0 n) = flat_map g (seq 0 n).
Proof. intros E. rewrite !flat_map_concat_map. f_equal. apply map_seq_ext, E. Qed.

(* ---------- extensionality in the cells that exist ---------- *)
Section Ext.
Variables (g : bn_args) (B S_ : nat) (scalar : bool) (rm rv wt bi : R) (c c' : nat -> nat -> list R).
Hypothesis E : forall b s, b < B -> s < S_ -> c b s = c' b s.
Lemma sample_mean_ext b : b < B -> sample_mean S_ c b = sample_mean S_ c' b.
Proof. intros Hb. unfold sample_mean. f_equal. apply map_seq_ext. intros s Hs. rewrite E by assumption. reflexivity. Qed.
Lemma batch_avg_ext f f' : (forall b, b < B -> f b = f' b) -> batch_avg g B f = batch_avg g B f'.
Proof. intros H. unfold batch_avg. destruct (bn_mask g); [f_equal|]; f_equal; apply map_seq_ext; intros b Hb; rewrite H by exact Hb; reflexivity. Qed.
Lemma batch_mean_ext : batch_mean g B S_ c = batch_mean g B S_ c'.
Proof.
  unfold batch_mean. destruct (bn_mask g) as [m|]; [apply batch_avg_ext, sample_mean_ext|]. f_equal. apply flat_map_seq_ext. intros b Hb. apply map_seq_ext. intros s Hs. rewrite E by assumption. reflexivity.
Qed.
Lemma used_mean_ext b : b < B -> used_mean g B S_ rm c b = used_mean g B S_ rm c' b.
Proof. intros Hb. unfold used_mean. rewrite batch_mean_ext, sample_mean_ext by exact Hb. reflexivity. Qed.
Lemma centered_ext b s : b < B -> s < S_ -> centered g B S_ scalar rm c b s = centered g B S_ scalar rm c' b s.
Proof. intros Hb Hs. unfold centered. rewrite used_mean_ext, E by assumption. reflexivity. Qed.
Lemma reduced_ext b : b < B -> reduced g B S_ scalar rm c b = reduced g B S_ scalar rm c' b.
Proof.
  intros Hb. unfold reduced. replace (map (norm_squared g B S_ scalar rm c b) (seq 0 S_)) with (map (norm_squared g B S_ scalar rm c' b) (seq 0 S_)); [reflexivity|]. apply map_seq_ext. intros s Hs. unfold norm_squared. rewrite centered_ext by assumption. reflexivity.
Qed.
Lemma batch_var_ext : batch_var g B S_ scalar rm c = batch_var g B S_ scalar rm c'.
Proof. apply batch_avg_ext, reduced_ext. Qed.
Lemma bn_copy_ext b s : b < B -> s < S_ -> bn_copy g B S_ scalar rm rv wt bi c b s = bn_copy g B S_ scalar rm rv wt bi c' b s.
Proof. intros Hb Hs. unfold bn_copy, factor, used_var. rewrite batch_var_ext, reduced_ext, centered_ext by assumption. reflexivity. Qed.
Lemma new_mean_ext : new_mean g B S_ rm c = new_mean g B S_ rm c'.
Proof. unfold new_mean. rewrite batch_mean_ext. reflexivity. Qed.
Lemma new_var_ext : new_var g B S_ scalar rm rv c = new_var g B S_ scalar rm rv c'.
Proof. unfold new_var. rewrite batch_var_ext. reflexivity. Qed.
End Ext.

Lemma bn_copy_length g B S_ sc rm rv wt bi c b s : length (bn_copy g B S_ sc rm rv wt bi c b s) = length (c b s).
Proof. unfold bn_copy, centered. destruct (use_affine g && sc), sc; rewrite ?map_length; reflexivity. Qed.

(* ---------- an isometry that fixes the even scalars ---------- *)
Section Iso.
Variables (g : bn_args) (B S_ d : nat) (M : list (list R)) (rm rv wt bi : R) (c : nat -> nat -> list R).
Hypothesis LM : length M = d.
Hypothesis Iso : forall u, length u = d -> dotR (matvec M u) (matvec M u) = dotR u u.
Hypothesis Lc : forall b s, b < B -> s < S_ -> length (c b s) = d.
Let c' b s := matvec M (c b s).
Definition fixes (scalar : bool) : Prop := scalar = true -> forall u, length u = d -> matvec M u = u.
Lemma iso_centered scalar b s : fixes scalar -> b < B -> s < S_ -> centered g B S_ scalar rm c' b s = matvec M (centered g B S_ scalar rm c b s).
Proof.
  intros Fix Hb Hs. destruct scalar; [|reflexivity]. rewrite (centered_ext g B S_ true rm c' c) by (try assumption; intros; apply Fix; auto). unfold centered. rewrite Fix; [reflexivity|reflexivity|]. rewrite map_length. auto.
Qed.
Lemma centered_length scalar b s : b < B -> s < S_ -> length (centered g B S_ scalar rm c b s) = d.
Proof. intros Hb Hs. unfold centered. destruct scalar; rewrite ?map_length; auto. Qed.
Lemma iso_reduced scalar b : fixes scalar -> b < B -> reduced g B S_ scalar rm c' b = reduced g B S_ scalar rm c b.
Proof.
  intros Fix Hb. unfold reduced. replace (map (norm_squared g B S_ scalar rm c' b) (seq 0 S_)) with (map (norm_squared g B S_ scalar rm c b) (seq 0 S_)); [reflexivity|]. apply map_seq_ext. intros s Hs. unfold norm_squared, rsum_list.
  rewrite iso_centered by assumption. fold (sq_sum (centered g B S_ scalar rm c b s)) (sq_sum (matvec M (centered g B S_ scalar rm c b s))). rewrite !sq_sum_dot, Iso by (apply centered_length; assumption). rewrite matvec_length, LM, centered_length by assumption. reflexivity.
Qed.
Lemma iso_batch_var scalar : fixes scalar -> batch_var g B S_ scalar rm c' = batch_var g B S_ scalar rm c.
Proof. intros Fix. apply batch_avg_ext. intros b Hb. apply iso_reduced; assumption. Qed.
Lemma iso_bn_copy scalar b s : fixes scalar -> b < B -> s < S_ -> bn_copy g B S_ scalar rm rv wt bi c' b s = matvec M (bn_copy g B S_ scalar rm rv wt bi c b s).
Proof.
  intros Fix Hb Hs. destruct scalar.
  - rewrite (bn_copy_ext g B S_ true rm rv wt bi c' c) by (try assumption; intros; apply Fix; auto). rewrite Fix; [reflexivity|reflexivity|]. rewrite bn_copy_length. auto.
  - unfold bn_copy. rewrite andb_false_r. unfold factor, used_var. rewrite iso_reduced, iso_centered, iso_batch_var by assumption. rewrite matvec_scale. reflexivity.
Qed.
Lemma iso_new_mean : fixes true -> new_mean g B S_ rm c' = new_mean g B S_ rm c.
Proof. intros Fix. apply new_mean_ext. intros; apply Fix; auto. Qed.
Lemma iso_new_var scalar : fixes scalar -> new_var g B S_ scalar rm rv c' = new_var g B S_ scalar rm rv c.
Proof. intros Fix. unfold new_var. rewrite iso_batch_var by exact Fix. reflexivity. Qed.
End Iso.

(* ---------- the loop, copy by copy ---------- *)
Definition ir0 : irrep := Irrep 0 Even.
(* the number of even scalars among the first j irreps *)
Definition rank (l : list irrep) (j : nat) : nat := length (filter ir_is_scalar (firstn j l)).
Definition copy_flags (x : irreps) (fl : list bool) : list bool := flat_map (fun '(m, f) => repeat f (fst m)) (combine x fl).
Section Loop.
Variables (g : bn_args) (B S_ : nat).
Definition cells (l : list irrep) (a : idx -> list R) (j b s : nat) : list R := nth j (cut l (a [b; s])) [].
Definition out_copy (l : list irrep) (fl : list bool) (a : idx -> list R) (w r j b s : nat) : list R :=
  if nth j fl false then zero_row (ir_dim (nth j l ir0))
  else bn_copy g B S_ (ir_is_scalar (nth j l ir0)) (opt_nth (ra_mean g) (r + rank l j)) (opt_nth (ra_var g) (w + j)) (opt_nth (bn_weight g) (w + j)) (opt_nth (bn_bias g) (r + rank l j)) (cells l a j) b s.
Definition out_mean (l : list irrep) (fl : list bool) (a : idx -> list R) (r j : nat) : R :=
  if nth j fl false then 0%R else new_mean g B S_ (opt_nth (ra_mean g) (r + rank l j)) (cells l a j).
Definition out_var (l : list irrep) (fl : list bool) (a : idx -> list R) (w r j : nat) : R :=
  if nth j fl false then 1%R else new_var g B S_ (ir_is_scalar (nth j l ir0)) (opt_nth (ra_mean g) (r + rank l j)) (opt_nth (ra_var g) (w + j)) (cells l a j).
Definition out_row (l : list irrep) (fl : list bool) (a : idx -> list R) (w r : nat) (i : idx) : list R :=
  concat (map (fun j => out_copy l fl a w r j (nth 0 i 0) (nth 1 i 0)) (seq 0 (length l))).
Definition scalar_places (l : list irrep) : list nat := filter (fun j => ir_is_scalar (nth j l ir0)) (seq 0 (length l)).
Definition scalars_of (l : list irrep) : nat := length (filter ir_is_scalar l).

Lemma seq_split n m : seq 0 (n + m) = seq 0 n ++ map (fun j => n + j) (seq 0 m).
Proof. rewrite seq_app. f_equal. rewrite Nat.add_0_l. clear. induction n as [|n IH]; [rewrite map_id; reflexivity|]. rewrite <- seq_shift, IH, map_map. reflexivity. Qed.
Lemma filter_repeat {A} (f : A -> bool) a n : filter f (repeat a n) = if f a then repeat a n else [].
Proof. induction n as [|n IH]; [destruct (f a); reflexivity|]. cbn [repeat filter]. rewrite IH. destruct (f a); reflexivity. Qed.
Lemma firstn_repeat_le {A} (a : A) j n : j <= n -> firstn j (repeat a n) = repeat a j.
Proof. revert n. induction j as [|j IH]; intros n H; [reflexivity|]. destruct n; [lia|]. cbn [repeat firstn]. rewrite IH by lia. reflexivity. Qed.
Lemma nth_repeat_lt {A} (a d : A) j n : j < n -> nth j (repeat a n) d = a.
Proof. revert n. induction j as [|j IH]; intros [|n] H; try lia; [reflexivity|]. cbn [repeat nth]. apply IH. lia. Qed.
Lemma rank_in ir n l j : j <= n -> rank (repeat ir n ++ l) j = if ir_is_scalar ir then j else 0.
Proof. intros H. unfold rank. rewrite firstn_app, repeat_length. replace (j - n) with 0 by lia. cbn [firstn]. rewrite app_nil_r, firstn_repeat_le by exact H. rewrite filter_repeat. destruct (ir_is_scalar ir); [apply repeat_length|reflexivity]. Qed.
Lemma rank_out ir n l j : rank (repeat ir n ++ l) (n + j) = (if ir_is_scalar ir then n else 0) + rank l j.
Proof. unfold rank. rewrite firstn_app, repeat_length. replace (n + j - n) with j by lia. rewrite firstn_all2 by (rewrite repeat_length; lia). rewrite filter_app, app_length, filter_repeat. destruct (ir_is_scalar ir); [rewrite repeat_length; reflexivity|reflexivity]. Qed.
Lemma cells_in ir n l a j b s : j < n -> cells (repeat ir n ++ l) a j b s = nth j (group_rows n (ir_dim ir) (firstn (n * ir_dim ir) (a [b; s]))) [].
Proof. intros H. unfold cells. rewrite cut_app, dims_repeat, cut_repeat. rewrite app_nth1 by (rewrite group_rows_length; exact H). reflexivity. Qed.
Lemma cells_out ir n l a j b s : cells (repeat ir n ++ l) a (n + j) b s = cells l (fun i => skipn (n * ir_dim ir) (a i)) j b s.
Proof. unfold cells. rewrite cut_app, dims_repeat, cut_repeat. rewrite app_nth2 by (rewrite group_rows_length; lia). rewrite group_rows_length. f_equal. lia. Qed.
Lemma nth_out {A} (a d : A) n l j : nth (n + j) (repeat a n ++ l) d = nth j l d.
Proof. rewrite app_nth2 by (rewrite repeat_length; lia). rewrite repeat_length. f_equal. lia. Qed.
Lemma nth_in {A} (a d : A) n l j : j < n -> nth j (repeat a n ++ l) d = a.
Proof. intros H. rewrite app_nth1 by (rewrite repeat_length; exact H). apply nth_repeat_lt, H. Qed.

(* the part of the rest of the list *)
Lemma cells_out' ir n l a j : cells (repeat ir n ++ l) a (n + j) = cells l (fun i => skipn (n * ir_dim ir) (a i)) j.
Proof. apply functional_extensionality. intros b. apply functional_extensionality. intros s. apply cells_out. Qed.
Lemma out_copy_out ir n l f fl a w r j b s : out_copy (repeat ir n ++ l) (repeat f n ++ fl) a w r (n + j) b s = out_copy l fl (fun i => skipn (n * ir_dim ir) (a i)) (w + n) (r + if ir_is_scalar ir then n else 0) j b s.
Proof. unfold out_copy. rewrite !nth_out, rank_out, !Nat.add_assoc, cells_out'. reflexivity. Qed.
Lemma out_mean_out ir n l f fl a r j : out_mean (repeat ir n ++ l) (repeat f n ++ fl) a r (n + j) = out_mean l fl (fun i => skipn (n * ir_dim ir) (a i)) (r + if ir_is_scalar ir then n else 0) j.
Proof. unfold out_mean. rewrite !nth_out, rank_out, !Nat.add_assoc, cells_out'. reflexivity. Qed.
Lemma out_var_out ir n l f fl a w r j : out_var (repeat ir n ++ l) (repeat f n ++ fl) a w r (n + j) = out_var l fl (fun i => skipn (n * ir_dim ir) (a i)) (w + n) (r + if ir_is_scalar ir then n else 0) j.
Proof. unfold out_var. rewrite !nth_out, rank_out, !Nat.add_assoc, cells_out'. reflexivity. Qed.
Lemma scalar_places_cons ir n l : scalar_places (repeat ir n ++ l) = (if ir_is_scalar ir then seq 0 n else []) ++ map (fun j => n + j) (scalar_places l).
Proof.
  unfold scalar_places. rewrite app_length, repeat_length, seq_split, filter_app. f_equal.
  - replace (filter (fun j => ir_is_scalar (nth j (repeat ir n ++ l) ir0)) (seq 0 n)) with (filter (fun _ => ir_is_scalar ir) (seq 0 n)).
    + destruct (ir_is_scalar ir); generalize (seq 0 n); induction l0 as [|k l0 IH]; cbn; congruence.
    + apply filter_ext_in. intros j Hj. apply in_seq in Hj. rewrite nth_in by lia. reflexivity.
  - generalize (seq 0 (length l)). intros q. induction q as [|k q IH]; [reflexivity|]. cbn [map filter]. rewrite nth_out, IH. destruct (ir_is_scalar (nth k l ir0)); reflexivity.
Qed.
Lemma scalars_of_cons ir n l : scalars_of (repeat ir n ++ l) = (if ir_is_scalar ir then n else 0) + scalars_of l.
Proof. unfold scalars_of. rewrite filter_app, app_length, filter_repeat. destruct (ir_is_scalar ir); rewrite ?repeat_length; reflexivity. Qed.

(* the cells of the first block, as rows of its chunk *)
Lemma chunk_cells s m c (b : idx -> list R) i : chunk_ok s m false (Some c) b -> valid s i -> c_val c i = group_rows (fst m) (ir_dim (snd m)) (b i).
Proof. intros (_ & W & E) Hi. rewrite <- E by exact Hi. symmetry. apply (wf_rows s m c i W Hi). Qed.

Definition bias_index (r : nat) : nat := if use_affine g then r else 0.
Lemma bn_copy_bias scalar rm rv wt bi bi' c b s : use_affine g = false -> bn_copy g B S_ scalar rm rv wt bi c b s = bn_copy g B S_ scalar rm rv wt bi' c b s.
Proof. intros E. unfold bn_copy. rewrite E. reflexivity. Qed.
Lemma nth_map_at {A} (f : nat -> A) n u d : u < n -> nth u (map f (seq 0 n)) d = f u.
Proof. intros Hu. rewrite (nth_indep _ d (f 0)) by (rewrite map_length, seq_length; exact Hu). rewrite map_nth, seq_nth by exact Hu. reflexivity. Qed.
Lemma map_const' {A A'} (d : A') (l : list A) : map (fun _ => d) l = repeat d (length l).
Proof. induction l as [|a l IH]; [reflexivity|]. cbn. congruence. Qed.
(* one chunk *)
Definition chunk_out (ir : irrep) (n : nat) (c : chunk) (w r : nat) : chunk :=
  Chunk [B; S_] n (ir_dim ir) (fun i => map (fun u => bn_copy g B S_ (ir_is_scalar ir) (opt_nth (ra_mean g) (r + u)) (opt_nth (ra_var g) (w + u)) (opt_nth (bn_weight g) (w + u)) (opt_nth (bn_bias g) (bias_index r + u)) (fun b s => nth u (c_val c [b; s]) []) (nth 0 i 0) (nth 1 i 0)) (seq 0 n)).
Lemma valid2 b s : b < B -> s < S_ -> valid [B; S_] [b; s].
Proof. intros. repeat constructor; assumption. Qed.
Lemma valid2_inv i : valid [B; S_] i -> exists b s, i = [b; s] /\ b < B /\ s < S_.
Proof. intros V. inversion V as [|b ? i1 ? Hb V1]; subst. inversion V1 as [|s ? i2 ? Hs V2]; subst. inversion V2; subst. eauto. Qed.
Section OneChunk.
Variables (ir : irrep) (n : nat) (c : chunk) (l : list irrep) (fl : list bool) (a : idx -> list R) (w r : nat).
Hypothesis H : chunk_ok [B; S_] (n, ir) false (Some c) (fun i => firstn (mi_dim (n, ir)) (a i)).
Lemma chunk_cell u b s : u < n -> b < B -> s < S_ -> nth u (c_val c [b; s]) [] = cells (repeat ir n ++ l) a u b s.
Proof. intros Hu Hb Hs. rewrite cells_in by exact Hu. rewrite (chunk_cells _ _ _ _ [b; s] H) by (apply valid2; assumption). reflexivity. Qed.
Lemma chunk_cell_len u b s : u < n -> b < B -> s < S_ -> length (nth u (c_val c [b; s]) []) = ir_dim ir.
Proof. intros Hu Hb Hs. destruct H as (_ & (_ & _ & _ & W) & _). destruct (W [b; s] (valid2 b s Hb Hs)) as (L & F). rewrite Forall_forall in F. apply F, nth_In. cbn [fst] in L. lia. Qed.
Lemma rank_scalar u : u < n -> ir_is_scalar ir = true -> rank (repeat ir n ++ l) u = u.
Proof. intros Hu E. rewrite rank_in by lia. rewrite E. reflexivity. Qed.
Lemma bn_copy_rm rm rm' rv wt bi bi' cc b s : bn_copy g B S_ false rm rv wt bi cc b s = bn_copy g B S_ false rm' rv wt bi' cc b s.
Proof. unfold bn_copy. rewrite andb_false_r. reflexivity. Qed.
Lemma chunk_out_copy u b s : u < n -> b < B -> s < S_ ->
  nth u (c_val (chunk_out ir n c w r) [b; s]) [] = out_copy (repeat ir n ++ l) (repeat false n ++ fl) a w r u b s.
Proof.
  intros Hu Hb Hs. unfold chunk_out. cbn [c_val]. rewrite nth_map_at by exact Hu. cbn [nth]. unfold out_copy. rewrite !nth_in by exact Hu.
  rewrite (bn_copy_ext _ _ _ _ _ _ _ _ _ (cells (repeat ir n ++ l) a u)) by (try assumption; intros; apply chunk_cell; assumption).
  destruct (ir_is_scalar ir) eqn:E; [|apply bn_copy_rm]. rewrite rank_scalar by assumption. unfold bias_index. destruct (use_affine g) eqn:U; [reflexivity|]. apply bn_copy_bias, U.
Qed.
Lemma chunk_out_wf : wf_chunk [B; S_] (n, ir) (chunk_out ir n c w r).
Proof.
  split; [reflexivity|]. split; [reflexivity|]. split; [reflexivity|]. intros i Hi. destruct (valid2_inv i Hi) as (b & s & -> & Hb & Hs). cbn [chunk_out c_val fst snd nth]. rewrite map_length, seq_length. split; [reflexivity|]. apply Forall_map, Forall_forall. intros u Hu. apply in_seq in Hu. rewrite bn_copy_length. apply chunk_cell_len; [lia|assumption|assumption].
Qed.
Lemma chunk_out_mean u : u < n -> ir_is_scalar ir = true -> new_mean g B S_ (opt_nth (ra_mean g) (r + u)) (fun b s => nth u (c_val c [b; s]) []) = out_mean (repeat ir n ++ l) (repeat false n ++ fl) a r u.
Proof. intros Hu E. unfold out_mean. rewrite nth_in, rank_scalar by assumption. apply new_mean_ext. intros. apply chunk_cell; assumption. Qed.
Lemma chunk_out_var u : u < n -> new_var g B S_ (ir_is_scalar ir) (opt_nth (ra_mean g) (r + u)) (opt_nth (ra_var g) (w + u)) (fun b s => nth u (c_val c [b; s]) []) = out_var (repeat ir n ++ l) (repeat false n ++ fl) a w r u.
Proof. intros Hu. unfold out_var. rewrite !nth_in by assumption. rewrite (new_var_ext g B S_ _ _ _ _ (cells (repeat ir n ++ l) a u)) by (intros; apply chunk_cell; assumption). destruct (ir_is_scalar ir) eqn:E; [rewrite rank_scalar by assumption; reflexivity|reflexivity]. Qed.
End OneChunk.
Lemma out_row_cons ir n l f fl a w r b s : out_row (repeat ir n ++ l) (repeat f n ++ fl) a w r [b; s] =
  concat (map (fun u => out_copy (repeat ir n ++ l) (repeat f n ++ fl) a w r u b s) (seq 0 n)) ++ out_row l fl (fun i => skipn (n * ir_dim ir) (a i)) (w + n) (r + if ir_is_scalar ir then n else 0) [b; s].
Proof.
  unfold out_row. cbn [nth]. rewrite app_length, repeat_length, seq_split, map_app, concat_app. f_equal. f_equal. rewrite map_map. apply map_ext. intros j. apply out_copy_out.
Qed.
Lemma map_nth_seq {A} (l : list A) d : map (fun k => nth k l d) (seq 0 (length l)) = l.
Proof. induction l as [|a l IH]; [reflexivity|]. cbn [length seq map nth]. f_equal. rewrite <- seq_shift, map_map. exact IH. Qed.
Lemma bias_step (x : bool) n r : (if x && use_affine g then bias_index r + n else bias_index r) = bias_index (r + if x then n else 0).
Proof. unfold bias_index. destruct x, (use_affine g); cbn [andb]; rewrite ?Nat.add_0_r; reflexivity. Qed.
Lemma ok4 {X Y Z W} (a a' : X) (b b' : Y) (c c' : Z) (d d' : W) : a = a' -> b = b' -> c = c' -> d = d' -> Ok (a, b, c, d) = Ok (a', b', c', d').
Proof. congruence. Qed.
Lemma bn_loop_spec : forall x fl cs a w r, chunks_ok [B; S_] x fl cs a -> Forall2 (fun m f => f = false -> bn_reads g B (ir_is_scalar (snd m)) = Ok tt) x fl ->
  exists cs' ms vs, bn_loop g B S_ (combine x cs) w r (bias_index r) = Ok (cs', ms, vs, (w + length (flat x), r + scalars_of (flat x), bias_index (r + scalars_of (flat x)))) /\
    Forall2 (wf_opt [B; S_]) x cs' /\ map is_none cs' = fl /\
    (forall b s, b < B -> s < S_ -> chunks_row x cs' [b; s] = out_row (flat x) (copy_flags x fl) a w r [b; s]) /\
    ms = map (out_mean (flat x) (copy_flags x fl) a r) (scalar_places (flat x)) /\
    vs = map (out_var (flat x) (copy_flags x fl) a w r) (seq 0 (length (flat x))).
Proof.
  induction x as [|[n ir] x IH]; intros fl cs a w r C RD.
  - destruct fl, cs; try contradiction. exists [], [], []. split; [cbn; rewrite !Nat.add_0_r; reflexivity|]. split; [constructor|]. repeat split.
  - destruct fl as [|f fl]; [contradiction|]. destruct cs as [|c cs]; [contradiction|]. destruct C as (C0 & C). inversion RD as [|? ? ? ? RD0 RD']; subst. cbn [snd] in RD0.
    unfold mi_dim in C. cbn [fst snd] in C. set (r' := r + if ir_is_scalar ir then n else 0) in *. destruct (IH _ _ _ (w + n) r' C RD') as (cs' & ms & vs & E & W & F & V & EM & EV). clear IH C RD RD'.
    rewrite flat_cons. assert (EF : copy_flags ((n, ir) :: x) (f :: fl) = repeat f n ++ copy_flags x fl) by reflexivity. rewrite EF. rewrite scalars_of_cons, app_length, repeat_length, scalar_places_cons, seq_split, !map_app, !map_map.
    assert (E1 : forall m, r + ((if ir_is_scalar ir then n else 0) + m) = r' + m) by (intros; unfold r'; lia). rewrite E1. rewrite Nat.add_assoc.
    assert (EM' : map (fun j => out_mean (repeat ir n ++ flat x) (repeat f n ++ copy_flags x fl) a r (n + j)) (scalar_places (flat x)) = ms) by (rewrite EM; apply map_ext; intros; apply out_mean_out).
    assert (EV' : map (fun j => out_var (repeat ir n ++ flat x) (repeat f n ++ copy_flags x fl) a w r (n + j)) (seq 0 (length (flat x))) = vs) by (rewrite EV; apply map_ext; intros; apply out_var_out).
    rewrite EM', EV'. clear EM' EV' EM EV.
    assert (R1 : (if ir_is_scalar ir then r + n else r) = r') by (unfold r'; destruct (ir_is_scalar ir); lia).
    destruct c as [c|].
    + assert (f = false) as -> by apply C0. specialize (RD0 eq_refl).
      exists (Some (chunk_out ir n c w r) :: cs'), (map (out_mean (repeat ir n ++ flat x) (repeat false n ++ copy_flags x fl) a r) (if ir_is_scalar ir then seq 0 n else []) ++ ms), (map (out_var (repeat ir n ++ flat x) (repeat false n ++ copy_flags x fl) a w r) (seq 0 n) ++ vs).
      split; [|split; [|split; [|split; [|split; reflexivity]]]].
      * cbn [combine bn_loop]. rewrite RD0. cbn [bind]. cbv zeta. rewrite R1, bias_step. fold r'. rewrite E. cbn [bind]. apply ok4; [reflexivity| | |reflexivity].
        -- f_equal. destruct (ir_is_scalar ir) eqn:Es; [|reflexivity]. apply map_seq_ext. intros u Hu. apply chunk_out_mean; assumption.
        -- f_equal. apply map_seq_ext. intros u Hu. apply chunk_out_var; assumption.
      * constructor; [|exact W]. apply (chunk_out_wf ir n c a w r C0).
      * cbn [map is_none]. rewrite F. reflexivity.
      * intros b s Hb Hs. rewrite out_row_cons. fold r'. rewrite <- V by assumption. unfold chunks_row. cbn [combine flat_map]. f_equal. cbn [den]. f_equal.
        rewrite <- (map_nth_seq (c_val (chunk_out ir n c w r) [b; s]) []). replace (length (c_val (chunk_out ir n c w r) [b; s])) with n by (cbn [chunk_out c_val]; rewrite map_length, seq_length; reflexivity). apply map_seq_ext. intros u Hu. apply chunk_out_copy; assumption.
    + cbn in C0. subst f. exists (None :: cs'), (map (out_mean (repeat ir n ++ flat x) (repeat true n ++ copy_flags x fl) a r) (if ir_is_scalar ir then seq 0 n else []) ++ ms), (map (out_var (repeat ir n ++ flat x) (repeat true n ++ copy_flags x fl) a w r) (seq 0 n) ++ vs).
      split; [|split; [|split; [|split; [|split; reflexivity]]]].
      * cbn [combine bn_loop]. cbv zeta. rewrite R1, bias_step. fold r'. rewrite E. cbn [bind]. apply ok4; [reflexivity| | |reflexivity].
        -- f_equal. destruct (ir_is_scalar ir) eqn:Es; [|reflexivity]. transitivity (map (fun _ => 0%R) (seq 0 n)); [rewrite map_const', seq_length; reflexivity|]. apply map_seq_ext. intros u Hu. unfold out_mean. rewrite nth_in by exact Hu. reflexivity.
        -- f_equal. transitivity (map (fun _ => 1%R) (seq 0 n)); [rewrite map_const', seq_length; reflexivity|]. apply map_seq_ext. intros u Hu. unfold out_var. rewrite nth_in by exact Hu. reflexivity.
      * constructor; [exact I|exact W].
      * cbn [map is_none]. rewrite F. reflexivity.
      * intros b s Hb Hs. rewrite out_row_cons. fold r'. rewrite <- V by assumption. unfold chunks_row. cbn [combine flat_map]. f_equal. cbn [den]. transitivity (concat (map (fun _ => zero_row (ir_dim ir)) (seq 0 n))).
        -- rewrite map_const', seq_length. symmetry. apply concat_zeros.
        -- f_equal. apply map_seq_ext. intros u Hu. unfold out_copy. rewrite !nth_in by exact Hu. reflexivity.
Qed.
End Loop.

(* ---------- batch_norm ---------- *)
Lemma copy_flags_length x fl : length fl = length x -> length (copy_flags x fl) = length (flat x).
Proof.
  revert fl. induction x as [|[n ir] x IH]; intros [|f fl] L; try discriminate; [reflexivity|]. rewrite flat_cons, app_length, repeat_length. unfold copy_flags in *. cbn [combine flat_map fst]. rewrite app_length, repeat_length, IH by (cbn in L; lia). reflexivity.
Qed.
Lemma mkIA_flags x s w a z c y : mkIA x s w a (Some z) c = Ok y -> zero_flags y = z.
Proof. unfold mkIA. intros E. do 4 (destruct (negb _); [discriminate|]). injection E as <-. reflexivity. Qed.
Lemma reshape_flags x s y : ia_reshape x s = Ok y -> zero_flags y = zero_flags x.
Proof. unfold ia_reshape, gathered. destruct (negb _); [discriminate|]. apply mkIA_flags. Qed.

(* the arguments that batch_norm needs for an input of B batch entries *)
Record bn_ready (g : bn_args) (B : nat) (x : irreps) (fl : list bool) : Prop := {
  rd_reads : Forall2 (fun m f => f = false -> bn_reads g B (ir_is_scalar (snd m)) = Ok tt) x fl;
  rd_weight : len_ok (bn_weight g) (length (flat x)) = true;
  rd_var : len_ok (ra_var g) (length (flat x)) = true;
  rd_bias : len_ok (bn_bias g) (if use_affine g then scalars_of (flat x) else 0) = true;
  rd_mean : len_ok (ra_mean g) (scalars_of (flat x)) = true;
  rd_some : is_instance g = false -> x <> []
}.
(* the row of batch entry b, sample s *)
Definition bs_row (size : shape) (a : idx -> list R) (i : idx) : list R := a (nth 0 i 0 :: unravel size (nth 1 i 0)).
Definition bn_stats (g : bn_args) (B S_ : nat) (x : irreps) (fl : list bool) (a : idx -> list R) : option (list R * list R) :=
  if is_instance g then None
  else Some (map (out_mean g B S_ (flat x) (copy_flags x fl) a 0) (scalar_places (flat x)), map (out_var g B S_ (flat x) (copy_flags x fl) a 0 0) (seq 0 (length (flat x)))).
Lemma unravel_cons B size b s : s < prod size -> unravel (B :: size) (b * prod size + s) = b :: unravel size s.
Proof. intros Hs. cbn [unravel]. rewrite Nat.div_add_l, Nat.div_small, Nat.add_0_r by lia. rewrite Nat.add_comm, Nat.mod_add, Nat.mod_small by lia. reflexivity. Qed.
Lemma out_row_ext g B S_ l fl a a' w r b s : (forall i, valid [B; S_] i -> a i = a' i) -> b < B -> s < S_ -> out_row g B S_ l fl a w r [b; s] = out_row g B S_ l fl a' w r [b; s].
Proof.
  intros E Hb Hs. unfold out_row. cbn [nth]. f_equal. apply map_ext. intros j. unfold out_copy. destruct (nth j fl false); [reflexivity|]. apply bn_copy_ext; try assumption. intros b' s' Hb' Hs'. unfold cells. rewrite E by (apply valid2; assumption). reflexivity.
Qed.
Lemma out_mean_ext g B S_ l fl a a' r j : (forall i, valid [B; S_] i -> a i = a' i) -> out_mean g B S_ l fl a r j = out_mean g B S_ l fl a' r j.
Proof. intros E. unfold out_mean. destruct (nth j fl false); [reflexivity|]. apply new_mean_ext. intros. unfold cells. rewrite E by (apply valid2; assumption). reflexivity. Qed.
Lemma out_var_ext g B S_ l fl a a' w r j : (forall i, valid [B; S_] i -> a i = a' i) -> out_var g B S_ l fl a w r j = out_var g B S_ l fl a' w r j.
Proof. intros E. unfold out_var. destruct (nth j fl false); [reflexivity|]. apply new_var_ext. intros. unfold cells. rewrite E by (apply valid2; assumption). reflexivity. Qed.

Lemma batch_norm_spec g x B size : coherent x -> lead x = B :: size -> bn_ready g B (irr x) (zero_flags x) ->
  exists y, batch_norm g x = Ok (y, bn_stats g B (prod size) (irr x) (zero_flags x) (bs_row size (arr x))) /\ irr y = irr x /\ lead y = lead x /\ coherent y /\ zero_flags y = zero_flags x /\
    forall b i, valid (B :: size) (b :: i) -> arr y (b :: i) = out_row g B (prod size) (flat (irr x)) (copy_flags (irr x) (zero_flags x)) (bs_row size (arr x)) 0 0 [b; ravel size i].
Proof.
  intros H EL [R1 R2 R3 R4 R5 R6]. unfold batch_norm. rewrite EL.
  assert (P1 : prod [B; prod size] = prod (lead x)) by (rewrite EL, !prod_cons; change (prod []) with 1; lia).
  destruct (reshape_yields x [B; prod size] H P1) as (x1 & E1 & I1 & L1 & H1 & A1). rewrite E1. cbn [bind]. pose proof (reshape_flags _ _ _ E1) as F1.
  pose proof (chunks_chunks_ok x1 H1) as C. rewrite L1, F1, I1 in C. rewrite I1.
  destruct (bn_loop_spec g B (prod size) (irr x) (zero_flags x) (chunks x1) (arr x1) 0 0 C R1) as (cs & ms & vs & E & W & F & V & EM & EV).
  unfold bias_index in E at 1. replace (if use_affine g then 0 else 0) with 0 in E by (destruct (use_affine g); reflexivity). rewrite E. cbn [bind Nat.add]. unfold bias_index. cbn [Nat.add]. rewrite R2, R3, R4, R5. cbn [assert bind].
  destruct (from_chunks_ok _ _ [B; prod size] true W (or_introl eq_refl)) as (y & E2 & I2 & L2 & H2 & A2 & Z2 & C2). rewrite E2. cbn [bind].
  assert (P2 : prod (B :: size) = prod (lead y)) by (rewrite L2, !prod_cons; change (prod []) with 1; lia).
  destruct (reshape_yields y (B :: size) H2 P2) as (z & E3 & I3 & L3 & H3 & A3). rewrite E3. cbn [bind]. pose proof (reshape_flags _ _ _ E3) as F3.
  assert (X : forall i, valid [B; prod size] i -> arr x1 i = bs_row size (arr x) i).
  { intros i Hi. rewrite A1 by exact Hi. destruct (valid2_inv B (prod size) i Hi) as (b & s & -> & Hb & Hs). rewrite EL. unfold bs_row. cbn [nth]. f_equal. cbn [ravel]. rewrite !prod_cons. change (prod []) with 1. rewrite !Nat.mul_1_r, Nat.add_0_r. apply unravel_cons, Hs. }
  assert (ST : bn_stats g B (prod size) (irr x) (zero_flags x) (bs_row size (arr x)) = if is_instance g then None else Some (ms, vs)).
  { unfold bn_stats. destruct (is_instance g); [reflexivity|]. rewrite EM, EV. f_equal. f_equal; apply map_ext; intros j; [apply out_mean_ext|apply out_var_ext]; intros i Hi; symmetry; apply X, Hi. }
  exists z. split; [|split; [congruence|split; [congruence|split; [exact H3|split]]]].
  - rewrite ST. destruct (is_instance g) eqn:EI; [reflexivity|]. specialize (R6 eq_refl). destruct (irr x); [contradiction|reflexivity].
  - rewrite F3. unfold zero_flags at 1. rewrite Z2. exact F.
  - intros b i Hv. rewrite A3 by exact Hv. inversion Hv as [|? ? ? ? Hb Hi]; subst. pose proof (ravel_bound size i Hi) as Hs. rewrite L2. cbn [ravel unravel]. rewrite !prod_cons. change (prod []) with 1. rewrite !Nat.mul_1_r, !Nat.div_1_r. rewrite Nat.div_add_l, Nat.div_small, Nat.add_0_r by lia. rewrite (Nat.add_comm (b * _)), Nat.mod_add, Nat.mod_small by lia.
    rewrite A2 by (apply valid2; assumption). rewrite V by assumption. apply out_row_ext; assumption.
Qed.
