(* The parts of LinearSHTP as combinations of the bands. *)
From Coq Require Import Reals ZArith Arith Lia Lra Bool List.
From Verif Require Import PyBase IrrepsModel IrrepsProofs ArrayModel ArrayProofs ArrayOps RechunkProofs LeadModel LeadProofs SumR EntryProofs ActProofs EquivProofs CGModel TPProofs TPProofs2.
From Verif Require Import RotationModel RotationProofs RotationProofs2 WignerModel WignerProofs2 S2Model SHModel SHProofs TpshModel TpshProofs TpshProofs2 TpshProofs3 ShtpModel ShtpProofs ShtpProofs2 ShtpProofs3 LinShtpModel.
Import ListNotations.
Open Scope R_scope.

Definition sgn (sym : bool) : R := if sym then 1 else -1.
Lemma spread_sym l w t : (t < 2 * l + 1)%nat -> nth t (spread true l w) 0 = w (if (t <=? l)%nat then l - t else t - l)%nat.
Proof.
  intros Ht. unfold spread. cbv zeta. set (ws := map w (seq 0 (l + 1))). assert (Lw : length ws = (l + 1)%nat) by (unfold ws; now rewrite map_length, seq_length).
  assert (Nw : forall k, (k < l + 1)%nat -> nth k ws 0 = w k) by (intros k Hk; unfold ws; rewrite (nth_map_at _ _ _ 0%nat) by (rewrite seq_length; exact Hk); now rewrite seq_nth).
  destruct (Nat.leb_spec t l).
  - rewrite app_nth1 by (rewrite rev_length; lia). rewrite rev_nth by lia. rewrite Lw, Nw by lia. f_equal. lia.
  - rewrite app_nth2 by (rewrite rev_length; lia). rewrite rev_length, Lw. replace (nth (t - (l + 1)) (tl ws) 0) with (nth (S (t - (l + 1))) ws 0) by (destruct ws; [now destruct (t - (l + 1))%nat|reflexivity]). rewrite Nw by lia. f_equal. lia.
Qed.
Lemma spread_anti l w t : (t < 2 * l + 1)%nat -> nth t (spread false l w) 0 = if (t <? l)%nat then - w (l - 1 - t)%nat else if (t =? l)%nat then 0 else w (t - l - 1)%nat.
Proof.
  intros Ht. unfold spread. cbv zeta. set (ws := map w (seq 0 l)). assert (Lw : length ws = l) by (unfold ws; now rewrite map_length, seq_length).
  assert (Nw : forall k, (k < l)%nat -> nth k ws 0 = w k) by (intros k Hk; unfold ws; rewrite (nth_map_at _ _ _ 0%nat) by (rewrite seq_length; exact Hk); now rewrite seq_nth).
  destruct (Nat.ltb_spec t l).
  - rewrite app_nth1 by (rewrite map_length, rev_length; lia). rewrite (nth_map_at _ _ _ 0) by (rewrite rev_length; lia). rewrite rev_nth by lia. rewrite Lw, Nw by lia. f_equal. f_equal. lia.
  - rewrite app_nth2 by (rewrite map_length, rev_length; lia). rewrite map_length, rev_length, Lw. destruct (Nat.eqb_spec t l) as [->|N]; [now rewrite Nat.sub_diag|]. replace (t - l)%nat with (S (t - l - 1)) by lia. cbn [app nth]. rewrite Nw by lia. f_equal. lia.
Qed.
Lemma widen_at l lz f k : (l <= lz)%nat -> (k < 2 * lz + 1)%nat -> nth k (widen l lz (tab (2 * l + 1) f)) 0 = if (lz - l <=? k)%nat && (k <? lz + l + 1)%nat then f (k - (lz - l))%nat else 0.
Proof.
  intros Hl Hk. unfold widen. destruct (Nat.ltb_spec l lz).
  - rewrite nth_tab by exact Hk. destruct (Nat.leb_spec (lz - l) k); [|reflexivity]. destruct (Nat.ltb_spec k (lz + l + 1)); [|reflexivity]. cbn [andb]. apply nth_tab. lia.
  - assert (l = lz) by lia. subst lz. rewrite nth_tab by exact Hk. replace (l - l)%nat with 0%nat by lia. cbn [Nat.leb andb]. destruct (Nat.ltb_spec k (l + l + 1)); [|lia]. f_equal. lia.
Qed.
Lemma widen_length l lz f : (l <= lz)%nat -> length (widen l lz (tab (2 * l + 1) f)) = (2 * lz + 1)%nat.
Proof. intros H. unfold widen. destruct (Nat.ltb_spec l lz); rewrite tab_length; lia. Qed.
(* one row and one column of the parameter *)
Lemma one_row_channels (sym : bool) a b row (w : nat -> R) k : length row = ir_dim a -> (k < ir_dim b)%nat -> let l := Nat.min (ir_l a) (ir_l b) in let lz := ir_l b in
  (if (lz - l <=? k)%nat && (k <? lz + l + 1)%nat then nth (k - (lz - l)) (read_row sym (ir_l a) l row) 0 * nth (k - (lz - l)) (spread sym l w) 0 else 0)
  = rsum (nchan sym (ir_l a) (ir_l b)) (fun c => sgn sym * w c * rsum (ir_dim a) (fun i => band sym (ir_l a) (ir_l b) c k i * nth i row 0)).
Proof.
  intros Lr Hk l lz. change (ir_dim a) with (2 * ir_l a + 1)%nat in *. change (ir_dim b) with (2 * ir_l b + 1)%nat in Hk. set (lx := ir_l a) in *. fold lz in Hk |- *.
  set (x := sl_row lx l row).
  assert (Lx : length x = (2 * l + 1)%nat) by (unfold x, sl_row; rewrite firstn_length, skipn_length, Lr; unfold l; lia).
  assert (Nx : forall t, (t < 2 * l + 1)%nat -> nth t x 0 = nth (lx - l + t) row 0) by (intros t Ht; unfold x, sl_row; rewrite nth_firstn_at by exact Ht; apply nth_skipn_at).
  assert (Hl : (l <= lz)%nat) by (unfold l; lia). assert (Hlx : (l <= lx)%nat) by (unfold l; lia).
  rewrite (rsum_ext _ _ (fun c => sgn sym * w c * (if sym then (if (k =? lz + c)%nat then nth (lx + c) row 0 else if (k + c =? lz)%nat then nth (lx - c) row 0 else 0) else (if (k + S c =? lz)%nat then nth (lx + S c) row 0 else if (k =? lz + S c)%nat then - nth (lx - S c) row 0 else 0)))).
  2: { intros c Hc. f_equal. rewrite (band_sum_r sym lx lz c k (fun i => nth i row 0)) by assumption. destruct sym; reflexivity. }
  destruct sym; cbn [sgn read_row]; fold x.
  - replace (nchan true lx lz) with (l + 1)%nat by (unfold nchan, l; lia). destruct (Nat.leb_spec (lz - l) k); [destruct (Nat.ltb_spec k (lz + l + 1))|]; cbn [andb].
    + rewrite spread_sym by lia. rewrite Nx by lia. destruct (Nat.leb_spec (k - (lz - l)) l).
      * rewrite (rsum_pick _ (lz - k)); [|lia|intros c Hc N; nb; ring]. replace (l - (k - (lz - l)))%nat with (lz - k)%nat by lia. destruct (Nat.eqb_spec k (lz + (lz - k))); [|destruct (Nat.eqb_spec (k + (lz - k)) lz); [|lia]]; [replace (lx + (lz - k))%nat with (lx - l + (k - (lz - l)))%nat by lia; ring|replace (lx - (lz - k))%nat with (lx - l + (k - (lz - l)))%nat by lia; ring].
      * rewrite (rsum_pick _ (k - lz)); [|lia|intros c Hc N; nb; ring]. replace (k - (lz - l) - l)%nat with (k - lz)%nat by lia. destruct (Nat.eqb_spec k (lz + (k - lz))); [|lia]. replace (lx + (k - lz))%nat with (lx - l + (k - (lz - l)))%nat by lia. ring.
    + rewrite rsum_zero; [reflexivity|]. intros c Hc. nb; ring.
    + rewrite rsum_zero; [reflexivity|]. intros c Hc. nb; ring.
  - replace (nchan false lx lz) with l by (unfold nchan, l; lia). destruct (Nat.leb_spec (lz - l) k); [destruct (Nat.ltb_spec k (lz + l + 1))|]; cbn [andb].
    + rewrite spread_anti by lia. rewrite rev_nth by lia. rewrite Lx, Nx by lia. destruct (Nat.ltb_spec (k - (lz - l)) l); [|destruct (Nat.eqb_spec (k - (lz - l)) l)].
      * rewrite (rsum_pick _ (lz - k - 1)); [|lia|intros c Hc N; nb; ring]. destruct (Nat.eqb_spec (k + S (lz - k - 1)) lz); [|lia]. replace (l - 1 - (k - (lz - l)))%nat with (lz - k - 1)%nat by lia. replace (lx - l + (2 * l + 1 - S (k - (lz - l))))%nat with (lx + S (lz - k - 1))%nat by lia. ring.
      * rewrite rsum_zero; [ring|]. intros c Hc. nb; ring.
      * rewrite (rsum_pick _ (k - lz - 1)); [|lia|intros c Hc N; nb; ring]. destruct (Nat.eqb_spec (k + S (k - lz - 1)) lz); [lia|]. destruct (Nat.eqb_spec k (lz + S (k - lz - 1))); [|lia]. replace (k - (lz - l) - l - 1)%nat with (k - lz - 1)%nat by lia. replace (lx - l + (2 * l + 1 - S (k - (lz - l))))%nat with (lx - S (k - lz - 1))%nat by lia. ring.
    + rewrite rsum_zero; [reflexivity|]. intros c Hc. nb; ring.
    + rewrite rsum_zero; [reflexivity|]. intros c Hc. nb; ring.
Qed.
Lemma mix_part_at sym mul mulz a b w c v k : wf_chunk [] (mul, a) c -> (v < mulz)%nat -> (k < ir_dim b)%nat ->
  nth k (nth v (c_val (mix_part sym mul mulz a b w c) []) []) 0 = rsum mul (fun u => rsum (nchan sym (ir_l a) (ir_l b)) (fun n => sgn sym * w n u v * rsum (ir_dim a) (fun i => band sym (ir_l a) (ir_l b) n k i * nth i (nth u (c_val c []) []) 0))).
Proof.
  intros (_ & _ & _ & Wv) Hv Hk. cbn [fst snd] in Wv. destruct (Wv [] ltac:(constructor)) as [L F]. unfold mix_part. cbv zeta. cbn [c_val]. rewrite (nth_map_at _ _ _ 0%nat) by (rewrite seq_length; exact Hv). rewrite seq_nth by exact Hv. cbn [Nat.add]. rewrite widen_at by (try exact Hk; lia).
  rewrite (rsum_ext mul (fun u => rsum (nchan _ _ _) _) (fun u => if (ir_l b - Nat.min (ir_l a) (ir_l b) <=? k)%nat && (k <? ir_l b + Nat.min (ir_l a) (ir_l b) + 1)%nat then nth (k - (ir_l b - Nat.min (ir_l a) (ir_l b))) (read_row sym (ir_l a) (Nat.min (ir_l a) (ir_l b)) (nth u (c_val c []) [])) 0 * nth (k - (ir_l b - Nat.min (ir_l a) (ir_l b))) (spread sym (Nat.min (ir_l a) (ir_l b)) (fun n => w n u v)) 0 else 0)).
  - destruct (_ && _)%bool; [reflexivity|]. symmetry. now apply rsum_zero.
  - intros u Hu. symmetry. apply (one_row_channels sym a b (nth u (c_val c []) []) (fun n => w n u v) k); [|exact Hk]. rewrite Forall_forall in F. apply F, nth_In. now rewrite L.
Qed.
Lemma keep_part_at sym mul a b w c v k : wf_chunk [] (mul, a) c -> (v < mul)%nat -> (k < ir_dim b)%nat ->
  nth k (nth v (c_val (keep_part sym mul a b w c) []) []) 0 = rsum (nchan sym (ir_l a) (ir_l b)) (fun n => sgn sym * w n v * rsum (ir_dim a) (fun i => band sym (ir_l a) (ir_l b) n k i * nth i (nth v (c_val c []) []) 0)).
Proof.
  intros (_ & _ & _ & Wv) Hv Hk. cbn [fst snd] in Wv. destruct (Wv [] ltac:(constructor)) as [L F]. unfold keep_part. cbv zeta. cbn [c_val]. rewrite (nth_map_at _ _ _ 0%nat) by (rewrite seq_length; exact Hv). rewrite seq_nth by exact Hv. cbn [Nat.add]. rewrite widen_at by (try exact Hk; lia).
  apply (one_row_channels sym a b (nth v (c_val c []) []) (fun n => w n v) k); [|exact Hk]. rewrite Forall_forall in F. apply F, nth_In. now rewrite L.
Qed.
Lemma keep_part_wf sym mul a b w c : wf_chunk [] (mul, b) (keep_part sym mul a b w c).
Proof.
  split; [reflexivity|split; [reflexivity|split; [reflexivity|]]]. intros i Hi. cbn [fst snd keep_part c_val]. split; [now rewrite map_length, seq_length|]. apply Forall_map, Forall_forall. intros u _. apply widen_length. lia.
Qed.
