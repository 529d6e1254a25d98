(* The parts that shtp writes are the channels applied to the copies; the array of parts; its equivariance under the matrices that fix the pole. *)
From Coq Require Import Reals ZArith Arith Lia Lra Bool List.
From Verif Require Import PyBase IrrepsModel IrrepsProofs ArrayModel ArrayProofs LeadModel LeadProofs SumR EntryProofs ActProofs EquivProofs CGModel TPProofs TPProofs2.
From Verif Require Import RotationModel WignerModel WignerProofs2 S2Model TpshModel TpshProofs TpshProofs2 ShtpModel ShtpProofs ShtpProofs2.
Import ListNotations.
Open Scope R_scope.

(* ---- the indexed writes ---- *)
Definition writes (z : nat -> nat -> R) (f g : nat -> nat) (v : nat -> R) (n : nat) : nat -> nat -> R :=
  set_at z (map f (seq 0 n)) (map g (seq 0 n)) (map v (seq 0 n)).
Lemma combine_map {A B C} (f : A -> B) (g : A -> C) l : combine (map f l) (map g l) = map (fun a => (f a, g a)) l.
Proof. induction l as [|a l IH]; [reflexivity|cbn; now rewrite IH]. Qed.
Lemma writes_S z f g v n j k : writes z f g v (S n) j k = if ((j =? f n) && (k =? g n))%nat then v n else writes z f g v n j k.
Proof. unfold writes, set_at. rewrite !combine_map, seq_S, map_app, fold_left_app. reflexivity. Qed.
Lemma writes_miss z f g v n j k : (forall t, (t < n)%nat -> ~ (j = f t /\ k = g t)) -> writes z f g v n j k = z j k.
Proof.
  induction n as [|n IH]; intros H; [reflexivity|]. rewrite writes_S, IH by (intros t Ht; apply H; lia). pose proof (H n ltac:(lia)) as Q. destruct (Nat.eqb_spec j (f n)), (Nat.eqb_spec k (g n)); try reflexivity. tauto.
Qed.
Lemma writes_hit z f g v n t j k : (t < n)%nat -> j = f t -> k = g t -> (forall s, (s < n)%nat -> f s = f t -> s = t) -> writes z f g v n j k = v t.
Proof.
  induction n as [|n IH]; intros Ht Ej Ek H; [lia|]. rewrite writes_S. destruct (Nat.eq_dec t n) as [->|N].
  - subst. now rewrite !Nat.eqb_refl.
  - destruct (Nat.eqb_spec j (f n)) as [E|_]; [exfalso; apply N; symmetry; apply H; [lia|congruence]|]. cbn [andb]. apply IH; try assumption; [lia|]. intros s Hs. apply H. lia.
Qed.
Lemma list_tab {A} (l : list A) n f d : length l = n -> (forall t, (t < n)%nat -> nth t l d = f t) -> l = map f (seq 0 n).
Proof. intros L H. change (l = tab n f). rewrite <- (tab_nth l d), L. apply tab_ext. exact H. Qed.
Lemma nth_skipn_at {A} (l : list A) n k d : nth k (skipn n l) d = nth (n + k) l d.
Proof. revert l. induction n as [|n IH]; intros l; [reflexivity|]. destruct l as [|a l]; [destruct k; reflexivity|]. apply IH. Qed.
Lemma nth_firstn_at {A} (l : list A) n k d : (k < n)%nat -> nth k (firstn n l) d = nth k l d.
Proof. revert l k. induction n as [|n IH]; intros l k H; [lia|]. destruct l as [|a l]; [reflexivity|]. destruct k as [|k]; [reflexivity|]. cbn. apply IH. lia. Qed.
Lemma sym_part_at l lz x j k : (l <= lz)%nat -> length x = (2 * l + 1)%nat -> (j < l + 1)%nat -> (k < 2 * lz + 1)%nat ->
  sym_part l lz x j k = if (k =? lz + j)%nat then nth (l + j) x 0 else if (k + j =? lz)%nat then nth (l - j) x 0 else 0.
Proof.
  intros Hl L Hj Hk. unfold sym_part.
  assert (E1 : seq lz (l + 1) = map (fun t => lz + t)%nat (seq 0 (l + 1))) by (apply (list_tab _ _ _ 0%nat); [apply seq_length|intros t Ht; now rewrite seq_nth]).
  assert (E2 : skipn l x = map (fun t => nth (l + t) x 0) (seq 0 (l + 1))) by (apply (list_tab _ _ _ 0); [rewrite skipn_length; lia|intros t Ht; apply nth_skipn_at]).
  assert (E3 : rev (seq 1 l) = map (fun t => l - t)%nat (seq 0 l)) by (apply (list_tab _ _ _ 0%nat); [rewrite rev_length; apply seq_length|intros t Ht; rewrite rev_nth by (rewrite seq_length; lia); rewrite seq_length, seq_nth by lia; lia]).
  assert (E4 : seq (lz - l) l = map (fun t => lz - l + t)%nat (seq 0 l)) by (apply (list_tab _ _ _ 0%nat); [apply seq_length|intros t Ht; now rewrite seq_nth]).
  assert (E5 : firstn l x = map (fun t => nth t x 0) (seq 0 l)) by (apply (list_tab _ _ _ 0); [rewrite firstn_length; lia|intros t Ht; now apply nth_firstn_at]).
  assert (E0 : seq 0 (l + 1) = map (fun t => t) (seq 0 (l + 1))) by (symmetry; apply map_id).
  rewrite E3, E4, E5, E1, E2. rewrite E0 at 1. fold (writes (fun _ _ => 0) (fun t => t) (fun t => lz + t)%nat (fun t => nth (l + t) x 0) (l + 1)). set (z := writes _ _ _ _ (l + 1)). fold (writes z (fun t => l - t)%nat (fun t => lz - l + t)%nat (fun t => nth t x 0) l).
  destruct (Nat.eqb_spec k (lz + j)) as [->|N1]; [|destruct (Nat.eqb_spec (k + j) lz) as [E|N2]].
  - rewrite writes_miss by (intros t Ht; lia). unfold z. exact (writes_hit (fun _ _ => 0) (fun t => t) (fun t => lz + t)%nat (fun t => nth (l + t) x 0) (l + 1) j j (lz + j) Hj eq_refl eq_refl (fun s _ Q => Q)).
  - rewrite (writes_hit _ _ _ _ _ (l - j)) by (try (intros s Hs Q); lia). reflexivity.
  - rewrite writes_miss by (intros t Ht; lia). unfold z. rewrite writes_miss by (intros t Ht; lia). reflexivity.
Qed.
Lemma anti_part_at l lz x j k : (l <= lz)%nat -> length x = (2 * l + 1)%nat -> (j < l)%nat -> (k < 2 * lz + 1)%nat ->
  anti_part l lz x j k = if (k + S j =? lz)%nat then nth (l + S j) x 0 else if (k =? lz + S j)%nat then - nth (l - S j) x 0 else 0.
Proof.
  intros Hl L Hj Hk. unfold anti_part.
  assert (E1 : rev (seq (lz - l) l) = map (fun t => lz - 1 - t)%nat (seq 0 l)) by (apply (list_tab _ _ _ 0%nat); [rewrite rev_length; apply seq_length|intros t Ht; rewrite rev_nth by (rewrite seq_length; lia); rewrite seq_length, seq_nth by lia; lia]).
  assert (E2 : skipn (l + 1) x = map (fun t => nth (l + 1 + t) x 0) (seq 0 l)) by (apply (list_tab _ _ _ 0); [rewrite skipn_length; lia|intros t Ht; apply nth_skipn_at]).
  assert (E4 : seq (lz + 1) l = map (fun t => lz + 1 + t)%nat (seq 0 l)) by (apply (list_tab _ _ _ 0%nat); [apply seq_length|intros t Ht; now rewrite seq_nth]).
  assert (E5 : rev (map Ropp (firstn l x)) = map (fun t => - nth (l - 1 - t) x 0) (seq 0 l)).
  { apply (list_tab _ _ _ 0); [rewrite rev_length, map_length, firstn_length; lia|]. intros t Ht. rewrite rev_nth by (rewrite map_length, firstn_length; lia). rewrite map_length, firstn_length, Nat.min_l by lia. rewrite (nth_map_at _ _ _ 0) by (rewrite firstn_length; lia). rewrite nth_firstn_at by lia. f_equal. f_equal. lia. }
  rewrite E1, E2, E4, E5. rewrite <- (map_id (seq 0 l)) at 1 4. fold (writes (fun _ _ => 0) (fun t => t) (fun t => lz - 1 - t)%nat (fun t => nth (l + 1 + t) x 0) l). set (z := writes (fun _ _ => 0) _ _ _ l). fold (writes z (fun t => t) (fun t => lz + 1 + t)%nat (fun t => - nth (l - 1 - t) x 0) l).
  destruct (Nat.eqb_spec (k + S j) lz) as [E|N1]; [|destruct (Nat.eqb_spec k (lz + S j)) as [->|N2]].
  - rewrite writes_miss by (intros t Ht; lia). unfold z. rewrite (writes_hit _ _ _ _ _ j) by (try (intros s Hs Q); lia). f_equal. lia.
  - rewrite (writes_hit _ _ _ _ _ j) by (try (intros s Hs Q); lia). f_equal. f_equal. lia.
  - rewrite writes_miss by (intros t Ht; lia). unfold z. rewrite writes_miss by (intros t Ht; lia). reflexivity.
Qed.
(* ---- one part ---- *)
Lemma flat_map_concat_map' {A B} (f : A -> list B) l : flat_map f l = concat (map f l).
Proof. induction l as [|a l IH]; [reflexivity|cbn; now rewrite IH]. Qed.
Lemma part_ok sym mul a b c : wf_chunk [] (mul, a) c -> let n := nchan sym (ir_l a) (ir_l b) in let o := part sym mul a b c in
  fst o = (mul * n, b)%nat /\ wf_chunk [] (fst o) (snd o) /\
  forall w k, (w < mul * n)%nat -> (k < ir_dim b)%nat -> nth k (nth w (c_val (snd o) []) []) 0 = rsum (ir_dim a) (fun i => band sym (ir_l a) (ir_l b) (w mod n) k i * nth i (nth (w / n) (c_val c []) []) 0).
Proof.
  intros (_ & _ & _ & Wv). cbn [fst snd] in Wv. intros n o. set (lx := ir_l a) in *. set (lz := ir_l b) in *. set (l := Nat.min lx lz).
  assert (En : (if sym then (l + 1)%nat else l) = n) by (unfold n, nchan, l; destruct sym; lia).
  assert (Da : ir_dim a = (2 * lx + 1)%nat) by reflexivity. assert (Db : ir_dim b = (2 * lz + 1)%nat) by reflexivity.
  pose (g := fun row => map (fun j => tab (ir_dim b) ((if sym then sym_part else anti_part) l lz (sl_row lx l row) j)) (seq 0 n)).
  assert (Eo : o = ((mul * n, b)%nat, Chunk [] (mul * n) (ir_dim b) (fun i => flat_map g (c_val c i)))) by (unfold o, part; cbv zeta; fold lx lz; fold l; rewrite En; reflexivity).
  rewrite Eo. clear Eo o.
  assert (U : forall i, Forall (fun r => length r = n) (map g (c_val c i))) by (intros i; apply Forall_map, Forall_forall; intros row _; unfold g; now rewrite map_length, seq_length).
  split; [reflexivity|]. split.
  - split; [reflexivity|split; [reflexivity|split; [reflexivity|]]]. intros i Hi. cbn [fst snd c_val]. rewrite flat_map_concat_map'. split.
    + rewrite (concat_length_uniform _ _ (U i)), map_length. destruct (Wv i Hi) as [-> _]. lia.
    + apply Forall_concat. apply Forall_map, Forall_forall. intros row _. unfold g. apply Forall_map, Forall_forall. intros j _. apply tab_length.
  - intros w k Hw Hk. cbn [fst snd c_val]. destruct (Wv [] ltac:(constructor)) as [L F]. rewrite flat_map_concat_map'. assert (Hn : (n <> 0)%nat) by (intros Z; rewrite Z in Hw; lia).
    pose proof (Nat.mod_upper_bound w n Hn) as Hm. assert (Hd : (w / n < mul)%nat) by (apply Nat.div_lt_upper_bound; lia).
    rewrite (Nat.div_mod w n Hn) at 1. rewrite (Nat.mul_comm n). rewrite (nth_concat n _ _ _ _ (U [])) by (rewrite ?map_length, ?L; assumption). rewrite (nth_map_at _ _ _ []) by (rewrite L; exact Hd). set (row := nth (w / n) (c_val c []) []). unfold g.
    assert (Lr : length row = (2 * lx + 1)%nat). { rewrite Forall_forall in F. rewrite <- Da. apply F. apply nth_In. now rewrite L. }
    rewrite (nth_map_at _ _ _ 0%nat) by (rewrite seq_length; exact Hm). rewrite seq_nth by exact Hm. cbn [Nat.add]. rewrite nth_tab by exact Hk. set (x := sl_row lx l row). set (j := (w mod n)%nat) in *.
    assert (Lx : length x = (2 * l + 1)%nat) by (unfold x, sl_row; rewrite firstn_length, skipn_length, Lr; unfold l; lia).
    assert (Nx : forall t, (t < 2 * l + 1)%nat -> nth t x 0 = nth (lx - l + t) row 0) by (intros t Ht; unfold x, sl_row; rewrite nth_firstn_at by exact Ht; apply nth_skipn_at).
    rewrite Da. rewrite (band_sum_r sym lx lz j k (fun i => nth i row 0)) by (rewrite <- ?Db; assumption).
    assert (Hl : (l <= lz)%nat) by (unfold l; lia). rewrite Db in Hk. unfold n, nchan in Hm. fold l in Hm. destruct sym.
    + rewrite sym_part_at by (assumption || lia). rewrite !Nx by lia. destruct (k =? lz + j)%nat; [f_equal; unfold l in *; lia|]. destruct (k + j =? lz)%nat; [f_equal; unfold l in *; lia|reflexivity].
    + rewrite anti_part_at by (assumption || lia). rewrite !Nx by lia. destruct (k + S j =? lz)%nat; [f_equal; unfold l in *; lia|]. destruct (k =? lz + S j)%nat; [f_equal; f_equal; unfold l in *; lia|reflexivity].
Qed.
