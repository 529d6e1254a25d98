(* The legacy tensor product: the fused evaluation, continued *)
From Coq Require Import Reals Lra Lia List.
From Verif Require Import PyBase PermModel PermProofs IrrepsModel IrrepsProofs IrrepsProofs2 ArrayModel ArrayProofs ArrayOps RechunkProofs ArithProofs BlockProofs LeadModel LeadProofs StackProofs BilinProofs ActProofs EquivProofs EquivProofs2 SumR TPModel LinearModel LinearProofs TPProofs TPProofs2 LinearProps TPProps3 TPProps4 SymProofs2 LegacyModel GSProofs LegacyProofs LegacyProofs2 LegacyProofs3 LegacyProofs4.
From Verif Require Import EntryProofs.
Import ListNotations.
Open Scope nat_scope.

Section Fused.
Variables (cg : coupling) (T : ftp).
Let x := tp_in1 T.
Let y := tp_in2 T.
Let out := tp_out T.

(* what one placement adds to the big tensor *)
Definition added (o : tinstr) (t : nat * (nat * nat * nat)) (q i j k : nat) : R :=
  let '(p, (u, v, w)) := t in
  let a := snd (entry_of x (ti_1 o)) in let b := snd (entry_of y (ti_2 o)) in let c := snd (entry_of out (ti_o o)) in
  let s1 := dim (firstn (ti_1 o) x) + u * ir_dim a in let s2 := dim (firstn (ti_2 o) y) + v * ir_dim b in let so := dim (firstn (ti_o o) out) + w * ir_dim c in
  if ((q =? p) && in_slice (dim x) s1 (ir_dim a) i && in_slice (dim y) s2 (ir_dim b) j && in_slice (dim out) so (ir_dim c) k)%nat
  then (ti_pw o * cg (ir_l a) (ir_l b) (ir_l c) (i - s1)%nat (j - s2)%nat (k - so)%nat)%R else 0%R.
Lemma copy_fits (z : irreps) k m a u : nth_error z k = Some (m, a) -> u < m -> dim (firstn k z) + u * ir_dim a + ir_dim a <= dim z.
Proof. intros E Hu. pose proof (offset_next _ _ _ E) as O. pose proof (offset_total z (S k)) as B. unfold mi_dim in O. cbn [fst snd] in O. nia. Qed.
Lemma slice_fits_in n s d : s + d <= n -> slice_fits n s d = true.
Proof. intros H. unfold slice_fits. rewrite !Nat.min_r by lia. replace (s + d - s) with d by lia. rewrite Nat.eqb_refl. reflexivity. Qed.
Lemma set_all o l : coupled_ins x y out o -> (forall p u v w, In (p, (u, v, w)) l -> u < ti_m1 o /\ v < ti_m2 o /\ w < ti_mo o) -> forall W,
  exists W', foldM (set_w3j cg T o) l W = Ok W' /\ forall q i j k, W' q i j k = (W q i j k + lsum l (fun t => added o t q i j k))%R.
Proof.
  intros (m1 & a & m2 & b & mo & c & E1 & E2 & E3 & _ & M1 & M2 & M3). induction l as [|[p [[u v] w]] l IH]; intros Hl W; [exists W; split; [reflexivity|]; intros; unfold lsum; cbn; ring|].
  destruct (Hl p u v w (in_eq _ _)) as (Bu & Bv & Bw). rewrite M1 in Bu. rewrite M2 in Bv. rewrite M3 in Bw. cbn [foldM]. unfold set_w3j at 1. fold x y out.
  assert (En1 : snd (entry_of x (ti_1 o)) = a) by (unfold entry_of; rewrite (nth_error_nth _ _ _ E1); reflexivity). assert (En2 : snd (entry_of y (ti_2 o)) = b) by (unfold entry_of; rewrite (nth_error_nth _ _ _ E2); reflexivity). assert (En3 : snd (entry_of out (ti_o o)) = c) by (unfold entry_of; rewrite (nth_error_nth _ _ _ E3); reflexivity).
  rewrite En1, En2, En3. rewrite (slice_fits_in _ _ _ (copy_fits _ _ _ _ _ E1 Bu)), (slice_fits_in _ _ _ (copy_fits _ _ _ _ _ E2 Bv)), (slice_fits_in _ _ _ (copy_fits _ _ _ _ _ E3 Bw)). cbn [negb andb bind].
  match goal with |- context [foldM _ l ?W1] => destruct (IH (fun p u v w H => Hl p u v w (in_cons _ _ _ H)) W1) as (W' & EW & V) end.
  exists W'. split; [exact EW|]. intros q i j k. rewrite V, lsum_cons. unfold added at 2. rewrite En1, En2, En3. cbv zeta. ring.
Qed.
(* all instructions; i is the next path index *)
Definition next_path (o : tinstr) (i : nat) : nat := if ti_hw o then i + length (spots o) else i.
Fixpoint all_added (ins : list tinstr) (i : nat) (q a b k : nat) : R :=
  match ins with [] => 0%R | o :: ins => (lsum (places o i) (fun t => added o t q a b k) + all_added ins (next_path o i) q a b k)%R end.
Lemma places_bounds o i p u v w : fusable o -> suits o -> In (p, (u, v, w)) (places o i) -> u < ti_m1 o /\ v < ti_m2 o /\ w < ti_mo o.
Proof. intros F S H. apply spots_in; auto. unfold places in H. destruct (ti_hw o); [apply in_combine_r in H; exact H|]. apply in_map_iff in H as (t & E & H). injection E as _ ->. exact H. Qed.
Lemma fused_all ins : Forall (coupled_ins x y out) ins -> Forall suits ins -> Forall fusable ins -> forall i W,
  exists W', foldM (fused_step cg T) ins (i, W) = Ok (fold_left (fun i o => next_path o i) ins i, W') /\ forall q a b k, W' q a b k = (W q a b k + all_added ins i q a b k)%R.
Proof.
  induction ins as [|o ins IH]; intros HC HS HF i W; [exists W; split; [reflexivity|]; intros; cbn; ring|]. inversion HC as [|? ? Ho HC']; subst. inversion HS as [|? ? So HS']; subst. inversion HF as [|? ? Fo HF']; subst.
  destruct (set_all o (places o i) Ho (fun p u v w => places_bounds o i p u v w Fo So) W) as (W1 & EW1 & V1).
  destruct (IH HC' HS' HF' (next_path o i) W1) as (W' & EW & V). exists W'. split.
  - cbn [foldM fold_left]. unfold fused_step at 1. destruct Ho as (m1 & a & m2 & b & mo & c & E1 & E2 & E3 & _ & M1 & M2 & M3). fold x y out. unfold entry_of. rewrite (nth_error_nth _ _ _ E1), (nth_error_nth _ _ _ E2), (nth_error_nth _ _ _ E3). cbn [fst]. rewrite (fused_places_ok o m1 m2 mo i Fo M1 M2 M3). cbn [bind]. rewrite EW1. cbn [bind]. exact EW.
  - intros q a b k. rewrite V, V1. cbn [all_added]. ring.
Qed.
Lemma paths_used ins i : Forall fusable ins -> fold_left (fun i o => next_path o i) ins i = i + weight_count ins.
Proof.
  intros F. revert i. induction F as [|o ins Fo F IH]; intros i; [cbn; change (weight_count []) with 0; lia|]. cbn [fold_left]. rewrite IH, weight_count_cons. unfold next_path. rewrite spots_length by exact Fo. destruct (ti_hw o); lia.
Qed.

(* the slot of copy z of entry j *)
Lemma slot_unique (z : irreps) k m a w j m' a' w' r : nth_error z k = Some (m, a) -> nth_error z j = Some (m', a') -> w < m -> w' < m' -> r < ir_dim a' ->
  in_slice (dim z) (dim (firstn k z) + w * ir_dim a) (ir_dim a) (dim (firstn j z) + (w' * ir_dim a' + r)) = (k =? j) && (w =? w').
Proof.
  intros Ek Ej Hw Hw' Hr. pose proof (offset_next _ _ _ Ek) as O1. pose proof (offset_next _ _ _ Ej) as O2. unfold mi_dim in O1, O2. cbn [fst snd] in O1, O2. pose proof (copy_fits _ _ _ _ _ Ej Hw') as B. unfold in_slice.
  destruct (Nat.ltb_spec (dim (firstn j z) + (w' * ir_dim a' + r)) (dim z)) as [_|]; [|lia]. rewrite andb_true_r. destruct (Nat.eqb_spec k j) as [E|N].
  - subst k. rewrite Ek in Ej. assert (Ea : m = m' /\ a = a') by (split; congruence). destruct Ea as [Em Ea]. rewrite Ea. destruct (Nat.eqb_spec w w') as [Ew|N]; cbn [andb].
    + rewrite Ew. apply andb_true_iff. split; [apply Nat.leb_le|apply Nat.ltb_lt]; lia.
    + apply andb_false_iff. destruct (Nat.lt_ge_cases w w') as [L|L]; [right; apply Nat.ltb_ge|left; apply Nat.leb_gt]; nia.
  - cbn [andb]. apply andb_false_iff. destruct (Nat.lt_ge_cases k j) as [L|L].
    + right. apply Nat.ltb_ge. pose proof (offset_mono z (S k) j L). nia.
    + left. apply Nat.leb_gt. assert (L' : S j <= k) by lia. pose proof (offset_mono z (S j) k L'). nia.
Qed.
Lemma in_slice_window n s d a : a < n -> in_slice n s d a = (s <=? a) && (a <? s + d).
Proof. intros H. unfold in_slice. destruct (Nat.ltb_spec a n); [apply andb_true_r|lia]. Qed.
(* one placement contracted with the inputs *)
Lemma added_contracts o p u v w q j z kk xa xb : coupled_ins x y out o -> u < ti_m1 o -> v < ti_m2 o -> w < ti_mo o -> inside out j z kk -> length xa = dim x -> length xb = dim y ->
  let k := dim (firstn j out) + (z * ir_dim (snd (nth j out d0)) + kk) in
  let a := snd (nth (ti_1 o) x d0) in let b := snd (nth (ti_2 o) y d0) in let c := snd (nth j out d0) in
  rsum (length xa) (fun e => rsum (length xb) (fun f => added o (p, (u, v, w)) q e f k * nth e xa 0 * nth f xb 0))%R =
  if (q =? p) && (ti_o o =? j) && (w =? z) then (ti_pw o * rsum (ir_dim a) (fun i => rsum (ir_dim b) (fun i' => cg (ir_l a) (ir_l b) (ir_l c) i i' kk * entry x xa (ti_1 o) u i * entry y xb (ti_2 o) v i')))%R else 0%R.
Proof.
  intros (m1 & ia & m2 & ib & mo & ic & E1 & E2 & E3 & _ & M1 & M2 & M3) Hu Hv Hw (mj & ij & Ej & Hz & Hk) La Lb. cbv zeta. rewrite M1 in Hu. rewrite M2 in Hv. rewrite M3 in Hw. rewrite La, Lb. rewrite (nth_error_nth _ _ d0 Ej), (nth_error_nth _ _ d0 E1), (nth_error_nth _ _ d0 E2). cbn [snd].
  unfold added, entry_of. rewrite (nth_error_nth _ _ _ E1), (nth_error_nth _ _ _ E2), (nth_error_nth _ _ _ E3). cbn [snd]. cbv zeta. rewrite (slot_unique out (ti_o o) mo ic w j mj ij z kk E3 Ej Hw Hz Hk).
  set (s1 := dim (firstn (ti_1 o) x) + u * ir_dim ia). set (s2 := dim (firstn (ti_2 o) y) + v * ir_dim ib). set (so := dim (firstn (ti_o o) out) + w * ir_dim ic). set (k := dim (firstn j out) + (z * ir_dim ij + kk)).
  rewrite <- (andb_assoc (q =? p)). destruct (q =? p); cbn [andb]; [|apply rsum_zero; intros; apply rsum_zero; intros; ring].
  destruct ((ti_o o =? j) && (w =? z)) eqn:B.
  - rewrite andb_true_iff, !Nat.eqb_eq in B. destruct B as [Bo Bw]. assert (Eij : ic = ij) by (rewrite Bo in E3; congruence). assert (Ek : k - so = kk) by (unfold k, so; rewrite Bo, Bw, Eij; lia). rewrite Ek. rewrite <- Eij.
    transitivity (rsum (dim x) (fun e => if (s1 <=? e) && (e <? s1 + ir_dim ia) then rsum (dim y) (fun f => if (s2 <=? f) && (f <? s2 + ir_dim ib) then ti_pw o * cg (ir_l ia) (ir_l ib) (ir_l ic) (e - s1)%nat (f - s2)%nat kk * nth e xa 0 * nth f xb 0 else 0)%R else 0%R)).
    + apply rsum_ext. intros e He. rewrite (in_slice_window _ _ _ _ He). destruct ((s1 <=? e) && (e <? s1 + ir_dim ia)); cbn [andb]; [|apply rsum_zero; intros; ring]. apply rsum_ext. intros f Hf. rewrite (in_slice_window _ _ _ _ Hf), andb_true_r. destruct ((s2 <=? f) && (f <? s2 + ir_dim ib)); [reflexivity|ring].
    + rewrite (rsum_window (dim x) s1 (ir_dim ia)) by (apply (copy_fits _ _ _ _ _ E1 Hu)). rewrite <- rsum_scal. apply rsum_ext. intros i Hi. rewrite (rsum_window (dim y) s2 (ir_dim ib)) by (apply (copy_fits _ _ _ _ _ E2 Hv)). rewrite <- rsum_scal. apply rsum_ext. intros i' Hi'.
      replace (s1 + i - s1) with i by lia. replace (s2 + i' - s2) with i' by lia. rewrite !entry_nth; [|exists m2, ib; auto|exists m1, ia; auto]. change (0, Irrep 0 Even) with d0. rewrite (nth_error_nth _ _ d0 E1), (nth_error_nth _ _ d0 E2). cbn [snd]. unfold s1, s2. rewrite !Nat.add_assoc. ring.
  - apply rsum_zero. intros e _. apply rsum_zero. intros f _. rewrite andb_false_r. ring.
Qed.
End Fused.
