(* The legacy tensor product: the fused evaluation *)
From Coq Require Import Reals Lra Lia List.
From Verif Require Import PyBase PermModel PermProofs IrrepsModel IrrepsProofs IrrepsProofs2 ArrayModel ArrayProofs ArrayOps RechunkProofs ArithProofs BlockProofs LeadModel LeadProofs StackProofs BilinProofs ActProofs EquivProofs EquivProofs2 SumR TPModel LinearModel LinearProofs TPProofs TPProofs2 LinearProps TPProps3 TPProps4 SymProofs2 LegacyModel GSProofs LegacyProofs LegacyProofs2 LegacyProofs3.
From Verif Require Import EntryProofs.
Import ListNotations.
Open Scope nat_scope.

(* the instructions that the fused evaluation accepts *)
Definition fusable (o : tinstr) : Prop :=
  match ti_mode o with Uvw | Uvu | Uvv => ti_hw o = true | Uuu | Uvuv => True | _ => False end.

Definition spots (o : tinstr) : list (nat * nat * nat) :=
  let m1 := ti_m1 o in let m2 := ti_m2 o in let mo := ti_mo o in
  match ti_mode o with
  | Uvw => flat_map (fun u => flat_map (fun v => map (fun w => (u, v, w)) (seq 0 mo)) (seq 0 m2)) (seq 0 m1)
  | Uvu => flat_map (fun u => map (fun v => (u, v, u)) (seq 0 m2)) (seq 0 m1)
  | Uvv => flat_map (fun u => map (fun v => (u, v, v)) (seq 0 m2)) (seq 0 m1)
  | Uuu => map (fun u => (u, u, u)) (seq 0 m1)
  | Uvuv => flat_map (fun u => map (fun v => (u, v, u * m2 + v)) (seq 0 m2)) (seq 0 m1)
  | _ => []
  end.
Definition places (o : tinstr) (i : nat) : list (nat * (nat * nat * nat)) :=
  if ti_hw o then combine (seq i (length (spots o))) (spots o) else map (fun t => (0, t)) (spots o).
Lemma fused_places_ok o m1 m2 mo i : fusable o -> ti_m1 o = m1 -> ti_m2 o = m2 -> ti_mo o = mo ->
  fused_places o m1 m2 mo i = Ok (places o i, if ti_hw o then i + length (spots o) else i).
Proof.
  intros F <- <- <-. unfold fusable in F. unfold fused_places, places, spots. destruct (ti_mode o); try contradiction; rewrite ?F; cbn [assert bind]; try reflexivity; destruct (ti_hw o); reflexivity.
Qed.

(* sums over numbered lists *)
Lemma rsum_S n f : rsum (S n) f = (rsum n f + f n)%R.
Proof. reflexivity. Qed.
Lemma numbered_app {A} i (l l' : list A) (G : nat * A -> R) : lsum (combine (seq i (length (l ++ l'))) (l ++ l')) G = (lsum (combine (seq i (length l)) l) G + lsum (combine (seq (i + length l) (length l')) l') G)%R.
Proof.
  revert i. induction l as [|a l IH]; intros i; [cbn [app length]; rewrite Nat.add_0_r; unfold lsum at 2; cbn; lra|]. cbn [app length seq combine]. rewrite !lsum_cons, IH. replace (S i + length l) with (i + S (length l)) by lia. lra.
Qed.
Lemma numbered_flat {A} i n c (g : nat -> list A) G : (forall u, u < n -> length (g u) = c) ->
  lsum (combine (seq i (length (flat_map g (seq 0 n)))) (flat_map g (seq 0 n))) G = rsum n (fun u => lsum (combine (seq (i + u * c) c) (g u)) G).
Proof.
  intros H. induction n as [|n IH]; [reflexivity|]. rewrite seq_S, flat_map_app, numbered_app, IH by (intros; apply H; lia). rewrite rsum_S. cbn [flat_map Nat.add]. rewrite app_nil_r, (H n) by lia. f_equal. f_equal. f_equal. f_equal.
  assert (E : length (flat_map g (seq 0 n)) = n * c). { clear IH. assert (Hn : forall u, u < n -> length (g u) = c) by (intros; apply H; lia). clear H. induction n as [|n IHn]; [reflexivity|]. rewrite seq_S, flat_map_app, app_length, IHn by (intros; apply Hn; lia). cbn [flat_map Nat.add]. rewrite app_nil_r, Hn by lia. lia. }
  rewrite E. reflexivity.
Qed.
Lemma numbered_map {A} i n (f : nat -> A) G : lsum (combine (seq i n) (map f (seq 0 n))) G = rsum n (fun v => G (i + v, f v)).
Proof.
  assert (E : forall s, lsum (combine (seq (i + s) n) (map f (seq s n))) G = rsum n (fun v => G (i + (s + v), f (s + v)))).
  { induction n as [|n IH]; intros s; [reflexivity|]. cbn [seq map combine]. rewrite lsum_cons. replace (S (i + s)) with (i + S s) by lia. rewrite IH. change (S n) with (1 + n). rewrite rsum_add. f_equal; [cbn; rewrite Nat.add_0_r; lra|]. apply rsum_ext. intros k _. replace (s + (1 + k)) with (S s + k) by lia. reflexivity. }
  specialize (E 0). rewrite Nat.add_0_r in E. exact E.
Qed.
Lemma unnumbered_flat {A} n (g : nat -> list A) (G : nat * A -> R) : lsum (map (fun t => (0, t)) (flat_map g (seq 0 n))) G = rsum n (fun u => lsum (map (fun t => (0, t)) (g u)) G).
Proof. induction n as [|n IH]; [reflexivity|]. rewrite seq_S, flat_map_app, map_app, lsum_app, IH, rsum_S. cbn [flat_map Nat.add]. rewrite app_nil_r. reflexivity. Qed.
Lemma unnumbered_map {A} n (f : nat -> A) (G : nat * A -> R) : lsum (map (fun t => (0, t)) (map f (seq 0 n))) G = rsum n (fun v => G (0, f v)).
Proof. induction n as [|n IH]; [reflexivity|]. rewrite seq_S, !map_app, lsum_app, IH, rsum_S. cbn [map Nat.add]. rewrite lsum_cons. unfold lsum. cbn. lra. Qed.
Lemma nprod1 a : nprod [a] = a. Proof. cbn. lia. Qed.
Lemma nprod3 a b c : nprod [a; b; c] = a * b * c. Proof. cbn. lia. Qed.
Lemma nprod2 a b : nprod [a; b] = a * b. Proof. cbn. lia. Qed.
Lemma flat_len {A} n c (g : nat -> list A) : (forall u, u < n -> length (g u) = c) -> length (flat_map g (seq 0 n)) = n * c.
Proof. intros Hn. induction n as [|n IHn]; [reflexivity|]. rewrite seq_S, flat_map_app, app_length, IHn by (intros; apply Hn; lia). cbn [flat_map Nat.add]. rewrite app_nil_r, Hn by lia. lia. Qed.
Lemma spots_length o : fusable o -> length (spots o) = nprod (path_shape o).
Proof.
  unfold fusable, spots, path_shape. destruct (ti_mode o); intros F; try contradiction; cbn [nprod fold_right].
  - rewrite (flat_len _ (ti_m2 o * ti_mo o)) by (intros u _; rewrite (flat_len _ (ti_mo o)) by (intros; rewrite map_length; apply seq_length); reflexivity). lia.
  - rewrite (flat_len _ (ti_m2 o)) by (intros; rewrite map_length; apply seq_length). lia.
  - rewrite (flat_len _ (ti_m2 o)) by (intros; rewrite map_length; apply seq_length). lia.
  - rewrite map_length, seq_length. lia.
  - rewrite (flat_len _ (ti_m2 o)) by (intros; rewrite map_length; apply seq_length). lia.
Qed.
Lemma spots_in o u v w : fusable o -> suits o -> In (u, v, w) (spots o) -> u < ti_m1 o /\ v < ti_m2 o /\ w < ti_mo o.
Proof.
  unfold fusable, suits, spots. intros F M. destruct (ti_mode o); cbn [mode_ok] in M; try contradiction; intros H.
  - apply in_flat_map in H as (a & Ha & H). apply in_flat_map in H as (b & Hb & H). apply in_map_iff in H as (c & E & Hc). apply in_seq in Ha, Hb, Hc. injection E as <- <- <-. lia.
  - apply in_flat_map in H as (a & Ha & H). apply in_map_iff in H as (c & E & Hc). apply in_seq in Ha, Hc. injection E as <- <- <-. lia.
  - apply in_flat_map in H as (a & Ha & H). apply in_map_iff in H as (c & E & Hc). apply in_seq in Ha, Hc. injection E as <- <- <-. lia.
  - apply in_map_iff in H as (c & E & Hc). apply in_seq in Hc. injection E as <- <- <-. lia.
  - apply in_flat_map in H as (a & Ha & H). apply in_map_iff in H as (c & E & Hc). apply in_seq in Ha, Hc. injection E as <- <- <-. split; [lia|]. split; [lia|]. rewrite <- M. nia.
Qed.
(* the placements and the weights give the table of coefficients *)
Lemma places_sum o i (wf : nat -> R) w z (g : nat -> nat -> R) : fusable o -> suits o -> z < ti_mo o ->
  (ti_hw o = true -> forall q, q < nprod (path_shape o) -> wf (i + q) = nth q w 0%R) -> (ti_hw o = false -> wf 0 = 1%R) ->
  lsum (places o i) (fun '(p, (u, v, z')) => if z' =? z then wf p * g u v else 0)%R =
  rsum (ti_m1 o) (fun u => rsum (ti_m2 o) (fun v => coefficient (ti_mode o) (ti_hw o) (ti_m1 o) (ti_m2 o) (ti_mo o) w u v z * g u v))%R.
Proof.
  unfold fusable, suits, places, spots, path_shape. intros F M Hz Hw H0. destruct (ti_mode o); cbn [mode_ok coefficient] in *; try contradiction.
  - rewrite F. rewrite (numbered_flat _ _ (ti_m2 o * ti_mo o)) by (intros; rewrite (flat_len _ (ti_mo o)) by (intros; rewrite map_length; apply seq_length); reflexivity).
    apply rsum_ext. intros u Hu. set (s := i + u * (ti_m2 o * ti_mo o)).
    pose proof (numbered_flat s (ti_m2 o) (ti_mo o) (fun v => map (fun w => (u, v, w)) (seq 0 (ti_mo o))) (fun '(p, (u, v, z')) => if z' =? z then wf p * g u v else 0)%R) as E. rewrite (flat_len _ (ti_mo o)) in E by (intros; rewrite map_length; apply seq_length). rewrite E by (intros; rewrite map_length; apply seq_length).
    apply rsum_ext. intros v Hv. rewrite numbered_map. rewrite rsum_delta by exact Hz. f_equal. unfold s. replace (i + u * (ti_m2 o * ti_mo o) + v * ti_mo o + z) with (i + ((u * ti_m2 o + v) * ti_mo o + z)) by ring. apply Hw; [exact F|]. rewrite nprod3. clear -Hu Hv Hz. assert (Q : u * ti_m2 o + v < ti_m1 o * ti_m2 o) by nia. set (q := u * ti_m2 o + v) in *. set (n := ti_m1 o * ti_m2 o) in *. clearbody q n. nia.
  - rewrite F. rewrite (numbered_flat _ _ (ti_m2 o)) by (intros; rewrite map_length; apply seq_length). apply rsum_ext. intros u Hu. rewrite numbered_map. apply rsum_ext. intros v Hv. rewrite (Nat.eqb_sym z u). destruct (u =? z); [|ring]. f_equal. rewrite <- Nat.add_assoc. apply Hw; [exact F|]. rewrite nprod2. clear -Hu Hv. nia.
  - rewrite F. rewrite (numbered_flat _ _ (ti_m2 o)) by (intros; rewrite map_length; apply seq_length). apply rsum_ext. intros u Hu. rewrite numbered_map. apply rsum_ext. intros v Hv. rewrite (Nat.eqb_sym z v). destruct (v =? z); [|ring]. f_equal. rewrite <- Nat.add_assoc. apply Hw; [exact F|]. rewrite nprod2. clear -Hu Hv. nia.
  - destruct M as [M1 M2]. rewrite <- M1. transitivity (rsum (ti_m1 o) (fun u => if u =? z then (if ti_hw o then nth u w 0%R else 1%R) * g u u else 0)%R).
    + destruct (ti_hw o).
      * rewrite map_length, seq_length, numbered_map. apply rsum_ext. intros u Hu. destruct (u =? z); [|reflexivity]. f_equal. apply Hw; [reflexivity|]. rewrite nprod1. exact Hu.
      * rewrite unnumbered_map. apply rsum_ext. intros u Hu. rewrite H0 by reflexivity. reflexivity.
    + apply rsum_ext. intros u Hu. transitivity (rsum (ti_m1 o) (fun v => if u =? v then (if u =? z then (if ti_hw o then nth u w 0%R else 1%R) * g u v else 0) else 0)%R).
      * rewrite (rsum_diag (ti_m1 o) u (fun v => if u =? z then (if ti_hw o then nth u w 0%R else 1%R) * g u v else 0)%R) by exact Hu. reflexivity.
      * apply rsum_ext. intros v _. rewrite (Nat.eqb_sym z u). destruct (u =? v), (u =? z); cbn [andb]; ring.
  - transitivity (rsum (ti_m1 o) (fun u => rsum (ti_m2 o) (fun v => if u * ti_m2 o + v =? z then (if ti_hw o then nth (u * ti_m2 o + v) w 0%R else 1%R) * g u v else 0)%R)).
    + destruct (ti_hw o).
      * rewrite (numbered_flat _ _ (ti_m2 o)) by (intros; rewrite map_length; apply seq_length). apply rsum_ext. intros u Hu. rewrite numbered_map. apply rsum_ext. intros v Hv. destruct (_ =? z); [|reflexivity]. f_equal. rewrite <- Nat.add_assoc. apply Hw; [reflexivity|]. rewrite nprod2. clear -Hu Hv. nia.
      * rewrite unnumbered_flat. apply rsum_ext. intros u Hu. rewrite unnumbered_map. apply rsum_ext. intros v Hv. rewrite H0 by reflexivity. reflexivity.
    + apply rsum_ext. intros u _. apply rsum_ext. intros v _. rewrite (Nat.eqb_sym z). destruct (Nat.eqb_spec (u * ti_m2 o + v) z) as [E|]; [|ring]. rewrite <- E. reflexivity.
Qed.
