(* The sum over the kernel is a sum over the voxels of the grid. *)
From Coq Require Import Reals ZArith Arith Lia Lra Bool List Permutation.
From Verif Require Import PyBase IrrepsModel IrrepsProofs NormModel NormProofs ArrayModel ArrayProofs LeadModel LeadProofs SumR CGModel ActProofs EquivProofs EntryProofs TPModel TPProofs LinearModel LinearProofs LinearProps BlockProofs ConvProps2 TransformerProps4.
From Verif Require Import LegacyModel LegacyProofs LegacyProofs2 RadialModel GradProofs RotationModel WignerModel S2Model SHModel.
From Verif Require Import VconvModel VconvProofs VconvProofs2.
Import ListNotations.
Open Scope R_scope.

(* ---- voxels ---- *)
Definition voxel := (nat * nat * nat)%type.
Definition box (X Y Z : nat) : list voxel := list_prod (list_prod (seq 0 X) (seq 0 Y)) (seq 0 Z).
Definition at_voxel (n : nat) (q : voxel) : idx := let '(a, b, c) := q in [n; a; b; c].
Definition displacement (steps : nat -> R) (p q : voxel) : list R :=
  let '(a, b, c) := p in let '(a', b', c') := q in [(INR a' - INR a) * steps 0%nat; (INR b' - INR b) * steps 1%nat; (INR c' - INR c) * steps 2%nat].
Definition voxel_eqb (p q : voxel) : bool := let '(a, b, c) := p in let '(a', b', c') := q in ((a =? a') && (b =? b') && (c =? c'))%nat.
Lemma voxel_eqb_eq p q : voxel_eqb p q = true <-> p = q.
Proof. destruct p as [[a b] c], q as [[a' b'] c']. unfold voxel_eqb. rewrite !andb_true_iff, !Nat.eqb_eq. split; [intros [[-> ->] ->]; reflexivity|intros E; injection E as -> -> ->; auto]. Qed.
Lemma in_box X Y Z a b c : In (a, b, c) (box X Y Z) <-> (a < X /\ b < Y /\ c < Z)%nat.
Proof. unfold box. rewrite !in_prod_iff, !in_seq. lia. Qed.
Lemma nodup_on {A B} (f : A -> B) (l : list A) : NoDup l -> (forall a b, In a l -> In b l -> f a = f b -> a = b) -> NoDup (map f l).
Proof.
  intros N H. induction N as [|a l Ha N IH]; [constructor|]. cbn [map]. constructor.
  - intros Q. apply in_map_iff in Q as (b & E & Hb). apply Ha. rewrite (H a b); auto; [now left|now right].
  - apply IH. intros x y Hx Hy. apply H; now right.
Qed.
Lemma nodup_app {A} (l m : list A) : NoDup l -> NoDup m -> (forall a, In a l -> ~ In a m) -> NoDup (l ++ m).
Proof.
  intros N M H. induction N as [|a l Ha N IH]; [exact M|]. cbn [app]. constructor.
  - rewrite in_app_iff. intros [Q|Q]; [auto|apply (H a); [now left|exact Q]].
  - apply IH. intros b Hb. apply H. now right.
Qed.
Lemma nodup_prod {A B} (l : list A) (m : list B) : NoDup l -> NoDup m -> NoDup (list_prod l m).
Proof.
  intros N M. induction N as [|a l Ha N IH]; [constructor|]. cbn [list_prod]. apply nodup_app; [|exact IH|].
  - apply nodup_on; [exact M|]. intros x y _ _ E. now injection E.
  - intros [x y] H1 H2. apply in_map_iff in H1 as (z & E & _). injection E as -> ->. apply in_prod_iff in H2 as [H2 _]. contradiction.
Qed.
Lemma nodup_box X Y Z : NoDup (box X Y Z).
Proof. unfold box. apply nodup_prod; [apply nodup_prod|]; apply seq_NoDup. Qed.
Lemma prod_flat {A B} (l : list A) (m : list B) : list_prod l m = flat_map (fun a => map (fun b => (a, b)) m) l.
Proof. induction l as [|a l IH]; [reflexivity|]. cbn [list_prod flat_map]. now rewrite IH. Qed.
Lemma map_flat_map {A B D} (f : B -> D) (g : A -> list B) l : map f (flat_map g l) = flat_map (fun a => map f (g a)) l.
Proof. induction l as [|a l IH]; [reflexivity|]. cbn [flat_map]. now rewrite map_app, IH. Qed.
Lemma filter_flat_map {A B} (f : B -> bool) (g : A -> list B) l : filter f (flat_map g l) = flat_map (fun a => filter f (g a)) l.
Proof. induction l as [|a l IH]; [reflexivity|]. cbn [flat_map]. now rewrite filter_app, IH. Qed.
Lemma flat_flat_map {A B D} (f : B -> list D) (g : A -> list B) l : flat_map f (flat_map g l) = flat_map (fun a => flat_map f (g a)) l.
Proof. induction l as [|a l IH]; [reflexivity|]. cbn [flat_map]. now rewrite flat_map_app, IH. Qed.
Lemma flat_map_map {A B D} (f : B -> list D) (g : A -> B) l : flat_map f (map g l) = flat_map (fun a => f (g a)) l.
Proof. induction l as [|a l IH]; [reflexivity|]. cbn [map flat_map]. now rewrite IH. Qed.
Lemma flat_if {A B} (p : A -> bool) (f : A -> B) l : flat_map (fun a => if p a then [f a] else []) l = map f (filter p l).
Proof. induction l as [|a l IH]; [reflexivity|]. cbn [flat_map filter]. rewrite IH. destruct (p a); reflexivity. Qed.
Lemma nested {B} (ok : nat -> nat -> nat -> bool) (f : nat -> nat -> nat -> B) la lb lc :
  flat_map (fun a => flat_map (fun b => flat_map (fun c => if ok a b c then [f a b c] else []) lc) lb) la =
  map (fun '(a, b, c) => f a b c) (filter (fun '(a, b, c) => ok a b c) (list_prod (list_prod la lb) lc)).
Proof.
  rewrite <- flat_if. rewrite (prod_flat (list_prod la lb) lc), flat_flat_map. rewrite (prod_flat la lb), flat_flat_map. apply flat_map_ext. intros a. rewrite flat_map_map. apply flat_map_ext. intros b. rewrite flat_map_map. reflexivity.
Qed.
(* ---- the window ---- *)
Section W.
Variables (s : nat -> nat) (X Y Z : nat) (p : voxel).
Definition offset_ok (a b c : nat) : bool := let '(p0, p1, p2) := p in
  ((s 0 <=? p0 + a) && (p0 + a - s 0 <? X) && (s 1 <=? p1 + b) && (p1 + b - s 1 <? Y) && (s 2 <=? p2 + c) && (p2 + c - s 2 <? Z))%nat.
Definition target (a b c : nat) : voxel := let '(p0, p1, p2) := p in (p0 + a - s 0%nat, p1 + b - s 1%nat, p2 + c - s 2%nat)%nat.
Definition in_window (q : voxel) : bool := let '(p0, p1, p2) := p in let '(q0, q1, q2) := q in
  ((q0 <=? p0 + s 0) && (p0 <=? q0 + s 0) && (q1 <=? p1 + s 1) && (p1 <=? q1 + s 1) && (q2 <=? p2 + s 2) && (p2 <=? q2 + s 2))%nat.
Lemma window_perm : Permutation (map (fun '(a, b, c) => target a b c) (filter (fun '(a, b, c) => offset_ok a b c) (box (2 * s 0%nat + 1) (2 * s 1%nat + 1) (2 * s 2%nat + 1)))) (filter in_window (box X Y Z)).
Proof.
  unfold offset_ok, target, in_window. destruct p as [[p0 p1] p2]. apply NoDup_Permutation.
  - apply nodup_on; [apply NoDup_filter, nodup_box|]. intros [[a b] c] [[a' b'] c'] H1 H2 E. apply filter_In in H1 as [_ H1], H2 as [_ H2]. rewrite !andb_true_iff, !Nat.leb_le, !Nat.ltb_lt in H1, H2. injection E as E1 E2 E3. repeat f_equal; lia.
  - apply NoDup_filter, nodup_box.
  - intros [[q0 q1] q2]. rewrite in_map_iff, filter_In, in_box. rewrite !andb_true_iff, !Nat.leb_le. split.
    + intros ([[a b] c] & E & H). apply filter_In in H as [H1 H2]. apply in_box in H1. rewrite !andb_true_iff, !Nat.leb_le, !Nat.ltb_lt in H2. injection E as <- <- <-. lia.
    + intros (B & H). exists (q0 + s 0%nat - p0, q1 + s 1%nat - p1, q2 + s 2%nat - p2)%nat. split; [repeat f_equal; lia|]. apply filter_In. rewrite in_box, !andb_true_iff, !Nat.leb_le, !Nat.ltb_lt. lia.
Qed.
End W.
(* ---- far voxels ---- *)
Lemma reach_bound C k : 0 < v_diameter C -> 0 < v_steps C k -> v_diameter C / 2 <= (INR (reach C k) + 1) * v_steps C k.
Proof.
  intros D S1. unfold reach. set (t := v_diameter C / 2 / v_steps C k). assert (Tp : 0 < t) by (unfold t; apply Rdiv_lt_0_compat; lra). destruct (base_Int_part t) as [B1 B2].
  assert (Zp : (0 <= Int_part t)%Z). { assert (-1 < IZR (Int_part t)) by lra. apply lt_IZR in H. lia. }
  rewrite INR_IZR_INZ, Z2Nat.id by exact Zp. replace (v_diameter C / 2) with (t * v_steps C k) by (unfold t; field; lra). apply Rmult_le_compat_r; lra.
Qed.
Lemma gap a a' m : (a' <=? a + m)%nat && (a <=? a' + m)%nat = false -> INR m + 1 <= Rabs (INR a' - INR a).
Proof.
  intros H. rewrite <- S_INR. apply andb_false_iff in H as [H|H]; apply Nat.leb_gt in H.
  - assert (E : (S m + a <= a')%nat) by lia. apply le_INR in E. rewrite plus_INR in E. pose proof (Rle_abs (INR a' - INR a)). lra.
  - assert (E : (S m + a' <= a)%nat) by lia. apply le_INR in E. rewrite plus_INR in E. rewrite Rabs_minus_sym. pose proof (Rle_abs (INR a - INR a')). lra.
Qed.
Lemma far_one t u v w r : 0 <= r -> r <= Rabs u -> u = v \/ u = w \/ u = t -> r <= sqrt (v ^ 2 + w ^ 2 + t ^ 2).
Proof.
  intros Hr Hu E. rewrite <- (sqrt_pow2 r Hr). apply sqrt_le_1_alt. assert (H : r ^ 2 <= u ^ 2). { rewrite <- (pow2_abs u). apply pow_incr. lra. }
  pose proof (pow2_ge_0 v). pose proof (pow2_ge_0 w). pose proof (pow2_ge_0 t). destruct E as [->|[->| ->]]; lra.
Qed.
Definition fine (C : vconv) (steps : nat -> R) : Prop := 0 < v_diameter C /\ (forall k, 0 < v_steps C k <= steps k) /\ forall l, v_start C l < 1.
Lemma outside_far C steps p q : fine C steps -> in_window (reach C) p q = false -> v_diameter C / 2 <= norm3 (displacement steps p q).
Proof.
  intros (D & St & _) H. destruct p as [[p0 p1] p2], q as [[q0 q1] q2]. unfold in_window in H.
  assert (K : forall k a a', (a' <=? a + reach C k)%nat && (a <=? a' + reach C k)%nat = false -> v_diameter C / 2 <= Rabs ((INR a' - INR a) * steps k)).
  { intros k a a' Q. apply gap in Q. destruct (St k) as [S1 S2]. pose proof (reach_bound C k D S1) as B. rewrite Rabs_mult, (Rabs_right (steps k)) by lra. eapply Rle_trans; [exact B|].
    apply Rmult_le_compat; try lra. pose proof (pos_INR (reach C k)). lra. }
  unfold norm3. cbn [displacement nth]. rewrite <- !andb_assoc in H. rewrite (andb_assoc (q0 <=? _)%nat), (andb_assoc (q1 <=? _)%nat) in H. apply andb_false_iff in H as [H|H]; [|apply andb_false_iff in H as [H|H]]; apply K in H; (eapply far_one; [|exact H|auto]; lra).
Qed.
(* ---- the correlation with padding "SAME" ---- *)
Section Conv.
Variables (C : vconv) (T : ftp) (P : vparams) (x y : irreps) (M : kmatrix) (steps : nat -> R) (K : list (list (list kmatrix))).
Hypothesis F : fct C x y T.
Hypothesis LP : length (p_tp P) = length (tp_ins T).
Hypothesis HM : forall v, length v = dim x -> length (vecmat (dim y) v M) = dim y.
Hypothesis HK : forall a b c v, (a < side_len C 0)%nat -> (b < side_len C 1)%nat -> (c < side_len C 2)%nat -> length v = dim x ->
  vecmat (dim y) v (nth c (nth b (nth a K []) []) []) = response C T P (dim y) M (voxel_eqb (a, b, c) (reach C 0, reach C 1, reach C 2)) (lattice C steps a b c) v.
Lemma conv_same a X Y Z n p : v_same C = true -> fine C steps -> (forall q, In q (box X Y Z) -> length (arr a (at_voxel n q)) = dim x) -> In p (box X Y Z) ->
  conv_row C K (dim y) X Y Z a (at_voxel n p) = rowsum (dim y) (map (fun q => response C T P (dim y) M (voxel_eqb p q) (displacement steps p q) (arr a (at_voxel n q))) (box X Y Z)).
Proof.
  intros Sm Fi La Hp. set (G := fun q => response C T P (dim y) M (voxel_eqb p q) (displacement steps p q) (arr a (at_voxel n q))).
  assert (LG : forall q, In q (box X Y Z) -> length (G q) = dim y) by (intros q Hq; unfold G; apply (response_length C x y); auto).
  rewrite (rowsum_drop_zero (dim y) G (in_window (reach C) p) (box X Y Z) LG).
  2: { intros q Hq W. unfold G, response. pose proof (outside_far C steps p q Fi W) as Fa. destruct (voxel_eqb p q) eqn:E.
    - exfalso. apply voxel_eqb_eq in E. subst q. unfold in_window in W. destruct p as [[p0 p1] p2]. rewrite !(fun k => proj2 (Nat.leb_le k _)) in W by lia. discriminate.
    - destruct Fi as (D & _ & S1). apply (tp_row_far C x y); auto. }
  unfold conv_row. rewrite Sm. cbv zeta. destruct p as [[p0 p1] p2]. cbn [at_voxel nth].
  rewrite (nested (fun a' b' c' => ((reach C 0 <=? p0 + a') && (p0 + a' - reach C 0 <? X) && (reach C 1 <=? p1 + b') && (p1 + b' - reach C 1 <? Y) && (reach C 2 <=? p2 + c') && (p2 + c' - reach C 2 <? Z))%nat)
    (fun a' b' c' => vecmat (dim y) (arr a [n; p0 + a' - reach C 0; p1 + b' - reach C 1; p2 + c' - reach C 2])%nat (nth c' (nth b' (nth a' K []) []) []))).
  rewrite <- (rowsum_perm (dim y) _ _ (Permutation_map G (window_perm (reach C) X Y Z (p0, p1, p2)))).
  2: { apply Forall_map, Forall_map, Forall_forall. intros [[a' b'] c'] H. apply filter_In in H as [_ H]. unfold offset_ok in H. apply LG. unfold target. apply in_box. rewrite !andb_true_iff, !Nat.ltb_lt in H. tauto. }
  f_equal. rewrite map_map. apply map_ext_in. intros [[a' b'] c'] H. apply filter_In in H as [H1 H]. change (In (a', b', c') (box (side_len C 0) (side_len C 1) (side_len C 2))) in H1. apply in_box in H1 as (B1 & B2 & B3).
  unfold offset_ok in H. cbv beta iota in H. rewrite !andb_true_iff, !Nat.leb_le, !Nat.ltb_lt in H. destruct H as (((((H1 & H2) & H3) & H4) & H5) & H6). rewrite HK; auto.
  2: { apply (La (_, _, _)). apply in_box. auto. }
  unfold G, target. cbn [at_voxel]. unfold lattice, displacement. rewrite !minus_INR, !plus_INR by assumption. f_equal.
  - unfold voxel_eqb. apply eq_true_iff_eq. rewrite !andb_true_iff, !Nat.eqb_eq. lia.
  - repeat (apply (f_equal2 (@cons R)); [ring|]). reflexivity.
Qed.
End Conv.
