(* The rest of C31: the values of tensor_square and the meaning of its normalisation. *)
From Coq Require Import Reals Lra Permutation Sorted.
From Verif Require Import PyBase PermModel PermProofs IrrepsModel IrrepsProofs IrrepsProofs2 ArrayModel ArrayProofs ArrayOps RechunkProofs SliceProofs SliceProofs2 ArithProofs BlockProofs LeadModel LeadProofs StackProofs BilinProofs ActProofs EquivProofs EquivProofs2 SumR TPModel LinearProofs TPProofs StableSort TPProofs2 TPProofs3 LinearProps TPProps.
From Verif Require Import EntryProofs.
Open Scope nat_scope.

(* factor of a coupling of two different copies *)
Definition square_norm (nrm : inorm) (normalized : bool) (l1 l2 l3 : nat) : R :=
  let d1 := (2 * INR l1 + 1)%R in let d2 := (2 * INR l2 + 1)%R in let d := (2 * INR l3 + 1)%R in
  match nrm with
  | NComponent => if normalized then sqrt (d1 * d2 * d) else sqrt d
  | NNorm => sqrt (d1 * d2)
  | _ => 1%R
  end.
(* factor of a coupling of a copy with itself *)
Definition square_norm_self (nrm : inorm) (normalized : bool) (l1 l3 : nat) : R :=
  let d1 := (2 * INR l1 + 1)%R in let d := (2 * INR l3 + 1)%R in
  match nrm, normalized, l3 with
  | NComponent, true, 0 => sqrt d1
  | NComponent, true, _ => sqrt (d1 * (d1 + 2) * d / 2)
  | NNorm, true, 0 => sqrt d1
  | NNorm, true, _ => sqrt (d1 * (d1 + 2) / 2)
  | NComponent, false, 0 => sqrt (1 / (d1 + 2))
  | NComponent, false, _ => sqrt (d / 2)
  | NNorm, false, 0 => sqrt (d1 * d1 / (d1 + 2))
  | NNorm, false, _ => sqrt (d1 * d1 / 2)
  | _, _, _ => 1%R
  end.
Lemma ts_alpha_spec nrm nm a b c : sqrt (ts_alpha nrm nm a b c) = square_norm nrm nm (ir_l a) (ir_l b) (ir_l c).
Proof. destruct nrm, nm; cbn [ts_alpha square_norm]; rewrite ?INR_ir_dim; try reflexivity; apply sqrt_1. Qed.
Lemma ts_alpha_diag_spec nrm nm a c : sqrt (ts_alpha_diag nrm nm a c) = square_norm_self nrm nm (ir_l a) (ir_l c).
Proof. unfold ts_alpha_diag, square_norm_self. rewrite !INR_ir_dim. destruct nrm, nm, (ir_l c) as [|l]; cbn [Nat.eqb]; try apply sqrt_1; f_equal; try (cbn [INR]; field); pose proof (pos_INR (ir_l a)); try lra. all: cbn [INR]; field; lra. Qed.

(* the number of pairs (u', v') with u' < v' < m that come before (u, v) in lexicographic order *)
Definition pair_rank (m u v : nat) : nat := sum (map (fun t => m - S t) (seq 0 u)) + (v - S u).
Lemma pairs_lt_nth m u v : u < v < m -> nth (pair_rank m u v) (pairs_lt m) (0, 0) = (u, v) /\ pair_rank m u v < m * (m - 1) / 2.
Proof.
  intros H. assert (N : nth (pair_rank m u v) (pairs_lt m) (0, 0) = (u, v)).
  - unfold pair_rank, pairs_lt. assert (G : forall n o u', u' < n -> o + u' = u -> o + n = m -> nth (sum (map (fun t => m - S t) (seq o u')) + (v - S u)) (flat_map (fun u => map (fun v => (u, v)) (seq (S u) (m - S u))) (seq o n)) (0, 0) = (u, v)).
    { induction n as [|n IH]; intros o u' H1 H2 H3; [lia|]. cbn [seq flat_map]. destruct u' as [|u'].
      - rewrite app_nth1 by (rewrite map_length, seq_length; cbn; lia). cbn [seq map sum]. rewrite (nth_map_at _ _ _ 0) by (rewrite seq_length; cbn; lia). rewrite seq_nth by (cbn; lia). cbn. f_equal; lia.
      - cbn [seq map]. change (sum (?a :: ?l)) with (a + sum l). rewrite app_nth2 by (rewrite map_length, seq_length; lia). rewrite map_length, seq_length.
        replace (m - S o + sum (map (fun t => m - S t) (seq (S o) u')) + (v - S u) - (m - S o)) with (sum (map (fun t => m - S t) (seq (S o) u')) + (v - S u)) by lia. apply IH; lia. }
    apply (G m 0 u); lia.
  - split; [exact N|]. rewrite <- pairs_lt_length. destruct (Nat.lt_ge_cases (pair_rank m u v) (length (pairs_lt m))) as [|Q]; [assumption|]. rewrite nth_overflow in N by exact Q. injection N as <- <-. lia.
Qed.
(* the value before the final sort: entry (k1, k2, c, self) with k1 <= k2.  self = true: copies of entry k1 with themselves *)
Theorem C31_value cg nrm normalized x : coherent x -> nrm <> NOther ->
  exists (labels : list (nat * nat * irrep * bool)) (w : iarray),
    (forall k1 k2 c self, In (k1, k2, c, self) labels <-> exists m1 a m2 b, nth_error (irr x) k1 = Some (m1, a) /\ nth_error (irr x) k2 = Some (m2, b) /\ In c (ir_mul a b) /\
       (if self then k1 = k2 /\ Nat.even (ir_l c) = true else k1 < k2 \/ k1 = k2 /\ 1 < m1)) /\
    coherent w /\ lead w = lead x /\ length (irr w) = length labels /\
    (forall q k1 k2 c self m1 a m2 b, nth_error labels q = Some (k1, k2, c, self) -> nth_error (irr x) k1 = Some (m1, a) -> nth_error (irr x) k2 = Some (m2, b) ->
      (let coupled := fun i u v k => rsum (ir_dim a) (fun e => rsum (ir_dim b) (fun f => cg (ir_l a) (ir_l b) (ir_l c) e f k * entry (irr x) (arr x i) k1 u e * entry (irr x) (arr x i) k2 v f))%R in
      if self then nth_error (irr w) q = Some (m1, c) /\ forall u k i, u < m1 -> k < ir_dim c -> valid (lead x) i ->
          entry (irr w) (arr w i) q u k = (square_norm_self nrm normalized (ir_l a) (ir_l c) * coupled i u u k)%R
      else if k1 <? k2 then nth_error (irr w) q = Some (m1 * m2, c) /\ forall u v k i, u < m1 -> v < m2 -> k < ir_dim c -> valid (lead x) i ->
          entry (irr w) (arr w i) q (u * m2 + v) k = (square_norm nrm normalized (ir_l a) (ir_l b) (ir_l c) * coupled i u v k)%R
      else nth_error (irr w) q = Some (m1 * (m1 - 1) / 2, c) /\ forall u v k i, u < v < m1 -> k < ir_dim c -> valid (lead x) i ->
          entry (irr w) (arr w i) q (pair_rank m1 u v) k = (square_norm nrm normalized (ir_l a) (ir_l b) (ir_l c) * coupled i u v k)%R)) /\
    agree (tensor_square cg nrm normalized false x) (ia_sort w).
Proof.
  intros Hx Hn. set (ps := ts_paths nrm normalized (irr x)). pose proof (ts_paths_ok nrm normalized (irr x)) as Ok1. fold ps in Ok1.
  destruct (bil_core_yields cg nrm ps x x (lead x) Hx Hx eq_refl eq_refl Ok1 Hn) as (w & Ew & W1 & W2 & W3 & W4).
  (* the same enumeration carrying the flag *)
  set (qs := flat_map (fun '(k1, (m1, a)) => flat_map (fun '(k2, (m2, b)) => flat_map (fun c =>
    if (k1 <? k2) then [(k1, k2, c, false)] else if (k1 =? k2) then (if (1 <? m1) then [(k1, k1, c, false)] else []) ++ (if Nat.even (ir_l c) then [(k1, k1, c, true)] else []) else []) (ir_mul a b)) (enumerate (irr x))) (enumerate (irr x)) : list (nat * nat * irrep * bool)).
  set (mk := fun t : nat * nat * irrep * bool => let '(k1, k2, c, self) := t in let '(m1, a) := nth k1 (irr x) d0 in let '(m2, b) := nth k2 (irr x) d0 in
    if (self : bool) then BP k1 k1 (pairs_diag m1) m1 c (sqrt (ts_alpha_diag nrm normalized a c)) else if k1 <? k2 then BP k1 k2 (pairs_all m1 m2) (m1 * m2) c (sqrt (ts_alpha nrm normalized a b c)) else BP k1 k1 (pairs_lt m1) (m1 * (m1 - 1) / 2) c (sqrt (ts_alpha nrm normalized a b c))).
  assert (FE : forall {A B} (f g : A -> list B) l, (forall a, In a l -> f a = g a) -> flat_map f l = flat_map g l) by (clear; intros A B f g l H; induction l as [|a l IH]; [reflexivity|]; cbn [flat_map]; rewrite (H a), IH by (auto using in_eq, in_cons); reflexivity).
  assert (EP : ps = map mk qs).
  { unfold ps, qs, ts_paths. rewrite map_flat_map. apply FE. intros [k1 [m1 a]] I1. rewrite map_flat_map. apply FE. intros [k2 [m2 b]] I2. rewrite map_flat_map. apply FE. intros c _. apply enumerate_in in I1, I2. cbv zeta.
    destruct (Nat.ltb_spec k1 k2) as [L|L]; [cbn [map mk]; rewrite (nth_error_nth _ _ _ I1), (nth_error_nth _ _ _ I2); apply Nat.ltb_lt in L; rewrite L; reflexivity|].
    destruct (Nat.eqb_spec k1 k2) as [Q|Q]; [|reflexivity]. subst k2. assert (E : (m1, a) = (m2, b)) by congruence. injection E as <- <-. rewrite map_app. f_equal.
    - destruct (1 <? m1); [|reflexivity]. cbn [map mk]. rewrite (nth_error_nth _ _ _ I1), Nat.ltb_irrefl. reflexivity.
    - destruct (Nat.even _); [|reflexivity]. cbn [map mk]. rewrite (nth_error_nth _ _ _ I1). reflexivity. }
  assert (IQ : forall k1 k2 c self, In (k1, k2, c, self) qs <-> exists m1 a m2 b, nth_error (irr x) k1 = Some (m1, a) /\ nth_error (irr x) k2 = Some (m2, b) /\ In c (ir_mul a b) /\ (if self then k1 = k2 /\ Nat.even (ir_l c) = true else k1 < k2 \/ k1 = k2 /\ 1 < m1)).
  { intros k1 k2 c self. unfold qs. rewrite in_flat_map. split.
    - intros ([j1 [m1 a]] & I1 & H). apply in_flat_map in H as ([j2 [m2 b]] & I2 & H). apply in_flat_map in H as (c' & Ic & H). apply enumerate_in in I1, I2.
      destruct (Nat.ltb_spec j1 j2) as [L|L]; [destruct H as [H|[]]; injection H as <- <- <- <-; exists m1, a, m2, b; auto|]. destruct (Nat.eqb_spec j1 j2) as [Q|Q]; [|destruct H]. subst j2. apply in_app_iff in H as [H|H].
      + destruct (Nat.ltb_spec 1 m1) as [M|M]; [|destruct H]. destruct H as [H|[]]. injection H as <- <- <- <-. exists m1, a, m2, b. auto 8.
      + destruct (Nat.even _) eqn:Ev; [|destruct H]. destruct H as [H|[]]. injection H as <- <- <- <-. exists m1, a, m2, b. auto 8.
    - intros (m1 & a & m2 & b & H1 & H2 & Hc & H). exists (k1, (m1, a)). split; [apply in_enumerate, H1|]. apply in_flat_map. exists (k2, (m2, b)). split; [apply in_enumerate, H2|]. apply in_flat_map. exists c. split; [exact Hc|]. destruct self.
      + destruct H as [-> Ev]. rewrite Nat.ltb_irrefl, Nat.eqb_refl, Ev. apply in_app_iff. right. left. reflexivity.
      + destruct H as [L|[-> M]]; [apply Nat.ltb_lt in L; rewrite L; left; reflexivity|]. rewrite Nat.ltb_irrefl, Nat.eqb_refl. apply Nat.ltb_lt in M. rewrite M. left. reflexivity. }
  exists qs, w. split; [exact IQ|]. split; [exact W3|]. split; [exact W2|]. split; [rewrite W1; unfold bil_out; rewrite EP, !map_length; reflexivity|]. split.
  - intros q k1 k2 c self m1 a m2 b Eq H1 H2. cbv zeta. assert (Epq : nth_error ps q = Some (mk (k1, k2, c, self))) by (rewrite EP, nth_error_map, Eq; reflexivity).
    pose proof (proj1 (IQ k1 k2 c self) (nth_error_In _ _ Eq)) as (m1' & a' & m2' & b' & J1 & J2 & _ & Hs). assert (E1 : (m1', a') = (m1, a)) by congruence. injection E1 as -> ->. assert (E2 : (m2', b') = (m2, b)) by congruence. injection E2 as -> ->.
    cbn [mk] in Epq. rewrite (nth_error_nth _ _ _ H1), (nth_error_nth _ _ _ H2) in Epq.
    assert (V : forall p u' k i, nth_error ps q = Some p -> u' < b_mul p -> k < ir_dim (b_out p) -> valid (lead x) i -> entry (irr w) (arr w i) q u' k = path_val cg (irr x) (irr x) (arr x i) (arr x i) p u' k).
    { intros p u' k i Hp Hu Hk Hi. rewrite W4 by exact Hi. rewrite W1. unfold bil_row. rewrite entry_rowof by (exists (b_mul p), (b_out p); rewrite bil_out_nth, Hp; auto). rewrite (nth_error_nth _ _ _ Hp). reflexivity. }
    assert (Ei : forall p, nth_error ps q = Some p -> nth_error (irr w) q = Some (b_mul p, b_out p)) by (intros p Hp; rewrite W1, bil_out_nth, Hp; reflexivity).
    destruct self.
    + destruct Hs as [-> Ev]. assert (E : (m2, b) = (m1, a)) by congruence. injection E as -> ->. split; [apply (Ei _ Epq)|]. intros u k i Hu Hk Hi. rewrite (V _ u k i Epq Hu Hk Hi). unfold path_val. cbn [b_in1 b_in2 b_pairs b_mul b_out b_alpha]. rewrite (nth_error_nth _ _ _ H1). cbn [snd].
      unfold pairs_diag. rewrite (nth_map_at _ _ _ 0) by (rewrite seq_length; exact Hu). rewrite seq_nth by exact Hu. rewrite <- ts_alpha_diag_spec. reflexivity.
    + destruct (Nat.ltb_spec k1 k2) as [L|L].
      * split; [apply (Ei _ Epq)|]. intros u v k i Hu Hv Hk Hi. assert (Hw : u * m2 + v < m1 * m2) by nia. rewrite (V _ _ k i Epq Hw Hk Hi). unfold path_val. cbn [b_in1 b_in2 b_pairs b_mul b_out b_alpha]. rewrite (nth_error_nth _ _ _ H1), (nth_error_nth _ _ _ H2). cbn [snd].
        assert (Pn : nth (u * m2 + v) (pairs_all m1 m2) (0, 0) = (u, v)).
        { clear - Hu Hv. unfold pairs_all. assert (G : forall n o u, u < n -> nth (u * m2 + v) (flat_map (fun u => map (fun v => (u, v)) (seq 0 m2)) (seq o n)) (0, 0) = (o + u, v)); [|apply (G m1 0 u Hu)].
          clear u m1 Hu. induction n as [|n IH]; intros o u Hu; [lia|]. cbn [seq flat_map]. destruct u as [|u].
          - rewrite app_nth1 by (rewrite map_length, seq_length; lia). rewrite (nth_map_at _ _ _ 0) by (rewrite seq_length; lia). rewrite seq_nth by lia. f_equal; lia.
          - rewrite app_nth2 by (rewrite map_length, seq_length; lia). rewrite map_length, seq_length. replace (S u * m2 + v - m2) with (u * m2 + v) by lia. rewrite IH by lia. f_equal. lia. }
        rewrite Pn, <- ts_alpha_spec. reflexivity.
      * destruct Hs as [Hs|[<- M]]; [lia|]. assert (E : (m2, b) = (m1, a)) by congruence. injection E as -> ->. split; [apply (Ei _ Epq)|]. intros u v k i Hu Hk Hi. destruct (pairs_lt_nth m1 u v Hu) as [Pn Pr]. rewrite (V _ _ k i Epq Pr Hk Hi). unfold path_val. cbn [b_in1 b_in2 b_pairs b_mul b_out b_alpha]. rewrite (nth_error_nth _ _ _ H1). cbn [snd].
        rewrite Pn, <- ts_alpha_spec. reflexivity.
  - assert (T : tensor_square cg nrm normalized false x = ia_sort w).
    { unfold tensor_square. cbn [bind]. assert (A : assert (match nrm with NOther => false | _ => true end) = Ok tt) by (destruct nrm; try reflexivity; contradiction). rewrite A. cbn [bind]. fold ps. rewrite Ew. cbn [bind]. destruct (ia_sort w); reflexivity. }
    rewrite T. destruct (sort_yields w W3) as (v & V). unfold agree. eexists _, _, _. split; exists v; exact V.
Qed.

(* ---------- what the factors are for: second moments of the output ---------- *)
Definition kron (i j : nat) : R := if i =? j then 1%R else 0%R.
Lemma rsum_kron_l n a f : a < n -> rsum n (fun k => kron k a * f k)%R = f a.
Proof. apply rsum_delta_l. Qed.
Lemma rsum_kron_r n a f : a < n -> rsum n (fun k => kron a k * f k)%R = f a.
Proof. apply rsum_delta_r. Qed.
Lemma rsum_sq n f : (rsum n f * rsum n f = rsum n (fun i => rsum n (fun j => f i * f j)))%R.
Proof. rewrite <- rsum_scal_r. apply rsum_ext. intros i _. symmetry. apply rsum_scal. Qed.
Lemma rsum_sq2 n m (f : nat -> nat -> R) : (rsum n (fun i => rsum m (f i)) * rsum n (fun i => rsum m (f i)) = rsum n (fun i => rsum m (fun j => rsum n (fun p => rsum m (fun q => f i j * f p q)))))%R.
Proof.
  rewrite <- rsum_scal_r. apply rsum_ext. intros i _. rewrite <- rsum_scal_r. apply rsum_ext. intros j _. rewrite <- rsum_scal. apply rsum_ext. intros p _. symmetry. apply rsum_scal.
Qed.
(* the second moment of the inputs (per component) that the options promise, and of the output (summed over its components) that they aim at *)
Definition input_moment (nrm : inorm) (normalized : bool) (d : R) : R := match nrm, normalized with NComponent, false => 1 | _, _ => / d end.
Definition output_moment (nrm : inorm) (d : R) : R := match nrm with NComponent => d | _ => 1 end.
(* the common fourth moment E[X_i^2 X_j^2] (i <> j) of an isotropic input: normal when not normalized, uniform on the sphere when normalized *)
Definition input_fourth (nrm : inorm) (normalized : bool) (d : R) : R := match nrm, normalized with NComponent, false => 1 | _, false => / (d * d) | _, true => / (d * (d + 2)) end.
Theorem C31_second_moment_pair (O : Type) (Ex : (O -> R) -> R) nrm normalized l1 l2 l3 (g : nat -> nat -> nat -> R) (X Y : nat -> O -> R) :
  expectation O Ex -> nrm = NComponent \/ nrm = NNorm ->
  let d1 := 2 * l1 + 1 in let d2 := 2 * l2 + 1 in let d3 := 2 * l3 + 1 in
  rsum d3 (fun k => rsum d1 (fun i => rsum d2 (fun j => g i j k * g i j k)))%R = 1%R ->
  (forall i p j q, i < d1 -> p < d1 -> j < d2 -> q < d2 -> Ex (fun w => X i w * Y j w * X p w * Y q w)%R = (kron i p * kron j q * (input_moment nrm normalized (INR d1) * input_moment nrm normalized (INR d2)))%R) ->
  rsum d3 (fun k => Ex (fun w => let z := square_norm nrm normalized l1 l2 l3 * rsum d1 (fun i => rsum d2 (fun j => g i j k * X i w * Y j w)) in z * z))%R = output_moment nrm (INR d3).
Proof.
  intros HE Hn d1 d2 d3 Hg HXY. cbv zeta. set (A := square_norm nrm normalized l1 l2 l3). set (mu := (input_moment nrm normalized (INR d1) * input_moment nrm normalized (INR d2))%R) in *.
  assert (D1 : (0 < INR d1)%R) by (apply lt_0_INR; unfold d1; lia). assert (D2 : (0 < INR d2)%R) by (apply lt_0_INR; unfold d2; lia). assert (D3 : (0 < INR d3)%R) by (apply lt_0_INR; unfold d3; lia).
  rewrite (rsum_ext d3 _ (fun k => A * A * mu * rsum d1 (fun i => rsum d2 (fun j => g i j k * g i j k)))%R).
  - rewrite rsum_scal, Hg. assert (E1 : INR d1 = (2 * INR l1 + 1)%R) by (unfold d1; rewrite plus_INR, mult_INR; cbn [INR]; ring). assert (E2 : INR d2 = (2 * INR l2 + 1)%R) by (unfold d2; rewrite plus_INR, mult_INR; cbn [INR]; ring). assert (E3 : INR d3 = (2 * INR l3 + 1)%R) by (unfold d3; rewrite plus_INR, mult_INR; cbn [INR]; ring).
    unfold A, mu, square_norm. rewrite <- E1, <- E2, <- E3. destruct Hn as [-> | ->]; destruct normalized; cbn [input_moment output_moment]; rewrite sqrt_sqrt by (repeat apply Rmult_le_pos; lra); field; lra.
  - intros k Hk. rewrite (Ex_ext _ _ HE _ (fun w => rsum d1 (fun i => rsum d2 (fun j => rsum d1 (fun p => rsum d2 (fun q => A * A * (g i j k * g p q k) * (X i w * Y j w * X p w * Y q w))))))%R).
    + rewrite (Ex_rsum Ex HE). rewrite <- rsum_scal. apply rsum_ext. intros i Hi. rewrite (Ex_rsum Ex HE). rewrite <- rsum_scal. apply rsum_ext. intros j Hj. rewrite (Ex_rsum Ex HE).
      transitivity (rsum d1 (fun p => kron i p * (A * A * (g i j k * g p j k) * mu)))%R; [|rewrite rsum_kron_r by exact Hi; ring]. apply rsum_ext. intros p Hp. rewrite (Ex_rsum Ex HE).
      transitivity (rsum d2 (fun q => kron j q * (kron i p * (A * A * (g i j k * g p q k) * mu))))%R; [|rewrite rsum_kron_r by exact Hj; ring]. apply rsum_ext. intros q Hq. rewrite (Ex_scal _ _ HE). rewrite HXY by assumption. ring.
    + intros w. cbv zeta. replace (A * rsum d1 (fun i => rsum d2 (fun j => g i j k * X i w * Y j w)) * (A * rsum d1 (fun i => rsum d2 (fun j => g i j k * X i w * Y j w))))%R with (A * A * (rsum d1 (fun i => rsum d2 (fun j => g i j k * X i w * Y j w)) * rsum d1 (fun i => rsum d2 (fun j => g i j k * X i w * Y j w))))%R by ring.
      rewrite rsum_sq2. rewrite <- rsum_scal. apply rsum_ext. intros i _. rewrite <- rsum_scal. apply rsum_ext. intros j _. rewrite <- rsum_scal. apply rsum_ext. intros p _. rewrite <- rsum_scal. apply rsum_ext. intros q _. ring.
Qed.
Lemma self_moment (O : Type) (Ex : (O -> R) -> R) (d : nat) (A mu : R) (g : nat -> nat -> R) (X : nat -> O -> R) : expectation O Ex ->
  (forall i j p q, i < d -> j < d -> p < d -> q < d -> Ex (fun w => X i w * X j w * X p w * X q w)%R = (mu * (kron i j * kron p q + kron i p * kron j q + kron i q * kron j p))%R) ->
  Ex (fun w => let z := A * rsum d (fun i => rsum d (fun j => g i j * X i w * X j w)) in z * z)%R =
    (A * A * mu * (rsum d (fun i => g i i) * rsum d (fun i => g i i) + rsum d (fun i => rsum d (fun j => g i j * g i j)) + rsum d (fun i => rsum d (fun j => g i j * g j i))))%R.
Proof.
  intros HE HX. rewrite (Ex_ext _ _ HE _ (fun w => rsum d (fun i => rsum d (fun j => rsum d (fun p => rsum d (fun q => A * A * (g i j * g p q) * (X i w * X j w * X p w * X q w))))))%R).
  - rewrite (Ex_rsum Ex HE). rewrite !Rmult_plus_distr_l, rsum_sq, <- !rsum_scal, <- !rsum_plus. apply rsum_ext. intros i Hi. rewrite (Ex_rsum Ex HE).
    transitivity (rsum d (fun j => kron i j * (A * A * mu * rsum d (fun p => g i i * g p p)) + A * A * mu * (g i j * g i j) + A * A * mu * (g i j * g j i)))%R.
    + apply rsum_ext. intros j Hj. rewrite (Ex_rsum Ex HE).
      transitivity (rsum d (fun p => kron i j * (A * A * mu * (g i j * g p p)) + kron i p * (A * A * mu * (g i j * g p j)) + kron j p * (A * A * mu * (g i j * g p i))))%R.
      * apply rsum_ext. intros p Hp. rewrite (Ex_rsum Ex HE).
        transitivity (rsum d (fun q => kron p q * (kron i j * (A * A * mu * (g i j * g p q))) + kron j q * (kron i p * (A * A * mu * (g i j * g p q))) + kron i q * (kron j p * (A * A * mu * (g i j * g p q)))))%R.
        -- apply rsum_ext. intros q Hq. rewrite (Ex_scal _ _ HE), HX by assumption. ring.
        -- rewrite !rsum_plus, !rsum_kron_r by assumption. reflexivity.
      * rewrite !rsum_plus, !rsum_kron_r by assumption. f_equal. f_equal. rewrite <- !rsum_scal. apply rsum_ext. intros p _. unfold kron. destruct (Nat.eqb_spec i j) as [->|]; ring.
    + rewrite !rsum_plus, rsum_kron_r by exact Hi. rewrite !rsum_scal. reflexivity.
  - intros w. cbv zeta. replace (A * rsum d (fun i => rsum d (fun j => g i j * X i w * X j w)) * (A * rsum d (fun i => rsum d (fun j => g i j * X i w * X j w))))%R with (A * A * (rsum d (fun i => rsum d (fun j => g i j * X i w * X j w)) * rsum d (fun i => rsum d (fun j => g i j * X i w * X j w))))%R by ring.
    rewrite rsum_sq2. rewrite <- rsum_scal. apply rsum_ext. intros i _. rewrite <- rsum_scal. apply rsum_ext. intros j _. rewrite <- rsum_scal. apply rsum_ext. intros p _. rewrite <- rsum_scal. apply rsum_ext. intros q _. ring.
Qed.
(* a copy with itself into l3 > 0: the coupling is symmetric and traceless *)
Theorem C31_second_moment_self (O : Type) (Ex : (O -> R) -> R) nrm normalized l1 l3 (g : nat -> nat -> nat -> R) (X : nat -> O -> R) :
  expectation O Ex -> nrm = NComponent \/ nrm = NNorm -> 0 < l3 ->
  let d1 := 2 * l1 + 1 in let d3 := 2 * l3 + 1 in
  (forall i j k, i < d1 -> j < d1 -> k < d3 -> g i j k = g j i k) -> (forall k, k < d3 -> rsum d1 (fun i => g i i k) = 0%R) -> rsum d3 (fun k => rsum d1 (fun i => rsum d1 (fun j => g i j k * g i j k)))%R = 1%R ->
  (forall i j p q, i < d1 -> j < d1 -> p < d1 -> q < d1 -> Ex (fun w => X i w * X j w * X p w * X q w)%R = (input_fourth nrm normalized (INR d1) * (kron i j * kron p q + kron i p * kron j q + kron i q * kron j p))%R) ->
  rsum d3 (fun k => Ex (fun w => let z := square_norm_self nrm normalized l1 l3 * rsum d1 (fun i => rsum d1 (fun j => g i j k * X i w * X j w)) in z * z))%R = output_moment nrm (INR d3).
Proof.
  intros HE Hn Hl d1 d3 Hs Ht Hg HX. set (A := square_norm_self nrm normalized l1 l3). set (mu := input_fourth nrm normalized (INR d1)) in *.
  assert (D1 : (0 < INR d1)%R) by (apply lt_0_INR; unfold d1; lia). assert (D3 : (0 < INR d3)%R) by (apply lt_0_INR; unfold d3; lia).
  rewrite (rsum_ext d3 _ (fun k => A * A * mu * 2 * rsum d1 (fun i => rsum d1 (fun j => g i j k * g i j k)))%R).
  - rewrite rsum_scal, Hg. assert (E1 : INR d1 = (2 * INR l1 + 1)%R) by (unfold d1; rewrite plus_INR, mult_INR; cbn [INR]; ring). assert (E3 : INR d3 = (2 * INR l3 + 1)%R) by (unfold d3; rewrite plus_INR, mult_INR; cbn [INR]; ring).
    unfold A, mu, square_norm_self. rewrite <- E1, <- E3. destruct l3 as [|l3]; [lia|]. destruct Hn as [-> | ->]; destruct normalized; cbn [input_fourth output_moment]; rewrite sqrt_sqrt by (unfold Rdiv; repeat apply Rmult_le_pos; lra); field; lra.
  - intros k Hk. rewrite (self_moment O Ex d1 A mu (fun i j => g i j k) X HE HX), (Ht k Hk). rewrite (rsum_ext d1 (fun i => rsum d1 (fun j => g i j k * g j i k))%R (fun i => rsum d1 (fun j => g i j k * g i j k))%R); [ring|]. intros i Hi. apply rsum_ext. intros j Hj. rewrite (Hs j i k) by assumption. reflexivity.
Qed.
(* a copy with itself into l3 = 0: the coupling is the scalar product divided by the square root of the dimension *)
Theorem C31_second_moment_scalar (O : Type) (Ex : (O -> R) -> R) nrm normalized l1 (X : nat -> O -> R) :
  expectation O Ex -> nrm = NComponent \/ nrm = NNorm ->
  let d1 := 2 * l1 + 1 in
  (forall i j p q, i < d1 -> j < d1 -> p < d1 -> q < d1 -> Ex (fun w => X i w * X j w * X p w * X q w)%R = (input_fourth nrm normalized (INR d1) * (kron i j * kron p q + kron i p * kron j q + kron i q * kron j p))%R) ->
  Ex (fun w => let z := square_norm_self nrm normalized l1 0 * rsum d1 (fun i => rsum d1 (fun j => kron i j / sqrt (INR d1) * X i w * X j w)) in z * z)%R = 1%R.
Proof.
  intros HE Hn d1 HX. assert (D1 : (0 < INR d1)%R) by (apply lt_0_INR; unfold d1; lia). assert (Sq : (sqrt (INR d1) <> 0)%R) by (apply Rgt_not_eq, sqrt_lt_R0, D1). assert (SS : (sqrt (INR d1) * sqrt (INR d1) = INR d1)%R) by (apply sqrt_sqrt; lra).
  rewrite (self_moment O Ex d1 _ _ (fun i j => kron i j / sqrt (INR d1))%R X HE HX).
  assert (T1 : rsum d1 (fun i => kron i i / sqrt (INR d1))%R = (INR d1 / sqrt (INR d1))%R). { rewrite (rsum_ext d1 _ (fun _ => / sqrt (INR d1))%R) by (intros i _; unfold kron; rewrite Nat.eqb_refl; field; exact Sq). rewrite rsum_const. reflexivity. }
  assert (T2 : rsum d1 (fun i => rsum d1 (fun j => kron i j / sqrt (INR d1) * (kron i j / sqrt (INR d1))))%R = 1%R).
  { rewrite (rsum_ext d1 _ (fun _ => / INR d1)%R). - rewrite rsum_const. field. lra. - intros i Hi. rewrite (rsum_ext d1 _ (fun j => kron i j * (/ sqrt (INR d1) * (kron i j / sqrt (INR d1))))%R) by (intros j _; unfold Rdiv; ring). rewrite rsum_kron_r by exact Hi. unfold kron. rewrite Nat.eqb_refl. rewrite <- SS at 3. field. exact Sq. }
  assert (T3 : rsum d1 (fun i => rsum d1 (fun j => kron i j / sqrt (INR d1) * (kron j i / sqrt (INR d1))))%R = 1%R).
  { rewrite <- T2. apply rsum_ext. intros i _. apply rsum_ext. intros j _. unfold kron. rewrite (Nat.eqb_sym j i). reflexivity. }
  rewrite T1, T2, T3. assert (E1 : INR d1 = (2 * INR l1 + 1)%R) by (unfold d1; rewrite plus_INR, mult_INR; cbn [INR]; ring). replace (INR d1 / sqrt (INR d1) * (INR d1 / sqrt (INR d1)))%R with (INR d1 * INR d1 / (sqrt (INR d1) * sqrt (INR d1)))%R by (field; exact Sq). rewrite SS.
  unfold square_norm_self. rewrite <- E1. destruct Hn as [-> | ->]; destruct normalized; cbn [input_fourth]; rewrite sqrt_sqrt; try (field; lra); try lra; left; try (apply Rdiv_lt_0_compat; nra).
Qed.
(* a coupling and a distribution as assumed above: the scalar X = 1 or -1 *)
Example C31_second_moment_nonvacuous : let Ex := fun f : bool -> R => ((f true + f false) / 2)%R in let X := fun (_ : nat) (w : bool) => if w then 1%R else (-1)%R in
  expectation bool Ex /\ let o := 0 in Ex (fun w => X o w * X o w * X o w * X o w)%R = (input_fourth NComponent true 1 * (kron o o * kron o o + kron o o * kron o o + kron o o * kron o o))%R.
Proof. cbv zeta. split; [split; intros; try lra; rewrite !H; reflexivity|]. unfold input_fourth, kron. cbn [Nat.eqb]. field. Qed.
