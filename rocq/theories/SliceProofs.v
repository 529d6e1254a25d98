(* x[..., start:stop] and slice_by_mul on IrrepsArray *)
From Verif Require Import PyBase PermModel PermProofs IrrepsModel IrrepsProofs IrrepsProofs2 ArrayModel ArrayProofs ArrayOps RechunkProofs.
From Coq Require Import Reals Permutation.
Open Scope nat_scope.
Ltac Zify.zify_post_hook ::= Z.div_mod_to_equations.

(* ---------- boundaries between entries ---------- *)
Definition boundary (x : irreps) (k : nat) : Prop := exists j, j <= length x /\ dim (firstn j x) = k.

Lemma dim_firstn_S x j m ir : nth_error x j = Some (m, ir) -> dim (firstn (S j) x) = dim (firstn j x) + m * ir_dim ir.
Proof.
  intros H. assert (L : j < length x) by (apply nth_error_Some; congruence).
  rewrite (firstn_S_nth x j dflt L), dim_app, dim_cons. erewrite nth_error_nth by exact H. cbn. lia.
Qed.
Lemma nth_error_split' {A} (x : list A) j a : nth_error x j = Some a -> x = firstn j x ++ a :: skipn (S j) x.
Proof. revert x. induction j; intros [|b x] H; try discriminate; cbn in *; [congruence|]. f_equal. apply IHj, H. Qed.
Lemma boundary_aligned x k : boundary x k -> aligned x k.
Proof.
  intros (j & Hj & <-). exists (num_irreps (firstn j x)). split.
  - rewrite <- (firstn_skipn j x) at 2. unfold num_irreps. rewrite map_app, sum_app. lia.
  - rewrite <- (firstn_skipn j x) at 3. rewrite flat_app, <- flat_length, firstn_app, Nat.sub_diag, firstn_all, app_nil_r. apply dim_flat.
Qed.
Lemma aligned_flat x y k : flat x = flat y -> aligned x k -> aligned y k.
Proof. intros E (j & Hj & ->). exists j. rewrite <- E. split; [|reflexivity]. rewrite <- flat_length in *. rewrite <- E. exact Hj. Qed.

Lemma aligned_inside x k j m ir : aligned x k -> nth_error x j = Some (m, ir) -> dim (firstn j x) < k -> k < dim (firstn (S j) x) ->
  exists u, 0 < u < m /\ k = dim (firstn j x) + u * ir_dim ir.
Proof.
  intros (n & Hn & ->) E H1 H2. pose proof (nth_error_split' _ _ _ E) as Ex. pose proof (dim_firstn_S _ _ _ _ E) as Ed.
  set (p := firstn j x) in *. set (q := skipn (S j) x) in *. set (N := num_irreps p).
  assert (LN : length (flat p) = N) by apply flat_length.
  rewrite Ex in H1, H2, Hn |- *. rewrite flat_app, flat_cons in *. rewrite <- Ex in H2. rewrite Ed in H2. clear Ed.
  destruct (le_lt_dec n N) as [Hle|Hgt].
  { rewrite firstn_app_le in H1 by lia. rewrite dim_flat in H1. rewrite <- (firstn_skipn n (flat p)) in H1 at 1. rewrite map_app, sum_app in H1. lia. }
  replace n with (length (flat p) + (n - N)) in * by lia. rewrite firstn_app_2, map_app, sum_app, <- dim_flat in *.
  destruct (le_lt_dec m (n - N)) as [Hle|Hgt'].
  { replace (n - N) with (length (repeat ir m) + (n - N - m)) in H2 by (rewrite repeat_length; lia). rewrite firstn_app_2, map_app, sum_app, map_repeat, sum_repeat in H2. lia. }
  rewrite firstn_app_le in * by (rewrite repeat_length; lia). rewrite firstn_repeat, map_repeat, sum_repeat in *.
  exists (n - N). rewrite Nat.min_l by lia. split; [lia|reflexivity].
Qed.

(* ---------- the search loop ---------- *)
Lemma gs_splits_spec x i b j m : gs_splits x i b = Some (j, m) ->
  i = S j /\ exists mul ir, nth_error x j = Some (mul, ir) /\ Z.of_nat b = (Z.of_nat (dim (firstn j x)) + m * Z.of_nat (ir_dim ir))%Z.
Proof.
  unfold gs_splits. destruct i as [|i]; [discriminate|]. destruct (nth_error x i) as [[mul ir]|] eqn:E; [|discriminate].
  set (d := Z.of_nat (ir_dim ir)). assert (0 < d)%Z by (unfold d; pose proof (ir_dim_pos ir); lia).
  destruct (((Z.of_nat b - Z.of_nat (dim (firstn i x))) mod d =? 0)%Z) eqn:Em; [|discriminate]. intros H0. injection H0 as <- <-.
  split; [reflexivity|]. exists mul, ir. split; [exact E|]. fold d. apply Z.eqb_eq in Em.
  pose proof (Z.div_mod (Z.of_nat b - Z.of_nat (dim (firstn i x))) d ltac:(lia)). lia.
Qed.

Definition split_at (x : irreps) (b j : nat) (m : Z) : Prop :=
  ~ boundary x b /\ exists mul ir, nth_error x j = Some (mul, ir) /\ (m < Z.of_nat mul)%Z /\
    Z.of_nat b = (Z.of_nat (dim (firstn j x)) + m * Z.of_nat (ir_dim ir))%Z.

Lemma split_at_intro x b i j m : gs_splits x i b = Some (j, m) -> b < dim (firstn i x) -> (forall k, k < i -> dim (firstn k x) <> b) -> split_at x b j m.
Proof.
  intros E Hb Hi. destruct (gs_splits_spec _ _ _ _ _ E) as (-> & mul & ir & En & Eb). split.
  - intros (k & Hk & Ek). destruct (le_lt_dec (S j) k) as [H|H]; [|apply (Hi k H Ek)]. pose proof (dim_firstn_mono x (S j) k H). lia.
  - exists mul, ir. split; [exact En|]. split; [|exact Eb]. rewrite (dim_firstn_S _ _ _ _ En) in Hb. pose proof (ir_dim_pos ir). nia.
Qed.

Lemma getslice_loop_sound x start stop : forall k i istart, i + k = S (length x) ->
  (match istart with Some a => a < i /\ dim (firstn a x) = start | None => forall j, j < i -> dim (firstn j x) <> start end) ->
  (forall j, j < i -> dim (firstn j x) <> stop) ->
  match getslice_loop x start stop k i istart with
  | GSplit j m => split_at x start j m \/ split_at x stop j m
  | GFound (Some a) (Some b) => a <= b /\ b <= length x /\ dim (firstn a x) = start /\ dim (firstn b x) = stop
  | GFound _ _ => True
  end.
Proof.
  induction k as [|k IH]; intros i istart Hk Hs Ht; [destruct istart; exact I|]. cbn [getslice_loop].
  set (d := dim (firstn i x)) in *.
  assert (Hs' : match (if d =? start then Some i else istart) with
      Some a => a <= i /\ dim (firstn a x) = start | None => forall j, j <= i -> dim (firstn j x) <> start end).
  { destruct (Nat.eqb_spec d start) as [E|E]; [split; [lia|exact E]|]. destruct istart as [a|]; [split; [lia|apply Hs]|].
    intros j Hj. destruct (Nat.eq_dec j i) as [->|]; [exact E|]. apply Hs. lia. }
  destruct (if d =? start then Some i else istart) as [a|] eqn:Ei.
  - destruct (Nat.eqb_spec d stop) as [E|E]; [repeat split; try tauto; lia|].
    assert (Ht' : forall j, j < S i -> dim (firstn j x) <> stop).
    { intros j Hj. destruct (Nat.eq_dec j i) as [->|]; [exact E|]. apply Ht. lia. }
    destruct (stop <? d) eqn:Lt; [destruct (gs_splits x i stop) as [[j m]|] eqn:Es|].
    + right. eapply split_at_intro; [exact Es|fold d; lia|exact Ht].
    + apply IH; [lia|split; [lia|tauto]|exact Ht'].
    + apply IH; [lia|split; [lia|tauto]|exact Ht'].
  - assert (Hcont : match (if d =? stop then GFound None (Some i) else match (if stop <? d then gs_splits x i stop else None) with
         | Some (j, mul1) => GSplit j mul1 | None => getslice_loop x start stop k (S i) None end) with
       | GSplit j m => split_at x start j m \/ split_at x stop j m
       | GFound (Some a) (Some b) => a <= b /\ b <= length x /\ dim (firstn a x) = start /\ dim (firstn b x) = stop
       | GFound _ _ => True end).
    { destruct (Nat.eqb_spec d stop) as [E|E]; [exact I|].
      assert (Ht' : forall j, j < S i -> dim (firstn j x) <> stop).
      { intros j Hj. destruct (Nat.eq_dec j i) as [->|]; [exact E|]. apply Ht. lia. }
      destruct (stop <? d) eqn:Lt; [destruct (gs_splits x i stop) as [[j m]|] eqn:Es|].
      - right. eapply split_at_intro; [exact Es|fold d; lia|exact Ht].
      - apply IH; [lia|intros j Hj; apply Hs'; lia|exact Ht'].
      - apply IH; [lia|intros j Hj; apply Hs'; lia|exact Ht']. }
    destruct (start <? d) eqn:Lt; [destruct (gs_splits x i start) as [[j m]|] eqn:Es|].
    + left. eapply split_at_intro; [exact Es|fold d; lia|]. intros j' Hj'. apply Hs'. lia.
    + exact Hcont.
    + exact Hcont.
Qed.

Lemma gs_splits_complete x i b : aligned x b -> b < dim (firstn i x) -> i <= length x -> (forall k, k < i -> dim (firstn k x) < b) ->
  exists j m, gs_splits x i b = Some (j, m) /\ (0 < m)%Z.
Proof.
  intros A Hb Hi Hk. destruct i as [|j]; [cbn in Hb; lia|]. destruct (nth_error x j) as [[mul ir]|] eqn:E.
  2:{ apply nth_error_None in E. lia. }
  destruct (aligned_inside x b j mul ir A E (Hk j ltac:(lia)) Hb) as (u & Hu & Eb).
  unfold gs_splits. rewrite E. replace (Z.of_nat b - Z.of_nat (dim (firstn j x)))%Z with (Z.of_nat u * Z.of_nat (ir_dim ir))%Z by nia.
  pose proof (ir_dim_pos ir). rewrite Z.mod_mul by lia. cbn. rewrite Z.div_mul by lia. exists j, (Z.of_nat u). split; [reflexivity|lia].
Qed.

Lemma getslice_loop_complete x start stop : aligned x start -> aligned x stop -> start <= stop -> stop <= dim x ->
  forall k i istart, i + k = S (length x) ->
  (match istart with Some a => True | None => forall j, j < i -> dim (firstn j x) < start end) ->
  (forall j, j < i -> dim (firstn j x) < stop) ->
  match getslice_loop x start stop k i istart with
  | GSplit j m => (0 < m)%Z
  | GFound (Some _) (Some _) => True
  | GFound _ _ => False
  end.
Proof.
  intros As At Hle Hd. induction k as [|k IH]; intros i istart Hk Hs Ht.
  { exfalso. specialize (Ht (length x) ltac:(lia)). rewrite firstn_all in Ht. lia. }
  cbn [getslice_loop]. set (d := dim (firstn i x)) in *.
  assert (Hi : i <= length x) by lia.
  assert (Stop : forall a, (forall j, j < S i -> dim (firstn j x) < stop -> True) ->
     match (if d =? stop then GFound (Some a) (Some i) else match (if stop <? d then gs_splits x i stop else None) with
         | Some (j, mul1) => GSplit j mul1 | None => getslice_loop x start stop k (S i) (Some a) end) with
       | GSplit j m => (0 < m)%Z | GFound (Some _) (Some _) => True | GFound _ _ => False end).
  { intros a _. destruct (Nat.eqb_spec d stop) as [E|E]; [exact I|].
    destruct (stop <? d) eqn:Lt.
    - destruct (gs_splits_complete x i stop At ltac:(fold d; lia) Hi Ht) as (j & m & -> & Hm). exact Hm.
    - apply IH; [lia|exact I|]. intros j Hj. destruct (Nat.eq_dec j i) as [->|]; [fold d; lia|]. apply Ht. lia. }
  destruct (Nat.eqb_spec d start) as [Ed|Ed]; [apply Stop; auto|].
  destruct istart as [a|]; [apply Stop; auto|].
  destruct (start <? d) eqn:Lt.
  - destruct (gs_splits_complete x i start As ltac:(fold d; lia) Hi Hs) as (j & m & -> & Hm). exact Hm.
  - destruct (Nat.eqb_spec d stop) as [E|E]; [lia|]. assert (stop <? d = false) as -> by lia.
    apply IH; [lia| |]; intros j Hj; (destruct (Nat.eq_dec j i) as [->|]; [fold d; lia|]; [apply Hs; lia|apply Ht; lia] || idtac).
    + destruct (Nat.eq_dec j i) as [->|]; [fold d; lia|]. apply Hs. lia.
    + destruct (Nat.eq_dec j i) as [->|]; [fold d; lia|]. apply Ht. lia.
Qed.

(* ---------- splitting an entry ---------- *)
Lemma split_entry_ok x j m mul ir : nth_error x j = Some (mul, ir) -> (0 <= m)%Z -> (m < Z.of_nat mul)%Z ->
  split_entry x j m = Ok (firstn j x ++ (Z.to_nat m, ir) :: (mul - Z.to_nat m, ir) :: skipn (S j) x).
Proof.
  intros E H0 H1. unfold split_entry. rewrite E.
  rewrite <- (mk_irreps_ok (firstn j x ++ (Z.to_nat m, ir) :: (mul - Z.to_nat m, ir) :: skipn (S j) x)).
  f_equal. rewrite map_app. cbn [map app]. repeat (f_equal; try lia).
Qed.
Lemma mapM_Err_in {A B} (f : A -> res B) l a : In a l -> is_ok (f a) = false -> is_ok (mapM f l) = false.
Proof.
  induction l as [|b l IH]; intros Hin Hf; [contradiction|]. cbn. destruct Hin as [->|Hin]; [destruct (f a); [discriminate|reflexivity]|].
  destruct (f b); [|reflexivity]. specialize (IH Hin Hf). destruct (mapM f l); [discriminate|reflexivity].
Qed.
Lemma split_entry_neg x j m mul ir : nth_error x j = Some (mul, ir) -> (m < 0)%Z -> is_ok (split_entry x j m) = false.
Proof.
  intros E H. unfold split_entry, mk_irreps. rewrite E. eapply (mapM_Err_in _ _ (m, ir)).
  - apply in_or_app. right. left. reflexivity.
  - destruct (Z.leb_spec 0 m); [lia|reflexivity].
Qed.

Lemma split_flat x j u mul ir : nth_error x j = Some (mul, ir) -> u <= mul ->
  flat (firstn j x ++ (u, ir) :: (mul - u, ir) :: skipn (S j) x) = flat x.
Proof.
  intros E H. pose proof (nth_error_split' _ _ _ E) as Ex. rewrite Ex at 3. rewrite !flat_app, !flat_cons, app_assoc, app_assoc, <- (app_assoc (flat _)), <- repeat_app.
  replace (u + (mul - u)) with mul by lia. rewrite <- app_assoc. reflexivity.
Qed.
Lemma split_boundary_new x j u mul ir : nth_error x j = Some (mul, ir) ->
  boundary (firstn j x ++ (u, ir) :: (mul - u, ir) :: skipn (S j) x) (dim (firstn j x) + u * ir_dim ir).
Proof.
  intros E. assert (L : j < length x) by (apply nth_error_Some; congruence).
  assert (Lf : length (firstn j x) = j) by (rewrite firstn_length; lia).
  exists (S j). split; [rewrite app_length; cbn; lia|]. rewrite firstn_app, firstn_all2, Lf by lia. replace (S j - j) with 1 by lia. cbn [firstn].
  rewrite dim_app. cbn. lia.
Qed.
Lemma split_boundary_old x j u mul ir k : nth_error x j = Some (mul, ir) -> u <= mul -> boundary x k ->
  boundary (firstn j x ++ (u, ir) :: (mul - u, ir) :: skipn (S j) x) k.
Proof.
  intros E Hu (n & Hn & <-). assert (L : j < length x) by (apply nth_error_Some; congruence).
  assert (Lf : length (firstn j x) = j) by (rewrite firstn_length; lia). pose proof (nth_error_split' _ _ _ E) as Ex.
  destruct (le_lt_dec n j) as [H|H].
  - exists n. split; [rewrite app_length; cbn; lia|]. rewrite firstn_app_le by lia. rewrite firstn_firstn, Nat.min_l by lia. reflexivity.
  - exists (S n). split.
    { rewrite app_length, Lf. cbn [length]. rewrite skipn_length. lia. }
    rewrite Ex at 3. rewrite !firstn_app, Lf. rewrite (firstn_all2 (firstn j x)) by lia. rewrite (firstn_all2 (firstn j x) (n := n)) by lia.
    replace (S n - j) with (S (S (n - j - 1))) by lia. replace (n - j) with (S (n - j - 1)) at 2 by lia. cbn [firstn]. rewrite !dim_app, !dim_cons. unfold mi_dim. cbn [fst snd]. nia.
Qed.

Definition boundaryb (x : irreps) (k : nat) : bool := existsb (fun j => dim (firstn j x) =? k) (seq 0 (S (length x))).
Lemma boundaryb_iff x k : boundaryb x k = true <-> boundary x k.
Proof.
  unfold boundaryb, boundary. rewrite existsb_exists. split.
  - intros (j & Hj & E). apply in_seq in Hj. exists j. split; lia.
  - intros (j & Hj & E). exists j. split; [apply in_seq; lia|lia].
Qed.
Definition b2n (b : bool) : nat := if b then 0 else 1.

Lemma num_irreps_app x y : num_irreps (x ++ y) = num_irreps x + num_irreps y.
Proof. unfold num_irreps. rewrite map_app, sum_app. reflexivity. Qed.
Lemma flat_list_slice x a b : a <= b -> flat (list_slice x a b) = list_slice (flat x) (num_irreps (firstn a x)) (num_irreps (firstn b x)).
Proof.
  intros H. unfold list_slice. assert (E : flat x = flat (firstn a x) ++ flat (firstn (b - a) (skipn a x)) ++ flat (skipn (b - a) (skipn a x))).
  { rewrite <- !flat_app, !firstn_skipn. reflexivity. }
  rewrite E, skipn_length_app by apply flat_length. rewrite firstn_length_app; [reflexivity|]. rewrite flat_length, firstn_skipn_comm. replace (a + (b - a)) with b by lia.
  assert (E2 : firstn b x = firstn a x ++ skipn a (firstn b x)).
  { rewrite <- (firstn_skipn a (firstn b x)) at 1. rewrite firstn_firstn, Nat.min_l by lia. reflexivity. }
  rewrite E2 at 2. rewrite num_irreps_app. lia.
Qed.

(* total: the recursion stops; sound: an accepted slice has the right value and aligned ordered bounds *)
Lemma getslice_spec start stop : forall fuel x, coherent x -> b2n (boundaryb (irr x) start) + b2n (boundaryb (irr x) stop) < fuel ->
  stop <= dim (irr x) ->
  (exists y, getslice fuel x start stop = Some (Ok y) /\ start <= stop /\ aligned (irr x) start /\ aligned (irr x) stop /\
     coherent y /\ lead y = lead x /\ (exists a b, a <= b <= num_irreps (irr x) /\ flat (irr y) = list_slice (flat (irr x)) a b /\
        start = sum (map ir_dim (firstn a (flat (irr x)))) /\ stop = sum (map ir_dim (firstn b (flat (irr x))))) /\
     forall i, valid (lead x) i -> arr y i = list_slice (arr x i) start stop) \/
  (exists e, getslice fuel x start stop = Some (Err e) /\ ~ (start <= stop /\ aligned (irr x) start /\ aligned (irr x) stop)).
Proof.
  induction fuel as [|fuel IH]; intros x H Hf Hd; [lia|]. cbn [getslice].
  pose proof (getslice_loop_sound (irr x) start stop (S (length (irr x))) 0 None ltac:(lia) ltac:(intros j Hj; lia) ltac:(intros j Hj; lia)) as Snd.
  assert (Cpl : start <= stop -> aligned (irr x) start -> aligned (irr x) stop ->
    match getslice_loop (irr x) start stop (S (length (irr x))) 0 None with GSplit j m => (0 < m)%Z | GFound (Some _) (Some _) => True | GFound _ _ => False end).
  { intros H1 H2 H3. apply getslice_loop_complete; auto; try lia; intros j Hj; lia. }
  destruct (getslice_loop (irr x) start stop (S (length (irr x))) 0 None) as [j m|[a|] [b|]].
  - assert (Sp : exists b, (b = start \/ b = stop) /\ split_at (irr x) b j m) by (destruct Snd; eauto). clear Snd.
    destruct Sp as (b & Hb & Hnb & mul & ir & En & Hm & Eb).
    destruct (Z.ltb_spec m 0) as [Hneg|Hpos].
    { right. pose proof (split_entry_neg _ _ _ _ _ En Hneg) as Es. destruct (split_entry (irr x) j m) as [?|e]; [discriminate|]. cbn [bind].
      exists e. split; [reflexivity|]. intros (H1 & H2 & H3). specialize (Cpl H1 H2 H3). lia. }
    rewrite (split_entry_ok _ _ _ _ _ En Hpos Hm). cbn [bind]. set (u := Z.to_nat m). assert (Hu : u <= mul) by (unfold u; lia).
    set (t := firstn j (irr x) ++ (u, ir) :: (mul - u, ir) :: skipn (S j) (irr x)).
    assert (Ft : flat t = flat (irr x)) by (apply split_flat; assumption).
    destruct (rechunk_yields x t H) as (y & E & E1 & E2 & E3 & E4); [apply simplify_iff; symmetry; exact Ft|]. rewrite E.
    assert (Bb : boundary t b). { assert (Eb' : b = dim (firstn j (irr x)) + u * ir_dim ir) by (unfold u; nia). rewrite Eb'. apply split_boundary_new, En. }
    assert (Bo : forall k, boundary (irr x) k -> boundary t k) by (intros k; apply split_boundary_old; assumption).
    assert (Dt : dim t = dim (irr x)) by (rewrite !dim_flat, Ft; reflexivity).
    destruct (IH y E3) as [(z & F)|(e & F)].
    + rewrite E1. assert (Mono : forall k, b2n (boundaryb t k) <= b2n (boundaryb (irr x) k)).
      { intros k. destruct (boundaryb (irr x) k) eqn:Ek; [|destruct (boundaryb t k); cbn; lia].
        apply boundaryb_iff, Bo, boundaryb_iff in Ek. rewrite Ek. lia. }
      assert (S1 : b2n (boundaryb t b) = 0) by (apply boundaryb_iff in Bb; rewrite Bb; reflexivity).
      assert (S2 : b2n (boundaryb (irr x) b) = 1). { destruct (boundaryb (irr x) b) eqn:Ek; [|reflexivity]. apply boundaryb_iff in Ek. contradiction. }
      pose proof (Mono start). pose proof (Mono stop). destruct Hb as [->| ->]; lia.
    + rewrite E1, Dt. exact Hd.
    + left. exists z. destruct F as (F0 & F1 & F2 & F3 & F4 & F5 & F6 & F7). rewrite E1 in *. rewrite E2 in *. rewrite Ft in F6.
      split; [exact F0|]. split; [exact F1|]. split; [eapply aligned_flat; [exact Ft|exact F2]|]. split; [eapply aligned_flat; [exact Ft|exact F3]|].
      split; [exact F4|]. split; [exact F5|]. split; [rewrite <- (flat_length t), Ft, flat_length in F6; exact F6|]. intros i Hi. rewrite F7, E4 by exact Hi. reflexivity.
    + right. exists e. destruct F as (F1 & F2). split; [exact F1|]. rewrite E1 in F2. intros (A1 & A2 & A3). apply F2. split; [exact A1|].
      split; eapply aligned_flat; try eassumption; symmetry; exact Ft.
  - left. destruct Snd as (Hab & Hb & Ea & Eb).
    destruct (entry_range_yields x a b (Nat.min stop (dim (irr x)) - start) H Hab) as (y & F & F1 & F2 & F3 & F4); [rewrite Ea, Eb; lia|].
    rewrite Ea, Eb in F, F4. exists y. rewrite F. split; [reflexivity|].
    split; [rewrite <- Ea, <- Eb; apply dim_firstn_mono, Hab|]. split; [apply boundary_aligned; exists a; split; [lia|exact Ea]|].
    split; [apply boundary_aligned; exists b; split; [lia|exact Eb]|]. split; [exact F3|]. split; [exact F2|]. split; [|exact F4].
    exists (num_irreps (firstn a (irr x))), (num_irreps (firstn b (irr x))).
    assert (Fl : forall k, firstn (num_irreps (firstn k (irr x))) (flat (irr x)) = flat (firstn k (irr x))).
    { intros k. rewrite <- (firstn_skipn k (irr x)) at 2. rewrite flat_app, firstn_length_app by apply flat_length. reflexivity. }
    rewrite !Fl, <- !dim_flat, Ea, Eb. split; [split|split; [|split; reflexivity]].
    + replace (firstn a (irr x)) with (firstn a (firstn b (irr x))) by (rewrite firstn_firstn; f_equal; lia).
      rewrite <- (firstn_skipn a (firstn b (irr x))) at 2. unfold num_irreps. rewrite map_app, sum_app. lia.
    + rewrite <- (firstn_skipn b (irr x)) at 2. unfold num_irreps. rewrite map_app, sum_app. lia.
    + rewrite F1. apply flat_list_slice, Hab.
  - right. exists IndexError. split; [reflexivity|]. intros (H1 & H2 & H3). exact (Cpl H1 H2 H3).
  - right. exists IndexError. split; [reflexivity|]. intros (H1 & H2 & H3). exact (Cpl H1 H2 H3).
  - right. exists IndexError. split; [reflexivity|]. intros (H1 & H2 & H3). exact (Cpl H1 H2 H3).
Qed.
