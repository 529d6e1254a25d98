(* C64: resampling of voxel images. *)
From Coq Require Import Reals Lra Lia List Arith Bool ZArith.
From Verif Require Import PyBase ArrayModel NormModel SumR VoxelModel.
Import ListNotations.
Open Scope R_scope.

(* ---- specification ---- *)
(* the weight of voxel i for a reading at position x on an axis of n voxels: x is moved to the nearest point of [0, n - 1] and the weight falls linearly from 1 at i to 0 at distance 1 *)
Definition clamp (n : nat) (x : R) : R := Rmax 0 (Rmin x (INR n - 1)).
Definition tent (n : nat) (x : R) (i : nat) : R := Rmax 0 (1 - Rabs (clamp n x - INR i)).
(* the position, in source voxels, of voxel i of m voxels that cover the same segment as n voxels *)
Definition centre (n m i : nat) : R := (INR i + 1 / 2) * INR n / INR m - 1 / 2.
Definition trilinear (v : volume) (b : idx) (x y z : R) : R :=
  rsum (v_x v) (fun i => rsum (v_y v) (fun j => rsum (v_z v) (fun k => tent (v_x v) x i * tent (v_y v) y j * tent (v_z v) z k * v_at v b i j k))).

(* ---- one axis ---- *)
Lemma floor_spec x : IZR (Int_part x) <= x < IZR (Int_part x) + 1.
Proof. destruct (base_Int_part x) as [H1 H2]. lra. Qed.
Lemma floor_unique x z : IZR z <= x < IZR z + 1 -> Int_part x = z.
Proof.
  intros H. destruct (floor_spec x) as [H1 H2]. assert (A : (z < Int_part x + 1)%Z) by (apply lt_IZR; rewrite plus_IZR; lra). assert (B : (Int_part x < z + 1)%Z) by (apply lt_IZR; rewrite plus_IZR; lra). lia.
Qed.
Lemma tent_self n (i : nat) : (i < n)%nat -> clamp n (INR i) = INR i.
Proof. intros H. unfold clamp. assert (Q : INR i + 1 <= INR n) by (rewrite <- S_INR; apply le_INR; lia). pose proof (pos_INR i). rewrite Rmin_left by lra. now rewrite Rmax_right by lra. Qed.
Lemma clamp_range n x : (0 < n)%nat -> 0 <= clamp n x <= INR n - 1.
Proof. intros H. unfold clamp. assert (1 <= INR n) by (change 1 with (INR 1); apply le_INR; lia). split; [apply Rmax_l|]. apply Rmax_lub; [lra|apply Rmin_r]. Qed.
Lemma tent_two n t j f : (j + 1 < n)%nat -> INR j <= t <= INR j + 1 -> rsum n (fun i => Rmax 0 (1 - Rabs (t - INR i)) * f i) = (INR j + 1 - t) * f j + (t - INR j) * f (j + 1)%nat.
Proof.
  intros Hn Ht. rewrite (rsum_ext n _ (fun i => (if Nat.eqb i j then (INR j + 1 - t) * f i else 0) + (if Nat.eqb i (j + 1) then (t - INR j) * f i else 0))).
  - rewrite rsum_plus. rewrite (rsum_delta n j (fun i => (INR j + 1 - t) * f i)) by lia. rewrite (rsum_delta n (j + 1) (fun i => (t - INR j) * f i)) by lia. reflexivity.
  - intros i Hi. destruct (Nat.eqb_spec i j) as [->|N1].
    + destruct (Nat.eqb_spec j (j + 1)); [lia|]. rewrite Rabs_right by lra. rewrite Rmax_right by lra. ring.
    + destruct (Nat.eqb_spec i (j + 1)) as [->|N2].
      * rewrite plus_INR. cbn [INR]. rewrite Rabs_left1 by lra. rewrite Rmax_right by lra. ring.
      * assert (Q : INR i + 1 <= INR j \/ INR j + 2 <= INR i). { assert (i < j \/ j + 2 <= i)%nat as [A|A] by lia; [left; rewrite <- S_INR; apply le_INR; lia|right; replace 2 with (INR 2) by (cbn; lra); rewrite <- plus_INR; apply le_INR; lia]. }
        rewrite Rmax_left; [ring|]. destruct Q; [rewrite Rabs_right by lra|rewrite Rabs_left1 by lra]; lra.
Qed.
Lemma tent_one n (i : nat) f : (i < n)%nat -> rsum n (fun k => Rmax 0 (1 - Rabs (INR i - INR k)) * f k) = f i.
Proof.
  intros Hi. rewrite (rsum_ext n _ (fun k => if Nat.eqb k i then f k else 0)); [now apply rsum_delta|]. intros k Hk. destruct (Nat.eqb_spec k i) as [->|N].
  - replace (INR i - INR i) with 0 by ring. rewrite Rabs_R0. rewrite Rmax_right by lra. ring.
  - assert (Q : INR k + 1 <= INR i \/ INR i + 1 <= INR k) by (assert (k < i \/ i < k)%nat as [A|A] by lia; [left|right]; rewrite <- S_INR; apply le_INR; lia). rewrite Rmax_left; [ring|]. destruct Q; [rewrite Rabs_right by lra|rewrite Rabs_left1 by lra]; lra.
Qed.
Lemma clip_lt n z : (0 < n)%nat -> (clip n z < n)%nat.
Proof. unfold clip. lia. Qed.
(* the two clipped neighbours with their weights give the tent sum *)
Lemma axis n x f : (0 < n)%nat -> (IZR (Int_part x + 1) - x) * f (clip n (Int_part x)) + (x - IZR (Int_part x)) * f (clip n (Int_part x + 1)) = rsum n (fun i => tent n x i * f i).
Proof.
  intros Hn. destruct (floor_spec x) as [F1 F2]. rewrite plus_IZR. set (lo := Int_part x) in *. unfold tent. assert (N1 : 1 <= INR n) by (change 1 with (INR 1); apply le_INR; lia).
  destruct (Z_lt_le_dec lo 0) as [L|L].
  - assert (Q : IZR lo + 1 <= 0) by (replace 1 with (IZR 1) by reflexivity; rewrite <- plus_IZR; apply (IZR_le _ 0); lia). replace (clip n lo) with 0%nat by (unfold clip; lia). replace (clip n (lo + 1)) with 0%nat by (unfold clip; lia).
    assert (C : clamp n x = INR 0) by (unfold clamp; rewrite Rmin_left by lra; rewrite Rmax_left by lra; reflexivity). rewrite C, tent_one by lia. ring.
  - destruct (Z_lt_le_dec lo (Z.of_nat n - 1)) as [U|U].
    + set (j := Z.to_nat lo). assert (J : IZR lo = INR j) by (unfold j; rewrite INR_IZR_INZ, Z2Nat.id by lia; reflexivity). replace (clip n lo) with j by (unfold clip, j; lia). replace (clip n (lo + 1)) with (j + 1)%nat by (unfold clip, j; lia).
      assert (Hj : (j + 1 < n)%nat) by (unfold j; lia). assert (Q : INR j + 2 <= INR n) by (replace 2 with (INR 2) by (cbn; lra); rewrite <- plus_INR; apply le_INR; lia). pose proof (pos_INR j).
      assert (C : clamp n x = x) by (unfold clamp; rewrite Rmin_left by lra; now rewrite Rmax_right by lra). rewrite C, (tent_two n x j f Hj) by lra. rewrite J. ring.
    + assert (Q : INR n - 1 <= IZR lo) by (rewrite INR_IZR_INZ, <- minus_IZR; apply IZR_le; lia). replace (clip n lo) with (n - 1)%nat by (unfold clip; lia). replace (clip n (lo + 1)) with (n - 1)%nat by (unfold clip; lia).
      assert (C : clamp n x = INR (n - 1)) by (unfold clamp; rewrite Rmin_right by lra; rewrite Rmax_right by lra; rewrite minus_INR by lia; reflexivity). rewrite C, tent_one by lia. ring.
Qed.
Lemma tent_nonneg n x i : 0 <= tent n x i. Proof. apply Rmax_l. Qed.
Lemma tent_total n x : (0 < n)%nat -> rsum n (tent n x) = 1.
Proof. intros H. rewrite (rsum_ext n _ (fun i => tent n x i * 1)) by (intros; ring). rewrite <- (axis n x (fun _ => 1) H). rewrite plus_IZR. ring. Qed.
Lemma tent_voxel n (i : nat) f : (i < n)%nat -> rsum n (fun k => tent n (INR i) k * f k) = f i.
Proof. intros H. unfold tent. rewrite tent_self by exact H. now apply tent_one. Qed.
Lemma tent_mirror n x i : (i < n)%nat -> tent n (INR n - 1 - x) (n - 1 - i) = tent n x i.
Proof.
  intros Hi. assert (N1 : 1 <= INR n) by (change 1 with (INR 1); apply le_INR; lia). unfold tent. assert (C : clamp n (INR n - 1 - x) = INR n - 1 - clamp n x).
  { unfold clamp, Rmax, Rmin. repeat destruct (Rle_dec _ _); lra. }
  rewrite C, !minus_INR by lia. cbn [INR]. replace (INR n - 1 - clamp n x - (INR n - 1 - INR i)) with (- (clamp n x - INR i)) by ring. now rewrite Rabs_Ropp.
Qed.

(* ---- the whole image ---- *)
Theorem C64_trilinear v x y z : (0 < v_x v)%nat -> (0 < v_y v)%nat -> (0 < v_z v)%nat -> exists f, interpolate_trilinear v x y z = Ok f /\ forall b, f b = trilinear v b x y z.
Proof.
  intros Hx Hy Hz. unfold interpolate_trilinear. assert (E : empty_axis v = false) by (unfold empty_axis; destruct (v_x v), (v_y v), (v_z v); try lia; reflexivity). rewrite E. eexists. split; [reflexivity|]. intros b. unfold trilinear.
  rewrite (rsum_ext (v_x v) _ (fun i => tent (v_x v) x i * rsum (v_y v) (fun j => tent (v_y v) y j * rsum (v_z v) (fun k => tent (v_z v) z k * v_at v b i j k)))).
  2: { intros i _. rewrite <- rsum_scal. apply rsum_ext. intros j _. rewrite <- !rsum_scal. apply rsum_ext. intros k _. ring. }
  rewrite <- (axis (v_x v) x _ Hx), <- !(axis (v_y v) y _ Hy), <- !(axis (v_z v) z _ Hz). ring.
Qed.
Lemma nested v b x y z : trilinear v b x y z = rsum (v_x v) (fun i => tent (v_x v) x i * rsum (v_y v) (fun j => tent (v_y v) y j * rsum (v_z v) (fun k => tent (v_z v) z k * v_at v b i j k))).
Proof. unfold trilinear. apply rsum_ext. intros i _. rewrite <- rsum_scal. apply rsum_ext. intros j _. rewrite <- !rsum_scal. apply rsum_ext. intros k _. ring. Qed.
Lemma positions_ok n m : (0 < m)%nat -> exists f, positions n m = Ok f /\ forall i, f i = centre n m i.
Proof.
  intros H. unfold positions. destruct (Nat.eqb_spec m 0); [lia|]. eexists. split; [reflexivity|]. intros i. unfold centre. assert (INR m <> 0) by (apply not_0_INR; lia). field. assumption.
Qed.
Definition nonempty (v : volume) : Prop := (0 < v_x v)%nat /\ (0 < v_y v)%nat /\ (0 < v_z v)%nat.
Lemma nonempty_axis v : nonempty v -> empty_axis v = false.
Proof. intros (H1 & H2 & H3). unfold empty_axis. destruct (v_x v), (v_y v), (v_z v); try lia; reflexivity. Qed.
(* zoom(output_size=(mx, my, mz)): the two grids cover the same box; each new voxel reads the image at its centre *)
Theorem C64_zoom v mx my mz : nonempty v -> (0 < mx)%nat -> (0 < my)%nat -> (0 < mz)%nat ->
  (exists w, zoom v None (Some (mx, my, mz)) Linear = Ok w /\ v_lead w = v_lead v /\ v_x w = mx /\ v_y w = my /\ v_z w = mz /\
     forall b i j k, v_at w b i j k = trilinear v b (centre (v_x v) mx i) (centre (v_y v) my j) (centre (v_z v) mz k)) /\
  (exists w, zoom v None (Some (mx, my, mz)) Nearest = Ok w /\ v_lead w = v_lead v /\ v_x w = mx /\ v_y w = my /\ v_z w = mz /\
     forall b i j k, v_at w b i j k = v_at v b (clip (v_x v) (round_even (centre (v_x v) mx i))) (clip (v_y v) (round_even (centre (v_y v) my j))) (clip (v_z v) (round_even (centre (v_z v) mz k)))).
Proof.
  intros Nv Hx Hy Hz. destruct (positions_ok (v_x v) mx Hx) as (px & Ex & Px), (positions_ok (v_y v) my Hy) as (py & Ey & Py), (positions_ok (v_z v) mz Hz) as (pz & Ez & Pz).
  unfold zoom, zoom_to. cbn [bind]. rewrite Ex, Ey, Ez. cbn [bind]. rewrite (nonempty_axis v Nv). split.
  - eexists. split; [reflexivity|]. cbn [v_lead v_x v_y v_z v_at]. repeat (split; [reflexivity|]). intros b i j k. destruct Nv as (N1 & N2 & N3). destruct (C64_trilinear v (px i) (py j) (pz k) N1 N2 N3) as (f & -> & Hf). now rewrite Hf, Px, Py, Pz.
  - eexists. split; [reflexivity|]. cbn [v_lead v_x v_y v_z v_at]. repeat (split; [reflexivity|]). intros b i j k. unfold interpolate_nearest. rewrite (nonempty_axis v Nv). now rewrite Px, Py, Pz.
Qed.
Theorem C64_errors v r s m :
  (forall r' s', zoom v (Some r') (Some s') m = Err AssertionError) /\ zoom v None None m = Err AssertionError /\
  (forall mx my mz, mx = 0%nat \/ my = 0%nat \/ mz = 0%nat -> zoom v None (Some (mx, my, mz)) m = Err ZeroDivisionError) /\
  (is_ok (zoom v r s m) = true <-> m <> OtherString /\ nonempty v /\ exists mx my mz, zoom v r s m = zoom v None (Some (mx, my, mz)) m /\ (0 < mx)%nat /\ (0 < my)%nat /\ (0 < mz)%nat).
Proof.
  assert (Z : forall mx my mz, mx = 0%nat \/ my = 0%nat \/ mz = 0%nat -> zoom v None (Some (mx, my, mz)) m = Err ZeroDivisionError).
  { intros mx my mz H. unfold zoom, zoom_to, positions. cbn [bind]. destruct (Nat.eqb_spec mx 0); [reflexivity|]. cbn [bind]. destruct (Nat.eqb_spec my 0); [reflexivity|]. cbn [bind]. destruct (Nat.eqb_spec mz 0); [reflexivity|]. lia. }
  split; [reflexivity|]. split; [reflexivity|]. split; [exact Z|]. split.
  - intros H. assert (G : exists mx my mz, zoom v r s m = zoom v None (Some (mx, my, mz)) m).
    { unfold zoom in *. destruct r as [r|]; [destruct s as [s|]; [discriminate|]|destruct s as [[[mx my] mz]|]; [|discriminate]]. { cbn [assert bind] in *. destruct r; cbn [bind]; eauto. } eauto. }
    destruct G as (mx & my & mz & G). rewrite G in H. assert (P : (0 < mx)%nat /\ (0 < my)%nat /\ (0 < mz)%nat) by (destruct (Nat.eq_dec mx 0) as [A|A]; [rewrite Z in H by auto; discriminate|]; destruct (Nat.eq_dec my 0) as [B|B]; [rewrite Z in H by auto; discriminate|]; destruct (Nat.eq_dec mz 0) as [D|D]; [rewrite Z in H by auto; discriminate|]; lia).
    destruct P as (P1 & P2 & P3). unfold zoom, zoom_to in H. cbn [bind] in H. destruct (positions_ok (v_x v) mx P1) as (px & Ex & _), (positions_ok (v_y v) my P2) as (py & Ey & _), (positions_ok (v_z v) mz P3) as (pz & Ez & _). rewrite Ex, Ey, Ez in H. cbn [bind] in H.
    split; [intros ->; discriminate|]. split; [|exists mx, my, mz; repeat (split; [assumption|]); assumption]. assert (E : empty_axis v = false) by (destruct (empty_axis v); [destruct m; discriminate|reflexivity]). unfold empty_axis in E. apply Bool.orb_false_iff in E as [E E3]. apply Bool.orb_false_iff in E as [E1 E2]. apply Nat.eqb_neq in E1, E2, E3. unfold nonempty. lia.
  - intros (Hm & Nv & mx & my & mz & -> & P1 & P2 & P3). destruct (C64_zoom v mx my mz Nv P1 P2 P3) as [(w & Ew & _) (w' & Ew' & _)]. destruct m; [now rewrite Ew|now rewrite Ew'|congruence].
Qed.
Lemma round_even_spec x : Rabs (IZR (round_even x) - x) <= 1 / 2 /\ (Rabs (IZR (round_even x) - x) = 1 / 2 -> Z.even (round_even x) = true).
Proof.
  destruct (floor_spec x) as [F1 F2]. unfold round_even. set (n := Int_part x) in *. destruct (Rlt_dec (x - IZR n) (1 / 2)) as [H|H].
  - rewrite Rabs_left1 by lra. split; [lra|lra].
  - destruct (Rlt_dec (1 / 2) (x - IZR n)) as [G|G].
    + rewrite plus_IZR. rewrite Rabs_right by lra. split; lra.
    + assert (Q : x - IZR n = 1 / 2) by lra. destruct (Z.even n) eqn:E; [rewrite Rabs_left1 by lra; split; [lra|auto]|]. rewrite plus_IZR. rewrite Rabs_right by lra. split; [lra|]. intros _. rewrite Z.even_add, E. reflexivity.
Qed.
Lemma round_near x z : Rabs (x - IZR z) < 1 / 2 -> round_even x = z.
Proof.
  intros H. destruct (round_even_spec x) as [G _]. assert (Q : Rabs (IZR (round_even x) - IZR z) < 1) by (replace (IZR (round_even x) - IZR z) with ((IZR (round_even x) - x) + (x - IZR z)) by ring; eapply Rle_lt_trans; [apply Rabs_triang|lra]).
  apply Rabs_def2 in Q as [Q1 Q2]. rewrite <- minus_IZR in Q1, Q2. assert (round_even x - z < 1)%Z by (apply lt_IZR; exact Q1). assert (-1 < round_even x - z)%Z by (apply lt_IZR; exact Q2). lia.
Qed.
(* resize_rate: each new size is the integer nearest to size * rate (halves to the even one); one number stands for three *)
Theorem C64_resize_rate v rx ry rz m : 0 <= rx -> 0 <= ry -> 0 <= rz -> exists mx my mz, zoom v (Some (Three rx ry rz)) None m = zoom v None (Some (mx, my, mz)) m /\
  (forall r, zoom v (Some (Same r)) None m = zoom v (Some (Three r r r)) None m) /\
  Forall (fun q => let '(n, r, s) := q in Rabs (INR s - INR n * r) <= 1 / 2 /\ (Rabs (INR s - INR n * r) = 1 / 2 -> Nat.Even s)) [(v_x v, rx, mx); (v_y v, ry, my); (v_z v, rz, mz)].
Proof.
  intros Hx Hy Hz. eexists _, _, _. split; [reflexivity|]. split; [reflexivity|].
  assert (G : forall n r, 0 <= r -> let s := Z.to_nat (round_even (INR n * r)) in Rabs (INR s - INR n * r) <= 1 / 2 /\ (Rabs (INR s - INR n * r) = 1 / 2 -> Nat.Even s)).
  { intros n r Hr s. destruct (round_even_spec (INR n * r)) as [G1 G2]. assert (P : 0 <= INR n * r) by (apply Rmult_le_pos; [apply pos_INR|exact Hr]).
    assert (Q : (0 <= round_even (INR n * r))%Z). { assert (IZR (-1) < IZR (round_even (INR n * r))) by (clear G2; unfold Rabs in G1; destruct (Rcase_abs _); lra). apply lt_IZR in H. lia. }
    assert (I : INR s = IZR (round_even (INR n * r))) by (unfold s; rewrite INR_IZR_INZ, Z2Nat.id by exact Q; reflexivity). rewrite I. split; [exact G1|]. intros E. specialize (G2 E). apply Z.even_spec in G2 as [q Hq]. exists (Z.to_nat q). unfold s. lia. }
  constructor; [apply G; assumption|]. constructor; [apply G; assumption|]. constructor; [apply G; assumption|]. constructor.
Qed.

(* ---- what linear resampling preserves ---- *)
Theorem C64_same_size v m : nonempty v -> m <> OtherString -> exists w, zoom v None (Some (v_x v, v_y v, v_z v)) m = Ok w /\
  forall b i j k, (i < v_x v)%nat -> (j < v_y v)%nat -> (k < v_z v)%nat -> v_at w b i j k = v_at v b i j k.
Proof.
  intros Nv Hm. pose proof Nv as (N1 & N2 & N3). destruct (C64_zoom v (v_x v) (v_y v) (v_z v) Nv N1 N2 N3) as [(w & Ew & _ & _ & _ & _ & Hw) (w' & Ew' & _ & _ & _ & _ & Hw')].
  assert (C : forall n i, (i < n)%nat -> centre n n i = INR i) by (intros n i H; unfold centre; assert (INR n <> 0) by (apply not_0_INR; lia); field; assumption).
  destruct m; [exists w|exists w'|congruence]; (split; [assumption|]); intros b i j k Hi Hj Hk.
  - rewrite Hw, !C by assumption. rewrite nested. rewrite tent_voxel by exact Hi. rewrite tent_voxel by exact Hj. now rewrite tent_voxel by exact Hk.
  - rewrite Hw', !C by assumption. assert (G : forall n i, (i < n)%nat -> clip n (round_even (INR i)) = i). { intros n a Ha. rewrite (round_near (INR a) (Z.of_nat a)) by (rewrite <- INR_IZR_INZ; replace (INR a - INR a) with 0 by ring; rewrite Rabs_R0; lra). unfold clip. lia. } now rewrite !G by assumption.
Qed.
Lemma tent_bounds n x f lo hi : (0 < n)%nat -> (forall i, (i < n)%nat -> lo <= f i <= hi) -> lo <= rsum n (fun i => tent n x i * f i) <= hi.
Proof.
  intros Hn H. pose proof (tent_total n x Hn) as T. assert (M : forall g h, (forall i, (i < n)%nat -> g i <= h i) -> rsum n g <= rsum n h). { intros g h Q. assert (0 <= rsum n (fun i => h i - g i)) by (apply rsum_nonneg; intros i Hi; specialize (Q i Hi); lra). rewrite (rsum_ext n _ (fun i => h i + - g i)) in H0 by (intros; ring). rewrite rsum_plus, rsum_opp in H0. lra. }
  split.
  - replace lo with (rsum n (fun i => tent n x i * lo)) by (rewrite rsum_scal_r, T; ring). apply M. intros i Hi. apply Rmult_le_compat_l; [apply tent_nonneg|apply H, Hi].
  - replace hi with (rsum n (fun i => tent n x i * hi)) by (rewrite rsum_scal_r, T; ring). apply M. intros i Hi. apply Rmult_le_compat_l; [apply tent_nonneg|apply H, Hi].
Qed.
(* no overshoot, whatever the position; a constant image stays constant *)
Theorem C64_bounds v b x y z lo hi : nonempty v -> (forall i j k, (i < v_x v)%nat -> (j < v_y v)%nat -> (k < v_z v)%nat -> lo <= v_at v b i j k <= hi) ->
  exists f, interpolate_trilinear v x y z = Ok f /\ lo <= f b <= hi.
Proof.
  intros (N1 & N2 & N3) H. destruct (C64_trilinear v x y z N1 N2 N3) as (f & E & Hf). exists f. split; [exact E|]. rewrite Hf, nested.
  apply tent_bounds; [exact N1|]. intros i Hi. apply tent_bounds; [exact N2|]. intros j Hj. apply tent_bounds; [exact N3|]. intros k Hk. now apply H.
Qed.
Lemma tent_position n x : (0 < n)%nat -> rsum n (fun i => tent n x i * INR i) = clamp n x.
Proof.
  intros Hn. destruct (clamp_range n x Hn) as [C1 C2]. unfold tent. set (t := clamp n x) in *. destruct (Nat.eq_dec n 1) as [->|N1].
  - cbn [INR] in C2. assert (t = 0) by lra. cbn [rsum INR]. lra.
  - assert (N2 : 2 <= INR n) by (replace 2 with (INR 2) by (cbn; lra); apply le_INR; lia). destruct (Rle_dec (INR n - 2) t) as [L|L].
    + assert (I : INR (n - 2) = INR n - 2) by (rewrite minus_INR by lia; cbn; lra). rewrite (tent_two n t (n - 2) INR) by (lia || lra). rewrite plus_INR, I. cbn [INR]. ring.
    + destruct (floor_spec t) as [F1 F2]. set (lo := Int_part t) in *. assert (L0 : (0 <= lo)%Z). { assert (IZR (-1) < IZR lo) by lra. apply lt_IZR in H. lia. }
      assert (L1 : (lo < Z.of_nat n - 2)%Z). { apply lt_IZR. rewrite minus_IZR, <- INR_IZR_INZ. lra. } set (j := Z.to_nat lo). assert (J : IZR lo = INR j) by (unfold j; rewrite INR_IZR_INZ, Z2Nat.id by lia; reflexivity).
      rewrite (tent_two n t j INR) by (lia || lra). rewrite plus_INR. cbn [INR]. ring.
Qed.
(* images that are affine in each coordinate are read exactly: between voxels, the polynomial; outside, its value at the nearest point of the box *)
Theorem C64_affine v b x y z p q r : nonempty v -> (forall i j k, (i < v_x v)%nat -> (j < v_y v)%nat -> (k < v_z v)%nat -> v_at v b i j k = (fst p + snd p * INR i) * (fst q + snd q * INR j) * (fst r + snd r * INR k)) ->
  exists f, interpolate_trilinear v x y z = Ok f /\ f b = (fst p + snd p * clamp (v_x v) x) * (fst q + snd q * clamp (v_y v) y) * (fst r + snd r * clamp (v_z v) z).
Proof.
  intros (N1 & N2 & N3) H. destruct (C64_trilinear v x y z N1 N2 N3) as (f & E & Hf). exists f. split; [exact E|]. rewrite Hf, nested.
  assert (A : forall n t (u : R * R), (0 < n)%nat -> rsum n (fun i => tent n t i * (fst u + snd u * INR i)) = fst u + snd u * clamp n t).
  { intros n t u Hn. rewrite (rsum_ext n _ (fun i => fst u * tent n t i + snd u * (tent n t i * INR i))) by (intros; ring). rewrite rsum_plus, !rsum_scal, tent_total, tent_position by exact Hn. ring. }
  rewrite (rsum_ext (v_x v) _ (fun i => tent (v_x v) x i * (fst p + snd p * INR i) * ((fst q + snd q * clamp (v_y v) y) * (fst r + snd r * clamp (v_z v) z)))).
  2: { intros i Hi. rewrite <- (A (v_y v) y q N2), <- (A (v_z v) z r N3). rewrite Rmult_assoc. f_equal. rewrite <- rsum_scal_r, <- rsum_scal. apply rsum_ext. intros j Hj. rewrite (rsum_ext (v_z v) _ (fun k => ((fst p + snd p * INR i) * (fst q + snd q * INR j)) * (tent (v_z v) z k * (fst r + snd r * INR k)))). { rewrite rsum_scal. ring. } intros k Hk. rewrite H by assumption. ring. }
  rewrite rsum_scal_r, (A (v_x v) x p N1). ring.
Qed.
(* linear in the image *)
Theorem C64_linear u v w s t mx my mz z1 z2 : v_x u = v_x w -> v_y u = v_y w -> v_z u = v_z w -> v_x v = v_x w -> v_y v = v_y w -> v_z v = v_z w ->
  (forall b i j k, (i < v_x w)%nat -> (j < v_y w)%nat -> (k < v_z w)%nat -> v_at w b i j k = s * v_at u b i j k + t * v_at v b i j k) ->
  zoom u None (Some (mx, my, mz)) Linear = Ok z1 -> zoom v None (Some (mx, my, mz)) Linear = Ok z2 ->
  exists z, zoom w None (Some (mx, my, mz)) Linear = Ok z /\ forall b i j k, v_at z b i j k = s * v_at z1 b i j k + t * v_at z2 b i j k.
Proof.
  intros U1 U2 U3 V1 V2 V3 H E1 E2. assert (K : is_ok (zoom u None (Some (mx, my, mz)) Linear) = true) by now rewrite E1. apply (C64_errors u None (Some (mx, my, mz)) Linear) in K as (_ & Nu & mx' & my' & mz' & K & P1 & P2 & P3).
  assert (P : (0 < mx)%nat /\ (0 < my)%nat /\ (0 < mz)%nat). { destruct (Nat.eq_dec mx 0) as [A|A]; [|destruct (Nat.eq_dec my 0) as [B|B]; [|destruct (Nat.eq_dec mz 0) as [D|D]; [|lia]]]; (rewrite (proj1 (proj2 (proj2 (C64_errors u None None Linear)))) in E1 by auto; discriminate). }
  clear P1 P2 P3 K. destruct P as (P1 & P2 & P3). assert (Nw : nonempty w) by (unfold nonempty in *; lia). assert (Nv : nonempty v) by (unfold nonempty in *; lia).
  destruct (C64_zoom u mx my mz Nu P1 P2 P3) as [(a & Ea & _ & _ & _ & _ & Ha) _]. destruct (C64_zoom v mx my mz Nv P1 P2 P3) as [(c & Ec & _ & _ & _ & _ & Hc) _]. destruct (C64_zoom w mx my mz Nw P1 P2 P3) as [(d & Ed & _ & _ & _ & _ & Hd) _].
  rewrite E1 in Ea. injection Ea as <-. rewrite E2 in Ec. injection Ec as <-. exists d. split; [exact Ed|]. intros b i j k. rewrite Hd, Ha, Hc. rewrite U1, U2, U3, V1, V2, V3. unfold trilinear. rewrite U1, U2, U3, V1, V2, V3.
  rewrite <- !rsum_scal, <- rsum_plus. apply rsum_ext. intros i' Hi. rewrite <- !rsum_scal, <- rsum_plus. apply rsum_ext. intros j' Hj. rewrite <- !rsum_scal, <- rsum_plus. apply rsum_ext. intros k' Hk. rewrite H by assumption. ring.
Qed.
(* mirror images: reversing any axes of the image reverses the same axes of the result *)
Definition flip (f : bool) (n i : nat) : nat := if f then (n - 1 - i)%nat else i.
Lemma flip_lt f n i : (i < n)%nat -> (flip f n i < n)%nat.
Proof. destruct f; cbn; lia. Qed.
Lemma tent_flip f n m i g : (0 < n)%nat -> (i < m)%nat -> rsum n (fun a => tent n (centre n m i) a * g (flip f n a)) = rsum n (fun a => tent n (centre n m (flip f m i)) a * g a).
Proof.
  intros Hn Hi. destruct f; cbn [flip]; [|reflexivity]. rewrite (rsum_rev n (fun a => tent n (centre n m (m - 1 - i)) a * g a)). apply rsum_ext. intros a Ha. f_equal. rewrite <- (tent_mirror n _ (n - 1 - a)) by lia. replace (n - 1 - (n - 1 - a))%nat with a by lia. f_equal. unfold centre. rewrite !minus_INR by lia. cbn [INR]. assert (INR m <> 0) by (apply not_0_INR; lia). field. assumption.
Qed.
Theorem C64_mirror v w fx fy fz mx my mz z : v_x w = v_x v -> v_y w = v_y v -> v_z w = v_z v -> nonempty v -> (0 < mx)%nat -> (0 < my)%nat -> (0 < mz)%nat ->
  (forall b i j k, (i < v_x v)%nat -> (j < v_y v)%nat -> (k < v_z v)%nat -> v_at w b i j k = v_at v b (flip fx (v_x v) i) (flip fy (v_y v) j) (flip fz (v_z v) k)) ->
  zoom v None (Some (mx, my, mz)) Linear = Ok z ->
  exists z', zoom w None (Some (mx, my, mz)) Linear = Ok z' /\ forall b i j k, (i < mx)%nat -> (j < my)%nat -> (k < mz)%nat -> v_at z' b i j k = v_at z b (flip fx mx i) (flip fy my j) (flip fz mz k).
Proof.
  intros Wx Wy Wz Nv P1 P2 P3 H Ez. assert (Nw : nonempty w) by (unfold nonempty in *; lia). destruct (C64_zoom v mx my mz Nv P1 P2 P3) as [(a & Ea & _ & _ & _ & _ & Ha) _]. rewrite Ez in Ea. injection Ea as <-.
  destruct (C64_zoom w mx my mz Nw P1 P2 P3) as [(z' & Ew & _ & _ & _ & _ & Hw) _]. exists z'. split; [exact Ew|]. intros b i j k Hi Hj Hk. rewrite Hw, Ha, !nested, Wx, Wy, Wz. destruct Nv as (N1 & N2 & N3).
  rewrite <- (tent_flip fx) by assumption. apply rsum_ext. intros i' Hi'. f_equal. rewrite <- (tent_flip fy) by assumption. apply rsum_ext. intros j' Hj'. f_equal. rewrite <- (tent_flip fz) by assumption. apply rsum_ext. intros k' Hk'. f_equal. now apply H.
Qed.
(* exchanging axes of the image exchanges the axes of the result *)
Theorem C64_swap v w mx my mz z : nonempty v -> zoom v None (Some (mx, my, mz)) Linear = Ok z -> (0 < mx)%nat -> (0 < my)%nat -> (0 < mz)%nat ->
  (v_x w = v_y v -> v_y w = v_x v -> v_z w = v_z v -> (forall b i j k, v_at w b j i k = v_at v b i j k) -> exists z', zoom w None (Some (my, mx, mz)) Linear = Ok z' /\ forall b i j k, v_at z' b j i k = v_at z b i j k) /\
  (v_x w = v_x v -> v_y w = v_z v -> v_z w = v_y v -> (forall b i j k, v_at w b i k j = v_at v b i j k) -> exists z', zoom w None (Some (mx, mz, my)) Linear = Ok z' /\ forall b i j k, v_at z' b i k j = v_at z b i j k).
Proof.
  intros Nv Ez P1 P2 P3. destruct (C64_zoom v mx my mz Nv P1 P2 P3) as [(a & Ea & _ & _ & _ & _ & Ha) _]. rewrite Ez in Ea. injection Ea as <-. split; intros Wx Wy Wz H.
  - assert (Nw : nonempty w) by (unfold nonempty in *; lia). destruct (C64_zoom w my mx mz Nw P2 P1 P3) as [(z' & Ew & _ & _ & _ & _ & Hw) _]. exists z'. split; [exact Ew|]. intros b i j k. rewrite Hw, Ha. unfold trilinear. rewrite Wx, Wy, Wz. rewrite rsum_swap. apply rsum_ext. intros i' _. apply rsum_ext. intros j' _. apply rsum_ext. intros k' _. rewrite H. ring.
  - assert (Nw : nonempty w) by (unfold nonempty in *; lia). destruct (C64_zoom w mx mz my Nw P1 P3 P2) as [(z' & Ew & _ & _ & _ & _ & Hw) _]. exists z'. split; [exact Ew|]. intros b i j k. rewrite Hw, Ha. unfold trilinear. rewrite Wx, Wy, Wz. apply rsum_ext. intros i' _. rewrite rsum_swap. apply rsum_ext. intros j' _. apply rsum_ext. intros k' _. rewrite H. ring.
Qed.
(* halving every axis takes the mean of each block of 2 x 2 x 2 voxels *)
Theorem C64_halve v mx my mz : (0 < mx)%nat -> (0 < my)%nat -> (0 < mz)%nat -> v_x v = (2 * mx)%nat -> v_y v = (2 * my)%nat -> v_z v = (2 * mz)%nat ->
  exists z, zoom v None (Some (mx, my, mz)) Linear = Ok z /\ forall b i j k, (i < mx)%nat -> (j < my)%nat -> (k < mz)%nat ->
    v_at z b i j k = rsum 2 (fun p => rsum 2 (fun q => rsum 2 (fun r => v_at v b (2 * i + p) (2 * j + q) (2 * k + r)))) / 8.
Proof.
  intros P1 P2 P3 Vx Vy Vz. assert (Nv : nonempty v) by (unfold nonempty; lia). destruct (C64_zoom v mx my mz Nv P1 P2 P3) as [(z & Ez & _ & _ & _ & _ & Hz) _]. exists z. split; [exact Ez|]. intros b i j k Hi Hj Hk. rewrite Hz, nested, Vx, Vy, Vz.
  assert (G : forall m a f, (a < m)%nat -> rsum (2 * m) (fun t => tent (2 * m) (centre (2 * m) m a) t * f t) = rsum 2 (fun p => f (2 * a + p)%nat) / 2).
  { intros m a f Ha. assert (I : INR (2 * m) = 2 * INR m) by (rewrite mult_INR; cbn [INR]; ring). assert (Ia : INR (2 * a) = 2 * INR a) by (rewrite mult_INR; cbn [INR]; ring). assert (Hm : INR m <> 0) by (apply not_0_INR; lia).
    assert (C : centre (2 * m) m a = 2 * INR a + 1 / 2) by (unfold centre; rewrite I; field; exact Hm). rewrite C. assert (B : INR a + 1 <= INR m) by (rewrite <- S_INR; apply le_INR; lia). pose proof (pos_INR a).
    unfold tent. replace (clamp (2 * m) (2 * INR a + 1 / 2)) with (2 * INR a + 1 / 2) by (unfold clamp; rewrite I; rewrite Rmin_left by lra; now rewrite Rmax_right by lra). rewrite (tent_two (2 * m) _ (2 * a) f) by (lia || rewrite Ia; lra). rewrite Ia. cbn [rsum]. rewrite Nat.add_0_r. replace (2 * a + 1)%nat with (S (2 * a)) by lia. field. }
  rewrite G by exact Hi. cbn [rsum]. rewrite !G by assumption. cbn [rsum]. rewrite !G by assumption. cbn [rsum]. field.
Qed.
(* "nearest" repeats every voxel when each size is multiplied by a whole number *)
Theorem C64_nearest_repeat v p q r : nonempty v -> (0 < p)%nat -> (0 < q)%nat -> (0 < r)%nat ->
  exists z, zoom v None (Some (p * v_x v, q * v_y v, r * v_z v)%nat) Nearest = Ok z /\ forall b i j k, (i < p * v_x v)%nat -> (j < q * v_y v)%nat -> (k < r * v_z v)%nat -> v_at z b i j k = v_at v b (i / p) (j / q) (k / r).
Proof.
  intros Nv Hp Hq Hr. pose proof Nv as (N1 & N2 & N3). destruct (C64_zoom v (p * v_x v) (q * v_y v) (r * v_z v) Nv ltac:(nia) ltac:(nia) ltac:(nia)) as [_ (z & Ez & _ & _ & _ & _ & Hz)]. exists z. split; [exact Ez|]. intros b i j k Hi Hj Hk. rewrite Hz.
  assert (G : forall n s a, (0 < n)%nat -> (0 < s)%nat -> (a < s * n)%nat -> clip n (round_even (centre n (s * n) a)) = (a / s)%nat).
  { intros n s a Hn Hs Ha. pose proof (Nat.div_mod a s ltac:(lia)) as D. pose proof (Nat.mod_upper_bound a s ltac:(lia)) as M. assert (B : (a / s < n)%nat) by (apply Nat.div_lt_upper_bound; lia). set (d := (a / s)%nat) in *. set (e := (a mod s)%nat) in *.
    rewrite (round_near _ (Z.of_nat d)); [unfold clip; lia|]. assert (Is : 0 < INR s) by (apply lt_0_INR; exact Hs). assert (In : 0 < INR n) by (apply lt_0_INR; exact Hn). rewrite <- INR_IZR_INZ. unfold centre. rewrite D, plus_INR, !mult_INR.
    replace ((INR s * INR d + INR e + 1 / 2) * INR n / (INR s * INR n) - 1 / 2 - INR d) with ((INR e + 1 / 2) / INR s - 1 / 2) by (field; lra). assert (E1 : INR e + 1 <= INR s) by (rewrite <- S_INR; apply le_INR; lia). pose proof (pos_INR e) as E0.
    assert (X : 0 < (INR e + 1 / 2) / INR s < 1). { split; [apply Rdiv_lt_0_compat; lra|]. apply (Rmult_lt_reg_r (INR s)); [exact Is|]. unfold Rdiv. rewrite Rmult_assoc, Rinv_l by lra. lra. } apply Rabs_def1; lra. }
  now rewrite !G by assumption.
Qed.
(* "nearest" does not commute with mirrors: halves are rounded to the even voxel *)
Theorem C64_nearest_mirror_refuted : let v := Vol [] 2 1 1 (fun _ i _ _ => INR i) in let w := Vol [] 2 1 1 (fun _ i _ _ => INR (1 - i)) in
  exists z z', zoom v None (Some (1, 1, 1)%nat) Nearest = Ok z /\ zoom w None (Some (1, 1, 1)%nat) Nearest = Ok z' /\ v_at z [] 0 0 0 = 0 /\ v_at z' [] 0 0 0 = 1.
Proof.
  intros v w. destruct (C64_zoom v 1 1 1 ltac:(unfold nonempty; cbn; lia) ltac:(lia) ltac:(lia) ltac:(lia)) as [_ (z & Ez & _ & _ & _ & _ & Hz)]. destruct (C64_zoom w 1 1 1 ltac:(unfold nonempty; cbn; lia) ltac:(lia) ltac:(lia) ltac:(lia)) as [_ (z' & Ez' & _ & _ & _ & _ & Hz')].
  exists z, z'. split; [exact Ez|]. split; [exact Ez'|]. rewrite Hz, Hz'. cbn [v w v_x v_y v_z v_at].
  assert (Q : round_even (centre 2 1 0) = 0%Z). { assert (C : centre 2 1 0 = 1 / 2) by (unfold centre; cbn [INR]; field). rewrite C. unfold round_even. rewrite (floor_unique (1 / 2) 0) by lra. destruct (Rlt_dec _ _); [reflexivity|]. destruct (Rlt_dec _ _); [lra|reflexivity]. }
  rewrite Q. split; reflexivity.
Qed.
(* a 4 x 1 x 1 ramp *)
Example C64_nonvacuous : let v := Vol [] 4 2 2 (fun _ i _ _ => INR i) in nonempty v /\
  (exists z, zoom v None (Some (2, 1, 1)%nat) Linear = Ok z /\ v_at z [] 0 0 0 = 1 / 2 /\ v_at z [] 1 0 0 = 5 / 2) /\ zoom v (Some (Same (1 / 2))) None Linear = zoom v None (Some (2, 1, 1)%nat) Linear.
Proof.
  intros v. assert (Nv : nonempty v) by (unfold nonempty; cbn; lia). split; [exact Nv|]. split.
  - destruct (C64_halve v 2 1 1 ltac:(lia) ltac:(lia) ltac:(lia) eq_refl eq_refl eq_refl) as (z & Ez & Hz). exists z. split; [exact Ez|]. split; (rewrite Hz by lia; cbn; lra).
  - assert (Q2 : round_even (INR 4 * (1 / 2)) = 2%Z) by (apply round_near; replace (INR 4 * (1 / 2) - IZR 2) with 0 by (cbn; lra); rewrite Rabs_R0; lra). assert (Q1 : round_even (INR 2 * (1 / 2)) = 1%Z) by (apply round_near; replace (INR 2 * (1 / 2) - IZR 1) with 0 by (cbn; lra); rewrite Rabs_R0; lra).
    unfold zoom. cbn [bind assert v v_x v_y v_z]. rewrite Q2, Q1. reflexivity.
Qed.
