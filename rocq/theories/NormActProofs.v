(* norm_activation, soft_normalization, key_value_activation. *)
From Coq Require Import Reals Lra.
From Verif Require Import PyBase PermModel PermProofs IrrepsModel IrrepsProofs IrrepsProofs2 ArrayModel ArrayProofs ArrayOps RechunkProofs SliceProofs SliceProofs2 ArithProofs LeadModel LeadProofs BlockProofs AxisProofs StackProofs BilinProofs ActProofs EquivProofs EquivProofs2 RotationModel TPModel ActivationModel ActivationProofs.
Open Scope nat_scope.

Definition sq_sum (v : list R) : R := fold_right Rplus 0%R (map (fun t => (t ^ 2)%R) v).
Lemma sq_sum_dot v : sq_sum v = dotR v v.
Proof. unfold sq_sum, dotR, zipR. induction v as [|t v IH]; [reflexivity|]. cbn [map fold_right combine]. rewrite IH. f_equal. ring. Qed.
Lemma sq_sum_pos v : (0 <= sq_sum v)%R.
Proof. unfold sq_sum. induction v as [|t v IH]; [cbn; lra|]. cbn [map fold_right]. pose proof (pow2_ge_0 t). lra. Qed.
(* one block of the output: every copy v becomes act(|v|) v *)
Definition norm_block (component : bool) (m : mulirrep) (a : option (R -> R)) (b : list R) : list R :=
  match a with None => b | Some g => concat (map (norm_scale component g) (group_rows (fst m) (ir_dim (snd m)) b)) end.
Lemma norm_scale_length component g v : length (norm_scale component g v) = length v.
Proof. apply map_length. Qed.
Lemma norm_scale_zero component g n : norm_scale component g (zero_row n) = zero_row n.
Proof. unfold norm_scale, zero_row. rewrite map_repeat, Rmult_0_l. reflexivity. Qed.
Lemma map_id_on {A} (f : A -> A) l : (forall a, In a l -> f a = a) -> map f l = l.
Proof. intros E. rewrite <- (map_id l) at 2. apply map_ext_in, E. Qed.

Definition norm_chunk (component : bool) (c : option chunk) (a : option (R -> R)) : option chunk :=
  match a with None => c | Some g => option_map (fun c => Chunk (c_lead c) (c_mul c) (c_dim c) (fun i => map (norm_scale component g) (c_val c i))) c end.
Lemma norm_chunk_ok component s m c a : wf_opt s m c -> wf_opt s m (norm_chunk component c a) /\ forall i, valid s i -> den m (norm_chunk component c a) i = norm_block component m a (den m c i).
Proof.
  intros W. destruct a as [g|]; [|split; [exact W|reflexivity]]. cbn [norm_chunk norm_block]. destruct c as [c|]; cbn [option_map].
  - destruct W as (W1 & W2 & W3 & W4). split.
    + repeat split; cbn [c_lead c_mul c_dim c_val]; auto; [rewrite map_length; apply W4; assumption|]. apply Forall_map. eapply Forall_impl; [|apply W4; eassumption]. intros r Hr. rewrite norm_scale_length. exact Hr.
    + intros i Hi. cbn [den c_val]. rewrite (wf_rows s m c i); [reflexivity|repeat split; assumption || apply W4; assumption|exact Hi].
  - split; [exact I|]. intros i Hi. cbn [den]. unfold mi_dim. change (repeat 0%R (fst m * ir_dim (snd m))) with (zero_row (fst m * ir_dim (snd m))). rewrite group_rows_zero. unfold zeros_rows. rewrite map_repeat. change (repeat 0%R (ir_dim (snd m))) with (zero_row (ir_dim (snd m))). rewrite norm_scale_zero. symmetry. apply concat_zeros.
Qed.
Definition map3 {A B C E} (f : A -> B -> C -> E) (a : list A) (b : list B) (c : list C) : list E := map (fun '((x, y), z) => f x y z) (combine (combine a b) c).
Lemma map3_cons {A B C E} (f : A -> B -> C -> E) a b c l l' l'' : map3 f (a :: l) (b :: l') (c :: l'') = f a b c :: map3 f l l' l''.
Proof. reflexivity. Qed.
Lemma norm_activation_yields acts component x : coherent x -> length acts = length (irr x) ->
  yields (norm_activation acts component x) (irr x) (lead x) (fun i => concat (map3 (norm_block component) (irr x) acts (blocks (irr x) (arr x i)))).
Proof.
  intros H L. unfold norm_activation. rewrite L, Nat.eqb_refl. cbn [negb].
  change (map (fun '(c, a) => match a with None => c | Some g => option_map (fun c => Chunk (c_lead c) (c_mul c) (c_dim c) (fun i => map (norm_scale component g) (c_val c i))) c end) (combine (chunks x) acts)) with (map2 (norm_chunk component) (chunks x) acts).
  assert (Q : Forall2 (wf_opt (lead x)) (irr x) (map2 (norm_chunk component) (chunks x) acts) /\ forall i, valid (lead x) i -> chunks_row (irr x) (map2 (norm_chunk component) (chunks x) acts) i = concat (map3 (norm_block component) (irr x) acts (map (fun '(m, c) => den m c i) (combine (irr x) (chunks x))))).
  { pose proof (chunks_wf x H) as W. revert acts L W. generalize (irr x) (chunks x) (lead x). clear. intros z cs s acts L W. revert acts L. induction W as [|m c z cs W0 W IH]; intros [|a acts] L; try discriminate; [split; [constructor|reflexivity]|].
    rewrite map2_cons. cbn [combine map]. destruct (IH acts ltac:(cbn in L; lia)) as (I1 & I2). destruct (norm_chunk_ok component s m c a W0) as (N1 & N2). split; [constructor; assumption|]. intros i Hi. rewrite map3_cons. unfold chunks_row in *. cbn [combine flat_map concat]. rewrite N2, I2 by exact Hi. reflexivity. }
  destruct Q as (W & V). destruct (from_chunks_ok _ _ (lead x) true W (or_introl eq_refl)) as (y & E1 & E2 & E3 & E4 & E5 & _). exists y. split; [exact E1|]. split; [exact E2|]. split; [exact E3|]. split; [exact E4|]. intros i Hi. rewrite E5, V, (chunks_blocks x H i Hi) by exact Hi. reflexivity.
Qed.

Lemma norm_scale_act component g D ir r : rep_ok D -> orthogonal_rep D -> length r = ir_dim ir -> norm_scale component g (mv D ir r) = mv D ir (norm_scale component g r).
Proof.
  intros HD HO L. unfold norm_scale. fold (sq_sum (mv D ir r)) (sq_sum r). rewrite !sq_sum_dot. unfold mv. rewrite !HO by exact L. rewrite !matvec_length, !(proj1 (HD ir)), !L. rewrite matvec_scale. reflexivity.
Qed.
Lemma norm_activation_commutes acts component D x : rep_ok D -> orthogonal_rep D -> coherent x -> length acts = length (irr x) ->
  agree (let! y := norm_activation acts component x in transform D y) (let! y := transform D x in norm_activation acts component y).
Proof.
  intros HD HO H L. apply (commute D (norm_activation acts component) x (irr x) (lead x) (fun a i => concat (map3 (norm_block component) (irr x) acts (blocks (irr x) (a i))))); auto.
  - intros y Hy E1 E2 _. rewrite <- E1, <- E2. apply norm_activation_yields; [exact Hy|congruence].
  - trivial_ext.
  - intros a i Hi La. specialize (La i Hi). pose proof (blocks_widths (irr x) (a i) La) as W. rewrite blocks_act by exact HD. rewrite act_concat.
    + f_equal. revert acts L W. generalize (irr x) (blocks (irr x) (a i)). clear - HD HO. intros z bs acts L W. revert acts L. induction W as [|m b z bs Lb W IH]; intros [|f acts] L; try discriminate; [reflexivity|]. rewrite map2_cons, !map3_cons, map2_cons, IH by (cbn in L; lia). f_equal. destruct f as [g|]; [|reflexivity]. cbn [norm_block]. destruct m as [n ir]. unfold mi_dim in Lb. cbn [fst snd] in *.
      destruct (group_rows_ok n (ir_dim ir) b Lb) as [F C]. rewrite !act1_rows. rewrite !group_rows_concat.
      * rewrite !map_map. f_equal. apply map_ext_in. intros r Hr. rewrite Forall_forall in F. symmetry. apply norm_scale_act; auto.
      * rewrite map_length. apply group_rows_length.
      * apply rows_mv, HD.
      * rewrite map_length. apply group_rows_length.
      * apply Forall_map. eapply Forall_impl; [|exact F]. intros r Hr. rewrite norm_scale_length. exact Hr.
    + revert acts L W. generalize (irr x) (blocks (irr x) (a i)). clear. intros z bs acts L W. revert acts L. induction W as [|m b z bs Lb W IH]; intros [|f acts] L; try discriminate; [constructor|]. rewrite map3_cons. constructor; [|apply IH; cbn in L; lia].
      destruct f as [g|]; [|exact Lb]. cbn [norm_block]. destruct m as [n ir]. unfold mi_dim in *. cbn [fst snd] in *. destruct (group_rows_ok n (ir_dim ir) b Lb) as [F C]. rewrite (concat_length_widths _ (ir_dim ir)); [rewrite map_length, group_rows_length; reflexivity|]. apply Forall_map. eapply Forall_impl; [|exact F]. intros r Hr. rewrite norm_scale_length. exact Hr.
Qed.

(* ---------- soft_normalization ---------- *)
Open Scope R_scope.
Lemma div_nonneg a b : 0 <= a -> 0 < b -> 0 <= a / b.
Proof. intros. unfold Rdiv. apply Rmult_le_pos; [assumption|]. left. apply Rinv_0_lt_compat. assumption. Qed.
Definition component_norm (v : list R) : R := sqrt (sq_sum v / INR (length v)).
Lemma Rltb_true a b : a < b -> Rltb a b = true.
Proof. intros H. unfold Rltb. destruct (Rlt_dec a b); [reflexivity|contradiction]. Qed.
Lemma Rltb_false a b : b <= a -> Rltb a b = false.
Proof. intros H. unfold Rltb. destruct (Rlt_dec a b); [lra|reflexivity]. Qed.
Lemma sus_nonneg t : 0 <= sus t.
Proof. unfold sus. destruct (Rltb 0 t); [left; apply exp_pos|lra]. Qed.
Lemma sus_bound t : 0 <= t -> t / (1 + t * sus t) < 1.
Proof.
  intros Ht. unfold sus. destruct (Req_dec t 0) as [->|Hn]; [rewrite Rltb_false by lra; unfold Rdiv; rewrite Rmult_0_l; lra|]. rewrite Rltb_true by lra. assert (Hp : 0 < t) by lra. set (u := 1 / t).
  assert (Hu : 0 < u) by (unfold u; apply Rdiv_lt_0_compat; lra). replace (-1 / t) with (- u) by (unfold u; field; lra). assert (E : 1 + - u < exp (- u)) by (apply exp_ineq1; lra).
  assert (Etu : t * u = 1) by (unfold u; field; lra). pose proof (exp_pos (- u)) as Ep. assert (Hd : 0 < 1 + t * exp (- u)) by nra. apply (Rmult_lt_reg_r (1 + t * exp (- u))); [exact Hd|]. unfold Rdiv. rewrite Rmult_assoc, Rinv_l by lra. nra.
Qed.
Lemma component_norm_scale v k : 0 <= k -> component_norm (map (fun t => t * k) v) = k * component_norm v.
Proof.
  intros Hk. unfold component_norm. rewrite map_length. replace (sq_sum (map (fun t => t * k) v)) with (k ^ 2 * sq_sum v).
  - replace (k ^ 2 * sq_sum v / INR (length v)) with (k ^ 2 * (sq_sum v / INR (length v))) by (unfold Rdiv; ring). rewrite sqrt_mult_alt by apply pow2_ge_0. rewrite sqrt_pow2 by exact Hk. reflexivity.
  - unfold sq_sum. induction v as [|t v IH]; [cbn; ring|]. cbn [map fold_right]. rewrite <- IH. ring.
Qed.
Definition soft_phi (M : R) (n : R) : R := let n := n / M in 1 / (1 + n * sus n).
Lemma soft_copy_bound M v : 0 < M -> component_norm (norm_scale true (soft_phi M) v) < M.
Proof.
  intros HM. unfold norm_scale. fold (sq_sum v). set (n2 := sq_sum v / INR (length v)). assert (H2 : 0 <= n2). { unfold n2, Rdiv. destruct v as [|t v]; [cbn; lra|]. apply Rmult_le_pos; [apply sq_sum_pos|]. left. apply Rinv_0_lt_compat, lt_0_INR. cbn; lia. }
  assert (Hphi : forall n, 0 <= n -> 0 <= soft_phi M n). { intros n Hn. unfold soft_phi. apply div_nonneg; [lra|]. assert (0 <= n / M) by (apply div_nonneg; lra). assert (0 <= sus (n / M)) by apply sus_nonneg. nra. }
  destruct (Rltb 0 n2) eqn:E.
  - rewrite component_norm_scale by (apply Hphi, sqrt_pos). unfold component_norm. fold n2. set (n := sqrt n2). assert (Hn : 0 <= n / M) by (apply div_nonneg; [apply sqrt_pos|lra]). pose proof (sus_bound (n / M) Hn) as B. unfold soft_phi. cbv zeta.
    replace (1 / (1 + n / M * sus (n / M)) * n) with (M * (n / M / (1 + n / M * sus (n / M)))); [pose proof (Rmult_lt_compat_l _ _ _ HM B) as Q; rewrite Rmult_1_r in Q; exact Q|]. field. split; [lra|]. assert (0 <= sus (n / M)) by apply sus_nonneg. apply Rgt_not_eq. apply Rlt_gt. replace (M + n * sus (n / M)) with (M * (1 + n / M * sus (n / M))) by (field; lra). apply Rmult_lt_0_compat; [lra|]. assert (0 <= n / M * sus (n / M)) by (apply Rmult_le_pos; assumption). lra.
  - rewrite component_norm_scale by (apply Hphi; lra). assert (Z : component_norm v = 0). { unfold component_norm. fold n2. unfold Rltb in E. destruct (Rlt_dec 0 n2); [discriminate|]. replace n2 with 0 by lra. apply sqrt_0. } rewrite Z. lra.
Qed.

(* ---------- key_value_activation ---------- *)
Lemma sum_combine_dot a b : fold_right Rplus 0 (map (fun '(x, y) => x * y) (combine a b)) = dotR a b.
Proof. reflexivity. Qed.
Lemma dotR_scale_l u v k : dotR (map (fun t => t * k) u) v = dotR u v * k.
Proof. unfold dotR, zipR. revert v. induction u as [|a u IH]; intros [|b v]; cbn [map combine fold_right]; try ring. specialize (IH v). cbn [map combine fold_right] in IH. rewrite IH. ring. Qed.
(* both vectors transformed by an isometry *)
Lemma key_value_act pts phi M key value : length key = length value -> length M = length value -> (forall u v, length u = length value -> length v = length value -> dotR (matvec M u) (matvec M v) = dotR u v) ->
  key_value_activation pts phi (matvec M key) (matvec M value) = matvec M (key_value_activation pts phi key value).
Proof.
  intros Lk LM HO. unfold key_value_activation. fold (sq_sum (matvec M key)) (sq_sum key). rewrite !sq_sum_dot, HO by congruence. rewrite matvec_length, LM. set (c := sqrt (1 / 16 + dotR key key)). unfold Rdiv at 1 3 4. change (fun k => k / c) with (fun k => k * / c). rewrite !sum_combine_dot, !dotR_scale_l, HO by congruence.
  set (s := normalize_function pts phi (dotR key value * / c)). rewrite !map_map.
  assert (EE : forall l, map (fun x => sqrt (INR (length value)) * s * (x * / c)) l = map (fun x => x * (sqrt (INR (length value)) * s * / c)) l) by (intros l; apply map_ext; intros; ring).
  rewrite !EE, matvec_scale. reflexivity.
Qed.
