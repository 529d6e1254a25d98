(* The group action is linear; arithmetic, reductions, concatenation, multiplicity moves commute with it;
   norms and dot products are invariant; the cross product is equivariant. *)
From Coq Require Import Reals Lra.
From Verif Require Import PyBase PermModel PermProofs IrrepsModel IrrepsProofs IrrepsProofs2 ArrayModel ArrayProofs ArrayOps RechunkProofs SliceProofs SliceProofs2 ArithProofs LeadModel LeadProofs BlockProofs AxisProofs StackProofs BilinProofs ActProofs EquivProofs.
Open Scope nat_scope.

Lemma valid_snoc_inv s n i : valid (s ++ [n]) i -> exists j k, i = j ++ [k] /\ valid s j /\ k < n.
Proof. intros H. apply valid_app_inv in H as (a & b & -> & Ha & Hb). inversion Hb as [|k ? b' ? Hk Hb' E]; subst. inversion Hb'; subst. exists a, k. auto. Qed.
Lemma Forall_firstn {A} (P : A -> Prop) k l : Forall P l -> Forall P (firstn k l).
Proof. rewrite !Forall_forall. intros H a Ha. apply H. eapply firstn_In, Ha. Qed.
Lemma Forall_skipn {A} (P : A -> Prop) k l : Forall P l -> Forall P (skipn k l).
Proof. rewrite !Forall_forall. intros H a Ha. apply H. eapply skipn_In, Ha. Qed.

(* ---------- linearity ---------- *)
Lemma zipR_cons f a u b v : zipR f (a :: u) (b :: v) = f a b :: zipR f u v.
Proof. reflexivity. Qed.
Lemma dotR_cons a u b v : dotR (a :: u) (b :: v) = (a * b + dotR u v)%R.
Proof. reflexivity. Qed.
Lemma dotR_nil_l v : dotR [] v = 0%R.
Proof. reflexivity. Qed.
Lemma dotR_nil_r u : dotR u [] = 0%R.
Proof. destruct u; reflexivity. Qed.
Lemma dotR_plus : forall r u v, length u = length v -> dotR r (zipR Rplus u v) = (dotR r u + dotR r v)%R.
Proof.
  induction r as [|c r IH]; intros [|a u] [|b v] L; try discriminate; try (rewrite !dotR_nil_l; lra); try (change (zipR Rplus [] []) with (@nil R); change (zipR Rminus [] []) with (@nil R); rewrite !dotR_nil_r; lra).
  rewrite zipR_cons, !dotR_cons, IH by (injection L; auto). lra.
Qed.
Lemma dotR_minus : forall r u v, length u = length v -> dotR r (zipR Rminus u v) = (dotR r u - dotR r v)%R.
Proof.
  induction r as [|c r IH]; intros [|a u] [|b v] L; try discriminate; try (rewrite !dotR_nil_l; lra); try (change (zipR Rplus [] []) with (@nil R); change (zipR Rminus [] []) with (@nil R); rewrite !dotR_nil_r; lra).
  rewrite zipR_cons, !dotR_cons, IH by (injection L; auto). lra.
Qed.
Lemma dotR_scale : forall r u k, dotR r (map (fun v => (v * k)%R) u) = (dotR r u * k)%R.
Proof.
  induction r as [|c r IH]; intros [|a u] k; cbn [map]; rewrite ?dotR_nil_l, ?dotR_nil_r; try lra. rewrite !dotR_cons, IH. lra.
Qed.
Lemma zipR_map {A} f (g h : A -> R) l : zipR f (map g l) (map h l) = map (fun a => f (g a) (h a)) l.
Proof. unfold zipR. induction l; cbn; congruence. Qed.
Lemma matvec_plus M u v : length u = length v -> matvec M (zipR Rplus u v) = zipR Rplus (matvec M u) (matvec M v).
Proof. intros L. unfold matvec. rewrite zipR_map. apply map_ext. intros r. apply dotR_plus, L. Qed.
Lemma matvec_minus M u v : length u = length v -> matvec M (zipR Rminus u v) = zipR Rminus (matvec M u) (matvec M v).
Proof. intros L. unfold matvec. rewrite zipR_map. apply map_ext. intros r. apply dotR_minus, L. Qed.
Lemma matvec_scale M u k : matvec M (map (fun v => (v * k)%R) u) = map (fun v => (v * k)%R) (matvec M u).
Proof. unfold matvec. rewrite map_map. apply map_ext. intros r. apply dotR_scale. Qed.

Lemma acts_plus D : rep_ok D -> forall l u v, length u = dims l -> length v = dims l -> acts D l (zipR Rplus u v) = zipR Rplus (acts D l u) (acts D l v).
Proof.
  intros HD. induction l as [|ir l IH]; intros u v Lu Lv; [reflexivity|]. rewrite dims_cons in *. cbn [acts]. rewrite zipR_firstn, zipR_skipn, IH by (rewrite skipn_length; lia).
  rewrite matvec_plus by (rewrite !firstn_length; lia). rewrite zipR_app by (rewrite !matvec_length; reflexivity). reflexivity.
Qed.
Lemma acts_minus D : rep_ok D -> forall l u v, length u = dims l -> length v = dims l -> acts D l (zipR Rminus u v) = zipR Rminus (acts D l u) (acts D l v).
Proof.
  intros HD. induction l as [|ir l IH]; intros u v Lu Lv; [reflexivity|]. rewrite dims_cons in *. cbn [acts]. rewrite zipR_firstn, zipR_skipn, IH by (rewrite skipn_length; lia).
  rewrite matvec_minus by (rewrite !firstn_length; lia). rewrite zipR_app by (rewrite !matvec_length; reflexivity). reflexivity.
Qed.
Lemma acts_scale D k : forall l u, acts D l (map (fun v => (v * k)%R) u) = map (fun v => (v * k)%R) (acts D l u).
Proof.
  induction l as [|ir l IH]; intros u; [reflexivity|]. cbn [acts]. rewrite firstn_map, skipn_map, IH, matvec_scale, map_app. reflexivity.
Qed.
Lemma act_plus D x u v : rep_ok D -> length u = dim x -> length v = dim x -> act D x (zipR Rplus u v) = zipR Rplus (act D x u) (act D x v).
Proof. intros HD Lu Lv. apply acts_plus; [exact HD| |]; rewrite dims_flat; assumption. Qed.
Lemma act_minus D x u v : rep_ok D -> length u = dim x -> length v = dim x -> act D x (zipR Rminus u v) = zipR Rminus (act D x u) (act D x v).
Proof. intros HD Lu Lv. apply acts_minus; [exact HD| |]; rewrite dims_flat; assumption. Qed.
Lemma act_scale D x k u : act D x (map (fun v => (v * k)%R) u) = map (fun v => (v * k)%R) (act D x u).
Proof. apply acts_scale. Qed.
Lemma rdiv_scale op n row : rdiv op n row = map (fun v => (v * match op with OSum => 1 | OMean => / INR n end)%R) row.
Proof. destruct op; cbn [rdiv]; [|reflexivity]. rewrite <- (map_id row) at 1. apply map_ext. intros v. lra. Qed.
Lemma act_rowsum D x rows : rep_ok D -> Forall (fun r => length r = dim x) rows -> act D x (rowsum (dim x) rows) = rowsum (dim x) (map (act D x) rows).
Proof.
  intros HD. induction 1 as [|r rows Hr H IH]; [apply act_zero, HD|]. cbn [map]. rewrite !rowsum_cons, act_plus, IH; auto. apply rowsum_length, H.
Qed.

(* ---------- identity and composition ---------- *)
Definition acts_trivially (D : rep) : Prop := forall ir v, length v = ir_dim ir -> matvec (D ir) v = v.
Definition composes (D1 D2 D : rep) : Prop := forall ir v, length v = ir_dim ir -> matvec (D1 ir) (matvec (D2 ir) v) = matvec (D ir) v.
Lemma acts_id D : acts_trivially D -> forall l row, length row = dims l -> acts D l row = row.
Proof.
  intros HI. induction l as [|ir l IH]; intros row L; [destruct row; [reflexivity|discriminate]|]. rewrite dims_cons in L. cbn [acts].
  rewrite HI by (rewrite firstn_length; lia). rewrite IH by (rewrite skipn_length; lia). apply firstn_skipn.
Qed.
Lemma acts_comp D1 D2 D : rep_ok D2 -> composes D1 D2 D -> forall l row, length row = dims l -> acts D1 l (acts D2 l row) = acts D l row.
Proof.
  intros H2 HC. induction l as [|ir l IH]; intros row L; [reflexivity|]. rewrite dims_cons in L. cbn [acts].
  rewrite firstn_length_app, skipn_length_app by (rewrite matvec_length; apply H2). rewrite HC by (rewrite firstn_length; lia). rewrite IH by (rewrite skipn_length; lia). reflexivity.
Qed.
Lemma transform_identity D x : rep_ok D -> acts_trivially D -> coherent x -> yields (transform D x) (irr x) (lead x) (arr x).
Proof.
  intros HD HI H. eapply yields_ext; [|apply (transform_act D x H HD)]. intros i Hi. cbv beta. apply acts_id; [exact HI|]. rewrite dims_flat. apply H, Hi.
Qed.
Lemma transform_compose D1 D2 D x : rep_ok D1 -> rep_ok D2 -> rep_ok D -> composes D1 D2 D -> coherent x ->
  agree (let! y := transform D2 x in transform D1 y) (transform D x).
Proof.
  intros H1 H2 HD HC H. exists (irr x), (lead x), (fun i => act D (irr x) (arr x i)). split; [|apply transform_act; assumption].
  apply (yields_bind _ _ _ _ (transform D1) _ _ _ (transform_act D2 x H H2)). intros y _ E1 E2 Hy E. rewrite <- E1, <- E2. eapply yields_ext; [|apply (transform_act D1 y Hy H1)].
  intros i Hi. cbv beta. rewrite E2 in Hi. rewrite E1, E by exact Hi. apply acts_comp; [exact H2|exact HC|]. rewrite dims_flat. apply H, Hi.
Qed.

(* ---------- two operands ---------- *)
Section Commute2.
Variables (D : rep) (op : iarray -> iarray -> res iarray) (x y : iarray) (z : irreps) (s' : shape) (T : (idx -> list R) -> (idx -> list R) -> idx -> list R).
Hypothesis HD : rep_ok D.
Hypothesis Hx : coherent x.
Hypothesis Hy : coherent y.
Hypothesis Hop : forall u v, coherent u -> irr u = irr x -> lead u = lead x -> zero_flags u = zero_flags x ->
  coherent v -> irr v = irr y -> lead v = lead y -> zero_flags v = zero_flags y -> yields (op u v) z s' (T (arr u) (arr v)).
Hypothesis T_ext : forall a b a' b' i, valid s' i -> (forall j, valid (lead x) j -> a j = a' j) -> (forall j, valid (lead y) j -> b j = b' j) -> T a b i = T a' b' i.
Section Equivariant.
Hypothesis T_act : forall a b i, valid s' i -> (forall j, valid (lead x) j -> length (a j) = dim (irr x)) -> (forall j, valid (lead y) j -> length (b j) = dim (irr y)) ->
  act D z (T a b i) = T (fun j => act D (irr x) (a j)) (fun j => act D (irr y) (b j)) i.
Lemma commute2 : agree (let! w := op x y in transform D w) (let! u := transform D x in let! v := transform D y in op u v).
Proof.
  exists z, s', (fun i => T (fun j => act D (irr x) (arr x j)) (fun j => act D (irr y) (arr y j)) i). split.
  - apply (yields_bind _ _ _ _ (transform D) _ _ _ (Hop x y Hx eq_refl eq_refl eq_refl Hy eq_refl eq_refl eq_refl)). intros w _ E1 E2 H E.
    rewrite <- E1, <- E2. eapply yields_ext; [|apply (transform_act D w H HD)]. intros i Hi. cbv beta. rewrite E2 in Hi. rewrite E1, E by exact Hi. apply T_act; [exact Hi|apply Hx|apply Hy].
  - apply (yields_bind _ _ _ _ _ _ _ _ (transform_act D x Hx HD)). intros u Eu U1 U2 Hu U.
    apply (yields_bind _ _ _ _ _ _ _ _ (transform_act D y Hy HD)). intros v Ev V1 V2 Hv V.
    eapply yields_ext; [|apply (Hop u v Hu U1 U2 (transform_flags D x u Hx Eu) Hv V1 V2 (transform_flags D y v Hy Ev))]. intros i Hi. cbv beta. apply T_ext; assumption.
Qed.
End Equivariant.
Section Invariant.
Hypothesis T_inv : forall a b i, valid s' i -> (forall j, valid (lead x) j -> length (a j) = dim (irr x)) -> (forall j, valid (lead y) j -> length (b j) = dim (irr y)) ->
  T a b i = T (fun j => act D (irr x) (a j)) (fun j => act D (irr y) (b j)) i.
Lemma invariant2 : agree (op x y) (let! u := transform D x in let! v := transform D y in op u v).
Proof.
  exists z, s', (fun i => T (arr x) (arr y) i). split; [apply Hop; auto|].
  apply (yields_bind _ _ _ _ _ _ _ _ (transform_act D x Hx HD)). intros u Eu U1 U2 Hu U.
  apply (yields_bind _ _ _ _ _ _ _ _ (transform_act D y Hy HD)). intros v Ev V1 V2 Hv V.
  eapply yields_ext; [|apply (Hop u v Hu U1 U2 (transform_flags D x u Hx Eu) Hv V1 V2 (transform_flags D y v Hy Ev))]. intros i Hi. cbv beta.
  rewrite (T_inv _ _ i Hi (proj1 Hx) (proj1 Hy)). apply T_ext; assumption.
Qed.
End Invariant.
End Commute2.

Lemma add_commutes D x y s : rep_ok D -> coherent x -> coherent y -> irr x = irr y -> broadcast_shapes (lead x) (lead y) = Ok s ->
  (zero_flags x = zero_flags y \/ lead x = lead y) ->
  agree (let! w := add x y in transform D w) (let! u := transform D x in let! v := transform D y in add u v).
Proof.
  intros HD Hx Hy E Es Hm. apply (commute2 D add x y (irr x) s (fun a b i => zipR Rplus (a (bidx (lead x) i)) (b (bidx (lead y) i)))); auto.
  - intros u v Hu U1 U2 U3 Hv V1 V2 V3. rewrite <- U1, <- U2, <- V2. apply add_ok; auto; [congruence|rewrite U2, V2; exact Es|]. right; right. destruct Hm; [left|right]; congruence.
  - intros a b a' b' i Hi Ea Eb. destruct (broadcast_valid _ _ _ _ Es Hi). rewrite Ea, Eb by assumption. reflexivity.
  - intros a b i Hi La Lb. destruct (broadcast_valid _ _ _ _ Es Hi). rewrite <- E. apply act_plus; auto. rewrite E. auto.
Qed.
Lemma sub_commutes D x y s : rep_ok D -> coherent x -> coherent y -> irr x = irr y -> broadcast_shapes (lead x) (lead y) = Ok s ->
  (zero_flags x = zero_flags y \/ lead x = lead y) ->
  agree (let! w := sub x y in transform D w) (let! u := transform D x in let! v := transform D y in sub u v).
Proof.
  intros HD Hx Hy E Es Hm. apply (commute2 D sub x y (irr x) s (fun a b i => zipR Rminus (a (bidx (lead x) i)) (b (bidx (lead y) i)))); auto.
  - intros u v Hu U1 U2 U3 Hv V1 V2 V3. rewrite <- U1, <- U2, <- V2. apply sub_ok; auto; [congruence|rewrite U2, V2; exact Es|]. right; right. destruct Hm; [left|right]; congruence.
  - intros a b a' b' i Hi Ea Eb. destruct (broadcast_valid _ _ _ _ Es Hi). rewrite Ea, Eb by assumption. reflexivity.
  - intros a b i Hi La Lb. destruct (broadcast_valid _ _ _ _ Es Hi). rewrite <- E. apply act_minus; auto. rewrite E. auto.
Qed.
Lemma neg_commutes D x : rep_ok D -> coherent x -> agree (let! y := neg x in transform D y) (let! y := transform D x in neg y).
Proof.
  intros HD H. apply (commute D neg x (irr x) (lead x) (fun a i => map Ropp (a i))); auto.
  - intros y Hy E1 E2 _. rewrite <- E1, <- E2. apply neg_yields, Hy.
  - trivial_ext.
  - intros a i Hi La. assert (E : forall r, map Ropp r = map (fun v => (v * -1)%R) r) by (intros r; apply map_ext; intros v; lra). rewrite !E. apply act_scale.
Qed.
Lemma mul_scalar_commutes D x s b s' : rep_ok D -> coherent x -> flat (irr x) <> [] -> broadcast_shapes (lead x) s = Ok s' ->
  agree (let! y := mul_scalar x s b in transform D y) (let! y := transform D x in mul_scalar y s b).
Proof.
  intros HD H Hne Es. apply (commute D (fun y => mul_scalar y s b) x (irr x) s' (fun a i => map (fun v => (v * b (bidx s i))%R) (a (bidx (lead x) i)))); auto.
  - intros y Hy E1 E2 _. rewrite <- E1, <- E2. apply scale_yields; auto; [congruence|congruence|]. intros. lra.
  - intros a c i Hi Ea. destruct (broadcast_valid _ _ _ _ Es Hi). rewrite Ea by assumption. reflexivity.
  - intros a i Hi La. apply act_scale.
Qed.
Lemma div_scalar_commutes D x s b s' : rep_ok D -> coherent x -> flat (irr x) <> [] -> broadcast_shapes (lead x) s = Ok s' ->
  agree (let! y := div_scalar x s b in transform D y) (let! y := transform D x in div_scalar y s b).
Proof.
  intros HD H Hne Es. apply (commute D (fun y => div_scalar y s b) x (irr x) s' (fun a i => map (fun v => (v / b (bidx s i))%R) (a (bidx (lead x) i)))); auto.
  - intros y Hy E1 E2 _. rewrite <- E1, <- E2. apply scale_yields; auto; [congruence|congruence|]. intros. unfold Rdiv. lra.
  - intros a c i Hi Ea. destruct (broadcast_valid _ _ _ _ Es Hi). rewrite Ea by assumption. reflexivity.
  - intros a i Hi La. apply act_scale.
Qed.

(* ---------- operations on the leading axes ---------- *)
Lemma gathered_commutes D x s g (op : iarray -> res iarray) : rep_ok D -> coherent x -> (forall i, valid s i -> valid (lead x) (g i)) ->
  (forall y, coherent y -> irr y = irr x -> lead y = lead x -> yields (op y) (irr x) s (fun i => arr y (g i))) ->
  agree (let! y := op x in transform D y) (let! y := transform D x in op y).
Proof.
  intros HD H V Hop. apply (commute D op x (irr x) s (fun a i => a (g i))); auto.
Qed.
Lemma reduce_lead_commutes D op x axes kd : rep_ok D -> coherent x -> axes <> [] ->
  agree (let! y := reduce_lead op x axes kd in transform D y) (let! y := transform D x in reduce_lead op y axes kd).
Proof.
  intros HD H Hne. set (mask := reduced_axes (length (lead x)) axes).
  assert (Lm : length mask = length (lead x)) by (unfold mask, reduced_axes; rewrite map_length, seq_length; reflexivity).
  apply (commute D (fun y => reduce_lead op y axes kd) x (irr x) (reduced_shape kd mask (lead x))
    (fun a i => rdiv op (length (fibre kd mask (lead x) i)) (rowsum (dim (irr x)) (map a (fibre kd mask (lead x) i))))); auto.
  - intros y Hy E1 E2 _. unfold mask. rewrite <- E1, <- E2. apply reduce_lead_yields; assumption.
  - intros a b i Hi E. f_equal. f_equal. apply map_ext_in. intros j Hj. apply E. pose proof (fibre_valid kd mask (lead x) i Lm Hi) as F. rewrite Forall_forall in F. apply F, Hj.
  - intros a i Hi La. rewrite !rdiv_scale, act_scale, act_rowsum, map_map; auto.
    apply Forall_map. eapply Forall_impl; [|apply (fibre_valid kd mask (lead x) i Lm Hi)]. exact La.
Qed.

(* ---------- block by block ---------- *)
Lemma blockwise_act_commute {I} (Q : I -> Prop) D (G : mulirrep -> mulirrep) (V : mulirrep -> (I -> list R) -> list R) : rep_ok D ->
  (forall m b b', (forall j, Q j -> b j = b' j) -> V m b = V m b') ->
  forall x a,
  (forall m b, In m x -> (forall j, Q j -> length (b j) = mi_dim m) -> length (V m b) = mi_dim (G m) /\ act1 D (G m) (V m b) = V m (fun j => act1 D m (b j))) ->
  (forall j, Q j -> length (a j) = dim x) ->
  act D (map G x) (blockwise V x a) = blockwise V x (fun j => act D x (a j)).
Proof.
  intros HD Ve. induction x as [|m x IH]; intros a HV La; [reflexivity|]. cbn [blockwise map]. rewrite act_cons.
  assert (L1 : forall j, Q j -> length (firstn (mi_dim m) (a j)) = mi_dim m) by (intros j Hj; rewrite firstn_length, La by exact Hj; rewrite dim_cons; lia).
  destruct (HV m (fun j => firstn (mi_dim m) (a j)) (or_introl eq_refl) L1) as [L E].
  rewrite firstn_length_app, skipn_length_app by exact L. fold (act1 D (G m) (V m (fun j => firstn (mi_dim m) (a j)))). rewrite E. f_equal.
  - apply Ve. intros j Hj. rewrite act_cons, firstn_length_app by (apply act_one_length, HD). reflexivity.
  - rewrite IH; [|intros; apply HV; [right; assumption|assumption]|intros j Hj; rewrite skipn_length, La by exact Hj; rewrite dim_cons; lia].
    apply (blockwise_data Q); [exact Ve|]. intros j Hj. rewrite act_cons, skipn_length_app by (apply act_one_length, HD). reflexivity.
Qed.
Lemma act1_rows D m ir b : act1 D (m, ir) b = concat (map (mv D ir) (group_rows m (ir_dim ir) b)).
Proof.
  unfold act1, act. rewrite flat_cons. change (flat []) with (@nil irrep). rewrite app_nil_r, acts_cut, cut_repeat. f_equal. unfold map2.
  assert (L : length (group_rows m (ir_dim ir) b) = m) by apply group_rows_length. revert L. generalize (group_rows m (ir_dim ir) b). intros rows <-.
  clear. induction rows as [|r rows IH]; [reflexivity|]. cbn [length repeat combine map]. rewrite <- IH. reflexivity.
Qed.
Lemma group_rows_ok m d b : length b = m * d -> Forall (fun r => length r = d) (group_rows m d b) /\ concat (group_rows m d b) = b.
Proof.
  intros L. split.
  - unfold group_rows. apply Forall_map, Forall_forall. intros u Hu. apply in_seq in Hu. rewrite firstn_length, skipn_length. nia.
  - apply (concat_parts m d b L).
Qed.
Lemma matvec_rowsum M d rows : Forall (fun r => length r = d) rows -> matvec M (rowsum d rows) = rowsum (length M) (map (matvec M) rows).
Proof.
  induction 1 as [|r rows Hr H IH]; [apply matvec_zero|]. cbn [map]. rewrite !rowsum_cons, matvec_plus, IH; [reflexivity|]. rewrite rowsum_length by exact H. exact Hr.
Qed.
Lemma rows_mv D ir rows : rep_ok D -> Forall (fun r => length r = ir_dim ir) (map (mv D ir) rows).
Proof. intros HD. apply Forall_map, Forall_forall. intros r _. unfold mv. rewrite matvec_length. apply HD. Qed.
Lemma reduce_mul_commutes D op x : rep_ok D -> coherent x -> agree (let! y := reduce_mul op x in transform D y) (let! y := transform D x in reduce_mul op y).
Proof.
  intros HD H. apply (commute D (reduce_mul op) x (map (fun '(_, ir) => (1, ir)) (irr x)) (lead x) (fun a i => blockwise (fun m => V_reduce op m i) (irr x) a)); auto.
  - intros y Hy E1 E2 _. rewrite <- E1, <- E2. apply reduce_mul_yields, Hy.
  - intros a b i Hi E. apply (blockwise_data (valid (lead x))); [|exact E]. intros m c d Ecd. unfold V_reduce. rewrite Ecd by exact Hi. reflexivity.
  - intros a i Hi La. apply (blockwise_act_commute (valid (lead x)) D (fun '(_, ir) => (1, ir)) (fun m => V_reduce op m i)); auto.
    + intros m b b' E. unfold V_reduce. rewrite E by exact Hi. reflexivity.
    + intros [m ir] b _ Lb. specialize (Lb i Hi). unfold mi_dim in *. cbn [fst snd] in *. destruct (group_rows_ok m (ir_dim ir) (b i) Lb) as [F C]. unfold V_reduce. cbn [fst snd].
      assert (Lr : length (rdiv op m (rowsum (ir_dim ir) (group_rows m (ir_dim ir) (b i)))) = ir_dim ir) by (rewrite rdiv_length; apply rowsum_length, F).
      split; [rewrite Lr; lia|]. rewrite !act1_rows. rewrite group_rows_concat by (try apply rows_mv; try exact HD; rewrite map_length; apply group_rows_length).
      rewrite group_rows_S. cbn [map concat]. rewrite app_nil_r. rewrite firstn_all2 by lia. unfold mv. rewrite !rdiv_scale, matvec_scale, (matvec_rowsum _ _ _ F), (proj1 (HD ir)). reflexivity.
Qed.
Lemma mul_to_axis_commutes D x factor : rep_ok D -> coherent x -> factor <> 0 -> Forall (fun m => fst m mod factor = 0) (irr x) ->
  agree (let! y := mul_to_axis x (Some factor) (-2) in transform D y) (let! y := transform D x in mul_to_axis y (Some factor) (-2)).
Proof.
  intros HD H Hf Hd. apply (commute D (fun y => mul_to_axis y (Some factor) (-2)) x (map (fun '(mul, ir) => (mul / factor, ir)) (irr x)) (lead x ++ [factor])
    (fun a i => blockwise (fun m => V_split factor m i) (irr x) a)); auto.
  - intros y Hy E1 E2 _. rewrite <- E1, <- E2 in *. apply mul_to_axis_yields; assumption.
  - intros a b i Hi E. apply valid_snoc_inv in Hi as (j & k & -> & Hj & Hk). apply (blockwise_data (valid (lead x))); [|exact E]. intros m c d Ecd. unfold V_split.
    rewrite removelast_app1, Ecd by exact Hj. reflexivity.
  - intros a i Hi La. apply valid_snoc_inv in Hi as (j & k & -> & Hj & Hk).
    apply (blockwise_act_commute (valid (lead x)) D (fun '(mul, ir) => (mul / factor, ir)) (fun m => V_split factor m (j ++ [k]))); auto.
    + intros m b b' E. unfold V_split. rewrite removelast_app1, E by exact Hj. reflexivity.
    + intros [m ir] b Hin Lb. rewrite Forall_forall in Hd. specialize (Hd _ Hin). cbn [fst] in Hd. specialize (Lb j Hj). unfold V_split, mi_dim in *. cbn [fst snd] in *.
      rewrite removelast_app1, last_app1. destruct (group_rows_ok m (ir_dim ir) (b j) Lb) as [F C].
      assert (Em : m = factor * (m / factor)) by (apply Nat.div_exact; assumption). set (q := m / factor) in *.
      assert (Lp : length (part (q * ir_dim ir) k (b j)) = q * ir_dim ir). { unfold part. rewrite firstn_length, skipn_length, Lb. nia. }
      split; [exact Lp|]. rewrite !act1_rows.
      assert (Pc : forall rows : list (list R), Forall (fun r => length r = ir_dim ir) rows -> part (q * ir_dim ir) k (concat rows) = concat (firstn q (skipn (k * q) rows))).
      { intros rows Fr. unfold part. rewrite Nat.mul_assoc, <- (concat_skipn_rows _ (ir_dim ir)) by exact Fr. symmetry. apply concat_firstn_rows. apply Forall_skipn, Fr. }
      rewrite (Pc _ (rows_mv D ir _ HD)). f_equal. rewrite <- C at 1. rewrite (Pc _ F). rewrite group_rows_concat.
      * rewrite <- firstn_map, <- skipn_map. reflexivity.
      * rewrite firstn_length, skipn_length, group_rows_length. nia.
      * apply Forall_firstn, Forall_skipn, F.
Qed.
Lemma axis_to_mul_commutes D x s n : rep_ok D -> coherent x -> lead x = s ++ [n] ->
  agree (let! y := axis_to_mul x (-2) in transform D y) (let! y := transform D x in axis_to_mul y (-2)).
Proof.
  intros HD H El. apply (commute D (fun y => axis_to_mul y (-2)) x (map (fun '(mul, ir) => (n * mul, ir)) (irr x)) s (fun a i => blockwise (fun m => V_merge n m i) (irr x) a)); auto.
  - intros y Hy E1 E2 _. rewrite <- E1. apply axis_to_mul_yields; [exact Hy|congruence].
  - intros a b i Hi E. apply (blockwise_data (valid (lead x))); [|exact E]. intros m c d Ecd. unfold V_merge. f_equal. apply map_ext_in. intros k Hk. apply in_seq in Hk.
    apply Ecd. rewrite El. apply valid_app; [exact Hi|]. constructor; [lia|constructor].
  - intros a i Hi La. assert (V : forall k, In k (seq 0 n) -> valid (lead x) (i ++ [k])). { intros k Hk. apply in_seq in Hk. rewrite El. apply valid_app; [exact Hi|]. constructor; [lia|constructor]. }
    apply (blockwise_act_commute (valid (lead x)) D (fun '(mul, ir) => (n * mul, ir)) (fun m => V_merge n m i)); auto.
    + intros m b b' E. unfold V_merge. f_equal. apply map_ext_in. intros k Hk. apply E, V, Hk.
    + intros [m ir] b Hin Lb. unfold V_merge, mi_dim in *. cbn [fst snd] in *.
      assert (Fb : Forall (fun r => length r = m * ir_dim ir) (map (fun k => b (i ++ [k])) (seq 0 n))) by (apply Forall_map, Forall_forall; intros k Hk; apply Lb, V, Hk).
      split; [rewrite (concat_length_widths _ (m * ir_dim ir)) by exact Fb; rewrite map_length, seq_length; lia|].
      assert (G : forall rows : list (list R), Forall (fun r => length r = m * ir_dim ir) rows -> act1 D (length rows * m, ir) (concat rows) = concat (map (act1 D (m, ir)) rows)).
      { induction 1 as [|r rows Hr F IH]; [reflexivity|]. cbn [concat length map]. rewrite <- IH. unfold act1, act. rewrite !flat_cons. change (flat []) with (@nil irrep). rewrite !app_nil_r.
        change (S (length rows) * m) with (m + length rows * m). rewrite repeat_app, acts_app, dims_repeat. rewrite firstn_length_app, skipn_length_app by exact Hr. reflexivity. }
      specialize (G _ Fb). rewrite map_length, seq_length, map_map in G. exact G.
Qed.

(* ---------- concatenation ---------- *)
Lemma concat_last_commutes D s xs : rep_ok D -> xs <> [] -> Forall (fun y => coherent y /\ lead y = s) xs ->
  agree (let! y := concat_last xs in transform D y) (let! ys := mapM (transform D) xs in concat_last ys).
Proof.
  intros HD Hne H. exists (flat_map irr xs), s, (fun i => flat_map (fun y => act D (irr y) (arr y i)) xs). split.
  - apply (yields_bind _ _ _ _ (transform D) _ _ _ (concat_last_yields s xs Hne H)). intros y _ E1 E2 Hy E. rewrite <- E1, <- E2. eapply yields_ext; [|apply (transform_act D y Hy HD)].
    intros i Hi. cbv beta. rewrite E2 in Hi. rewrite E1, E by exact Hi. clear - H Hi. induction H as [|x xs [Hx Ex] H IH]; [reflexivity|]. cbn [flat_map]. rewrite act_app by (apply Hx; rewrite Ex; exact Hi). rewrite IH. reflexivity.
  - assert (M : exists ys, mapM (transform D) xs = Ok ys /\ Forall2 (fun x y => irr y = irr x /\ lead y = s /\ coherent y /\ forall i, valid s i -> arr y i = act D (irr x) (arr x i)) xs ys).
    { clear Hne. induction H as [|x xs [Hx Ex] H IH]; [exists []; split; [reflexivity|constructor]|]. destruct IH as (ys & E & F). cbn [mapM]. destruct (transform_act D x Hx HD) as (y & -> & Y1 & Y2 & Y3 & Y4).
      cbn [bind]. rewrite E. cbn [bind]. exists (y :: ys). split; [reflexivity|]. constructor; [|exact F]. rewrite Ex in *. auto. }
    destruct M as (ys & -> & F). cbn [bind]. assert (Ei : flat_map irr ys = flat_map irr xs). { clear - F. induction F as [|x y xs ys (E & _) F IH]; [reflexivity|]. cbn [flat_map]. congruence. }
    rewrite <- Ei. eapply yields_ext; [|apply (concat_last_yields s ys)].
    + intros i Hi. clear - F Hi. induction F as [|x y xs ys (E & _ & _ & A) F IH]; [reflexivity|]. cbn [flat_map]. rewrite IH, A by exact Hi. reflexivity.
    + destruct F; congruence.
    + clear - F. induction F as [|x y xs ys (_ & E & C & _) F IH]; constructor; auto.
Qed.

(* ---------- invariants ---------- *)
Definition orthogonal_rep (D : rep) : Prop := forall ir u v, length u = ir_dim ir -> length v = ir_dim ir -> dotR (matvec (D ir) u) (matvec (D ir) v) = dotR u v.
Lemma acts_dot D : rep_ok D -> orthogonal_rep D -> forall l u v, length u = dims l -> length v = dims l -> dotR (acts D l u) (acts D l v) = dotR u v.
Proof.
  intros HD HO. induction l as [|ir l IH]; intros u v Lu Lv; [destruct u; [reflexivity|discriminate]|]. rewrite dims_cons in *. cbn [acts].
  rewrite dotR_app by (rewrite !matvec_length; reflexivity). rewrite HO by (rewrite firstn_length; lia). rewrite IH by (rewrite skipn_length; lia).
  rewrite <- dotR_app by (rewrite !firstn_length; lia). rewrite !firstn_skipn. reflexivity.
Qed.
Lemma act_dot D x u v : rep_ok D -> orthogonal_rep D -> length u = dim x -> length v = dim x -> dotR (act D x u) (act D x v) = dotR u v.
Proof. intros HD HO Lu Lv. apply acts_dot; auto; rewrite dims_flat; assumption. Qed.
Lemma norm_row_act D ir sq r : orthogonal_rep D -> length r = ir_dim ir -> norm_row sq (mv D ir r) = norm_row sq r.
Proof. intros HO L. unfold norm_row, mv. rewrite HO by exact L. reflexivity. Qed.
Lemma norm_invariant D x sq pi : rep_ok D -> orthogonal_rep D -> coherent x -> agree (norm x sq pi) (let! y := transform D x in norm y sq pi).
Proof.
  intros HD HO H. destruct pi.
  - exists (map (fun '(mul, _) => (mul, even_scalar)) (irr x)), (lead x), (fun i => blockwise (fun m => V_norm sq m i) (irr x) (arr x)). split; [apply norm_yields, H|].
    apply (yields_bind _ _ _ _ _ _ _ _ (transform_act D x H HD)). intros y _ E1 E2 Hy E. rewrite <- E1 at 1. rewrite <- E2. eapply yields_ext; [|apply (norm_yields y sq Hy)].
    intros i Hi. cbv beta. rewrite E2 in Hi. rewrite E1. transitivity (blockwise (fun m => V_norm sq m i) (irr x) (fun i => act D (irr x) (arr x i))).
    + apply (blockwise_data (valid (lead x))); [|exact E]. intros m c d Ecd. unfold V_norm. rewrite Ecd by exact Hi. reflexivity.
    + assert (L : length (arr x i) = dim (irr x)) by (apply H, Hi). revert L. generalize (irr x) (arr x). clear - Hi HD HO. intros l0. induction l0 as [|m l0 IH]; intros a L; [reflexivity|]. rewrite dim_cons in L.
      cbn [blockwise]. assert (Hn : forall b, length (b i) = mi_dim m -> V_norm sq m i (fun j => act1 D m (b j)) = V_norm sq m i b).
      { intros b Lb. unfold V_norm. destruct m as [m ir]. unfold mi_dim in Lb. cbn [fst snd] in *. destruct (group_rows_ok m (ir_dim ir) (b i) Lb) as [F C]. rewrite act1_rows, group_rows_concat;
        [|rewrite map_length; apply group_rows_length|apply rows_mv, HD]. rewrite map_map. apply map_ext_in. intros r Hr. rewrite Forall_forall in F. apply norm_row_act; [exact HO|apply F, Hr]. }
      f_equal.
      * rewrite <- (Hn (fun j => firstn (mi_dim m) (a j))) by (rewrite firstn_length; lia). unfold V_norm. rewrite act_cons, firstn_length_app by (apply act_one_length, HD). reflexivity.
      * rewrite <- (IH (fun j => skipn (mi_dim m) (a j))) by (rewrite skipn_length; lia). apply (blockwise_data (fun _ => True)).
        { intros m' c d E. unfold V_norm. rewrite E by exact I. reflexivity. }
        { intros j _. rewrite act_cons, skipn_length_app by (apply act_one_length, HD). reflexivity. }
  - exists [(1, even_scalar)], (lead x), (fun i => [norm_row sq (arr x i)]). split; [apply norm_total_yields, H|].
    apply (yields_bind _ _ _ _ _ _ _ _ (transform_act D x H HD)). intros y _ E1 E2 Hy E. rewrite <- E2. eapply yields_ext; [|apply (norm_total_yields y sq Hy)].
    intros i Hi. cbv beta. rewrite E2 in Hi. rewrite E by exact Hi. unfold norm_row. rewrite act_dot; auto; apply H, Hi.
Qed.
Lemma dot_invariant D x y s : rep_ok D -> orthogonal_rep D -> coherent x -> coherent y -> simplify (irr x) = simplify (irr y) -> broadcast_shapes (lead x) (lead y) = Ok s ->
  agree (dot x y false) (let! u := transform D x in let! v := transform D y in dot u v false).
Proof.
  intros HD HO Hx Hy E Es. apply (invariant2 D (fun u v => dot u v false) x y [(1, even_scalar)] s (fun a b i => [dotR (a (bidx (lead x) i)) (b (bidx (lead y) i))])); auto.
  - intros u v Hu U1 U2 _ Hv V1 V2 _. rewrite <- U2, <- V2. apply dot_yields; auto; congruence.
  - intros a b a' b' i Hi Ea Eb. destruct (broadcast_valid _ _ _ _ Es Hi). rewrite Ea, Eb by assumption. reflexivity.
  - intros a b i Hi La Lb. destruct (broadcast_valid _ _ _ _ Es Hi) as [V1 V2]. f_equal. rewrite (act_flat D (irr y) (irr x)) by (apply simplify_iff; congruence).
    assert (Ed : dim (irr y) = dim (irr x)). { rewrite <- !dims_flat. f_equal. apply simplify_iff. congruence. }
    rewrite act_dot; auto. rewrite <- Ed. auto.
Qed.
Lemma dot_per_irrep_invariant D x y : rep_ok D -> orthogonal_rep D -> coherent x -> coherent y -> simplify (irr x) = simplify (irr y) -> lead x = lead y ->
  agree (dot x y true) (let! u := transform D x in let! v := transform D y in dot u v true).
Proof.
  intros HD HO Hx Hy E El. assert (Ef : flat (irr y) = flat (irr x)) by (apply simplify_iff; congruence). assert (Ed : dim (irr y) = dim (irr x)) by (rewrite <- !dims_flat, Ef; reflexivity).
  apply (invariant2 D (fun u v => dot u v true) x y (map (fun '(mul, _) => (mul, even_scalar)) (simplify (irr x))) (lead x)
    (fun a b i => map2 dotR (instances (simplify (irr x)) (a i)) (instances (simplify (irr x)) (b i)))); auto.
  - intros u v Hu U1 U2 _ Hv V1 V2 _. rewrite <- U1, <- U2. apply dot_per_irrep_yields; auto; congruence.
  - intros a b a' b' i Hi Ea Eb. rewrite Ea, Eb by (rewrite <- ?El; assumption). reflexivity.
  - intros a b i Hi La Lb. rewrite !instances_cut, flat_simplify. unfold act. rewrite Ef, !cut_acts by exact HD.
    assert (W1 : Forall2 (fun ir r => length r = ir_dim ir) (flat (irr x)) (cut (flat (irr x)) (a i))) by (apply cut_widths; rewrite dims_flat; auto).
    assert (W2 : Forall2 (fun ir r => length r = ir_dim ir) (flat (irr x)) (cut (flat (irr x)) (b i))) by (apply cut_widths; rewrite dims_flat, <- Ed; apply Lb; rewrite <- El; exact Hi).
    revert W1 W2. generalize (cut (flat (irr x)) (a i)) (cut (flat (irr x)) (b i)). intros U0 V0. generalize (flat (irr x)). clear - HO. intros l W1. revert V0. induction W1 as [|ir u l U Lu W1 IH]; intros V W2; inversion W2; subst; [reflexivity|].
    rewrite !map2_cons. rewrite <- IH by assumption. f_equal. unfold mv. symmetry. apply HO; assumption.
Qed.

(* ---------- cross product ---------- *)
Definition vector_rep (D : rep) : Prop := forall p q u v, length u = 3 -> length v = 3 ->
  cross_row (matvec (D (Irrep 1 p)) u) (matvec (D (Irrep 1 q)) v) = matvec (D (Irrep 1 (pmul p q))) (cross_row u v).
Lemma cross_commutes D a b u v s : rep_ok D -> vector_rep D -> coherent a -> coherent b ->
  Forall (fun m => is_vector (snd m)) (irr a) -> Forall (fun m => is_vector (snd m)) (irr b) ->
  align_two_irreps (irr a) (irr b) = Ok (u, v) -> broadcast_shapes (lead a) (lead b) = Ok s ->
  agree (let! w := cross a b in transform D w) (let! a' := transform D a in let! b' := transform D b in cross a' b').
Proof.
  intros HD HV Ha Hb Pa Pb E Es.
  apply (commute2 D cross a b (map2 (fun p q => (fst p, cross_irrep (snd p) (snd q))) u v) s
    (fun f g i => concat (map2 cross_row (instances (irr a) (f (bidx (lead a) i))) (instances (irr b) (g (bidx (lead b) i)))))); auto.
  - intros x y Hx X1 X2 _ Hy Y1 Y2 _. rewrite <- X1, <- X2, <- Y1, <- Y2 in *. apply cross_yields; assumption.
  - intros f g f' g' i Hi Ea Eb. destruct (broadcast_valid _ _ _ _ Es Hi). rewrite Ea, Eb by assumption. reflexivity.
  - intros f g i Hi La Lb. destruct (broadcast_valid _ _ _ _ Es Hi) as [V1 V2]. rewrite !instances_cut. destruct (align_sound _ _ _ _ E) as (M & Fu & Fv & _).
    unfold act. rewrite !cut_acts by exact HD.
    assert (Ff : flat (map2 (fun p q => (fst p, cross_irrep (snd p) (snd q))) u v) = map2 cross_irrep (flat (irr a)) (flat (irr b))).
    { rewrite <- Fu, <- Fv. clear - M. revert v M. induction u as [|[m p] u IH]; intros [|[n q] v] M; try discriminate; [reflexivity|]. cbn [map fst] in M. injection M as <- M.
      rewrite map2_cons. cbn [fst snd]. rewrite !flat_cons, map2_app by (rewrite !repeat_length; reflexivity). rewrite IH by exact M. f_equal. clear. unfold map2. induction m; cbn; congruence. }
    rewrite Ff. 
    assert (W1 : Forall2 (fun ir r => length r = ir_dim ir) (flat (irr a)) (cut (flat (irr a)) (f (bidx (lead a) i)))) by (apply cut_widths; rewrite dims_flat; auto).
    assert (W2 : Forall2 (fun ir r => length r = ir_dim ir) (flat (irr b)) (cut (flat (irr b)) (g (bidx (lead b) i)))) by (apply cut_widths; rewrite dims_flat; auto).
    assert (Q : forall x, Forall (fun m => is_vector (snd m)) x -> Forall is_vector (flat x)).
    { clear. induction 1 as [|[m ir] x Hm H IH]; [constructor|]. rewrite flat_cons. apply Forall_app. split; [|assumption]. apply Forall_forall. intros r Hr. apply repeat_spec in Hr. subst. exact Hm. }
    pose proof (Q _ Pa) as Qa. pose proof (Q _ Pb) as Qb. assert (Ll : length (flat (irr a)) = length (flat (irr b))) by (rewrite <- Fu, <- Fv; clear - M; revert v M; induction u as [|[m p] u IH]; intros [|[n q] v] M; try discriminate; [reflexivity|]; cbn [map fst] in M; injection M as <- M; rewrite !flat_cons, !app_length, !repeat_length, (IH v M); reflexivity).
    revert W1 W2 Qa Qb Ll. generalize (cut (flat (irr a)) (f (bidx (lead a) i))) (cut (flat (irr b)) (g (bidx (lead b) i))). intros U0 V0. generalize (flat (irr a)) (flat (irr b)). clear - HV.
    intros l l' W1. revert V0 l'. induction W1 as [|ir r l U Lu W1 IH]; intros V l' W2 Qa Qb L; inversion W2 as [|ir' r' l2 V2 Lv W2' E1 E2]; subst; try discriminate; [reflexivity|].
    rewrite !map2_cons. cbn [concat acts]. inversion Qa as [|? ? Q1 Q2]; subst. inversion Qb as [|? ? Q3 Q4]; subst.
    assert (L3 : length r = 3) by (rewrite Lu; apply vector_dim, Q1). assert (L3' : length r' = 3) by (rewrite Lv; apply vector_dim, Q3).
    assert (Lc : length (cross_row r r') = ir_dim (cross_irrep ir ir')) by (rewrite cross_row_length by assumption; reflexivity).
    rewrite firstn_length_app, skipn_length_app by exact Lc. rewrite (IH V2 l2) by (auto; injection L; auto). f_equal. unfold mv, cross_irrep.
    destruct ir as [li p], ir' as [lj q]. unfold is_vector in Q1, Q3. cbn [ir_l ir_p] in *. subst li lj. symmetry. apply HV; assumption.
Qed.
