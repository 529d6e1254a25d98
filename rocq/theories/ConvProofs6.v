(* The whole convolution as a sum over the incoming edges. *)
From Coq Require Import Reals Lra Lia List Arith Bool ZArith.
From Verif Require Import PyBase PermModel PermProofs IrrepsModel IrrepsProofs IrrepsProofs2 IrrepsStr ArrayModel ArrayProofs ArrayOps RechunkProofs ArithProofs LeadModel LeadProofs BlockProofs AxisProofs StackProofs BilinProofs ActProofs EquivProofs EquivProofs2 SumR EntryProofs ArrayProps2 TPModel TPProofs TPProofs2 StableSort TPProofs3 TPProps TPProps2 GradProofs CGModel RotationModel WignerModel WignerProofs WignerProofs2 WignerProps S2Model SHModel S2Proofs2 SHProps SHProps3 ScatterModel ScatterProps NormProofs LinearModel LinearProofs LinearProps LinearComplete LinModModel LinModProofs LinModProofs2 LinModProps ActivationModel MlpModel MlpProps ConvModel ConvProofs ConvProofs2 ConvProofs3 ConvProofs4 ConvProofs5.
Import ListNotations.
Open Scope nat_scope.

(* the node an index refers to: negative indices count from the end *)
Definition node (N : nat) (z : Z) : nat := Z.to_nat (if (z <? 0)%Z then z + Z.of_nat N else z)%Z.
Definition in_range (N : nat) (z : Z) : Prop := (- Z.of_nat N <= z < Z.of_nat N)%Z.
Lemma node_spec N z : in_range N z -> node N z < N /\ gather_index N z = node N z /\ resolve_index MDrop N z = Some (node N z).
Proof.
  unfold in_range, node, gather_index, resolve_index. intros H. destruct (Z.ltb_spec z 0); cbv zeta.
  - split; [lia|]. split; [f_equal; lia|]. destruct (Z.leb_spec 0 (z + Z.of_nat N)), (Z.ltb_spec (z + Z.of_nat N) (Z.of_nat N)); try lia. reflexivity.
  - split; [lia|]. split; [f_equal; lia|]. destruct (Z.leb_spec 0 z), (Z.ltb_spec z (Z.of_nat N)); try lia. reflexivity.
Qed.
Definition incoming (N E : nat) (rec : nat -> Z) (i : nat) : list nat := filter (fun e => node N (rec e) =? i) (seq 0 E).
Lemma take_yields x N E ix : coherent x -> lead x = [N] -> (forall e, e < E -> in_range N (ix e)) ->
  exists z, take_rows x E ix = Ok z /\ irr z = irr x /\ zero_flags z = zero_flags x /\ lead z = [E] /\ coherent z /\ forall e, e < E -> arr z [e] = arr x [node N (ix e)].
Proof.
  intros Cx Lx H. unfold take_rows. rewrite Lx. cbn [hd]. assert (Q : (N =? 0) && negb (E =? 0) = false) by (destruct (Nat.eqb_spec N 0), (Nat.eqb_spec E 0); try reflexivity; exfalso; destruct (H 0 ltac:(lia)); lia). rewrite Q. clear Q.
  destruct (gathered_yields x [E] (fun i => [gather_index N (ix (hd 0 i))]) (chs x) Cx) as (z & Ez & Iz & Lz & Cz & Az).
  - intros i Hi. rewrite Lx. inversion Hi as [|e ? t ? He Ht]; subst. inversion Ht; subst. cbn [hd]. constructor; [destruct (node_spec N (ix e) (H e He)) as (Q1 & -> & _); exact Q1|constructor].
  - left; reflexivity.
  - exists z. split; [exact Ez|]. split; [exact Iz|]. split; [exact (proj1 (gathered_flags _ _ _ _ _ Ez))|]. split; [exact Lz|]. split; [exact Cz|]. intros e He. rewrite Az by (constructor; [exact He|constructor]). cbn [hd]. destruct (node_spec N (ix e) (H e He)) as (_ & -> & _). reflexivity.
Qed.
Lemma flags_sum s x : forall fl a (g : idx -> list idx) s', (forall i j, valid s' i -> In j (g i) -> valid s j) -> flags_ok s x fl a -> flags_ok s' x fl (fun i => rowsum (dim x) (map a (g i))).
Proof.
  induction x as [|m x IH]; intros [|f fl] a g s' V H; cbn [flags_ok] in *; try contradiction; [exact Logic.I|]. destruct H as [H1 H2]. split.
  - intros Hf i Hi. rewrite dim_cons, rowsum_firstn, map_map. apply rowsum_zero. apply Forall_map, Forall_forall. intros j Hj. apply H1; [exact Hf|]. apply (V i j Hi Hj).
  - eapply flags_ok_ext; [|apply (IH fl (fun i => skipn (mi_dim m) (a i)) g s' V H2)]. intros i Hi. cbv beta. rewrite dim_cons, rowsum_skipn, map_map. reflexivity.
Qed.
Lemma and_true fl : forall n, length fl = n -> and_flags (repeat true n) fl = fl.
Proof. induction fl as [|f fl IH]; intros [|n] L; try discriminate; [reflexivity|]. cbn. f_equal. apply IH. now injection L. Qed.
Lemma scatter_edges m N E rec x : coherent m -> lead m = [E] -> irr m = x -> (forall e, e < E -> in_range N (rec e)) ->
  exists y, (let! z := zeros x [N] in at_add_index z E rec m) = Ok y /\ irr y = x /\ zero_flags y = zero_flags m /\ lead y = [N] /\ coherent y /\ forall i, i < N -> arr y [i] = rowsum (dim x) (map (fun e => arr m [e]) (incoming N E rec i)).
Proof.
  intros Cm Lm Im H. unfold zeros. rewrite mkIA_ok; [|reflexivity|exact Logic.I|apply repeat_length]. cbn [bind]. unfold at_add_index. cbn [irr lead arr]. rewrite Im, irreps_eqb_refl. cbn [negb]. unfold rechunk, rechunk_opt. rewrite Im, !irreps_eqb_refl. cbn [negb bind hd]. rewrite Lm, (proj2 (shape_eqb_eq [E] [E]) eq_refl). cbn [negb].
  pose proof (zero_flags_length m Cm) as Lf. rewrite Im in Lf. unfold zero_flags at 1. cbn [zf]. rewrite (and_true _ _ Lf). rewrite mkIA_ok; [|reflexivity|exact Logic.I|exact Lf]. eexists. split; [reflexivity|]. cbn [irr lead]. split; [reflexivity|]. split; [reflexivity|]. split; [reflexivity|].
  set (a := fun i : idx => update_rows Rplus (all_idx [E]) (fun e => resolve_index MDrop N (rec (hd 0 e))) (arr m) (hd 0 i) [] (repeat 0%R (dim x))).
  assert (A : forall i, a i = rowsum (dim x) (map (arr m) (map (fun e => [e]) (incoming N E rec (hd 0 i))))).
  { intros i. pose proof (scatter_rows_sum (dim x) [E] (fun e => resolve_index MDrop N (rec (hd 0 e))) (arr m) (hd 0 i) []) as Q. unfold scatter_rows in Q. unfold a. rewrite Q.
    - f_equal. rewrite (map_ext _ (arr m)) by (intros; now rewrite app_nil_r). f_equal. unfold landing, incoming. rewrite all_idx1.
      assert (G : forall l, (forall e, In e l -> e < E) -> filter (hits (fun e => resolve_index MDrop N (rec (hd 0 e))) (hd 0 i)) (map (fun k => [k]) l) = map (fun e => [e]) (filter (fun e => node N (rec e) =? hd 0 i) l)).
      { induction l as [|e l IH]; intros B; [reflexivity|]. cbn [map filter]. rewrite IH by (intros q Hq; apply B; now right). unfold hits at 1. cbn [hd]. destruct (node_spec N (rec e) (H e (B e (or_introl eq_refl)))) as (_ & _ & ->). destruct (_ =? _); reflexivity. }
      apply G. intros e He. apply in_seq in He. lia.
    - intros j Hj. rewrite app_nil_r, <- Im. apply Cm. rewrite Lm. exact Hj. }
  assert (V : forall i j, valid [N] i -> In j (map (fun e => [e]) (incoming N E rec (hd 0 i))) -> valid [E] j).
  { intros i j _ Hj. apply in_map_iff in Hj as (e & <- & He). apply filter_In in He as [He _]. apply in_seq in He. constructor; [lia|constructor]. }
  split.
  - split; [|split]; cbn [lead irr arr zero_flags zf chs]; [| |exact Logic.I]; fold a.
    + intros i Hi. rewrite A. apply rowsum_length. apply Forall_map, Forall_forall. intros j Hj. rewrite <- Im. apply Cm. rewrite Lm. apply (V i j Hi Hj).
    + eapply flags_ok_ext; [intros i Hi; symmetry; apply A|]. destruct Cm as (_ & F & _). rewrite Lm, Im in F. apply (flags_sum [E] x (zero_flags m) (arr m) _ [N] V F).
  - intros i Hi. cbn [arr]. fold a. rewrite A. cbn [hd]. rewrite map_map. reflexivity.
Qed.
Lemma div_rows y r : coherent y -> flat (irr y) <> [] -> exists z, div_scalar y [] (fun _ => r) = Ok z /\ irr z = irr y /\ zero_flags z = zero_flags y /\ lead z = lead y /\ coherent z /\ forall i, valid (lead y) i -> arr z i = map (fun v => (v / r)%R) (arr y i).
Proof.
  intros Cy Ne. assert (B : broadcast_shapes (lead y) [] = Ok (lead y)) by apply broadcast_nil.
  destruct (scale_yields Rdiv y [] (fun _ => r) (lead y) Cy Ne B) as (z & E & I & L & Cz & A); [intros i _; unfold Rdiv; ring|]. exists z. split; [exact E|]. split; [exact I|]. split.
  - unfold scale_by in E. destruct (lmax (irr y)); [|discriminate]. cbn [bind] in E. rewrite B in E. cbn [bind] in E. apply mkIA_flags in E. exact E.
  - split; [exact L|]. split; [exact Cz|]. intros i Hi. rewrite A by exact Hi. rewrite bidx_id by exact Hi. reflexivity.
Qed.

(* a graph given to the layer: positions and features of N nodes, of one kind, and E edges *)
Record graph (p : parity) (x : irreps) (fl : list bool) (pos feats : iarray) (N E : nat) (snd rec : nat -> Z) : Prop := {
  g_pos : coherent pos; g_feats : coherent feats;
  g_pi : irr pos = vec p; g_pl : lead pos = [N];
  g_xi : irr feats = x; g_xf : zero_flags feats = fl; g_xl : lead feats = [N];
  g_snd : forall e, e < E -> in_range N (snd e); g_rec : forall e, e < E -> in_range N (rec e) }.
Definition rel (pos : iarray) (N : nat) (snd rec : nat -> Z) (e : nat) : list R := zipR Rminus (arr pos [node N (rec e)]) (arr pos [node N (snd e)]).
Definition total (w : nat) (avg : R) (rows : list (list R)) : list R := map (fun v => (v / sqrt avg)%R) (rowsum w rows).
Record gather_form (C : conv) (P : conv_params) (p : parity) (x : irreps) (fl : list bool) (xa : irreps) (fla : list bool) (msg : list R -> list R -> list R) : Prop := {
  gf_run : forall pos feats N E snd rec, graph p x fl pos feats N E snd rec -> exists agg, conv_gather C P pos feats E snd rec = Ok agg /\ irr agg = xa /\ zero_flags agg = fla /\ lead agg = [N] /\ coherent agg /\
    forall i, i < N -> arr agg [i] = total (dim xa) (c_avg C) (map (fun e => msg (arr feats [node N (snd e)]) (rel pos N snd rec e)) (incoming N E rec i));
  gf_len : forall row v, length row = dim x -> length v = 3 -> length (msg row v) = dim xa;
  gf_act : forall r row v, orthogonal3 r -> length row = dim x -> length v = 3 -> act (rep_of r) xa (msg row v) = msg (act (rep_of r) x row) (act (rep_of r) (vec p) v);
  gf_lin : forall t a b v, length a = dim x -> length b = dim x -> length v = 3 -> msg (lin t a b) v = lin t (msg a v) (msg b v);
  gf_flags : length fla = length xa }.
Definition up_irreps (C : conv) (x : irreps) (fl : list bool) : irreps := result_irreps (default_linear C x) (zero_like x [] fl).
Lemma module_step C y x fl P : length fl = length x -> (forall L, layer_for (default_linear C y) (zero_like x [] fl) = Ok L -> supplies P [] L) ->
  exists L fl', layer_for (default_linear C y) (zero_like x [] fl) = Ok L /\ supplies P [] L /\ length fl' = length (result_irreps (default_linear C y) (zero_like x [] fl)) /\
    step (module_call (default_linear C y) P NoWeights) x fl (result_irreps (default_linear C y) (zero_like x [] fl)) fl' (module_row C y x fl P L).
Proof.
  intros Lf HP. assert (EL : exists L, layer_for (default_linear C y) (zero_like x [] fl) = Ok L) by (apply (C27_biases _ _ NoBias); exact Logic.I). destruct EL as [L EL]. pose proof (HP L EL) as Sp.
  destruct (step_of (module_call (default_linear C y) P NoWeights) x fl (result_irreps (default_linear C y) (zero_like x [] fl)) (module_row C y x fl P L) Lf) as (fl' & L' & St).
  - intros a Ca Ia Fa. apply module_yields; assumption.
  - intros a b u v K Ia Fa Eu Ev. refine (kin_flags _ _ (module_kin C y P a b u v K _ Eu Ev)). intros L0 E0. apply HP. rewrite <- E0. unfold layer_for. destruct (alike_irreps C y x fl a Ia Fa) as (-> & -> & _). reflexivity.
  - exists L, fl'. auto.
Qed.
Lemma row3 pos p N : coherent pos -> irr pos = vec p -> lead pos = [N] -> forall k, k < N -> length (arr pos [k]) = 3.
Proof. intros Cp Ip Lp k Hk. rewrite (proj1 Cp [k]) by (rewrite Lp; constructor; [exact Hk|constructor]). rewrite Ip. reflexivity. Qed.
Lemma gather_explicit C P gn p x fl : edge_ok C p -> mix_ok C gn -> c_inorm C <> NOther -> length fl = length x ->
  (forall L, layer_for (default_linear C x) (zero_like x [] fl) = Ok L -> supplies (p_up P) [] L) -> regroup_irreps (comb_irreps C p (up_irreps C x fl)) <> [] ->
  exists L u w fla, layer_for (default_linear C x) (zero_like x [] fl) = Ok L /\ align_two_irreps (regroup_irreps (comb_irreps C p (up_irreps C x fl))) [(num_irreps (regroup_irreps (comb_irreps C p (up_irreps C x fl))), Irrep 0 Even)] = Ok (u, w) /\
    gather_form C P p x fl (bil_out (ew_paths NComponent None u w)) fla (fun row v => edge_row C P gn p (up_irreps C x fl) u w (module_row C x x fl (p_up P) L row) v).
Proof.
  intros EO MO Hn Lf HP Ne. destruct (module_step C x x fl (p_up P) Lf HP) as (L & fl1 & EL & Sp & Lf1 & Up). set (x1 := up_irreps C x fl) in *. change (result_irreps (default_linear C x) (zero_like x [] fl)) with x1 in *.
  destruct (edge_T_explicit C P gn p x1 fl1 EO MO Hn Lf1 Ne) as (u & w & fla & Al & ET). set (xa := bil_out (ew_paths NComponent None u w)) in *. set (T := edge_row C P gn p x1 u w) in *. destruct ET as [Er En Ef El Ea Ei]. exists L, u, w, fla. split; [exact EL|]. split; [exact Al|]. change (gather_form C P p x fl xa fla (fun row v => T (module_row C x x fl (p_up P) L row) v)). split; auto.
  - intros pos feats N E snd rec [Cp Cf Ip Lp Ix Fx Lx Hs Hr]. unfold conv_gather. rewrite Lp, Lx, Ix. cbn [length Nat.eqb assert bind].
    destruct (take_yields pos N E rec Cp Lp Hr) as (a & -> & Ia & Fa & La & Ca & Aa). destruct (take_yields pos N E snd Cp Lp Hs) as (b & -> & Ib & Fb & Lb & Cb & Ab). cbn [bind].
    destruct (proj2 (C22_add_sub_same_shape a b Ca Cb ltac:(congruence) ltac:(congruence))) as (v & Ev & Iv & Lv & Cv & Av). rewrite Ev. cbn [bind]. rewrite Ia, Ip in Iv. rewrite La in Lv, Av.
    destruct (attrs_yields C p v EO Cv Iv) as (at_ & Ea_ & _). rewrite Ea_. cbn [bind].
    destruct (Up feats Cf Ix Fx) as (h & -> & Ih & Fh & Lh & Ch & Ah). cbn [bind]. rewrite Lx in Lh, Ah.
    destruct (take_yields h N E snd Ch Lh Hs) as (ms & -> & Im & Fm & Lm & Cm & Am). cbn [bind]. rewrite Ih in Im. rewrite Fh in Fm.
    destruct (Er ms v Cm Cv Im Fm Iv ltac:(congruence)) as (q & Eq & Iq & Fq & Lq & Cq & Aq). unfold edge_op in Eq. rewrite Ea_ in Eq. cbn [bind] in Eq. destruct (conv_combine C ms at_) as [c|]; [|discriminate]. cbn [bind] in *. rewrite Eq. cbn [bind]. rewrite Lm in Lq, Aq.
    destruct (scatter_edges q N E rec xa Cq Lq Iq Hr) as (y & Ey & Iy & Fy & Ly & Cy & Ay). rewrite Lh, Iq. cbn [firstn]. destruct (zeros xa [N]) as [z0|]; [|discriminate]. cbn [bind] in *. rewrite Ey. cbn [bind].
    destruct (div_rows y (sqrt (c_avg C)) Cy ltac:(rewrite Iy; exact En)) as (g & Eg & Ig & Fg & Lgg & Cg & Ag). exists g. split; [exact Eg|]. split; [congruence|]. split; [congruence|]. split; [congruence|]. split; [exact Cg|].
    intros i Hi. rewrite Ag by (rewrite Ly; constructor; [exact Hi|constructor]). rewrite Ay by exact Hi. unfold total. f_equal. f_equal. apply map_ext_in. intros e He. apply filter_In in He as [He _]. apply in_seq in He. assert (He' : e < E) by lia. assert (V1 : valid [E] [e]) by (constructor; [exact He'|constructor]).
    rewrite Aq by exact V1. rewrite Am by exact He'. assert (Hn1 : node N (snd e) < N) by apply (node_spec N (snd e) (Hs e He')). rewrite Ah by (constructor; [exact Hn1|constructor]). f_equal. rewrite Av by exact V1. rewrite Aa, Ab by exact He'. reflexivity.
  - intros row v Lr Lv. apply El; [|exact Lv]. apply module_row_length; assumption.
  - intros r row v O Lr Lv. rewrite Ea; [|exact O|apply module_row_length; assumption|exact Lv]. f_equal. apply (module_row_eqv C x x fl (p_up P) L Lf EL Sp); [apply as_rep_ok|now apply rep_of_scalar|exact Lr].
  - intros t a b v La Lb Lv. rewrite (module_row_linear C x x fl (p_up P) L Lf EL Sp t a b La Lb). apply Ei; [apply module_row_length; assumption|apply module_row_length; assumption|exact Lv].
Qed.
Lemma gather_exists C P gn p x fl : edge_ok C p -> mix_ok C gn -> c_inorm C <> NOther -> length fl = length x ->
  (forall L, layer_for (default_linear C x) (zero_like x [] fl) = Ok L -> supplies (p_up P) [] L) -> regroup_irreps (comb_irreps C p (up_irreps C x fl)) <> [] -> exists xa fla msg, gather_form C P p x fl xa fla msg.
Proof. intros H1 H2 H3 H4 H5 H6. destruct (gather_explicit C P gn p x fl H1 H2 H3 H4 H5 H6) as (L & u & w & fla & _ & _ & H). eauto. Qed.

Record conv_form (C : conv) (P : conv_params) (p : parity) (x : irreps) (fl : list bool) (xa : irreps) (msg : list R -> list R -> list R) (xo : irreps) (out : list R -> list R) : Prop := {
  cf_run : forall pos feats N E snd rec, graph p x fl pos feats N E snd rec -> exists z, conv_call C P pos feats E snd rec = Ok z /\ irr z = xo /\ lead z = [N] /\ coherent z /\
    forall i, i < N -> arr z [i] = out (total (dim xa) (c_avg C) (map (fun e => msg (arr feats [node N (snd e)]) (rel pos N snd rec e)) (incoming N E rec i)));
  cf_len : forall row v, length row = dim x -> length v = 3 -> length (msg row v) = dim xa;
  cf_act : forall r row v, orthogonal3 r -> length row = dim x -> length v = 3 -> act (rep_of r) xa (msg row v) = msg (act (rep_of r) x row) (act (rep_of r) (vec p) v);
  cf_lin : forall t a b v, length a = dim x -> length b = dim x -> length v = 3 -> msg (lin t a b) v = lin t (msg a v) (msg b v);
  cf_out_len : forall row, length row = dim xa -> length (out row) = dim xo;
  cf_out_act : forall r row, orthogonal3 r -> length row = dim xa -> act (rep_of r) xo (out row) = out (act (rep_of r) xa row);
  cf_out_lin : forall t a b, length a = dim xa -> length b = dim xa -> out (lin t a b) = lin t (out a) (out b) }.
Lemma conv_explicit C P p x fl xa fla msg : gather_form C P p x fl xa fla msg -> (forall L, layer_for (default_linear C (c_target C)) (zero_like xa [] fla) = Ok L -> supplies (p_down P) [] L) ->
  exists L, layer_for (default_linear C (c_target C)) (zero_like xa [] fla) = Ok L /\ conv_form C P p x fl xa msg (result_irreps (default_linear C (c_target C)) (zero_like xa [] fla)) (module_row C (c_target C) xa fla (p_down P) L).
Proof.
  intros [Gr Gl Ga Gi Gf] HP. destruct (module_step C (c_target C) xa fla (p_down P) Gf HP) as (L & flo & EL & Sp & Lo & St). exists L. split; [exact EL|]. split; auto.
  - intros pos feats N E snd rec G. destruct (Gr _ _ _ _ _ _ G) as (agg & Eg & Ig & Fg & Lg & Cg & Ag). unfold conv_call. rewrite Eg. cbn [bind]. destruct (St agg Cg Ig Fg) as (z & Ez & Iz & _ & Lz & Cz & Az). exists z. split; [exact Ez|]. split; [exact Iz|]. split; [congruence|]. split; [exact Cz|].
    intros i Hi. rewrite Az by (rewrite Lg; constructor; [exact Hi|constructor]). now rewrite Ag.
  - intros row Lr. apply module_row_length; assumption.
  - intros r row O Lr. apply (module_row_eqv C (c_target C) xa fla (p_down P) L Gf EL Sp); [apply as_rep_ok|now apply rep_of_scalar|exact Lr].
  - apply (module_row_linear C (c_target C) xa fla (p_down P) L Gf EL Sp).
Qed.
Lemma conv_exists C P p x fl xa fla msg : gather_form C P p x fl xa fla msg -> (forall L, layer_for (default_linear C (c_target C)) (zero_like xa [] fla) = Ok L -> supplies (p_down P) [] L) ->
  exists out, conv_form C P p x fl xa msg (result_irreps (default_linear C (c_target C)) (zero_like xa [] fla)) out.
Proof. intros H1 H2. destruct (conv_explicit C P p x fl xa fla msg H1 H2) as (L & _ & H). eauto. Qed.
