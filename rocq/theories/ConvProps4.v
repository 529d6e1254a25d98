(* C63: what the layer computes for scalar features: the weights, the radial functions and the direction of the edge vectors. *)
From Coq Require Import Reals Lra Lia List Arith Bool ZArith Permutation.
From Verif Require Import PyBase PermModel PermProofs IrrepsModel IrrepsProofs IrrepsProofs2 ArrayModel ArrayProofs ArrayOps RechunkProofs ArithProofs LeadModel LeadProofs BlockProofs AxisProofs StackProofs BilinProofs ActProofs EquivProofs EquivProofs2 NormModel SumR EntryProofs ArrayProps2 ArrayProps3 TPModel TPProofs TPProofs2 TPProofs3 TPProps TPProps2 GradProofs CGModel RotationModel WignerModel WignerProofs WignerProofs2 WignerProps WignerProps2 S2Model SHModel SHProofs SHProofs2 SHProps ScatterModel ScatterProps RtpPerm GateProofs ActivationProps LinearModel LinearProofs LinearProps LinModModel LinModProofs LinModProofs2 ActivationModel MlpModel MlpProps ConvModel ConvProofs ConvProofs2 ConvProofs3 ConvProofs4 ConvProofs5 ConvProofs6 ConvProps ConvProps2.
Import ListNotations.
Open Scope nat_scope.

Definition s0 : irreps := [(1, Irrep 0 Even)].
Definition s01 : irreps := [(1, Irrep 0 Even); (1, Irrep 1 Odd)].
Definition conv01 (B : R -> list R) (w : nat) (avg : R) (neurons : list nat) (act : R -> R) (auto : option (list keyword)) (pn gn : R) (conf : registry) (pts : list R) : conv :=
  Conv s01 B w avg 1 neurons act NComponent Component auto pn gn conf pts.
Definition params01 (u d : R) (mp : mlp_params) : conv_params := ConvParams (fun _ _ => [u]) mp (fun _ _ => [d]).

Section Flags.
Variables (B : R -> list R) (w : nat) (avg : R) (neurons : list nat) (act : R -> R) (auto : option (list keyword)) (pn gn : R) (conf : registry) (pts : list R) (u d : R) (mp : mlp_params) (gm : R).
Let C := conv01 B w avg neurons act auto pn gn conf pts.
Let P := params01 u d mp.
Hypothesis EO : edge_ok C Odd.
Hypothesis MO : mix_ok C gm.
Lemma up_flags x z : coherent x -> irr x = s0 -> zero_flags x = [false] -> module_call (default_linear C s0) (p_up P) NoWeights x = Ok z -> zero_flags z = [false].
Proof.
  intros Cx Ix Fx Ez. destruct (zero_like_coherent s0 [] [false] eq_refl) as [C0 F0]. assert (K : kin x (zero_like s0 [] [false])) by (constructor; auto; congruence).
  assert (E0 : exists z0, module_call (default_linear C s0) (p_up P) NoWeights (zero_like s0 [] [false]) = Ok z0 /\ zero_flags z0 = [false]).
  { eexists. split; [lazy -[Rmult Rdiv Rplus sqrt Rpower IZR INR Rinv Rlt_dec]; reflexivity|reflexivity]. }
  destruct E0 as (z0 & E0 & <-). refine (kin_flags _ _ (module_kin C s0 (p_up P) x _ z z0 K _ Ez E0)). intros L EL o Ho e He. cbn [p_up P params01].
  unfold layer_for in EL. destruct (alike_irreps C s0 s0 [false] x Ix Fx) as (Q1 & Q2 & _). rewrite Q1, Q2 in EL. lazy -[Rmult Rdiv Rplus sqrt Rpower IZR INR Rinv Rlt_dec] in EL. injection EL as <-. cbn in Ho. destruct Ho as [<-|[]]. reflexivity.
Qed.
Lemma drop_flags a s : coherent a -> irr a = scalars C :: shx C Odd -> zero_flags a = [false; false] -> ia_filter a None (Some (ByIrreps [Irrep 0 Even])) None = Ok s -> zero_flags s = [false].
Proof.
  intros Ca Ia Fa E. pose proof (chunks_flags a Ca) as CF. rewrite Fa in CF. unfold ia_filter in E. rewrite Ia in E.
  assert (FI : filter_irreps (scalars C :: shx C Odd) None (Some (ByIrreps [Irrep 0 Even])) None = Ok [(1, Irrep 1 Odd)]) by reflexivity. rewrite FI in E. cbn [bind] in E. apply from_chunks_flags in E as [_ ->].
  destruct (chunks a) as [|c1 [|c2 [|]]]; try discriminate. cbn in CF. injection CF as F1 F2. cbn. rewrite <- F2. reflexivity.
Qed.
Lemma combine_flags m a z : coherent m -> coherent a -> irr m = s0 -> zero_flags m = [false] -> irr a = scalars C :: shx C Odd -> zero_flags a = [false; false] -> lead m = lead a -> conv_combine C m a = Ok z -> irr z = s01 /\ zero_flags z = [false; false].
Proof.
  intros Cm Ca Im Fm Ia Fa Lma Z. assert (Hn : c_inorm C <> NOther) by discriminate.
  destruct (yields_inv _ _ _ _ _ Z (combine_yields C Odd m a Hn Cm Ca Ia Lma)) as (Iz & _ & Cz & _). rewrite Im in Iz. split; [exact Iz|]. unfold conv_combine in Z. set (m' := zero_like s0 [] [false]). destruct (zero_like_coherent s0 [] [false] eq_refl) as [Cm' Fm']. fold m' in Cm', Fm'. assert (Km : kin m m') by (constructor; auto; congruence).
  destruct (ia_filter_row (wanted C) m Cm) as (m1 & E1 & I1 & L1 & C1 & _). destruct (ia_filter_row (wanted C) m' Cm') as (m1' & E1' & I1' & L1' & C1' & _). unfold wanted in E1, E1'. rewrite E1 in Z. cbn [bind] in Z.
  destruct (attrs_drop C Odd a Ca Ia) as (s & E2 & I2 & L2 & C2 & _). pose proof (drop_flags a s Ca Ia Fa E2) as F2. rewrite E2 in Z. cbn [bind] in Z. set (s' := zero_like [(1, Irrep 1 Odd)] [] [false]). destruct (zero_like_coherent [(1, Irrep 1 Odd)] [] [false] eq_refl) as [Cs' Fs']. fold s' in Cs', Fs'.
  assert (K1 : kin m1 m1') by (destruct (filter_same _ _ _ _ _ _ _ Km E1 E1') as [Q1 Q2]; constructor; assumption). assert (K2 : kin s s') by (constructor; auto; congruence).
  assert (Bm : broadcast_shapes (lead m) (lead s) = Ok (lead m)) by (rewrite L2, <- Lma; apply broadcast_refl). assert (Bm' : broadcast_shapes (lead m') (lead s') = Ok (lead m')) by reflexivity.
  destruct (tensor_product clebsch_gordan (c_inorm C) (Some (map snd (c_target C))) true m s) as [t|] eqn:E3; [|discriminate]. cbn [bind] in Z.
  destruct (tensor_product_yields clebsch_gordan (c_inorm C) (Some (map snd (c_target C))) true m' s' (lead m') Cm' Cs' Hn Bm') as (t' & E3' & _ & L3' & C3' & _).
  pose proof (tp_kin _ _ _ _ _ _ _ _ _ _ _ Hn Km K2 Bm Bm' E3 E3') as K3.
  destruct (yields_inv _ _ _ _ _ E3 (tensor_product_yields clebsch_gordan (c_inorm C) _ true m s (lead m) Cm C2 Hn Bm)) as (_ & L3 & C3 & _).
  destruct (concat_last [m1; t]) as [q|] eqn:E4; [|discriminate]. cbn [bind] in Z.
  assert (F : Forall (fun y => coherent y /\ lead y = lead m) [m1; t]) by (constructor; [split; assumption|constructor; [split; assumption|constructor]]). assert (F' : Forall (fun y => coherent y /\ lead y = lead m') [m1'; t']) by (constructor; [split; assumption|constructor; [split; assumption|constructor]]).
  destruct (yields_inv _ _ _ _ _ E4 (concat_last_yields (lead m) [m1; t] ltac:(discriminate) F)) as (_ & _ & Cq & _). destruct (concat_last_yields (lead m') [m1'; t'] ltac:(discriminate) F') as (q' & E4' & _ & _ & Cq' & _).
  assert (K4 : kin q q') by (destruct (concat_same [m1; t] [m1'; t'] q q') as [Q1 Q2]; auto; constructor; assumption).
  destruct (ia_regroup_yields q' Cq') as (z' & E5' & _). rewrite (kin_flags _ _ (respects_regroup _ _ _ _ K4 Z E5')).
  assert (Q : (let! m1 := ia_filter m' (Some (ByIrreps (map snd (c_target C)))) None None in let! t := tensor_product clebsch_gordan (c_inorm C) (Some (map snd (c_target C))) true m' s' in let! q := concat_last [m1; t] in ia_regroup q) = Ok z') by (rewrite E1'; cbn [bind]; rewrite E3'; cbn [bind]; rewrite E4'; exact E5').
  clear -Q. lazy -[Rmult Rdiv Rplus sqrt Rpower IZR INR Rinv Rlt_dec clebsch_gordan norm_factor] in Q. injection Q as <-. reflexivity.
Qed.
Lemma mix_flags m a z : coherent m -> coherent a -> irr m = s01 -> zero_flags m = [false; false] -> irr a = scalars C :: shx C Odd -> lead m = lead a -> conv_mix C P m a = Ok z -> zero_flags z = [false; false].
Proof.
  intros Cm Ca Im Fm Ia Lma Z. assert (Al : align_two_irreps s01 [(num_irreps s01, Irrep 0 Even)] = Ok (s01, [(1, Irrep 0 Even); (1, Irrep 0 Even)])) by reflexivity.
  destruct (mix_unfold C P gm Odd s01 _ _ MO Al m a Cm Ca Im Ia Lma) as (y & E & Cy & Iy & Ly & Fy & _). rewrite E in Z. set (m' := zero_like s01 [] [false; false]). set (y' := zero_like [(2, Irrep 0 Even)] [] [false]). destruct (zero_like_coherent s01 [] [false; false] eq_refl) as [Cm' Fm']. destruct (zero_like_coherent [(2, Irrep 0 Even)] [] [false] eq_refl) as [Cy' Fy'].
  assert (Km : kin m m') by (constructor; auto; congruence). assert (Ky : kin y y') by (constructor; auto; congruence).
  destruct (elementwise_tensor_product clebsch_gordan NComponent None m' y') as [z'|] eqn:E'.
  - assert (Bm : broadcast_shapes (lead m) (lead y) = Ok (lead m)) by (rewrite Ly; apply broadcast_refl). assert (Al2 : align_two_irreps (irr m) (irr y) = Ok (s01, [(1, Irrep 0 Even); (1, Irrep 0 Even)])) by (rewrite Im, Iy; exact Al).
    rewrite (kin_flags _ _ (ew_kin clebsch_gordan m y m' y' (lead m) (lead m') z z' _ _ Km Ky Bm eq_refl Al2 Z E')).
    clear -E'. lazy -[Rmult Rdiv Rplus sqrt Rpower IZR INR Rinv Rlt_dec clebsch_gordan norm_factor] in E'. injection E' as <-. reflexivity.
  - exfalso. clear -E'. lazy -[Rmult Rdiv Rplus sqrt Rpower IZR INR Rinv Rlt_dec clebsch_gordan norm_factor] in E'. discriminate.
Qed.
Lemma up_ok L : layer_for (default_linear C s0) (zero_like s0 [] [false]) = Ok L -> supplies (p_up P) [] L.
Proof. intros EL. lazy -[Rmult Rdiv Rplus sqrt Rpower IZR INR Rinv Rlt_dec] in EL. injection EL as <-. intros o Ho e He. cbn in Ho. destruct Ho as [<-|[]]. reflexivity. Qed.
Lemma down_ok L : layer_for (default_linear C s01) (zero_like s01 [] [false; false]) = Ok L -> supplies (p_down P) [] L.
Proof. intros EL. lazy -[Rmult Rdiv Rplus sqrt Rpower IZR INR Rinv Rlt_dec] in EL. injection EL as <-. intros o Ho e He. cbn in Ho. destruct Ho as [<-|[<-|[]]]; reflexivity. Qed.
(* the whole layer on graphs with one scalar per node *)
Lemma form01 : exists L L', layer_for (default_linear C s0) (zero_like s0 [] [false]) = Ok L /\ layer_for (default_linear C s01) (zero_like s01 [] [false; false]) = Ok L' /\
  gather_form C P Odd s0 [false] s01 [false; false] (fun row v => edge_row C P gm Odd s0 s01 [(1, Irrep 0 Even); (1, Irrep 0 Even)] (module_row C s0 s0 [false] (p_up P) L row) v) /\
  conv_form C P Odd s0 [false] s01 (fun row v => edge_row C P gm Odd s0 s01 [(1, Irrep 0 Even); (1, Irrep 0 Even)] (module_row C s0 s0 [false] (p_up P) L row) v) s01 (module_row C s01 s01 [false; false] (p_down P) L').
Proof.
  destruct (gather_explicit C P gm Odd s0 [false] EO MO ltac:(discriminate) eq_refl up_ok ltac:(discriminate)) as (L & u0 & w0 & fla & EL & Al & GF). change (up_irreps C s0 [false]) with s0 in *.
  assert (Al0 : align_two_irreps (regroup_irreps (comb_irreps C Odd s0)) [(num_irreps (regroup_irreps (comb_irreps C Odd s0)), Irrep 0 Even)] = Ok (s01, [(1, Irrep 0 Even); (1, Irrep 0 Even)])) by reflexivity.
  rewrite Al0 in Al. injection Al as <- <-. change (bil_out (ew_paths NComponent None s01 [(1, Irrep 0 Even); (1, Irrep 0 Even)])) with s01 in GF.
  assert (Fl : fla = [false; false]).
  { set (pos := zero_like (vec Odd) [0] [false]). set (feats := zero_like s0 [0] [false]). destruct (zero_like_coherent (vec Odd) [0] [false] eq_refl) as [Cp Fp]. destruct (zero_like_coherent s0 [0] [false] eq_refl) as [Cf Ff]. fold pos in Cp, Fp. fold feats in Cf, Ff.
    assert (G : graph Odd s0 [false] pos feats 0 0 (fun _ => 0%Z) (fun _ => 0%Z)) by (constructor; auto; intros; lia). destruct (gf_run _ _ _ _ _ _ _ _ GF _ _ _ _ _ _ G) as (agg & Eagg & _ & <- & _).
    destruct G as [_ _ Ip Lp Ix Fx Lx Hs Hr]. unfold conv_gather in Eagg. rewrite Lp, Lx, Ix in Eagg. cbn [length Nat.eqb assert bind] in Eagg.
    destruct (take_yields pos 0 0 (fun _ => 0%Z) Cp Lp Hr) as (a & Ea & Ia & Fa & La & Ca & _). rewrite Ea in Eagg. cbn [bind] in Eagg.
    destruct (proj2 (C22_add_sub_same_shape a a Ca Ca eq_refl eq_refl)) as (v & Ev & Iv & Lv & Cv & _). rewrite Ev in Eagg. cbn [bind] in Eagg. rewrite Ia, Ip in Iv. rewrite La in Lv.
    destruct (attrs_yields C Odd v EO Cv Iv) as (at_ & Eat & Iat & Lat & Cat & _). pose proof (attrs_flags C Odd v at_ EO Cv Iv Eat) as Fat. rewrite Eat in Eagg. cbn [bind] in Eagg. change (repeat false (S (length (shx C Odd)))) with [false; false] in Fat.
    destruct (module_call (default_linear C s0) (p_up P) NoWeights feats) as [h|] eqn:Eh; [|discriminate]. cbn [bind] in Eagg. pose proof (up_flags feats h Cf Ix Fx Eh) as Fh.
    assert (Yh : irr h = s0 /\ lead h = [0] /\ coherent h). { destruct (yields_inv _ _ _ _ _ Eh (module_yields C s0 s0 [false] (p_up P) L EL (up_ok L EL) feats Cf Ix Fx)) as (Q1 & Q2 & Q3 & _). auto. } destruct Yh as (Ih & Lh & Ch).
    destruct (take_yields h 0 0 (fun _ => 0%Z) Ch Lh Hs) as (ms & Ems & Im & Fm & Lm & Cm & _). rewrite Ems in Eagg. cbn [bind] in Eagg. rewrite Ih in Im. rewrite Fh in Fm.
    assert (Lma : lead ms = lead at_) by congruence. destruct (conv_combine C ms at_) as [c|] eqn:Ec; [|discriminate]. cbn [bind] in Eagg. destruct (combine_flags ms at_ c Cm Cat Im Fm Iat Fat Lma Ec) as [Ic Fc].
    destruct (yields_inv _ _ _ _ _ Ec (combine_yields C Odd ms at_ ltac:(discriminate) Cm Cat Iat Lma)) as (_ & Lc & Cc & _).
    destruct (conv_mix C P c at_) as [q|] eqn:Eq; [|discriminate]. cbn [bind] in Eagg. assert (Lca : lead c = lead at_) by congruence. pose proof (mix_flags c at_ q Cc Cat Ic Fc Iat Lca Eq) as Fq.
    destruct (yields_inv _ _ _ _ _ Eq (mix_yields C P gm Odd s01 s01 [(1, Irrep 0 Even); (1, Irrep 0 Even)] MO eq_refl c at_ Cc Cat Ic Iat Lca)) as (Iq & Lq & Cq & _).
    destruct (scatter_edges q 0 0 (fun _ => 0%Z) s01 Cq ltac:(congruence) Iq Hr) as (y & Ey & Iy & Fy & Ly & Cy & _). rewrite Lh in Eagg. cbn [firstn] in Eagg. rewrite Iq in Eagg. change (bil_out (ew_paths NComponent None s01 [(1, Irrep 0 Even); (1, Irrep 0 Even)])) with s01 in Eagg.
    destruct (zeros s01 [0]) as [z0|]; [|discriminate]. cbn [bind] in *. rewrite Ey in Eagg. cbn [bind] in Eagg. destruct (div_rows y (sqrt (c_avg C)) Cy ltac:(rewrite Iy; discriminate)) as (g & Eg & _ & Fg & _). rewrite Eg in Eagg. injection Eagg as <-. congruence. }
  subst fla. destruct (conv_explicit C P Odd s0 [false] s01 [false; false] _ GF down_ok) as (L' & EL' & CF). exists L, L'. repeat (split; [assumption|]). exact CF.
Qed.
End Flags.

(* ---- the rows ---- *)
Lemma rp1 a : Rpower 1 a = 1%R. Proof. unfold Rpower. rewrite ln_1, Rmult_0_r. apply exp_0. Qed.
Lemma one_weight pn gn : Rpower (sqrt (if Rlt_dec 0 (Rpower 1 pn * (Rpower 1 (1 + - pn) + 0)) then 1 / (Rpower 1 pn * (Rpower 1 (1 + - pn) + 0)) else 1)) gn = 1%R.
Proof. rewrite !rp1. replace (1 * (1 + 0))%R with 1%R by ring. destruct (Rlt_dec 0 1); [|lra]. replace (1 / 1)%R with 1%R by lra. rewrite sqrt_1. apply rp1. Qed.
Lemma nf00 : norm_factor NComponent (Irrep 0 Even) (Irrep 0 Even) (Irrep 0 Even) = 1%R.
Proof. unfold norm_factor. change (INR (ir_dim (Irrep 0 Even))) with 1%R. apply sqrt_1. Qed.
Lemma nf1 a b : norm_factor NComponent a b (Irrep 1 Odd) = sqrt 3.
Proof. unfold norm_factor. f_equal. cbn. lra. Qed.
Lemma s3 : (sqrt 3 * / sqrt 3 = 1)%R.
Proof. apply Rinv_r. intros H. apply sqrt_eq_0 in H; lra. Qed.
Lemma cgl j k : j < 3 -> k < 3 -> sh_cg 0 1 1 0 j k = if j =? k then (/ sqrt 3)%R else 0%R.
Proof. intros Hj Hk. pose proof (cg_scalar_coupling_l 1 j k Hj Hk) as H. change (clebsch_gordan 0 1 1 0 j k) with (sh_cg 0 1 1 0 j k) in H. rewrite H. destruct (j =? k); [|reflexivity]. f_equal. f_equal. cbn. lra. Qed.
Lemma cgr j k : j < 3 -> k < 3 -> sh_cg 1 0 1 j 0 k = if j =? k then (/ sqrt 3)%R else 0%R.
Proof. intros Hj Hk. pose proof (cg_scalar_coupling 1 j k Hj Hk) as H. change (clebsch_gordan 1 0 1 j 0 k) with (sh_cg 1 0 1 j 0 k) in H. rewrite H. destruct (j =? k); [|reflexivity]. f_equal. f_equal. cbn. lra. Qed.
Lemma cg0 : sh_cg 0 0 0 0 0 0 = 1%R.
Proof. pose proof (cg_scalar_coupling 0 0 0 ltac:(lia) ltac:(lia)) as H. change (clebsch_gordan 0 0 0 0 0 0) with (sh_cg 0 0 0 0 0 0) in H. rewrite H. cbn. rewrite sqrt_1. lra. Qed.
Section Rows.
Variables (B : R -> list R) (w : nat) (avg : R) (neurons : list nat) (act : R -> R) (auto : option (list keyword)) (pn gn : R) (conf : registry) (pts : list R) (u d : R) (mp : mlp_params) (gm : R).
Let C := conv01 B w avg neurons act auto pn gn conf pts.
Let P := params01 u d mp.
Lemma up_row L x : layer_for (default_linear C s0) (zero_like s0 [] [false]) = Ok L -> module_row C s0 s0 [false] (p_up P) L [x] = [(u * x)%R].
Proof.
  intros EL. lazy -[Rmult Rdiv Rplus sqrt Rpower IZR INR Rinv Rlt_dec] in EL. injection EL as <-.
  lazy -[Rmult Rdiv Rplus sqrt Rpower IZR INR Rinv Rlt_dec]. change (INR 1) with 1%R. rewrite one_weight. f_equal. ring.
Qed.
Lemma down_row L x y z t : layer_for (default_linear C s01) (zero_like s01 [] [false; false]) = Ok L -> module_row C s01 s01 [false; false] (p_down P) L [x; y; z; t] = [(d * x)%R; (d * y)%R; (d * z)%R; (d * t)%R].
Proof.
  intros EL. lazy -[Rmult Rdiv Rplus sqrt Rpower IZR INR Rinv Rlt_dec] in EL. injection EL as <-.
  lazy -[Rmult Rdiv Rplus sqrt Rpower IZR INR Rinv Rlt_dec]. change (INR 1) with 1%R. rewrite one_weight. f_equal; [ring|f_equal; [ring|f_equal; [ring|f_equal; ring]]].
Qed.
Lemma mixed01 row q0 q1 a b c e : mix_row C P gm 2 (firstn w row) = [q0; q1] -> mixed_row C P gm 2 s01 [(1, Irrep 0 Even); (1, Irrep 0 Even)] [a; b; c; e] row = [a * q0; b * q1; c * q1; e * q1]%R.
Proof.
  intros Q. unfold mixed_row. change (c_width C) with w. rewrite Q.
  lazy -[Rmult Rdiv Rplus sqrt Rpower IZR INR Rinv Rlt_dec clebsch_gordan norm_factor sh_cg]. rewrite nf00, nf1, cg0, !cgr by lia. cbn [Nat.eqb]. pose proof s3 as S.
  f_equal; [ring|f_equal; [|f_equal; [|f_equal]]].
  - transitivity (sqrt 3 * / sqrt 3 * (b * q1))%R; [ring|rewrite S; ring].
  - transitivity (sqrt 3 * / sqrt 3 * (c * q1))%R; [ring|rewrite S; ring].
  - transitivity (sqrt 3 * / sqrt 3 * (e * q1))%R; [ring|rewrite S; ring].
Qed.
Lemma comb01 x a b c : comb_row C Odd s0 [x] [a; b; c] = [x; x * a; x * b; x * c]%R.
Proof.
  lazy -[Rmult Rdiv Rplus sqrt Rpower IZR INR Rinv Rlt_dec clebsch_gordan norm_factor sh_cg]. rewrite nf1, !cgl by lia. cbn [Nat.eqb]. pose proof s3 as S.
  f_equal. f_equal; [|f_equal; [|f_equal]].
  - transitivity (sqrt 3 * / sqrt 3 * (x * a))%R; [ring|rewrite S; ring].
  - transitivity (sqrt 3 * / sqrt 3 * (x * b))%R; [ring|rewrite S; ring].
  - transitivity (sqrt 3 * / sqrt 3 * (x * c))%R; [ring|rewrite S; ring].
Qed.
Lemma edge01 x v q0 q1 : length (B (distance v)) = w -> mix_row C P gm 2 (B (distance v)) = [q0; q1] ->
  edge_row C P gm Odd s0 s01 [(1, Irrep 0 Even); (1, Irrep 0 Even)] [x] v = [x * q0; x * value Component true v 1 0 * q1; x * value Component true v 1 1 * q1; x * value Component true v 1 2 * q1]%R.
Proof.
  intros LB Q. unfold edge_row. change (num_irreps (regroup_irreps (comb_irreps C Odd s0))) with 2. change (sh_row C Odd v) with [value Component true v 1 0; value Component true v 1 1; value Component true v 1 2]. rewrite comb01. apply mixed01.
  change (c_radial C (distance v)) with (B (distance v)). rewrite firstn_app, LB, Nat.sub_diag. cbn [firstn]. rewrite app_nil_r, <- LB, firstn_all. exact Q.
Qed.
End Rows.
