(* C63: what the layer computes for scalar features, in closed form. *)
From Coq Require Import Reals Lra Lia List Arith Bool ZArith Permutation.
From Verif Require Import PyBase PermModel PermProofs IrrepsModel IrrepsProofs IrrepsProofs2 ArrayModel ArrayProofs ArrayOps RechunkProofs ArithProofs LeadModel LeadProofs BlockProofs AxisProofs StackProofs BilinProofs ActProofs EquivProofs EquivProofs2 NormModel SumR EntryProofs ArrayProps2 ArrayProps3 TPModel TPProofs TPProofs2 TPProofs3 TPProps TPProps2 GradProofs CGModel RotationModel WignerModel WignerProofs WignerProofs2 WignerProps WignerProps2 S2Model SHModel SHProofs SHProofs2 SHProps ScatterModel ScatterProps RtpPerm GateProofs ActivationProps LinearModel LinearProofs LinearProps LinModModel LinModProofs LinModProofs2 ActivationModel MlpModel MlpProps ConvModel ConvProofs ConvProofs2 ConvProofs3 ConvProofs4 ConvProofs5 ConvProofs6 ConvProps ConvProps2 ConvProps4.
Import ListNotations.
Open Scope nat_scope.

(* the k-th coordinate of the vector from the sender to the receiver of edge e, and the length of that vector *)
Definition edge_vector (pos : iarray) (N : nat) (sn rc : nat -> Z) (e k : nat) : R := (nth k (arr pos [node N (rc e)]) 0 - nth k (arr pos [node N (sn e)]) 0)%R.
Definition edge_length (pos : iarray) (N : nat) (sn rc : nat -> Z) (e : nat) : R := sqrt (edge_vector pos N sn rc e 0 ^ 2 + edge_vector pos N sn rc e 1 ^ 2 + edge_vector pos N sn rc e 2 ^ 2)%R.
Definition feature (feats : iarray) (N : nat) (sn : nat -> Z) (e : nat) : R := nth 0 (arr feats [node N (sn e)]) 0%R.
Definition edges_into (N E : nat) (rc : nat -> Z) (i : nat) : list nat := filter (fun e => node N (rc e) =? i) (seq 0 E).

Lemma distance3 a b c : distance [a; b; c] = sqrt (a ^ 2 + b ^ 2 + c ^ 2).
Proof.
  unfold distance, norm_row, safe_sqrt, dotR. cbn [zipR combine map fold_right]. replace (a * a + (b * b + (c * c + 0)))%R with (a ^ 2 + b ^ 2 + c ^ 2)%R by ring. destruct (Req_EM_T _ 0) as [E|E]; [now rewrite E, sqrt_0|reflexivity].
Qed.
Lemma value1 a b c j : j < 3 -> value Component true [a; b; c] 1 j = (sqrt 3 * (nth j [a; b; c] 0 / sqrt (a ^ 2 + b ^ 2 + c ^ 2)))%R.
Proof.
  intros Hj. unfold value. rewrite P_1. unfold kappa, fn. replace (2 * INR 1 + 1)%R with 3%R by (cbn; lra). f_equal. unfold normalized. assert (Q : lsum [a; b; c] (fun t => t ^ 2)%R = (a ^ 2 + b ^ 2 + c ^ 2)%R) by (unfold lsum; cbn [fold_right map]; ring). cbv zeta. rewrite Q.
  destruct (Req_EM_T (a ^ 2 + b ^ 2 + c ^ 2) 0) as [E|E].
  - assert (a = 0 /\ b = 0 /\ c = 0)%R as (-> & -> & ->). { pose proof (pow2_ge_0 a). pose proof (pow2_ge_0 b). pose proof (pow2_ge_0 c). assert (G : (forall t, t ^ 2 = 0 -> t = 0)%R) by (intros t Ht; apply Rsqr_0_uniq; unfold Rsqr; rewrite <- Ht; ring). repeat split; apply G; lra. }
    destruct j as [|[|[|]]]; cbn [nth map]; unfold Rdiv; try ring. lia.
  - destruct j as [|[|[|]]]; cbn [nth map]; try reflexivity. lia.
Qed.
Lemma rows_sum (F0 F1 F2 F3 : nat -> R) (l : list nat) : rowsum 4 (map (fun e => [F0 e; F1 e; F2 e; F3 e]) l) = [lsum l F0; lsum l F1; lsum l F2; lsum l F3].
Proof. induction l as [|e l IH]; [reflexivity|]. cbn [map]. rewrite rowsum_cons, IH. reflexivity. Qed.
(* features with one scalar per node, target 0e + 1o, harmonics of degree 1, the default normalisations: u is the parameter of linear_up, d the parameters of linear_down, f what the MLP computes.
   Component 0 sums f_0(B(r)) x over the incoming edges, components 1..3 sum f_1(B(r)) x sqrt(3) (unit vector from the sender to the receiver); for nodes at the same place the unit vector is read as 0 (in Coq 0 / 0 = 0). *)
Theorem C63_value B w avg neurons act auto pn gn conf pts u d mp gm f pos feats N E sn rc : (forall r, length (B r) = w) -> w <> 0 -> Forall (fun n => n <> 0) neurons -> SHProps.usable auto None [(1, Irrep 1 Odd)] -> gradient_number conf None = Ok gm ->
  (forall q, length q = w -> exists b, mlp_call conf pts (Mlp (neurons ++ [2]) (Some act) None OFalse false) mp (MBare [] w (fun _ => q)) = Ok (MBare [] 2 b) /\ b [] = f q) ->
  nodes_edges pos feats N E sn rc -> irr pos = [(1, Irrep 1 Odd)] -> irr feats = [(1, Irrep 0 Even)] -> zero_flags feats = [false] ->
  exists z, conv_call (Conv [(1, Irrep 0 Even); (1, Irrep 1 Odd)] B w avg 1 neurons act NComponent Component auto pn gn conf pts) (ConvParams (fun _ _ => [u]) mp (fun _ _ => [d])) pos feats E sn rc = Ok z /\
    irr z = [(1, Irrep 0 Even); (1, Irrep 1 Odd)] /\ lead z = [N] /\ forall i, i < N ->
    nth 0 (arr z [i]) 0%R = (d * u / sqrt avg * lsum (edges_into N E rc i) (fun e => nth 0 (f (B (edge_length pos N sn rc e))) 0 * feature feats N sn e))%R /\
    forall k, k < 3 -> nth (1 + k) (arr z [i]) 0%R = (d * u / sqrt avg * lsum (edges_into N E rc i) (fun e => nth 1 (f (B (edge_length pos N sn rc e))) 0 * feature feats N sn e * (sqrt 3 * (edge_vector pos N sn rc e k / edge_length pos N sn rc e))))%R.
Proof.
  intros HB Hw Hn U G Hf NE Ip Ix Fx. set (C := conv01 B w avg neurons act auto pn gn conf pts). set (P := params01 u d mp).
  assert (EO : edge_ok C Odd) by (constructor; [exact HB|exact Hw|right; exact U]). assert (MO : mix_ok C gm) by (constructor; [exact G|exact Hn|exact Hw]).
  destruct (form01 B w avg neurons act auto pn gn conf pts u d mp gm EO MO) as (L & L' & EL & EL' & _ & CF). fold C P in CF.
  destruct (cf_run _ _ _ _ _ _ _ _ _ CF pos feats N E sn rc) as (z & Ez & Iz & Lz & Cz & Az); [apply to_graph; auto|]. exists z. split; [exact Ez|]. split; [exact Iz|]. split; [exact Lz|]. intros i Hi. rewrite Az by exact Hi. destruct NE as [Cp Cf Lp Lf Hs Hr].
  set (X0 := fun e => (u * (nth 0 (f (B (edge_length pos N sn rc e))) 0 * feature feats N sn e))%R). set (X := fun k e => (u * (nth 1 (f (B (edge_length pos N sn rc e))) 0 * feature feats N sn e * (sqrt 3 * (edge_vector pos N sn rc e k / edge_length pos N sn rc e))))%R).
  assert (Q : map (fun e => edge_row C P gm Odd s0 s01 [(1, Irrep 0 Even); (1, Irrep 0 Even)] (module_row C s0 s0 [false] (p_up P) L (arr feats [node N (sn e)])) (rel pos N sn rc e)) (incoming N E rc i) = map (fun e => [X0 e; X 0 e; X 1 e; X 2 e]) (edges_into N E rc i)).
  { unfold incoming, edges_into. apply map_ext_in. intros e He. apply filter_In in He as [He _]. apply in_seq in He. assert (He' : e < E) by lia. assert (Q1 : node N (sn e) < N) by apply (node_spec N (sn e) (Hs e He')). assert (Q2 : node N (rc e) < N) by apply (node_spec N (rc e) (Hr e He')).
    assert (Lx : length (arr feats [node N (sn e)]) = 1) by (rewrite (proj1 Cf) by (rewrite Lf; constructor; [exact Q1|constructor]); rewrite Ix; reflexivity). unfold X0, X, feature. destruct (arr feats [node N (sn e)]) as [|x [|]]; try discriminate. cbn [nth].
    rewrite (up_row B w avg neurons act auto pn gn conf pts u d mp L x EL : module_row C s0 s0 [false] (p_up P) L [x] = [(u * x)%R]). unfold rel, edge_length, edge_vector. pose proof (row3 pos Odd N Cp Ip Lp _ Q1) as R1. pose proof (row3 pos Odd N Cp Ip Lp _ Q2) as R2.
    destruct (arr pos [node N (rc e)]) as [|a0 [|a1 [|a2 [|]]]]; try discriminate. destruct (arr pos [node N (sn e)]) as [|b0 [|b1 [|b2 [|]]]]; try discriminate. cbn [zipR combine map nth].
    set (v := [(a0 - b0)%R; (a1 - b1)%R; (a2 - b2)%R]). pose proof (distance3 (a0 - b0) (a1 - b1) (a2 - b2)) as Dv. fold v in Dv. destruct (Hf (B (distance v)) (HB _)) as (b & Eb & Fb).
    unfold mlp_call in Eb. cbn [m_gradient] in Eb. rewrite G in Eb. cbn [bind list_neurons m_act m_with_bias output_activation m_output option_map] in Eb.
    rewrite layers_rows in Eb by (intros _; rewrite removelast_last; constructor; assumption). cbn [bind fst snd] in Eb. injection Eb as _ Eb. pose proof (f_equal (fun g => g []) Eb) as Eb'. cbv beta in Eb'. rewrite Fb in Eb'.
    assert (Mx : mix_row C P gm 2 (B (distance v)) = f (B (distance v))) by exact Eb'. assert (LM : length (f (B (distance v))) = 2) by (rewrite <- Mx; apply mix_len; apply HB).
    rewrite <- Dv. destruct (f (B (distance v))) as [|q0 [|q1 [|]]] eqn:Ef; try discriminate LM.
    pose proof (edge01 B w avg neurons act auto pn gn conf pts u d mp gm (u * x)%R v q0 q1 (HB _) Mx) as ER. fold C P in ER. rewrite ER. unfold v. rewrite !value1 by lia. rewrite <- Dv. cbn [nth]. unfold v. f_equal; [ring|f_equal; [ring|f_equal; [ring|f_equal; ring]]]. }
  rewrite Q. unfold total. change (dim s01) with 4. rewrite rows_sum. cbn [map]. pose proof (down_row B w avg neurons act auto pn gn conf pts u d mp L') as DR. fold C P in DR. rewrite DR by exact EL'. change (c_avg C) with avg. unfold X0, X.
  split; [cbn [nth]; rewrite lsum_scal; unfold Rdiv; ring|]. intros k Hk. destruct k as [|[|[|]]]; [| | |lia]; cbn [nth Nat.add]; rewrite lsum_scal; unfold Rdiv; ring.
Qed.

(* two nodes a unit apart, one edge from the first to the second, one radial function r, an MLP that doubles it for the second channel *)
Definition ex_pos : iarray := IA [(1, Irrep 1 Odd)] [2] (fun i => [0; 0; INR (hd 0%nat i)]%R) None None.
Definition ex_feats : iarray := IA [(1, Irrep 0 Even)] [2] (fun i => [5]%R) None None.
Definition ex_mlp : mlp_params := fun _ => (fun _ j => INR (1 + j), fun _ => 0)%R.
Definition ex_conv : conv := Conv [(1, Irrep 0 Even); (1, Irrep 1 Odd)] (fun r => [r]) 1 4 1 [] (fun t => t) NComponent Component None 1 1 default_conf [].
Definition ex_params : conv_params := ConvParams (fun _ _ => [2]%R) ex_mlp (fun _ _ => [3]%R).
Example C63_nonvacuous : settings ex_conv /\ nodes_edges ex_pos ex_feats 2 1 (fun _ => 0%Z) (fun _ => (-1)%Z) /\ fits ex_conv ex_params ex_pos ex_feats 1 (fun _ => 0%Z) (fun _ => (-1)%Z) /\
  exists z, conv_call ex_conv ex_params ex_pos ex_feats 1 (fun _ => 0%Z) (fun _ => (-1)%Z) = Ok z /\ irr z = [(1, Irrep 0 Even); (1, Irrep 1 Odd)] /\ lead z = [2] /\ nth 0 (arr z [1]) 0%R = 15%R /\ nth 3 (arr z [1]) 0%R = (30 * sqrt 3)%R /\ nth 3 (arr z [0]) 0%R = 0%R.
Proof.
  assert (Q4 : sqrt 4 = 2%R) by (replace 4%R with (2 * 2)%R by lra; apply sqrt_square; lra).
  assert (S0 : settings ex_conv) by (constructor; [reflexivity|discriminate|constructor|discriminate]).
  assert (Cp : coherent ex_pos) by apply (fresh_chunks [(1, Irrep 1 Odd)] [2] (fun i => [0; 0; INR (hd 0%nat i)]%R) (fun _ _ => eq_refl)). assert (Cf : coherent ex_feats) by apply (fresh_chunks [(1, Irrep 0 Even)] [2] (fun i => [5]%R) (fun _ _ => eq_refl)).
  assert (NE : nodes_edges ex_pos ex_feats 2 1 (fun _ => 0%Z) (fun _ => (-1)%Z)) by (constructor; auto; intros; lia).
  assert (G : gradient_number default_conf None = Ok 1%R) by reflexivity.
  assert (EO : edge_ok ex_conv Odd) by (constructor; [reflexivity|discriminate|right; exact Logic.I]). assert (MO : mix_ok ex_conv 1) by (constructor; [exact G|constructor|discriminate]).
  split; [exact S0|]. split; [exact NE|]. split.
  - destruct (form01 (fun r => [r]) 1 4 [] (fun t => t) None 1 1 default_conf [] 2 3 ex_mlp 1 EO MO) as (L & L' & EL & EL' & GF & _). split.
    + intros L0 E0. unfold layer_for in E0. lazy -[Rmult Rdiv Rplus sqrt Rpower IZR INR Rinv Rlt_dec] in E0. injection E0 as <-. intros o Ho e _. cbn in Ho. destruct Ho as [<-|[]]. reflexivity.
    + intros agg L0 Ea E0. destruct (gf_run _ _ _ _ _ _ _ _ GF ex_pos ex_feats 2 1 (fun _ => 0%Z) (fun _ => (-1)%Z)) as (agg' & Eq & Ig & Fg & _); [apply to_graph; auto|]. change (conv_gather ex_conv ex_params ex_pos ex_feats 1 (fun _ => 0%Z) (fun _ => (-1)%Z) = Ok agg') in Eq. rewrite Ea in Eq. injection Eq as <-.
      unfold layer_for in E0. destruct (alike_irreps ex_conv s01 s01 [false; false] agg Ig Fg) as (Q1 & Q2 & _). change (c_target ex_conv) with s01 in E0. rewrite Q1, Q2 in E0. lazy -[Rmult Rdiv Rplus sqrt Rpower IZR INR Rinv Rlt_dec] in E0. injection E0 as <-. intros o Ho e _. cbn in Ho. destruct Ho as [<-|[<-|[]]]; reflexivity.
  - destruct (C63_value (fun r => [r]) 1 4 [] (fun t => t) None 1 1 default_conf [] 2 3 ex_mlp 1 (fun q => [nth 0 q 0; 2 * nth 0 q 0]%R) ex_pos ex_feats 2 1 (fun _ => 0%Z) (fun _ => (-1)%Z)) as (z & Ez & Iz & Lz & V); auto; [exact Logic.I| |].
    + intros q Lq. unfold mlp_call. cbn [m_gradient]. rewrite G. cbn [bind list_neurons app mlp_layers Nat.eqb fst snd]. eexists. split; [reflexivity|]. destruct q as [|q0 [|]]; try discriminate. cbn [nth]. unfold dense, rsum. cbn. replace (1 / 1)%R with 1%R by field. rewrite sqrt_1, rp1. f_equal; [ring|]. f_equal. ring.
    + exists z. split; [exact Ez|]. split; [exact Iz|]. split; [exact Lz|]. destruct (V 1 ltac:(lia)) as [V0 V1]. destruct (V 0 ltac:(lia)) as [_ W1]. pose proof (V1 2 ltac:(lia)) as V2. pose proof (W1 2 ltac:(lia)) as W2. cbn [Nat.add] in V2, W2. rewrite V0, V2, W2.
      change (edges_into 2 1 (fun _ => (-1)%Z) 1) with [0]. change (edges_into 2 1 (fun _ => (-1)%Z) 0) with (@nil nat). unfold lsum. cbn [fold_right map].
      assert (EV : forall k, edge_vector ex_pos 2 (fun _ => 0%Z) (fun _ => (-1)%Z) 0 k = (nth k [0; 0; 1] 0 - nth k [0; 0; 0] 0)%R) by reflexivity.
      assert (D : edge_length ex_pos 2 (fun _ => 0%Z) (fun _ => (-1)%Z) 0 = 1%R) by (transitivity (sqrt 1); [unfold edge_length; rewrite !EV; cbn [nth]; f_equal; ring|apply sqrt_1]).
      assert (D2 : edge_vector ex_pos 2 (fun _ => 0%Z) (fun _ => (-1)%Z) 0 2 = 1%R) by (rewrite EV; cbn [nth]; ring). assert (D3 : feature ex_feats 2 (fun _ => 0%Z) 0 = 5%R) by reflexivity.
      rewrite D, D2, D3, Q4. cbn [nth]. split; [field|]. split; [field|ring].
Qed.
