From Coq Require Import Reals Lra Lia List Arith Bool ZArith Permutation.
From Verif Require Import PyBase PermModel PermProofs IrrepsModel IrrepsProofs IrrepsProofs2 IrrepsStr ArrayModel ArrayProofs ArrayOps RechunkProofs ArithProofs LeadModel LeadProofs BlockProofs AxisProofs StackProofs BilinProofs ActProofs EquivProofs EquivProofs2 NormModel SumR EntryProofs ArrayProps2 ArrayProps3 TPModel TPProofs TPProofs2 StableSort TPProofs3 TPProps TPProps2 GradProofs CGModel RotationModel WignerModel WignerProofs WignerProofs2 WignerProps S2Model SHModel S2Proofs2 SHProps SHProps3 ScatterModel ScatterProps NormProofs LinearModel LinearProofs LinearProps LinearComplete LinModModel LinModProofs LinModProofs2 LinModProps ActivationModel MlpModel MlpProps ConvModel ConvProofs ConvProofs2 ConvProofs3 ConvProofs4 ConvProofs5 ConvProofs6 ConvProps ConvProps2 ConvProps3 TransformerModel TransformerProofs TransformerProofs2 TransformerProofs3 TransformerProofs4 TransformerProps TransformerProps2 TransformerProps3 TransformerProps4 TransformerProps5 ActivationProps ConvProps4 ConvProps5.
Import ListNotations.
Open Scope nat_scope.


(* one scalar per node, a scalar and a vector per edge, target 0e + 1o, one head, MLPs without hidden layer *)
Definition x0 : irreps := [(1, Irrep 0 Even)].
Definition y01 : irreps := [(1, Irrep 0 Even); (1, Irrep 1 Odd)].
Definition net01 (pn gn : R) : attention_net := AttentionNet y01 [] (fun t => t) 1 NComponent pn gn default_conf [].
Definition weights01 (k q : R) (v : nat -> R) (d : R) : transformer_params := TParams (fun _ => (fun _ _ => k, fun _ => 0%R)) (fun _ _ => [q]) (fun _ => (fun _ j => v j, fun _ => 0%R)) (fun _ _ => [d]).
Section Concrete.
Variables (pn gn k q : R) (v : nat -> R) (d : R).
Let T := net01 pn gn.
Let P := weights01 k q v d.
Lemma grad01 : gradient_number (t_conf T) None = Ok 1%R. Proof. reflexivity. Qed.
Lemma f_ok_key : f_ok T 1 x0 x0 y01.
Proof. constructor; [discriminate| |discriminate]. constructor; [reflexivity|constructor|discriminate]. Qed.
Lemma f_ok_val : f_ok T 1 y01 x0 y01.
Proof. constructor; [discriminate| |discriminate]. constructor; [reflexivity|constructor|discriminate]. Qed.
Lemma key_flags fk : step2k (tf_f T (q_key P) x0) x0 [false] y01 [false; false] (f_irreps T x0 x0 y01) fk (f_row T (q_key P) 1 x0 x0 y01) -> fk = [false].
Proof.
  intros St. destruct (zero_like_coherent x0 [] [false] eq_refl) as [C1 F1]. destruct (zero_like_coherent y01 [] [false; false] eq_refl) as [C2 F2].
  destruct (St _ _ C1 C2 eq_refl F1 eq_refl F2 eq_refl) as (z & Ez & _ & <- & _). cbv beta in Ez.
  lazy -[Rmult Rdiv Rplus sqrt Rpower IZR INR Rinv Rlt_dec clebsch_gordan norm_factor] in Ez. injection Ez as <-. reflexivity.
Qed.
Lemma tq_flags ft : (forall a b t, coherent a -> coherent b -> irr a = x0 -> irr b = x0 -> zero_flags a = [false] -> zero_flags b = [false] -> lead a = lead b -> tensor_product clebsch_gordan (t_inorm T) (Some [Irrep 0 Even]) true a b = Ok t -> irr t = tq T x0 x0 /\ zero_flags t = ft) -> ft = [false].
Proof.
  intros H. destruct (zero_like_coherent x0 [] [false] eq_refl) as [C1 F1].
  destruct (tensor_product clebsch_gordan (t_inorm T) (Some [Irrep 0 Even]) true (zero_like x0 [] [false]) (zero_like x0 [] [false])) as [t|] eqn:Et.
  - destruct (H _ _ t C1 C1 eq_refl eq_refl F1 F1 eq_refl Et) as [_ <-]. lazy -[Rmult Rdiv Rplus sqrt Rpower IZR INR Rinv Rlt_dec clebsch_gordan norm_factor] in Et. injection Et as <-. reflexivity.
  - exfalso. lazy -[Rmult Rdiv Rplus sqrt Rpower IZR INR Rinv Rlt_dec clebsch_gordan norm_factor] in Et. discriminate.
Qed.
Lemma one_dense : Rpower (sqrt (1 / INR 1)) 1 = 1%R.
Proof. change (INR 1) with 1%R. replace (1 / 1)%R with 1%R by field. rewrite sqrt_1. apply rp1. Qed.
Lemma key_row x a b c e : f_row T (q_key P) 1 x0 x0 y01 [x] [a; b; c; e] = [(x * (a * k))%R].
Proof.
  lazy -[Rmult Rdiv Rplus sqrt Rpower IZR INR Rinv Rlt_dec clebsch_gordan norm_factor sh_cg]. rewrite nf00, cg0, one_dense. f_equal. ring.
Qed.
Lemma val_row x a b c e : f_row T (q_val P) 1 y01 x0 y01 [x] [a; b; c; e] = [x * (a * v 0%nat); x * b * (a * v 1%nat); x * c * (a * v 1%nat); x * e * (a * v 1%nat)]%R.
Proof.
  lazy -[Rmult Rdiv Rplus sqrt Rpower IZR INR Rinv Rlt_dec clebsch_gordan norm_factor sh_cg]. rewrite nf00, !nf1, cg0, !cgl, !cgr by lia. cbn [Nat.eqb]. rewrite one_dense. pose proof s3 as S3.
  f_equal; [ring|f_equal; [|f_equal; [|f_equal]]].
  - transitivity ((sqrt 3 * / sqrt 3) * (sqrt 3 * / sqrt 3) * (x * b * (a * v 1%nat)))%R; [ring|rewrite S3; ring].
  - transitivity ((sqrt 3 * / sqrt 3) * (sqrt 3 * / sqrt 3) * (x * c * (a * v 1%nat)))%R; [ring|rewrite S3; ring].
  - transitivity ((sqrt 3 * / sqrt 3) * (sqrt 3 * / sqrt 3) * (x * e * (a * v 1%nat)))%R; [ring|rewrite S3; ring].
Qed.
Lemma tq_row01 x y : tq_row T x0 x0 [x] [y] = [(x * y)%R].
Proof. lazy -[Rmult Rdiv Rplus sqrt Rpower IZR INR Rinv Rlt_dec clebsch_gordan norm_factor sh_cg]. rewrite nf00, cg0. f_equal. ring. Qed.
Lemma query_layer L t : layer_for (default_linear (cv T) x0) (zero_like x0 [] [false]) = Ok L -> supplies (q_logit P) [] L /\ module_row (cv T) x0 x0 [false] (q_logit P) L [t] = [(q * t)%R].
Proof.
  intros EL. lazy -[Rmult Rdiv Rplus sqrt Rpower IZR INR Rinv Rlt_dec] in EL. injection EL as <-. split.
  - intros o Ho e _. cbn in Ho. destruct Ho as [<-|[]]. reflexivity.
  - lazy -[Rmult Rdiv Rplus sqrt Rpower IZR INR Rinv Rlt_dec]. change (INR 1) with 1%R. rewrite one_weight. f_equal. ring.
Qed.
Lemma out_layer L x y z t : layer_for (default_linear (cv T) y01) (zero_like y01 [] [false; false]) = Ok L -> supplies (q_out P) [] L /\ module_row (cv T) y01 y01 [false; false] (q_out P) L [x; y; z; t] = [d * x; d * y; d * z; d * t]%R.
Proof.
  intros EL. lazy -[Rmult Rdiv Rplus sqrt Rpower IZR INR Rinv Rlt_dec] in EL. injection EL as <-. split.
  - intros o Ho e _. cbn in Ho. destruct Ho as [<-|[<-|[]]]; reflexivity.
  - lazy -[Rmult Rdiv Rplus sqrt Rpower IZR INR Rinv Rlt_dec]. change (INR 1) with 1%R. rewrite one_weight. f_equal; [ring|f_equal; [ring|f_equal; [ring|f_equal; ring]]].
Qed.
Lemma form01 : exists Lq Lo, layer_for (default_linear (cv T) x0) (zero_like x0 [] [false]) = Ok Lq /\ layer_for (default_linear (cv T) y01) (zero_like y01 [] [false; false]) = Ok Lo /\
  tform T P x0 [false] y01 [false; false] y01 (fun own row a => module_row (cv T) x0 x0 [false] (q_logit P) Lq (tq_row T x0 x0 own (f_row T (q_key P) 1 x0 x0 y01 row a))) (f_row T (q_val P) 1 y01 x0 y01) y01 (module_row (cv T) y01 y01 [false; false] (q_out P) Lo).
Proof.
  destruct (f_step T (q_key P) 1 x0 x0 y01 [false] [false; false] f_ok_key eq_refl eq_refl) as (fk & Lk & Ks). pose proof (key_flags fk Ks) as ->.
  destruct (logit_explicit T (q_logit P) x0 [false] x0 [false] ltac:(discriminate) eq_refl eq_refl) as (ft & Lft & Hft & HL). pose proof (tq_flags ft Hft) as ->.
  destruct HL as (Lq & flo & EL & LF); [intros L E; apply (query_layer L 0%R E)|].
  change (f_irreps T x0 x0 y01) with x0 in Ks.
  destruct (tform_explicit T P 1 x0 [false] y01 [false; false] [false] flo _ f_ok_key f_ok_val eq_refl eq_refl Ks LF ltac:(discriminate)) as (Lo & EO & TF).
  - constructor; [reflexivity|constructor; [reflexivity|constructor]].
  - intros L E. apply (out_layer L 0 0 0 0 E).
  - exists Lq, Lo. split; [exact EL|]. split; [exact EO|]. exact TF.
Qed.
Lemma weigh01 c a b e f : weigh 1 y01 [c] [a; b; e; f] = [a * c; b * c; e * c; f * c]%R.
Proof. lazy -[Rmult]. reflexivity. Qed.
(* the layer, in closed form: the feature x of a node is one number, the attributes of an edge a number a0 and a vector (a1, a2, a3); k, v0, v1 are the weights of the two MLPs, q of linear_logit, d of linear_out *)
Theorem C65_value feats attr N E src dst cutoff : nodes_links feats attr N E src dst -> irr feats = [(1, Irrep 0 Even)] -> zero_flags feats = [false] -> irr attr = [(1, Irrep 0 Even); (1, Irrep 1 Odd)] -> zero_flags attr = [false; false] -> (forall e, e < E -> (0 <= cutoff e)%R) ->
  exists z, transformer_call T P E src dst cutoff attr feats = Ok z /\ irr z = [(1, Irrep 0 Even); (1, Irrep 1 Odd)] /\ lead z = [N] /\ forall i, i < N ->
    let x n := nth 0 (arr feats [n]) 0%R in let from e := x (node N (src e)) in let a e j := nth j (arr attr [e]) 0%R in
    let edges := filter (fun e => node N (dst e) =? i) (seq 0 E) in
    let score e := (q * (x i * (from e * (a e 0%nat * k))))%R in
    let alpha e := (cutoff e * exp (score e) / lsum edges (fun f => cutoff f * exp (score f)))%R in
    nth 0 (arr z [i]) 0%R = (d * lsum edges (fun e => sqrt (alpha e) * (from e * (a e 0%nat * v 0%nat))))%R /\
    forall j, j < 3 -> nth (1 + j) (arr z [i]) 0%R = (d * lsum edges (fun e => sqrt (alpha e) * (from e * a e (1 + j)%nat * (a e 0%nat * v 1%nat))))%R.
Proof.
  intros NL Ix Fx Iy Fy C. destruct form01 as (Lq & Lo & EQ & EO & TF). pose proof (to_tgraph _ _ _ _ feats attr N E src dst NL Ix Fx Iy Fy) as G.
  destruct (tm_run _ _ _ _ _ _ _ _ _ _ _ TF feats attr N E src dst cutoff G) as (z & Ez & Iz & Lz & _ & Az). exists z. split; [exact Ez|]. split; [exact Iz|]. split; [exact Lz|]. intros i Hi. cbv zeta. rewrite Az by exact Hi.
  set (edges := filter (fun e => node N (dst e) =? i) (seq 0 E)). set (x := fun n => nth 0 (arr feats [n]) 0%R). set (a := fun e j => nth j (arr attr [e]) 0%R). set (score := fun e => (q * (x i * (x (node N (src e)) * (a e 0%nat * k))))%R). set (alpha := fun e => (cutoff e * exp (score e) / lsum edges (fun f => cutoff f * exp (score f)))%R).
  pose proof NL as [Cf Ca Lf La Hs Hd].
  assert (Rx : forall n, n < N -> arr feats [n] = [x n]). { intros n Hn. assert (Ln : length (arr feats [n]) = 1) by (rewrite (proj1 Cf) by (rewrite Lf; constructor; [exact Hn|constructor]); rewrite Ix; reflexivity). unfold x. destruct (arr feats [n]) as [|t [|]]; try discriminate. reflexivity. }
  assert (Ra : forall e, e < E -> arr attr [e] = [a e 0; a e 1; a e 2; a e 3]). { intros e He. assert (Ln : length (arr attr [e]) = 4) by (rewrite (proj1 Ca) by (rewrite La; constructor; [exact He|constructor]); rewrite Iy; reflexivity). unfold a. destruct (arr attr [e]) as [|t0 [|t1 [|t2 [|t3 [|]]]]]; try discriminate. reflexivity. }
  pose proof (inbox_cut feats attr N E src dst cutoff i C) as Ct.
  set (logit := fun own row att => module_row (cv T) x0 x0 [false] (q_logit P) Lq (tq_row T x0 x0 own (f_row T (q_key P) 1 x0 x0 y01 row att))) in *.
  assert (Sc : forall e, In e edges -> nth 0 (logit (arr feats [i]) (arr feats [node N (src e)]) (arr attr [e])) 0%R = score e).
  { intros e He. apply filter_In in He as [He _]. apply in_seq in He. unfold logit. rewrite (Rx i Hi), (Rx (node N (src e))) by (apply (node_spec N (src e) (Hs e ltac:(lia)))). rewrite (Ra e) by lia. rewrite key_row, tq_row01, (proj2 (query_layer Lq _ EQ)). reflexivity. }
  assert (Pl : pooled (t_heads T) y01 logit (f_row T (q_val P) 1 y01 x0 y01) (arr feats [i]) (inbox feats attr N E src dst cutoff i) =
    rowsum 4 (map (fun e => [sqrt (alpha e) * (x (node N (src e)) * (a e 0%nat * v 0%nat)); sqrt (alpha e) * (x (node N (src e)) * a e 1%nat * (a e 0%nat * v 1%nat)); sqrt (alpha e) * (x (node N (src e)) * a e 2%nat * (a e 0%nat * v 1%nat)); sqrt (alpha e) * (x (node N (src e)) * a e 3%nat * (a e 0%nat * v 1%nat))]%R) edges)).
  { unfold pooled. change (dim y01) with 4. f_equal. unfold inbox at 2. fold (incoming N E dst i). rewrite map_map. apply map_ext_in. intros e He. pose proof He as He'. apply filter_In in He' as [He' _]. apply in_seq in He'.
    assert (Hq : In (arr feats [node N (src e)], arr attr [e], cutoff e) (inbox feats attr N E src dst cutoff i)) by (unfold inbox; apply (in_map (fun e => (arr feats [node N (src e)], arr attr [e], cutoff e))); exact He).
    rewrite (shares_soft T logit (arr feats [i]) _ _ Ct Hq). unfold soft. change (seq 0 (t_heads T)) with [0]. cbn [map]. change (t_heads T) with 1. unfold note_src, note_attr, note_cut. cbn [fst snd].
    assert (Al : (cutoff e * exp (nth 0 (logit (arr feats [i]) (arr feats [node N (src e)]) (arr attr [e])) 0) / lsum (inbox feats attr N E src dst cutoff i) (fun p => snd p * exp (nth 0 (logit (arr feats [i]) (fst (fst p)) (snd (fst p))) 0)))%R = alpha e).
    { unfold alpha. rewrite Sc by exact He. f_equal. f_equal. unfold inbox. rewrite lsum_map. apply lsum_ext. intros f Hf. cbn [fst snd]. rewrite Sc by exact Hf. reflexivity. }
    rewrite Al. rewrite (Rx (node N (src e))) by (apply (node_spec N (src e) (Hs e ltac:(lia)))). rewrite (Ra e) by lia. rewrite val_row, weigh01. f_equal; [ring|f_equal; [ring|f_equal; [ring|f_equal; ring]]]. }
  rewrite Pl, rows_sum, (proj2 (out_layer Lo _ _ _ _ EO)). split; [reflexivity|]. intros j Hj. destruct j as [|[|[|]]]; [reflexivity|reflexivity|reflexivity|lia].
Qed.
Lemma query_kind feats attr N E src dst t : nodes_links feats attr N E src dst -> irr feats = x0 -> zero_flags feats = [false] -> irr attr = y01 -> zero_flags attr = [false; false] -> tf_query T P E src dst attr feats = Ok t -> irr t = x0 /\ zero_flags t = [false] /\ coherent t.
Proof.
  intros [Cf Ca Lf La Hs Hd] Ix Fx Iy Fy Et. unfold tf_query in Et. destruct (take_yields feats N E src Cf Lf Hs) as (xs & Exs & Is & Fs & Ls & Cs & _). rewrite Exs in Et. cbn [bind] in Et. rewrite Ix in *. rewrite Fx in *.
  destruct (f_step T (q_key P) 1 x0 x0 y01 [false] [false; false] f_ok_key eq_refl eq_refl) as (fk & Lk & Ks). pose proof (key_flags fk Ks) as ->.
  destruct (Ks xs attr Cs Ca Is Fs Iy Fy ltac:(congruence)) as (key & Ek & Ik & Fk & Lkk & Ck & _). rewrite Ek in Et. cbn [bind] in Et. change (f_irreps T x0 x0 y01) with x0 in Ik.
  destruct (take_yields feats N E dst Cf Lf Hd) as (xd & Exd & Id & Fd & Ld & Cd & _). rewrite Exd in Et. cbn [bind] in Et. rewrite Ix in Id. rewrite Fx in Fd.
  destruct (tq_step T x0 x0 [false] [false] ltac:(discriminate) eq_refl eq_refl) as (ft & Lft & St). assert (Hft : ft = [false]).
  { apply tq_flags. intros a b t' C1 C2 I1 I2 F1 F2 L12 E'. destruct (St a b C1 C2 I1 F1 I2 F2 L12) as (t2 & E2 & It & Ft & _). rewrite E' in E2. injection E2 as <-. auto. }
  subst ft. destruct (St xd key Cd Ck Id Fd Ik Fk ltac:(congruence)) as (t2 & E2 & It & Ft & _ & Ct & _). cbv beta in E2. rewrite Et in E2. injection E2 as <-. auto.
Qed.
Lemma pool_kind feats attr N E src dst cutoff y : nodes_links feats attr N E src dst -> irr feats = x0 -> zero_flags feats = [false] -> irr attr = y01 -> zero_flags attr = [false; false] -> scored T P feats attr E src dst -> tf_pool T P E src dst cutoff attr feats = Ok y -> irr y = y01 /\ zero_flags y = [false; false].
Proof.
  intros [Cf Ca Lf La Hs Hd] Ix Fx Iy Fy Sc Ep. unfold tf_pool in Ep. rewrite Lf in Ep. cbn [hd] in Ep. 
  destruct (take_yields feats N E src Cf Lf Hs) as (xs & Exs & Is & Fs & Ls & Cs & _). rewrite Exs in Ep. cbn [bind] in Ep. rewrite Ix in Is, Ep.
  destruct (tf_f T (q_key P) x0 xs attr) as [key|] eqn:Ek; [|discriminate]. cbn [bind] in Ep. destruct (take_rows feats E dst) as [xd|] eqn:Exd; [|discriminate]. cbn [bind] in Ep.
  destruct (tf_logit T (q_logit P) xd key) as [lo|] eqn:El; [|discriminate]. cbn [bind] in Ep. unfold tf_logit in El. destruct (tensor_product clebsch_gordan (t_inorm T) (Some [Irrep 0 Even]) true xd key) as [t|] eqn:Et; [|discriminate]. cbn [bind] in El.
  assert (Il : irr lo = x0). { refine (Sc t lo _ El). unfold tf_query. rewrite Exs. cbn [bind]. rewrite Ix, Ek. cbn [bind]. rewrite Exd. exact Et. }
  rewrite Il in Ep. change (dim x0) with 1 in Ep. destruct (tf_alpha _ _ _ _ _ _) as [al|]; [|discriminate]. cbn [bind] in Ep.
  destruct (tf_f T (q_val P) (t_out T) xs attr) as [w|] eqn:Ev; [|discriminate]. cbn [bind] in Ep.
  destruct (yields_inv _ _ _ _ _ Ev (f_yields T (q_val P) 1 (t_out T) x0 y01 xs attr f_ok_val Cs Ca Is Iy ltac:(congruence))) as (Iv & Lv & Cv & _). change (f_irreps T (t_out T) x0 y01) with y01 in Iv. rewrite Ls in Lv.
  destruct (tf_heads (t_heads T) w _ _) as [u|] eqn:Eu; [|discriminate]. cbn [bind] in Ep. change (t_heads T) with 1 in Eu.
  assert (Iu : irr u = y01). { rewrite <- Iv. refine (proj1 (yields_inv _ _ _ _ _ Eu (tf_heads_yields 1 w E _ ltac:(discriminate) _ _ _ Cv Lv))); rewrite Iv; [repeat constructor|repeat constructor; discriminate|discriminate]. }
  split; [|rewrite (scatter_flags _ _ _ _ _ Ep), Iu; reflexivity]. rewrite <- Iu. unfold scatter_sum, scatter_irreps in Ep. destruct (scatter_op _ _ _ _ _ _ _ _ _) as [[s0 a0]|]; [|discriminate]. cbn [bind] in Ep. exact (mkIA_irr _ _ _ _ _ _ _ Ep).
Qed.
Lemma works01 feats attr N E src dst cutoff z : nodes_links feats attr N E src dst -> irr feats = x0 -> zero_flags feats = [false] -> irr attr = y01 -> zero_flags attr = [false; false] -> transformer_call T P E src dst cutoff attr feats = Ok z -> worked T P feats attr N E src dst cutoff z.
Proof.
  intros NL Ix Fx Iy Fy Ez. assert (Sc : scored T P feats attr E src dst).
  { intros t lo Et El. destruct (query_kind feats attr N E src dst t NL Ix Fx Iy Fy Et) as (It & Ft & Ct). destruct (module_step (cv T) x0 x0 [false] (q_logit P) eq_refl ltac:(intros L E0; apply (query_layer L 0%R E0))) as (L & flo & EL & _ & _ & Sm). destruct (Sm t Ct It Ft) as (lo' & E' & Il & _).
    change (plain_linear T [(t_heads T, Irrep 0 Even)]) with (default_linear (cv T) x0) in El. rewrite El in E'. injection E' as <-. exact Il. }
  split; [constructor; [constructor|discriminate]|]. split; [exact NL|]. split; [|split; [exact Sc|exact Ez]]. split.
  - intros t L Et EL. destruct (query_kind feats attr N E src dst t NL Ix Fx Iy Fy Et) as (It & Ft & Ct). apply (query_layer L 0%R). rewrite <- EL. unfold layer_for. destruct (alike_irreps (cv T) x0 x0 [false] t It Ft) as (Q1 & Q2 & _). change (plain_linear T [(t_heads T, Irrep 0 Even)]) with (default_linear (cv T) x0). rewrite Q1, Q2. reflexivity.
  - intros y L Ey EL. destruct (pool_kind feats attr N E src dst cutoff y NL Ix Fx Iy Fy Sc Ey) as [It Ft]. apply (out_layer L 0 0 0 0). rewrite <- EL. unfold layer_for. destruct (alike_irreps (cv T) y01 y01 [false; false] y It Ft) as (Q1 & Q2 & _). change (plain_linear T (t_out T)) with (default_linear (cv T) y01). rewrite Q1, Q2. reflexivity.
Qed.
End Concrete.

(* three nodes; edges from nodes 0 and 1 into node 2, with cutoffs 9 and 16 *)
Definition ex_net : attention_net := net01 1 1.
Definition ex_weights : transformer_params := weights01 3 2 (fun j => INR (1 + j)) 2.
Definition ex_nodes : iarray := IA [(1, Irrep 0 Even)] [3] (fun i => [5]%R) None None.
Definition ex_links : iarray := IA [(1, Irrep 0 Even); (1, Irrep 1 Odd)] [2] (fun i => [1; 0; 0; INR (hd 0%nat i)]%R) None None.
Definition ex_cutoff (e : nat) : R := match e with 0 => 9 | _ => 16 end%R.
Example C65_nonvacuous : exists z, worked ex_net ex_weights ex_nodes ex_links 3 2 Z.of_nat (fun _ => (-1)%Z) ex_cutoff z /\ irr z = [(1, Irrep 0 Even); (1, Irrep 1 Odd)] /\ lead z = [3] /\
  nth 0 (arr z [2]) 0%R = 14%R /\ nth 3 (arr z [2]) 0%R = 16%R /\ nth 3 (arr z [0]) 0%R = 0%R.
Proof.
  assert (Cf : coherent ex_nodes) by apply (fresh_chunks [(1, Irrep 0 Even)] [3] (fun i => [5]%R) (fun _ _ => eq_refl)). assert (Ca : coherent ex_links) by apply (fresh_chunks [(1, Irrep 0 Even); (1, Irrep 1 Odd)] [2] (fun i => [1; 0; 0; INR (hd 0%nat i)]%R) (fun _ _ => eq_refl)).
  assert (NL : nodes_links ex_nodes ex_links 3 2 Z.of_nat (fun _ => (-1)%Z)) by (constructor; auto; intros; lia). assert (Cc : forall e, e < 2 -> (0 <= ex_cutoff e)%R) by (intros [|] _; cbn; lra).
  destruct (C65_value 1 1 3 2 (fun j => INR (1 + j)) 2 ex_nodes ex_links 3 2 Z.of_nat (fun _ => (-1)%Z) ex_cutoff NL eq_refl eq_refl eq_refl eq_refl Cc) as (z & Ez & Iz & Lz & V). exists z. split; [apply (works01 1 1 3 2 (fun j => INR (1 + j)) 2); auto|]. split; [exact Iz|]. split; [exact Lz|].
  destruct (V 2 ltac:(lia)) as [V0 V1]. destruct (V 0 ltac:(lia)) as [_ W1]. pose proof (V1 2 ltac:(lia)) as V2. pose proof (W1 2 ltac:(lia)) as W2. clear V V1 W1. cbn [Nat.add] in V2, W2. rewrite V0, V2, W2.
  change (filter (fun e => node 3 (-1) =? 2) (seq 0 2)) with [0; 1]. change (filter (fun e => node 3 (-1) =? 0) (seq 0 2)) with (@nil nat). cbn [ex_nodes ex_links arr nth hd]. unfold lsum. cbn [fold_right map ex_cutoff INR Nat.add].
  set (t := exp _). assert (Ht : t <> 0%R) by apply exp_ne.
  replace (9 * t / (9 * t + (16 * t + 0)))%R with (3 / 5 * (3 / 5))%R by (field; split; [lra|exact Ht] || (field; lra)).
  replace (16 * t / (9 * t + (16 * t + 0)))%R with (4 / 5 * (4 / 5))%R by (field; split; [lra|exact Ht] || (field; lra)).
  rewrite !sqrt_square by lra. split; [lra|]. split; lra.
Qed.
