(* C65: Transformer (experimental/transformer.py), specification and what a successful call fixes. *)
From Coq Require Import Reals Lra Lia List Arith Bool ZArith.
From Verif Require Import PyBase PermModel PermProofs IrrepsModel IrrepsProofs IrrepsProofs2 IrrepsStr ArrayModel ArrayProofs ArrayOps RechunkProofs ArithProofs LeadModel LeadProofs BlockProofs AxisProofs StackProofs BilinProofs ActProofs EquivProofs EquivProofs2 SumR EntryProofs ArrayProps2 ArrayProps3 TPModel TPProofs TPProofs2 StableSort TPProofs3 TPProps TPProps2 GradProofs CGModel RotationModel WignerModel WignerProofs WignerProofs2 WignerProps S2Model SHModel S2Proofs2 SHProps SHProps3 ScatterModel ScatterProps NormProofs LinearModel LinearProofs LinearProps LinearComplete LinModModel LinModProofs LinModProofs2 LinModProps ActivationModel MlpModel MlpProps ConvModel ConvProofs ConvProofs2 ConvProofs3 ConvProofs4 ConvProofs5 ConvProofs6 TransformerModel TransformerProofs TransformerProofs2 TransformerProofs3 TransformerProofs4.
Import ListNotations.
Open Scope nat_scope.

(* ---- specification ---- *)
(* the layer was built with sensible arguments: no hidden layer of the MLPs is empty, irrep_normalization is a known one *)
Record attention_settings (T : attention_net) : Prop := { as_neurons : Forall (fun n => n <> 0) (t_neurons T); as_norm : t_inorm T <> NOther }.
(* N nodes with features, E edges with attributes; an index counts from the end when negative *)
Record nodes_links (feats attr : iarray) (N E : nat) (src dst : nat -> Z) : Prop := {
  nl_feats : coherent feats; nl_attr : coherent attr; nl_fl : lead feats = [N]; nl_al : lead attr = [E];
  nl_src : forall e, e < E -> (- Z.of_nat N <= src e < Z.of_nat N)%Z; nl_dst : forall e, e < E -> (- Z.of_nat N <= dst e < Z.of_nat N)%Z }.
(* the arguments of linear_logit: query of the receiver times key of the sender *)
Definition tf_query (T : attention_net) (P : transformer_params) (E : nat) (src dst : nat -> Z) (attr feats : iarray) : res iarray :=
  let! xs := take_rows feats E src in let! key := tf_f T (q_key P) (irr feats) xs attr in let! xd := take_rows feats E dst in tensor_product clebsch_gordan (t_inorm T) (Some [Irrep 0 Even]) true xd key.
(* the parameters have the shapes that the two Linear layers ask for *)
Definition tf_fits (T : attention_net) (P : transformer_params) (feats attr : iarray) (E : nat) (src dst : nat -> Z) (cutoff : nat -> R) : Prop :=
  (forall t L, tf_query T P E src dst attr feats = Ok t -> layer_for (plain_linear T [(t_heads T, Irrep 0 Even)]) t = Ok L -> supplies (q_logit P) [] L) /\
  (forall y L, tf_pool T P E src dst cutoff attr feats = Ok y -> layer_for (plain_linear T (t_out T)) y = Ok L -> supplies (q_out P) [] L).
(* some product of query and key is a scalar, so that linear_logit gives one number per head *)
Definition scored (T : attention_net) (P : transformer_params) (feats attr : iarray) (E : nat) (src dst : nat -> Z) : Prop :=
  forall t lo, tf_query T P E src dst attr feats = Ok t -> module_call (plain_linear T [(t_heads T, Irrep 0 Even)]) (q_logit P) NoWeights t = Ok lo -> irr lo = [(t_heads T, Irrep 0 Even)].
(* the same kind of arrays: same irreps, same known zeros *)
Definition akin (x y : iarray) : Prop := irr x = irr y /\ zero_flags x = zero_flags y.

(* ---- a call that succeeds fixes the kind of everything ---- *)
Lemma key_ok T P gn keep x y a b v : attention_settings T -> coherent a -> coherent b -> irr a = x -> irr b = y -> lead a = lead b -> tf_f T P keep a b = Ok v -> gradient_number (t_conf T) None = Ok gn -> f_ok T gn keep x y.
Proof.
  intros [Hn Hi] Ca Cb Ia Ib Lab Ev G. unfold tf_f in Ev. destruct (combine_tf T keep x y a b Hi Ca Cb Ia Ib Lab) as (o & Eo & Io & Lo & Co & _). rewrite Eo in Ev. cbn [bind] in Ev.
  apply (f_ok_inv T P gn keep x y o b v Hi Hn Co Cb Io Ib ltac:(congruence) Ev G).
Qed.
Lemma to_tgraph x fl y fy feats attr N E src dst : nodes_links feats attr N E src dst -> irr feats = x -> zero_flags feats = fl -> irr attr = y -> zero_flags attr = fy -> tgraph x fl y fy feats attr N E src dst.
Proof. intros [H1 H2 H3 H4 H5 H6] Ix Fx Iy Fy. constructor; assumption. Qed.
Lemma run_tform T P feats attr N E src dst cutoff z : attention_settings T -> nodes_links feats attr N E src dst -> tf_fits T P feats attr E src dst cutoff -> scored T P feats attr E src dst -> transformer_call T P E src dst cutoff attr feats = Ok z ->
  exists xv logit val xo out, tform T P (irr feats) (zero_flags feats) (irr attr) (zero_flags attr) xv logit val xo out /\ forall m, In m xo -> In (snd m) (map snd (t_out T)).
Proof.
  intros AS NL [F1 F2] Sc Ez. pose proof AS as [Sn Si]. pose proof NL as [Cf Ca Lf La Hs Hd]. set (x := irr feats) in *. set (fl := zero_flags feats) in *. set (y := irr attr) in *. set (fy := zero_flags attr) in *.
  assert (Lx : length fl = length x) by (apply zero_flags_length, Cf). assert (Ly : length fy = length y) by (apply zero_flags_length, Ca).
  unfold transformer_call in Ez. destruct (tf_pool T P E src dst cutoff attr feats) as [pool|] eqn:Ep; [|discriminate]. cbn [bind] in Ez. pose proof Ep as Ep0. unfold tf_pool in Ep0. rewrite Lf in Ep0. cbn [hd] in Ep0. fold x in Ep0.
  destruct (take_yields feats N E src Cf Lf Hs) as (xs & Exs & Is & Fs & Ls & Cs & _). rewrite Exs in Ep0. cbn [bind] in Ep0.
  destruct (tf_f T (q_key P) x xs attr) as [key|] eqn:Ek; [|discriminate]. cbn [bind] in Ep0.
  destruct (take_yields feats N E dst Cf Lf Hd) as (xd & Exd & Id & Fd & Ld & Cd & _). rewrite Exd in Ep0. cbn [bind] in Ep0.
  assert (G : exists gn, gradient_number (t_conf T) None = Ok gn). { unfold tf_f in Ek. destruct (tf_combine T x xs attr) as [o|]; [|discriminate]. cbn [bind] in Ek. apply (f_gn T (q_key P) o attr key Ek). }
  destruct G as [gn G]. pose proof (key_ok T (q_key P) gn x x y xs attr key AS Cs Ca Is eq_refl ltac:(congruence) Ek G) as OK.
  destruct (f_step T (q_key P) gn x x y fl fy OK Lx Ly) as (fk & Lk & Ks). destruct (Ks xs attr Cs Ca Is Fs eq_refl eq_refl ltac:(congruence)) as (key' & Ek' & Ik & Fk & Lkk & Ck & _). rewrite Ek in Ek'. injection Ek' as <-.
  destruct (logit_exists T (q_logit P) x fl (f_irreps T x x y) fk Si Lx Lk) as (ft & Lft & Tq & LG).
  destruct (tf_logit T (q_logit P) xd key) as [lo|] eqn:El; [|discriminate]. cbn [bind] in Ep0. pose proof El as El0. unfold tf_logit in El0. destruct (tensor_product clebsch_gordan (t_inorm T) (Some [Irrep 0 Even]) true xd key) as [t|] eqn:Et; [|discriminate]. cbn [bind] in El0.
  assert (EQ : tf_query T P E src dst attr feats = Ok t) by (unfold tf_query; rewrite Exs; cbn [bind]; fold x; rewrite Ek; cbn [bind]; rewrite Exd; exact Et).
  destruct (Tq xd key t Cd Ck Id Ik Fd Fk ltac:(congruence) Et) as [It Ft].
  destruct LG as (flo & g & LF).
  { intros L EL. apply (F1 t L EQ). rewrite <- EL. unfold layer_for. rewrite plain_is_default. destruct (alike_irreps (cv T) [(t_heads T, Irrep 0 Even)] (tq T x (f_irreps T x x y)) ft t It Ft) as (-> & -> & _). reflexivity. }
  destruct (lf_run _ _ _ _ _ _ _ _ _ LF xd key Cd Ck Id Fd Ik Fk ltac:(congruence)) as (lo' & El' & Il & _ & Ll & Cl & _). rewrite El in El'. injection El' as <-. rewrite (Sc t lo EQ El0) in Il. rewrite <- Il in LF.
  rewrite (Sc t lo EQ El0) in Ep0. destruct (tf_alpha _ _ _ _ _ _) as [al|]; [|discriminate]. cbn [bind] in Ep0.
  destruct (tf_f T (q_val P) (t_out T) xs attr) as [v|] eqn:Ev; [|discriminate]. cbn [bind] in Ep0. pose proof (key_ok T (q_val P) gn (t_out T) x y xs attr v AS Cs Ca Is eq_refl ltac:(congruence) Ev G) as OV.
  destruct (yields_inv _ _ _ _ _ Ev (f_yields T (q_val P) gn (t_out T) x y xs attr OV Cs Ca Is eq_refl ltac:(congruence))) as (Iv & Lv & Cv & _).
  destruct (tf_heads (t_heads T) v _ _) as [u|] eqn:Eu; [|discriminate]. cbn [bind] in Ep0.
  assert (NH : t_heads T <> 0 /\ Forall (fun m => fst m mod t_heads T = 0) (f_irreps T (t_out T) x y)).
  { pose proof (fo_some _ _ _ _ _ OV) as Nv. unfold tf_heads in Eu. destruct (mul_to_axis v (Some (t_heads T)) (-2)) as [q|] eqn:Eq; [|discriminate]. clear Eu. unfold mul_to_axis in Eq. destruct (standard_axis _ _); [|discriminate]. cbn [bind] in Eq. rewrite Iv in Eq.
    destruct (Nat.eqb_spec (t_heads T) 0) as [H0|H0]; [destruct (f_irreps T (t_out T) x y); [contradiction|discriminate]|]. split; [exact H0|]. cbn [andb] in Eq. destruct (forallb (fun '(mul, _) => mul mod t_heads T =? 0) (f_irreps T (t_out T) x y)) eqn:Q; [|discriminate]. apply Forall_forall. intros [k ir] Hm. rewrite forallb_forall in Q. specialize (Q _ Hm). cbv beta iota in Q. apply Nat.eqb_eq in Q. exact Q. }
  destruct NH as [NH Dv].
  assert (Pool : irr pool = f_irreps T (t_out T) x y /\ zero_flags pool = repeat false (length (f_irreps T (t_out T) x y))).
  { assert (Iu : irr u = f_irreps T (t_out T) x y).
    { assert (D1 : dim [(t_heads T, Irrep 0 Even)] = t_heads T) by (cbn; lia). rewrite D1 in Eu. rewrite <- Iv. rewrite Ls in Lv. refine (proj1 (yields_inv _ _ _ _ _ Eu (tf_heads_yields (t_heads T) v E _ NH _ _ _ Cv Lv))); rewrite Iv; [exact Dv|apply f_positive|apply OV]. }
    split; [|rewrite <- Iu; apply (scatter_flags _ _ _ _ _ Ep0)]. rewrite <- Iu. unfold scatter_sum, scatter_irreps in Ep0. destruct (scatter_op _ _ _ _ _ _ _ _ _) as [[s a]|]; [|discriminate]. cbn [bind] in Ep0. exact (mkIA_irr _ _ _ _ _ _ _ Ep0). }
  destruct Pool as [Ipool Fpool].
  destruct (tform_explicit T P gn x fl y fy fk flo g OK OV Lx Ly Ks LF NH Dv) as (L & EL & TF).
  { intros L EL. apply (F2 pool L eq_refl). rewrite <- EL. unfold layer_for. rewrite plain_is_default. destruct (alike_irreps (cv T) (t_out T) _ _ pool Ipool Fpool) as (-> & -> & _). reflexivity. }
  do 5 eexists. split; [exact TF|].
  unfold result_irreps, target. cbn [default_linear m_force m_simplify m_out]. intros m Hm. apply filter_In in Hm as [Hm _]. clear -Hm. assert (Q : In (snd m) (flat (simplify (t_out T)))). { pose proof (positive_simplify (t_out T)) as Ps. unfold positive in Ps. rewrite Forall_forall in Ps. specialize (Ps m Hm). unfold flat. apply in_flat_map. exists m. split; [exact Hm|]. destruct m as [k ir]. cbn [fst snd] in *. destruct k; [lia|]. now left. }
  rewrite flat_simplify in Q. unfold flat in Q. apply in_flat_map in Q as ([k ir] & H1 & H2). apply repeat_spec in H2. apply in_map_iff. exists (k, ir). split; [exact (eq_sym H2)|exact H1].
Qed.
