(* C65: Transformer, theorems on the whole call. The specification is in TransformerProps.v; inbox, note_* are in TransformerProofs4.v, live in TransformerProps4.v, per_copy in TransformerProps3.v. *)
From Coq Require Import Reals Lra Lia List Arith Bool ZArith Permutation.
From Verif Require Import PyBase PermModel PermProofs IrrepsModel IrrepsProofs IrrepsProofs2 IrrepsStr ArrayModel ArrayProofs ArrayOps RechunkProofs ArithProofs LeadModel LeadProofs BlockProofs AxisProofs StackProofs BilinProofs ActProofs EquivProofs EquivProofs2 SumR EntryProofs ArrayProps2 ArrayProps3 TPModel TPProofs TPProofs2 StableSort TPProofs3 TPProps TPProps2 GradProofs CGModel RotationModel WignerModel WignerProofs WignerProofs2 WignerProps S2Model SHModel S2Proofs2 SHProps SHProps3 ScatterModel ScatterProps NormProofs LinearModel LinearProofs LinearProps LinearComplete LinModModel LinModProofs LinModProofs2 LinModProps ActivationModel MlpModel MlpProps ConvModel ConvProofs ConvProofs2 ConvProofs3 ConvProofs4 ConvProofs5 ConvProofs6 ConvProps ConvProps2 ConvProps3 TransformerModel TransformerProofs TransformerProofs2 TransformerProofs3 TransformerProofs4 TransformerProps TransformerProps2 TransformerProps3 TransformerProps4.
Import ListNotations.
Open Scope nat_scope.

Lemma tf_runs T P feats attr xv logit val xo out : tform T P (irr feats) (zero_flags feats) (irr attr) (zero_flags attr) xv logit val xo out -> forall feats' attr' N E src dst cutoff, nodes_links feats' attr' N E src dst -> akin feats feats' -> akin attr attr' ->
  exists z, transformer_call T P E src dst cutoff attr' feats' = Ok z /\ irr z = xo /\ lead z = [N] /\ coherent z /\ forall i, i < N -> arr z [i] = out (pooled (t_heads T) xv logit val (arr feats' [i]) (inbox feats' attr' N E src dst cutoff i)).
Proof. intros TF feats' attr' N E src dst cutoff NL [Ix Fx] [Iy Fy]. apply (tm_run _ _ _ _ _ _ _ _ _ _ _ TF). apply to_tgraph; auto. Qed.
Section Theorems.
Variables (T : attention_net) (P : transformer_params) (feats attr : iarray) (N E : nat) (src dst : nat -> Z) (cutoff : nat -> R) (z : iarray).
(* one call that returned *)
Definition worked : Prop := attention_settings T /\ nodes_links feats attr N E src dst /\ tf_fits T P feats attr E src dst cutoff /\ scored T P feats attr E src dst /\ transformer_call T P E src dst cutoff attr feats = Ok z.
Hypothesis HW : worked.
Ltac open_form := destruct HW as (AS & NL & FI & SC & EZ); destruct (run_tform T P feats attr N E src dst cutoff z AS NL FI SC EZ) as (xv & logit & val & xo & out & TF & Sub);
  destruct (tf_runs T P feats attr xv logit val xo out TF feats attr N E src dst cutoff NL (conj eq_refl eq_refl) (conj eq_refl eq_refl)) as (z0 & Ez0 & Iz & Lz & Cz & Az); rewrite EZ in Ez0; injection Ez0 as <-.
(* it decides for all graphs of the same kind: the call returns, with the same irreps, all among those asked for, and one row per node *)
Theorem C65_irreps : coherent z /\ lead z = [N] /\ (forall m, In m (irr z) -> In (snd m) (map snd (t_out T))) /\
  forall feats' attr' N' E' src' dst' cutoff', nodes_links feats' attr' N' E' src' dst' -> akin feats feats' -> akin attr attr' -> exists z', transformer_call T P E' src' dst' cutoff' attr' feats' = Ok z' /\ irr z' = irr z /\ lead z' = [N'] /\ coherent z'.
Proof.
  open_form. split; [exact Cz|]. split; [exact Lz|]. split; [rewrite Iz; exact Sub|]. intros feats' attr' N' E' src' dst' cutoff' NL' A1 A2. destruct (tf_runs T P feats attr xv logit val xo out TF feats' attr' N' E' src' dst' cutoff' NL' A1 A2) as (z' & E1 & E2 & E3 & E4 & _). exists z'. split; [exact E1|]. split; [congruence|]. split; [exact E3|exact E4].
Qed.
(* the row of a node depends only on its own features and on what it hears, in whatever order: across graphs *)
Theorem C65_local feats' attr' N' E' src' dst' cutoff' z' i i' : nodes_links feats' attr' N' E' src' dst' -> akin feats feats' -> akin attr attr' -> transformer_call T P E' src' dst' cutoff' attr' feats' = Ok z' -> i < N -> i' < N' ->
  arr feats' [i'] = arr feats [i] -> Permutation (inbox feats attr N E src dst cutoff i) (inbox feats' attr' N' E' src' dst' cutoff' i') -> arr z' [i'] = arr z [i].
Proof.
  open_form. intros NL' A1 A2 Ez' Hi Hi' Own Pm. destruct (tf_runs T P feats attr xv logit val xo out TF feats' attr' N' E' src' dst' cutoff' NL' A1 A2) as (z1 & Ez1 & _ & _ & _ & Az'). rewrite Ez' in Ez1. injection Ez1 as <-. rewrite Az, Az' by assumption. rewrite Own. f_equal. symmetry.
  apply (pooled_perm _ _ _ _ _ _ _ _ _ _ _ TF); [now apply inbox_fine|exact Pm].
Qed.
(* edges whose cutoff is zero do not count, provided no cutoff is negative *)
Theorem C65_cutoff feats' attr' N' E' src' dst' cutoff' z' i i' : nodes_links feats' attr' N' E' src' dst' -> akin feats feats' -> akin attr attr' -> transformer_call T P E' src' dst' cutoff' attr' feats' = Ok z' -> i < N -> i' < N' ->
  (forall e, e < E -> (0 <= cutoff e)%R) -> (forall e, e < E' -> (0 <= cutoff' e)%R) -> arr feats' [i'] = arr feats [i] ->
  Permutation (filter live (inbox feats attr N E src dst cutoff i)) (filter live (inbox feats' attr' N' E' src' dst' cutoff' i')) -> arr z' [i'] = arr z [i].
Proof.
  open_form. intros NL' A1 A2 Ez' Hi Hi' C1 C2 Own Pm. destruct (tf_runs T P feats attr xv logit val xo out TF feats' attr' N' E' src' dst' cutoff' NL' A1 A2) as (z1 & Ez1 & _ & _ & _ & Az'). rewrite Ez' in Ez1. injection Ez1 as <-. rewrite Az, Az' by assumption. rewrite Own. f_equal. symmetry.
  pose proof (inbox_fine feats attr N E src dst cutoff i NL) as F1. pose proof (inbox_fine feats' attr' N' E' src' dst' cutoff' i' NL') as F2. destruct A1 as [I1 _]. destruct A2 as [I2 _]. rewrite <- I1, <- I2 in F2.
  rewrite (pooled_live _ _ _ _ _ _ _ _ _ _ _ TF _ _ (inbox_cut feats attr N E src dst cutoff i C1) F1). rewrite (pooled_live _ _ _ _ _ _ _ _ _ _ _ TF _ _ (inbox_cut feats' attr' N' E' src' dst' cutoff' i' C2) F2).
  apply (pooled_perm _ _ _ _ _ _ _ _ _ _ _ TF); [|exact Pm]. unfold note_fine in *. rewrite Forall_forall in *. intros q Hq. apply filter_In in Hq as [Hq _]. now apply F1.
Qed.
(* a node that no edge ends at gets zero *)
Theorem C65_isolated i : i < N -> (forall e, e < E -> node N (dst e) <> i) -> arr z [i] = repeat 0%R (dim (irr z)).
Proof.
  open_form. intros Hi No. rewrite Az by exact Hi. assert (Q : inbox feats attr N E src dst cutoff i = []).
  { unfold inbox, incoming. destruct (filter _ _) as [|e l] eqn:Ef; [reflexivity|]. exfalso. assert (Hin : In e (e :: l)) by now left. rewrite <- Ef in Hin. apply filter_In in Hin as [H1 H2]. apply in_seq in H1. apply Nat.eqb_eq in H2. apply (No e); [lia|exact H2]. }
  rewrite Q, Iz. apply (out_zero _ _ _ _ _ _ _ _ _ _ _ TF).
Qed.
(* the closed form: values of the incoming edges, each copy of an irrep weighted by the square root of the attention coefficient of its head, summed and mapped linearly; logits are invariant, values and the final map equivariant *)
Theorem C65_attention : exists (xv : irreps) (logit : list R -> list R -> list R -> list R) (val : list R -> list R -> list R) (out : list R -> list R),
  Forall (fun m => fst m mod t_heads T = 0) xv /\
  (forall r own row a, orthogonal3 r -> length own = dim (irr feats) -> length row = dim (irr feats) -> length a = dim (irr attr) -> logit (act (rep_of r) (irr feats) own) (act (rep_of r) (irr feats) row) (act (rep_of r) (irr attr) a) = logit own row a) /\
  (forall r row a, orthogonal3 r -> length row = dim (irr feats) -> length a = dim (irr attr) -> act (rep_of r) xv (val row a) = val (act (rep_of r) (irr feats) row) (act (rep_of r) (irr attr) a)) /\
  (forall r row, orthogonal3 r -> length row = dim xv -> act (rep_of r) (irr z) (out row) = out (act (rep_of r) xv row)) /\
  (forall t a b, length a = dim xv -> length b = dim xv -> out (zipR Rplus (map (Rmult t) a) b) = zipR Rplus (map (Rmult t) (out a)) (out b)) /\
  forall feats' attr' N' E' src' dst' cutoff', nodes_links feats' attr' N' E' src' dst' -> akin feats feats' -> akin attr attr' -> (forall e, e < E' -> (0 <= cutoff' e)%R) ->
  exists z', transformer_call T P E' src' dst' cutoff' attr' feats' = Ok z' /\ irr z' = irr z /\ forall i, i < N' ->
    let edges := filter (fun e => node N' (dst' e) =? i) (seq 0 E') in
    let score e h := nth h (logit (arr feats' [i]) (arr feats' [node N' (src' e)]) (arr attr' [e])) 0%R in
    let alpha e h := (cutoff' e * exp (score e h) / lsum edges (fun f => cutoff' f * exp (score f h)))%R in
    arr z' [i] = out (rowsum (dim xv) (map (fun e => scale_copies (SliceProofs2.instances xv (val (arr feats' [node N' (src' e)]) (arr attr' [e]))) (per_copy (t_heads T) xv (map (fun h => sqrt (alpha e h)) (seq 0 (t_heads T))))) edges)).
Proof.
  open_form. exists xv, logit, val, out. pose proof TF as [_ _ Al Lv Av NH Dv _ _ _ Ao Lo]. rewrite Iz. split; [exact Dv|]. split; [exact Al|]. split; [exact Av|]. split; [exact Ao|]. split; [exact Lo|].
  intros feats' attr' N' E' src' dst' cutoff' NL' A1 A2 C. destruct (tf_runs T P feats attr xv logit val xo out TF feats' attr' N' E' src' dst' cutoff' NL' A1 A2) as (z' & E1 & E2 & E3 & E4 & Az'). exists z'. split; [exact E1|]. split; [exact E2|]. intros i Hi. cbv zeta. rewrite Az' by exact Hi. f_equal. unfold pooled, inbox. fold (incoming N' E' dst' i). rewrite map_map. f_equal. apply map_ext_in. intros e He.
  pose proof (inbox_fine feats' attr' N' E' src' dst' cutoff' i NL') as F. pose proof (inbox_cut feats' attr' N' E' src' dst' cutoff' i C) as Ct. unfold inbox in F, Ct. set (qs := map _ (incoming N' E' dst' i)) in *. assert (Hq : In (arr feats' [node N' (src' e)], arr attr' [e], cutoff' e) qs) by (apply (in_map (fun e => (arr feats' [node N' (src' e)], arr attr' [e], cutoff' e))); exact He).
  rewrite (shares_soft T logit (arr feats' [i]) qs _ Ct Hq). unfold note_fine in F. rewrite Forall_forall in F. destruct (F _ Hq) as [L1 L2]. destruct A1 as [I1 _]. destruct A2 as [I2 _]. rewrite <- I1 in L1. rewrite <- I2 in L2. rewrite weigh_copies by (auto; unfold soft; now rewrite map_length, seq_length). f_equal. f_equal. unfold soft. apply map_ext. intros h. unfold note_src, note_attr, note_cut. cbn [fst snd]. f_equal. f_equal. unfold qs. rewrite lsum_map. reflexivity.
Qed.
(* rotations, reflections and inversion of the features and of the edge attributes rotate the result *)
Theorem C65_equivariant r : orthogonal3 r ->
  agree (let! z := transformer_call T P E src dst cutoff attr feats in transform_by_matrix z r) (let! feats' := transform_by_matrix feats r in let! attr' := transform_by_matrix attr r in transformer_call T P E src dst cutoff attr' feats').
Proof.
  open_form. intros O. assert (HD : rep_ok (rep_of r)) by apply as_rep_ok. pose proof NL as [Cf Ca Lf La Hs Hd]. rewrite EZ. cbn [bind]. rewrite !by_matrix. destruct (transform_act (rep_of r) attr Ca HD) as (attr' & Ep & Ia' & La' & Ca' & Aa). destruct (transform_act (rep_of r) feats Cf HD) as (feats' & Ef & If' & Lf' & Cf' & Af). pose proof (transform_flags _ _ _ Cf Ef) as Ff. pose proof (transform_flags _ _ _ Ca Ep) as Fa.
  rewrite Ef. cbn [bind]. rewrite Ep. cbn [bind]. rewrite La in Aa, La'. rewrite Lf in Af, Lf'.
  assert (NL' : nodes_links feats' attr' N E src dst) by (constructor; auto). destruct (tf_runs T P feats attr xv logit val xo out TF feats' attr' N E src dst cutoff NL' (conj (eq_sym If') (eq_sym Ff)) (conj (eq_sym Ia') (eq_sym Fa))) as (z' & Ez' & Iz' & Lz' & Cz' & Az').
  exists xo, [N], (fun i => act (rep_of r) xo (arr z i)). split; [rewrite <- Iz, <- Lz; now apply transform_act|]. exists z'. split; [exact Ez'|]. split; [exact Iz'|]. split; [exact Lz'|]. split; [exact Cz'|]. intros i Hi. destruct (valid_one N i Hi) as (k & -> & Hk). rewrite Az, Az' by exact Hk.
  pose proof (inbox_fine feats attr N E src dst cutoff k NL) as F. assert (Vk : valid [N] [k]) by (constructor; [exact Hk|constructor]). assert (Lk : length (arr feats [k]) = dim (irr feats)) by (apply Cf; rewrite Lf; exact Vk).
  rewrite (tm_out_act _ _ _ _ _ _ _ _ _ _ _ TF r _ O) by (now apply (pooled_len _ _ _ _ _ _ _ _ _ _ _ TF)). f_equal. rewrite (pooled_act _ _ _ _ _ _ _ _ _ _ _ TF r _ _ O Lk F). rewrite <- Af by exact Vk. f_equal. unfold inbox. rewrite map_map. apply map_ext_in. intros e He. apply filter_In in He as [He _]. apply in_seq in He. unfold note_src, note_attr, note_cut. cbn [fst snd].
  rewrite Af, Aa; [reflexivity|constructor; [lia|constructor]|]. constructor; [apply (node_spec N (src e) (Hs e ltac:(lia)))|constructor].
Qed.
(* renaming the nodes renames the rows of the result *)
Theorem C65_relabel feats' src' dst' (s : nat -> nat) : (forall k, k < N -> s k < N) -> (forall k l, k < N -> l < N -> s k = s l -> k = l) ->
  nodes_links feats' attr N E src' dst' -> akin feats feats' -> (forall k, k < N -> arr feats' [s k] = arr feats [k]) ->
  (forall e, e < E -> node N (src' e) = s (node N (src e)) /\ node N (dst' e) = s (node N (dst e))) ->
  exists z', transformer_call T P E src' dst' cutoff attr feats' = Ok z' /\ irr z' = irr z /\ lead z' = lead z /\ forall i, i < N -> arr z' [s i] = arr z [i].
Proof.
  intros Hs Inj NL' A H He0. destruct C65_irreps as (_ & Lz & _ & G). destruct (G feats' attr N E src' dst' cutoff NL' A (conj eq_refl eq_refl)) as (z' & Ez' & Iz' & Lz' & _). exists z'. split; [exact Ez'|]. split; [exact Iz'|]. split; [congruence|]. intros i Hi.
  apply (C65_local feats' attr N E src' dst' cutoff z' i (s i) NL' A (conj eq_refl eq_refl) Ez' Hi (Hs i Hi) (H i Hi)). destruct HW as (_ & [Cf Ca Lf La Hsr Hd] & _). assert (Q : inbox feats' attr N E src' dst' cutoff (s i) = inbox feats attr N E src dst cutoff i); [|rewrite Q; apply Permutation_refl].
  unfold inbox. assert (Q : incoming N E dst' (s i) = incoming N E dst i).
  { unfold incoming. apply filter_ext_in. intros e He. apply in_seq in He. assert (He' : e < E) by lia. destruct (He0 e He') as [_ ->]. assert (Q2 : node N (dst e) < N) by apply (node_spec N (dst e) (Hd e He')).
    destruct (Nat.eqb_spec (node N (dst e)) i) as [->|Ne]; [now rewrite Nat.eqb_refl|]. destruct (Nat.eqb_spec (s (node N (dst e))) (s i)) as [Q|_]; [|reflexivity]. exfalso. apply Ne. now apply Inj. }
  rewrite Q. apply map_ext_in. intros e He. apply filter_In in He as [He _]. apply in_seq in He. assert (He' : e < E) by lia. destruct (He0 e He') as [-> _]. rewrite H by apply (node_spec N (src e) (Hsr e He')). reflexivity.
Qed.
(* the order in which the edges are listed does not matter, nor whether an index is written from the front or from the end *)
Theorem C65_edge_order attr' E' src' dst' cutoff' : nodes_links feats attr' N E' src' dst' -> akin attr attr' ->
  Permutation (map (fun e => (node N (src e), node N (dst e), arr attr [e], cutoff e)) (seq 0 E)) (map (fun e => (node N (src' e), node N (dst' e), arr attr' [e], cutoff' e)) (seq 0 E')) ->
  exists z', transformer_call T P E' src' dst' cutoff' attr' feats = Ok z' /\ irr z' = irr z /\ lead z' = lead z /\ forall i, i < N -> arr z' [i] = arr z [i].
Proof.
  intros NL' A Pm. destruct C65_irreps as (_ & Lz & _ & G). destruct (G feats attr' N E' src' dst' cutoff' NL' (conj eq_refl eq_refl) A) as (z' & Ez' & Iz' & Lz' & _). exists z'. split; [exact Ez'|]. split; [exact Iz'|]. split; [congruence|]. intros i Hi.
  apply (C65_local feats attr' N E' src' dst' cutoff' z' i i NL' (conj eq_refl eq_refl) A Ez' Hi Hi eq_refl).
  assert (Q : forall attr E src dst cutoff, inbox feats attr N E src dst cutoff i = map (fun q : nat * nat * list R * R => (arr feats [fst (fst (fst q))], snd (fst q), snd q)) (filter (fun q => snd (fst (fst q)) =? i) (map (fun e => (node N (src e), node N (dst e), arr attr [e], cutoff e)) (seq 0 E)))).
  { clear. intros attr E src dst cutoff. unfold inbox, incoming. induction (seq 0 E) as [|e l IH]; [reflexivity|]. cbn [map filter fst snd]. destruct (_ =? _); cbn [map fst snd]; now rewrite IH. }
  rewrite !Q. apply Permutation_map. apply filter_permute, Pm.
Qed.
End Theorems.
