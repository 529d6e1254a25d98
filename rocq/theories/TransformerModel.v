(* Model of e3nn_jax/experimental/transformer.py: Transformer.
   Simplifications: the values read from the configuration are fields; dtypes, names and tracing are not modelled; the indices are lists of E integers given as functions. *)
From Coq Require Import Reals.
From Verif Require Import PyBase PermModel IrrepsModel ArrayModel LeadModel ActivationModel NormModel SumR TPModel CGModel ScatterModel S2Model SHModel LinearModel LinModModel MlpModel ConvModel.
Open Scope nat_scope.

(* transformer.py:16-29: the fields, and the configured defaults (irrep_normalization; path and gradient normalization as numbers, for Linear; the registry and the points of normalize_function, for the MLP) *)
Record attention_net := AttentionNet { t_out : irreps; t_neurons : list nat; t_act : R -> R; t_heads : nat; t_inorm : inorm; t_pn : R; t_gn : R; t_conf : registry; t_pts : list R }.
(* the parameters of mlp_key, linear_logit, mlp_val and linear_out *)
Record transformer_params := TParams { q_key : mlp_params; q_logit : params; q_val : mlp_params; q_out : params }.
(* linear_haiku.py:87-124: Linear(irreps_out) with the default arguments *)
Definition plain_linear (T : attention_net) (y : irreps) : lmodule := LMod y None None NoBias (t_pn T) (t_gn T) None None false false true.

(* transformer.py:51-63  f(x, y, filter_ir_out, name) *)
Definition tf_combine (T : attention_net) (keep : irreps) (x y : iarray) : res iarray :=
  let! y1 := ia_filter y None (Some (ByIrreps [Irrep 0 Even])) None in
  let! t := tensor_product clebsch_gordan (t_inorm T) None true x y1 in
  let! c := concat_last [x; t] in
  let! r := ia_regroup c in
  ia_filter r (Some (ByIrreps (map snd keep))) None None.
Definition tf_mix (T : attention_net) (P : mlp_params) (out1 y : iarray) : res iarray :=
  let! y0 := ia_filter y (Some (ByIrreps [Irrep 0 Even])) None None in
  let! out2 := mlp_call (t_conf T) (t_pts T) (Mlp (t_neurons T ++ [num_irreps (irr out1)]) (Some (t_act T)) None OFalse false) P (MIrreps y0) in
  match out2 with
  | MIrreps m => ia_mul clebsch_gordan out1 m
  | MBare s w a => mul_bare clebsch_gordan out1 s w a
  end.
Definition tf_f (T : attention_net) (P : mlp_params) (keep : irreps) (x y : iarray) : res iarray :=
  let! out1 := tf_combine T keep x y in tf_mix T P out1 y.
(* transformer.py:65-68: edge_logit (an IrrepsArray; the code goes on with its array) *)
Definition tf_logit (T : attention_net) (P : params) (x key : iarray) : res iarray :=
  let! t := tensor_product clebsch_gordan (t_inorm T) (Some [Irrep 0 Even]) true x key in
  module_call (plain_linear T [(t_heads T, Irrep 0 Even)]) P NoWeights t.
(* transformer.py:10-11  _index_max; an index counts from the end when negative and out-of-range updates are dropped *)
Definition index_max (E : nat) (i : nat -> Z) (w : nat) (x : nat -> list R) (out_dim : nat) : nat -> list R :=
  fun n => update_rows Rmax (all_idx [E]) (fun e => resolve_index MDrop out_dim (i (hd 0 e))) (fun e => x (hd 0 e)) n [] (repeat 0%R w).
(* transformer.py:69-78: from the logits, rows of w numbers, to alpha *)
Definition tf_alpha (E N : nat) (w : nat) (dst : nat -> Z) (cutoff : nat -> R) (logit : nat -> list R) : res (nat -> list R) :=
  let logit_max := index_max E dst w logit N in
  let ex e := map (Rmult (cutoff e)) (map exp (zipR Rminus (logit e) (logit_max (gather_index N (dst e))))) in
  let! z := scatter_op Rplus 0%R [E] w (fun i => ex (hd 0 i)) (Dst [E] (fun i => dst (hd 0 i))) (Some N) false MPromise in
  let z n := map (fun t => if Req_EM_T t 0 then 1 else t)%R (snd z [n]) in
  Ok (fun e => zipR Rdiv (ex e) (z (gather_index N (dst e)))).
(* transformer.py:83-85: the heads *)
Definition tf_heads (H : nat) (v : iarray) (s : shape) (alpha : idx -> list R) : res iarray :=
  let! v := mul_to_axis v (Some H) (-2) in
  let! v := mul_bare clebsch_gordan v s 1 (fun i => [sqrt (Rmax 0 (nth (last i 0%nat) (alpha (removelast i)) 0))]%R) in
  axis_to_mul v (-2).
(* transformer.py:31-88  __call__ up to the sum over the edges; the edges: E sources, destinations and cutoffs, and edge_attr *)
Definition tf_pool (T : attention_net) (P : transformer_params) (E : nat) (src dst : nat -> Z) (cutoff : nat -> R) (attr feats : iarray) : res iarray :=
  let N := hd 0 (lead feats) in
  let! xs := take_rows feats E src in
  let! key := tf_f T (q_key P) (irr feats) xs attr in
  let! xd := take_rows feats E dst in
  let! logit := tf_logit T (q_logit P) xd key in
  let w := dim (irr logit) in
  let! alpha := tf_alpha E N w dst cutoff (fun e => arr logit [e]) in
  let! v := tf_f T (q_val P) (t_out T) xs attr in
  let! v := tf_heads (t_heads T) v [E; w] (fun i => alpha (hd 0 i)) in
  scatter_sum v (Dst [E] (fun i => dst (hd 0 i))) (Some N) false MPromise.
(* transformer.py:31-90  __call__ *)
Definition transformer_call (T : attention_net) (P : transformer_params) (E : nat) (src dst : nat -> Z) (cutoff : nat -> R) (attr feats : iarray) : res iarray :=
  let! y := tf_pool T P E src dst cutoff attr feats in
  module_call (plain_linear T (t_out T)) (q_out P) NoWeights y.
