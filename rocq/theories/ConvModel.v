(* Model of e3nn_jax/experimental/point_convolution.py: MessagePassingConvolution, haiku and flax (they share _call and differ in which Linear and MultiLayerPerceptron they use;
   those two pairs compute the same, see LinModModel.v and MlpModel.v).
   Simplifications: radial_basis acts on each distance separately; the values read from the configuration are fields; dtypes, names and tracing are not modelled. *)
From Coq Require Import Reals.
From Verif Require Import PyBase PermModel IrrepsModel ArrayModel LeadModel ActivationModel NormModel SumR TPModel CGModel ScatterModel S2Model SHModel LinearModel LinModModel MlpModel.
Open Scope nat_scope.

(* point_convolution.py:114-134, 158-165: the fields, and the configured defaults that _call relies on: irrep_normalization, spherical_harmonics_normalization,
   spherical_harmonics_algorithm, path_normalization and gradient_normalization (as numbers, for Linear), the whole registry and the points of normalize_function (for the MLP) *)
Record conv := Conv { c_target : irreps; c_radial : R -> list R; c_width : nat; c_avg : R; c_sh_lmax : nat; c_neurons : list nat; c_act : R -> R;
  c_inorm : inorm; c_sh_norm : s2norm; c_auto : option (list keyword); c_pn : R; c_gn : R; c_conf : registry; c_pts : list R }.
(* the parameters of linear_up, of the MLP and of linear_down *)
Record conv_params := ConvParams { p_up : params; p_mlp : mlp_params; p_down : params }.

(* irreps_array.py:604-612  x[index] with an array of E integers: x has one leading axis; reading from an empty axis raises *)
Definition take_rows (x : iarray) (E : nat) (ix : nat -> Z) : res iarray :=
  let n := hd 0 (lead x) in
  if (n =? 0) && negb (E =? 0) then Err TypeError
  else gathered x [E] (fun i => [gather_index n (ix (hd 0 i))]) (chs x).
(* irreps_array.py:1331-1373  x.at[index].add(v) with an array of E integers; out-of-range updates are dropped *)
Definition at_add_index (x : iarray) (E : nat) (ix : nat -> Z) (v : iarray) : res iarray :=
  if negb (irreps_eqb (simplify (irr x)) (simplify (irr v))) then Err ValueError
  else
    let! v := rechunk v (irr x) in
    let n := hd 0 (lead x) in
    if negb (shape_eqb (lead v) [E]) then Err ValueError
    else
      mkIA (irr x) (lead x) (dim (irr x))
        (fun i => update_rows Rplus (all_idx [E]) (fun e => resolve_index MDrop n (ix (hd 0 e))) (arr v) (hd 0 i) [] (arr x i))
        (Some (and_flags (zero_flags x) (zero_flags v))) None.

(* linear_haiku.py:87-124: Linear(irreps_out) with the default arguments *)
Definition default_linear (C : conv) (y : irreps) : lmodule := LMod y None None NoBias (c_pn C) (c_gn C) None None false false true.

(* point_convolution.py:70-77: the edge attributes *)
Definition edge_attrs (C : conv) (vectors : iarray) : res iarray :=
  let! r := norm vectors false true in
  let! rad := as_irreps_array (lead r) (c_width C) (fun i => c_radial C (nth 0 (arr r i) 0%R)) in
  let! sh := spherical_harmonics (c_auto C) (OutList (seq 1 (c_sh_lmax C))) (InIrreps vectors) true (c_sh_norm C) None in
  concat_last [rad; sh].
(* point_convolution.py:83-92: the messages before they are mixed *)
Definition conv_combine (C : conv) (messages attrs : iarray) : res iarray :=
  let! m1 := ia_filter messages (Some (ByIrreps (map snd (c_target C)))) None None in
  let! sh := ia_filter attrs None (Some (ByIrreps [Irrep 0 Even])) None in
  let! m2 := tensor_product clebsch_gordan (c_inorm C) (Some (map snd (c_target C))) true messages sh in
  let! m := concat_last [m1; m2] in
  ia_regroup m.
(* point_convolution.py:94-102: the weights of the radial network and the product *)
Definition conv_mix (C : conv) (P : conv_params) (m attrs : iarray) : res iarray :=
  let! sc := ia_filter attrs (Some (ByIrreps [Irrep 0 Even])) None None in
  let! mix := mlp_call (c_conf C) (c_pts C) (Mlp (c_neurons C ++ [num_irreps (irr m)]) (Some (c_act C)) None OFalse false) (p_mlp P) (MIrreps sc) in
  match mix with
  | MIrreps mix => ia_mul clebsch_gordan m mix
  | MBare s w a => mul_bare clebsch_gordan m s w a
  end.
(* point_convolution.py:67-107: everything before linear_down; n_edges = E *)
Definition conv_gather (C : conv) (P : conv_params) (positions node_feats : iarray) (E : nat) (senders receivers : nat -> Z) : res iarray :=
  let! _ := assert (length (lead positions) =? 1) in
  let! _ := assert (length (lead node_feats) =? 1) in
  let! a := take_rows positions E receivers in
  let! b := take_rows positions E senders in
  let! vectors := sub a b in
  let! attrs := edge_attrs C vectors in
  let! x := module_call (default_linear C (irr node_feats)) (p_up P) NoWeights node_feats in
  let! messages := take_rows x E senders in
  let! m := conv_combine C messages attrs in
  let! m := conv_mix C P m attrs in
  let! z := zeros (irr m) (firstn 1 (lead x)) in
  let! y := at_add_index z E receivers m in
  div_scalar y [] (fun _ => sqrt (c_avg C)).
(* point_convolution.py:55-111  _call *)
Definition conv_call (C : conv) (P : conv_params) (positions node_feats : iarray) (E : nat) (senders receivers : nat -> Z) : res iarray :=
  let! y := conv_gather C P positions node_feats E senders receivers in
  module_call (default_linear C (c_target C)) (p_down P) NoWeights y.
