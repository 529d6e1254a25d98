(* Model of e3nn_jax/experimental/voxel_convolution.py (the functions _tp_weight, _kernel and _call, shared by ConvolutionHaiku and ConvolutionFlax).
   Floating point is replaced by R and dtypes are not modelled.  The parameters are arguments; the configuration values are fields. *)
From Coq Require Import Reals ZArith Arith Bool List.
From Verif Require Import PyBase IrrepsModel NormModel ArrayModel ArrayOps LeadModel SumR TPModel LinearModel LegacyModel RadialModel CGModel WignerModel S2Model SHModel.
From Verif Require Import LinearProofs.
Import ListNotations.
Open Scope R_scope.

(* voxel_convolution.py:33-55  the constructor arguments.  num_radial_basis and relative_starts are given for every degree (a single value is a constant
   function; a missing key, KeyError, is not modelled).  padding is "SAME" (true) or "VALID" (false).
   c_inorm, c_pn, c_gn, c_shnorm, c_auto: config irrep_normalization, path_normalization, gradient_normalization, spherical_harmonics_normalization, spherical_harmonics_algorithm *)
Record vconv := VC { v_out : irreps; v_sh : irreps; v_diameter : R; v_number : nat -> nat; v_start : nat -> R; v_steps : nat -> R; v_same : bool;
  v_inorm : inorm; v_pn : R; v_gn : R; v_shnorm : s2norm; v_auto : option (list keyword) }.
(* the parameters: one array of shape (number,) + path_shape for each instruction of the tensor product, one array for each instruction of the linear layer (flat content) *)
Record vparams := VP { p_tp : list (list R); p_self : list (list R) }.
Definition kmatrix := list (list R).

Definition norm3 (p : list R) : R := sqrt (nth 0 p 0 ^ 2 + nth 1 p 0 ^ 2 + nth 2 p 0 ^ 2).
(* 180-189  s = floor(r / steps[axis]), with the static steps *)
Definition reach (C : vconv) (axis : nat) : nat := Z.to_nat (Int_part (v_diameter C / 2 / v_steps C axis)).
Definition side_len (C : vconv) (axis : nat) : nat := (2 * reach C axis + 1)%nat.
(* 191-192  lattice[a, b, c], with the given steps *)
Definition lattice (C : vconv) (steps : nat -> R) (a b c : nat) : list R :=
  [(INR a - INR (reach C 0)) * steps 0%nat; (INR b - INR (reach C 1)) * steps 1%nat; (INR c - INR (reach C 2)) * steps 2%nat].
(* 124-166  _tp_weight at one point of the lattice *)
Definition tp_weight (C : vconv) (T : ftp) (p : list R) (o : tinstr) (w : list R) : res tensor :=
  let l := ir_l (snd (entry_of (tp_in2 T) (ti_2 o))) in
  let! embedding := soft_one_hot_linspace (norm3 p) (v_start C l * v_diameter C / 2) (v_diameter C / 2) (v_number C l) SmoothFinite None (Some true) (Some true) in
  let size := nprod (path_shape o) in
  Ok (Tensor (path_shape o) (map (fun j => rsum (v_number C l) (fun k => nth k embedding 0 * nth (k * size + j) w 0) / INR (side_len C 0 * side_len C 1 * side_len C 2)) (seq 0 size))).
(* 195-221  the matrix at one point of the lattice, before the center is replaced *)
Definition off_center (C : vconv) (T : ftp) (P : vparams) (p : list R) : res kmatrix :=
  let! ws := mapM (fun ow => tp_weight C T p (fst ow) (snd ow)) (combine (tp_ins T) (p_tp P)) in
  let! sh := spherical_harmonics (v_auto C) (OutIrreps (v_sh C)) (InArray [] 3 (fun _ => p)) true (v_shnorm C) None in
  right clebsch_gordan T ws sh.
(* 169-235  _kernel: indexed by the three offsets *)
Definition kernel (C : vconv) (P : vparams) (x y : irreps) (steps : option (nat -> R)) : res (list (list (list kmatrix))) :=
  let steps := match steps with Some s => s | None => v_steps C end in
  let! T := functional_fctp x (v_sh C) y None None None (v_inorm C) (v_pn C) (v_gn C) in
  let! L := functional_linear x y None NoBias (v_pn C) (v_gn C) in
  let! center := linear_matrix L (p_self P) in
  mapM (fun a => mapM (fun b => mapM (fun c =>
    let! k := off_center C T P (lattice C steps a b c) in
    Ok (if ((a =? side_len C 0 / 2) && (b =? side_len C 1 / 2) && (c =? side_len C 2 / 2))%nat then center else k))
    (seq 0 (side_len C 2))) (seq 0 (side_len C 1))) (seq 0 (side_len C 0)).
(* 260-269  lax.conv_general_dilated with strides 1 and layout NXYZC, XYZIO: a correlation; out of the grid the input is 0.  "SAME" pads an odd kernel of 2 s + 1 points
   with s points on both sides, "VALID" does not pad *)
Definition conv_row (C : vconv) (K : list (list (list kmatrix))) (dout : nat) (X Y Z : nat) (x : iarray) (i : idx) : list R :=
  let pad axis := if v_same C then reach C axis else 0%nat in
  let n := nth 0 i 0%nat in
  rowsum dout (flat_map (fun a => flat_map (fun b => flat_map (fun c =>
    let a' := (nth 1 i 0 + a)%nat in let b' := (nth 2 i 0 + b)%nat in let c' := (nth 3 i 0 + c)%nat in
    if ((pad 0 <=? a') && (a' - pad 0 <? X) && (pad 1 <=? b') && (b' - pad 1 <? Y) && (pad 2 <=? c') && (c' - pad 2 <? Z))%nat
    then [vecmat dout (arr x [n; a' - pad 0; b' - pad 1; c' - pad 2])%nat (nth c (nth b (nth a K []) []) [])] else [])
    (seq 0 (side_len C 2))) (seq 0 (side_len C 1))) (seq 0 (side_len C 0))).
(* 271-282  the chunks of the output, None for the entries that were left out *)
Fixpoint place_chunks (out kept : irreps) (cs : list (option chunk)) : list (option chunk) :=
  match out with
  | [] => []
  | m :: out => match kept, cs with
                | m' :: kept', c :: cs' => if irreps_eqb [m'] [m] then c :: place_chunks out kept' cs' else None :: place_chunks out kept cs
                | _, _ => None :: place_chunks out kept cs
                end
  end.
(* 248-258 *)
Definition reachable (C : vconv) (x : irreps) (ir : irrep) : bool :=
  existsb (fun a => existsb (fun b => existsb (irrep_eqb ir) (ir_mul (snd a) (snd b))) (v_sh C)) x.
Definition kept_out (C : vconv) (x : irreps) : irreps := filter (fun m => reachable C x (snd m)) (v_out C).
(* 238-284  _call *)
Definition vconv_call (C : vconv) (P : vparams) (input : iarray) (steps : option (nat -> R)) : res iarray :=
  let! input := remove_zero_chunks input in
  let! input := ia_simplify input in
  let y := kept_out C (irr input) in
  match lead input with
  | [B; X; Y; Z] =>
      let! K := kernel C P (irr input) y steps in
      let len n axis := if v_same C then n else (n - 2 * reach C axis)%nat in
      let! output := mkIA y [B; len X 0; len Y 1; len Z 2]%nat (dim y) (conv_row C K (dim y) X Y Z input) None None in
      if irreps_eqb y (v_out C) then Ok output else from_chunks (v_out C) (place_chunks (v_out C) y (chunks output)) (lead output) true
  | _ => Err TypeError
  end.
