(* Model of e3nn_jax/_src/tensor_products.py and of the array products of irreps_array.py that call it.
   The coupling tensors are a parameter [cg]: clebsch_gordan(l1, l2, l3)[i, j, k] is [cg l1 l2 l3 i j k]
   (so3.py:26-53 is modelled separately, in CGModel.v). *)
From Verif Require Import PyBase PermModel IrrepsModel ArrayModel LeadModel SumR.
From Coq Require Import Reals.
Open Scope nat_scope.

Definition coupling := nat -> nat -> nat -> nat -> nat -> nat -> R.
(* the irrep_normalization argument; NOther is any unsupported string *)
Inductive inorm := NComponent | NNorm | NNone | NOther.

(* one output entry: input entries [b_in1], [b_in2]; for each output copy the pair of input copies that are coupled;
   the multiplicity and irrep that are declared; the factor in front of the coupling tensor *)
Record bpath := BP { b_in1 : nat; b_in2 : nat; b_pairs : list (nat * nat); b_mul : nat; b_out : irrep; b_alpha : R }.

(* einsum("...ui , ...vj , ijk -> ...uvk") and the reshape to (mul_1 * mul_2, dim): copies in row-major order (u, v) *)
Definition pairs_all (m1 m2 : nat) : list (nat * nat) := flat_map (fun u => map (fun v => (u, v)) (seq 0 m2)) (seq 0 m1).
(* einsum("...ui , ...uj , ijk -> ...uk") *)
Definition pairs_diag (m : nat) : list (nat * nat) := map (fun u => (u, u)) (seq 0 m).
(* itertools.combinations(range(mul), 2): the one-hot tensor uvw selects these pairs in this order *)
Definition pairs_lt (m : nat) : list (nat * nat) := flat_map (fun u => map (fun v => (u, v)) (seq (S u) (m - S u))) (seq 0 m).

(* the contraction of two chunks with factor * cg *)
Definition bil_chunk (cg : coupling) (s : shape) (x y : irreps) (cx cy : list (option chunk)) (p : bpath) : option chunk :=
  let a := snd (nth (b_in1 p) x (0, Irrep 0 Even)) in
  let b := snd (nth (b_in2 p) y (0, Irrep 0 Even)) in
  match nth (b_in1 p) cx None, nth (b_in2 p) cy None with
  | Some c, Some d =>
      Some (Chunk s (b_mul p) (ir_dim (b_out p)) (fun i => map (fun '(u, v) =>
        map (fun k => rsum (ir_dim a) (fun e => rsum (ir_dim b) (fun f =>
          nth e (nth u (c_val c i) []) 0 * nth f (nth v (c_val d i) []) 0 * (cg (ir_l a) (ir_l b) (ir_l (b_out p)) e f k * b_alpha p)))%R) (seq 0 (ir_dim (b_out p))))
        (b_pairs p)))
  | _, _ => None
  end.
Definition bil_out (ps : list bpath) : irreps := map (fun p => (b_mul p, b_out p)) ps.
Definition bil_core (cg : coupling) (nrm : inorm) (ps : list bpath) (x y : iarray) (s : shape) : res iarray :=
  let cs := map (bil_chunk cg s (irr x) (irr y) (chunks x) (chunks y)) ps in
  (* the normalisation is only looked at when a chunk is computed *)
  if (match nrm with NOther => existsb (fun c => match c with Some _ => true | None => false end) cs | _ => false end)
  then Err ValueError
  else from_chunks (bil_out ps) cs s true.

(* tensor_products.py:14-28  _prepare_inputs (dtypes are not modelled) *)
Definition prepare (x y : iarray) : res (iarray * iarray * shape) :=
  let! s := broadcast_shapes (lead x) (lead y) in
  let! x := broadcast_to x s in
  let! y := broadcast_to y s in
  Ok (x, y, s).

(* tensor_products.py:104-116, 193-204: the factor multiplying the coupling *)
Definition norm_factor (nrm : inorm) (a b c : irrep) : R :=
  match nrm with
  | NComponent => sqrt (INR (ir_dim c))
  | NNorm => sqrt (INR (ir_dim a * ir_dim b))
  | _ => 1%R
  end.
Definition passes (flt : option (list irrep)) (c : irrep) : bool :=
  match flt with None => true | Some l => existsb (irrep_eqb c) l end.

(* tensor_products.py:93-101 *)
Definition tp_paths (nrm : inorm) (flt : option (list irrep)) (x y : irreps) : list bpath :=
  flat_map (fun '(k1, (m1, a)) => flat_map (fun '(k2, (m2, b)) =>
    map (fun c => BP k1 k2 (pairs_all m1 m2) (m1 * m2) c (norm_factor nrm a b c)) (filter (passes flt) (ir_mul a b)))
    (enumerate y)) (enumerate x).
(* tensor_products.py:41-135  tensor_product *)
Definition tensor_product (cg : coupling) (nrm : inorm) (flt : option (list irrep)) (regroup_output : bool) (x y : iarray) : res iarray :=
  let! r := prepare x y in
  let '(x, y, s) := r in
  let! x := (if regroup_output then ia_regroup x else Ok x) in
  let! y := (if regroup_output then ia_regroup y else Ok y) in
  let! z := bil_core cg nrm (tp_paths nrm flt (irr x) (irr y)) x y s in
  let! z := ia_sort z in
  if regroup_output then ia_regroup z else Ok z.

(* tensor_products.py:183-191: aligned entries *)
Definition ew_paths (nrm : inorm) (flt : option (list irrep)) (x y : irreps) : list bpath :=
  flat_map (fun '(k, ((m, a), (_, b))) =>
    map (fun c => BP k k (pairs_diag m) m c (norm_factor nrm a b c)) (filter (passes flt) (ir_mul a b)))
    (enumerate (combine x y)).
(* tensor_products.py:139-213  elementwise_tensor_product *)
Definition elementwise_tensor_product (cg : coupling) (nrm : inorm) (flt : option (list irrep)) (x y : iarray) : res iarray :=
  let! r := prepare x y in
  let '(x, y, s) := r in
  if negb (num_irreps (irr x) =? num_irreps (irr y)) then Err ValueError
  else
    let! r := align_two_arrays x y in
    let '(x, y) := r in
    bil_core cg nrm (ew_paths nrm flt (irr x) (irr y)) x y s.
(* the same on Irreps (utils/decorators.py overload_for_irreps_without_array: only the output irreps are kept) *)
Definition elementwise_irreps (flt : option (list irrep)) (x y : irreps) : res irreps :=
  if negb (num_irreps x =? num_irreps y) then Err ValueError
  else let! r := align_two_irreps x y in let '(u, v) := r in Ok (bil_out (ew_paths NNone flt u v)).

(* tensor_products.py:256-276, 313-342  alpha *)
Definition ts_alpha (nrm : inorm) (normalized : bool) (a b c : irrep) : R :=
  let d1 := INR (ir_dim a) in let d2 := INR (ir_dim b) in let d := INR (ir_dim c) in
  match nrm, normalized with
  | NComponent, true => (d1 * d2 * d)%R
  | NNorm, true => (d1 * d2)%R
  | NComponent, false => d
  | NNorm, false => (d1 * d2)%R
  | _, _ => 1%R
  end.
Definition ts_alpha_diag (nrm : inorm) (normalized : bool) (a c : irrep) : R :=
  let d1 := INR (ir_dim a) in let d := INR (ir_dim c) in
  match nrm, normalized, (ir_l c =? 0) with
  | NComponent, true, true => (d * d1)%R
  | NComponent, true, false => (d1 * (d1 + 2) / 2 * d)%R
  | NNorm, true, true => (d * d1)%R
  | NNorm, true, false => (d1 * (d1 + 2) / 2)%R
  | NComponent, false, true => (d / (d1 + 2))%R
  | NComponent, false, false => (d / 2)%R
  | NNorm, false, true => (d1 * d1 / (d1 + 2))%R
  | NNorm, false, false => (d1 * d1 / 2)%R
  | _, _, _ => 1%R
  end.
(* tensor_products.py:253-363 *)
Definition ts_paths (nrm : inorm) (normalized : bool) (x : irreps) : list bpath :=
  flat_map (fun '(k1, (m1, a)) => flat_map (fun '(k2, (m2, b)) => flat_map (fun c =>
    let al := sqrt (ts_alpha nrm normalized a b c) in
    if (k1 <? k2) then [BP k1 k2 (pairs_all m1 m2) (m1 * m2) c al]
    else if (k1 =? k2) then
      (if (1 <? m1) then [BP k1 k1 (pairs_lt m1) (m1 * (m1 - 1) / 2) c al] else [])
      ++ (if Nat.even (ir_l c) then [BP k1 k1 (pairs_diag m1) m1 c (sqrt (ts_alpha_diag nrm normalized a c))] else [])
    else []) (ir_mul a b)) (enumerate x)) (enumerate x).
(* tensor_products.py:217-372  tensor_square *)
Definition tensor_square (cg : coupling) (nrm : inorm) (normalized regroup_output : bool) (x : iarray) : res iarray :=
  let! x := (if regroup_output then ia_regroup x else Ok x) in
  let! _ := assert (match nrm with NOther => false | _ => true end) in
  let! z := bil_core cg nrm (ts_paths nrm normalized (irr x)) x x (lead x) in
  let! z := ia_sort z in
  if regroup_output then ia_regroup z else Ok z.

(* irreps_array.py:370-392  IrrepsArray * IrrepsArray; the configured irrep_normalization is "component" by default *)
Definition ia_mul (cg : coupling) (x y : iarray) : res iarray :=
  if negb (num_irreps (irr x) =? num_irreps (irr y)) then Err ValueError
  else
    let! o := elementwise_irreps None (irr x) (irr y) in
    if negb (num_irreps o =? num_irreps (irr x)) then Err ValueError
    else elementwise_tensor_product cg NComponent None x y.
(* irreps_array.py:393-405  IrrepsArray * array of shape s + (w,): one scalar per irrep copy, one scalar for all, or rejected *)
Definition mul_bare (cg : coupling) (x : iarray) (s : shape) (w : nat) (b : idx -> list R) : res iarray :=
  if (w =? num_irreps (irr x)) then
    let! y := mkIA [(w, Irrep 0 Even)] s w b None None in
    elementwise_tensor_product cg NComponent None x y
  else
    let! l := lmax (irr x) in
    if (0 <? l) && negb (w =? 1) then Err ValueError
    else if (w =? 1) then mul_scalar x s (fun i => nth 0 (b i) 0%R)
    else Err TypeError (* array broadcasting fails: w is neither 1 nor num_irreps = dim when lmax = 0 *).
(* irreps_array.py:410-447  IrrepsArray / IrrepsArray and IrrepsArray / array *)
Definition ia_rdiv (x : iarray) : res iarray :=
  let! l := lmax (irr x) in
  if 0 <? l then Err ValueError
  else if existsb (fun c => match c with None => true | Some _ => false end) (chunks x) then Err ValueError
  else mkIA (irr x) (lead x) (dim (irr x)) (fun i => map (fun v => 1 / v)%R (arr x i)) None None.
Definition ia_div (cg : coupling) (x y : iarray) : res iarray :=
  match irr y with
  | [] => Err ValueError
  | _ =>
    let! l := lmax (irr y) in
    if (0 <? l) || negb (num_irreps (irr x) =? num_irreps (irr y)) then Err ValueError
    else if existsb (fun c => match c with None => true | Some _ => false end) (chunks y) then Err ValueError
    else let! y := ia_rdiv y in elementwise_tensor_product cg NComponent None x y
  end.
Definition div_bare (cg : coupling) (x : iarray) (s : shape) (w : nat) (b : idx -> list R) : res iarray :=
  if (w =? num_irreps (irr x)) then
    let! y := mkIA [(w, Irrep 0 Even)] s w (fun i => map (fun v => 1 / v)%R (b i)) None None in
    elementwise_tensor_product cg NComponent None x y
  else
    let! l := lmax (irr x) in
    if (0 <? l) && negb (w =? 1) then Err ValueError
    else if (w =? 1) then div_scalar x s (fun i => nth 0 (b i) 0%R)
    else Err TypeError.
