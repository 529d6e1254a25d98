(* Model of the rotation side of e3nn_jax/_src/reduced_tensor_product.py: _reduced_tensor_product_basis (general case), _tp_ir_seq, _tp_ir_seq_pow,
   reduce_basis_product, constrain_rotation_basis_by_permutation_basis, reduce_subgroup_permutation and the public entry points.
   The permutation side (germinate_perm_repr, formula irreps, subrepr_permutation, reduce_permutation_base/matrix) is SymModel.v.
   Conventions: frozensets of irreps are lists of which only the membership is used; frozensets of indices are increasing lists (CPython iterates
   over a set of integers smaller than 8 in increasing order; with nine indices or more the iteration order can differ, not modelled);
   np.linalg.eigh is the parameter [eigh]; round_to_sqrt_rational(_, 2**20) is the parameter [rnd], applied entry by entry; caching is not modelled. *)
From Coq Require Import Reals.
From Verif Require Import PyBase PermModel IrrepsModel ArrayModel LeadModel SumR EntryProofs CGModel TPModel MathModel SymModel.
Open Scope nat_scope.

(* 302-310  _tp_ir_seq(irs1, irs2) where irs1 is a set of irreps (or None) and irs2 an Irreps *)
Definition tp_ir_seq (k : option (list irrep)) (x : irreps) : option (list irrep) :=
  match k with None => None | Some l => Some (flat_map (fun a => flat_map (fun m => ir_mul a (snd m)) x) l) end.
(* 313-319  _tp_ir_seq_pow(irs, n) for an Irreps irs *)
Definition tp_ir_seq_pow (x : irreps) (n : nat) : list irrep :=
  Nat.iter n (fun l => flat_map (fun a => flat_map (fun m => ir_mul a (snd m)) x) l) [Irrep 0 Even].

(* 580-614  reduce_basis_product(basis1, basis2, filter_ir_out): einsum broadcasts the leading axes; a chunk that is None cannot occur here
   (the arrays are dense) and is read as zeros *)
Definition reduce_basis_product (a b : iarray) (keep : option (list irrep)) : res iarray :=
  let! a := ia_regroup a in
  let! b := ia_regroup b in
  let! r := prepare a b in
  let '(a, b, s) := r in
  let! z := bil_core clebsch_gordan NComponent (tp_paths NComponent keep (irr a) (irr b)) a b s in
  ia_regroup z.

(* sorted({ir for mul, ir in irreps}) *)
Fixpoint insert_ir (a : irrep) (l : list irrep) : list irrep :=
  match l with [] => [a] | b :: r => if irrep_eqb a b then l else if ir_ltb b a then b :: insert_ir a r else a :: l end.
Definition ir_set (x : irreps) : list irrep := fold_right insert_ir [] (map snd x).

Definition nonzero (v : R) : bool := if Req_EM_T v 0 then false else true.
(* chunks read at a leading index; None (which does not occur) as zeros *)
Definition chunk_rows (m : mulirrep) (c : option chunk) (z : idx) : list (list R) :=
  match c with Some c => c_val c z | None => zeros_rows (fst m) (ir_dim (snd m)) end.
(* 634-636  rot_basis: the chunks of irrep ir concatenated along the multiplicity axis *)
Definition rot_basis (x : iarray) (ir : irrep) (z : idx) : list (list R) :=
  flat_map (fun '(m, c) => if irrep_eqb ir (snd m) then chunk_rows m c z else []) (combine (irr x) (chunks x)).
Definition ir_count (x : irreps) (ir : irrep) : nat := sum (map (fun m => if irrep_eqb ir (snd m) then fst m else 0) x).
(* 637-638  R = rot_basis[..., 0] reshaped to (-1, mul) and transposed *)
Definition first_rows (x : iarray) (ir : irrep) : list (list R) :=
  map (fun u => map (fun z => nth 0 (nth u (rot_basis x ir z) []) 0%R) (all_idx (lead x))) (seq 0 (ir_count (irr x) ir)).
(* 641  perm[~np.all(perm[:, ~np.all(R == 0, axis=0)] == 0, axis=1)] *)
Definition perm_opt (d : nat) (Rm perm : list (list R)) : list (list R) :=
  filter (fun p => existsb (fun j => existsb (fun r => nonzero (nth j r 0%R)) Rm && nonzero (nth j p 0%R)) (seq 0 d)) perm.
(* 617-659  constrain_rotation_basis_by_permutation_basis(rotation_basis, permutation_basis, epsilon), round_fn = identity;
   permutation_basis of shape (len perm,) + s *)
Definition constrain_chunk (x : iarray) (ir : irrep) (P : list (list R)) : chunk :=
  Chunk (lead x) (length P) (ir_dim ir) (fun z => map (fun p => map (fun i => rsum (ir_count (irr x) ir) (fun u => nth u p 0 * nth i (nth u (rot_basis x ir z) []) 0)%R) (seq 0 (ir_dim ir))) P).
Definition constrain (eigh : list (list R) -> list R * list (list R)) (eps : R) (x : iarray) (s : shape) (perm : list (idx -> R)) : res iarray :=
  let! _ := assert (shape_eqb (lead x) s) in
  let perm := map (fun p => map p (all_idx s)) perm in
  let! l := mapM (fun ir =>
    let Rm := first_rows x ir in
    let! PP := basis_intersection eigh eps (fun v => v) (prod s) (prod s) Rm (perm_opt (prod s) Rm perm) in
    Ok ((length (fst PP), ir), constrain_chunk x ir (fst PP))) (ir_set (irr x)) in
  from_chunks (map fst l) (map (fun p => Some (snd p)) l) (lead x) true.

(* membership in a set of indices *)
Definition inb (f : list nat) (i : nat) : bool := existsb (Nat.eqb i) f.
(* (dims[i] if i in f else 1 for i in range(len(dims))) *)
Definition masked (f : list nat) (dims : shape) : shape := map (fun i => if inb f i then nth i dims 0 else 1) (seq 0 (length dims)).
Definition picked {A} (f : list nat) (l : list A) (d : A) : list A := map (fun i => nth i l d) f.
(* fa | fb *)
Definition set_union (n : nat) (f g : list nat) : list nat := filter (fun i => inb f i || inb g i) (seq 0 n).

(* 674-695  reduce_subgroup_permutation(..., return_dim=True) *)
Definition subgroup_dim (f : list nat) (g : list signed) (dims : shape) : res nat :=
  let! h := subrepr_permutation f g in
  if length h =? 1 then Ok (prod (picked f dims 0))
  else let! base := reduce_permutation_base h (picked f dims 0) in Ok (length base).
(* 674-695  reduce_subgroup_permutation: the rows, as arrays of shape [masked f dims]; numpy cannot infer the axis -1 next to an axis of size 0 *)
Definition reduce_subgroup_permutation (f : list nat) (g : list signed) (dims : shape) : res (list (idx -> R)) :=
  let! h := subrepr_permutation f g in
  let sub := picked f dims 0 in
  if length h =? 1 then Ok (map (fun k z => if ravel sub z =? k then 1%R else 0%R) (seq 0 (prod sub)))
  else
    let! base := reduce_permutation_base h sub in
    if existsb (Nat.eqb 0) (masked f dims) then Err ValueError
    else Ok (map (fun q z => q (unravel sub (ravel (masked f dims) z))) (reduce_permutation_matrix base sub)).

(* 752-757  _rounding *)
Definition rounding (rnd : R -> R) (x : iarray) : res iarray := mkIA (irr x) (lead x) (dim (irr x)) (fun i => map rnd (arr x i)) None None.

(* 226-240  the identity basis of index i *)
Definition eye_basis (irs : list irreps) (i : nat) : res iarray :=
  let x := nth i irs [] in
  mkIA x (masked [i] (map dim irs)) (dim x) (fun z => map (fun q => if nth i z 0 =? q then 1%R else 0%R) (seq 0 (dim x))) None None.

(* 262-277  the pairs (i, j), i < j, in the order of the loops, and the first one with the smallest dimension *)
Definition index_pairs (n : nat) : list (nat * nat) := flat_map (fun i => map (fun j => (i, j)) (seq (S i) (n - S i))) (seq 0 n).
Definition first_min {A} (l : list (nat * A)) : option A :=
  option_map snd (fold_left (fun best c => match best with None => Some c | Some b => if fst c <? fst b then Some c else best end) l None).
(* 285-288  keep *)
Definition keep_without (f : list nat) (irs : list irreps) (keep : option (list irrep)) : option (list irrep) :=
  fold_left (fun k '(i, x) => if inb f i then k else tp_ir_seq k x) (enumerate irs) keep.

Section Rtp.
Variables (eigh : list (list R) -> list R * list (list R)) (eps : R) (rnd : R -> R).
Definition basis := (list nat * iarray)%type.
Definition dbasis : basis := ([], IA [] [] (fun _ => []) None None).

(* 242-299  one merging step with at least three bases: choose the pair, compute its basis with the recursive call, put it in front *)
Definition merge_step (rec : list irreps -> list signed -> option (list irrep) -> res iarray) (irs : list irreps) (g : list signed) (keep : option (list irrep)) (bases : list basis) : res (list basis) :=
  let n := length irs in
  let! cand := mapM (fun '(i, j) =>
    let f := set_union n (fst (nth i bases dbasis)) (fst (nth j bases dbasis)) in
    let! d := subgroup_dim f g (map dim irs) in Ok (d, (i, j, f))) (index_pairs (length bases)) in
  match first_min cand with
  | None => Err TypeError
  | Some (i, j, f) =>
      let rest := remove_at i (remove_at j bases) in
      let! h := subrepr_permutation f g in
      let! ab := rec (picked f irs []) h (keep_without f irs keep) in
      let! ab := ia_reshape ab (masked f (map dim irs)) in
      Ok ((f, ab) :: rest)
  end.
(* 242-299  the while loop; [steps] bounds the number of merging steps (every step removes one basis, so that the number of indices is enough;
   running out of steps is reported as RuntimeError and does not happen, see C58) *)
Fixpoint rtp_loop (steps : nat) (rec : list irreps -> list signed -> option (list irrep) -> res iarray) (irs : list irreps) (g : list signed) (keep : option (list irrep)) (bases : list basis) : res iarray :=
  match bases with
  | [] => Err RuntimeError
  | [(f, b)] =>
      let! _ := assert (list_eqb f (seq 0 (length irs))) in
      let! b := (match keep with None => Ok b | Some l => ia_filter b (Some (ByIrreps l)) None None end) in
      ia_regroup b
  | [(fa, a); (fb, b)] =>
      let f := set_union (length irs) fa fb in
      let! ab := reduce_basis_product a b keep in
      let! h := subrepr_permutation f g in
      if length h =? 1 then ia_regroup ab
      else
        let! p := reduce_subgroup_permutation f g (map dim irs) in
        let! ab := constrain eigh eps ab (masked f (map dim irs)) p in
        let! ab := ia_regroup ab in
        rounding rnd ab
  | _ =>
      match steps with
      | 0 => Err RuntimeError
      | S steps => let! bases := merge_step rec irs g keep bases in rtp_loop steps rec irs g keep bases
      end
  end.
(* 224-299  the general case *)
Definition rtp_general (rec : list irreps -> list signed -> option (list irrep) -> res iarray) (irs : list irreps) (g : list signed) (keep : option (list irrep)) : res iarray :=
  let! bases := mapM (fun i => let! b := eye_basis irs i in Ok ([i], b)) (seq 0 (length irs)) in
  rtp_loop (length irs) rec irs g keep bases.

(* the optimised symmetric case is a parameter here (it is defined in RtpSymModel.v) *)
Variable optimized : irreps -> nat -> option (list irrep) -> res iarray.
Definition same_set (g h : list signed) : bool := forallb (fun a => smem a h) g && forallb (fun a => smem a g) h.
(* 205-299  _reduced_tensor_product_basis(irreps_tuple, perm_repr, keep_ir, epsilon, _use_optimized_implementation); [fuel] bounds the depth of the recursion *)
Fixpoint rtp (fuel : nat) (flag : bool) (irs : list irreps) (g : list signed) (keep : option (list irrep)) : res iarray :=
  match fuel with
  | 0 => Err RuntimeError
  | S fuel =>
      let! sym := (if flag then symmetric_perm_repr (length irs) else Ok []) in
      if flag && same_set g sym && (1 <? length irs) && (1 <? num_irreps (nth 0 irs []))
      then let! b := optimized (nth 0 irs []) (length irs) keep in rounding rnd b
      else rtp_general (rtp fuel flag) irs g keep
  end.

(* 68-77  reduced_tensor_product_basis(irreps_list): no symmetry; keep_ir is given as a set of irreps *)
Definition rtp_of_list (flag : bool) (irs : list irreps) (keep : option (list irrep)) : res iarray :=
  rtp (S (length irs)) flag irs [(1%Z, identity (length irs))] keep.
(* 79-114  reduced_tensor_product_basis(formula, i=..., j=...); None = the group generation ran out of fuel (it does not, see C50) *)
Definition rtp_of_formula (gfuel : nat) (flag : bool) (formula : IrrepsStr.chars) (kwargs : list (IrrepsStr.chars * irreps)) (keep : option (list irrep)) : option (res iarray) :=
  match germinate_perm_repr gfuel formula with
  | None => None
  | Some (Err e) => Some (Err e)
  | Some (Ok (f0, g)) => Some (let! irs := formula_irreps kwargs f0 g in rtp (S (length irs)) flag irs g keep)
  end.
(* 121-159  reduced_symmetric_tensor_product_basis(irreps, degree) and 166-204  reduced_antisymmetric_tensor_product_basis(irreps, degree) *)
Definition rtp_symmetric (flag : bool) (x : irreps) (n : nat) (keep : option (list irrep)) : res iarray :=
  let! g := symmetric_perm_repr n in rtp (S n) flag (repeat x n) g keep.
Definition rtp_antisymmetric (flag : bool) (x : irreps) (n : nat) (keep : option (list irrep)) : res iarray :=
  let! g := antisymmetric_perm_repr n in rtp (S n) flag (repeat x n) g keep.
End Rtp.
