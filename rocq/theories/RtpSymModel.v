(* Model of _optimized_reduced_symmetric_tensor_product_basis (e3nn_jax/_src/reduced_tensor_product.py 320-535), the branch of
   _reduced_tensor_product_basis that is taken by default for a fully symmetric product of irreps made of more than one irrep,
   and the public entry points with this branch plugged in.  Conventions as in RtpModel.v. *)
From Coq Require Import Reals.
From Verif Require Import PyBase PermModel IrrepsModel ArrayModel LeadModel SumR EntryProofs CGModel TPModel MathModel SymModel RtpModel.
Open Scope nat_scope.

(* 396-401  cumsum_before(seq) = np.cumsum([0, *seq])[:-1] *)
Definition cumsum_before (l : list nat) : list nat := map (fun i => sum (firstn i l)) (seq 0 (length l)).
(* 403-408  cumsum_after(seq) = cumsum_before(seq[::-1])[::-1] *)
Definition cumsum_after (l : list nat) : list nat := rev (cumsum_before (rev l)).
(* 380-385  repeat_indices(indices, powers) *)
Definition repeat_indices (indices powers : list nat) : list nat := flat_map (fun '(i, p) => repeat i p) (combine indices powers).
(* 464-465  non_zero_indices and non_zero_powers *)
Definition non_zero_indices (powers : list nat) : list nat := filter (fun i => negb (nth i powers 0 =? 0)) (seq 0 (length powers)).
Definition non_zero_powers (powers : list nat) : list nat := filter (fun n => negb (n =? 0)) powers.

(* 387-394  itertools.permutations in its (lexicographic) order: choose the first element from left to right, then permute the others *)
Fixpoint picks (l : list nat) : list (nat * list nat) :=
  match l with [] => [] | a :: r => (a, r) :: map (fun '(b, s) => (b, a :: s)) (picks r) end.
Fixpoint permutations (n : nat) (l : list nat) : list (list nat) :=
  match n with 0 => [[]] | S n => flat_map (fun '(a, r) => map (cons a) (permutations n r)) (picks l) end.
(* 387-394, 495-506  the permuted sequences with the permutation that made them, without the sequences already seen *)
Fixpoint first_seen (seen : list (list nat)) (s : list nat) (ps : list (list nat)) : list (list nat * list nat) :=
  match ps with
  | [] => []
  | p :: ps => let u := map (fun i => nth i s 0) p in
      if existsb (list_eqb u) seen then first_seen seen s ps else (u, p) :: first_seen (u :: seen) s ps
  end.
Definition distinct_permutations (s : list nat) : list (list nat * list nat) := first_seen [] s (permutations (length s) (seq 0 (length s))).

(* position of m in l *)
Fixpoint position (m : nat) (l : list nat) : nat := match l with [] => 0 | a :: l => if a =? m then 0 else S (position m l) end.
(* 508-511  np.transpose(a, axes)[j] = a[i] with i[axes[k]] = j[k] *)
Definition transposed (axes j : list nat) : list nat := map (fun m => nth (position m axes) j 0) (seq 0 (length axes)).
(* 354-378, 513-519  the slice(start, total - stop) of every axis: is z in it, and where *)
Definition in_slices (dims u z : list nat) : bool :=
  forallb (fun '(i, k) => (nth i (cumsum_before dims) 0 <=? k) && (k <? sum dims - nth i (cumsum_after dims) 0)) (combine u z).
Definition local (dims u z : list nat) : list nat := map (fun '(i, k) => k - nth i (cumsum_before dims) 0) (combine u z).
(* 493-528  sum over the distinct permutations, divided by the square root of their number *)
Definition symmetrized (dims : list nat) (degree : nat) (s : list nat) (b : iarray) : res iarray :=
  let ps := distinct_permutations s in
  mkIA (irr b) (repeat (sum dims) degree) (dim (irr b))
    (fun z => map (fun c => lsum ps (fun '(u, p) => if in_slices dims u z then nth c (arr b (transposed p (local dims u z))) 0%R else 0%R) / sqrt (INR (length ps)))%R (seq 0 (dim (irr b)))) None None.

(* 410-429  reshape_for_basis_product: axes of size 1 before and after *)
Definition reshape_terms (terms : list iarray) (powers : list nat) : res (list iarray) :=
  mapM (fun '(k, t) => ia_reshape t (repeat 1 (nth k (cumsum_before powers) 0) ++ lead t ++ repeat 1 (nth k (cumsum_after powers) 0))) (enumerate terms).
Fixpoint multiply (cur : iarray) (ts : list iarray) (keep : option (list irrep)) : res iarray :=
  match ts with
  | [] => Ok cur
  | [t] => reduce_basis_product cur t keep
  | t :: ts => let! cur := reduce_basis_product cur t None in multiply cur ts keep
  end.
(* 478-488  product of the terms, two at a time; the filter is applied in the last product *)
Definition product_basis (terms : list iarray) (keep : option (list irrep)) : res iarray :=
  match terms with
  | [] => Err IndexError
  | [t] => match keep with None => Ok t | Some l => ia_filter t (Some (ByIrreps l)) None None end
  | t :: ts => multiply t ts keep
  end.

Section RtpSym.
Variables (eigh : list (list R) -> list R * list (list R)) (eps : R) (rnd : R -> R).
(* 434-443  irreps_powers[i][n], n = 1..degree; reduced_symmetric_tensor_product_basis is called with a single irrep, so that the optimised branch
   (which needs more than one) is not entered again: it is replaced by an error *)
Definition power_basis (cs : list irrep) (degree : nat) (keep : option (list irrep)) (c : irrep) (n : nat) : res iarray :=
  let one := map (fun ir => (1, ir)) in
  rtp_symmetric eigh eps rnd (fun _ _ _ => Err RuntimeError) true [(1, c)] n (tp_ir_seq keep (one (tp_ir_seq_pow (one cs) (degree - n)))).
(* 461-528  one tuple of powers; None = the product has dimension 0 and is skipped.  pw: irreps_powers without the entries n = 0 *)
Definition term_basis (cs : list irrep) (degree : nat) (keep : option (list irrep)) (pw : list (list iarray)) (powers : list nat) : res (option iarray) :=
  let idxs := non_zero_indices powers in
  let pows := non_zero_powers powers in
  let! terms := mapM (fun '(i, n) => let! l := get pw i in get l (n - 1)) (combine idxs pows) in
  let! terms := reshape_terms terms pows in
  let! b := product_basis terms keep in
  if dim (irr b) =? 0 then Ok None
  else let! y := symmetrized (map ir_dim cs) degree (repeat_indices idxs pows) b in Ok (Some y).
(* 320-535  _optimized_reduced_symmetric_tensor_product_basis(irreps, degree, keep_ir) *)
Definition optimized (x : irreps) (degree : nat) (keep : option (list irrep)) : res iarray :=
  let cs := flat_map (fun '(mul, ir) => repeat ir mul) x in
  let! pw := mapM (fun c => mapM (power_basis cs degree keep c) (seq 1 degree)) cs in
  let! l := mapM (term_basis cs degree keep pw) (tuples_with_sum (length cs) degree) in
  let! b := concatenate (flat_map (fun o => match o with None => [] | Some y => [y] end) l) (-1) in
  let! b := ia_sort b in
  mkIA (simplify (irr b)) (lead b) (dim (irr b)) (arr b) None None.

(* 68-204  the public functions *)
Definition basis_of_list (flag : bool) (irs : list irreps) (keep : option (list irrep)) : res iarray := rtp_of_list eigh eps rnd optimized flag irs keep.
Definition basis_of_formula (gfuel : nat) (flag : bool) (formula : IrrepsStr.chars) (kwargs : list (IrrepsStr.chars * irreps)) (keep : option (list irrep)) : option (res iarray) :=
  rtp_of_formula eigh eps rnd optimized gfuel flag formula kwargs keep.
Definition symmetric_basis (flag : bool) (x : irreps) (n : nat) (keep : option (list irrep)) : res iarray := rtp_symmetric eigh eps rnd optimized flag x n keep.
Definition antisymmetric_basis (flag : bool) (x : irreps) (n : nat) (keep : option (list irrep)) : res iarray := rtp_antisymmetric eigh eps rnd optimized flag x n keep.
End RtpSym.
