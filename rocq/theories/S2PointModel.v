(* Model of to_s2point and s2_dirac of e3nn_jax/_src/s2grid.py.  Floating point is replaced by R; dtype promotion is ignored. *)
From Coq Require Import Reals ZArith Arith Bool.
From Verif Require Import PyBase IrrepsModel ArrayModel LeadModel SumR RechunkProofs S2Model SHModel S2Proofs2 EntryProofs.
Import ListNotations.
Open Scope R_scope.

(* s2grid.py:1241-1288  to_s2point(coeffs, point, normalization); [auto] is config("spherical_harmonics_algorithm").
   `sh * n` (an array with one number per irrep) is written out as the scaling of every copy; reshape((-1, w)) reads the rows in the order of [ravel]. *)
Definition to_s2point (auto : option (list keyword)) (coeffs point : iarray) (n : s2norm) : res iarray :=
  let! c := ia_regroup coeffs in
  if negb (all_ones (irr c)) then Err ValueError
  else match irr point with
       | [(1%nat, Irrep 1 p_arg)] =>
           let! p := check_parities (irr c) None (Some p_arg) in
           let! sh := spherical_harmonics auto (OutList (ls (irr c))) (InIrreps point) true Integral None in
           let! L := lmax (irr sh) in
           let sh_row i := rowof (irr sh) (fun k u j => entry (irr sh) (arr sh i) k u j * norm_to_s2 L n (deg (irr sh) k)) in
           match fst p with
           | None => Err KeyError
           | Some p_val =>
               let s := lead c ++ lead point in
               (* einsum("ai,bi->ab", sh, coeffs).reshape(shape1 + shape2 + (1,)): the value at position f of the flattened result is that of a = f / N1, b = f mod N1 *)
               let N1 := prod (lead c) in
               let value f := rsum (dim (irr c)) (fun k => nth k (sh_row (unravel (lead point) (f / N1)%nat)) 0 * nth k (arr c (unravel (lead c) (f mod N1)%nat)) 0) in
               mkIA [(1%nat, Irrep 0 p_val)] s 1 (fun i => [value (ravel s i)]) None None
           end
       | _ => Err ValueError
       end.

(* s2grid.py:685-760  s2_dirac(position, lmax, p_val, p_arg) *)
Definition s2_dirac (auto : option (list keyword)) (position : sh_in) (lmax : nat) (p_val p_arg : parity) : res iarray :=
  let! c := spherical_harmonics auto (OutIrreps (s2_irreps lmax p_val p_arg)) position true Integral None in
  div_scalar c [] (fun _ => sqrt (4 * PI)).
