(* Model of the function shtp of e3nn_jax/experimental/linear_shtp.py.
   Floating point is replaced by R; dtypes are not modelled; a string given as filter_irreps_out is not modelled (the parser is in IrrepsStr.v). *)
From Coq Require Import Reals ZArith Arith Bool List.
From Verif Require Import PyBase IrrepsModel IrrepsProofs ArrayModel LeadModel SumR EntryProofs RotationModel WignerModel S2Model TpshModel.
Import ListNotations.
Open Scope R_scope.

(* filter_irreps_out: Irreps or a sequence of Irrep (linear_shtp.py:200-202) *)
Inductive filter_arg := FIrreps (x : irreps) | FList (l : list irrep).
Definition requested (f : filter_arg) : list irrep := match f with FIrreps x => map snd x | FList l => l end.
(* 203  sorted(set(filter_irreps_out)) *)
Definition sorted_irs (l : list irrep) : list irrep := sorted_by ir_ltb (nodup irrep_eq_dec l).
(* zeros.at[:, rows, cols].set(v): the index arrays are paired; one channel x one component, the leading axis (the copies) is broadcast *)
Definition set_at (z : nat -> nat -> R) (rows cols : list nat) (v : list R) : nat -> nat -> R :=
  fold_left (fun z '((a, b), t) j k => if (j =? a)%nat && (k =? b)%nat then t else z j k) (combine (combine rows cols) v) z.
(* 278-279  sl(l_data, l_extracted), applied to one row *)
Definition sl_row (l_data l_extracted : nat) (row : list R) : list R := firstn (2 * l_extracted + 1) (skipn (l_data - l_extracted) row).
(* 221-227  the symmetric part, on one row x = x[u, sl]: l + 1 channels *)
Definition sym_part (l lz : nat) (x : list R) : nat -> nat -> R :=
  let z := set_at (fun _ _ => 0) (seq 0 (l + 1)) (seq lz (l + 1)) (skipn l x) in
  set_at z (rev (seq 1 l)) (seq (lz - l) l) (firstn l x).
(* 237-242  the antisymmetric part: l channels *)
Definition anti_part (l lz : nat) (x : list R) : nat -> nat -> R :=
  let z := set_at (fun _ _ => 0) (seq 0 l) (rev (seq (lz - l) l)) (skipn (l + 1) x) in
  set_at z (seq 0 l) (seq (lz + 1) l) (rev (map Ropp (firstn l x))).
(* 228, 243  reshape of (mul, channels, irz.dim) to (mul * channels, irz.dim) *)
Definition part (sym : bool) (mul : nat) (irx irz : irrep) (c : chunk) : mulirrep * chunk :=
  let l := Nat.min (ir_l irx) (ir_l irz) in
  let n := if sym then (l + 1)%nat else l in
  ((mul * n, irz)%nat, Chunk [] (mul * n) (ir_dim irz) (fun i =>
    flat_map (fun row => let z := (if sym then sym_part else anti_part) l (ir_l irz) (sl_row (ir_l irx) l row) in map (fun j => tab (ir_dim irz) (z j)) (seq 0 n)) (c_val c i))).
(* 216-220, 234-235  which parts are computed: ird.p ** ly == py *)
Definition has_part (sym : bool) (p : parity) (irx irz : irrep) : bool :=
  let py := pmul (ir_p irx) (ir_p irz) in
  if sym then parity_eqb (ppow p ((ir_l irx + ir_l irz) mod 2)) py
  else parity_eqb (ppow p ((ir_l irx + ir_l irz + 1) mod 2)) py && (0 <? Nat.min (ir_l irx) (ir_l irz))%nat.
(* 205-246  the loops; the chunks come from an array rebuilt from its values, so none of them is None *)
Definition shtp_parts (p : parity) (irs : list irrep) (x : iarray) : list (mulirrep * chunk) :=
  flat_map (fun irz => flat_map (fun '((mul, irx), c) =>
    match c with
    | None => []
    | Some c => (if has_part true p irx irz then [part true mul irx irz c] else []) ++ (if has_part false p irx irz then [part false mul irx irz c] else [])
    end) (combine (irr x) (chunks x))) irs.
(* 168-257  shtp(input, direction, filter_irreps_out).  With an empty filter or an input with no entry the loop variable x of line 248 is unbound *)
Definition shtp (input direction : iarray) (filter_irreps_out : filter_arg) : res iarray :=
  let! _ := assert (match lead input with [] => true | _ => false end) in
  let! _ := assert (match lead direction with [] => (dim (irr direction) =? 3)%nat | _ => false end) in
  let! _ := assert (length (irr direction) =? 1)%nat in
  let! _ := assert (num_irreps (irr direction) =? 1)%nat in
  let ird := snd (nth 0 (irr direction) (0%nat, Irrep 0 Even)) in
  let! _ := assert (irrep_eqb ird (Irrep 1 Odd) || irrep_eqb ird (Irrep 1 Even)) in
  let! direction := mkIA (irr direction) (lead direction) 3 (fun i => normalize_row (arr direction i)) None None in
  let lock := gimbal_lock (arr direction []) in
  let! input := fix_gimbal_lock lock true input in
  let! direction := fix_gimbal_lock lock true direction in
  let '(alpha, beta) := xyz_to_angles (row_vec (arr direction [])) in
  let! input := transform_by_angles input (Some alpha) (Some beta) None 0 true in
  let irs := sorted_irs (requested filter_irreps_out) in
  let outputs := shtp_parts (ir_p ird) irs input in
  match irs, irr input with
  | [], _ | _, [] => Err NameError
  | _, _ =>
      let! out := from_chunks (map fst outputs) (map (fun o => Some (snd o)) outputs) [] true in
      let! out := ia_regroup out in
      let! out := transform_by_angles out (Some alpha) (Some beta) None 0 false in
      fix_gimbal_lock lock false out
  end.
