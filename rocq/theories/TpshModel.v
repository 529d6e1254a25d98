(* Model of e3nn_jax/_src/tensor_product_with_spherical_harmonics.py.
   Floating point is replaced by R; jnp.allclose in the two verifications (the harmonics at the pole, the form of the coupling) is replaced by exact equality;
   dtypes, jit and ensure_compile_time_eval are not modelled.  A bare array as input (as_irreps_array) is not modelled: the input is an IrrepsArray. *)
From Coq Require Import Reals ZArith Arith Bool List.
From Verif Require Import PyBase IrrepsModel ArrayModel LeadModel SumR CGModel EntryProofs TPModel.
From Verif Require Import RotationModel WignerModel S2Model SHModel.
Import ListNotations.
Open Scope R_scope.

(* tensor_product_with_spherical_harmonics.py:156-159  normalize *)
Definition normalize_row (x : list R) : list R :=
  let n2 := lsum x (fun t => t ^ 2) in let n2 := if Rltb 0 n2 then n2 else 1 in map (fun t => t / sqrt n2) x.
(* 65-66  gimbal_lock = abs(vector.array[1]) > 0.99 *)
Definition gimbal_lock (v : list R) : bool := Rltb (99 / 100) (Rabs (nth 1 v 0)).
(* 68-72  fix_gimbal_lock: the tree_map rebuilds the array from its irreps and its values only *)
Definition fix_gimbal_lock (lock inverse : bool) (a : iarray) : res iarray :=
  let! r := transform_by_angles a None (Some (PI / 2)) None 0 inverse in
  mkIA (irr a) (lead a) (dim (irr a)) (fun i => if lock then arr r i else arr a i) None None.
(* 152-153  is_diag of a d by d matrix *)
Definition is_diag (d : nat) (m : nat -> nat -> R) : bool := forallb (fun a => forallb (fun b => ((a =? b)%nat || Reqb (m a b) 0)) (seq 0 d)) (seq 0 d).
(* 97-102  the harmonics of degree l at the pole: only the central entry is not zero *)
Definition central (l : nat) (y : list R) : res R :=
  let! _ := assert (forallb (fun j => ((j =? l)%nat || Reqb (nth j y 0) 0)) (seq 0 (2 * l + 1))) in Ok (nth l y 0).
(* 111-140  one output: the slice of the coupling tensor at the centre of the second factor is diagonal, or is once its rows are reversed;
   sl(lout, lin) = slice(lout - lin, lout + lin + 1) (148-149).  The padding of 136-138 is empty when l = irz.l *)
Definition aligned_chunk (mul : nat) (irx iry irz : irrep) (y : R) (c : chunk) : res chunk :=
  let l := Nat.min (ir_l irx) (ir_l irz) in
  let cg := fun a b => sqrt (INR (ir_dim irz)) * clebsch_gordan (ir_l irx) (ir_l iry) (ir_l irz) (ir_l irx - l + a) (ir_l iry) (ir_l irz - l + b) in
  let diag := is_diag (2 * l + 1) cg in
  let cg := if diag then cg else fun a b => cg (2 * l - a)%nat b in
  let! _ := assert (is_diag (2 * l + 1) cg) in
  Ok (Chunk [] mul (ir_dim irz) (fun i => map (fun row =>
    let xx := fun a => nth (ir_l irx - l + (if diag then a else 2 * l - a)) row 0 in
    repeat 0 (ir_l irz - l) ++ tab (2 * l + 1) (fun a => xx a * (y * cg a a)) ++ repeat 0 (ir_l irz - l)) (c_val c i))).
(* 90-140  the loops: the entries of the output with their chunks *)
Definition aligned_product (x shs : iarray) : res (list (mulirrep * chunk)) :=
  let! out := mapM (fun '((mul, irx), c) =>
    match c with
    | None => Err AttributeError
    | Some c =>
        let! _ := assert ((c_mul c =? mul)%nat && (c_dim c =? ir_dim irx)%nat) in
        let! out := mapM (fun '((_, iry), d) =>
          match d with
          | None => Err AttributeError
          | Some d =>
              let! _ := assert ((c_mul d =? 1)%nat && (c_dim d =? ir_dim iry)%nat) in
              let! y := central (ir_l iry) (nth 0 (c_val d []) []) in
              mapM (fun irz => let! z := aligned_chunk mul irx iry irz y c in Ok ((mul, irz), z)) (ir_mul irx iry)
          end) (combine (irr shs) (chunks shs)) in
        Ok (concat out)
    end) (combine (irr x) (chunks x)) in
  Ok (concat out).
(* 84-85  range(degree + 1) *)
Definition degrees (degree : Z) : list nat := seq 0 (Z.to_nat (degree + 1)).
Definition row_vec (v : list R) : vec := V (nth 0 v 0) (nth 1 v 0) (nth 2 v 0).
(* 56-145  impl, on one element of the batch: input of shape (irreps.dim,) and vector of shape (3,).
   [auto] and [n] are the configured algorithm and normalisation of spherical_harmonics.
   With no entry at all in the input the loop variable x of line 141 is unbound *)
Definition impl (auto : option (list keyword)) (n : s2norm) (input vector : iarray) (degree : Z) : res iarray :=
  let! vector := mkIA (irr vector) (lead vector) 3 (fun i => normalize_row (arr vector i)) None None in
  let lock := gimbal_lock (arr vector []) in
  let! input := fix_gimbal_lock lock true input in
  let! vector := fix_gimbal_lock lock true vector in
  let '(alpha, beta) := xyz_to_angles (row_vec (arr vector [])) in
  let! input := transform_by_angles input (Some alpha) (Some beta) None 0 true in
  let! pole := mkIA (irr vector) [] 3 (fun _ => [0; 1; 0]) None None in
  let! shs := spherical_harmonics auto (OutList (degrees degree)) (InIrreps pole) true n None in
  let! outputs := aligned_product input shs in
  match irr input with
  | [] => Err NameError
  | _ =>
      let! out := from_chunks (map fst outputs) (map (fun o => Some (snd o)) outputs) [] true in
      let! out := ia_regroup out in
      let! out := transform_by_angles out (Some alpha) (Some beta) None 0 false in
      fix_gimbal_lock lock false out
  end.
(* one element of a batch, as vmap presents it to the function (utils/vmap.py:64-70: the flags and the computed chunks are kept) *)
Definition element (x : iarray) (i : idx) : iarray :=
  IA (irr x) [] (fun _ => arr x i) (zf x) (option_map (map (option_map (fun c => Chunk [] (c_mul c) (c_dim c) (fun _ => c_val c i)))) (chs x)).
(* the function is traced once, on abstract values: whether it fails, and the irreps and flags it returns, cannot depend on the values.  The trace is
   represented by the call on zeros *)
Definition blank (x : iarray) : iarray := IA (irr x) [] (fun _ => repeat 0 (dim (irr x))) None None.
Definition values (r : res iarray) : list R := match r with Ok z => arr z [] | Err _ => [] end.
(* 6-53  tensor_product_with_spherical_harmonics(input, vector, degree) *)
Definition tensor_product_with_sh (auto : option (list keyword)) (n : s2norm) (input vector : iarray) (degree : Z) : res iarray :=
  if negb (irreps_eqb (irr vector) [(1%nat, Irrep 1 Odd)] || irreps_eqb (irr vector) [(1%nat, Irrep 1 Even)]) then Err ValueError
  else
    let! s := broadcast_shapes (lead input) (lead vector) in
    let! input := broadcast_to input s in
    let! vector := broadcast_to vector s in
    let! traced := impl auto n (blank input) (blank vector) degree in
    mkIA (irr traced) s (dim (irr traced)) (fun i => values (impl auto n (element input i) (element vector i) degree)) (Some (zero_flags traced)) None.
