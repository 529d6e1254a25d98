(* Model of e3nn_jax/_src/grad.py.  jax.jacobian is the matrix of partial derivatives (Coquelicot's Derive).  Dtypes, tracing and
   the behaviour of jax.jacobian on an empty list of chunks are not modelled. *)
From Coq Require Import Reals.
From Coquelicot Require Import Coquelicot.
From Verif Require Import PyBase PermModel IrrepsModel ArrayModel LeadModel SumR TPModel.
Open Scope nat_scope.

(* a positional argument or a result: an IrrepsArray or something else *)
Inductive pyarg := PArr (x : iarray) | PAny (v : R).

(* args[argnums] with Python's negative indices; None when out of range *)
Definition arg_position (args : list pyarg) (argnums : Z) : option nat :=
  let n := Z.of_nat (length args) in
  let p := if (argnums <? 0)%Z then (argnums + n)%Z else argnums in
  if (0 <=? p)%Z && (p <? n)%Z then Some (Z.to_nat p) else None.
Definition set_arg (args : list pyarg) (p : nat) (a : pyarg) : list pyarg := firstn p args ++ a :: skipn (S p) args.

(* grad.py:45-66  naked_fun: the argument is rebuilt from its chunks *)
Definition naked_fun {A} (f : list pyarg -> res (pyarg * A)) (args : list pyarg) (p : nat) (x : irreps) (s : shape) (cs : list (option chunk)) : res (iarray * A) :=
  let! a := from_chunks x cs s true in
  let! r := f (set_arg args p (PArr a)) in
  match r with (PArr y, aux) => Ok (y, aux) | (PAny _, _) => Err TypeError end.

(* one component of one chunk is increased by t *)
Definition bump_chunk (j : idx) (v g : nat) (t : R) (c : chunk) : chunk :=
  Chunk (c_lead c) (c_mul c) (c_dim c) (fun i =>
    if shape_eqb i j then map (fun '(u, row) => map (fun '(e, r) => if (u =? v) && (e =? g) then (r + t)%R else r) (enumerate row)) (enumerate (c_val c i))
    else c_val c i).
Definition bump (k : nat) (j : idx) (v g : nat) (t : R) (cs : list (option chunk)) : list (option chunk) :=
  map (fun '(q, c) => if q =? k then option_map (bump_chunk j v g t) c else c) (enumerate cs).

(* grad.py:68-72  jax.jacobian: d (component (i, u, e) of output chunk k1) / d (component (j, v, g) of input chunk k2) *)
Definition chunk_value (c : option chunk) (i : idx) (u e : nat) : R := match c with None => 0%R | Some c => nth e (nth u (c_val c i) []) 0%R end.
Definition jacobian {A} (F : list (option chunk) -> res (iarray * A)) (cs : list (option chunk)) (k1 k2 : nat) (i : idx) (u e : nat) (j : idx) (v g : nat) : R :=
  Derive (fun t => match F (bump k2 j v g t cs) with Ok (y, _) => chunk_value (nth k1 (chunks y) None) i u e | Err _ => 0%R end) 0%R.

(* grad.py:81-117: the loops over the output and input entries and over the irreps of their product; copies (u, v) in row-major order.
   [tp_paths NComponent None] lists exactly these triples, with the factor sqrt(ir.dim) *)
Definition grad_chunk (cg : coupling) (x y : irreps) (s_out s_in : shape) (J : nat -> nat -> idx -> nat -> nat -> idx -> nat -> nat -> R) (p : bpath) : option chunk :=
  let a := snd (nth (b_in1 p) y (0, Irrep 0 Even)) in
  let b := snd (nth (b_in2 p) x (0, Irrep 0 Even)) in
  Some (Chunk (s_out ++ s_in) (b_mul p) (ir_dim (b_out p)) (fun ij =>
    let i := firstn (length s_out) ij in let j := skipn (length s_out) ij in
    map (fun '(u, v) =>
      map (fun k => rsum (ir_dim a) (fun e => rsum (ir_dim b) (fun g =>
        J (b_in1 p) (b_in2 p) i u e j v g * (b_alpha p * cg (ir_l a) (ir_l b) (ir_l (b_out p)) e g k)))%R) (seq 0 (ir_dim (b_out p))))
      (b_pairs p))).

(* grad.py:10-125  grad(fun, argnums, has_aux, regroup_output)(args): [argnums] is None when it is not an int.  With has_aux the
   function returns a pair; without it the second component is ignored *)
Definition grad {A} (cg : coupling) (f : list pyarg -> res (pyarg * A)) (argnums : option Z) (regroup_output : bool) (args : list pyarg) : res (iarray * A) :=
  match argnums with
  | None => Err ValueError
  | Some n =>
    match arg_position args n with
    | None => Err IndexError
    | Some p =>
      match nth p args (PAny 0) with
      | PAny _ => Err TypeError
      | PArr x =>
        (* grad.py:42: drop zero_flags *)
        let! x0 := mkIA (irr x) (lead x) (dim (irr x)) (arr x) None None in
        let F := naked_fun f args p (irr x) (lead x) in
        let! r := F (chunks x0) in
        let '(y, aux) := r in
        (* the entry of the Jacobian for an output chunk None is None: zip(irreps_in, None) *)
        if existsb (fun c => match c with None => true | Some _ => false end) (chunks y) then Err TypeError
        else
          let ps := tp_paths NComponent None (irr y) (irr x) in
          let! z := from_chunks (bil_out ps) (map (grad_chunk cg (irr x) (irr y) (lead y) (lead x) (jacobian F (chunks x0))) ps) (lead y ++ lead x) true in
          let! z := (if regroup_output then ia_regroup z else Ok z) in
          Ok (z, aux)
      end
    end
  end.
