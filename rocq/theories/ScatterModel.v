(* Model of e3nn_jax/_src/scatter.py.
   The data has shape dsh ++ r ++ (w,): dsh are the axes indexed by dst, r the remaining leading axes.
   Entries may be of any type A (R for sums; R extended by -inf for maxima).
   A dst array of shape dsh is a function from multi-indices to integers. *)
From Verif Require Import PyBase PermModel IrrepsModel ArrayModel LeadModel SumR.
From Coq Require Import Reals.
Open Scope nat_scope.

(* the [mode] argument of jax's .at[].add: what happens to an out-of-range index.  "promise_in_bounds" leaves
   the effect of an out-of-range index unspecified; here it is dropped, and no theorem relies on it. *)
Inductive mode := MPromise | MDrop | MClip.
(* jax: a negative index counts from the end; then the mode decides *)
Definition resolve_index (md : mode) (n : nat) (z : Z) : option nat :=
  let z := if (z <? 0)%Z then (z + Z.of_nat n)%Z else z in
  if ((0 <=? z) && (z <? Z.of_nat n))%Z then Some (Z.to_nat z)
  else match md with
       | MClip => if n =? 0 then None else Some (if (z <? 0)%Z then 0 else n - 1)
       | _ => None
       end.

(* scatter.py:278-283  z.at[(dst,)].op(x): the updates in some order [order] of the multi-indices of dst *)
Definition update_rows {A} (op : A -> A -> A) (order : list idx) (dst : idx -> option nat) (a : idx -> list A) (k : nat) (r : idx) (init : list A) : list A :=
  fold_left (fun acc j => if (match dst j with Some k' => k' =? k | None => false end) then map (fun '(u, v) => op u v) (combine acc (a (j ++ r))) else acc) order init.
Definition scatter_rows {A} (op : A -> A -> A) (init : A) (w : nat) (dsh : shape) (dst : idx -> option nat) (a : idx -> list A) (i : idx) : list A :=
  match i with
  | k :: r => update_rows op (all_idx dsh) dst a k r (repeat init w)
  | [] => []
  end.

(* scatter.py:10-25  _distinct_but_small: rank of the value among the distinct values (jnp.unique sorts; padding repeats the smallest
   value, and the first match is taken) *)
Fixpoint insert_set (z : Z) (l : list Z) : list Z :=
  match l with
  | [] => [z]
  | a :: l => if (z <? a)%Z then z :: a :: l else if (z =? a)%Z then a :: l else a :: insert_set z l
  end.
Definition unique_values (l : list Z) : list Z := fold_right insert_set [] l.
Fixpoint position (z : Z) (l : list Z) : nat :=
  match l with [] => 0 | a :: l => if (z =? a)%Z then 0 else S (position z l) end.
Definition distinct_but_small (dsh : shape) (dst : idx -> Z) : idx -> Z :=
  let u := unique_values (map dst (all_idx dsh)) in
  fun i => Z.of_nat (position (dst i) u).

(* jnp.repeat(jnp.arange(len(nel)), nel, total_repeat_length=n): cut at n, and the final value is repeated when too short *)
Definition repeat_range (nel : list nat) (n : nat) : list nat :=
  let l := concat (map (fun '(k, c) => repeat k c) (combine (seq 0 (length nel)) nel)) in
  firstn n (l ++ repeat (length nel - 1) (n - length l)).

(* the argument that says where the rows go *)
Inductive target := NoTarget | Dst (dsh : shape) (dst : idx -> Z) | Nel (nel : list nat) | BothTargets.

Definition is_prefix (p s : shape) : bool := shape_eqb (firstn (length p) s) p.

(* scatter.py:225-289  _scatter_op on an array of shape s ++ (w,); the result has shape (output_size,) ++ r ++ (w,) or s ++ (w,).
   dst covering the last axis is not modelled (reported as an error). *)
Definition scatter_op {A} (op : A -> A -> A) (init : A) (s : shape) (w : nat) (a : idx -> list A) (t : target) (output_size : option nat) (map_back : bool) (md : mode) : res (shape * (idx -> list A)) :=
  let! q := match t with
            | NoTarget | BothTargets => Err ValueError
            | Dst dsh dst => Ok (dsh, dst, output_size)
            | Nel nel =>
                match output_size with
                | Some _ => Err ValueError
                | None =>
                    let n := hd 0 s in
                    Ok ([n], (fun i => Z.of_nat (nth (hd 0 i) (repeat_range nel n) 0)), if map_back then None else Some (length nel))
                end
            end in
  let '(dsh, dst, size) := q in
  if negb (is_prefix dsh s) then Err ValueError
  else
    let r := skipn (length dsh) s in
    match size, map_back with
    | None, false => Err ValueError
    | Some _, true => Err ValueError
    | Some n, false =>
        Ok (n :: r, scatter_rows op init w dsh (fun i => resolve_index md n (dst i)) a)
    | None, true =>
        let n := prod dsh in
        let d := distinct_but_small dsh dst in
        let out := scatter_rows op init w dsh (fun i => resolve_index md n (d i)) a in
        Ok (s, fun i => out (Z.to_nat (d (firstn (length dsh) i)) :: skipn (length dsh) i))
    end.

(* an IrrepsArray is a pytree with one leaf, its array: irreps are kept and the zero flags are forgotten (scatter.py:285) *)
Definition scatter_irreps (op : R -> R -> R) (init : R) (x : iarray) (t : target) (size : option nat) (map_back : bool) (md : mode) : res iarray :=
  let! q := scatter_op op init (lead x) (dim (irr x)) (arr x) t size map_back md in
  let '(s, a) := q in mkIA (irr x) s (dim (irr x)) a None None.

(* scatter.py:28-66  scatter_sum *)
Definition scatter_sum (x : iarray) (t : target) (size : option nat) (map_back : bool) (md : mode) : res iarray :=
  scatter_irreps Rplus 0%R x t size map_back md.

(* scatter.py:150-203  scatter_max of an IrrepsArray (with a finite initial value) *)
Definition scatter_max (init : R) (x : iarray) (t : target) (size : option nat) (map_back : bool) (md : mode) : res iarray :=
  if negb (is_scalar (irr x)) then Err ValueError
  else scatter_irreps Rmax init x t size map_back md.
(* the default initial value is -inf: None is -inf, on bare arrays *)
Definition emax (a b : option R) : option R :=
  match a, b with None, b => b | a, None => a | Some u, Some v => Some (Rmax u v) end.
Definition scatter_max_inf (s : shape) (w : nat) (a : idx -> list (option R)) := scatter_op emax None s w a.

(* scatter.py:69-147  scatter_mean *)
Definition counted (cs : shape * (idx -> list R)) (k : idx) : R := Rmax 1 (nth 0 (snd cs k) 0%R).
Definition scatter_mean (x : iarray) (t : target) (size : option nat) (map_back : bool) (md : mode) : res iarray :=
  match t, map_back with
  | Nel nel, true =>
      match size with
      | Some _ => Err AssertionError
      | None =>
          let! z := scatter_sum x (Nel nel) None false md in
          let den k := Rmax 1 (INR (nth k nel 0)) in
          let back := repeat_range nel (hd 0 (lead x)) in
          (* jnp.repeat(output, nel, axis=0, total_repeat_length=data.shape[0]) *)
          mkIA (irr x) (hd 0 (lead x) :: tl (lead z)) (dim (irr x))
            (fun i => let k := nth (hd 0 i) back 0 in map (fun v => v / den k)%R (arr z (k :: tl i))) None None
      end
  | _, _ =>
      let! z := scatter_sum x t size map_back md in
      match t with
      | Nel nel => mkIA (irr x) (lead z) (dim (irr x)) (fun i => map (fun v => v / Rmax 1 (INR (nth (hd 0%nat i) nel 0%nat)))%R (arr z i)) None None
      | Dst dsh dst =>
          (* the ones have shape data.shape[:dst.ndim]; here they carry a trailing axis of size one *)
          let! c := scatter_op Rplus 0%R dsh 1 (fun _ => [1%R]) t size map_back md in
          let n := if map_back then length dsh else 1 in
          mkIA (irr x) (lead z) (dim (irr x)) (fun i => map (fun v => v / counted c (firstn n i))%R (arr z i)) None None
      | _ => Err ValueError
      end
  end.
(* scatter.py:292-307  index_add *)
Definition index_add (t : target) (x : iarray) (size : option nat) (map_back : bool) : res iarray := scatter_sum x t size map_back MPromise.
