(* Model of e3nn_jax/_src/irreps_array.py and e3nn_jax/_src/basic.py.

   Data.  Entries are real numbers (dtypes, floating point and jit are not modelled).
   An array of shape lead + (width,) is the function that maps a multi-index of the leading
   axes to the row (list) of the last axis.  A chunk of shape lead + (mul, dim) maps a leading
   multi-index to the mul rows of dim entries.  Only in-range multi-indices are meaningful. *)
From Verif Require Import PyBase PermModel IrrepsModel.
From Coq Require Import Reals.
Notation idx := (list nat).
Notation shape := (list nat).

(* i is a multi-index of an array of shape s *)
Definition valid (s : shape) (i : idx) : Prop := Forall2 lt i s.

Definition shape_eqb (s t : shape) : bool := list_eqb s t.

(* a jax array lead + (mul, dim) *)
Record chunk := Chunk { c_lead : shape; c_mul : nat; c_dim : nat; c_val : idx -> list (list R) }.

(* jnp.reshape of the last axis (mul * dim) into (mul, dim), row-major *)
Definition group_rows (mul dim : nat) (row : list R) : list (list R) :=
  map (fun u => firstn dim (skipn (u * dim) row)) (seq 0 mul).

Definition zeros_rows (mul dim : nat) : list (list R) := repeat (repeat 0%R dim) mul.

(* irreps_array.py:41-84  IrrepsArray: irreps, array (leading shape, last axis, values), _zero_flags, _chunks *)
Record iarray := IA {
  irr : irreps;
  lead : shape;
  arr : idx -> list R;
  zf : option (list bool);
  chs : option (list (option chunk))
}.

(* irreps_array.py:98-103: chunk.shape[-2:] == (mul, ir.dim) along zip(irreps, chunks) *)
Definition chunk_shapes_ok (x : irreps) (cs : list (option chunk)) : bool :=
  forallb (fun '((mul, ir), c) => match c with
    | None => true
    | Some c => (c_mul c =? mul) && (c_dim c =? ir_dim ir) end) (combine x cs).

(* irreps_array.py:86-114  __attrs_post_init__ on an array of shape s + (w,) *)
Definition mkIA (x : irreps) (s : shape) (w : nat) (a : idx -> list R)
    (z : option (list bool)) (c : option (list (option chunk))) : res iarray :=
  if negb (w =? dim x) then Err ValueError
  else if negb (match c with None => true | Some cs => chunk_shapes_ok x cs end) then Err ValueError
  else if negb (match z with None => true | Some zs => length zs =? length x end) then Err ValueError
  else if negb (match c with None => true | Some cs => length cs =? length x end) then Err ValueError
  else Ok (IA x s a z c).

(* irreps_array.py:210-214  zero_flags *)
Definition zero_flags (x : iarray) : list bool :=
  match zf x with None => repeat false (length (irr x)) | Some z => z end.

(* jnp.reshape(array[..., start:stop], lead + (mul, dim)) *)
Definition slice_chunk (s : shape) (a : idx -> list R) (start stop mul dim : nat) : chunk :=
  Chunk s mul dim (fun i => group_rows mul dim (list_slice (a i) start stop)).

(* irreps_array.py:163-208  chunks (the value; it is then cached in _chunks, see [force_chunks]) *)
Definition chunks (x : iarray) : list (option chunk) :=
  match chs x with
  | Some cs => cs
  | None =>
      match irr x with
      | [(mul, ir)] =>
          match zero_flags x with
          | true :: _ => [None]
          | _ => [Some (Chunk (lead x) mul (ir_dim ir) (fun i => group_rows mul (ir_dim ir) (arr x i)))]
          end
      | _ =>
          map (fun '(zero, ((start, stop), (mul, ir))) =>
                 if (zero : bool) then None
                 else Some (slice_chunk (lead x) (arr x) start stop mul (ir_dim ir)))
              (combine (zero_flags x) (combine (slices (irr x)) (irr x)))
      end
  end.

(* irreps_array.py:207  the cache effect of reading x.chunks *)
Definition force_chunks (x : iarray) : iarray := IA (irr x) (lead x) (arr x) (zf x) (Some (chunks x)).

(* basic.py:60-72: the part of the array of one entry *)
Definition den (m : mulirrep) (c : option chunk) (i : idx) : list R :=
  match c with None => repeat 0%R (mi_dim m) | Some c => concat (c_val c i) end.

(* basic.py:12-80  from_chunks; [dtype] says whether a dtype argument is given *)
Definition from_chunks (x : irreps) (cs : list (option chunk)) (s : shape) (dtype : bool) : res iarray :=
  if negb (length x =? length cs) then Err ValueError
  else if negb (forallb (fun '(c, (mul, ir)) => match c with
        | None => true
        | Some c => shape_eqb (c_lead c) s && (c_mul c =? mul) && (c_dim c =? ir_dim ir) end) (combine cs x))
  then Err ValueError
  else if negb (dtype || existsb (fun c => match c with Some _ => true | None => false end) cs) then Err ValueError
  else
    let a := if 0 <? dim x
             then (fun i => flat_map (fun '(m, c) => den m c i) (combine x cs))
             else (fun i => []) in
    mkIA x s (dim x) a (Some (map (fun c => match c with None => true | Some _ => false end) cs)) (Some cs).

(* basic.py:83-104  as_irreps_array of a bare array of shape s + (w,) *)
Definition as_irreps_array (s : shape) (w : nat) (a : idx -> list R) : res iarray :=
  mkIA [(w, Irrep 0 Even)] s w a None None.

(* basic.py:107-113 zeros, 121-127 ones *)
Definition zeros (x : irreps) (s : shape) : res iarray :=
  mkIA x s (dim x) (fun _ => repeat 0%R (dim x)) (Some (repeat true (length x))) None.
Definition ones (x : irreps) (s : shape) : res iarray :=
  mkIA x s (dim x) (fun _ => repeat 1%R (dim x)) (Some (repeat false (length x))) None.

(* irreps_array.py:1238-1242: flattening and unflattening a pytree node keeps irreps and array only *)
Definition pytree_roundtrip (x : iarray) : res iarray := mkIA (irr x) (lead x) (dim (irr x)) (arr x) None None.

(* ---------- tree_map over _chunks (None leaves are not visited) ---------- *)
Definition map_chunks (f : chunk -> chunk) (c : option (list (option chunk))) : option (list (option chunk)) :=
  option_map (map (option_map f)) c.

Definition chunk_map (f : R -> R) (c : chunk) : chunk :=
  Chunk (c_lead c) (c_mul c) (c_dim c) (fun i => map (map f) (c_val c i)).

(* irreps_array.py:286-292  __neg__ *)
Definition neg (x : iarray) : res iarray :=
  mkIA (irr x) (lead x) (dim (irr x)) (fun i => map Ropp (arr x i)) (Some (zero_flags x))
       (map_chunks (chunk_map Ropp) (chs x)).

(* ---------- numpy broadcasting on leading axes ---------- *)
(* one axis *)
Definition bdim (a b : nat) : res nat :=
  if a =? b then Ok a else if a =? 1 then Ok b else if b =? 1 then Ok a else Err ValueError.
(* shapes aligned on the right: work on reversed lists *)
Fixpoint bshape_rev (s t : shape) : res shape :=
  match s, t with
  | [], t => Ok t
  | s, [] => Ok s
  | a :: s, b :: t => let! d := bdim a b in let! r := bshape_rev s t in Ok (d :: r)
  end.
Definition broadcast_shapes (s t : shape) : res shape := rmap (@rev nat) (bshape_rev (rev s) (rev t)).
(* the index of the operand of shape s read at index i of the broadcast result *)
Fixpoint bidx_rev (s : shape) (i : idx) : idx :=
  match s, i with
  | a :: s, k :: i => (if a =? 1 then 0 else k) :: bidx_rev s i
  | _, _ => []
  end.
Definition bidx (s : shape) (i : idx) : idx := rev (bidx_rev (rev s) (rev i)).

Definition zipR (f : R -> R -> R) (a b : list R) : list R := map (fun '(x, y) => f x y) (combine a b).

(* x op y on two chunks with equal trailing axes *)
Definition chunk_zip (f : R -> R -> R) (s : shape) (c d : chunk) : chunk :=
  Chunk s (c_mul c) (c_dim c)
    (fun i => map (fun '(u, v) => zipR f u v) (combine (c_val c (bidx (c_lead c) i)) (c_val d (bidx (c_lead d) i)))).

(* irreps_array.py:294-325  __add__ of two IrrepsArrays *)
Definition add_chunk (s : shape) (c d : option chunk) : option chunk :=
  match c, d with
  | None, d => d
  | c, None => c
  | Some c, Some d => Some (chunk_zip Rplus s c d)
  end.
Definition zip_chunks (f : option chunk -> option chunk -> option chunk) (c d : option (list (option chunk)))
  : option (list (option chunk)) :=
  match c, d with
  | Some c, Some d => Some (map (fun '(a, b) => f a b) (combine c d))
  | _, _ => None
  end.
Definition and_flags (a b : list bool) : list bool := map (fun '(x, y) => x && y) (combine a b).

Definition add (x y : iarray) : res iarray :=
  if negb (irreps_eqb (irr x) (irr y)) then Err ValueError
  else
    let! s := broadcast_shapes (lead x) (lead y) in
    mkIA (irr x) s (dim (irr x))
      (fun i => zipR Rplus (arr x (bidx (lead x) i)) (arr y (bidx (lead y) i)))
      (Some (and_flags (zero_flags x) (zero_flags y)))
      (zip_chunks (add_chunk s) (chs x) (chs y)).

(* irreps_array.py:332-363  __sub__ of two IrrepsArrays *)
Definition sub_chunk (s : shape) (c d : option chunk) : option chunk :=
  match c, d with
  | c, None => c
  | None, Some d => Some (chunk_map Ropp d)
  | Some c, Some d => Some (chunk_zip Rminus s c d)
  end.
Definition sub (x y : iarray) : res iarray :=
  if negb (irreps_eqb (irr x) (irr y)) then Err ValueError
  else
    let! s := broadcast_shapes (lead x) (lead y) in
    mkIA (irr x) s (dim (irr x))
      (fun i => zipR Rminus (arr x (bidx (lead x) i)) (arr y (bidx (lead y) i)))
      (Some (and_flags (zero_flags x) (zero_flags y)))
      (zip_chunks (sub_chunk s) (chs x) (chs y)).

(* irreps_array.py:303-309, 341-347: x + other / x - other for a bare array of shape s + (w,), w = 1 or dim.
   "other == 0" (Python int or float) returns self before (297-298). *)
Definition all_even_scalars (x : irreps) : bool := forallb (fun m => irrep_eqb (snd m) (Irrep 0 Even)) x.
Definition stretch (n : nat) (row : list R) : list R := match row with [a] => repeat a n | _ => row end.
Definition binop_bare (f : R -> R -> R) (x : iarray) (s : shape) (w : nat) (b : idx -> list R) : res iarray :=
  if all_even_scalars (irr x) then
    let! s' := broadcast_shapes (lead x) s in
    let! w' := bdim (dim (irr x)) w in
    mkIA (irr x) s' w'
      (fun i => zipR f (stretch w' (arr x (bidx (lead x) i))) (stretch w' (b (bidx s i)))) None None
  else Err ValueError.
Definition add_bare := binop_bare Rplus.
Definition sub_bare := binop_bare Rminus.

(* irreps_array.py:370-405  __mul__ by a scalar array of shape s + (1,) (branch 394-405; the branch 386-388,
   other.shape[-1] == num_irreps, is elementwise_tensor_product: mul_bare in TPModel.v).
   The value of the multiplier at leading index i is [b i].  lmax of an empty Irreps raises. *)
Definition scale_by (f : R -> R -> R) (x : iarray) (s : shape) (b : idx -> R) : res iarray :=
  let! L := lmax (irr x) in
  let! s' := broadcast_shapes (lead x) s in
  mkIA (irr x) s' (dim (irr x))
    (fun i => map (fun a => f a (b (bidx s i))) (arr x (bidx (lead x) i)))
    (Some (zero_flags x))
    (map_chunks (fun c => Chunk s' (c_mul c) (c_dim c)
        (fun i => map (map (fun a => f a (b (bidx s i)))) (c_val c (bidx (c_lead c) i)))) (chs x)).
Definition mul_scalar := scale_by Rmult.
(* irreps_array.py:410-447  __truediv__ by a scalar array, same structure *)
Definition div_scalar := scale_by Rdiv.

(* irreps_array.py:466-486  __pow__ with a natural number exponent *)
Definition pow_nat (x : iarray) (n : nat) : res iarray :=
  let go irr' := mkIA irr' (lead x) (dim (irr x)) (fun i => map (fun a => pow a n) (arr x i)) None
                   (map_chunks (chunk_map (fun a => pow a n)) (chs x)) in
  if all_even_scalars (irr x) then go (irr x)
  else
    let! L := lmax (irr x) in
    if L =? 0 then
      go (if Nat.even n then map (fun '(mul, _) => (mul, Irrep 0 Even)) (irr x) else irr x)
    else Err ValueError.

(* ---------- structural operations ---------- *)

(* irreps_array.py:671-683  remove_zero_chunks *)
Definition remove_zero_chunks (x : iarray) : res iarray :=
  let x' := map fst (filter (fun '(_, z) => negb z) (combine (irr x) (zero_flags x))) in
  let cs := map fst (filter (fun '(_, z) => negb z) (combine (chunks x) (zero_flags x))) in
  from_chunks x' cs (lead x) true.

(* irreps_array.py:1117-1125: repeat each flag mul * ir.dim times *)
Definition feature_flags (x : iarray) : list bool :=
  flat_map (fun '(z, (mul, ir)) => repeat z (mul * ir_dim ir)) (combine (zero_flags x) (irr x)).
(* irreps_array.py:1126 *)
Definition rechunk_flags (x : iarray) (target : irreps) : list bool :=
  map (fun '(a, b) => forallb (fun z => z) (list_slice (feature_flags x) a b)) (slices target).

(* The running "current_array": either the number of pending zero multiplicities or an array *)
Inductive pending := PInt (n : nat) | PArr (c : chunk).
Definition pmul_of (p : pending) : nat := match p with PInt n => n | PArr c => c_mul c end.

(* jnp.concatenate([a, b], axis=-2) *)
Definition chunk_cat (c d : chunk) : chunk :=
  Chunk (c_lead c) (c_mul c + c_mul d) (c_dim c) (fun i => c_val c i ++ c_val d i).
Definition chunk_zeros (s : shape) (mul dim : nat) : chunk := Chunk s mul dim (fun _ => zeros_rows mul dim).
(* jnp.split(y, [k], axis=-2) *)
Definition chunk_take (k : nat) (c : chunk) : chunk :=
  Chunk (c_lead c) (Nat.min k (c_mul c)) (c_dim c) (fun i => firstn k (c_val c i)).
Definition chunk_drop (k : nat) (c : chunk) : chunk :=
  Chunk (c_lead c) (c_mul c - k) (c_dim c) (fun i => skipn k (c_val c i)).

(* irreps_array.py:1161-1184: append m multiplicities of x (None = zeros) to the pending array *)
Definition absorb (s : shape) (d : nat) (cur : pending) (m : nat) (x : option chunk) : pending :=
  match x with
  | None => match cur with
            | PInt n => PInt (n + m)
            | PArr c => PArr (chunk_cat c (chunk_zeros s m d))
            end
  | Some x => match cur with
              | PInt n => if n =? 0 then PArr x else PArr (chunk_cat (chunk_zeros s n d) x)
              | PArr c => PArr (chunk_cat c x)
              end
  end.

(* irreps_array.py:1135-1136, 1201-1205: emit None for the zero multiplicities that come next.
   [todo] is what remains of the target irreps. *)
Fixpoint skip_zeros (todo : irreps) : list (option chunk) * irreps :=
  match todo with
  | (0, _) :: todo => let '(out, rest) := skip_zeros todo in (None :: out, rest)
  | _ => ([], todo)
  end.

(* irreps_array.py:1138-1205: the nested loops.  [todo] are the target entries not yet emitted, its head
   being irreps[len(new_chunks)]; reading past the end is an IndexError.  [fuel] bounds the inner while loop
   (mul decreases, see rechunk_loop_ok). *)
Fixpoint rechunk_inner (fuel : nat) (s : shape) (d : nat) (mul : nat) (y : option chunk)
    (cur : pending) (todo : irreps) (out : list (option chunk))
    : option (res (pending * irreps * list (option chunk))) :=
  match fuel with
  | 0 => None
  | S fuel =>
    if mul =? 0 then Some (Ok (cur, todo, out)) else
    match todo with
    | [] => Some (Err IndexError)
    | (tm, _) :: todo' =>
        let needed := tm - pmul_of cur in
        let '(x, y', m, mul') :=
          if mul <=? needed then (y, y, mul, 0)
          else (match y with None => (None, None) | Some c => (Some (chunk_take needed c), Some (chunk_drop needed c)) end,
                needed, mul - needed) in
        let cur := absorb s d cur m x in
        let '(cur, todo, out) :=
          if pmul_of cur =? tm
          then let '(zs, rest) := skip_zeros todo' in
               (PInt 0, rest, out ++ (match cur with PInt _ => None | PArr c => Some c end) :: zs)
          else let '(zs, rest) := skip_zeros todo in (cur, rest, out ++ zs) in
        rechunk_inner fuel s d mul' y' cur todo out
    end
  end.

Fixpoint rechunk_outer (s : shape) (src : list (mulirrep * option chunk))
    (cur : pending) (todo : irreps) (out : list (option chunk))
    : option (res (pending * irreps * list (option chunk))) :=
  match src with
  | [] => Some (Ok (cur, todo, out))
  | ((mul, ir), y) :: src =>
      match rechunk_inner (S mul) s (ir_dim ir) mul y cur todo out with
      | Some (Ok (cur, todo, out)) => rechunk_outer s src cur todo out
      | r => r
      end
  end.

(* irreps_array.py:1207-1216: the final assertions.  x.shape on None is an AttributeError. *)
Fixpoint rechunk_check (target : irreps) (out : list (option chunk)) (flags : list bool) : res unit :=
  match target, out, flags with
  | (mul, ir) :: target, x :: out, z :: flags =>
      let! _ := (if z : bool then assert (match x with None => true | _ => false end)
                 else match x with None => Err AttributeError
                      | Some c => assert ((c_mul c =? mul) && (c_dim c =? ir_dim ir)) end) in
      rechunk_check target out flags
  | _, _, _ => Ok tt
  end.

(* irreps_array.py:1093-1218  rechunk.  None = the loop did not terminate (never happens, see proofs) *)
Definition rechunk_opt (x : iarray) (target : irreps) : option (res iarray) :=
  if negb (irreps_eqb (simplify (irr x)) (simplify target)) then Some (Err AssertionError)
  else if irreps_eqb (irr x) target then Some (Ok x)
  else
    let flags := rechunk_flags x target in
    match chs x with
    | None => Some (mkIA target (lead x) (dim (irr x)) (arr x) (Some flags) None)
    | Some cs =>
        let '(zs, todo) := skip_zeros target in
        match rechunk_outer (lead x) (combine (irr x) cs) (PInt 0) todo zs with
        | None => None
        | Some (Err e) => Some (Err e)
        | Some (Ok (cur, todo, out)) =>
            Some (let! _ := assert (match cur with PInt 0 => true | _ => false end) in
                  let! _ := assert (length out =? length target) in
                  let! _ := rechunk_check target out flags in
                  mkIA target (lead x) (dim (irr x)) (arr x) (Some flags) (Some out))
        end
    end.
Definition rechunk (x : iarray) (target : irreps) : res iarray :=
  match rechunk_opt x target with Some r => r | None => Err NotImplementedError end.

(* irreps_array.py:685-695 simplify, 697-704 unify *)
Definition ia_simplify (x : iarray) : res iarray := rechunk x (simplify (irr x)).
Definition ia_unify (x : iarray) : res iarray := rechunk x (unify (irr x)).

(* irreps_array.py:706-720  sort: [self.chunks[i] for i in inv] *)
Definition get {A} (l : list A) (i : nat) : res A := match nth_error l i with Some a => Ok a | None => Err IndexError end.
Definition ia_sort (x : iarray) : res iarray :=
  let! r := irreps_sort (irr x) in
  let '(s, p, inv) := r in
  let! cs := mapM (get (chunks x)) inv in
  from_chunks s cs (lead x) true.

(* irreps_array.py:729-738  regroup *)
Definition ia_regroup (x : iarray) : res iarray := let! y := ia_sort x in ia_simplify y.

(* irreps_array.py:740-773  filter *)
Definition ia_filter (x : iarray) (keep drop : option selector) (lm : option Z) : res iarray :=
  match keep, drop, lm with
  | None, None, None => Ok x
  | _, _, _ =>
      let! new := filter_irreps (irr x) keep drop lm in
      from_chunks new
        (map fst (filter (fun '(_, m) => contains new (snd m)) (combine (chunks x) (irr x))))
        (lead x) true
  end.

(* irreps_array.py:798-808: the while loop of extend_with_zeros; returns the new chunks and the unmatched rest *)
Definition mi_eqb (a b : mulirrep) : bool := (fst a =? fst b) && irrep_eqb (snd a) (snd b).
Fixpoint extend_loop (cur : list (mulirrep * option chunk)) (new : irreps) : list (option chunk) * bool :=
  match new with
  | [] => ([], match cur with [] => true | _ => false end)
  | m :: new =>
      match cur with
      | [] => (None :: repeat None (length new), true)
      | (m', c) :: cur' =>
          if mi_eqb m' m then let '(l, ok) := extend_loop cur' new in (c :: l, ok)
          else let '(l, ok) := extend_loop cur new in (None :: l, ok)
      end
  end.
(* irreps_array.py:782-822  extend_with_zeros *)
Definition extend_with_zeros (x : iarray) (new : irreps) : res iarray :=
  let '(cs, ok) := extend_loop (combine (irr x) (chunks x)) new in
  if negb ok then Err ValueError else from_chunks new cs (lead x) true.

(* irreps_array.py:1397-1410: loop of _MulIndexSliceHelper.__getitem__; slicing None is a TypeError *)
Definition chunk_slice (a b : Z) (c : chunk) : chunk :=
  let a := Z.to_nat a in let b := Z.to_nat b in
  Chunk (c_lead c) (Nat.min b (c_mul c) - a) (c_dim c) (fun i => list_slice (c_val c i) a b).
Fixpoint ia_mul_slice_loop (start stop : Z) (i : nat) (x : list (mulirrep * option chunk))
  : res (list (Z * irrep) * list (option chunk)) :=
  match x with
  | [] => Ok ([], [])
  | ((mul, ir), c) :: x =>
      let iz := Z.of_nat i in
      let e := (iz + Z.of_nat mul)%Z in
      if ((start <=? iz) && (e <=? stop))%Z then
        let! r := ia_mul_slice_loop start stop (i + mul) x in
        let '(l, cs) := r in Ok ((Z.of_nat mul, ir) :: l, c :: cs)
      else if ((start <? e) && (iz <? stop))%Z then
        match c with
        | None => Err TypeError
        | Some c =>
            let! r := ia_mul_slice_loop start stop (i + mul) x in
            let '(l, cs) := r in
            Ok (((Z.min stop e - Z.max start iz)%Z, ir) :: l,
                Some (chunk_slice (Z.max start iz - iz) (Z.min stop e - iz) c) :: cs)
        end
      else ia_mul_slice_loop start stop (i + mul) x
  end.
(* irreps_array.py:1384-1419  IrrepsArray.slice_by_mul *)
Definition ia_slice_by_mul (x : iarray) (sl : slice) : res iarray :=
  let! r := slice_indices sl (num_irreps (irr x)) in
  let '(start, stop, stride) := r in
  if negb (stride =? 1)%Z then Err NotImplementedError
  else
    let! r := ia_mul_slice_loop start stop 0 (combine (irr x) (chunks x)) in
    let '(l, cs) := r in
    let! new := mk_irreps l in
    from_chunks new cs (lead x) true.

(* irreps_array.py:1436-1455  IrrepsArray.slice_by_chunk.  slice.indices can give stop = -1 for a negative
   stride; it is then reinterpreted as "last": the model follows CPython. *)
Definition ia_slice_by_chunk (x : iarray) (sl : slice) : res iarray :=
  let! r := slice_indices sl (length (irr x)) in
  let '(start, stop, stride) := r in
  let sl' := Slice (Some start) (Some stop) (Some stride) in
  let! new := tuple_slice (irr x) sl' in
  let! cs := tuple_slice (chunks x) sl' in
  from_chunks new cs (lead x) true.

(* irreps_array.py:499-529  x[..., irreps]: the entry lists that match *)
Definition match_positions (x target : irreps) : list nat :=
  filter (fun i => irreps_eqb (list_slice x i (i + length target)) target) (seq 0 (length x)).
Definition ia_getitem_irreps (x : iarray) (target : irreps) : res iarray :=
  match match_positions (irr x) target with
  | [i] =>
      let a := dim (firstn i (irr x)) in
      let b := dim (firstn (i + length target) (irr x)) in
      mkIA target (lead x) (Nat.min b (dim (irr x)) - a) (fun j => list_slice (arr x j) a b)
        (Some (list_slice (zero_flags x) i (i + length target)))
        (Some (list_slice (chunks x) i (i + length target)))
  | _ => Err IndexError
  end.

(* irreps_array.py:541-575: the search loop of x[..., start:stop] over i in range(len(irreps) + 1).
   Offsets are Python integers: "start - irreps[: i - 1].dim" can be negative. *)
Inductive gs := GSplit (i : nat) (mul1 : Z) | GFound (istart istop : option nat).
(* 549-556, 565-572: does the bound b cut entry i-1 at a multiple of ir.dim *)
Definition gs_splits (x : irreps) (i : nat) (b : nat) : option (nat * Z) :=
  match i with
  | 0 => None
  | S j => match nth_error x j with
           | Some (mul, ir) =>
               let off := (Z.of_nat b - Z.of_nat (dim (firstn j x)))%Z in
               let d := Z.of_nat (ir_dim ir) in
               if (off mod d =? 0)%Z then Some (j, (off / d)%Z) else None
           | None => None
           end
  end.
Fixpoint getslice_loop (x : irreps) (start stop : nat) (k i : nat) (istart : option nat) : gs :=
  match k with
  | 0 => GFound istart None
  | S k =>
      let d := dim (firstn i x) in
      let istart := if d =? start then Some i else istart in
      match (match istart with None => if start <? d then gs_splits x i start else None | Some _ => None end) with
      | Some (j, mul1) => GSplit j mul1
      | None =>
          if d =? stop then GFound istart (Some i)
          else match (if stop <? d then gs_splits x i stop else None) with
               | Some (j, mul1) => GSplit j mul1
               | None => getslice_loop x start stop k (S i) istart
               end
      end
  end.
(* irreps_array.py:552-556, 568-572: entry j split in (mul1, ir), (mul - mul1, ir); Irreps() rejects negative mul *)
Definition split_entry (x : irreps) (j : nat) (mul1 : Z) : res irreps :=
  let z := map (fun '(m, ir) => (Z.of_nat m, ir)) in
  mk_irreps (z (firstn j x) ++
    (match nth_error x j with Some (mul, ir) => [(mul1, ir); ((Z.of_nat mul - mul1)%Z, ir)] | None => [] end) ++ z (skipn (S j) x)).

(* irreps_array.py:530-589  x[..., start:stop].  The recursion self.rechunk(...)[index] is bounded by fuel
   (at most two splits: see getslice_total). *)
Fixpoint getslice (fuel : nat) (x : iarray) (start stop : nat) : option (res iarray) :=
  match fuel with
  | 0 => None
  | S fuel =>
      match getslice_loop (irr x) start stop (S (length (irr x))) 0 None with
      | GSplit j mul1 =>
          match (let! t := split_entry (irr x) j mul1 in rechunk x t) with
          | Ok y => getslice fuel y start stop
          | Err e => Some (Err e)
          end
      | GFound (Some a) (Some b) =>
          Some (mkIA (list_slice (irr x) a b) (lead x) (Nat.min stop (dim (irr x)) - start)
                 (fun j => list_slice (arr x j) start stop)
                 (Some (list_slice (zero_flags x) a b)) (Some (list_slice (chunks x) a b)))
      | GFound _ _ => Some (Err IndexError)
      end
  end.
Definition ia_getslice (x : iarray) (sl : slice) : option (res iarray) :=
  match slice_indices sl (dim (irr x)) with
  | Ok (start, stop, _) => getslice 4 x (Z.to_nat start) (Z.to_nat stop)
  | Err e => Some (Err e)
  end.

(* basic.py:301-308  concatenate on the last axis; the arrays must have the same leading shape *)
Definition concat_last (xs : list iarray) : res iarray :=
  match xs with
  | [] => Err ValueError
  | x :: _ =>
      if forallb (fun y => shape_eqb (lead y) (lead x)) xs then
        mkIA (flat_map irr xs) (lead x) (sum (map (fun y => dim (irr y)) xs))
          (fun i => flat_map (fun y => arr y i) xs)
          (Some (flat_map zero_flags xs)) (Some (flat_map chunks xs))
      else Err TypeError
  end.
