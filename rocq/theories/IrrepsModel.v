(* Model of e3nn_jax/_src/irreps.py: Irrep, MulIrrep, Irreps (no strings: see IrrepsStr.v). *)
From Verif Require Import PyBase PermModel.

(* irreps.py:91 "assert p in [-1, 1]" *)
Inductive parity := Even | Odd.

(* the integer p of the Python object *)
Definition pz (p : parity) : Z := match p with Even => 1%Z | Odd => (-1)%Z end.

Definition pmul (a b : parity) : parity :=
  match a, b with Even, q => q | Odd, Even => Odd | Odd, Odd => Even end.

(* p ** n *)
Fixpoint ppow (p : parity) (n : nat) : parity :=
  match n with 0 => Even | S n => pmul p (ppow p n) end.

Definition parity_eqb (a b : parity) : bool :=
  match a, b with Even, Even | Odd, Odd => true | _, _ => false end.

(* irreps.py:62-94  class Irrep: l >= 0 (assert l.90), p in {-1,1} (assert l.91) *)
Record irrep := Irrep { ir_l : nat; ir_p : parity }.

(* irreps.py:300-303  Irrep.__eq__ *)
Definition irrep_eqb (a b : irrep) : bool :=
  (ir_l a =? ir_l b) && parity_eqb (ir_p a) (ir_p b).

(* irreps.py:249-252  Irrep.dim *)
Definition ir_dim (a : irrep) : nat := 2 * ir_l a + 1.

(* irreps.py:254-256  Irrep.is_scalar *)
Definition ir_is_scalar (a : irrep) : bool :=
  (ir_l a =? 0) && parity_eqb (ir_p a) Even.

(* irreps.py:293-298  the sort key (l, -p * (-1)**l) of Irrep.__lt__ *)
Definition ir_key (a : irrep) : nat * Z :=
  (ir_l a, (- pz (ir_p a) * (-1) ^ Z.of_nat (ir_l a))%Z).

(* irreps.py:293-298  Irrep.__lt__ : lexicographic comparison of the keys *)
Definition ir_ltb (a b : irrep) : bool :=
  let '(l1, k1) := ir_key a in
  let '(l2, k2) := ir_key b in
  (l1 <? l2) || ((l1 =? l2) && (k1 <? k2)%Z).

(* irreps.py:101-115  Irrep.iterator(lmax): the two irreps yielded at step l *)
Definition iterator_step (l : nat) : list irrep :=
  [Irrep l (ppow Odd l); Irrep l (pmul Odd (ppow Odd l))].

(* irreps.py:101-115  Irrep.iterator(lmax), stops after l == lmax *)
Definition iterator (lmax : nat) : list irrep :=
  flat_map iterator_step (seq 0 (S lmax)).

(* irreps.py:258-269  Irrep.__mul__ : range(lmin, lmax+1) with lmin=|l1-l2|, lmax=l1+l2 *)
Definition ir_mul (a b : irrep) : list irrep :=
  let p := pmul (ir_p a) (ir_p b) in
  let lmin := Z.to_nat (Z.abs (Z.of_nat (ir_l a) - Z.of_nat (ir_l b))) in
  let lmax := ir_l a + ir_l b in
  map (fun l => Irrep l p) (seq lmin (lmax + 1 - lmin)).

(* irreps.py:309-340  MulIrrep = (mul, ir) *)
Notation mulirrep := (nat * irrep)%type.

(* irreps.py:326-329  MulIrrep.dim *)
Definition mi_dim (m : mulirrep) : nat := fst m * ir_dim (snd m).

(* irreps.py:363-454  Irreps is a tuple of MulIrrep; the constructor checks mul >= 0 *)
Notation irreps := (list (nat * irrep)).

(* irreps.py:454 (list branch 430-453): the constructor on pairs with Python integer multiplicities *)
Definition mk_irreps (l : list (Z * irrep)) : res irreps :=
  mapM (fun '(mul, ir) => if (0 <=? mul)%Z then Ok (Z.to_nat mul, ir) else Err ValueError) l.

(* irreps.py:457-473  Irreps.spherical_harmonics(lmax, p) *)
Definition sh_irreps (lmax : nat) (p : parity) : irreps :=
  map (fun l => (1, Irrep l (ppow p l))) (seq 0 (lmax + 1)).

(* irreps.py:811-819  Irreps.dim *)
Definition dim (x : irreps) : nat := sum (map (fun '(mul, ir) => mul * ir_dim ir) x).

(* irreps.py:821-829  Irreps.num_irreps *)
Definition num_irreps (x : irreps) : nat := sum (map fst x).

(* irreps.py:475-487  Irreps.slices: (start, stop) pairs, loop with running offset i *)
Fixpoint slices_from (i : nat) (x : irreps) : list (nat * nat) :=
  match x with
  | [] => []
  | m :: x => (i, i + mi_dim m) :: slices_from (i + mi_dim m) x
  end.
Definition slices (x : irreps) : list (nat * nat) := slices_from 0 x.

(* irreps.py:496-499  Irreps.__contains__ *)
Definition contains (x : irreps) (ir : irrep) : bool := existsb (fun m => irrep_eqb ir (snd m)) x.

(* irreps.py:501-515  Irreps.count *)
Definition count (ir : irrep) (x : irreps) : nat :=
  sum (map fst (filter (fun m => irrep_eqb ir (snd m)) x)).

(* irreps.py:517-531  Irreps.is_scalar: {ir for _, ir in self} == {Irrep("0e")} *)
Definition is_scalar (x : irreps) : bool :=
  forallb (fun m => irrep_eqb (snd m) (Irrep 0 Even)) x && negb (length x =? 0).

(* irreps.py:536-543  Irreps.__add__ *)
Definition add (x y : irreps) : irreps := x ++ y.

(* irreps.py:545-565  Irreps.__mul__ by an integer: the constructor rejects negative multiplicities *)
Definition mul_int (x : irreps) (n : Z) : res irreps :=
  mk_irreps (map (fun '(mul, ir) => ((Z.of_nat mul * n)%Z, ir)) x).

(* irreps.py:567-574  Irreps.__floordiv__ (Python floor division; ZeroDivisionError on 0) *)
Definition floordiv (x : irreps) (n : Z) : res irreps :=
  let! l := mapM (fun '(mul, ir) =>
     if (n =? 0)%Z then Err ZeroDivisionError else Ok ((Z.of_nat mul / n)%Z, ir)) x in
  mk_irreps l.

(* irreps.py:576-583  Irreps.__eq__ : tuple equality of MulIrrep dataclasses *)
Fixpoint irreps_eqb (x y : irreps) : bool :=
  match x, y with
  | [], [] => true
  | (m, a) :: x, (n, b) :: y => (m =? n) && irrep_eqb a b && irreps_eqb x y
  | _, _ => false
  end.

(* irreps.py:589-596  Irreps.repeat: list * n *)
Fixpoint repeat_irreps (x : irreps) (n : nat) : irreps :=
  match n with 0 => [] | S n => x ++ repeat_irreps x n end.

(* irreps.py:614-619  body of the loop of unify; [out] is kept reversed (last entry first) *)
Definition unify_step (out : irreps) (m : mulirrep) : irreps :=
  match out with
  | (mul', ir') :: rest =>
      if irrep_eqb ir' (snd m) then (mul' + fst m, snd m) :: rest else m :: out
  | [] => [m]
  end.

(* irreps.py:598-620  Irreps.unify *)
Definition unify (x : irreps) : irreps := rev (fold_left unify_step x []).

(* irreps.py:622-629  Irreps.remove_zero_multiplicities *)
Definition remove_zero (x : irreps) : irreps := filter (fun m => 0 <? fst m) x.

(* irreps.py:631-650  Irreps.simplify *)
Definition simplify (x : irreps) : irreps := unify (remove_zero x).

(* irreps.py:673-674: Python tuple order on (ir, i, mul): == first, then < (i is unique so mul never decides) *)
Notation sort_entry := (irrep * nat * nat)%type.
Definition entry_ltb (a b : sort_entry) : bool :=
  let '(ira, ia, ma) := a in
  let '(irb, ib, mb) := b in
  if negb (irrep_eqb ira irb) then ir_ltb ira irb
  else if negb (ia =? ib) then ia <? ib else ma <? mb.

(* sorted(): Python's sort is modelled by insertion sort (any sort gives the same result on a strict
   total order; stability is part of the order here because of the index i) *)
Fixpoint insert_sorted {A} (ltb : A -> A -> bool) (a : A) (l : list A) : list A :=
  match l with
  | [] => [a]
  | b :: l' => if ltb b a then b :: insert_sorted ltb a l' else a :: l
  end.
Definition sorted_by {A} (ltb : A -> A -> bool) (l : list A) : list A :=
  fold_right (insert_sorted ltb) [] l.

(* irreps.py:673  [(ir, i, mul) for i, (mul, ir) in enumerate(self)] *)
Definition sort_entries (x : irreps) : list sort_entry :=
  map (fun '(i, (mul, ir)) => (ir, i, mul)) (enumerate x).

(* irreps.py:652-678  Irreps.sort: (irreps, p, inv).  perm.inverse raises if inv is not a permutation *)
Definition irreps_sort (x : irreps) : res (irreps * list nat * list nat) :=
  let out := sorted_by entry_ltb (sort_entries x) in
  let inv := map (fun '(_, i, _) => i) out in
  let! p := inverse inv in
  let s := map (fun '(ir, _, mul) => (mul, ir)) out in
  Ok (s, p, inv).

(* irreps.py:680-692  Irreps.regroup *)
Definition regroup (x : irreps) : res irreps :=
  let! r := irreps_sort x in
  let '(s, _, _) := r in Ok (simplify s).

(* irreps.py:694-701  Irreps.set_mul *)
Definition set_mul (x : irreps) (mul : nat) : irreps := map (fun '(_, ir) => (mul, ir)) x.

(* irreps.py:735-764: the keep / drop argument after normalisation: a collection of irreps or a callable *)
Inductive selector :=
| ByIrreps (l : list irrep)
| ByFun (f : mulirrep -> bool).

(* membership of an entry, as used in 746-749 and 757-760 *)
Definition selects (s : selector) (m : mulirrep) : bool :=
  match s with
  | ByIrreps l => existsb (irrep_eqb (snd m)) l
  | ByFun f => f m
  end.

(* irreps.py:703-767  Irreps.filter *)
Definition filter_irreps (x : irreps) (keep drop : option selector) (lmax : option Z) : res irreps :=
  match keep, drop, lmax with
  | None, None, None => Ok x
  | Some _, Some _, _ => Err ValueError
  | Some _, _, Some _ => Err ValueError
  | _, Some _, Some _ => Err ValueError
  | Some k, None, None => Ok (filter (selects k) x)
  | None, Some d, None => Ok (filter (fun m => negb (selects d m)) x)
  | None, None, Some lm => Ok (filter (fun m => (Z.of_nat (ir_l (snd m)) <=? lm)%Z) x)
  end.

(* irreps.py:841-849  Irreps.ls *)
Definition ls (x : irreps) : list nat := flat_map (fun '(mul, ir) => repeat (ir_l ir) mul) x.

(* irreps.py:851-861  Irreps.lmax; max([]) is a ValueError as well *)
Definition lmax (x : irreps) : res nat :=
  if length x =? 0 then Err ValueError
  else match ls x with [] => Err ValueError | a :: l => Ok (fold_left Nat.max l a) end.

(* irreps.py:831-839  Irreps.mul_gcd, math.gcd of no argument is 0 *)
Definition mul_gcd (x : irreps) : nat := fold_left Nat.gcd (map fst x) 0.

(* irreps.py:965-976  loop of _MulIndexSliceHelper.__getitem__ with running offset i *)
Fixpoint mul_slice_loop (start stop : Z) (i : nat) (x : irreps) : list (Z * irrep) :=
  match x with
  | [] => []
  | (mul, ir) :: x =>
      let iz := Z.of_nat i in
      let e := (iz + Z.of_nat mul)%Z in
      let rest := mul_slice_loop start stop (i + mul) x in
      if ((start <=? iz) && (e <=? stop))%Z then (Z.of_nat mul, ir) :: rest
      else if ((start <? e) && (iz <? stop))%Z then ((Z.min stop e - Z.max start iz)%Z, ir) :: rest
      else rest
  end.

(* irreps.py:954-976  Irreps.slice_by_mul[index] *)
Definition slice_by_mul (x : irreps) (s : slice) : res irreps :=
  let! r := slice_indices s (num_irreps x) in
  let '(start, stop, stride) := r in
  if negb (stride =? 1)%Z then Err NotImplementedError
  else mk_irreps (mul_slice_loop start stop 0 x).

(* irreps.py:990-1006  loop of _DimIndexSliceHelper.__getitem__ *)
Fixpoint dim_slice_loop (start stop : Z) (i : nat) (x : irreps) : res (list (Z * irrep)) :=
  match x with
  | [] => Ok []
  | (mul, ir) :: x =>
      let iz := Z.of_nat i in
      let d := Z.of_nat (ir_dim ir) in
      let e := (iz + Z.of_nat (mul * ir_dim ir))%Z in
      let rest := dim_slice_loop start stop (i + mul * ir_dim ir) x in
      if ((start <=? iz) && (e <=? stop))%Z then
        rmap (cons (Z.of_nat mul, ir)) rest
      else if ((start <? e) && (iz <? stop))%Z then
        let dm := (Z.min stop e - Z.max start iz)%Z in
        if negb (dm mod d =? 0)%Z then Err ValueError
        else rmap (cons ((dm / d)%Z, ir)) rest
      else rest
  end.

(* irreps.py:979-1007  Irreps.slice_by_dim[index] *)
Definition slice_by_dim (x : irreps) (s : slice) : res irreps :=
  let! r := slice_indices s (dim x) in
  let '(start, stop, stride) := r in
  if negb (stride =? 1)%Z then Err NotImplementedError
  else let! l := dim_slice_loop start stop 0 x in mk_irreps l.

(* tuple[start:stop:step] of CPython, for step > 0 (irreps.py:489-494 via tuple.__getitem__);
   negative steps select downwards *)
Fixpoint take_step {A} (l : list A) (start : Z) (step : Z) (k : nat) : list A :=
  match k with
  | 0 => []
  | S k => match nth_error l (Z.to_nat start) with
           | Some a => a :: take_step l (start + step)%Z step k
           | None => []
           end
  end.
Definition tuple_slice {A} (l : list A) (s : slice) : res (list A) :=
  let! r := slice_indices s (length l) in
  let '(start, stop, step) := r in
  let k := if (0 <? step)%Z
           then (if (start <? stop)%Z then ((stop - start - 1) / step + 1)%Z else 0%Z)
           else (if (stop <? start)%Z then ((start - stop - 1) / (- step) + 1)%Z else 0%Z) in
  Ok (take_step l start step (Z.to_nat k)).

(* irreps.py:1010-1020  Irreps.slice_by_chunk[index] and 489-494 Irreps.__getitem__ on slices *)
Definition slice_by_chunk (x : irreps) (s : slice) : res irreps := tuple_slice x s.

(* irreps.py:880-886, 899-905: the list of irreps on the block diagonal of D_from_*:
   [ir for mul, ir in self for _ in range(mul)].  Also the specification object "flattened list". *)
Definition flat (x : irreps) : list irrep := flat_map (fun '(mul, ir) => repeat ir mul) x.
