(* Basic Python vocabulary used by every model file: exceptions as values,
   range, sum, slice.indices. *)
From Coq Require Export List Arith ZArith Lia Bool.
From Coq Require Export ZifyBool ZifyNat.
Export ListNotations.

Inductive exn :=
| ValueError | AssertionError | TypeError | IndexError
| NotImplementedError | AttributeError | ZeroDivisionError | KeyError | RuntimeError | NameError.

(* A Python call either returns or raises. *)
Inductive res (A : Type) := Ok (a : A) | Err (e : exn).
Arguments Ok {A} a.
Arguments Err {A} e.

Definition bind {A B} (x : res A) (f : A -> res B) : res B :=
  match x with Ok a => f a | Err e => Err e end.
Notation "'let!' x ':=' e1 'in' e2" := (bind e1 (fun x => e2))
  (at level 200, x pattern, right associativity).

Definition rmap {A B} (f : A -> B) (x : res A) : res B :=
  match x with Ok a => Ok (f a) | Err e => Err e end.

(* [f(x) for x in l] where f may raise: first exception wins *)
Fixpoint mapM {A B} (f : A -> res B) (l : list A) : res (list B) :=
  match l with
  | [] => Ok []
  | a :: l => match f a with
              | Err e => Err e
              | Ok b => match mapM f l with Ok bs => Ok (b :: bs) | Err e => Err e end
              end
  end.

Definition is_ok {A} (x : res A) : bool := match x with Ok _ => true | Err _ => false end.

(* Python's assert *)
Definition assert (b : bool) : res unit := if b then Ok tt else Err AssertionError.

(* sum(l) on non-negative integers *)
Definition sum (l : list nat) : nat := fold_right Nat.add 0 l.

(* A Python slice object start:stop:step *)
Record slice := Slice { s_start : option Z; s_stop : option Z; s_step : option Z }.

(* slice.indices(n) of CPython (PySlice_GetLongIndices), step > 0 or < 0 *)
Definition slice_indices (s : slice) (n : nat) : res (Z * Z * Z) :=
  let n := Z.of_nat n in
  let step := match s_step s with None => 1%Z | Some k => k end in
  if (step =? 0)%Z then Err ValueError else
  let lower := if (0 <? step)%Z then 0%Z else (-1)%Z in
  let upper := if (0 <? step)%Z then n else (n - 1)%Z in
  let clip x := if (x <? 0)%Z then Z.max (x + n) lower else Z.min x upper in
  let start := match s_start s with
               | None => if (0 <? step)%Z then lower else upper
               | Some x => clip x end in
  let stop := match s_stop s with
              | None => if (0 <? step)%Z then upper else lower
              | Some x => clip x end in
  Ok (start, stop, step).

(* sequence[start:stop] for 0 <= start, stop and step one *)
Definition list_slice {A} (l : list A) (start stop : nat) : list A :=
  firstn (stop - start) (skipn start l).

(* enumerate(l) *)
Definition enumerate {A} (l : list A) : list (nat * A) := combine (seq 0 (length l)) l.
