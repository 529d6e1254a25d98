(* Model of e3nn_jax/perm.py: permutations as lists of naturals. *)
From Verif Require Import PyBase.

(* sorted(set(p)): ascending list of the distinct elements *)
Fixpoint insert_uniq (a : nat) (l : list nat) : list nat :=
  match l with
  | [] => [a]
  | b :: l' => if a <? b then a :: l else if a =? b then l else b :: insert_uniq a l'
  end.
Definition sorted_set (l : list nat) : list nat := fold_right insert_uniq [] l.

Fixpoint list_eqb (x y : list nat) : bool :=
  match x, y with
  | [], [] => true
  | a :: x, b :: y => (a =? b) && list_eqb x y
  | _, _ => false
  end.

(* perm.py:9-10  is_perm *)
Definition is_perm (p : list nat) : bool := list_eqb (sorted_set p) (seq 0 (length p)).

(* perm.py:13-14  identity *)
Definition identity (n : nat) : list nat := seq 0 n.

(* p[i]: IndexError out of range *)
Definition getitem {A} (l : list A) (i : nat) : res A :=
  match nth_error l i with Some a => Ok a | None => Err IndexError end.

(* perm.py:17-23  compose *)
Definition compose (p1 p2 : list nat) : res (list nat) :=
  if negb (is_perm p1 && is_perm p2) then Err AssertionError
  else if negb (length p1 =? length p2) then Err AssertionError
  else mapM (fun i => let! j := getitem p2 i in getitem p1 j) (seq 0 (length p1)).

(* l.index(a): position of the first occurrence, ValueError if absent *)
Fixpoint index (a : nat) (l : list nat) : res nat :=
  match l with
  | [] => Err ValueError
  | b :: l => if a =? b then Ok 0 else rmap S (index a l)
  end.

(* perm.py:26-27  inverse *)
Definition inverse (p : list nat) : res (list nat) :=
  mapM (fun i => index i p) (seq 0 (length p)).

(* pool.pop(k): (removed element, remaining list) *)
Fixpoint pop {A} (l : list A) (k : nat) : res (A * list A) :=
  match l, k with
  | [], _ => Err IndexError
  | a :: l, 0 => Ok (a, l)
  | a :: l, S k => rmap (fun '(b, r) => (b, a :: r)) (pop l k)
  end.

(* perm.py:38-43  loop of from_int: [steps] iterations left, counter n decreasing *)
Fixpoint from_int_loop (steps : nat) (i : nat) (n : nat) (pool : list nat) : res (list nat) :=
  match steps with
  | 0 => Ok []
  | S s =>
      if n =? 0 then Err ZeroDivisionError else
      let j := i mod n in
      let i := i / n in
      let! r := pop pool j in
      let '(a, pool) := r in
      rmap (cons a) (from_int_loop s i (n - 1) pool)
  end.

(* perm.py:35-44  from_int (i >= 0) *)
Definition from_int (i n : nat) : res (list nat) := from_int_loop n i n (seq 0 n).

(* perm.py:52-56  loop of to_int *)
Fixpoint to_int_loop (p : list nat) (pool : list nat) (i m : nat) : res nat :=
  match p with
  | [] => Ok i
  | j :: p =>
      let! k := index j pool in
      let i := i + k * m in
      let m := m * length pool in
      let! r := pop pool k in
      let '(_, pool) := r in
      to_int_loop p pool i m
  end.

(* perm.py:47-57  to_int *)
Definition to_int (p : list nat) : res nat := to_int_loop p (seq 0 (length p)) 0 1.

(* Python sets of permutations: lists without duplicates, [mem] is `in` *)
Definition mem (p : list nat) (g : list (list nat)) : bool := existsb (list_eqb p) g.
Definition set_add (p : list nat) (g : list (list nat)) : list (list nat) :=
  if mem p g then g else g ++ [p].
(* subset.union(l) *)
Definition union (g l : list (list nat)) : list (list nat) := fold_left (fun g p => set_add p g) l g.

(* perm.py:60-61  group *)
Definition group (n : nat) : res (list (list nat)) :=
  let! l := mapM (fun i => from_int i n) (seq 0 (fact n)) in Ok (union [] l).

(* perm.py:67-68  one iteration of the loop of germinate *)
Definition germinate_step (g : list (list nat)) : res (list (list nat)) :=
  let! invs := mapM inverse g in
  let g := union g invs in
  let! prods := mapM (fun '(p1, p2) => compose p1 p2) (list_prod g g) in
  Ok (union g prods).

(* perm.py:64-70  germinate: while True, modelled with explicit fuel; None = out of fuel *)
Fixpoint germinate_loop (fuel : nat) (g : list (list nat)) : option (res (list (list nat))) :=
  match fuel with
  | 0 => None
  | S f =>
      match germinate_step g with
      | Err e => Some (Err e)
      | Ok g' => if length g' =? length g then Some (Ok g') else germinate_loop f g'
      end
  end.

(* perm.py:73-95  is_group (element order of the set is irrelevant except for which exception is raised first) *)
Definition is_group (g : list (list nat)) : res bool :=
  match g with
  | [] => Ok false
  | p0 :: _ =>
      let n := length p0 in
      if negb (forallb (fun p => length p =? n) g) then Err AssertionError
      else if negb (mem (identity n) g) then Ok false
      else
        let! invs := mapM inverse g in
        if negb (forallb (fun p => mem p g) invs) then Ok false
        else
          let! prods := mapM (fun '(p1, p2) => compose p1 p2) (list_prod g g) in
          Ok (forallb (fun p => mem p g) prods)
  end.

(* perm.py:105-107  while p[i] != c[0]: i = p[i]; c += [i]   (fuel; None = did not close, the Python loop diverges) *)
Fixpoint cycle_loop (fuel : nat) (p : list nat) (c0 i : nat) : option (res (list nat)) :=
  match getitem p i with
  | Err e => Some (Err e)
  | Ok pi =>
      if pi =? c0 then Some (Ok [])
      else match fuel with
           | 0 => None
           | S f => match cycle_loop f p c0 pi with
                    | Some (Ok c) => Some (Ok (pi :: c))
                    | other => other
                    end
           end
  end.

Definition list_min (l : list nat) : nat :=
  match l with [] => 0 | a :: l => fold_left Nat.min l a end.

(* perm.py:108-111  rotate the cycle so that its minimum comes first *)
Definition rotate_min (c : list nat) : list nat :=
  match index (list_min c) c with
  | Ok i => skipn i c ++ firstn i c
  | Err _ => c
  end.

(* perm.py:102-111  body of the loop of to_cycles, for starting point i *)
Definition cycle_of (p : list nat) (i : nat) : option (res (list nat)) :=
  match cycle_loop (length p) p i i with
  | Some (Ok c) => Some (Ok (i :: c))
  | other => other
  end.

Fixpoint to_cycles_loop (p : list nat) (is : list nat) (acc : list (list nat))
  : option (res (list (list nat))) :=
  match is with
  | [] => Some (Ok acc)
  | i :: is =>
      match cycle_of p i with
      | None => None
      | Some (Err e) => Some (Err e)
      | Some (Ok c) =>
          to_cycles_loop p is (if 2 <=? length c then set_add (rotate_min c) acc else acc)
      end
  end.

(* perm.py:98-113  to_cycles *)
Definition to_cycles (p : list nat) : option (res (list (list nat))) :=
  to_cycles_loop p (seq 0 (length p)) [].

(* perm.py:116-119  sign *)
Definition sign (p : list nat) : option (res Z) :=
  match to_cycles p with
  | None => None
  | Some (Err e) => Some (Err e)
  | Some (Ok cs) =>
      Some (Ok (fold_left (fun s c => if Nat.even (length c) then (- s)%Z else s) cs 1%Z))
  end.
