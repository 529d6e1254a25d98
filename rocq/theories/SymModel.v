(* Model of the permutation part of e3nn_jax/_src/reduced_tensor_product.py: index formulas with signs, the group they generate, and the basis of invariant tensors.
   Python sets and frozensets are lists without repetition; where the code sorts them they are kept in increasing order.  str is a list of ASCII characters.
   np.float64 is replaced by R.  The final check np.testing.assert_allclose(Q @ Q.T, np.eye(d_sym)) is a theorem.  lru_cache is the identity (the functions are pure). *)
From Coq Require Import Reals ZArith Ascii List Bool Arith.
From Verif Require Import PyBase PermModel IrrepsModel IrrepsStr ArrayModel LeadModel.
Import ListNotations.

(* a sign and a permutation, or a sign and a multi-index *)
Notation signed := (Z * list nat)%type.
Definition signed_eqb (a b : signed) : bool := Z.eqb (fst a) (fst b) && list_eqb (snd a) (snd b).
Definition smem (a : signed) (g : list signed) : bool := existsb (signed_eqb a) g.
Definition sadd (a : signed) (g : list signed) : list signed := if smem a g then g else g ++ [a].
Definition sunion (g l : list signed) : list signed := fold_left (fun g a => sadd a g) l g.

(* str.index *)
Fixpoint cindex (a : ascii) (l : chars) : res nat := match l with [] => Err ValueError | b :: l => if Ascii.eqb a b then Ok 0 else rmap S (cindex a l) end.
(* 542-544  (-1 if f.startswith("-") else 1, f.replace("-", "")) *)
Definition parse_side (f : chars) : Z * chars :=
  ((match f with [] => 1 | c :: _ => if Ascii.eqb c "-" then -1 else 1 end)%Z, filter (fun c => negb (Ascii.eqb c "-")) f).
(* len(set(f)) == len(f) *)
Fixpoint distinct (f : chars) : bool := match f with [] => true | c :: f => negb (existsb (Ascii.eqb c) f) && distinct f end.
(* set(f) == set(f0) *)
Definition subset (f g : chars) : bool := forallb (fun c => existsb (Ascii.eqb c) g) f.
(* 548-552 *)
Definition check_side (f0 : chars) (sf : Z * chars) : res unit :=
  let f := snd sf in
  if negb (distinct f) || negb (subset f f0 && subset f0 f) then Err RuntimeError
  else if negb (length f0 =? length f) then Err RuntimeError
  else Ok tt.
(* 556-558  the generators *)
Definition generator (f0 : chars) (sf : Z * chars) : res signed := let! p := mapM (fun i => cindex i (snd sf)) f0 in Ok (fst sf, p).
(* 565-573  one iteration of the loop *)
Definition sgerminate_step (g : list signed) : res (list signed) :=
  let! invs := mapM (fun '(s, p) => let! q := inverse p in Ok (s, q)) g in
  let g := sunion g invs in
  let! prods := mapM (fun '((s1, p1), (s2, p2)) => let! q := compose p1 p2 in Ok ((s1 * s2)%Z, q)) (list_prod g g) in
  Ok (sunion g prods).
(* 563-575  while True, with explicit fuel; None = out of fuel *)
Fixpoint sgerminate_loop (fuel : nat) (g : list signed) : option (res (list signed)) :=
  match fuel with
  | 0 => None
  | S f =>
      match sgerminate_step g with
      | Err e => Some (Err e)
      | Ok g' => if length g' =? length g then Some (Ok g') else sgerminate_loop f g'
      end
  end.
(* 537-577  germinate_perm_repr *)
Definition germinate_perm_repr (fuel : nat) (formula : chars) : option (res (chars * list signed)) :=
  match map parse_side (split "=" formula) with
  | [] => Some (Err IndexError)
  | (s0, f0) :: rest =>
      if negb (Z.eqb s0 1) then Some (Err AssertionError)
      else
        match mapM (check_side f0) ((s0, f0) :: rest) with
        | Err e => Some (Err e)
        | Ok _ =>
            match mapM (generator f0) ((s0, f0) :: rest) with
            | Err e => Some (Err e)
            | Ok gens =>
                match sgerminate_loop fuel (sunion [] gens) with
                | None => None
                | Some (Err e) => Some (Err e)
                | Some (Ok g) => Some (Ok (f0, g))
                end
            end
        end
  end.

(* the dictionary letter -> irreps *)
Definition dict := list (ascii * irreps).
Fixpoint dget (d : dict) (i : ascii) : option irreps := match d with [] => None | (k, v) :: d => if Ascii.eqb k i then Some v else dget d i end.
Definition dset (d : dict) (i : ascii) (v : irreps) : dict := (i, v) :: d.
(* 87-98  the body of the loop over zip(f0, f) *)
Definition link (d : dict) (ij : ascii * ascii) : res dict :=
  let '(i, j) := ij in
  match dget d i, dget d j with
  | Some a, Some b => if irreps_eqb a b then Ok (dset (dset d j a) i a) else Err RuntimeError
  | Some a, None => Ok (dset (dset d j a) i a)
  | None, Some b => Ok (dset d i b)
  | None, None => Ok d
  end.
Fixpoint link_all (d : dict) (l : list (ascii * ascii)) : res dict := match l with [] => Ok d | ij :: l => let! d := link d ij in link_all d l end.
(* 79-110  the irreps of every index of the formula; kwargs are given with their names *)
Definition formula_irreps (kwargs : list (chars * irreps)) (f0 : chars) (g : list signed) : res (list irreps) :=
  let! d := mapM (fun '(k, v) => match k with [c] => Ok (c, v) | _ => Err TypeError end) kwargs in
  let! pairs := mapM (fun '(s, p) => let! f := mapM (fun i => getitem f0 i) p in Ok (combine f0 f)) g in
  let! d := link_all d (concat pairs) in
  let! r := mapM (fun i => match dget d i with Some v => Ok v | None => Err RuntimeError end) f0 in
  if forallb (fun '(k, v) => existsb (Ascii.eqb k) f0) d then Ok r else Err RuntimeError.

(* Python's order on tuples and lists *)
Fixpoint lex {A} (cmp : A -> A -> comparison) (x y : list A) : comparison :=
  match x, y with
  | [], [] => Eq
  | [], _ => Lt
  | _, [] => Gt
  | a :: x, b :: y => match cmp a b with Eq => lex cmp x y | c => c end
  end.
Definition signed_cmp (a b : signed) : comparison := match Z.compare (fst a) (fst b) with Eq => lex Nat.compare (snd a) (snd b) | c => c end.
(* sets as increasing lists *)
Fixpoint oinsert {A} (cmp : A -> A -> comparison) (a : A) (l : list A) : list A :=
  match l with
  | [] => [a]
  | b :: r => match cmp a b with Lt => a :: l | Eq => l | Gt => b :: oinsert cmp a r end
  end.
Definition oset {A} (cmp : A -> A -> comparison) (l : list A) : list A := fold_right (oinsert cmp) [] l.

(* 716-717  xs = {(s, tuple(x[i] for i in p)) for s, p in perm_repr} *)
Definition orbit (g : list signed) (x : idx) : res (list signed) :=
  let! l := mapM (fun '(s, p) => let! y := mapM (fun i => getitem x i) p in Ok (s, y)) g in Ok (oset signed_cmp l).
Definition negated (xs : list signed) : list signed := oset signed_cmp (map (fun '(s, x) => ((- s)%Z, x)) xs).
(* 722  frozenset({frozenset(xs), frozenset({(-s, x) ...})}) *)
Definition class_of (xs : list signed) : list (list signed) := oset (lex signed_cmp) [xs; negated xs].
(* 698-725  full_base_fn and reduce_permutation_base *)
Definition reduce_permutation_base (g : list signed) (dims : shape) : res (list (list (list signed))) :=
  let! l := mapM (fun x => let! xs := orbit g x in Ok (if smem ((-1)%Z, x) xs then [] else [class_of xs])) (all_idx dims) in
  Ok (oset (lex (lex signed_cmp)) (concat l)).

(* 741  max(x, key=lambda xs: sum(s for s, x in xs)): the first one with the largest sum of signs *)
Definition sign_sum (xs : list signed) : Z := fold_left (fun z e => (z + fst e)%Z) xs 0%Z.
Definition pick (x : list (list signed)) : list signed :=
  match x with [] => [] | a :: r => fold_left (fun best b => if Z.ltb (sign_sum best) (sign_sum b) then b else best) r a end.
(* 743-746  j *)
Definition flat_index (dims : shape) (e : idx) : nat := fold_left (fun j '(k, d) => j * d + k) (combine e dims) 0.
(* 742-747  one row of Q *)
Definition matrix_row (dims : shape) (xs : list signed) : nat -> R :=
  fold_left (fun row '(s, e) => fun j => if j =? flat_index dims e then (IZR s / sqrt (INR (length xs)))%R else row j) xs (fun _ => 0%R).
(* 728-751  reduce_permutation_matrix: the tensors Q[i] of shape dims *)
Definition reduce_permutation_matrix (base : list (list (list signed))) (dims : shape) : list (idx -> R) :=
  map (fun b i => matrix_row dims (pick b) (ravel dims i)) base.

(* 662-672  subrepr_permutation; sub_f0 is given in increasing order *)
Definition subrepr_permutation (sub : list nat) (g : list signed) : res (list signed) :=
  let! l := mapM (fun '(s, p) => let! q := mapM (fun i => index i sub) (filter (fun i => existsb (Nat.eqb i) sub) p) in Ok (s, q))
              (filter (fun '(s, p) => forallb (fun '(j, i) => existsb (Nat.eqb i) sub || (i =? j)) (enumerate p)) g) in
  Ok (sunion [] l).

(* 117-118, 162-163  _symmetric_perm_repr and _antisymmetric_perm_repr; the permutations are those of PermModel.group *)
Definition symmetric_perm_repr (n : nat) : res (list signed) := let! l := group n in Ok (map (fun p => (1%Z, p)) l).
Definition antisymmetric_perm_repr (n : nat) : res (list signed) :=
  let! l := group n in mapM (fun p => match sign p with Some (Ok s) => Ok (s, p) | Some (Err e) => Err e | None => Err RuntimeError end) l.

(* 340-352  generate_tuples_with_fixed_sum(length, sum) for length >= 1 *)
Fixpoint tuples_with_sum (length sum : nat) : list (list nat) :=
  match length with
  | 0 => []
  | 1 => [[sum]]
  | S len => if sum =? 0 then [repeat 0 (S len)] else flat_map (fun first => map (cons first) (tuples_with_sum len (sum - first))) (rev (seq 0 (S sum)))
  end.
