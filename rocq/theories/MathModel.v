(* Model of e3nn_jax/_src/utils/math_numpy.py: fractions are pairs of integers (int64 overflow is not modelled), matrices are lists of
   rows of real numbers.  as_approx_integer_ratio (math_numpy.py:12-36) reads the bits of a float and is not modelled; the complex case of
   gram_schmidt and np.linalg.eigh (a parameter) are not modelled either. *)
From Coq Require Import Reals.
From Verif Require Import PyBase ArrayModel LeadModel.
Open Scope nat_scope.

(* ---------- fractions ---------- *)
(* numpy's n // d on integers: floor division, and 0 when d is 0 *)
Definition floordiv (n d : Z) : Z := if (d =? 0)%Z then 0%Z else (n / d)%Z.

(* math_numpy.py:6-9  normalize_integer_ratio *)
Definition normalize_integer_ratio (n d : Z) : Z * Z :=
  let g := Z.gcd n d in
  let g := (if (d <? 0)%Z then - g else g)%Z in
  (floordiv n g, floordiv d g).

(* the variables of the loop of limit_denominator for one element *)
Record cf := CF { cf_p0 : Z; cf_q0 : Z; cf_p1 : Z; cf_q1 : Z; cf_n : Z; cf_d : Z; cf_d0 : Z }.
Definition cf_start (n d : Z) : cf := CF 0 1 1 0 n d d.
(* math_numpy.py:48-51  stop *)
Definition cf_a (s : cf) : Z := floordiv (cf_n s) (cf_d s).
Definition cf_stop (maxd : Z) (s : cf) : bool := (maxd <? cf_q0 s + cf_a s * cf_q1 s)%Z || (cf_d0 s <=? maxd)%Z.
(* math_numpy.py:52-53  one turn; an element that has stopped is kept *)
Definition cf_step (maxd : Z) (s : cf) : cf :=
  if cf_stop maxd s then s
  else CF (cf_p1 s) (cf_q1 s) (cf_p0 s + cf_a s * cf_p1 s)%Z (cf_q0 s + cf_a s * cf_q1 s)%Z (cf_d s) (cf_n s - cf_a s * cf_d s)%Z (cf_d0 s).
(* math_numpy.py:47-53  the loop over the whole array runs until every element has stopped *)
Fixpoint cf_loop (fuel : nat) (maxd : Z) (ss : list cf) : option (list cf) :=
  if forallb (cf_stop maxd) ss then Some ss
  else match fuel with O => None | S fuel => cf_loop fuel maxd (map (cf_step maxd) ss) end.
(* math_numpy.py:55-66 *)
Definition cf_result (maxd : Z) (n0 d0 : Z) (s : cf) : Z * Z :=
  let k := floordiv (maxd - cf_q0 s) (cf_q1 s) in
  let n1 := (cf_p0 s + k * cf_p1 s)%Z in let d1 := (cf_q0 s + k * cf_q1 s)%Z in
  let n2 := cf_p1 s in let d2 := cf_q1 s in
  let mask := (Z.abs (d1 * (n2 * d0 - n0 * d2)) <=? Z.abs (d2 * (n1 * d0 - n0 * d1)))%Z in
  if (d0 <? maxd)%Z then (n0, d0) else if mask then (n2, d2) else (n1, d1).
(* math_numpy.py:38-66  limit_denominator on an array of fractions *)
Definition limit_denominator (fuel : nat) (maxd : Z) (xs : list (Z * Z)) : option (list (Z * Z)) :=
  match cf_loop fuel maxd (map (fun '(n, d) => cf_start n d) xs) with
  | None => None
  | Some ss => Some (map (fun '((n, d), s) => cf_result maxd n d s) (combine xs ss))
  end.
(* np.sign *)
Definition np_sign (x : R) : R := if Rlt_dec 0 x then 1%R else if Rlt_dec x 0 then (-1)%R else 0%R.
(* math_numpy.py:69-73  _round_to_sqrt_rational of x with x^2 = n/d in lowest terms (the fraction comes from as_approx_integer_ratio) *)
Definition round_to_sqrt_rational (fuel : nat) (maxd : Z) (xs : list (R * (Z * Z))) : option (list R) :=
  match limit_denominator fuel (maxd * maxd + 1) (map snd xs) with
  | None => None
  | Some rs => Some (map (fun '((x, _), (n, d)) => (np_sign x * sqrt (IZR n / IZR d))%R) (combine xs rs))
  end.

(* ---------- Gram-Schmidt ---------- *)
(* v - <w, v> w *)
Definition subtract_along (v w : list R) : list R := zipR (fun a b => a - dotR w v * b)%R v w.
(* math_numpy.py:101-102 *)
Definition residual (Q : list (list R)) (v : list R) : list R := fold_left subtract_along Q v.
(* np.linalg.norm *)
Definition norm2 (v : list R) : R := sqrt (dotR v v).
(* math_numpy.py:87-107  gram_schmidt: the rows found, and the matrix of the caller after the call ([v -= ...] works in place on A[i]) *)
Fixpoint gs_loop (round_fn : list R -> list R) (epsilon : R) (A : list (list R)) (Q : list (list R)) : list (list R) * list (list R) :=
  match A with
  | [] => (Q, [])
  | a :: A =>
      let v := residual Q a in
      let Q' := if Rlt_dec epsilon (norm2 v) then Q ++ [round_fn (map (fun r => r / norm2 v)%R v)] else Q in
      let (Q'', A') := gs_loop round_fn epsilon A Q' in (Q'', v :: A')
  end.
Definition gram_schmidt (round_fn : list R -> list R) (epsilon : R) (A : list (list R)) : list (list R) * list (list R) := gs_loop round_fn epsilon A [].

(* ---------- basis_intersection ---------- *)
(* A @ B.T *)
Definition gram (A B : list (list R)) : list (list R) := map (fun a => map (fun b => dotR a b) B) A.
Definition mat_opp (A : list (list R)) : list (list R) := map (map Ropp) A.
(* np.concatenate([A, B], axis=1) *)
Definition hstack (A B : list (list R)) : list (list R) := map (fun '(a, b) => a ++ b) (combine A B).
(* v[:, w < epsilon] *)
Definition small_columns (epsilon : R) (w : list R) (v : list (list R)) : list (list R) :=
  map (fun row => map snd (filter (fun '(x, _) => if Rlt_dec x epsilon then true else false) (combine w row))) v.
(* math_numpy.py:110-154  basis_intersection of arrays of shapes (n1, d1) and (n2, d2); eigh returns the eigenvalues and the matrix whose
   columns are the eigenvectors *)
Definition basis_intersection (eigh : list (list R) -> list R * list (list R)) (epsilon : R) (round_fn : list R -> list R) (d1 d2 : nat) (basis1 basis2 : list (list R)) : res (list (list R) * list (list R)) :=
  if negb (d1 =? d2) then Err AssertionError
  else
    let p := hstack (gram basis1 basis1) (gram (mat_opp basis1) basis2) ++ hstack (gram (mat_opp basis2) basis1) (gram basis2 basis2) in
    let p := map round_fn p in
    let '(w, v) := eigh p in
    let v := small_columns epsilon w v in
    let x1 := firstn (length basis1) v in
    let x1 := fst (gram_schmidt round_fn epsilon (gram x1 x1)) in
    let x2 := skipn (length basis1) v in
    let x2 := fst (gram_schmidt round_fn epsilon (gram x2 x2)) in
    Ok (x1, x2).
