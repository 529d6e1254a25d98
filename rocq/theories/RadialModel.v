(* Model of e3nn_jax/_src/radial.py over the reals, one input number at a time (the functions are elementwise). sus is in ActivationModel.v. *)
From Coq Require Import Reals ZArith.
From Verif Require Import PyBase RotationModel ActivationModel.
Open Scope R_scope.

(* radial.py:25-54  soft_envelope *)
Definition soft_envelope (x x_max arg_multiplicator value_at_origin : R) : R :=
  let cste := value_at_origin / sus arg_multiplicator in
  cste * sus (arg_multiplicator * (1 - x / x_max)).

(* jnp.linspace(start, end, n) *)
Definition linspace (a b : R) (n : nat) : list R := map (fun k => a + INR k * ((b - a) / INR (n - 1))) (seq 0 n).

Inductive basis := Gaussian | Cosine | SmoothFinite | Fourier | OtherBasis.
(* radial.py:145-161 *)
Definition one_hot_flags (cutoff start_zero end_zero : option bool) : res (bool * bool) :=
  let! z := match cutoff with
    | None => Ok (start_zero, end_zero)
    | Some c => match start_zero, end_zero with None, None => Ok (Some c, Some c) | _, _ => Err AssertionError end
    end in
  match z with (Some s, Some e) => Ok (s, e) | _ => Err ValueError end.
(* radial.py:162-180  the centers and the step; values[1] of an array with one element is values[0] (jax clamps), so the step is then 0 and
   the division (x - v) / step, nan in jax, is an arbitrary number here *)
Definition one_hot_values (a b : R) (number : nat) (start_zero end_zero : bool) : list R * R :=
  let v := linspace a b (match start_zero, end_zero with true, true => number + 2 | false, false => number | _, _ => number + 1 end) in
  let step := nth (Nat.min 1 (length v - 1)) v 0 - nth 0 v 0 in
  ((match start_zero, end_zero with
    | true, true => removelast (tl v)
    | true, false => tl v
    | false, true => removelast v
    | false, false => v
    end), step).
(* radial.py:57-210  soft_one_hot_linspace *)
Definition soft_one_hot_linspace (x a b : R) (number : nat) (bs : basis) (cutoff start_zero end_zero : option bool) : res (list R) :=
  let! z := one_hot_flags cutoff start_zero end_zero in
  let '(s, e) := z in
  let '(values, step) := one_hot_values a b number s e in
  let diff := map (fun v => (x - v) / step) values in
  match bs with
  | Gaussian => Ok (map (fun d => exp (- d ^ 2) / (112 / 100)) diff)
  | Cosine => Ok (map (fun d => if Rltb (-1) d && Rltb d 1 then cos (PI / 2 * d) else 0) diff)
  | SmoothFinite => Ok (map (fun d => 114136 / 100000 * exp 2 * sus (d + 1) * sus (1 - d)) diff)
  | Fourier =>
      let t := (x - a) / (b - a) in
      if s && e then Ok (map (fun i => if Rltb 0 t && Rltb t 1 then sin (PI * INR i * t) / sqrt (1 / 4 + INR number / 2) else 0) (seq 1 number))
      else if negb s && negb e then Ok (map (fun i => cos (PI * INR i * t) / sqrt (1 / 4 + INR number / 2)) (seq 0 number))
      else Err ValueError
  | OtherBasis => Err ValueError
  end.

(* radial.py:213-243  bessel(x, n, x_max)[k-1] for k = 1 .. n *)
Definition bessel_at (x_max x : R) (k : nat) : R :=
  sqrt (2 / x_max) * (if Req_EM_T x 0 then INR k * PI / x_max else sin (INR k * PI / x_max * x) / x).
Definition bessel (x : R) (n : nat) (x_max : R) : list R := map (bessel_at x_max x) (seq 1 n).

(* radial.py:246-253  u; x ** p with an integer p >= 0 *)
Definition u_envelope (p : nat) (x : R) : R :=
  1 - (INR p + 1) * (INR p + 2) / 2 * x ^ p + INR p * (INR p + 2) * x ^ (p + 1) - INR p * (INR p + 1) / 2 * x ^ (p + 2).

(* radial.py:256-264  _constraint *)
Definition constraint (x : R) (derivative degree : nat) : list R :=
  map (fun N => if (N <? derivative)%nat then 0 else INR (fact N / fact (N - derivative)) * x ^ (N - derivative)) (seq 0 degree).
(* jnp.polyval(c[::-1], x): c is the list of coefficients, constant first *)
Fixpoint poly_at (c : list R) (x : R) : R := match c with [] => 0 | a :: c => a + x * poly_at c x end.
(* radial.py:267-280  solve_polynomial: np.linalg.solve is modelled by its specification: c is a solution of A c = B
   (the order of the rows, sorted(constraints), does not matter for that) *)
Definition solves (constraints : list (R * nat * R)) (c : list R) : Prop :=
  length c = length constraints /\
  Forall (fun '((x, derivative), y) => fold_right Rplus 0 (map (fun '(a, b) => a * b) (combine (constraint x derivative (length constraints)) c)) = y) constraints.
(* radial.py:312-318; the elements of the frozenset are all different *)
Definition envelope_constraints (n0 n1 : nat) : list (R * nat * R) :=
  [(- (1 / 2), 0%nat, 1); (1 / 2, 0%nat, 0)] ++ map (fun d => (- (1 / 2), d, 0)) (seq 1 n0) ++ map (fun d => (1 / 2, d, 0)) (seq 1 n1).
(* radial.py:283-328  poly_envelope(n0, n1, x_max)(x), c being the coefficients found by solve_polynomial *)
Definition poly_envelope (c : list R) (x_max x : R) : R :=
  let x_small := if Rltb x x_max then x else x_max in
  if Rltb x x_max then poly_at c (x_small / x_max - 1 / 2) else 0.
