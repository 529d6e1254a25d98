(* Model of e3nn_jax/_src/spherical_harmonics/{__init__,recursive,legendre}.py and of to_s2point, s2_dirac of e3nn_jax/_src/s2grid.py.
   Floating point is replaced by R; sympy's exact numbers (sqrtQarray_to_sympy of the Clebsch-Gordan coefficients, and float(x / norm)) by the real numbers they denote;
   the symbolic polynomials y_var, yl1_var, yl2_var returned by recursive_spherical_harmonics are not modelled (the library discards them).
   custom_jvp changes derivatives only: its rule is [jvp_rule] below.  jit is the identity. *)
From Coq Require Import Reals ZArith Arith Bool.
From Verif Require Import PyBase IrrepsModel ArrayModel LeadModel SumR CGModel EntryProofs.
From Verif Require Import RotationModel.
From Verif Require Import S2Model.
Import ListNotations.
Open Scope R_scope.
Notation sh_cg := CGModel.clebsch_gordan.

(* recursive.py:119-120  biggest_power_of_two(n), n >= 1 *)
Definition biggest_power_of_two (n : nat) : nat := (2 ^ Nat.log2 n)%nat.

Inductive keyword := KLegendre | KRecursive | KDense | KSparse | KCustomJvp | KOther.
Definition kw_eqb (a b : keyword) : bool :=
  match a, b with KLegendre, KLegendre | KRecursive, KRecursive | KDense, KDense | KSparse, KSparse | KCustomJvp, KCustomJvp | KOther, KOther => true | _, _ => false end.
Definition has_kw (k : keyword) (alg : list keyword) : bool := existsb (kw_eqb k) alg.

(* recursive.py:20-26, 33-39  the constants for l = 0 and l = 1 *)
Definition const0 (n : s2norm) : R := match n with Integral => sqrt (1 / (4 * PI)) | Component => 1 | Norm => 1 end.
Definition const1 (n : s2norm) : R := match n with Integral => sqrt (3 / (4 * PI)) | Component => sqrt 3 | Norm => 1 end.
(* recursive.py:81-90 *)
Definition const_step (n : s2norm) (l1 l2 l : nat) : R :=
  match n with
  | Integral => sqrt ((2 * INR l + 1) / (4 * PI)) / (sqrt ((2 * INR l1 + 1) / (4 * PI)) * sqrt ((2 * INR l2 + 1) / (4 * PI)))
  | Component => sqrt ((2 * INR l + 1) / ((2 * INR l1 + 1) * (2 * INR l2 + 1)))
  | Norm => 1
  end.
(* recursive.py:72-75  norm: the norm of the coupling of the two central basis vectors *)
Definition central_norm (l1 l2 l : nat) : R := sqrt (rsum (2 * l + 1) (fun k => sh_cg l1 l2 l l1 l2 k ^ 2)).

(* the dictionary context *)
Definition context := list (nat * list R).
Fixpoint lookup (c : context) (l : nat) : option (list R) := match c with [] => None | (k, v) :: c => if (k =? l)%nat then Some v else lookup c l end.
Definition get (c : context) (l : nat) : res (list R) := match lookup c l with Some v => Ok v | None => Err KeyError end.
(* recursive.py:93-115  C and the contraction, dense (einsum) or sparse (only the non-zero coefficients) *)
Definition contract (alg : list keyword) (l1 l2 l : nat) (c : R) (u v : list R) : res (list R) :=
  let C i j k := c * sh_cg l1 l2 l i j k in
  if has_kw KDense alg then Ok (tab (2 * l + 1) (fun k => rsum (2 * l1 + 1) (fun i => rsum (2 * l2 + 1) (fun j => nth i u 0 * nth j v 0 * C i j k))))
  else if has_kw KSparse alg then
    Ok (tab (2 * l + 1) (fun k => lsum (flat_map (fun i => map (fun j => (i, j)) (filter (fun j => if Req_EM_T (C i j k) 0 then false else true) (seq 0 (2 * l2 + 1)))) (seq 0 (2 * l1 + 1)))
                                    (fun '(i, j) => C i j k * nth i u 0 * nth j v 0)))
  else Err ValueError.
(* recursive.py:11-116  recursive_spherical_harmonics(l, context, input, ...): the updated dictionary.  The recursion is on l1, l2 < l; fuel is l + 1 *)
Fixpoint recursive_sh (fuel : nat) (l : nat) (ctx : context) (x : list R) (n : s2norm) (alg : list keyword) : res context :=
  match fuel with
  | O => Err KeyError (* never reached: the fuel l + 1 is enough *)
  | S fuel =>
      match l with
      | O => Ok (match lookup ctx 0 with Some _ => ctx | None => (0%nat, map (fun _ => const0 n * 1) (firstn 1 x)) :: ctx end)
      | S O => Ok (match lookup ctx 1 with Some _ => ctx | None => (1%nat, map (fun t => const1 n * t) x) :: ctx end)
      | _ =>
          let l2 := biggest_power_of_two (l - 1) in
          let l1 := (l - l2)%nat in
          let! ctx := recursive_sh fuel l1 ctx x n alg in
          let! ctx := recursive_sh fuel l2 ctx x n alg in
          match lookup ctx l with
          | Some _ => Ok ctx
          | None =>
              let! u := get ctx l1 in
              let! v := get ctx l2 in
              let! w := contract alg l1 l2 l (const_step n l1 l2 l / central_norm l1 l2 l) u v in
              Ok ((l, w) :: ctx)
          end
      end
  end.

(* legendre.py:84-111  legendre_spherical_harmonics(lmax, x, False, normalization): the two loops write the entries l^2 + l + m, m = -l .. l, one after the other *)
Definition vec_norm (x : list R) : R := sqrt (nth 0 x 0 ^ 2 + nth 1 x 0 ^ 2 + nth 2 x 0 ^ 2).
Definition legendre_entry (lmax : nat) (x : list R) (n : s2norm) (l c : nat) : R :=
  let alpha := arctan2 (nth 0 x 0) (nth 2 x 0) in
  let r := vec_norm x in
  let y := nth 1 x 0 / (if Rltb 0 r then r else 1) in
  let v := sh_beta l (Z.abs_nat (Z.of_nat c - Z.of_nat l)) y * r ^ l in
  let v := match n with Norm => v * (sqrt (4 * PI) / sqrt (2 * INR l + 1)) | Component => v * sqrt (4 * PI) | Integral => v end in
  v * nth (lmax + c - l) (sh_alpha lmax alpha) 0.
Definition legendre_sh (lmax : nat) (x : list R) (n : s2norm) : list R :=
  fold_left set_at (flat_map (fun l => map (fun c => ((l ^ 2 + c)%nat, legendre_entry lmax x n l c)) (seq 0 (2 * l + 1))) (seq 0 (lmax + 1))) (repeat 0 ((lmax + 1) ^ 2)).

(* __init__.py:183-196  _spherical_harmonics(ls, x, normalization, algorithm) *)
Fixpoint run_recursive (ls : list nat) (ctx : context) (x : list R) (n : s2norm) (alg : list keyword) : res context :=
  match ls with [] => Ok ctx | l :: ls => let! ctx := recursive_sh (l + 1) l ctx x n alg in run_recursive ls ctx x n alg end.
Fixpoint map_res {A B} (f : A -> res B) (l : list A) : res (list B) := match l with [] => Ok [] | a :: l => let! b := f a in let! r := map_res f l in Ok (b :: r) end.
Definition harmonics (ls : list nat) (x : list R) (n : s2norm) (alg : list keyword) : res (list (list R)) :=
  if has_kw KLegendre alg then
    let! lmax := max_of ls in
    let out := legendre_sh lmax x n in
    Ok (map (fun l => list_slice out (l ^ 2) ((l + 1) ^ 2)) ls)
  else if has_kw KRecursive alg then
    let! ctx := run_recursive ls [] x n alg in map_res (get ctx) ls
  else Err ValueError.

(* __init__.py:46-52  _check_is_vector *)
Definition check_is_vector (x : irreps) : res parity :=
  if negb (num_irreps x =? 1)%nat then Err ValueError
  else match x with
       | [(mul, ir)] => if ((mul =? 1) && (ir_l ir =? 1))%nat then Ok (ir_p ir) else Err ValueError
       | _ => Err ValueError
       end.
(* the arguments irreps_out (an Irreps, an int or a list of int) and input (an IrrepsArray, or an array of shape s + (d,)) *)
Inductive sh_out := OutIrreps (x : irreps) | OutInt (l : nat) | OutList (ls : list nat).
Inductive sh_in := InIrreps (x : iarray) | InArray (s : shape) (d : nat) (a : idx -> list R).
(* __init__.py:165-168  x / sqrt(where(sum(x**2) == 0, 1, sum(x**2))) *)
Definition normalized (x : list R) : list R := let r2 := lsum x (fun t => t ^ 2) in let r2 := if Req_EM_T r2 0 then 1 else r2 in map (fun t => t / sqrt r2) x.
Definition row_or_nil (r : res (list (list R))) (k : nat) : list R := match r with Ok l => nth k l [] | Err _ => [] end.
(* __init__.py:105-119  the output irreps *)
Definition sh_irreps (out : sh_out) (inp : sh_in) : res irreps :=
  match out with
  | OutIrreps x => Ok x
  | OutInt l => match inp with InIrreps x => let! p := check_is_vector (irr x) in Ok [(1%nat, Irrep l (ppow p l))] | InArray _ _ _ => Err ValueError end
  | OutList ls => match inp with InIrreps x => let! p := check_is_vector (irr x) in Ok (map (fun l => (1%nat, Irrep l (ppow p l))) ls) | InArray _ _ _ => Err ValueError end
  end.
(* __init__.py:55-177  spherical_harmonics; [auto] is config("spherical_harmonics_algorithm"), None for "automatic" *)
Definition spherical_harmonics (auto : option (list keyword)) (out : sh_out) (inp : sh_in) (normalize : bool) (n : s2norm) (algorithm : option (list keyword)) : res iarray :=
  let! x := sh_irreps out inp in
  let odd := filter (fun m => (ir_l (snd m) mod 2 =? 1)%nat) x in
  if negb (forallb (fun m => ((ir_l (snd m) mod 2 =? 1)%nat || parity_eqb (ir_p (snd m)) Even)) x) then Err AssertionError
  else if negb (match odd with [] => true | m :: t => forallb (fun m' => parity_eqb (ir_p (snd m)) (ir_p (snd m'))) t end) then Err AssertionError
  else
    let! v := (match inp with
               | InIrreps a => let! p := check_is_vector (irr a) in
                               if negb (forallb (fun m => parity_eqb p (ir_p (snd m))) odd) then Err ValueError else Ok (lead a, 3%nat, arr a)
               | InArray s d a => Ok (s, d, a)
               end) in
    let s := fst (fst v) in let d := snd (fst v) in let a := snd v in
    if (num_irreps x =? 0)%nat then mkIA x s 0 (fun _ => []) None None
    else
      let! alg := (match algorithm with
                   | Some alg => Ok alg
                   | None => match auto with
                             | None => let! m := lmax x in Ok (if (m <=? 8)%nat then [KRecursive; KDense; KCustomJvp] else [KLegendre; KDense; KCustomJvp])
                             | Some alg => Ok alg
                             end
                   end) in
      if has_kw KOther alg then Err AssertionError
      else if negb (d =? 3)%nat then Err AssertionError
      else
        let ls := map (fun m => ir_l (snd m)) x in
        let point i := if normalize then normalized (a i) else a i in
        (* whether the evaluation fails depends on ls and alg only *)
        let! _ := harmonics ls [0; 0; 0] n alg in
        from_chunks x (map (fun '(k, m) => Some (Chunk s (fst m) (ir_dim (snd m)) (fun i => repeat (row_or_nil (harmonics ls (point i) n alg) k) (fst m)))) (enumerate x)) s true.

(* __init__.py:199-252  the rule for derivatives: the tangent of the l-th output along x_dot, from the (l - 1)-th harmonics *)
Definition jvp_weight (n : s2norm) (l : nat) : R := match n with Norm => sqrt ((2 * INR l + 1) * INR l * (2 * INR l - 1)) | _ => sqrt (INR l) * (2 * INR l + 1) end.
Definition jvp_rule (alg : list keyword) (n : s2norm) (l : nat) (r x_dot : list R) : res (list R) :=
  if (l =? 0)%nat then Ok (map (fun _ => 0) r)
  else
    let w i j k := sh_cg (l - 1) l 1 i j k * jvp_weight n l in
    if has_kw KDense alg then Ok (tab (2 * l + 1) (fun j => rsum (2 * l - 1) (fun i => rsum 3 (fun k => nth i r 0 * nth k x_dot 0 * w i j k))))
    else if has_kw KSparse alg then
      Ok (tab (2 * l + 1) (fun j => lsum (flat_map (fun i => map (fun k => (i, k)) (filter (fun k => if Req_EM_T (w i j k) 0 then false else true) (seq 0 3))) (seq 0 (2 * l - 1)))
                                       (fun '(i, k) => w i j k * nth i r 0 * nth k x_dot 0)))
    else Err ValueError.
(* __init__.py:207-215, 251-252  _jvp: js = max(0, l - 1) *)
Definition jvp (ls : list nat) (n : s2norm) (alg : list keyword) (x x_dot : list R) : res (list (list R) * list (list R)) :=
  let! out := harmonics (ls ++ map (fun l => Nat.max 0 (l - 1)) ls) x n alg in
  let! t := map_res (fun '(l, r) => jvp_rule alg n l r x_dot) (combine ls (skipn (length ls) out)) in
  Ok (firstn (length ls) out, t).
