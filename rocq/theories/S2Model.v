(* Model of e3nn_jax/_src/s2grid.py (signals on the sphere) and of the two helpers _sh_alpha, _sh_beta of e3nn_jax/_src/spherical_harmonics/legendre.py.
   Floating point is replaced by R and C.  Not modelled: the s2fft back end (an optional external package), plotting, find_peaks, random sampling, dtypes,
   and names of quadratures or normalizations other than the documented ones (they are all rejected by an exception). *)
From Coq Require Import Reals ZArith Arith Bool.
From Coquelicot Require Import Coquelicot.
From Verif Require Import PyBase IrrepsModel ArrayModel SumR CGModel EntryProofs.
From Verif Require Import ActivationModel.
Open Scope R_scope.

Inductive quadrature := Soft | GaussLegendre.
Inductive s2norm := Component | Norm | Integral.

(* s2grid.py:777-795  s2_irreps *)
Definition s2_irreps (lmax : nat) (p_val p_arg : parity) : irreps :=
  map (fun l => (1%nat, Irrep l (pmul p_val (ppow p_arg l)))) (seq 0 (lmax + 1)).

(* s2grid.py:1426-1435  the set {ir.p ...}: empty, one element, or (rejected) both *)
Definition parity_set (ps : list parity) : res (option parity) :=
  match ps with
  | [] => Ok None
  | p :: rest => if forallb (parity_eqb p) rest then Ok (Some p) else Err ValueError
  end.
Definition in_or_none (a : option parity) (p : parity) : bool := match a with None => true | Some q => parity_eqb q p end.
(* s2grid.py:1423-1465  _check_parities *)
Definition check_parities (x : irreps) (p_val p_arg : option parity) : res (option parity * option parity) :=
  let! p_even := parity_set (map (fun m => ir_p (snd m)) (filter (fun m => (ir_l (snd m) mod 2 =? 0)%nat) x)) in
  let! p_odd := parity_set (map (fun m => ir_p (snd m)) (filter (fun m => (ir_l (snd m) mod 2 =? 1)%nat) x)) in
  match p_val, p_arg with
  | Some v, Some a => if in_or_none p_even v && in_or_none p_odd (pmul v a) then Ok (Some v, Some a) else Err ValueError
  | _, _ =>
      let! p_even := (match p_val with
                      | None => Ok p_even
                      | Some v => match p_even with None => Ok (Some v) | Some e => if parity_eqb e v then Ok (Some e) else Err ValueError end
                      end) in
      let! r := (match p_arg with
                 | None => Ok (p_even, p_odd)
                 | Some a => match p_odd, p_even with
                             | None, Some e => Ok (p_even, Some (pmul e a))
                             | Some o, None => Ok (Some (pmul o a), p_odd)
                             | Some o, Some e => if parity_eqb o (pmul e a) then Ok (p_even, p_odd) else Err ValueError
                             | None, None => Ok (None, None)
                             end
                 end) in
      match r with
      | (Some e, Some o) => Ok (Some e, Some (pmul e o))
      | (e, _) => Ok (e, None)
      end
  end.

(* s2grid.py:106-150  SphericalSignal: grid_values of shape (lead, res_beta, res_alpha), given as its rows along beta and alpha *)
Record signal := Signal { g_lead : shape; g_beta : nat; g_alpha : nat; g_val : idx -> nat -> nat -> R; g_quad : quadrature; g_pval : parity; g_parg : parity }.

Definition quad_eqb (a b : quadrature) : bool := match a, b with Soft, Soft | GaussLegendre, GaussLegendre => true | _, _ => false end.
Definition same_grid (a b : signal) : bool := (g_beta a =? g_beta b)%nat && (g_alpha a =? g_alpha b)%nat.
(* broadcasting of two stacks of signals on the same grid *)
Definition sig_zip (f : R -> R -> R) (a b : signal) (p : parity) : res signal :=
  let! s := broadcast_shapes (g_lead a) (g_lead b) in
  Ok (Signal s (g_beta a) (g_alpha a) (fun i u v => f (g_val a (bidx (g_lead a) i) u v) (g_val b (bidx (g_lead b) i) u v)) (g_quad a) p (g_parg a)).
(* s2grid.py:210-232  SphericalSignal.__mul__ with a signal *)
Definition sig_mul (a b : signal) : res signal :=
  if negb (quad_eqb (g_quad a) (g_quad b)) then Err ValueError
  else if negb (same_grid a b) then Err ValueError
  else if negb (parity_eqb (g_parg a) (g_parg b)) then Err ValueError
  else sig_zip Rmult a b (pmul (g_pval a) (g_pval b)).
(* s2grid.py:234-245  SphericalSignal.__mul__ with a scalar array of shape t *)
Definition sig_scale (a : signal) (t : shape) (b : idx -> R) : res signal :=
  let! s := broadcast_shapes (g_lead a) t in
  Ok (Signal s (g_beta a) (g_alpha a) (fun i u v => g_val a (bidx (g_lead a) i) u v * b (bidx t i)) (g_quad a) (g_pval a) (g_parg a)).
(* s2grid.py:234-245 with an IrrepsArray *)
Definition sig_scale_ia (a : signal) (y : iarray) : res signal :=
  if negb (irreps_eqb (irr y) [(1%nat, Irrep 0 Even)]) then Err ValueError else sig_scale a (lead y) (fun i => nth 0 (arr y i) 0).
(* s2grid.py:251-253  __truediv__ *)
Definition sig_div (a : signal) (c : R) : res signal := sig_scale a [] (fun _ => 1 / c).
(* s2grid.py:255-272  __add__ *)
Definition sig_add (a b : signal) : res signal :=
  if negb (same_grid a b) then Err ValueError
  else if negb (parity_eqb (g_pval a) (g_pval b) && parity_eqb (g_parg a) (g_parg b)) then Err ValueError
  else if negb (quad_eqb (g_quad a) (g_quad b)) then Err ValueError
  else sig_zip Rplus a b (g_pval a).
(* s2grid.py:278-282  __neg__ *)
Definition sig_neg (a : signal) : signal := Signal (g_lead a) (g_beta a) (g_alpha a) (fun i u v => - g_val a i u v) (g_quad a) (g_pval a) (g_parg a).
(* s2grid.py:274-276  __sub__ *)
Definition sig_sub (a b : signal) : res signal := sig_add a (sig_neg b).
(* s2grid.py:412-425  apply and replace_values *)
Definition sig_apply (f : R -> R) (a : signal) : res signal :=
  let new_p_val := match g_pval a with Odd => parity_function f | Even => 1%Z end in
  if (new_p_val =? 0)%Z then Err ValueError
  else Ok (Signal (g_lead a) (g_beta a) (g_alpha a) (fun i u v => f (g_val a i u v)) (g_quad a) (g_pval a) (g_parg a)).

(* s2grid.py:1314-1335  _quadrature_weights_soft *)
Definition soft_weight (b j : nat) : R :=
  4 / INR b * sin (PI * (2 * INR j + 1) / (2 * INR b)) *
  rsum (b / 2) (fun k => 1 / (2 * INR k + 1) * sin ((2 * INR j + 1) * (2 * INR k + 1) * PI / (2 * INR b))).
(* numpy.polynomial.legendre.leggauss: nodes and weights, an external function of the resolution *)
Definition gauss_rule := nat -> (nat -> R) * (nat -> R).
(* s2grid.py:1364-1386  _quadrature_weights: nodes and weights along y *)
Definition quadrature_weights (leggauss : gauss_rule) (q : quadrature) (res_beta : nat) : res ((nat -> R) * (nat -> R)) :=
  match q with
  | Soft => if (res_beta mod 2 =? 0)%nat
            then Ok (fun i => - cos ((INR i + 1 / 2) / INR res_beta * PI), fun j => soft_weight res_beta j / 2)
            else Err AssertionError
  | GaussLegendre => Ok (fst (leggauss res_beta), fun j => snd (leggauss res_beta) j / 2)
  end.
(* s2grid.py:1358-1360  the alpha grid *)
Definition alpha_grid (res_alpha i : nat) : R := INR i / INR res_alpha * 2 * PI.
(* s2grid.py:1289-1312  _s2grid_vectors: the point (x, y, z) *)
Definition grid_vector (y alpha : R) : R * R * R := (sqrt (1 - y ^ 2) * sin alpha, y, sqrt (1 - y ^ 2) * cos alpha).
(* s2grid.py:153-184  from_function, one signal *)
Definition from_function (leggauss : gauss_rule) (f : R * R * R -> R) (res_beta res_alpha : nat) (q : quadrature) (p_val p_arg : parity) : res signal :=
  let! r := quadrature_weights leggauss q res_beta in
  Ok (Signal [] res_beta res_alpha (fun _ u v => f (grid_vector (fst r u) (alpha_grid res_alpha v))) q p_val p_arg).

(* jax.scipy.special.lpmn_values(lmax, lmax, x, is_normalized=True)[m, l]: an external function, given by its documentation (Rodrigues' formula, Condon-Shortley phase, orthonormalised on the sphere) *)
Definition assoc_legendre (l m : nat) (x : R) : R := (-1) ^ m * sqrt (1 - x ^ 2) ^ m * (Derive_n (fun t => (t ^ 2 - 1) ^ l) (l + m) x / (2 ^ l * INR (fact l))).
Definition lpmn_normalized (l m : nat) (x : R) : R :=
  if (m <=? l)%nat then sqrt ((2 * INR l + 1) / (4 * PI) * (INR (fact (l - m)) / INR (fact (l + m)))) * assoc_legendre l m x else 0.
(* legendre.py:69-81 (with 28-38, phase = 1)  _sh_beta: [.., l, m] *)
Definition sh_beta (l m : nat) (y : R) : R := (-1) ^ m * lpmn_normalized l m y.
(* legendre.py:41-66  _sh_alpha: 2 l + 1 numbers *)
Definition sh_alpha (l : nat) (alpha : R) : list R :=
  map (fun m => sqrt 2 * sin (INR m * alpha)) (rev (seq 1 l)) ++ [1] ++ map (fun m => sqrt 2 * cos (INR m * alpha)) (seq 1 l).

(* s2grid.py:1468-1501  _normalization(lmax, normalization, direction, lmax_in)[l] *)
Definition norm_to_s2 (lmax : nat) (n : s2norm) (l : nat) : R :=
  match n with
  | Component => sqrt (4 * PI) / (sqrt (2 * INR l + 1) * sqrt (INR lmax + 1))
  | Norm => sqrt (4 * PI) * 1 / sqrt (INR lmax + 1)
  | Integral => 1 * sqrt (4 * PI)
  end.
Definition norm_from_s2 (lmax : nat) (n : s2norm) (lmax_in : nat) (l : nat) : R :=
  match n with
  | Component => sqrt (4 * PI) * (sqrt (2 * INR l + 1) * sqrt (INR lmax + 1))
  | Norm => sqrt (4 * PI) * 1 * sqrt (INR lmax_in + 1)
  | Integral => 1 * sqrt (4 * PI)
  end.

(* e^{i t} *)
Definition cis (t : R) : C := (cos t, sin t).
(* jnp.fft.rfft: N // 2 + 1 coefficients *)
Definition rfft (x : list R) : list C :=
  let n := length x in
  map (fun k => csum n (fun j => Cmult (RtoC (nth j x 0)) (cis (- (2 * PI * INR k * INR j / INR n))))) (seq 0 (n / 2 + 1)).
(* jnp.fft.irfft(x, n): the input is truncated or padded with zeros to n // 2 + 1 coefficients; the imaginary part of the first one is ignored, and of the last one when n is even *)
Definition irfft (x : list C) (n : nat) : list R :=
  let term (j k : nat) := Re (Cmult (nth k x (RtoC 0)) (cis (2 * PI * INR k * INR j / INR n))) in
  map (fun j => / INR n * (Re (nth 0 x (RtoC 0)) + rsum ((n - 1) / 2) (fun k => 2 * term j (S k)) + if (n mod 2 =? 0)%nat then Re (nth (n / 2) x (RtoC 0)) * cos (PI * INR j) else 0))
      (seq 0 n).
(* s2grid.py:1504-1522  _rfft on one row; the reshape to 2 l + 1 entries is refused when there are not enough frequencies *)
Definition rfft_row (l : nat) (x : list R) : res (list R) :=
  let X := rfft x in
  let r := map (fun z => Im z * - sqrt 2) (rev (list_slice X 1 (l + 1))) ++ map Re (firstn 1 X) ++ map (fun z => Re z * sqrt 2) (list_slice X 1 (l + 1)) in
  if (length r =? 2 * l + 1)%nat then Ok r else Err TypeError.
(* s2grid.py:1525-1545  _irfft on one row *)
Definition irfft_row (res : nat) (x : list R) : PyBase.res (list R) :=
  if negb (res mod 2 =? 1)%nat then Err AssertionError
  else
    let l := ((length x - 1) / 2)%nat in
    let X := map RtoC (list_slice x l (l + 1)) ++
             map (fun '(a, b) => Cdiv (Cplus (RtoC a) (Cmult (RtoC b) (Cmult (RtoC (-1)) Ci))) (RtoC (sqrt 2))) (combine (skipn (l + 1) x) (rev (firstn l x))) ++
             repeat (RtoC 0) l in
    Ok (irfft X res).

(* s2grid.py:1548-1570  _expand_matrix(ls)[l, m, i]; the loop assigns an identity block for each l *)
Definition max_of (ls : list nat) : res nat := match ls with [] => Err ValueError | a :: r => Ok (fold_left Nat.max r a) end.
Fixpoint expand_loop (lmax : nat) (ls : list nat) (i : nat) (m : nat -> nat -> nat -> R) : nat -> nat -> nat -> R :=
  match ls with
  | [] => m
  | l :: ls =>
      expand_loop lmax ls (i + (2 * l + 1))
        (fun l' c k => if ((l' =? l) && (lmax - l <=? c) && (c <? lmax + l + 1) && (i <=? k) && (k <? i + (2 * l + 1)))%nat
                       then (if (c - (lmax - l) =? k - i)%nat then 1 else 0) else m l' c k)
  end.
Definition expand_matrix (lmax : nat) (ls : list nat) : nat -> nat -> nat -> R := expand_loop lmax ls 0 (fun _ _ _ => 0).

(* s2grid.py:1573-1592  _rollout_sh: the index lists ls, ms *)
Definition rollout_ls (lmax : nat) : list nat := flat_map (fun l => map (fun _ => l) (seq 0 (2 * l + 1))) (seq 0 (lmax + 1)).
Definition rollout_ms (lmax : nat) : list nat := flat_map (fun l => map (fun k => (Z.to_nat (Z.abs (Z.of_nat k - Z.of_nat l)))%Z) (seq 0 (2 * l + 1))) (seq 0 (lmax + 1)).
Definition rollout (f : nat -> nat -> R) (lmax : nat) (j : nat) : R := f (nth j (rollout_ls lmax) 0%nat) (nth j (rollout_ms lmax) 0%nat).

Definition all_ones (x : irreps) : bool := forallb (fun m => (fst m =? 1)%nat) x.
Definition num_coeffs (ls : list nat) : nat := sum (map (fun l => 2 * l + 1)%nat ls).

(* s2grid.py:1041-1064  the matrix sh_y[m, b, i] of to_s2grid: einsum("lmj,bj,lmi,l->mbi") *)
Definition beta_matrix (lmax : nat) (ls : list nat) (n : nat -> R) (y : nat -> R) (m b i : nat) : R :=
  rsum (lmax + 1) (fun l => rsum ((lmax + 1) ^ 2) (fun j =>
    expand_matrix lmax (seq 0 (lmax + 1)) l m j * rollout (fun l m => sh_beta l m (y b)) lmax j * expand_matrix lmax ls l m i * n l)).
(* s2grid.py:944-1083  to_s2grid (use_s2fft=False) *)
Definition to_s2grid (leggauss : gauss_rule) (x : iarray) (res_beta res_alpha : nat) (q : quadrature) (n : s2norm) (fft : bool) (p_val p_arg : option parity) : res signal :=
  let! x := ia_regroup x in
  let! lmax := (match rev (ls (irr x)) with [] => Err IndexError | l :: _ => Ok l end) in
  if negb (all_ones (irr x)) then Err ValueError
  else if (match p_val, p_arg with Some _, None | None, Some _ => true | _, _ => false end) then Err ValueError
  else
    let! p := check_parities (irr x) p_val p_arg in
    match p with
    | (Some p_val, Some p_arg) =>
        let! r := quadrature_weights leggauss q res_beta in
        let sh_y := beta_matrix lmax (ls (irr x)) (norm_to_s2 lmax n) (fst r) in
        (* 1066-1068  signal_b[b, m] *)
        let signal_b i b := tab (2 * lmax + 1) (fun m => rsum (num_coeffs (ls (irr x))) (fun k => sh_y m b k * nth k (arr x i) 0)) in
        if fft then
          if (res_alpha mod 2 =? 0)%nat then Err ValueError
          else
            Ok (Signal (lead x) res_beta res_alpha
                       (fun i b a => match irfft_row res_alpha (signal_b i b) with Ok v => nth a v 0 * INR res_alpha | Err _ => 0 end) q p_val p_arg)
        else
          Ok (Signal (lead x) res_beta res_alpha (fun i b a => rsum (2 * lmax + 1) (fun m => nth m (signal_b i b) 0 * nth m (sh_alpha lmax (alpha_grid res_alpha a)) 0)) q p_val p_arg)
    | _ => Err ValueError
    end.

(* s2grid.py:823-895  from_s2grid (use_s2fft=False) *)
Definition from_s2grid (leggauss : gauss_rule) (x : signal) (out : irreps) (n : s2norm) (lmax_in : option nat) (fft : bool) : res iarray :=
  let! g := regroup out in
  if negb (all_ones g) then Err ValueError
  else
    let! _ := check_parities out (Some (g_pval x)) (Some (g_parg x)) in
    let! lmax := max_of (ls out) in
    let lmax_in := match lmax_in with None => lmax | Some l => l end in
    let! r := quadrature_weights leggauss (g_quad x) (g_beta x) in
    (* 873  einsum("lmj,bj,lmi,l,b->mbi") *)
    let sh_y m b i := beta_matrix lmax (ls out) (norm_from_s2 lmax n lmax_in) (fst r) m b i * snd r b in
    (* 875-883  int_a[b, m] *)
    let row i b := tab (g_alpha x) (fun a => g_val x i b a) in
    if fft && negb (lmax <=? g_alpha x / 2)%nat then Err TypeError
    else
      let int_a i b m := (if fft then match rfft_row lmax (row i b) with Ok v => nth m v 0 | Err _ => 0 end
                          else rsum (g_alpha x) (fun a => nth a (row i b) 0 * nth m (sh_alpha lmax (alpha_grid (g_alpha x) a)) 0)) / INR (g_alpha x) in
      (* 886  einsum("mbi,...bm->...i") *)
      mkIA out (g_lead x) (num_coeffs (ls out)) (fun i => tab (num_coeffs (ls out)) (fun k => rsum (2 * lmax + 1) (fun m => rsum (g_beta x) (fun b => sh_y m b k * int_a i b m)))) None None.

(* s2grid.py:590-604  integrate *)
Definition integrate (leggauss : gauss_rule) (x : signal) : res iarray :=
  let! r := quadrature_weights leggauss (g_quad x) (g_beta x) in
  mkIA [(1%nat, Irrep 0 (g_pval x))] (g_lead x) 1
    (fun i => [rsum (g_alpha x) (fun a => rsum (g_beta x) (fun b => snd r b * g_val x i b a)) / INR (g_alpha x) * 4 * PI]) None None.
(* s2grid.py:307-334  resample *)
Definition resample (leggauss : gauss_rule) (x : signal) (res_beta res_alpha lmax : nat) (q : option quadrature) : res signal :=
  let! c := from_s2grid leggauss x (s2_irreps lmax (g_pval x) (g_parg x)) Integral None true in
  to_s2grid leggauss c res_beta res_alpha (match q with None => g_quad x | Some q => q end) Integral true (Some (g_pval x)) (Some (g_parg x)).

(* s2grid.py:1138-1165  legendre_transform_to_s2grid, one row *)
Definition legendre_to (leggauss : gauss_rule) (c : list R) (res_beta : nat) (q : quadrature) (n : s2norm) : res (list R) :=
  let lmax := (length c - 1)%nat in
  let! r := quadrature_weights leggauss q res_beta in
  Ok (tab res_beta (fun b => rsum (lmax + 1) (fun i => sh_beta i 0 (fst r b) * norm_to_s2 lmax n i * nth i c 0))).
(* s2grid.py:1168-1201  legendre_transform_from_s2grid, one row *)
Definition legendre_from (leggauss : gauss_rule) (v : list R) (lmax res_beta : nat) (q : quadrature) (n : s2norm) : res (list R) :=
  if negb (res_beta =? length v)%nat then Err AssertionError
  else
    let! r := quadrature_weights leggauss q res_beta in
    Ok (tab (lmax + 1) (fun i => rsum res_beta (fun b => sh_beta i 0 (fst r b) * norm_from_s2 lmax n lmax i * snd r b * nth b v 0))).
(* s2grid.py:1235-1237  m0_values_to_irrepsarray, the row: at[m0_indices].set(values) with m0_indices = cumsum(repeat(arange(lmax+1), 2))[::2] + arange(lmax+1) *)
Definition cumsum (l : list nat) : list nat := map (fun k => sum (firstn (S k) l)) (seq 0 (length l)).
Definition every_other {A} (l : list A) (d : A) : list A := map (fun k => nth (2 * k) l d) (seq 0 ((length l + 1) / 2)).
Definition m0_indices (lmax : nat) : list nat :=
  map (fun '(a, b) => a + b)%nat (combine (every_other (cumsum (flat_map (fun k => [k; k]) (seq 0 (lmax + 1)))) 0%nat) (seq 0 (lmax + 1))).
Definition set_at (row : list R) (kv : nat * R) : list R := firstn (fst kv) row ++ (if (fst kv <? length row)%nat then snd kv :: skipn (S (fst kv)) row else []).
Definition m0_row (lmax : nat) (v : list R) : list R := fold_left set_at (combine (m0_indices lmax) v) (repeat 0 ((lmax + 1) ^ 2)).
