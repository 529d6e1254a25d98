(* Model of e3nn_jax/_src/su2.py and e3nn_jax/_src/so3.py, and of the Wigner matrices of irreps.py.
   Floating point is replaced by R and C; a spin j (integer or half-integer) is given by n = 2j, so that the
   matrices have n+1 rows, and a doubled number z stands for z/2. *)
From Coq Require Import Reals ZArith Arith Bool.
From Coquelicot Require Import Complex Series Hierarchy.
From Verif Require Import SumR.
Open Scope R_scope.

Definition cmat := nat -> nat -> C.
Definition rmat := nat -> nat -> R.
Fixpoint csum (n : nat) (f : nat -> C) : C := match n with 0%nat => RtoC 0 | S n => (csum n f + f n)%C end.

(* su2.py:6-22  su2_generators(j), j = n/2: the a-th generator *)
Definition su2_raising (n i k : nat) : R :=
  let j := INR n / 2 in let m := - j + INR k in
  if (i =? S k)%nat then - sqrt (j * (j + 1) - m * (m + 1)) else 0.
Definition su2_lowering (n i k : nat) : R :=
  let j := INR n / 2 in let m := - j + 1 + INR i in
  if (k =? S i)%nat then sqrt (j * (j + 1) - m * (m - 1)) else 0.
Definition su2_generators (n a : nat) : cmat := fun i k =>
  match a with
  | 0%nat => RtoC (1 / 2 * (su2_raising n i k + su2_lowering n i k))
  | 1%nat => if (i =? k)%nat then (Ci * RtoC (- (INR n / 2) + INR i))%C else RtoC 0
  | _ => (- RtoC (1 / 2) * Ci * RtoC (su2_raising n i k - su2_lowering n i k))%C
  end.

(* su2.py:54-56  f on a doubled argument; the assertion is that the argument is an integer *)
Definition fact2 (z : Z) : R := INR (fact (Z.to_nat (z / 2))).
(* su2.py:41-80  _su2_cg((j1, m1), (j2, m2), (j3, m1 + m2)); n = 2j, M = 2m *)
Definition su2_cg (n1 n2 n3 M1 M2 : Z) : R :=
  let M3 := (M1 + M2)%Z in
  let vmin := Z.max (Z.max ((- n1 + n2 + M3) / 2) ((- n1 + M1) / 2)) 0 in
  let vmax := Z.min (Z.min ((n2 + n3 + M1) / 2) ((n3 - n1 + n2) / 2)) ((n3 + M3) / 2) in
  sqrt (IZR (n3 + 1) *
    (fact2 (n3 + n1 - n2) * fact2 (n3 - n1 + n2) * fact2 (n1 + n2 - n3) * fact2 (n3 + M3) * fact2 (n3 - M3) /
     (fact2 (n1 + n2 + n3 + 2) * fact2 (n1 - M1) * fact2 (n1 + M1) * fact2 (n2 - M2) * fact2 (n2 + M2)))) *
  rsum (Z.to_nat (vmax + 1 - vmin)) (fun i => let v := (vmin + Z.of_nat i)%Z in
    powerRZ (-1) (v + (n2 + M2) / 2) *
    (fact2 (n2 + n3 + M1 - 2 * v) * fact2 (n1 - M1 + 2 * v) /
     (fact2 (2 * v) * fact2 (n3 - n1 + n2 - 2 * v) * fact2 (n3 + M3 - 2 * v) * fact2 (2 * v + n1 - n2 - M3)))).
(* su2.py:25-38  su2_clebsch_gordan(j1, j2, j3)[a, b, k] *)
Definition triangle (n1 n2 n3 : nat) : bool :=
  let z1 := Z.of_nat n1 in let z2 := Z.of_nat n2 in let z3 := Z.of_nat n3 in
  ((Z.abs (z1 - z2) <=? z3) && (z3 <=? z1 + z2) && ((z3 - Z.abs (z1 - z2)) mod 2 =? 0))%Z.
Definition su2_clebsch_gordan (n1 n2 n3 a b k : nat) : R :=
  let z1 := Z.of_nat n1 in let z2 := Z.of_nat n2 in let z3 := Z.of_nat n3 in
  let M1 := (2 * Z.of_nat a - z1)%Z in let M2 := (2 * Z.of_nat b - z2)%Z in
  (if triangle n1 n2 n3 && (Z.abs (M1 + M2) <=? z3)%Z && (Z.of_nat k =? (z3 + M1 + M2) / 2)%Z
   then su2_cg z1 z2 z3 M1 M2 else 0) / sqrt (INR n3 + 1).

Fixpoint cpow (z : C) (n : nat) : C := match n with O => RtoC 1 | S n => (z * cpow z n)%C end.
(* so3.py:7-20  change_basis_real_to_complex(l)[r, c] *)
Definition change_basis_real_to_complex (l : nat) : cmat := fun r c =>
  (cpow (- Ci) l *
   (if (r <? l)%nat then (* m = r - l < 0, |m| = l - r *)
      if (c =? l + (l - r))%nat then RtoC (1 / sqrt 2) else if (c =? l - (l - r))%nat then - Ci * RtoC (1 / sqrt 2) else RtoC 0
    else if (r =? l)%nat then if (c =? l)%nat then RtoC 1 else RtoC 0
    else let m := (r - l)%nat in
      if (c =? l + m)%nat then RtoC ((-1) ^ m / sqrt 2) else if (c =? l - m)%nat then Ci * RtoC ((-1) ^ m / sqrt 2) else RtoC 0))%C.

(* so3.py:23-47  clebsch_gordan(l1, l2, l3)[j, l, m], before and after taking the real part *)
Definition clebsch_gordan_complex (l1 l2 l3 : nat) (j l m : nat) : C :=
  csum (2 * l1 + 1) (fun i => csum (2 * l2 + 1) (fun k => csum (2 * l3 + 1) (fun n =>
    (change_basis_real_to_complex l1 i j * change_basis_real_to_complex l2 k l * Cconj (change_basis_real_to_complex l3 n m)
     * RtoC (su2_clebsch_gordan (2 * l1) (2 * l2) (2 * l3) i k n))%C))).
Definition clebsch_gordan (l1 l2 l3 : nat) (j l m : nat) : R := Re (clebsch_gordan_complex l1 l2 l3 j l m).

(* so3.py:50-62  generators(l)[a], before and after taking the real part *)
Definition generators_complex (l a : nat) : cmat := fun i j =>
  csum (2 * l + 1) (fun p => csum (2 * l + 1) (fun q =>
    (Cconj (change_basis_real_to_complex l p i) * su2_generators (2 * l) a p q * change_basis_real_to_complex l q j)%C)).
Definition generators (l a : nat) : rmat := fun i j => Re (generators_complex l a i j).

(* matrices with d rows and columns *)
Definition mone (i j : nat) : R := if (i =? j)%nat then 1 else 0.
Definition mmul (d : nat) (a b : rmat) : rmat := fun i j => rsum d (fun k => a i k * b k j).
Fixpoint mpow (d : nat) (a : rmat) (n : nat) : rmat := match n with O => mone | S n => mmul d a (mpow d a n) end.
(* jax.scipy.linalg.expm is a Pade approximation in the library; here it is the exponential series itself *)
Definition expm (d : nat) (a : rmat) : rmat := fun i j => Series (fun n => mpow d a n i j / INR (fact n)).

(* irreps.py:1091-1114  _wigner_D_from_log_coordinates(l, (v0, v1, v2)) *)
Definition wigner_D_from_log_coordinates (l : nat) (v0 v1 v2 : R) : rmat :=
  expm (2 * l + 1) (fun i j => v0 * generators l 0 i j + v1 * generators l 1 i j + v2 * generators l 2 i j).

(* irreps.py:1052-1059  rot_y(phi): first the antidiagonal is written, then the diagonal *)
Definition rot_y (l : nat) (phi : R) : rmat := fun i j =>
  let freq := INR l - INR i in
  if (i =? j)%nat then cos (freq * phi) else if (j =? 2 * l - i)%nat then sin (freq * phi) else 0.
(* x % (2 * pi) *)
Definition mod_2pi (x : R) : R := x - 2 * PI * IZR (Int_part (x / (2 * PI))).
(* irreps.py:1023-1088  _wigner_D_from_angles: an absent angle is None; Jd(l) is the table of J.py, available for l < nJ *)
Definition wigner_D_from_angles (nJ : nat) (Jd : nat -> rmat) (l : nat) (alpha beta gamma : option R) : rmat :=
  let d := (2 * l + 1)%nat in
  let ra := match alpha with Some a => Some (rot_y l (mod_2pi a)) | None => None end in
  let rb := match beta with
            | Some b => let b := mod_2pi b in
                Some (if (l <? nJ)%nat then mmul d (mmul d (Jd l) (rot_y l b)) (Jd l) else expm d (fun i j => b * generators l 0 i j))
            | None => None end in
  let rc := match gamma with Some c => Some (rot_y l (mod_2pi c)) | None => None end in
  let mul x y := match x, y with Some a, Some b => Some (mmul d a b) | Some a, None => Some a | None, y => y end in
  match mul (mul ra rb) rc with Some r => r | None => mone end.
