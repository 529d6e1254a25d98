(* Model of e3nn_jax/experimental/voxel_pooling.py: interpolate_trilinear, interpolate_nearest, zoom.
   Simplifications: reals instead of floats; the values of one image at a time are written as a function of a batch index and three voxel indices; negative output sizes are not modelled. *)
From Coq Require Import Reals ZArith.
From Verif Require Import PyBase ArrayModel.
Open Scope nat_scope.

(* an array of shape s + (nx, ny, nz) *)
Record volume := Vol { v_lead : shape; v_x : nat; v_y : nat; v_z : nat; v_at : idx -> nat -> nat -> nat -> R }.
(* Python's round and jnp.round: the nearest integer, halves to the even one *)
Definition round_even (x : R) : Z :=
  let n := Int_part x in
  if Rlt_dec (x - IZR n)%R (1 / 2)%R then n else if Rlt_dec (1 / 2)%R (x - IZR n)%R then (n + 1)%Z else if Z.even n then n else (n + 1)%Z.
(* voxel_pooling.py:28-35, 71-78  xclip, yclip, zclip: jnp.clip(x, 0, n - 1) *)
Definition clip (n : nat) (x : Z) : nat := Z.to_nat (Z.min (Z.max x 0) (Z.of_nat n - 1)).
(* reading an axis of length 0 raises *)
Definition empty_axis (v : volume) : bool := (v_x v =? 0) || (v_y v =? 0) || (v_z v =? 0).
(* voxel_pooling.py:8-55  interpolate_trilinear *)
Definition interpolate_trilinear (v : volume) (x y z : R) : res (idx -> R) :=
  let xl := Int_part x in let xh := (xl + 1)%Z in
  let yl := Int_part y in let yh := (yl + 1)%Z in
  let zl := Int_part z in let zh := (zl + 1)%Z in
  if empty_axis v then Err TypeError
  else Ok (fun b =>
    let at_ i j k := v_at v b (clip (v_x v) i) (clip (v_y v) j) (clip (v_z v) k) in
    ((IZR xh - x) * (IZR yh - y) * (IZR zh - z) * at_ xl yl zl + (x - IZR xl) * (IZR yh - y) * (IZR zh - z) * at_ xh yl zl
     + (IZR xh - x) * (y - IZR yl) * (IZR zh - z) * at_ xl yh zl + (x - IZR xl) * (y - IZR yl) * (IZR zh - z) * at_ xh yh zl
     + (IZR xh - x) * (IZR yh - y) * (z - IZR zl) * at_ xl yl zh + (x - IZR xl) * (IZR yh - y) * (z - IZR zl) * at_ xh yl zh
     + (IZR xh - x) * (y - IZR yl) * (z - IZR zl) * at_ xl yh zh + (x - IZR xl) * (y - IZR yl) * (z - IZR zl) * at_ xh yh zh)%R).
(* voxel_pooling.py:58-82  interpolate_nearest *)
Definition interpolate_nearest (v : volume) (x y z : R) : res (idx -> R) :=
  if empty_axis v then Err TypeError else Ok (fun b => v_at v b (clip (v_x v) (round_even x)) (clip (v_y v) (round_even y)) (clip (v_z v) (round_even z))).

(* the argument interpolation: "linear", "nearest" or any other string *)
Inductive interp_arg := Linear | Nearest | OtherString.
(* voxel_pooling.py:92-96  f: the positions of the new voxels in source coordinates *)
Definition positions (n_src n_dst : nat) : res (nat -> R) :=
  if n_dst =? 0 then Err ZeroDivisionError
  else Ok (fun i => 1 / 2 * (INR n_src / INR n_dst - 1) + INR n_src / INR n_dst * INR i)%R.
(* voxel_pooling.py:84-113  _zoom *)
Definition zoom_to (v : volume) (mx my mz : nat) (m : interp_arg) : res volume :=
  let! xi := positions (v_x v) mx in
  let! yi := positions (v_y v) my in
  let! zi := positions (v_z v) mz in
  match m with
  | OtherString => Err NameError
  | _ =>
      let interp := match m with Linear => interpolate_trilinear | _ => interpolate_nearest end in
      if empty_axis v then Err TypeError
      else Ok (Vol (v_lead v) mx my mz (fun b i j k => match interp v (xi i) (yi j) (zi k) with Ok f => f b | Err _ => 0%R end))
  end.
(* resize_rate: a number, or a tuple of three *)
Inductive rate_arg := Same (r : R) | Three (rx ry rz : R).
(* voxel_pooling.py:116-149  zoom *)
Definition zoom (v : volume) (resize_rate : option rate_arg) (output_size : option (nat * nat * nat)) (m : interp_arg) : res volume :=
  let! sizes := match resize_rate with
                | Some r =>
                    let! _ := assert (match output_size with None => true | Some _ => false end) in
                    let '(rx, ry, rz) := match r with Same r => (r, r, r) | Three a b c => (a, b, c) end in
                    Ok (Some (Z.to_nat (round_even (INR (v_x v) * rx)), Z.to_nat (round_even (INR (v_y v) * ry)), Z.to_nat (round_even (INR (v_z v) * rz))))
                | None => Ok output_size
                end in
  match sizes with
  | Some (mx, my, mz) => zoom_to v mx my mz m
  | None => Err AssertionError
  end.
