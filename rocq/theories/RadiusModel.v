(* Model of e3nn_jax/_src/radius_graph.py over the reals.  pos is the list of the n positions. *)
From Coq Require Import Reals ZArith.
From Verif Require Import PyBase RotationModel.
Open Scope R_scope.

(* jnp.linalg.norm(x - y) *)
Definition dist_vec (x y : list R) : R := sqrt (fold_right Rplus 0 (map (fun '(a, b) => (a - b) ^ 2) (combine x y))).
(* radius_graph.py:45-51  mask[i, j] *)
Definition edge_mask (pos : list (list R)) (r_max : R) (loop : bool) (i j : nat) : bool :=
  let r := dist_vec (nth i pos []) (nth j pos []) in
  if loop then Rltb r r_max else Rltb r r_max && Rltb 0 r.
(* jnp.where(mask) of an n x n mask: the indices of the true entries in row-major order *)
Definition mask_where (n : nat) (mask : nat -> nat -> bool) : list (Z * Z) :=
  flat_map (fun i => map (fun j => (Z.of_nat i, Z.of_nat j)) (filter (mask i) (seq 0 n))) (seq 0 n).
(* jnp.where(..., size=size, fill_value=-1) *)
Definition pad_to (size : option nat) (l : list (Z * Z)) : list (Z * Z) :=
  match size with None => l | Some k => firstn k l ++ repeat (-1, -1)%Z (k - length l) end.
(* radius_graph.py:55-58 *)
Definition fill_with (fill : Z) (v : Z) : Z := if (fill =? -1)%Z then v else if (v =? -1)%Z then fill else v.
(* batch[i] with an array index: negative indices count from the end, and what is still out of range is clamped *)
Definition batch_at (batch : list Z) (i : Z) : Z :=
  let n := Z.of_nat (length batch) in
  let i := if (i <? 0)%Z then (i + n)%Z else i in
  nth (Z.to_nat (Z.max 0 (Z.min i (n - 1)))) batch 0%Z.
(* radius_graph.py:9-62  radius_graph *)
Definition radius_graph (pos : list (list R)) (r_max : R) (batch : option (list Z)) (size : option nat) (loop : bool) (fill_src fill_dst : Z) : list (Z * Z) :=
  let edges := pad_to size (mask_where (length pos) (edge_mask pos r_max loop)) in
  let edges := map (fun '(s, d) => (fill_with fill_src s, fill_with fill_dst d)) edges in
  match batch with
  | None => edges
  | Some b => filter (fun '(s, d) => (batch_at b s =? batch_at b d)%Z) edges
  end.
