(* Model of e3nn_jax/_src/batchnorm/bn.py, e3nn_jax/_src/dropout_haiku.py and e3nn_jax/_src/config.py. *)
From Coq Require Import Reals ZArith String.
From Verif Require Import PyBase PermModel IrrepsModel ArrayModel LeadModel RotationModel ActivationModel.
Open Scope R_scope.

Definition rsum_list (l : list R) : R := fold_right Rplus 0 l.

(* ---------- batchnorm/bn.py ---------- *)
Inductive bn_norm_opt := NNorm | NComponent | NOther.
Inductive bn_reduce_opt := RMean | RMax | ROther.
(* the arguments of batch_norm other than the input, bn.py:10-24 *)
Record bn_args := BN {
  ra_mean : option (list R); ra_var : option (list R); bn_weight : option (list R); bn_bias : option (list R);
  bn_norm : bn_norm_opt; bn_reduce : bn_reduce_opt;
  is_instance : bool; use_running_average : bool; use_affine : bool;
  momentum : R; epsilon : R; bn_mask : option (list R)
}.
(* bn.py:25-26  _roll_avg *)
Definition roll_avg (g : bn_args) (curr update : R) : R := (1 - momentum g) * curr + momentum g * update.
(* x.max(axis) of a non-empty axis *)
Definition max_list (l : list R) : R := match l with [] => 0 | a :: l => fold_left Rmax l a end.
(* bn.py:65-72 and 104-108: the average over the batch; a mask has one weight per batch entry *)
Definition batch_avg (g : bn_args) (B : nat) (f : nat -> R) : R :=
  match bn_mask g with
  | None => mean (map f (seq 0 B))
  | Some m => rsum_list (map (fun b => f b * nth b m 0) (seq 0 B)) / rsum_list m
  end.

(* One copy of one irrep, in a batch of B entries with S samples each: cell b s is its value (a list of ir.dim numbers).
   rm, rv, wt, bi: its entries of ra_mean, ra_var, weight and bias. *)
Section Copy.
Variables (g : bn_args) (B S_ : nat) (scalar : bool) (rm rv wt bi : R) (cell : nat -> nat -> list R).
(* bn.py:61-72  mean over the samples of one batch entry, and over the batch (chunk.mean([0, 1]) when there is no mask) *)
Definition sample_mean (b : nat) : R := mean (map (fun s => nth 0 (cell b s) 0) (seq 0 S_)).
Definition batch_mean : R :=
  match bn_mask g with
  | None => mean (flat_map (fun b => map (fun s => nth 0 (cell b s) 0) (seq 0 S_)) (seq 0 B))
  | Some _ => batch_avg g B sample_mean
  end.
(* bn.py:75-80 *)
Definition used_mean (b : nat) : R := if use_running_average g then rm else if is_instance g then sample_mean b else batch_mean.
Definition centered (b s : nat) : list R := if scalar then map (fun t => t - used_mean b) (cell b s) else cell b s.
(* bn.py:82-90 *)
Definition norm_squared (b s : nat) : R :=
  let n2 := rsum_list (map (fun t => t ^ 2) (centered b s)) in
  match bn_norm g with NComponent => n2 / INR (length (centered b s)) | _ => n2 end.
(* bn.py:92-97 *)
Definition reduced (b : nat) : R :=
  let l := map (norm_squared b) (seq 0 S_) in match bn_reduce g with RMax => max_list l | _ => mean l end.
(* bn.py:99-104 *)
Definition batch_var : R := batch_avg g B reduced.
(* bn.py:99-107 *)
Definition used_var (b : nat) : R := if use_running_average g then rv else if is_instance g then reduced b else batch_var.
(* bn.py:109-117 *)
Definition factor (b : nat) : R :=
  let inverse := / sqrt ((1 - epsilon g) * used_var b + epsilon g) in
  if use_affine g then inverse * wt else inverse.
(* bn.py:119-124 *)
Definition bn_copy (b s : nat) : list R :=
  let v := map (fun t => t * factor b) (centered b s) in
  if use_affine g && scalar then map (fun t => t + bi) v else v.
Definition new_mean : R := roll_avg g rm batch_mean.
Definition new_var : R := roll_avg g rv batch_var.
End Copy.

Definition opt_nth (l : option (list R)) (k : nat) : R := match l with Some l => nth k l 0 | None => 0 end.
Definition given {A} (l : option A) : res unit := match l with Some _ => Ok tt | None => Err TypeError end.
Definition when (b : bool) (r : res unit) : res unit := if b then r else Ok tt.
(* what the body of the loop reads for a chunk that is not None: subscripting None is a TypeError, bn.py:72,75,105,107,114,122; ValueError, bn.py:87-97;
   without instance norm a mask must have one entry per batch entry (broadcasting error otherwise; a mask of length 1, which jax broadcasts, is not
   modelled). When a call has several defects the order of the checks may differ from the code. *)
Definition bn_reads (g : bn_args) (B : nat) (scalar : bool) : res unit :=
  let! _ := when (negb (is_instance g)) (match bn_mask g with Some m => if (length m =? B)%nat then Ok tt else Err ValueError | None => Ok tt end) in
  let! _ := when (scalar && (negb (is_instance g) || use_running_average g)) (given (ra_mean g)) in
  let! _ := match bn_norm g with NOther => Err ValueError | _ => Ok tt end in
  let! _ := match bn_reduce g with ROther => Err ValueError | _ => Ok tt end in
  let! _ := when (negb (is_instance g) || use_running_average g) (given (ra_var g)) in
  let! _ := when (use_affine g) (given (bn_weight g)) in
  when (use_affine g && scalar) (given (bn_bias g)).
(* bn.py:45-126: the loop over the chunks; i_wei, i_rmu, i_bia are the three running indices.
   Result: the new chunks, new_ra_means, new_ra_vars and the final indices.
   Simplification: the arrays are indexed entry by entry; when one of them is too short jax may already raise in the loop,
   here the assertions after the loop reject it. *)
Fixpoint bn_loop (g : bn_args) (B S_ : nat) (l : list (mulirrep * option chunk)) (i_wei i_rmu i_bia : nat)
  : res (list (option chunk) * list R * list R * (nat * nat * nat)) :=
  match l with
  | [] => Ok ([], [], [], (i_wei, i_rmu, i_bia))
  | ((mul, ir), c) :: l =>
      let scalar := ir_is_scalar ir in
      let rmu' := if scalar then (i_rmu + mul)%nat else i_rmu in
      let bia' := if scalar && use_affine g then (i_bia + mul)%nat else i_bia in
      match c with
      | None =>
          let! z := bn_loop g B S_ l (i_wei + mul) rmu' bia' in
          let '(cs, ms, vs, n) := z in
          Ok (None :: cs, (if scalar then repeat 0 mul else []) ++ ms, repeat 1 mul ++ vs, n)
      | Some c =>
          let! _ := bn_reads g B scalar in
          let cell u b s := nth u (c_val c [b; s]) [] in
          let rm u := opt_nth (ra_mean g) (i_rmu + u) in
          let rv u := opt_nth (ra_var g) (i_wei + u) in
          let wt u := opt_nth (bn_weight g) (i_wei + u) in
          let bi u := opt_nth (bn_bias g) (i_bia + u) in
          let c' := Chunk [B; S_] mul (ir_dim ir)
            (fun i => map (fun u => bn_copy g B S_ scalar (rm u) (rv u) (wt u) (bi u) (cell u) (nth 0 i 0%nat) (nth 1 i 0%nat)) (seq 0 mul)) in
          let! z := bn_loop g B S_ l (i_wei + mul) rmu' bia' in
          let '(cs, ms, vs, n) := z in
          Ok (Some c' :: cs, (if scalar then map (fun u => new_mean g B S_ (rm u) (cell u)) (seq 0 mul) else []) ++ ms,
              map (fun u => new_var g B S_ scalar (rm u) (rv u) (cell u)) (seq 0 mul) ++ vs, n)
      end
  end.
(* bn.py:128-131 *)
Definition len_ok (l : option (list R)) (n : nat) : bool := match l with None => true | Some l => (length l =? n)%nat end.
(* bn.py:10-142  batch_norm: the output, and the new running mean and variance (None for instance norm).
   input.shape[:-1] must be non-empty (unpacking error, ValueError). jnp.concatenate of an empty list is a ValueError (irreps = []). *)
Definition batch_norm (g : bn_args) (x : iarray) : res (iarray * option (list R * list R)) :=
  match lead x with
  | [] => Err ValueError
  | B :: size =>
      let S_ := prod size in
      let! x1 := ia_reshape x [B; S_] in
      let! z := bn_loop g B S_ (combine (irr x1) (chunks x1)) 0 0 0 in
      let '(cs, ms, vs, (i_wei, i_rmu, i_bia)) := z in
      let! _ := assert (len_ok (bn_weight g) i_wei) in
      let! _ := assert (len_ok (ra_var g) i_wei) in
      let! _ := assert (len_ok (bn_bias g) i_bia) in
      let! _ := assert (len_ok (ra_mean g) i_rmu) in
      let! y := from_chunks (irr x1) cs [B; S_] true in
      let! y := ia_reshape y (B :: size) in
      if is_instance g then Ok (y, None)
      else match irr x1 with [] => Err ValueError | _ => Ok (y, Some (ms, vs)) end
  end.

(* ---------- dropout_haiku.py ---------- *)
(* dropout_haiku.py:58-78; draw n = jax.random.bernoulli(rng, p=1-p, shape=(n, 1)): with a given rng a function of the shape only *)
Definition dropout_noise (p : R) (draw : nat -> list bool) (m : mulirrep) (c : option chunk) : bool * list R :=
  let '(mul, ir) := m in
  if negb (Rltb p 1) then (true, repeat 0 (mul * ir_dim ir))
  else if negb (Rltb 0 p) then (false, repeat 1 (mul * ir_dim ir))
  else match c with
    | None => (true, repeat 0 (mul * ir_dim ir))
    | Some _ => (false, flat_map (fun b : bool => repeat ((if b then 1 else 0) / (1 - p)) (ir_dim ir)) (draw mul))
    end.
Definition dropout (p : R) (irreps_arg : option irreps) (draw : nat -> list bool) (is_training : bool) (x : iarray) : res iarray :=
  if negb is_training then Ok x else
  let! x := match irreps_arg with None => Ok x | Some t => rechunk x t end in
  let z := map (fun '(m, c) => dropout_noise p draw m c) (combine (irr x) (chunks x)) in
  match z with
  | [] => Err ValueError (* jnp.concatenate([]) *)
  | _ => mkIA (irr x) (lead x) (dim (irr x)) (fun i => zipR Rmult (arr x i) (concat (map snd z))) (Some (map fst z)) None
  end.

(* ---------- config.py ---------- *)
Inductive cvalue := VStr (s : string) | VBool (b : bool) | VFloat (r : R).
Definition registry := list (string * cvalue).
(* config.py:1-12 *)
Definition default_conf : registry :=
  [("irrep_normalization", VStr "component"); ("path_normalization", VStr "element"); ("gradient_normalization", VStr "path");
   ("spherical_harmonics_algorithm", VStr "automatic"); ("spherical_harmonics_normalization", VStr "component");
   ("custom_einsum_jvp", VBool false); ("fused", VBool false); ("sparse_tp", VBool false)]%string.
Definition lookup (name : string) (r : registry) : option cvalue :=
  match find (fun '(k, _) => String.eqb k name) r with Some (_, v) => Some v | None => None end.
Definition store (name : string) (v : cvalue) (r : registry) : registry := map (fun '(k, w) => if String.eqb k name then (k, v) else (k, w)) r.
(* config.py:17-23  config(name, value): the new registry and what is returned (None for a write) or raised *)
Definition config (name : string) (value : option cvalue) (r : registry) : registry * res (option cvalue) :=
  match value with
  | None => (r, match lookup name r with Some v => Ok (Some v) | None => Err KeyError end)
  | Some v => match lookup name r with Some _ => (store name v r, Ok None) | None => (r, Err ValueError) end
  end.
