(* Model of e3nn_jax/_src/activation.py and e3nn_jax/_src/gate.py on IrrepsArray (see ArrayModel.v).  Floating point is replaced by R, so that NaN and overflow do not occur;
   division by zero is Coq's. *)
From Coq Require Import Reals ZArith.
From Verif Require Import PyBase IrrepsModel ArrayModel LeadModel RotationModel TPModel.
Open Scope R_scope.

(* A Python function of one real variable: the object (compared by identity in list.count) and what it computes elementwise *)
Record pyfun := PyFun { f_id : nat; f_ap : R -> R }.

(* activation.py:12-26  soft_odd *)
Definition soft_odd (x : R) : R := (1 - exp (- (x ^ 2))) * x.

Definition Rleb (a b : R) : bool := if Rle_dec a b then true else false.
(* jnp.allclose(a, b) with its default tolerances *)
Definition allclose (a b : R) : bool := Rleb (Rabs (a - b)) (/ 100000000 + / 100000 * Rabs b).

(* activation.py:51-75  normalize_function; pts stands for normalspace(1_000_001) of line 62 (erfinv is not modelled: the theorems hold for any list of points) *)
Definition mean (l : list R) : R := fold_right Rplus 0 l / INR (length l).
Definition second_moment (pts : list R) (phi : R -> R) : R := sqrt (mean (map (fun x => phi x ^ 2) pts)).
Definition normalize_function (pts : list R) (phi : R -> R) : R -> R :=
  let c := second_moment pts phi in
  if allclose c 1 then phi else fun x => phi x / c.

(* jnp.linspace(0, b, n) *)
Definition linspace0 (b : R) (n : nat) : list R := map (fun k => INR k * b / INR (n - 1)) (seq 0 n).
(* activation.py:78-89  parity_function: 1, -1 or 0, from 256 samples on [0, 10], tolerance 1e-5 *)
Definition parity_function (phi : R -> R) : Z :=
  let x := linspace0 10 256 in
  if forallb (fun x => Rltb (Rabs (phi x - phi (- x))) (/ 100000)) x then 1%Z
  else if forallb (fun x => Rltb (Rabs (phi x + phi (- x))) (/ 100000)) x then (-1)%Z
  else 0%Z.
(* activation.py:92-94  is_zero_in_zero *)
Definition is_zero_in_zero (phi : R -> R) : bool := allclose (phi 0) 0.

(* activation.py:133-137  the default list of activations *)
Definition default_acts (even odd : pyfun) (x : irreps) : list (option pyfun) :=
  map (fun '(_, ir) => if (ir_l ir =? 0)%nat then Some (match ir_p ir with Even => even | Odd => odd end) else None) x.
(* activation.py:152-153 and 189-190 *)
Definition activate (pts : list R) (norm : bool) (f : pyfun) : R -> R := if norm then normalize_function pts (f_ap f) else f_ap f.
(* activation.py:145-175  the body of the loop for one entry; s = input.shape[:-1] *)
Definition act_entry (pts : list R) (norm : bool) (s : shape) (m : mulirrep) (c : option chunk) (a : option pyfun) : res (mulirrep * option chunk) :=
  match a with
  | None => Ok (m, c)
  | Some f =>
      if negb (ir_l (snd m) =? 0)%nat then Err ValueError
      else
        let g := activate pts norm f in
        let p_out := match ir_p (snd m) with Odd => parity_function g | Even => 1%Z end in
        if (p_out =? 0)%Z then Err ValueError
        else
          Ok ((fst m, Irrep 0 (if (p_out =? 1)%Z then Even else Odd)),
              match c with
              | None => if is_zero_in_zero g then None else Some (Chunk s (fst m) 1 (fun _ => repeat [g 1] (fst m))) (* 167: act(jnp.ones(...)) *)
              | Some c => Some (Chunk (c_lead c) (c_mul c) (c_dim c) (fun i => map (map g) (c_val c i)))
              end)
  end.
Definition same_fun (a b : option pyfun) : bool :=
  match a, b with Some f, Some g => (f_id f =? f_id g)%nat | None, None => true | _, _ => false end.
(* activation.py:97-198  scalar_activation *)
Definition scalar_activation (pts : list R) (acts : option (list (option pyfun))) (even odd : pyfun) (norm : bool) (x : iarray) : res iarray :=
  let acts := match acts with Some l => l | None => default_acts even odd (irr x) end in
  if negb (length (irr x) =? length acts)%nat then Err AssertionError
  else
    let! r := mapM (fun '((m, c), a) => act_entry pts norm (lead x) m c a) (combine (combine (irr x) (chunks x)) acts) in
    let out := map fst r in let cs := map snd r in
    match acts with
    | a0 :: _ =>
        if forallb (same_fun a0) acts then (* 183: all the activation functions are the same *)
          mkIA out (lead x) (dim (irr x))
            (match a0 with None => arr x | Some f => fun i => map (activate pts norm f) (arr x i) end)
            (Some (map (fun c => match c with None => true | Some _ => false end) cs)) None
        else from_chunks out cs (lead x) true
    | [] => from_chunks out cs (lead x) true
    end.

(* activation.py:201-248  norm_activation; component: normalization = "component" (otherwise "norm"; any other string fails an assertion) *)
Definition norm_scale (component : bool) (g : R -> R) (v : list R) : list R :=
  let n2 := fold_right Rplus 0 (map (fun t => t ^ 2) v) in
  let n2 := if component then n2 / INR (length v) else n2 in
  let n := if Rltb 0 n2 then sqrt n2 else 1 in
  map (fun t => t * g n) v.
Definition norm_activation (acts : list (option (R -> R))) (component : bool) (x : iarray) : res iarray :=
  if negb (length (irr x) =? length acts)%nat then Err AssertionError
  else
    from_chunks (irr x)
      (map (fun '(c, a) => match a with
         | None => c
         | Some g => option_map (fun c => Chunk (c_lead c) (c_mul c) (c_dim c) (fun i => map (norm_scale component g) (c_val c i))) c
         end) (combine (chunks x) acts))
      (lead x) true.
(* radial.py:8-26  sus *)
Definition sus (x : R) : R := if Rltb 0 x then exp (- 1 / x) else 0.
(* activation.py:251-258  soft_normalization *)
Definition soft_normalization (max_component : R) (x : iarray) : res iarray :=
  let phi := fun n => let n := n / max_component in 1 / (1 + n * sus n) in
  norm_activation (repeat (Some phi) (length (irr x))) true x.
(* activation.py:261-272  key_value_activation, on two vectors of the same length *)
Definition key_value_activation (pts : list R) (phi : R -> R) (key value : list R) : list R :=
  let d := INR (length value) in
  let key := map (fun k => k / sqrt (1 / 16 + fold_right Rplus 0 (map (fun t => t ^ 2) key))) key in
  let scalar := fold_right Rplus 0 (map (fun '(a, b) => a * b) (combine key value)) in
  let scalar := normalize_function pts phi scalar in
  map (fun k => sqrt d * scalar * k) key.

(* gate.py:9-45  _gate *)
Definition scalars_only : selector := ByIrreps [Irrep 0 Even; Irrep 0 Odd].
Definition gate (cg : coupling) (pts : list R) (even odd even_gate odd_gate : pyfun) (norm : bool) (x : iarray) : res iarray :=
  let! scalars := ia_filter x (Some scalars_only) None None in
  let! vectors := ia_filter x None (Some scalars_only) None in
  if (dim (irr vectors) =? 0)%nat then scalar_activation pts None even odd norm scalars
  else if (dim (irr scalars) <? num_irreps (irr vectors))%nat then Err ValueError
  else
    let n := (Z.of_nat (dim (irr scalars)) - Z.of_nat (num_irreps (irr vectors)))%Z in
    let! extra := ia_slice_by_mul scalars (Slice None (Some n) None) in
    let! gates := ia_slice_by_mul scalars (Slice (Some n) None None) in
    let! extra := scalar_activation pts None even odd norm extra in
    let! gates := scalar_activation pts None even_gate odd_gate norm gates in
    let! gated := ia_mul cg gates vectors in
    concat_last [extra; gated].
