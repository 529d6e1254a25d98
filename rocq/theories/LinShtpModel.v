(* Model of the module LinearSHTP of e3nn_jax/experimental/linear_shtp.py.
   Floating point is replaced by R; dtypes are not modelled; irreps_out is an Irreps (the parser of strings is in IrrepsStr.v).
   The parameters are a function w ix iz sym c u v: entry (c, u, v) of the parameter "{ix}_{iz}_S..." (sym = true) or "{ix}_{iz}_A..." (sym = false); when mix is False there is no axis v and w is read at v = 0.
   The names of the parameters are distinct for distinct (ix, iz, sym), so w is arbitrary.  When every path has multiplicity 0 the code divides 0 by 0; here the quotient is 0: the theorems ask that the multiplicities of the input be positive. *)
From Coq Require Import Reals ZArith Arith Bool List.
From Verif Require Import PyBase IrrepsModel IrrepsProofs ArrayModel LeadModel SumR EntryProofs RotationModel WignerModel S2Model TpshModel ShtpModel.
Import ListNotations.
Open Scope R_scope.

Definition weights : Type := nat -> nat -> bool -> nat -> nat -> nat -> R.
(* 101  jnp.concatenate([w[::-1], w[1:]]), l + 1 entries; 128-129  jnp.concatenate([-w[::-1], zeros, w]), l entries *)
Definition spread (sym : bool) (l : nat) (w : nat -> R) : list R :=
  if sym then let ws := map w (seq 0 (l + 1)) in rev ws ++ tl ws
  else let ws := map w (seq 0 l) in map Ropp (rev ws) ++ [0] ++ ws.
(* 108-110, 136-138  zeros.at[:, sl(irz.l, l)].set(z), one row *)
Definition widen (l lz : nat) (z : list R) : list R :=
  if (l <? lz)%nat then tab (2 * lz + 1) (fun k => if (lz - l <=? k)%nat && (k <? lz + l + 1)%nat then nth (k - (lz - l)) z 0 else 0) else z.
(* 88  x[:, sl(irx.l, l)]; 132, 134  x[:, ::-1] in the antisymmetric part *)
Definition read_row (sym : bool) (lx l : nat) (row : list R) : list R := if sym then sl_row lx l row else rev (sl_row lx l row).
(* 104, 132  einsum("ui,iuv->vi"), then 108-110, 136-138 *)
Definition mix_part (sym : bool) (mul mulz : nat) (irx irz : irrep) (w : nat -> nat -> nat -> R) (c : chunk) : chunk :=
  let l := Nat.min (ir_l irx) (ir_l irz) in
  Chunk [] mulz (ir_dim irz) (fun i => map (fun v => widen l (ir_l irz) (tab (2 * l + 1) (fun k =>
    rsum mul (fun u => nth k (read_row sym (ir_l irx) l (nth u (c_val c i) [])) 0 * nth k (spread sym l (fun c => w c u v)) 0)))) (seq 0 mulz)).
(* 106, 134  einsum("ui,iu->ui"), then 108-110, 136-138 *)
Definition keep_part (sym : bool) (mul : nat) (irx irz : irrep) (w : nat -> nat -> R) (c : chunk) : chunk :=
  let l := Nat.min (ir_l irx) (ir_l irz) in
  Chunk [] mul (ir_dim irz) (fun i => map (fun u => widen l (ir_l irz) (tab (2 * l + 1) (fun k =>
    nth k (read_row sym (ir_l irx) l (nth u (c_val c i) [])) 0 * nth k (spread sym l (fun c => w c u)) 0))) (seq 0 mul)).
(* 83-145  the loop over the entries of the input, with the conditions of lines 94 and 121; g is what is done for one entry, one kind *)
Definition over_input {A} (p : parity) (irz : irrep) (x : iarray) (g : nat -> nat -> irrep -> bool -> chunk -> A) : list A :=
  flat_map (fun '(ix, ((mul, irx), c)) => match c with
    | None => []
    | Some c => (if has_part true p irx irz then [g ix mul irx true c] else []) ++ (if has_part false p irx irz then [g ix mul irx false c] else [])
    end) (enumerate (combine (irr x) (chunks x))).
(* 147-154, 260-270  sum_tensors(zs) / sqrt(dim), dim the sum of the multiplicities read; z is None, and z.shape fails, when zs is empty (and x of line 149 is unbound when the input has no entry) *)
Definition mix_entry (p : parity) (w : weights) (x : iarray) (q : nat * mulirrep) : res (mulirrep * chunk) :=
  let '(iz, (mulz, irz)) := q in
  let zs := over_input p irz x (fun ix mul irx sym c => (mul, mix_part sym mul mulz irx irz (w ix iz sym) c)) in
  match zs, irr x with
  | [], [] => Err NameError
  | [], _ => Err AttributeError
  | _, _ => Ok ((mulz, irz), Chunk [] mulz (ir_dim irz) (fun i => map (fun v => tab (ir_dim irz) (fun k =>
      lsum zs (fun z => nth k (nth v (c_val (snd z) i) []) 0) / sqrt (INR (list_sum (map fst zs))))) (seq 0 mulz)))
  end.
(* 70-71, 115-117, 143-145  mix=False: irreps_out is regrouped, each part is kept *)
Definition keep_entries (p : parity) (w : weights) (x : iarray) (q : nat * mulirrep) : list (mulirrep * chunk) :=
  let '(iz, (_, irz)) := q in over_input p irz x (fun ix mul irx sym c => ((mul, irz), keep_part sym mul irx irz (fun c u => w ix iz sym c u 0%nat) c)).
Definition lin_parts (mix : bool) (p : parity) (w : weights) (irreps_out : irreps) (x : iarray) : res (list (mulirrep * chunk)) :=
  if mix then mapM (mix_entry p w x) (enumerate irreps_out) else let! y := regroup irreps_out in Ok (flat_map (keep_entries p w x) (enumerate y)).
(* 39-165  LinearSHTP(irreps_out, mix)(input, direction) *)
Definition linear_shtp (mix : bool) (w : weights) (irreps_out : irreps) (input direction : iarray) : res iarray :=
  let! _ := assert (match lead input with [] => true | _ => false end) in
  let! _ := assert (match lead direction with [] => (dim (irr direction) =? 3)%nat | _ => false end) in
  let! _ := assert (length (irr direction) =? 1)%nat in
  let! _ := assert (num_irreps (irr direction) =? 1)%nat in
  let ird := snd (nth 0 (irr direction) (0%nat, Irrep 0 Even)) in
  let! _ := assert (irrep_eqb ird (Irrep 1 Odd) || irrep_eqb ird (Irrep 1 Even)) in
  let! direction := mkIA (irr direction) (lead direction) 3 (fun i => normalize_row (arr direction i)) None None in
  let lock := gimbal_lock (arr direction []) in
  let! input := fix_gimbal_lock lock true input in
  let! direction := fix_gimbal_lock lock true direction in
  let '(alpha, beta) := xyz_to_angles (row_vec (arr direction [])) in
  let! input := transform_by_angles input (Some alpha) (Some beta) None 0 true in
  let! outputs := lin_parts mix (ir_p ird) w irreps_out input in
  let! out := from_chunks (map fst outputs) (map (fun o => Some (snd o)) outputs) [] true in
  let! out := ia_regroup out in
  let! out := transform_by_angles out (Some alpha) (Some beta) None 0 false in
  fix_gimbal_lock lock false out.
