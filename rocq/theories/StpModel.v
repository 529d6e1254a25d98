(* Model of e3nn_jax/_src/symmetric_tensor_product_haiku.py: SymmetricTensorProduct.
   The basis comes from reduced_symmetric_tensor_product_basis (RtpSymModel.v; here the parameter [basis], applied to irreps, degree and keep_ir).
   The parameters are a dictionary: P name k c is entry [k, c] of the array called name.  vmap over the batch axes is the same computation at every
   leading index.  Not modelled: dtypes, random initialisation. *)
From Coq Require Import Reals Ascii.
From Verif Require Import PyBase PermModel IrrepsModel IrrepsStr ArrayModel LeadModel SumR EntryProofs TPModel RtpModel.
Open Scope nat_scope.

Definition stp_params := chars -> nat -> nat -> R.
(* line 105: f"w{order}_{ir_out}" *)
Definition stp_name (order : nat) (ir : irrep) : chars := (["w"] ++ print_nat order ++ ["_"] ++ print_irrep ir)%char.

(* an array out[ir_out]: leading index (batch and channel) -> remaining axes of size irreps_x.dim -> component *)
Definition ctensor := idx -> idx -> nat -> R.
(* lines 110-114: a value just created for this order is kept aside in a tuple ("special", value) *)
Inductive slot := Special (t : ctensor) | Plain (t : ctensor).
(* the dictionary out, in insertion order *)
Definition dict := list (irrep * slot).
Fixpoint find (ir : irrep) (d : dict) : option slot := match d with [] => None | (k, v) :: d => if irrep_eqb ir k then Some v else find ir d end.
Fixpoint update (ir : irrep) (v : slot) (d : dict) : dict := match d with [] => [] | (k, u) :: d => if irrep_eqb ir k then (k, v) :: d else (k, u) :: update ir v d end.

Section Stp.
Variables (basis : irreps -> nat -> option (list irrep) -> res iarray) (orders : list nat) (keep : option (list irrep)) (P : stp_params).
(* lines 97-118: the chunks of U (none of which is None: the array is dense; None is read as zeros); jnp.einsum("...jki,kc,cj->c...i", u, w, x) for a new
   key, out += jnp.einsum("...ki,kc->c...i", u, w) for a key of a higher order; adding to a tuple raises *)
Fixpoint add_terms (order d : nat) (rows : idx -> list R) (terms : list (mulirrep * option chunk)) (out : dict) : res dict :=
  match terms with
  | [] => Ok out
  | (m, ch) :: terms =>
      let u z k c := (nth c (nth k (chunk_rows m ch z) []) 0 / INR (fst m))%R in
      let w i k := P (stp_name order (snd m)) k (last i 0) in
      let! out := match find (snd m) out with
                  | None => Ok (out ++ [(snd m, Special (fun i z c => rsum d (fun j => rsum (fst m) (fun k => u (z ++ [j]) k c * w i k * nth j (rows i) 0)))%R)])
                  | Some (Special _) => Err TypeError
                  | Some (Plain t) => Ok (update (snd m) (Plain (fun i z c => t i z c + rsum (fst m) (fun k => u z k c * w i k))%R) out)
                  end in
      add_terms order d rows terms out
  end.
(* lines 124-131: contraction of the last axis with x, except for the values that were just created *)
Definition contract (d : nat) (rows : idx -> list R) (out : dict) : dict :=
  map (fun '(ir, v) => (ir, match v with Special t => Plain t | Plain t => Plain (fun i z c => rsum d (fun j => t i (z ++ [j]) c * nth j (rows i) 0))%R end)) out.
(* lines 86-131: for order in range(max(orders), 0, -1) *)
Fixpoint stp_loop (x : irreps) (rows : idx -> list R) (order : nat) (out : dict) : res dict :=
  match order with
  | 0 => Ok out
  | S n =>
      let! U := basis x (S n) keep in
      let! out := if inb orders (S n) then add_terms (S n) (dim x) rows (combine (irr U) (chunks U)) out else Ok out in
      stp_loop x rows n (contract (dim x) rows out)
  end.
(* lines 48-64 and 67-151: __init__ and __call__; the type checks and the parsing of keep_irrep_out are not modelled *)
Definition stp_call (x : iarray) : res iarray :=
  let! _ := assert (forallb (fun o => 0 <? o) orders) in
  let! _ := assert (negb (length (lead x) =? 0)) in
  match orders with
  | [] => Err ValueError
  | _ =>
    let! out := stp_loop (irr x) (arr x) (fold_right Nat.max 0 orders) [] in
    (* lines 137-144 *)
    let irs := sorted_by ir_ltb (map fst out) in
    from_chunks (map (fun ir => (1, ir)) irs)
      (map (fun ir => Some (Chunk (lead x) 1 (ir_dim ir) (fun i => [map (fun c => match find ir out with Some (Plain t) => t i [] c | _ => 0%R end) (seq 0 (ir_dim ir))]))) irs)
      (lead x) true
  end.
End Stp.
