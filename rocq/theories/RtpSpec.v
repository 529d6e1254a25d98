(* What a reduced tensor product basis is, in the user's terms. *)
From Coq Require Import Reals List Arith Sorted.
From Verif Require Import PyBase IrrepsModel ArrayModel ArrayProofs LeadModel EntryProofs SumR TPModel RotationModel WignerModel WignerProofs2.
Import ListNotations.
Open Scope R_scope.

(* b has one output component c for every tensor it stores: T_c[z] = b[z + (c,)] *)
Definition tensor (b : iarray) (c : nat) : idx -> R := fun z => nth c (arr b z) 0.
(* the matrix of the rotation or roto-inversion r on irreps x: Irreps.D_from_matrix (C39, C40) *)
Definition Dmat (r : mat) (x : irreps) (p q : nat) : R := mat_at (D_irreps (rep_of r) x) p q.
(* r applied to a tensor that has one index per entry of irs *)
Fixpoint Dtensor (r : mat) (irs : list irreps) (z z' : idx) : R :=
  match irs, z, z' with
  | [], [], [] => 1
  | x :: irs, p :: z, q :: z' => Dmat r x p q * Dtensor r irs z z'
  | _, _, _ => 0
  end.
Definition turned (r : mat) (irs : list irreps) (T : idx -> R) : idx -> R := fun z => lsum (all_idx (map dim irs)) (fun z' => Dtensor r irs z z' * T z').
Definition inner_product (irs : list irreps) (T U : idx -> R) : R := lsum (all_idx (map dim irs)) (fun z => T z * U z).
(* the combination of the tensors of b with the coefficients <T, T_c> *)
Definition projected (irs : list irreps) (b : iarray) (T : idx -> R) : idx -> R := fun z => rsum (dim (irr b)) (fun c => inner_product irs T (tensor b c) * tensor b c z).

Record reduced_basis (irs : list irreps) (keep : option (list irrep)) (sym : (idx -> R) -> Prop) (b : iarray) : Prop := {
  (* shape (d1, ..., dn, irreps_out.dim) *)
  rb_array : coherent b;
  rb_shape : lead b = map dim irs;
  (* irreps_out is sorted and simplified and has only kept irreps *)
  rb_sorted : StronglySorted (fun a a' => ir_ltb (snd a) (snd a') = true) (irr b);
  rb_kept : forall m, In m (irr b) -> (0 < fst m)%nat /\ passes keep (snd m) = true;
  (* the tensors are orthonormal *)
  rb_orthonormal : forall c c', (c < dim (irr b))%nat -> (c' < dim (irr b))%nat -> inner_product irs (tensor b c) (tensor b c') = if (c =? c')%nat then 1 else 0;
  (* each of them has the symmetry *)
  rb_symmetric : forall c, (c < dim (irr b))%nat -> sym (tensor b c);
  (* turning all the indices of the tensors is turning the output index *)
  rb_equivariant : forall r c z, orthogonal3 r -> (c < dim (irr b))%nat -> valid (map dim irs) z ->
    turned r irs (tensor b c) z = rsum (dim (irr b)) (fun c' => Dmat r (irr b) c' c * tensor b c' z);
  (* nothing is missing: a multiplet of symmetric tensors, of a kept irrep, is a combination of the tensors of b *)
  rb_complete : forall ir (t : nat -> idx -> R), passes keep ir = true -> (forall m, (m < ir_dim ir)%nat -> sym (t m)) ->
    (forall r m z, orthogonal3 r -> (m < ir_dim ir)%nat -> valid (map dim irs) z -> turned r irs (t m) z = rsum (ir_dim ir) (fun m' => Dmat r [(1%nat, ir)] m' m * t m' z)) ->
    forall m z, (m < ir_dim ir)%nat -> valid (map dim irs) z -> projected irs b (t m) z = t m z;
  (* when every irrep is kept, every symmetric tensor is a combination of the tensors of b *)
  rb_all : keep = None -> forall T z, sym T -> valid (map dim irs) z -> projected irs b T z = T z }.
