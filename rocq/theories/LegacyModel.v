(* Model of e3nn_jax/_src/legacy/core_tensor_product.py (FunctionalTensorProduct) and functional_fully_connected_tensor_product.py.
   The coupling tensors are the parameter [cg] as in TPModel.v.  dtypes, the sparse representation of the coupling tensors and the custom
   derivative of einsum are not modelled (they do not change the values).  Indices of user instructions are natural numbers. *)
From Verif Require Import PyBase PermModel IrrepsModel ArrayModel ArrayOps LeadModel SumR TPModel LinearModel.
From Coq Require Import Reals.
Open Scope nat_scope.

(* core_tensor_product.py:38-50  the connection modes; MBad is any other string *)
Inductive tmode := Uvw | Uvu | Uvv | Uuw | Uuu | Uvuv | UvuLtv | ULtvw | MBad.
(* core_tensor_product.py:20-35  Instruction *)
Record tinstr := TIns { ti_1 : nat; ti_2 : nat; ti_o : nat; ti_mode : tmode; ti_hw : bool; ti_pw : R; ti_std : option R; ti_m1 : nat; ti_m2 : nat; ti_mo : nat }.
(* m1 * (m2 - 1) // 2.  Simplification: for m2 = 0 < m1 Python has a negative number here, the model 0 *)
Definition half_pairs (m1 m2 : nat) : nat := m1 * (m2 - 1) / 2.
(* core_tensor_product.py:52-74  path_shape *)
Definition path_shape (o : tinstr) : list nat :=
  let m1 := ti_m1 o in let m2 := ti_m2 o in let mo := ti_mo o in
  match ti_mode o with
  | Uvw => [m1; m2; mo] | Uvu => [m1; m2] | Uvv => [m1; m2] | Uuw => [m1; mo] | Uuu => [m1] | Uvuv => [m1; m2]
  | UvuLtv => [half_pairs m1 m2] | ULtvw => [half_pairs m1 m2; mo] | MBad => []
  end.
(* core_tensor_product.py:77-88  num_elements *)
Definition num_elements (o : tinstr) : nat :=
  let m1 := ti_m1 o in let m2 := ti_m2 o in
  match ti_mode o with
  | Uvw => m1 * m2 | Uvu => m2 | Uvv => m1 | Uuw => m1 | Uuu => 1 | Uvuv => 1 | UvuLtv => 1 | ULtvw => half_pairs m1 m2 | MBad => 0
  end.

(* core_tensor_product.py:113-141  FunctionalTensorProduct *)
Record ftp := FTP { tp_in1 : irreps; tp_in2 : irreps; tp_out : irreps; tp_ins : list tinstr; tp_mask : list bool }.
(* a user instruction (i_in1, i_in2, i_out, connection_mode, has_weight, path_weight) *)
Definition uinstr := (nat * nat * nat * tmode * bool * R)%type.

(* x ** p for floats x >= 0: 0 ** 0 = 1.  Simplification: 0 ** p for p < 0 is 0 here and raises in Python *)
Definition fpow (x p : R) : R := if Req_EM_T x 0 then (if Req_EM_T p 0 then 1%R else 0%R) else Rpower x p.

Definition entry_of (x : irreps) (i : nat) : mulirrep := nth i x (0, Irrep 0 Even).
(* core_tensor_product.py:339-344  var *)
Definition ins_var (v1 v2 : list R) (o : tinstr) : R := (nth (ti_1 o) v1 0 * nth (ti_2 o) v2 0 * INR (num_elements o))%R.
(* core_tensor_product.py:346-357  path_normalization_factors *)
Definition path_factor (v1 v2 : list R) (pn : R) (ins : list tinstr) (o : tinstr) : R :=
  (fpow (ins_var v1 v2 o) pn * lsum (filter (fun o' => ti_o o' =? ti_o o) ins) (fun o' => fpow (ins_var v1 v2 o') (1 - pn)))%R.
(* core_tensor_product.py:376-388  alpha *)
Definition ins_alpha (x y z : irreps) (v1 v2 vo : list R) (nrm : inorm) (pn : R) (ins : list tinstr) (o : tinstr) : R :=
  let d1 := ir_dim (snd (entry_of x (ti_1 o))) in let d2 := ir_dim (snd (entry_of y (ti_2 o))) in let d := ir_dim (snd (entry_of z (ti_o o))) in
  let a := match nrm with NComponent => INR d | NNorm => INR (d1 * d2) | _ => 1%R end in
  let f := path_factor v1 v2 pn ins o in
  ((if Rlt_dec 0 f then a / f else a) * nth (ti_o o) vo 0 * ti_pw o)%R.
(* core_tensor_product.py:359-396  update *)
Definition update (x y z : irreps) (v1 v2 vo : list R) (nrm : inorm) (pn gn : R) (ins : list tinstr) (o : tinstr) : res tinstr :=
  let a := snd (entry_of x (ti_1 o)) in let b := snd (entry_of y (ti_2 o)) in let c := snd (entry_of z (ti_o o)) in
  if (match nrm with NOther => true | _ => false end) then Err ValueError
  else if negb (parity_eqb (pmul (ir_p a) (ir_p b)) (ir_p c)) then Err AssertionError
  else if negb ((ir_l a - ir_l b + (ir_l b - ir_l a) <=? ir_l c) && (ir_l c <=? ir_l a + ir_l b)) then Err AssertionError
  else if negb (ti_o o <? length vo) then Err IndexError
  else
    let al := ins_alpha x y z v1 v2 vo nrm pn ins o in
    (* math.sqrt of a negative number *)
    if Rlt_dec al 0 then Err ValueError
    else Ok (if ti_hw o
             then TIns (ti_1 o) (ti_2 o) (ti_o o) (ti_mode o) (ti_hw o) (fpow (sqrt al) gn) (Some (fpow (sqrt al) (1 - gn))) (ti_m1 o) (ti_m2 o) (ti_mo o)
             else TIns (ti_1 o) (ti_2 o) (ti_o o) (ti_mode o) (ti_hw o) (sqrt al) (ti_std o) (ti_m1 o) (ti_m2 o) (ti_mo o)).
(* core_tensor_product.py:161-176 *)
Definition make_ins (x y z : irreps) (u : uinstr) : res tinstr :=
  let '(i1, i2, io, m, hw, pw) := u in
  if negb ((i1 <? length x) && (i2 <? length y) && (io <? length z)) then Err IndexError
  else match m with
       | MBad => Err ValueError
       | _ => Ok (TIns i1 i2 io m hw pw None (fst (entry_of x i1)) (fst (entry_of y i2)) (fst (entry_of z io)))
       end.
(* core_tensor_product.py:215-233  output_mask *)
Definition out_mask (z : irreps) (ins : list tinstr) : list bool :=
  flat_map (fun '(j, m) => repeat (existsb (fun o => (ti_o o =? j) && (if Req_EM_T (ti_pw o) 0 then false else true) && negb (existsb (Nat.eqb 0) (path_shape o))) ins) (mi_dim m)) (enumerate z).
(* core_tensor_product.py:178-185  the default variances *)
Definition var_or (v : option (list R)) (x : irreps) : list R := match v with Some v => v | None => repeat 1%R (length x) end.
(* core_tensor_product.py:143-233  __init__; path_normalization and gradient_normalization are exponents ("element" is 0 and "path" is 1) *)
Definition functional_tp (x y z : irreps) (us : list uinstr) (in1_var in2_var out_var : option (list R)) (nrm : inorm) (pn gn : R) : res ftp :=
  let! ins := mapM (make_ins x y z) us in
  let v1 := var_or in1_var x in let v2 := var_or in2_var y in let vo := var_or out_var z in
  if negb (forallb (fun o => (ti_1 o <? length v1) && (ti_2 o <? length v2)) ins) then Err IndexError
  else
    let! ins' := mapM (update x y z v1 v2 vo nrm pn gn ins) ins in
    Ok (FTP x y z ins' (out_mask z ins')).
(* functional_fully_connected_tensor_product.py:22-28 *)
Definition fc_instructions (x y z : irreps) : list uinstr :=
  flat_map (fun '(i1, (_, a)) => flat_map (fun '(i2, (_, b)) => flat_map (fun '(io, (_, c)) =>
    if existsb (irrep_eqb c) (ir_mul a b) then [(i1, i2, io, Uvw, true, 1%R)] else []) (enumerate z)) (enumerate y)) (enumerate x).
(* functional_fully_connected_tensor_product.py:7-40 *)
Definition functional_fctp (x y z : irreps) (in1_var in2_var out_var : option (list R)) (nrm : inorm) (pn gn : R) : res ftp :=
  functional_tp x y z (fc_instructions x y z) in1_var in2_var out_var nrm pn gn.

(* ---------- weights ---------- *)
(* an array: shape and row-major content *)
Record tensor := Tensor { t_shape : list nat; t_val : list R }.
(* the weights argument of left_right: a list of arrays or one flat array *)
Inductive warg := WList (l : list tensor) | WFlat (w : list R).
(* core_tensor_product.py:441-449 *)
Fixpoint split_flat (cursor : nat) (ins : list tinstr) (w : list R) : res (list tensor) :=
  match ins with
  | [] => if cursor =? length w then Ok [] else Err AssertionError
  | o :: ins =>
      if ti_hw o then
        let b := list_slice w cursor (cursor + nprod (path_shape o)) in
        if negb (length b =? nprod (path_shape o)) then Err TypeError
        else rmap (cons (Tensor (path_shape o) b)) (split_flat (cursor + nprod (path_shape o)) ins w)
      else split_flat cursor ins w
  end.
(* core_tensor_product.py:431-450 (and _flat_concatenate 317-322): the weights in both forms *)
Definition weight_forms (T : ftp) (w : warg) : res (list R * list tensor) :=
  match w with
  | WList l => if negb (length l =? length (filter ti_hw (tp_ins T))) then Err AssertionError else Ok (flat_map t_val l, l)
  | WFlat w => rmap (fun l => (w, l)) (split_flat 0 (tp_ins T) w)
  end.

(* ---------- one instruction ---------- *)
(* row-major content of an array of shape (n, d) *)
Definition flat2 (n d : nat) (f : nat -> nat -> R) : list R := concat (map (fun a => map (f a) (seq 0 d)) (seq 0 n)).
(* path_weight * w3j contracted with copy u of x1 and copy v of x2 *)
Definition contract (cg : coupling) (pw : R) (a b c : irrep) (X Y : list (list R)) (u v k : nat) : R :=
  rsum (ir_dim a) (fun i => rsum (ir_dim b) (fun j => pw * cg (ir_l a) (ir_l b) (ir_l c) i j k * nth i (nth u X []) 0 * nth j (nth v Y []) 0)%R).
(* core_tensor_product.py:516-568  the einsum of each mode; w is the flat weight, m1, m2, mo the multiplicities, d the dimension of the
   output irrep and C u v k the contraction above *)
Definition block_value (mode : tmode) (hw : bool) (m1 m2 mo d : nat) (w : list R) (C : nat -> nat -> nat -> R) : res (list R) :=
  let wt q r := if hw then (nth q w 0 * r)%R else r in
  match mode with
  | Uvw => let! _ := assert hw in Ok (flat2 mo d (fun z k => rsum m1 (fun u => rsum m2 (fun v => nth ((u * m2 + v) * mo + z) w 0 * C u v k))%R))
  | Uvu => let! _ := assert (m1 =? mo) in Ok (flat2 m1 d (fun u k => rsum m2 (fun v => wt (u * m2 + v) (C u v k))))
  | Uvv => let! _ := assert (m2 =? mo) in Ok (flat2 m2 d (fun v k => rsum m1 (fun u => wt (u * m2 + v) (C u v k))))
  | Uuw => let! _ := assert (m1 =? m2) in
           if hw then Ok (flat2 mo d (fun z k => rsum m1 (fun u => nth (u * mo + z) w 0 * C u u k)%R))
           else let! _ := assert (mo =? 1) in Ok (map (fun k => rsum m1 (fun u => C u u k)) (seq 0 d))
  | Uuu => let! _ := assert ((m1 =? m2) && (m2 =? mo)) in Ok (flat2 m1 d (fun u k => wt u (C u u k)))
  | Uvuv => let! _ := assert (m1 * m2 =? mo) in Ok (concat (map (fun u => flat2 m2 d (fun v k => wt (u * m2 + v) (C u v k))) (seq 0 m1)))
  | UvuLtv => let! _ := assert (m1 =? m2) in let! _ := assert (half_pairs m1 m1 =? mo) in
              Ok (concat (map (fun '(q, (u, v)) => map (fun k => wt q (C u v k)) (seq 0 d)) (enumerate (pairs_lt m1))))
  | ULtvw => let! _ := assert (m1 =? m2) in let! _ := assert hw in
             Ok (flat2 mo d (fun z k => lsum (enumerate (pairs_lt m1)) (fun '(q, (u, v)) => nth (q * mo + z) w 0 * C u v k)%R))
  | MBad => Err NameError
  end.
(* the matrices of a chunk of a one-dimensional IrrepsArray *)
Definition mat (c : chunk) : list (list R) := c_val c [].
(* core_tensor_product.py:483-570  the loop of _block_left_right: what is appended to out_list.  An instruction with an empty entry appends
   nothing (497-500) *)
Fixpoint block_outs (cg : coupling) (T : ftp) (x1 x2 : list (option chunk)) (ins : list tinstr) (ws : list tensor) : res (list (option (list R))) :=
  match ins with
  | [] => Ok []
  | o :: ins =>
      let '(m1, a) := entry_of (tp_in1 T) (ti_1 o) in
      let '(m2, b) := entry_of (tp_in2 T) (ti_2 o) in
      let '(mo, c) := entry_of (tp_out T) (ti_o o) in
      let! w := (if ti_hw o then match ws with [] => Err IndexError | w :: _ => if shape_eqb (t_shape w) (path_shape o) then Ok (t_val w) else Err AssertionError end else Ok []) in
      let ws := if ti_hw o then tl ws else ws in
      if (mi_dim (m1, a) =? 0) || (mi_dim (m2, b) =? 0) || (mi_dim (mo, c) =? 0) then block_outs cg T x1 x2 ins ws
      else
        match nth (ti_1 o) x1 None, nth (ti_2 o) x2 None with
        | Some X, Some Y =>
            let! v := block_value (ti_mode o) (ti_hw o) m1 m2 mo (ir_dim c) w (contract cg (ti_pw o) a b c (mat X) (mat Y)) in
            rmap (cons (Some v)) (block_outs cg T x1 x2 ins ws)
        | _, _ => rmap (cons None) (block_outs cg T x1 x2 ins ws)
        end
  end.
Definition as_path (v : list R) : path := Path (length v) (fun _ => v).
(* core_tensor_product.py:572-585: out_list is zipped with the instructions *)
Definition block_left_right (cg : coupling) (T : ftp) (ws : list tensor) (x1 x2 : iarray) : res iarray :=
  let! outs := block_outs cg T (chunks x1) (chunks x2) (tp_ins T) ws in
  let! cs := mapM (fun '(j, m) => sum_paths [] m (map as_path (keep_some (map snd (filter (fun '(o, _) => ti_o o =? j) (combine (tp_ins T) outs)))))) (enumerate (tp_out T)) in
  from_chunks (tp_out T) cs [] true.

(* ---------- fused ---------- *)
(* core_tensor_product.py:635-666: where the coupling tensor of an instruction is added: (path index, u, v, w), and the next path index *)
Definition fused_places (o : tinstr) (m1 m2 mo i : nat) : res (list (nat * (nat * nat * nat)) * nat) :=
  let run l := Ok (combine (seq i (length l)) l, i + length l) in
  let rest l := Ok (map (fun t => (0, t)) l, i) in
  let go l := if ti_hw o then run l else rest l in
  match ti_mode o with
  | Uvw => let! _ := assert (ti_hw o) in run (flat_map (fun u => flat_map (fun v => map (fun w => (u, v, w)) (seq 0 mo)) (seq 0 m2)) (seq 0 m1))
  | Uvu => let! _ := assert (ti_hw o) in run (flat_map (fun u => map (fun v => (u, v, u)) (seq 0 m2)) (seq 0 m1))
  | Uvv => let! _ := assert (ti_hw o) in run (flat_map (fun u => map (fun v => (u, v, v)) (seq 0 m2)) (seq 0 m1))
  | Uuu => go (map (fun u => (u, u, u)) (seq 0 m1))
  | Uvuv => go (flat_map (fun u => map (fun v => (u, v, u * m2 + v)) (seq 0 m2)) (seq 0 m1))
  | _ => Err AssertionError
  end.
Definition big := nat -> nat -> nat -> nat -> R.
(* a slice start:start+d of an axis of size n is clipped; the update of size d must broadcast to what is left *)
Definition slice_fits (n start d : nat) : bool := (Nat.min n (start + d) - Nat.min n start =? d) || (d =? 1).
Definition in_slice (n start d a : nat) : bool := (start <=? a) && (a <? start + d) && (a <? n).
(* core_tensor_product.py:627-633  set_w3j (a path index out of range is dropped) *)
Definition set_w3j (cg : coupling) (T : ftp) (o : tinstr) (W : big) (t : nat * (nat * nat * nat)) : res big :=
  let '(p, (u, v, w)) := t in
  let a := snd (entry_of (tp_in1 T) (ti_1 o)) in let b := snd (entry_of (tp_in2 T) (ti_2 o)) in let c := snd (entry_of (tp_out T) (ti_o o)) in
  let n1 := dim (tp_in1 T) in let n2 := dim (tp_in2 T) in let no := dim (tp_out T) in
  let s1 := dim (firstn (ti_1 o) (tp_in1 T)) + u * ir_dim a in
  let s2 := dim (firstn (ti_2 o) (tp_in2 T)) + v * ir_dim b in
  let so := dim (firstn (ti_o o) (tp_out T)) + w * ir_dim c in
  if negb (slice_fits n1 s1 (ir_dim a) && slice_fits n2 s2 (ir_dim b) && slice_fits no so (ir_dim c)) then Err ValueError
  else Ok (fun q i j k => (W q i j k + (if ((q =? p) && in_slice n1 s1 (ir_dim a) i && in_slice n2 s2 (ir_dim b) j && in_slice no so (ir_dim c) k)%nat
                                       then ti_pw o * cg (ir_l a) (ir_l b) (ir_l c) (i - s1)%nat (j - s2)%nat (k - so)%nat else 0))%R).
Fixpoint foldM {A S} (f : S -> A -> res S) (l : list A) (s : S) : res S :=
  match l with [] => Ok s | a :: l => let! s := f s a in foldM f l s end.
(* core_tensor_product.py:615-666 *)
Definition fused_step (cg : coupling) (T : ftp) (st : nat * big) (o : tinstr) : res (nat * big) :=
  let '(i, W) := st in
  let! r := fused_places o (fst (entry_of (tp_in1 T) (ti_1 o))) (fst (entry_of (tp_in2 T) (ti_2 o))) (fst (entry_of (tp_out T) (ti_o o))) i in
  let '(places, i) := r in
  let! W := foldM (set_w3j cg T o) places W in
  Ok (i, W).
(* core_tensor_product.py:588-692  _fused_left_right *)
Definition fused_left_right (cg : coupling) (T : ftp) (w : list R) (x1 x2 : iarray) : res iarray :=
  let free := existsb (fun o => negb (ti_hw o)) (tp_ins T) in
  let num_path := length w + (if free then 1 else 0) in
  let! r := foldM (fused_step cg T) (tp_ins T) ((if free then 1 else 0), fun _ _ _ _ => 0%R) in
  let '(i, W) := r in
  let! _ := assert (i =? num_path) in
  let xa := arr x1 [] in let xb := arr x2 [] in
  let term p k := rsum (length xa) (fun a => rsum (length xb) (fun b => W p a b k * nth a xa 0 * nth b xb 0))%R in
  let out :=
    if free && (num_path =? 1) then map (fun k => rsum num_path (fun p => term p k)) (seq 0 (dim (tp_out T)))
    else let w := if free then 1%R :: w else w in
         map (fun k => rsum num_path (fun p => nth p w 0 * term p k))%R (seq 0 (dim (tp_out T))) in
  mkIA (tp_out T) [] (dim (tp_out T)) (fun _ => out) None None.

(* core_tensor_product.py:235-275, 401-471  left_right (with the two-argument form written as WList []) *)
Definition left_right (cg : coupling) (fused : bool) (T : ftp) (w : warg) (x1 x2 : iarray) : res iarray :=
  let! x1 := rechunk x1 (tp_in1 T) in
  let! x2 := rechunk x2 (tp_in2 T) in
  if (dim (tp_in1 T) =? 0) || (dim (tp_in2 T) =? 0) || (dim (tp_out T) =? 0) then zeros (tp_out T) []
  else
    let! fl := weight_forms T w in
    let '(flat, l) := fl in
    let! _ := assert (length (lead x1) =? 0) in
    let! _ := assert (length (lead x2) =? 0) in
    if fused then fused_left_right cg T flat x1 x2 else block_left_right cg T l x1 x2.

(* ---------- right ---------- *)
(* path weight excluded: w3j contracted with copy v of x2, entry (i, k) *)
Definition half (cg : coupling) (a b c : irrep) (Y : list (list R)) (v i k : nat) : R :=
  rsum (ir_dim b) (fun j => cg (ir_l a) (ir_l b) (ir_l c) i j k * nth j (nth v Y []) 0)%R.
(* row-major content of an array of shape (n1, n2, n3, n4) *)
Definition flat4 (n1 n2 n3 n4 : nat) (f : nat -> nat -> nat -> nat -> R) : list R :=
  concat (map (fun a => concat (map (fun b => flat2 n3 n4 (f a b)) (seq 0 n2))) (seq 0 n1)).
Definition eye (u w : nat) : R := if u =? w then 1%R else 0%R.
(* core_tensor_product.py:749-787  the einsum of each mode; the modes "uvu<v" and "u<vw" have no branch: [out] keeps the value [prev] of
   the previous instruction, if any *)
Definition right_value (mode : tmode) (hw : bool) (m1 m2 mo d1 d : nat) (w : list R) (H : nat -> nat -> nat -> R) (prev : option (list R)) : res (list R) :=
  let wt q r := if hw then (nth q w 0 * r)%R else r in
  match mode with
  | Uvw => let! _ := assert hw in Ok (flat4 m1 d1 mo d (fun u i z k => rsum m2 (fun v => nth ((u * m2 + v) * mo + z) w 0 * H v i k))%R)
  | Uvu => let! _ := assert (m1 =? mo) in Ok (flat4 m1 d1 m1 d (fun u i z k => rsum m2 (fun v => wt (u * m2 + v)%nat (H v i k) * eye u z))%R)
  | Uvv => let! _ := assert (m2 =? mo) in Ok (flat4 m1 d1 m2 d (fun u i v k => wt (u * m2 + v) (H v i k)))
  | Uuw => let! _ := assert (m1 =? m2) in
           if hw then Ok (flat4 m1 d1 mo d (fun u i z k => nth (u * mo + z) w 0 * H u i k)%R)
           else let! _ := assert (mo =? 1) in Ok (concat (map (fun u => flat2 d1 d (fun i k => H u i k)) (seq 0 m1)))
  | Uuu => let! _ := assert ((m1 =? m2) && (m2 =? mo)) in Ok (flat4 m1 d1 m1 d (fun u i z k => wt u (H u i k) * eye u z)%R)
  | Uvuv => let! _ := assert (m1 * m2 =? mo) in
            Ok (concat (map (fun u => concat (map (fun i => concat (map (fun z => flat2 m2 d (fun v k => wt (u * m2 + v)%nat (H v i k) * eye u z)%R) (seq 0 m1))) (seq 0 d1))) (seq 0 m1)))
  | UvuLtv | ULtvw => match prev with Some p => Ok p | None => Err NameError end
  | MBad => Err NameError
  end.
(* core_tensor_product.py:719-791: the flat content of each matrix of out_list, of shape (mul_ir_in1.dim, mul_ir_out.dim) *)
Fixpoint right_outs (cg : coupling) (T : ftp) (x2 : list (option chunk)) (ins : list tinstr) (ws : list tensor) (prev : option (list R)) : res (list (list R)) :=
  match ins with
  | [] => Ok []
  | o :: ins =>
      let '(m1, a) := entry_of (tp_in1 T) (ti_1 o) in
      let '(m2, b) := entry_of (tp_in2 T) (ti_2 o) in
      let '(mo, c) := entry_of (tp_out T) (ti_o o) in
      let! w := (if ti_hw o then match ws with [] => Err IndexError | w :: _ => if shape_eqb (t_shape w) (path_shape o) then Ok (t_val w) else Err AssertionError end else Ok []) in
      let ws := if ti_hw o then tl ws else ws in
      if (mi_dim (m1, a) =? 0) || (mi_dim (m2, b) =? 0) || (mi_dim (mo, c) =? 0)
      then rmap (cons (repeat 0%R (mi_dim (m1, a) * mi_dim (mo, c)))) (right_outs cg T x2 ins ws prev)
      else
        match nth (ti_2 o) x2 None with
        | None => match ti_mode o with
                  | UvuLtv | ULtvw => let! v := right_value (ti_mode o) (ti_hw o) m1 m2 mo (ir_dim a) (ir_dim c) w (fun _ _ _ => 0%R) prev in
                                      let v := map (Rmult (ti_pw o)) v in
                                      if length v =? mi_dim (m1, a) * mi_dim (mo, c) then rmap (cons v) (right_outs cg T x2 ins ws (Some v)) else Err TypeError
                  (* einsum of None (after the assertions of the branch) *)
                  | _ => let! _ := right_value (ti_mode o) (ti_hw o) m1 m2 mo (ir_dim a) (ir_dim c) w (fun _ _ _ => 0%R) prev in Err TypeError
                  end
        | Some Y =>
            let! v := right_value (ti_mode o) (ti_hw o) m1 m2 mo (ir_dim a) (ir_dim c) w (half cg a b c (mat Y)) prev in
            let v := map (Rmult (ti_pw o)) v in
            if length v =? mi_dim (m1, a) * mi_dim (mo, c) then rmap (cons v) (right_outs cg T x2 ins ws (Some v)) else Err TypeError
        end
  end.
(* utils/sum_tensors.py:4-13  sum_tensors without empty_return_none, on matrices of shape (h, w) given by their content *)
Definition sum_mats (h w : nat) (l : list (list R)) : list (list R) := group_rows h w (rowsum (h * w) l).
(* np.concatenate(ms, axis=1) of matrices with h rows *)
Definition beside (h : nat) (ms : list (list (list R))) : list (list R) := map (fun a => flat_map (fun m => nth a m []) ms) (seq 0 h).
(* core_tensor_product.py:277-305, 695-818  right: a matrix of shape (irreps_in1.dim, irreps_out.dim); the weights are a list of arrays *)
Definition right (cg : coupling) (T : ftp) (ws : list tensor) (x2 : iarray) : res (list (list R)) :=
  let! x2 := rechunk x2 (tp_in2 T) in
  if (dim (tp_in1 T) =? 0) || (dim (tp_in2 T) =? 0) || (dim (tp_out T) =? 0) then Ok (repeat (repeat 0%R (dim (tp_out T))) (dim (tp_in1 T)))
  else
    let! outs := right_outs cg T (chunks x2) (tp_ins T) ws None in
    Ok (flat_map (fun '(i1, m) =>
          beside (mi_dim m) (map (fun '(io, mo) => sum_mats (mi_dim m) (mi_dim mo)
            (map snd (filter (fun '(o, _) => (ti_1 o =? i1) && (ti_o o =? io)) (combine (tp_ins T) outs)))) (filter (fun '(_, mo) => 0 <? fst mo) (enumerate (tp_out T)))))
        (filter (fun '(_, m) => 0 <? fst m) (enumerate (tp_in1 T)))).
