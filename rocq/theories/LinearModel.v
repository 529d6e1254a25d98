(* Model of e3nn_jax/_src/linear.py (FunctionalLinear and the functions that call it). *)
From Verif Require Import PyBase PermModel IrrepsModel ArrayModel LeadModel.
From Coq Require Import Reals.
Open Scope nat_scope.

(* linear.py:14-19  Instruction; i_in = None stands for the bias marker -1.
   Simplification: user-supplied indices are natural numbers (Python also accepts negative ones). *)
Record linstr := LIns { li_in : option nat; li_out : nat; li_shape : list nat; li_pw : R; li_std : R }.
(* linear.py:22-26  FunctionalLinear; the weights of one instruction are a flat row-major list of length prod(path_shape) *)
Record flinear := FLin { fl_in : irreps; fl_out : irreps; fl_ins : list linstr; fl_mask : list bool }.

(* n ** p for a natural number n and a float p: 0 ** 0.0 = 1 and 0 ** p = 0 for p > 0.
   Simplification: 0 ** p for p < 0 is 0 here and raises in Python (only p in [0, 1] is documented). *)
Definition npow (n : nat) (p : R) : R :=
  if n =? 0 then (if Req_EM_T p 0 then 1%R else 0%R) else Rpower (INR n) p.

(* linear.py:52-59  the default instructions *)
Definition default_instructions (x y : irreps) : list (nat * nat) :=
  flat_map (fun '(i, (_, a)) => flat_map (fun '(j, (_, b)) => if irrep_eqb a b then [(i, j)] else []) (enumerate y)) (enumerate x).

(* irreps[i]: IndexError out of range *)
Definition mul_of (x : irreps) (i : nat) : nat := fst (nth i x (0, Irrep 0 Even)).

(* linear.py:72-78  alpha(this) *)
Definition alpha (x : irreps) (pn : R) (ins : list (nat * nat)) (this : nat * nat) : R :=
  let v := (npow (mul_of x (fst this)) pn *
            fold_right Rplus 0 (map (fun o => npow (mul_of x (fst o)) (1 - pn)) (filter (fun o => snd o =? snd this) ins)))%R in
  if Rlt_dec 0 v then (1 / v)%R else 1%R.

(* linear.py:91-97  the biases argument *)
Inductive bias_arg := NoBias | BoolBias (b : bool) | ListBias (l : list bool).
Definition biases_of (b : bias_arg) (y : irreps) : res (list bool) :=
  let l := match b with
           | NoBias => repeat false (length y)
           | BoolBias b => map (fun '(_, ir) => b && ir_is_scalar ir) y
           | ListBias l => l
           end in
  let! _ := assert (length l =? length y) in
  let! _ := assert (forallb (fun '(b, (_, ir)) => ir_is_scalar ir || negb b) (combine l y)) in
  Ok l.

(* linear.py:28-132  FunctionalLinear.__init__ *)
Definition functional_linear (x y : irreps) (instructions : option (list (nat * nat))) (b : bias_arg) (pn gn : R) : res flinear :=
  let ins := match instructions with None => default_instructions x y | Some l => l end in
  if negb (forallb (fun '(i, j) => (i <? length x) && (j <? length y)) ins) then Err IndexError
  else
    let paths := map (fun '(i, j) => LIns (Some i) j [mul_of x i; mul_of y j]
                    (Rpower (sqrt (alpha x pn ins (i, j))) gn) (Rpower (sqrt (alpha x pn ins (i, j))) (1 - gn))) ins in
    let! bs := biases_of b y in
    let bias := flat_map (fun '(j, (b, m)) => if (b : bool) then [LIns None j [mi_dim m] 1%R 0%R] else []) (enumerate (combine bs y)) in
    let all := paths ++ bias in
    (* linear.py:111-127 *)
    let mask := flat_map (fun '(j, m) => repeat (existsb (fun o => (li_out o =? j) && negb (existsb (Nat.eqb 0) (li_shape o))) all) (mi_dim m)) (enumerate y) in
    Ok (FLin x y all mask).

Definition nprod (l : list nat) : nat := fold_right Nat.mul 1 l.
(* linear.py:134-136  num_weights *)
Definition num_weights (L : flinear) : nat := sum (map (fun o => nprod (li_shape o)) (fl_ins L)).

(* linear.py:157-165  split_weights: weights[cursor:cursor+n].reshape(path_shape) raises if the slice is short *)
Fixpoint split_from (cursor : nat) (ins : list linstr) (w : list R) : res (list (list R)) :=
  match ins with
  | [] => Ok []
  | o :: ins =>
      let b := list_slice w cursor (cursor + nprod (li_shape o)) in
      if negb (length b =? nprod (li_shape o)) then Err TypeError
      else rmap (cons b) (split_from (cursor + nprod (li_shape o)) ins w)
  end.
Definition split_weights (L : flinear) (w : list R) : res (list (list R)) := split_from 0 (fl_ins L) w.

(* one path evaluated at a leading index: a chunk of shape lead + sizes, given by its row-major flat content *)
Record path := Path { p_size : nat; p_val : idx -> list R }.

(* jnp.einsum("uw,ui->wi", w, chunk) flattened, times path_weight *)
Definition path_rows (pw : R) (w : list R) (mul_in mul_out d : nat) (X : list (list R)) : list R :=
  concat (map (fun v => map (fun c => pw * fold_right Rplus 0 (map (fun u => nth (u * mul_out + v) w 0 * nth c (nth u X []) 0) (seq 0 mul_in)))%R (seq 0 d)) (seq 0 mul_out)).

(* linear.py:179-191  the list comprehension [paths] for the weights ws (one flat list per instruction and leading index) *)
Definition eval_path (cs : list (option chunk)) (o : linstr) (w : idx -> list R) : option path :=
  match li_in o with
  | None => Some (Path (nprod (li_shape o)) (fun i => map (Rmult (li_pw o)) (w i)))
  | Some k =>
      match nth k cs None with
      | None => None
      | Some c => let mo := nth 1 (li_shape o) 0 in
                  Some (Path (mo * c_dim c) (fun i => path_rows (li_pw o) (w i) (c_mul c) mo (c_dim c) (c_val c i)))
      end
  end.

(* utils/sum_tensors.py:4-13  sum_tensors with empty_return_none: each tensor is reshaped to (mul, dim) *)
Definition sum_paths (s : shape) (m : mulirrep) (ps : list path) : res (option chunk) :=
  match ps with
  | [] => Ok None
  | _ =>
      if negb (forallb (fun p => p_size p =? mi_dim m) ps) then Err TypeError
      else Ok (Some (Chunk s (fst m) (ir_dim (snd m)) (fun i => group_rows (fst m) (ir_dim (snd m)) (rowsum (mi_dim m) (map (fun p => p_val p i) ps)))))
  end.

Definition keep_some {A} (l : list (option A)) : list A := flat_map (fun o => match o with Some a => [a] | None => [] end) l.

(* linear.py:138-155  aggregate_paths *)
Definition aggregate_paths (L : flinear) (ps : list (option path)) (s : shape) : res iarray :=
  let! out := mapM (fun '(j, m) => sum_paths s m (keep_some (map snd (filter (fun '(o, _) => li_out o =? j) (combine (fl_ins L) ps))))) (enumerate (fl_out L)) in
  from_chunks (fl_out L) out s true.

(* linear.py:167-192  __call__, vmapped over all leading axes (linear_vanilla 226-249; with weights that depend on the
   leading index: linear_indexed 252-285 and linear_mixed 288-330).  vmap evaluates the body once per leading index. *)
Definition linear_call (L : flinear) (ws : list (idx -> list R)) (x : iarray) : res iarray :=
  let! x := rechunk x (fl_in L) in
  aggregate_paths L (map (fun '(o, w) => eval_path (chunks x) o w) (combine (fl_ins L) ws)) (lead x).

(* linear.py:194-217  matrix: rows of length dim(irreps_out) *)
Definition matrix_add (rows cols : nat) (M : list (list R)) (r0 c0 h w : nat) (B : nat -> nat -> R) : list (list R) :=
  map (fun a => map (fun b => (nth b (nth a M []) 0 + (if ((r0 <=? a) && (a <? r0 + h) && (c0 <=? b) && (b <? c0 + w))%nat then B (a - r0)%nat (b - c0)%nat else 0))%R) (seq 0 cols)) (seq 0 rows).
Definition matrix_step (L : flinear) (M : list (list R)) (ow : linstr * list R) : res (list (list R)) :=
  let '(o, w) := ow in
  match li_in o with
  | None => Err AssertionError
  | Some i =>
      let '(mi, a) := nth i (fl_in L) (0, Irrep 0 Even) in
      let '(mo, b) := nth (li_out o) (fl_out L) (0, Irrep 0 Even) in
      let di := ir_dim a in
      let '(r0, _) := nth i (slices (fl_in L)) (0, 0) in
      let '(c0, _) := nth (li_out o) (slices (fl_out L)) (0, 0) in
      (* reshape of (mi, di, mo, di) to (mi * ir_in.dim, mo * ir_out.dim) *)
      if negb (mi * di * (mo * di) =? mi * di * (mo * ir_dim b)) then Err TypeError
      else Ok (matrix_add (dim (fl_in L)) (dim (fl_out L)) M r0 c0 (mi * di) (mo * di)
        (fun p q => li_pw o * (nth ((p / di) * mo + q / di) w 0 * (if (p mod di =? q mod di)%nat then 1 else 0)))%R)
  end.
Definition linear_matrix (L : flinear) (ws : list (list R)) : res (list (list R)) :=
  fold_left (fun M ow => let! M := M in matrix_step L M ow) (combine (fl_ins L) ws)
    (Ok (map (fun _ => repeat 0%R (dim (fl_out L))) (seq 0 (dim (fl_in L))))).
