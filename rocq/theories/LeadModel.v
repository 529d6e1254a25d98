(* Model of the operations of irreps_array.py and basic.py that act on the leading axes, move
   multiplicities to axes, reduce, index, or apply the group action.  Data representation as in
   ArrayModel.v: arr maps a leading multi-index to the row of features. *)
From Coq Require Import Reals.
From Verif Require Import PyBase PermModel IrrepsModel ArrayModel.

(* ---------- multi-indices ---------- *)
Definition prod (s : shape) : nat := fold_right Nat.mul 1 s.
(* all multi-indices of shape s, row-major *)
Fixpoint all_idx (s : shape) : list idx :=
  match s with
  | [] => [[]]
  | d :: s => flat_map (fun k => map (cons k) (all_idx s)) (seq 0 d)
  end.
(* row-major position of a multi-index and back *)
Fixpoint ravel (s : shape) (i : idx) : nat :=
  match s, i with
  | _ :: s, k :: i => k * prod s + ravel s i
  | _, _ => 0
  end.
Fixpoint unravel (s : shape) (n : nat) : idx :=
  match s with
  | [] => []
  | _ :: s => n / prod s :: unravel s (n mod prod s)
  end.
Definition insert_at {A} (k : nat) (a : A) (l : list A) : list A := firstn k l ++ a :: skipn k l.
Definition remove_at {A} (k : nat) (l : list A) : list A := firstn k l ++ skipn (S k) l.

(* irreps_array.py:1245-1259  _standardize_axis of an int; ndim counts the irreps axis *)
Definition standard_axis (axis : Z) (ndim : nat) : res nat :=
  let n := Z.of_nat ndim in
  if ((- n <=? axis) && (axis <? n))%Z then Ok (Z.to_nat (axis mod n)) else Err ValueError.
(* irreps_array.py:1245-1259  _standardize_axis of None or a tuple: sorted(set(...)) *)
Definition standard_axes (axis : option (list Z)) (ndim : nat) : res (list nat) :=
  match axis with
  | None => Ok (seq 0 ndim)
  | Some l => let! l := mapM (fun a => standard_axis a ndim) l in Ok (sorted_set l)
  end.

(* ---------- gathers ---------- *)
(* the same gather g applied to the array and to the cached chunks, zero flags kept *)
Definition chunk_gather (s : shape) (g : idx -> idx) (c : chunk) : chunk :=
  Chunk s (c_mul c) (c_dim c) (fun i => c_val c (g i)).
Definition gathered (x : iarray) (s : shape) (g : idx -> idx) (cs : option (list (option chunk))) : res iarray :=
  mkIA (irr x) s (dim (irr x)) (fun i => arr x (g i)) (Some (zero_flags x)) (map_chunks (chunk_gather s g) cs).

(* irreps_array.py:618-646  reshape((lead..., dim)) or (lead..., -1); the entry -1 in a leading
   position is not modelled.  The number of rows must agree (jnp raises TypeError). *)
Definition ia_reshape (x : iarray) (s : shape) : res iarray :=
  if negb (prod s =? prod (lead x)) then Err TypeError
  else gathered x s (fun i => unravel (lead x) (ravel s i)) (chs x).

(* irreps_array.py:1220-1235  broadcast_to((lead..., dim)); chunks are read (forced) *)
Definition broadcast_to (x : iarray) (s : shape) : res iarray :=
  let! t := broadcast_shapes (lead x) s in
  if negb (shape_eqb t s) then Err ValueError
  else gathered x s (fun i => bidx (lead x) i) (Some (chunks x)).

(* ---------- basic indexing ---------- *)
(* an item of an index tuple: integer, slice, None (new axis), Ellipsis *)
Inductive item := IInt (z : Z) | ISlice (sl : slice) | INew | IEllipsis.
Definition colon : item := ISlice (Slice None None None).
(* numpy's view of one axis of the result *)
Inductive sel := SInt (k : nat) | SRange (start step : Z) (n : nat) | SNew.
Definition full (d : nat) : sel := SRange 0 1 d.
Definition consumes (it : item) : bool := match it with IInt _ | ISlice _ => true | _ => false end.
Definition consumed (l : list item) : nat := length (filter consumes l).
(* number of elements of range(start, stop, step) *)
Definition range_len (start stop step : Z) : nat :=
  if (0 <? step)%Z then Z.to_nat ((stop - start + step - 1) / step) else Z.to_nat ((start - stop - step - 1) / (- step)).
Definition sel_of (d : nat) (it : item) : res sel :=
  match it with
  | IInt z => if ((- Z.of_nat d <=? z) && (z <? Z.of_nat d))%Z then Ok (SInt (Z.to_nat (z mod Z.of_nat d))) else Err IndexError
  | ISlice sl => let! r := slice_indices sl d in let '(a, b, st) := r in Ok (SRange a st (range_len a b st))
  | _ => Err TypeError
  end.
(* numpy basic indexing of an array of shape sh: missing trailing items are full slices, an Ellipsis
   stands for the axes that the other items do not consume *)
Fixpoint resolve (its : list item) (sh : shape) : res (list sel) :=
  match its with
  | [] => Ok (map full sh)
  | INew :: its => let! r := resolve its sh in Ok (SNew :: r)
  | IEllipsis :: its =>
      let k := length sh - consumed its in
      let! r := resolve its (skipn k sh) in Ok (map full (firstn k sh) ++ r)
  | it :: its =>
      match sh with
      | [] => Err IndexError
      | d :: sh => let! s := sel_of d it in let! r := resolve its sh in Ok (s :: r)
      end
  end.
Definition is_ellipsis (it : item) : bool := match it with IEllipsis => true | _ => false end.
(* numpy rejects two ellipses *)
Definition np_index (its : list item) (sh : shape) : res (list sel) :=
  if 1 <? length (filter is_ellipsis its) then Err IndexError else resolve its sh.
Fixpoint out_shape (l : list sel) : shape :=
  match l with
  | [] => []
  | SInt _ :: l => out_shape l
  | SRange _ _ n :: l => n :: out_shape l
  | SNew :: l => 1 :: out_shape l
  end.
Fixpoint gather (l : list sel) (i : idx) : idx :=
  match l with
  | [] => []
  | SInt k :: l => k :: gather l i
  | SRange a st _ :: l => Z.to_nat (a + st * Z.of_nat (hd 0 i)) :: gather l (tl i)
  | SNew :: l => gather l (tl i)
  end.
(* one number of an array given by rows *)
Definition entry (a : idx -> list R) (j : idx) : R := nth (last j 0) (a (removelast j)) 0%R.
(* array[index] as rows again; a 0-d result has no shape[-1] *)
Definition rows_index (a : idx -> list R) (sels : list sel) : res (shape * nat * (idx -> list R)) :=
  let t := out_shape sels in
  match t with
  | [] => Err IndexError
  | _ => Ok (removelast t, last t 0, fun i => map (fun k => entry a (gather sels (i ++ [k]))) (seq 0 (last t 0)))
  end.
(* chunk[index + (slice(None),)]; the result needs two trailing axes *)
Definition chunk_entry (c : chunk) (j : idx) : R :=
  nth (last j 0) (nth (last (removelast j) 0) (c_val c (removelast (removelast j))) []) 0%R.
Definition chunk_index (its : list item) (c : chunk) : res chunk :=
  let! sels := np_index (its ++ [colon]) (c_lead c ++ [c_mul c; c_dim c]) in
  let t := out_shape sels in
  match t with
  | [] | [_] => Err ValueError
  | _ =>
      let d := last t 0 in let m := last (removelast t) 0 in
      Ok (Chunk (removelast (removelast t)) m d
           (fun i => map (fun u => map (fun k => chunk_entry c (gather sels (i ++ [u; k]))) (seq 0 d)) (seq 0 m)))
  end.
Definition mapM_opt {A B} (f : A -> res B) (c : option A) : res (option B) :=
  match c with None => Ok None | Some a => let! b := f a in Ok (Some b) end.
(* irreps_array.py:606-612  x[index] on the array and on the cached chunks *)
Definition index_all (x : iarray) (its : list item) : res iarray :=
  let! sels := np_index its (lead x ++ [dim (irr x)]) in
  let! r := rows_index (arr x) sels in
  let '(s, w, a) := r in
  let! cs := mapM_opt (mapM (mapM_opt (chunk_index its))) (chs x) in
  mkIA (irr x) s w a (Some (zero_flags x)) cs.

Definition last_item (its : list item) : item := last its INew.
Definition is_colon (it : item) : bool :=
  match it with ISlice (Slice None None None) => true | _ => false end.
Definition is_new (it : item) : bool := match it with INew => true | _ => false end.
(* 532-537: a step-less slice with a bound *)
Definition is_feature_slice (it : item) : bool :=
  match it with
  | ISlice (Slice None None None) => false
  | ISlice (Slice _ _ None) => true
  | _ => false
  end.
(* irreps_array.py:494-612  __getitem__ for a tuple of basic items (indexing by Irreps is ia_getitem_irreps).
   None = the search loop of the feature slice ran out of fuel (never happens). *)
Definition ia_getitem (x : iarray) (its : list item) : option (res iarray) :=
  let ndim := S (length (lead x)) in
  let ell := existsb is_ellipsis (removelast its) in
  match its with
  | [] => Some (Err IndexError)
  | _ =>
    let l := last_item its in
    if (ell || (length its =? ndim)) && is_feature_slice l then
      match l with
      | ISlice sl =>
          match ia_getslice x sl with
          | Some (Ok y) => Some (index_all y (removelast its ++ [colon]))
          | r => r
          end
      | _ => Some (Err TypeError)
      end
    else if ((length (removelast its) =? ndim) || ell) && is_new l then Some (Err IndexError)
    else if ((length its =? ndim) || ell) && negb (is_ellipsis l || is_colon l || is_new l) then Some (Err IndexError)
    else Some (index_all x its)
  end.

(* ---------- indexed update ---------- *)
(* irreps_array.py:1276-1303, 1331-1354: guard; then the leading part of the index *)
Definition at_lead_items (ndim : nat) (its : list item) : res (list item) :=
  match its with
  | [] => Err IndexError
  | _ =>
    let l := last_item its in
    let ell := existsb is_ellipsis (removelast its) in
    if (ell || (length its =? ndim)) && is_feature_slice l then Err NotImplementedError
    else if (length its =? ndim) || existsb is_ellipsis its then
      if is_ellipsis l || is_colon l then Ok (removelast its) else Err IndexError
    else Ok its
  end.
(* array.at[index].set / .add with index selecting leading positions.  [upd old new] combines.  Basic
   indices address each position at most once. *)
Definition at_rows (upd : list R -> list R -> list R) (sels : list sel) (a : idx -> list R) (v : idx -> list R) : idx -> list R :=
  fun j => match find (fun o => list_eqb (gather sels o) j) (all_idx (out_shape sels)) with
           | Some o => upd (a j) (v o)
           | None => a j
           end.
(* irreps_array.py:1306-1311  x.at[index].set(0) *)
Definition at_set_zero (x : iarray) (its : list item) : res iarray :=
  let! li := at_lead_items (S (length (lead x))) its in
  let! sels := np_index li (lead x) in
  mkIA (irr x) (lead x) (dim (irr x)) (at_rows (fun _ v => v) sels (arr x) (fun _ => repeat 0%R (dim (irr x))))
    (Some (zero_flags x)) None.
(* irreps_array.py:1314-1329 set, 1357-1373 add with an IrrepsArray; values broadcast to the indexed shape *)
Definition at_update (upd : list R -> list R -> list R) (x : iarray) (its : list item) (v : iarray) : res iarray :=
  let! li := at_lead_items (S (length (lead x))) its in
  if negb (irreps_eqb (simplify (irr x)) (simplify (irr v))) then Err ValueError
  else
    let! v := rechunk v (irr x) in
    let! sels := np_index li (lead x) in
    let! t := broadcast_shapes (lead v) (out_shape sels) in
    if negb (shape_eqb t (out_shape sels)) then Err ValueError
    else
      mkIA (irr x) (lead x) (dim (irr x)) (at_rows upd sels (arr x) (fun o => arr v (bidx (lead v) o)))
        (Some (and_flags (zero_flags x) (zero_flags v))) None.
Definition at_set := at_update (fun _ v => v).
Definition at_add := at_update (zipR Rplus).

(* ---------- reductions ---------- *)
Inductive rop := OSum | OMean.
(* pointwise sum of rows of width w *)
Definition rowsum (w : nat) (rows : list (list R)) : list R := fold_right (zipR Rplus) (repeat 0%R w) rows.
Definition rdiv (op : rop) (n : nat) (row : list R) : list R :=
  match op with OSum => row | OMean => map (fun v => (v / INR n)%R) row end.
Definition reduced_axes (n : nat) (axes : list nat) : list bool := map (fun k => existsb (Nat.eqb k) axes) (seq 0 n).
Fixpoint reduced_shape (keepdims : bool) (mask : list bool) (s : shape) : shape :=
  match mask, s with
  | true :: mask, _ :: s => if keepdims then 1 :: reduced_shape keepdims mask s else reduced_shape keepdims mask s
  | false :: mask, d :: s => d :: reduced_shape keepdims mask s
  | _, _ => s
  end.
(* the multi-indices that are summed to make the result at i *)
Fixpoint fibre (keepdims : bool) (mask : list bool) (s : shape) (i : idx) : list idx :=
  match mask, s with
  | true :: mask, d :: s =>
      flat_map (fun k => map (cons k) (fibre keepdims mask s (if keepdims then tl i else i))) (seq 0 d)
  | false :: mask, _ :: s => map (cons (hd 0 i)) (fibre keepdims mask s (tl i))
  | _, _ => [i]
  end.
Definition rows_zip (U V : list (list R)) : list (list R) := map (fun '(u, v) => zipR Rplus u v) (combine U V).
Definition chunk_reduce (op : rop) (kd : bool) (mask : list bool) (s : shape) (c : chunk) : chunk :=
  Chunk (reduced_shape kd mask s) (c_mul c) (c_dim c)
    (fun i => let js := fibre kd mask s i in
      map (rdiv op (length js)) (fold_right rows_zip (zeros_rows (c_mul c) (c_dim c)) (map (c_val c) js))).
(* basic.py:184-193: reduction over leading axes only *)
Definition reduce_lead (op : rop) (x : iarray) (axes : list nat) (kd : bool) : res iarray :=
  match axes with
  | [] => Ok x
  | _ =>
    let mask := reduced_axes (length (lead x)) axes in
    mkIA (irr x) (reduced_shape kd mask (lead x)) (dim (irr x))
      (fun i => let js := fibre kd mask (lead x) i in rdiv op (length js) (rowsum (dim (irr x)) (map (arr x) js)))
      (Some (zero_flags x)) (Some (map (option_map (chunk_reduce op kd mask (lead x))) (chunks x)))
  end.
(* basic.py:195-201: reduction of the multiplicities, op(x, axis=-2, keepdims=True) *)
Definition chunk_reduce_mul (op : rop) (c : chunk) : chunk :=
  Chunk (c_lead c) 1 (c_dim c) (fun i => [rdiv op (c_mul c) (rowsum (c_dim c) (c_val c i))]).
Definition reduce_mul (op : rop) (x : iarray) : res iarray :=
  from_chunks (map (fun '(_, ir) => (1, ir)) (irr x)) (map (option_map (chunk_reduce_mul op)) (chunks x)) (lead x) true.
(* basic.py:172-201  _reduce; 204-261 mean, sum *)
Definition reduce (op : rop) (x : iarray) (axis : option (list Z)) (kd : bool) : res iarray :=
  let! axes := standard_axes axis (S (length (lead x))) in
  match axes with
  | [] => Ok x
  | _ =>
    if last axes 0 <? length (lead x) then reduce_lead op x axes kd
    else let! y := reduce_lead op x (removelast axes) kd in reduce_mul op y
  end.

(* ---------- stack and concatenate on leading axes ---------- *)
(* np.all over arrays of the zero flags: zip(xs zero_flags) *)
Definition all_flags (n : nat) (fls : list (list bool)) : list bool :=
  map (fun k => forallb (fun fl => nth k fl true) fls) (seq 0 n).
Definition dflt_ia : iarray := IA [] [] (fun _ => []) None None.
(* result of gathering row i from array number fst (pick i) at index snd (pick i) *)
Definition pick_chunk (s : shape) (pick : idx -> nat * idx) (m : mulirrep) (cs : list (option chunk)) : chunk :=
  Chunk s (fst m) (ir_dim (snd m)) (fun i =>
    let '(a, j) := pick i in
    match nth a cs None with
    | None => zeros_rows (fst m) (ir_dim (snd m))
    | Some c => c_val c j
    end).
Definition assemble (xs : list iarray) (s : shape) (pick : idx -> nat * idx) : res iarray :=
  let x0 := hd dflt_ia xs in
  if negb (forallb (fun x => irreps_eqb (irr x) (irr x0)) xs) then Err ValueError
  else
    let fl := all_flags (length (irr x0)) (map zero_flags xs) in
    let cs := map (fun '(k, (m, z)) => if (z : bool) then None
                else Some (pick_chunk s pick m (map (fun x => nth k (chunks x) None) xs)))
              (enumerate (combine (irr x0) fl)) in
    mkIA (irr x0) s (dim (irr x0)) (fun i => let '(a, j) := pick i in arr (nth a xs dflt_ia) j) (Some fl) (Some cs).
(* basic.py:336-405  stack *)
Definition stack (xs : list iarray) (axis : Z) : res iarray :=
  match xs with
  | [] => Err ValueError
  | x0 :: _ =>
    let! k := standard_axis axis (S (S (length (lead x0)))) in
    if k =? S (length (lead x0)) then Err ValueError
    else if negb (forallb (fun x => shape_eqb (lead x) (lead x0)) xs) then Err ValueError
    else assemble xs (insert_at k (length xs) (lead x0)) (fun i => (nth k i 0, remove_at k i))
  end.
(* position p of the concatenated axis: array number and position in it *)
Fixpoint locate (sizes : list nat) (p : nat) : nat * nat :=
  match sizes with
  | [] => (0, p)
  | n :: sizes => if p <? n then (0, p) else let '(a, q) := locate sizes (p - n) in (S a, q)
  end.
(* basic.py:264-333  concatenate; the last axis is concat_last (ArrayModel.v) *)
Definition concatenate (xs : list iarray) (axis : Z) : res iarray :=
  match xs with
  | [] => Err ValueError
  | x0 :: _ =>
    let! k := standard_axis axis (S (length (lead x0))) in
    if k =? length (lead x0) then concat_last xs
    else
      if negb (forallb (fun x => shape_eqb (remove_at k (lead x)) (remove_at k (lead x0)) && (length (lead x) =? length (lead x0))) xs) then Err TypeError
      else
        let sizes := map (fun x => nth k (lead x) 0) xs in
        assemble xs (firstn k (lead x0) ++ sum sizes :: skipn (S k) (lead x0))
          (fun i => let '(a, q) := locate sizes (nth k i 0) in (a, firstn k i ++ q :: skipn (S k) i))
  end.

(* ---------- where ---------- *)
(* basic.py:687-697: f(x, y) on chunks; mask of shape sm + (1,) *)
Definition where_chunk (sm : shape) (mask : idx -> bool) (s : shape) (m : mulirrep) (c d : option chunk) : option chunk :=
  let z := zeros_rows (fst m) (ir_dim (snd m)) in
  match c, d with
  | None, None => None
  | None, Some d => Some (Chunk s (c_mul d) (c_dim d) (fun i => if mask (bidx sm i) then z else c_val d (bidx (c_lead d) i)))
  | Some c, None => Some (Chunk s (c_mul c) (c_dim c) (fun i => if mask (bidx sm i) then c_val c (bidx (c_lead c) i) else z))
  | Some c, Some d => Some (Chunk s (c_mul c) (c_dim c) (fun i => if mask (bidx sm i) then c_val c (bidx (c_lead c) i) else c_val d (bidx (c_lead d) i)))
  end.
(* basic.py:651-704  where, mask.shape[-1] == 1.  Simplification: x and y have the same leading shape. *)
Definition where_ (sm : shape) (mask : idx -> bool) (x y : iarray) : res iarray :=
  if negb (irreps_eqb (irr x) (irr y)) then Err ValueError
  else if negb (shape_eqb (lead x) (lead y)) then Err NotImplementedError
  else
    let! s := broadcast_shapes sm (lead x) in
    mkIA (irr x) s (dim (irr x))
      (fun i => if mask (bidx sm i) then arr x (bidx (lead x) i) else arr y (bidx (lead y) i))
      (Some (and_flags (zero_flags x) (zero_flags y)))
      (Some (map (fun '(m, (c, d)) => where_chunk sm mask s m c d) (combine (irr x) (combine (chunks x) (chunks y))))).

(* ---------- multiplicity to axis and back ---------- *)
(* row number f * mul + u of a chunk, as axis (factor, mul) *)
Definition take_rows (rows : list (list R)) (f mul : nat) : list (list R) := firstn mul (skipn (f * mul) rows).
(* irreps_array.py:902-911: reshape lead + (factor, mul, dim), then moveaxis(-3 -> k), 0 <= k <= ndim *)
Definition mul_axis_chunk (factor k nlead mul : nat) (c : chunk) : chunk :=
  if k <=? nlead then
    Chunk (insert_at k factor (c_lead c)) mul (c_dim c) (fun i => take_rows (c_val c (remove_at k i)) (nth k i 0) mul)
  else
    Chunk (c_lead c ++ [mul]) factor (c_dim c)
      (fun i => map (fun f => nth (f * mul + last i 0) (c_val c (removelast i)) []) (seq 0 factor)).
(* irreps_array.py:875-916  mul_to_axis.  _standardize_axis returns a tuple, so the test
   "axis == self.ndim" is never true.  mul % 0 is a ZeroDivisionError. *)
Definition mul_to_axis (x : iarray) (factor : option nat) (axis : Z) : res iarray :=
  let ndim := S (length (lead x)) in
  let! k := standard_axis axis (S ndim) in
  let! factor := match factor with
                 | Some f => Ok f
                 | None => match irr x with [] => Err TypeError | _ => Ok (mul_gcd (irr x)) end end in
  if (factor =? 0) && negb (length (irr x) =? 0) then Err ZeroDivisionError
  else if negb (forallb (fun '(mul, _) => mul mod factor =? 0) (irr x)) then Err ValueError
  else
    let new := map (fun '(mul, ir) => (mul / factor, ir)) (irr x) in
    from_chunks new
      (map (fun '((mul, _), c) => option_map (mul_axis_chunk factor k (length (lead x)) mul) c) (combine new (chunks x)))
      (lead x ++ [factor]) true.

(* moveaxis of leading axis k to the last leading position: shape and gather *)
Definition move_last_shape (k : nat) (s : shape) : shape := remove_at k s ++ [nth k s 0].
Definition move_last_idx (k : nat) (i : idx) : idx := insert_at k (last i 0) (removelast i).
(* irreps_array.py:945-953: moveaxis(axis -> -3), reshape to shape[:-2] + (new_mul, dim) row-major *)
Definition axis_mul_chunk (k : nat) (s : shape) (new_mul : nat) (c : chunk) : chunk :=
  let t := move_last_shape k (c_lead c) in
  Chunk s new_mul (c_dim c) (fun i =>
    map (fun u => let j := unravel (t ++ [c_mul c]) (ravel (s ++ [new_mul]) (i ++ [u])) in
                  nth (last j 0) (c_val c (move_last_idx k (removelast j))) []) (seq 0 new_mul)).
(* irreps_array.py:925-954  axis_to_mul *)
Definition axis_to_mul (x : iarray) (axis : Z) : res iarray :=
  match lead x with
  | [] => Err AssertionError
  | _ =>
    let! k := standard_axis axis (S (length (lead x))) in
    if k =? length (lead x) then Err ValueError
    else
      let n := last (lead x) 0 in
      let new := map (fun '(mul, ir) => (n * mul, ir)) (irr x) in
      from_chunks new
        (map (fun '((mul, _), c) => option_map (axis_mul_chunk k (removelast (lead x)) mul) c) (combine new (chunks x)))
        (removelast (lead x)) true
  end.
(* irreps_array.py:851-866  axis_to_irreps (axis a leading axis; k = ndim - 1 moves the irreps axis and is not modelled) *)
Definition axis_to_irreps (x : iarray) (axis : Z) : res iarray :=
  match lead x with
  | [] => Err AssertionError
  | _ =>
    let! k := standard_axis axis (S (length (lead x))) in
    if k =? length (lead x) then Err NotImplementedError
    else
      let n := nth k (lead x) 0 in
      let s := removelast (lead x) in
      let new := simplify (repeat_irreps (irr x) n) in
      let d := dim (irr x) in
      let t := move_last_shape k (lead x) in
      if negb (prod s * dim new =? prod (lead x) * d) then Err TypeError
      else mkIA new s (dim new) (fun i =>
        map (fun f => let j := unravel (t ++ [d]) (ravel (s ++ [dim new]) (i ++ [f])) in
                      nth (last j 0) (arr x (move_last_idx k (removelast j))) 0%R) (seq 0 (dim new))) None None
  end.

(* ---------- invariants ---------- *)
Definition dotR (u v : list R) : R := fold_right Rplus 0%R (zipR Rmult u v).
(* basic.py:434-443: the norm of one row *)
Definition safe_sqrt (squared : bool) (v : R) : R :=
  if squared then v else if Req_EM_T v 0 then 0%R else sqrt (if Req_EM_T v 0 then 1 else v)%R.
Definition norm_row (squared : bool) (u : list R) : R := safe_sqrt squared (dotR u u).
Definition even_scalar : irrep := Irrep 0 Even.
(* basic.py:408-453  norm *)
Definition norm_chunk (squared : bool) (c : chunk) : chunk :=
  Chunk (c_lead c) (c_mul c) 1 (fun i => map (fun u => [norm_row squared u]) (c_val c i)).
Definition norm (x : iarray) (squared per_irrep : bool) : res iarray :=
  if per_irrep then
    from_chunks (map (fun '(mul, _) => (mul, even_scalar)) (irr x)) (map (option_map (norm_chunk squared)) (chunks x)) (lead x) true
  else mkIA [(1, even_scalar)] (lead x) 1 (fun i => [norm_row squared (arr x i)]) None None.

(* basic.py:456-512  dot.  per_irrep gives from_chunks the leading shape of a. *)
Definition dot_chunk (c d : option chunk) : res (option chunk) :=
  match c, d with
  | Some c, Some d =>
      let! s := broadcast_shapes (c_lead c) (c_lead d) in
      Ok (Some (Chunk s (c_mul c) 1 (fun i => map (fun '(u, v) => [dotR u v])
        (combine (c_val c (bidx (c_lead c) i)) (c_val d (bidx (c_lead d) i))))))
  | _, _ => Ok None
  end.
Definition dot_total (cs : list (option chunk * option chunk)) (i : idx) : R :=
  fold_left (fun acc '(c, d) => match c, d with
    | Some c, Some d => (acc + fold_right Rplus 0 (map (fun '(u, v) => dotR u v)
        (combine (c_val c (bidx (c_lead c) i)) (c_val d (bidx (c_lead d) i)))))%R
    | _, _ => acc end) cs 0%R.
Definition dot (a b : iarray) (per_irrep : bool) : res iarray :=
  let! a := ia_simplify a in
  let! b := ia_simplify b in
  if negb (irreps_eqb (irr a) (irr b)) then Err ValueError
  else
    let cs := combine (chunks a) (chunks b) in
    if per_irrep then
      let! out := mapM (fun '(c, d) => dot_chunk c d) cs in
      from_chunks (map (fun '(mul, _) => (mul, even_scalar)) (irr a)) out (lead a) true
    else
      let! s := broadcast_shapes (lead a) (lead b) in
      if existsb (fun '(c, d) => match c, d with Some _, Some _ => true | _, _ => false end) cs
      then mkIA [(1, even_scalar)] s 1 (fun i => [dot_total cs i]) None None
      else zeros [(1, even_scalar)] s.

(* basic.py:134-158  _align_two_irreps: the while loop; the recursion consumes the heads in lockstep *)
Fixpoint align_loop (fuel : nat) (x y : irreps) : irreps * irreps :=
  match fuel with
  | 0 => (x, y)
  | S fuel =>
    match x, y with
    | (m1, a) :: x', (m2, b) :: y' =>
        if m1 <? m2 then let '(u, v) := align_loop fuel x' ((m2 - m1, b) :: y') in ((m1, a) :: u, (m1, b) :: v)
        else if m2 <? m1 then let '(u, v) := align_loop fuel ((m1 - m2, a) :: x') y' in ((m2, a) :: u, (m2, b) :: v)
        else let '(u, v) := align_loop fuel x' y' in ((m1, a) :: u, (m2, b) :: v)
    | _, _ => (x, y)
    end
  end.
Definition align_two_irreps (x y : irreps) : res (irreps * irreps) :=
  let! _ := assert (num_irreps x =? num_irreps y) in
  let '(u, v) := align_loop (length x + length y) x y in
  let! _ := assert (list_eqb (map fst u) (map fst v)) in
  Ok (u, v).
(* basic.py:161-169 *)
Definition align_two_arrays (x y : iarray) : res (iarray * iarray) :=
  let! r := align_two_irreps (irr x) (irr y) in
  let '(u, v) := r in
  let! x := rechunk x u in
  let! y := rechunk y v in
  Ok (x, y).

(* basic.py:515-559  cross.  jnp.cross of two rows of three *)
Definition cross_row (u v : list R) : list R :=
  match u, v with
  | [a; b; c], [d; e; f] => [b * f - c * e; c * d - a * f; a * e - b * d]%R
  | _, _ => []
  end.
Definition cross_chunk (c d : option chunk) : res (option chunk) :=
  match c, d with
  | Some c, Some d =>
      let! s := broadcast_shapes (c_lead c) (c_lead d) in
      Ok (Some (Chunk s (c_mul c) 3 (fun i => map (fun '(u, v) => cross_row u v)
        (combine (c_val c (bidx (c_lead c) i)) (c_val d (bidx (c_lead d) i))))))
  | _, _ => Ok None
  end.
Definition cross (a b : iarray) : res iarray :=
  if existsb (fun '(_, ir) => negb (ir_l ir =? 1)) (irr a) then Err ValueError
  else if existsb (fun '(_, ir) => negb (ir_l ir =? 1)) (irr b) then Err ValueError
  else if negb (num_irreps (irr a) =? num_irreps (irr b)) then Err ValueError
  else
    let! r := align_two_arrays a b in
    let '(a, b) := r in
    let! s := broadcast_shapes (lead a) (lead b) in
    let! out := mapM (fun '(c, d) => cross_chunk c d) (combine (chunks a) (chunks b)) in
    from_chunks (map (fun '((mul, p), (_, q)) => (mul, Irrep 1 (pmul (ir_p p) (ir_p q)))) (combine (irr a) (irr b))) out s true.

(* ---------- group action ---------- *)
(* a representation: one square matrix (list of rows) per irrep, as Irrep.D_from_* returns *)
Definition matvec (M : list (list R)) (v : list R) : list R := map (fun row => dotR row v) M.
Definition rep := irrep -> list (list R).
Definition rep_ok (D : rep) : Prop := forall ir, length (D ir) = ir_dim ir /\ Forall (fun r => length r = ir_dim ir) (D ir).
(* irreps_array.py:963-1091  transform_by_log_coordinates / angles / quaternion / axis_angle / matrix: the same
   einsum "ij,...uj->...ui" with the matrices D[ir] *)
Definition transform (D : rep) (x : iarray) : res iarray :=
  from_chunks (irr x)
    (map (fun '((mul, ir), c) => option_map (fun c => Chunk (lead x) mul (ir_dim ir) (fun i => map (matvec (D ir)) (c_val c i))) c)
       (combine (irr x) (chunks x))) (lead x) true.

(* jax.scipy.linalg.block_diag of square matrices (lists of rows) *)
Fixpoint block_diag_from (off total : nat) (Ms : list (list (list R))) : list (list R) :=
  match Ms with
  | [] => []
  | M :: Ms => map (fun r => repeat 0%R off ++ r ++ repeat 0%R (total - off - length M)) M ++ block_diag_from (off + length M) total Ms
  end.
Definition block_diag (Ms : list (list (list R))) : list (list R) := block_diag_from 0 (sum (map (@length (list R)) Ms)) Ms.
(* irreps.py:869-931  Irreps.D_from_log_coordinates / D_from_angles / D_from_quaternion / D_from_matrix *)
Definition D_irreps (D : rep) (x : irreps) : list (list R) := block_diag (flat_map (fun '(mul, ir) => map (fun _ => D ir) (seq 0 mul)) x).
