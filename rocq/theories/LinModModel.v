(* Model of the Linear modules: e3nn_jax/_src/linear_haiku.py, linear_flax.py (the same __call__ up to where the parameters are stored),
   linear_equinox.py, and the functions linear_vanilla, linear_indexed, linear_mixed, linear_mixed_per_channel and
   validate_inputs_for_instructions of linear.py.
   Not modelled: dtypes and casts, random initialisation, weights given as an array without axes, integer weights wrapped in an IrrepsArray. *)
From Coq Require Import Reals Ascii.
From Verif Require Import PyBase PermModel IrrepsModel IrrepsStr ArrayModel LeadModel LinearModel.
Open Scope nat_scope.

(* the parameters of a module: a dictionary from names to arrays.  params name i is the flat row-major content, of length prod(path_shape), of the
   array at the extra leading index i (empty for linear_vanilla, [k] for linear_indexed and linear_mixed, [k; channel] for linear_mixed_per_channel) *)
Definition params := chars -> shape -> list R.

(* linear.py:233-238 = 268-273 = 309-314 = 353-358, linear_equinox.py:187-190: the name of the parameter of an instruction *)
Definition param_name (x y : irreps) (o : linstr) : chars :=
  match li_in o with
  | None => ["b"; "["] ++ print_nat (li_out o) ++ ["]"; " "] ++ print_mulirrep (nth (li_out o) y (0, Irrep 0 Even))
  | Some i => ["w"; "["] ++ print_nat i ++ [","] ++ print_nat (li_out o) ++ ["]"; " "]
              ++ print_mulirrep (nth i x (0, Irrep 0 Even)) ++ [","] ++ print_mulirrep (nth (li_out o) y (0, Irrep 0 Even))
  end%char.
Definition pname (L : flinear) (o : linstr) : chars := param_name (fl_in L) (fl_out L) o.
(* what get_parameter is asked for: name and shape, in order; extra is (), (num_indexed_weights,), (d,) or (d, num_channels) *)
Definition requests (L : flinear) (extra : shape) : list (chars * shape) := map (fun o => (pname L o, extra ++ li_shape o)) (fl_ins L).

(* linear.py:226-249  linear_vanilla *)
Definition linear_vanilla (P : params) (L : flinear) (x : iarray) : res iarray :=
  linear_call L (map (fun o _ => P (pname L o) []) (fl_ins L)) x.

(* wi[indices] with jnp semantics: negative indices count from the end, then indices are clamped into range *)
Definition gather_index (n : nat) (z : Z) : nat :=
  let z := if (z <? 0)%Z then (z + Z.of_nat n)%Z else z in
  Z.to_nat (Z.max 0 (Z.min z (Z.of_nat n - 1))).
(* linear.py:252-285  linear_indexed; indexing an array whose first axis is empty raises *)
Definition linear_indexed (P : params) (L : flinear) (n : nat) (si : shape) (ix : idx -> Z) (x : iarray) : res iarray :=
  let! s := broadcast_shapes (lead x) si in
  let! x := broadcast_to x s in
  if (n =? 0) && negb (length (fl_ins L) =? 0) then Err TypeError
  else linear_call L (map (fun o i => P (pname L o) [gather_index n (ix (bidx si i))]) (fl_ins L)) x.

(* linear.py:322-326  sqrt(1/d) ** gradient_normalization * dot_general(weights, wi), flat over path_shape (n = prod(path_shape)) *)
Definition mix (gn : R) (d n : nat) (v : list R) (p : nat -> list R) : list R :=
  map (fun q => (Rpower (sqrt (1 / INR d)) gn * fold_right Rplus 0 (map (fun k => nth k v 0 * nth q (p k) 0) (seq 0 d)))%R) (seq 0 n).
(* linear.py:288-330  linear_mixed; weights of shape sw + (d,) *)
Definition linear_mixed (P : params) (L : flinear) (gn : R) (sw : shape) (d : nat) (w : idx -> list R) (x : iarray) : res iarray :=
  let! s := broadcast_shapes (lead x) sw in
  let! x := broadcast_to x s in
  if d =? 0 then Err ZeroDivisionError
  else linear_call L (map (fun o i => mix gn d (nprod (li_shape o)) (w (bidx sw i)) (fun k => P (pname L o) [k])) (fl_ins L)) x.
(* linear.py:334-375  linear_mixed_per_channel; the input has shape (..., num_channels, irreps).
   Simplification: an input without a channel axis always raises IndexError here. *)
Definition linear_mixed_per_channel (P : params) (L : flinear) (gn : R) (sw : shape) (d : nat) (w : idx -> list R) (x : iarray) : res iarray :=
  match lead x with
  | [] => Err IndexError
  | _ =>
    let! s := broadcast_shapes (removelast (lead x)) sw in
    let! x := broadcast_to x (s ++ [last (lead x) 0]) in
    if d =? 0 then Err ZeroDivisionError
    else linear_call L (map (fun o i => mix gn d (nprod (li_shape o)) (w (bidx sw (removelast i))) (fun k => P (pname L o) [k; last i 0])) (fl_ins L)) x
  end.

(* linear.py:378-409  validate_inputs_for_instructions *)
Definition validate_inputs (xin : irreps) (instructions : option (list (nat * nat))) (simplify_internally : bool) (channel_out : option nat) (irreps_in : option irreps) : res unit :=
  match instructions with
  | None =>
      match irreps_in with
      | None => Ok tt
      | Some z => let! a := regroup xin in let! b := regroup z in if irreps_eqb a b then Ok tt else Err ValueError
      end
  | Some _ =>
      if simplify_internally then Err ValueError
      else match channel_out with
           | Some _ => Err ValueError
           | None => match irreps_in with
                     | None => Err ValueError
                     | Some z => if irreps_eqb xin z then Ok tt else Err ValueError
                     end
           end
  end.

(* linear_haiku.py:87-124, linear_flax.py:71-84: the fields.  The normalisations are the numbers the strings stand for;
   channel_out and num_indexed_weights are natural numbers. *)
Record lmodule := LMod { m_out : irreps; m_channel : option nat; m_in : option irreps; m_biases : bias_arg; m_pn : R; m_gn : R;
  m_instr : option (list (nat * nat)); m_indexed : option nat; m_per_channel : bool; m_force : bool; m_simplify : bool }.
(* the optional first argument: absent, integers, floats of shape s + (d,), or an IrrepsArray of floats *)
Inductive weights_arg := NoWeights | Indices (s : shape) (ix : idx -> Z) | Floats (s : shape) (d : nat) (w : idx -> list R) | Wrapped (a : iarray).

(* linear_haiku.py:178-189, linear_flax.py:106-126: the input and irreps_out given to FunctionalLinear *)
Definition module_inputs (M : lmodule) (x : iarray) : res (iarray * irreps) :=
  let! x := if m_simplify M then (let! z := remove_zero_chunks x in ia_regroup z) else Ok x in
  let y := if m_simplify M then simplify (m_out M) else m_out M in
  let! y := if m_force M then Ok y else filter_irreps y (Some (ByIrreps (map snd (irr x)))) None None in
  match m_channel M with
  | None => Ok (x, y)
  | Some c =>
      let! _ := assert (negb (m_per_channel M)) in
      let! x := axis_to_mul x (-2) in
      let! y := mul_int y (Z.of_nat c) in
      Ok (x, y)
  end.
(* linear_haiku.py:208-246, linear_flax.py:166-199: the four ways to evaluate the layer *)
Definition module_layer (M : lmodule) (P : params) (L : flinear) (w : weights_arg) (x : iarray) : res iarray :=
  let floats s d f := match m_indexed M with
                      | Some _ => Err ValueError
                      | None => if m_per_channel M then linear_mixed_per_channel P L (m_gn M) s d f x else linear_mixed P L (m_gn M) s d f x
                      end in
  match w with
  | NoWeights => let! _ := assert (negb (m_per_channel M)) in linear_vanilla P L x
  | Indices s ix => match m_indexed M with
                    | None => Err ValueError
                    | Some n => let! _ := assert (negb (m_per_channel M)) in linear_indexed P L n s ix x
                    end
  | Floats s d f => floats s d f
  | Wrapped a => if negb (is_scalar (irr a)) then Err ValueError else floats (lead a) (dim (irr a)) (arr a)
  end.
(* linear_haiku.py:151-253, linear_flax.py:87-206  __call__ *)
Definition module_call (M : lmodule) (P : params) (w : weights_arg) (x : iarray) : res iarray :=
  let! xy := module_inputs M x in
  let '(x, y) := xy in
  let! _ := validate_inputs (irr x) (m_instr M) (m_simplify M) (m_channel M) (m_in M) in
  let! L := functional_linear (irr x) y (m_instr M) (m_biases M) (m_pn M) (m_gn M) in
  let! out := module_layer M P L w x in
  let! out := match m_channel M with Some c => mul_to_axis out (Some c) (-2) | None => Ok out end in
  if m_force M then rechunk out (m_out M) else Ok out.

(* ---------- equinox ---------- *)
Inductive linear_type := TVanilla | TIndexed | TMixed | TMixedPerChannel.
(* linear_equinox.py:123-140: the constructor's arguments *)
Record eqx_args := EqxArgs { e_out : irreps; e_in : irreps; e_channel_out : option nat; e_channel_in : option nat; e_biases : bias_arg; e_pn : R; e_gn : R;
  e_indexed : option nat; e_per_channel : bool; e_force : bool; e_wdim : option nat; e_type : linear_type }.
(* the fields kept: irreps_in and irreps_out after processing, and the FunctionalLinear *)
Record eqx_module := EqxMod { q_args : eqx_args; q_in : irreps; q_out : irreps; q_linear : flinear }.
(* linear_equinox.py:141-177 and the checks of _get_weights 192-222 (made once per instruction; 1/d with d = 0 raises) *)
Definition eqx_init (A : eqx_args) : res eqx_module :=
  let! xin := regroup (e_in A) in
  let! c := match e_channel_out A with None => Ok 1 | Some c => let! _ := assert (negb (e_per_channel A)) in Ok c end in
  let! y := if e_force A then Ok (e_out A) else rmap simplify (filter_irreps (e_out A) (Some (ByIrreps (map snd xin))) None None) in
  let! cy := mul_int y (Z.of_nat c) in
  let! L := functional_linear xin cy None (e_biases A) (e_pn A) (e_gn A) in
  let! _ := match fl_ins L with
            | [] => Ok tt
            | _ => match e_type A with
                   | TVanilla => Ok tt
                   | TIndexed => match e_indexed A with None => Err ValueError | Some _ => Ok tt end
                   | TMixed => match e_wdim A with None => Err ValueError | Some 0 => Err ZeroDivisionError | Some _ => Ok tt end
                   | TMixedPerChannel => match e_wdim A with
                                         | None => Err ValueError
                                         | Some d => match e_channel_in A with None => Err ValueError | Some _ => if d =? 0 then Err ZeroDivisionError else Ok tt end
                                         end
                   end
            end in
  Ok (EqxMod A xin y L).
(* the float weights of the mixed types *)
Definition eqx_floats (w : weights_arg) : res (shape * nat * (idx -> list R)) :=
  match w with
  | NoWeights => Err AssertionError
  | Indices _ _ => Err AssertionError
  | Floats s d f => Ok (s, d, f)
  | Wrapped a => if negb (is_scalar (irr a)) then Err ValueError else Ok (lead a, dim (irr a), arr a)
  end.
(* linear_equinox.py:233-342  __call__ *)
Definition eqx_call (Q : eqx_module) (P : params) (w : weights_arg) (x : iarray) : res iarray :=
  let A := q_args Q in
  let! r := regroup (irr x) in
  if negb (irreps_eqb (q_in Q) r) then Err ValueError
  else
    let! _ := match e_channel_in A with
              | None => Ok tt
              | Some c => match lead x with [] => Err IndexError | _ => if c =? last (lead x) 0 then Ok tt else Err ValueError end
              end in
    let! x := (let! z := remove_zero_chunks x in ia_regroup z) in
    let L := q_linear Q in
    (* the stored arrays have weights_dim rows: dot_general raises on another number of weights *)
    let wrong_dim d r := if negb (d =? 0) && negb (length (fl_ins L) =? 0) && negb (match e_wdim A with Some n => d =? n | None => false end) then (let! _ := r in Err TypeError) else r in
    let! out := match e_type A with
                | TVanilla => match w with NoWeights => linear_vanilla P L x | _ => Err AssertionError end
                | TIndexed => match w with
                              | NoWeights => Err AssertionError
                              | Floats _ _ _ => Err AssertionError
                              | Wrapped a => if negb (is_scalar (irr a)) then Err ValueError else Err AssertionError
                              | Indices s ix => if e_per_channel A then Err NotImplementedError
                                                else match e_indexed A with None => linear_indexed P L 0 s ix x | Some n => linear_indexed P L n s ix x end
                              end
                | TMixed => let! sdf := eqx_floats w in
                            let '(s, d, f) := sdf in
                            let! _ := assert (match e_indexed A with None => true | Some _ => false end) in
                            wrong_dim d (linear_mixed P L (e_gn A) s d f x)
                | TMixedPerChannel => let! sdf := eqx_floats w in
                            let '(s, d, f) := sdf in
                            let! _ := assert (match e_indexed A with None => true | Some _ => false end) in
                            wrong_dim d (linear_mixed_per_channel P L (e_gn A) s d f x)
                end in
    let! out := match e_channel_out A with Some c => mul_to_axis out (Some c) (-2) | None => Ok out end in
    rechunk out (q_out Q).
