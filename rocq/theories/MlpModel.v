(* Model of e3nn_jax/_src/mlp_haiku.py and mlp_flax.py: MultiLayerPerceptron (the same computation; they differ in where the parameters are kept).
   Not modelled: dtypes, the random initialisation itself (only its standard deviation), inputs without axes. *)
From Coq Require Import Reals String.
From Verif Require Import PyBase PermModel IrrepsModel ArrayModel LeadModel ActivationModel NormModel SumR.
Open Scope R_scope.

(* the argument output_activation: True, False or a function *)
Inductive out_arg := OTrue | OFalse | OFun (f : R -> R).
(* mlp_haiku.py:24-55, mlp_flax.py:24-28: the fields *)
Record mlp := Mlp { list_neurons : list nat; m_act : option (R -> R); m_gradient : option cvalue; m_output : out_arg; m_with_bias : bool }.
(* the parameters of layer i: w of shape (n, h) and b of shape (h,); haiku calls the layer linear_{i}, flax Dense_{i} *)
Definition mlp_params := nat -> (nat -> nat -> R) * (nat -> R).

(* mlp_haiku.py:41-47, mlp_flax.py:48-55 *)
Definition output_activation (M : mlp) : option (R -> R) := match m_output M with OTrue => m_act M | OFalse => None | OFun f => Some f end.
(* mlp_haiku.py:49-55, mlp_flax.py:57-63: the number gradient_normalization stands for *)
Definition gradient_number (conf : registry) (g : option cvalue) : res R :=
  let! v := match g with
            | Some v => Ok v
            | None => let! o := snd (config "gradient_normalization" None conf) in match o with Some v => Ok v | None => Err KeyError end
            end in
  match v with
  | VStr s => if String.eqb s "element" then Ok 0 else if String.eqb s "path" then Ok 1 else Err KeyError
  | VFloat r => Ok r
  | VBool b => Ok (if b then 1 else 0)
  end.

(* mlp_haiku.py:90-92, mlp_flax.py:86-88: the standard deviation of the initial weights of a layer with n inputs *)
Definition init_stddev (gn : R) (n : nat) : R := Rpower (sqrt (1 / INR n)) (1 - gn).
(* hk.Linear, flax.linen.Dense: x @ w + b *)
Definition dense (bias : bool) (n h : nat) (p : (nat -> nat -> R) * (nat -> R)) (row : list R) : list R :=
  map (fun j => rsum n (fun q => nth q row 0 * fst p q j) + (if bias then snd p j else 0)) (seq 0 h).
Definition apply_act (f : option (R -> R)) (row : list R) : list R := match f with None => row | Some f => map f row end.
(* mlp_haiku.py:84-103, mlp_flax.py:80-99: the loop; i counts the layers, w is x.shape[-1] *)
Fixpoint mlp_layers (gn : R) (bias : bool) (act last_act : option (R -> R)) (P : mlp_params) (i : nat) (l : list nat) (w : nat) (a : idx -> list R) : res (nat * (idx -> list R)) :=
  match l with
  | [] => Ok (w, a)
  | h :: l' =>
      if (w =? 0)%nat then Err ZeroDivisionError
      else
        let a := fun k => map (Rmult (Rpower (sqrt (1 / INR w)) gn)) (dense bias w h (P i) (a k)) in
        let a := match l' with [] => fun k => apply_act last_act (a k) | _ => fun k => apply_act act (a k) end in
        mlp_layers gn bias act last_act P (S i) l' h a
  end.

(* the argument: an array of shape s + (w,), or an IrrepsArray *)
Inductive mlp_arg := MBare (s : shape) (w : nat) (a : idx -> list R) | MIrreps (x : iarray).
(* mlp_haiku.py:57-107, mlp_flax.py:30-103  __call__ (and the constructor); pts as in normalize_function *)
Definition mlp_call (conf : registry) (pts : list R) (M : mlp) (P : mlp_params) (x : mlp_arg) : res mlp_arg :=
  let! gn := gradient_number conf (m_gradient M) in
  let act := option_map (normalize_function pts) (m_act M) in
  let last_act := option_map (normalize_function pts) (output_activation M) in
  match x with
  | MBare s w a => let! r := mlp_layers gn (m_with_bias M) act last_act P 0 (list_neurons M) w a in Ok (MBare s (fst r) (snd r))
  | MIrreps x =>
      if negb (is_scalar (irr x)) then Err ValueError
      else
        let! r := mlp_layers gn (m_with_bias M) act last_act P 0 (list_neurons M) (dim (irr x)) (arr x) in
        let! y := mkIA [(fst r, Irrep 0 Even)] (lead x) (fst r) (snd r) None None in
        Ok (MIrreps y)
  end.
