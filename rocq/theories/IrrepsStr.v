(* Model of the string forms of Irrep / Irreps: e3nn_jax/_src/irreps.py parsing and printing.
   Python str is modelled by lists of ASCII characters. *)
From Verif Require Import PyBase PermModel IrrepsModel.
From Coq Require Import Ascii String.
Local Open Scope char_scope.

Notation chars := (list ascii).

(* str.isspace on ASCII: \t\n\v\f\r (9-13), 28-31, space (32) *)
Definition is_space (c : ascii) : bool :=
  let n := nat_of_ascii c in
  ((9 <=? n) && (n <=? 13))%nat || ((28 <=? n) && (n <=? 32))%nat.

Fixpoint lstrip (s : chars) : chars :=
  match s with
  | c :: s' => if is_space c then lstrip s' else s
  | [] => []
  end.
(* str.strip() *)
Definition strip (s : chars) : chars := rev (lstrip (rev (lstrip s))).

(* value of a decimal digit *)
Definition digit_val (c : ascii) : option nat :=
  let n := nat_of_ascii c in
  if ((48 <=? n) && (n <=? 57))%nat then Some (n - 48) else None.

(* body of int(): digits, single underscores allowed between digits (PEP 515).
   [after_digit] tells whether the previous character was a digit. *)
Fixpoint parse_digits (acc : nat) (after_digit : bool) (s : chars) : option nat :=
  match s with
  | [] => if after_digit then Some acc else None
  | c :: s =>
      match digit_val c with
      | Some d => parse_digits (10 * acc + d) true s
      | None => if Ascii.eqb c "_" && after_digit then parse_digits acc false s else None
      end
  end.

(* int(s) on ASCII strings *)
Definition py_int (s : chars) : res Z :=
  let s := strip s in
  let r := match s with
           | c :: s' => if Ascii.eqb c "-" then option_map (fun n => (- Z.of_nat n)%Z) (parse_digits 0 false s')
                        else if Ascii.eqb c "+" then option_map Z.of_nat (parse_digits 0 false s')
                        else option_map Z.of_nat (parse_digits 0 false s)
           | [] => None
           end in
  match r with Some z => Ok z | None => Err ValueError end.

(* irreps.py:76-86  Irrep(str): any failure becomes a ValueError *)
Definition parse_irrep (s : chars) : res irrep :=
  let name := strip s in
  match rev name with
  | [] => Err ValueError
  | c :: rn =>
      match py_int (rev rn) with
      | Err _ => Err ValueError
      | Ok l =>
          if (0 <=? l)%Z then
            let l := Z.to_nat l in
            if Ascii.eqb c "e" then Ok (Irrep l Even)
            else if Ascii.eqb c "o" then Ok (Irrep l Odd)
            else if Ascii.eqb c "y" then Ok (Irrep l (ppow Odd l))
            else Err ValueError
          else Err ValueError
      end
  end.

(* str.split(sep) for a one-character separator *)
Fixpoint split (sep : ascii) (s : chars) : list chars :=
  match s with
  | [] => [[]]
  | c :: s =>
      if Ascii.eqb c sep then [] :: split sep s
      else match split sep s with
           | w :: ws => (c :: w) :: ws
           | [] => [[c]]
           end
  end.

(* irreps.py:415-424  one summand of an Irreps string *)
Definition parse_term (s : chars) : res mulirrep :=
  if existsb (Ascii.eqb "x") s then
    match split "x" s with
    | [m; ir] =>
        let! mul := py_int m in
        let! ir := parse_irrep ir in
        if (0 <=? mul)%Z then Ok (Z.to_nat mul, ir) else Err ValueError
    | _ => Err ValueError
    end
  else let! ir := parse_irrep s in Ok (1, ir).

(* irreps.py:411-428  Irreps(str) *)
Definition parse_irreps (s : chars) : res irreps :=
  match strip s with
  | [] => Ok []
  | _ => match mapM parse_term (split "+" s) with
         | Ok x => Ok x
         | Err _ => Err ValueError
         end
  end.

(* decimal digits of n, as in f"{n}" *)
Definition digit_char (d : nat) : ascii := ascii_of_nat (48 + d).
Fixpoint digits_fuel (fuel n : nat) : chars :=
  match fuel with
  | 0 => []
  | S f => if (n <? 10)%nat then [digit_char n] else digits_fuel f (n / 10) ++ [digit_char (n mod 10)]
  end.
Definition print_nat (n : nat) : chars := digits_fuel (S n) n.

(* irreps.py:96-99  Irrep.__repr__ *)
Definition print_irrep (a : irrep) : chars :=
  print_nat (ir_l a) ++ [match ir_p a with Even => "e" | Odd => "o" end].

(* irreps.py:331-333  MulIrrep.__repr__ *)
Definition print_mulirrep (m : mulirrep) : chars := print_nat (fst m) ++ ["x"] ++ print_irrep (snd m).

(* "+".join(...) *)
Fixpoint join (l : list chars) : chars :=
  match l with
  | [] => []
  | [w] => w
  | w :: ws => w ++ "+" :: join ws
  end.

(* irreps.py:863-867  Irreps.__repr__ *)
Definition print_irreps (x : irreps) : chars :=
  match x with
  | [] => list_ascii_of_string "Irreps()"
  | _ => join (map print_mulirrep x)
  end.

(* irreps.py:576-583  Irreps.__eq__ against a string: False if the string does not parse *)
Definition eq_str (x : irreps) (s : chars) : bool :=
  match parse_irreps s with Ok y => irreps_eqb x y | Err _ => false end.
