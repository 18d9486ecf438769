(* Model of the numbers that executed pseudocode computes with
   (pseudocode_semantics.py, class ES_Mathnum and its users).

   A mathematical value is held as a Python int or as a Python float.  A float
   is modelled by the integer k such that its value is k * 2^-1074 (every finite
   double is such a multiple of the least positive double).  Infinities and NaN
   are not modelled: where Python would make one, the outcome is [NInf]. *)
From Coq Require Import Ascii String.
From Verif Require Import M_Base M_HTML.
Open Scope list_scope.
Notation length := List.length.
Open Scope Z_scope.

Inductive mnum : Set :=
| MInt (z : Z)       (* a Python int *)
| MFlt (k : Z).      (* a Python float, k * 2^-1074 *)

(* How a numeric step can end.  [NInf]: a float operation whose result is
   infinite; [NPow]: int ** negative int, which is left to the C library. *)
Inductive nres (A : Type) : Type :=
| NOk (a : A)
| NAssert
| NZeroDiv
| NOverflow
| NInf
| NPow.
Arguments NOk {A} a.
Arguments NAssert {A}.
Arguments NZeroDiv {A}.
Arguments NOverflow {A}.
Arguments NInf {A}.
Arguments NPow {A}.

Definition nbind {A B} (r : nres A) (k : A -> nres B) : nres B :=
  match r with
  | NOk a => k a | NAssert => NAssert | NZeroDiv => NZeroDiv
  | NOverflow => NOverflow | NInf => NInf | NPow => NPow
  end.

(* ------------------------------------------------------------------ *)
(* IEEE 754 arithmetic, as used by CPython for the operators of float and for
   int / int (which is correctly rounded). *)

(* The quotient n / d (d > 0, n >= 0), rounded to an integer, ties to even. *)
Definition half_even (n d : Z) : Z :=
  let q := n / d in
  let r := n mod d in
  match Z.compare (2 * r) d with
  | Lt => q
  | Gt => q + 1
  | Eq => if Z.even q then q else q + 1
  end.

(* The rational n / d (d > 0) of least doubles, rounded to 53 significant bits
   (fewer for subnormal results: the shift is never negative). *)
Definition round_pos (n d : Z) : Z :=
  let s := Z.max 0 (Z.log2 (n / d) - 52) in
  half_even n (d * 2 ^ s) * 2 ^ s.

Definition unit_ : Z := 2 ^ 1074.               (* 1.0 *)
Definition infinite : Z := 2 ^ 1024 * unit_.

(* over is what Python does if the result is too large. *)
Definition round_ (over : nres mnum) (n d : Z) : nres mnum :=
  let k := Z.sgn n * Z.sgn d * round_pos (Z.abs n) (Z.abs d) in
  if Z.abs k <? infinite then NOk (MFlt k) else over.

(* float(z) *)
Definition to_float (a : mnum) : nres Z :=
  match a with
  | MFlt k => NOk k
  | MInt z => nbind (round_ NOverflow (z * unit_) 1) (fun m =>
      match m with MFlt k => NOk k | MInt z => NOk z end)
  end.

Definition on_floats (a b : mnum) (f : Z -> Z -> nres mnum) : nres mnum :=
  nbind (to_float a) (fun x => nbind (to_float b) (fun y => f x y)).

(* ------------------------------------------------------------------ *)
(* pseudocode_semantics.py:7013-7022  the operators of ES_Mathnum *)

Definition m_add (a b : mnum) : nres mnum :=                      (* 7013 *)
  match a, b with
  | MInt x, MInt y => NOk (MInt (x + y))
  | _, _ => on_floats a b (fun x y => round_ NInf (x + y) 1)
  end.
Definition m_sub (a b : mnum) : nres mnum :=                      (* 7014 *)
  match a, b with
  | MInt x, MInt y => NOk (MInt (x - y))
  | _, _ => on_floats a b (fun x y => round_ NInf (x - y) 1)
  end.
Definition m_mul (a b : mnum) : nres mnum :=                      (* 7015 *)
  match a, b with
  | MInt x, MInt y => NOk (MInt (x * y))
  | _, _ => on_floats a b (fun x y => round_ NInf (x * y) unit_)
  end.
Definition m_div (a b : mnum) : nres mnum :=                      (* 7016 *)
  match a, b with
  | MInt x, MInt y => if y =? 0 then NZeroDiv else round_ NOverflow (x * unit_) y
  | _, _ => on_floats a b (fun x y => if y =? 0 then NZeroDiv else round_ NInf (x * unit_) y)
  end.
(* 7018-7022  __mod__; Python's % has the sign of the divisor, like Z.modulo *)
Definition m_mod (a b : mnum) : nres mnum :=
  match a, b with
  | MInt x, MInt y => if y =? 0 then NAssert else NOk (MInt (x mod y))
  | _, _ => NAssert                                               (* 7019-7020 *)
  end.

(* pseudocode_semantics.py:7330-7346  d_exec of {SUM} and {PRODUCT}; the operands
   have been executed *)
Definition arith (op : text) (a b : mnum) : nres mnum :=
  if existsb (text_eqb op) [tx "+"; tx "plus"] then m_add a b                     (* 7335 *)
  else if existsb (text_eqb op) [tx "&times;"; tx "times"; [215%N]] then m_mul a b (* 7336 *)
  else if text_eqb op (tx "-") then m_sub a b                                      (* 7337 *)
  else if text_eqb op (tx "/") then m_div a b                                      (* 7338 *)
  else if text_eqb op (tx "modulo") then m_mod a b                                 (* 7339-7343 *)
  else NAssert.                                                                    (* 7345 *)

(* pseudocode_semantics.py:7396-7400  {BASE}<sup>{EX}</sup> *)
Definition m_pow (a b : mnum) : nres mnum :=
  match a, b with
  | MInt x, MInt y => if 0 <=? y then NOk (MInt (x ^ y)) else NPow
  | _, _ => NPow
  end.

(* pseudocode_semantics.py:7787-7789  floor *)
Definition m_floor (a : mnum) : mnum :=
  match a with MInt z => MInt z | MFlt k => MInt (k / unit_) end.

(* Python's comparison of an int or a float with an int or a float, which is
   exact: the value in least doubles *)
Definition units (a : mnum) : Z := match a with MInt z => z * unit_ | MFlt k => k end.

(* pseudocode_semantics.py:6996-7011  ES_Mathnum.compare *)
Definition m_compare (a : mnum) (rator : text) (b : mnum) : nres bool :=
  if text_eqb rator [8804%N] then NOk (units a <=? units b)                        (* 7004 *)
  else if existsb (text_eqb rator) [[8805%N]; tx "is greater than or equal to"]
       then NOk (units b <=? units a)                                              (* 7006 *)
  else if existsb (text_eqb rator) [tx "&gt;"; tx "is strictly greater than"]
       then NOk (units b <? units a)                                               (* 7008 *)
  else NAssert.                                                                    (* 7011 *)

(* pseudocode_semantics.py:7680-7685  a comparison with two comparators *)
Definition m_compare2 (a : mnum) (r1 : text) (b : mnum) (r2 : text) (c : mnum) : nres bool :=
  nbind (m_compare a r1 b) (fun x => if x then m_compare b r2 c else NOk false).

(* ------------------------------------------------------------------ *)
(* Literals *)

(* int(chars, base) on digits: the digit that a character stands for *)
Definition digit_val (c : N) : option Z :=
  if ((48 <=? c) && (c <=? 57))%N then Some (Z.of_N c - 48)
  else if ((65 <=? c) && (c <=? 70))%N then Some (Z.of_N c - 55)
  else if ((97 <=? c) && (c <=? 102))%N then Some (Z.of_N c - 87)
  else None.
Fixpoint int_of (base acc : Z) (cs : text) : option Z :=
  match cs with
  | [] => Some acc
  | c :: cs' =>
    match digit_val c with
    | Some d => if d <? base then int_of base (acc * base + d) cs' else None
    | None => None
    end
  end.
(* pseudocode_semantics.py:7057-7059  {dec_int_lit}; None: ValueError *)
Definition dec_lit (chars : text) : option mnum := option_map MInt (int_of 10 0 chars).
(* pseudocode_semantics.py:7101-7103  {hex_int_lit}: the pattern guarantees the 0x
   that int(_, 16) passes over *)
Definition hex_lit (chars : text) : option mnum := option_map MInt (int_of 16 0 (skipn 2 chars)).

(* str(n) for an int n >= 0: decimal digits, least significant first, the fuel
   being the number of bits *)
Fixpoint digits_rev (fuel : nat) (n : Z) : list Z :=
  match fuel with
  | O => [n]
  | S f => if n <? 10 then [n] else n mod 10 :: digits_rev f (n / 10)
  end.
Definition str_of (n : Z) : list Z := rev (digits_rev (Z.to_nat (Z.log2 n)) n).
(* s.strip('0') *)
Fixpoint lstrip0 (l : list Z) : list Z :=
  match l with d :: l' => if d =? 0 then lstrip0 l' else l | [] => [] end.
Definition strip0 (l : list Z) : list Z := rev (lstrip0 (rev (lstrip0 l))).
(* pseudocode_semantics.py:8147-8150
   number_of_significant_digits_in_decimal_representation_of; an int only (the
   shortest decimal representation of a float is not modelled: None) *)
Definition significant_digits (a : mnum) : option (nres Z) :=
  match a with
  | MInt z => Some (if z <? 0 then NAssert else NOk (Z.of_nat (length (strip0 (str_of z)))))
  | MFlt _ => None
  end.
(* pseudocode_semantics.py:8142-8145 *)
Definition at_most_20_digits (a : mnum) : option (nres bool) :=
  option_map (fun r => nbind r (fun k => NOk (k <=? 20))) (significant_digits a).

(* ------------------------------------------------------------------ *)
(* Number values *)

(* pseudocode_semantics.py:9198-9218  EL_Number: its val.  The magnitude of a
   finite Number is only ever a Python int. *)
Inductive number : Set := NaN | NegInfinity | PosInfinity | Finite (negative : bool) (magnitude : N).

(* pseudocode_semantics.py:9420-9429  the_Number_value_for *)
Definition number_value_for (a : mnum) : nres number :=
  let max_safe_integer := 2 ^ 53 - 1 in
  match a with
  | MInt z =>
    if (0 <=? z) && (z <? max_safe_integer) then NOk (Finite false (Z.to_N z))     (* 9423-9424 *)
    else if 2 ^ 1024 <=? z then NOk PosInfinity                                    (* 9426-9427 *)
    else NAssert                                                                   (* 9429 *)
  | MFlt k => if infinite <=? k then NOk PosInfinity else NAssert
  end.
