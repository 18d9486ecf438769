(* Model of the pseudocode tokenizer, Pseudocode_Parser.py:41-88, 256-283. *)
From Verif Require Import M_Base.

(* Token kinds: the end token, the newline-and-indentation token, the two generated ones,
   and all other token productions, numbered. *)
Inductive kind := KEos | KNlai | KIndent | KOutdent | KOther (k : nat).
(* (prod, s_posn, e_posn); the text is determined by the positions, Pseudocode_Parser.py:80,84 *)
Notation tok := (kind * nat * nat)%type.

Section Tok.
  Variable s : text.                              (* shared.spec_text *)
  Variable end_posn : nat.
  (* the remaining alternatives of the regular expression (Pseudocode_Parser.py:116-204), at a position:
     which token production matches and where the match ends *)
  Variable other : nat -> option (nat * nat).

  Definition char_is (c : N) (p : nat) : bool :=
    match nth_error s p with Some x => (x =? c)%N | None => false end.

  (* the greedy \x20* of {nlai}, Pseudocode_Parser.py:113, limited by end_posn *)
  Fixpoint skip_spaces (n p : nat) : nat :=
    match n with
    | O => p
    | S n' => if char_is 32 p then skip_spaces n' (S p) else p
    end.

  (* one application of self.reo.match(s, posn, end_posn), Pseudocode_Parser.py:45.
     The alternatives are tried in order: {_eos_} is `$`, which matches at the end and also just before
     a final newline (110); {nlai} is a newline and all spaces after it (113); no other alternative
     begins with a newline. *)
  Definition match_at (p : nat) : option (kind * nat) :=
    if (p =? end_posn) || ((S p =? end_posn) && char_is 10 p) then Some (KEos, p)
    else if (p <? end_posn) && char_is 10 p then Some (KNlai, skip_spaces (end_posn - S p) (S p))
    else match other p with Some (k, e) => Some (KOther k, e) | None => None end.

  (* Pseudocode_Parser.py:66-80 for an {nlai} token at p..e; Z because the change may be negative.
     Python's % and // round towards minus infinity, as Z.modulo and Z.div do. *)
  Definition dents (prev : Z) (p e : nat) : res (list tok * Z) :=
    let this := (Z.of_nat (e - p) - 1)%Z in                                     (* 66 *)
    let change := (this - prev)%Z in
    do _ <- assert_ (change mod 2 =? 0)%Z ;;                                    (* 70 *)
    let n := (change / 2)%Z in
    let k := if (0 <? n)%Z then KIndent else KOutdent in                        (* 72-77 *)
    Ok (repeat (k, p, p) (Z.to_nat (Z.abs n)), this).

  (* Pseudocode_Parser.py:44-88 with generate_dent_tokens = True; [first] says that no token has been
     found yet, in which case the error report itself fails: tok_s_posn is unbound (49) *)
  Fixpoint tokenize_loop (fuel : nat) (first : bool) (prev : Z) (p : nat) : res (list tok) :=
    match fuel with
    | O => Err OutOfFuel
    | S f =>
      match match_at p with
      | None => if first then Err NameError else Err AssertionError             (* 46-51 *)
      | Some (KEos, e) => Ok [(KEos, p, e)]                                     (* 86 *)
      | Some (KNlai, e) =>
        do (ds, this) <- dents prev p e ;;
        do rest <- tokenize_loop f false this e ;;
        Ok (ds ++ (KNlai, p, e) :: rest)
      | Some (k, e) =>
        do rest <- tokenize_loop f false prev e ;;
        Ok ((k, p, e) :: rest)
      end
    end.
  Definition tokenize (fuel start_posn : nat) (initial_indentation : nat) : res (list tok) :=
    tokenize_loop fuel true (Z.of_nat initial_indentation) start_posn.

  (* Pseudocode_Parser.py:256-264: going back from start_posn to the start of its line *)
  Fixpoint line_start (p : nat) : nat :=
    match p with
    | O => O
    | S p' => if char_is 10 p' then p else line_start p'
    end.
  (* Pseudocode_Parser.py:266-272; n positions left to look at *)
  Fixpoint indent_end (n p : nat) : res nat :=
    match n with
    | O => Err AssertionError
    | S n' =>
      match nth_error s p with
      | None => Err IndexError
      | Some c => if (c =? 32)%N then indent_end n' (S p) else Ok p
      end
    end.
  (* Pseudocode_Parser.py:254-274 *)
  Definition this_line_indentation (start_posn : nat) : res nat :=
    let b := line_start start_posn in
    do e <- indent_end (S start_posn - b) b ;;
    Ok (e - b).
End Tok.
