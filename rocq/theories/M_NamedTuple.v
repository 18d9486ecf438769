(* Model of mynamedtuple.py. Field values are abstract, with Python's == (total)
   and < (which may raise TypeError for incomparable values). *)
From Verif Require Import M_Base.

Section NT.
  Context {V : Type} (veq : V -> V -> bool) (vlt : V -> V -> res bool).

  (* an element of the underlying tuple: the type-name string, or a field value *)
  Inductive elem := ETag (name : text) | EVal (v : V).

  (* mynamedtuple.py:9, 31-32: a tuple type: its name and its field names *)
  Record tuptype := mkTT { tt_name : text; tt_fields : list text }.
  Definition name_T : text := [84%N].
  Definition afield_names (tt : tuptype) : list text := name_T :: tt_fields tt.

  (* mynamedtuple.py:34-64  The generated class exists only if the argument
     names of __new__ (with _cls) are distinct, else exec raises SyntaxError.
     (Names that are not identifiers also give SyntaxError; not modelled.) *)
  Definition name_cls : text := [95;99;108;115]%N.
  Fixpoint has_dup (l : list text) : bool :=
    match l with [] => false | x :: l' => existsb (text_eqb x) l' || has_dup l' end.
  Definition declare (name : text) (fields : list text) : res tuptype :=
    if has_dup (name_cls :: fields) then Err UserError else Ok (mkTT name fields).

  (* 40-41  __new__ *)
  Definition construct (tt : tuptype) (args : list V) : res (list elem) :=
    if length args =? length (tt_fields tt) then Ok (ETag (tt_name tt) :: map EVal args)
    else Err TypeError.

  (* 56-57  the properties, assigned in order: a later one of the same name wins *)
  Fixpoint last_index (i : nat) (l : list text) (name : text) : option nat :=
    match l with
    | [] => None
    | x :: l' =>
      match last_index (S i) l' name with
      | Some k => Some k
      | None => if text_eqb x name then Some i else None
      end
    end.
  Definition get_attr (tt : tuptype) (t : list elem) (name : text) : res elem :=
    match last_index 0 (afield_names tt) name with
    | None => Err AttributeError
    | Some i => match nth_error t i with Some e => Ok e | None => Err IndexError end
    end.

  (* 46-47, 53  items() *)
  Definition items (tt : tuptype) (t : list elem) : list (text * res elem) :=
    map (fun n => (n, get_attr tt t n)) (afield_names tt).

  (* Python's comparison of elements: a string and a field value are compared
     through the value-level operations, with the string injected by [inj]. *)
  Variable inj : text -> V.
  Definition val (e : elem) : V := match e with ETag n => inj n | EVal v => v end.
  Definition eeq (a b : elem) : bool :=
    match a, b with
    | ETag x, ETag y => text_eqb x y
    | _, _ => veq (val a) (val b)
    end.
  Definition elt (a b : elem) : res bool :=
    match a, b with
    | ETag x, ETag y => Ok (text_leb x y && negb (text_eqb x y))
    | _, _ => vlt (val a) (val b)
    end.

  (* tuple.__eq__ and tuple.__lt__ (the class inherits from tuple, line 37) *)
  Fixpoint tup_eq (a b : list elem) : bool :=
    match a, b with
    | [], [] => true
    | x :: a', y :: b' => eeq x y && tup_eq a' b'
    | _, _ => false
    end.
  Fixpoint tup_lt (a b : list elem) : res bool :=
    match a, b with
    | [], [] => Ok false
    | [], _ :: _ => Ok true
    | _ :: _, [] => Ok false
    | x :: a', y :: b' => if eeq x y then tup_lt a' b' else elt x y
    end.
End NT.
