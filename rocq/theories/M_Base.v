(* Common vocabulary of the models: Python exceptions as values. *)
From Coq Require Export List Arith NArith ZArith Lia Bool.
Export ListNotations.

(* The ways in which a modelled Python function can fail.
   [OutOfFuel] is not a Python exception: it marks a modelled loop that has not
   finished within the fuel given to it. *)
Inductive exn : Set :=
| AssertionError
| KeyError
| IndexError
| TypeError
| AttributeError
| NameError
| ValueError
| UserError          (* an exception class declared by the project itself *)
| SystemExit         (* sys.exit *)
| OutOfFuel.

Inductive res (A : Type) : Type :=
| Ok (a : A)
| Err (e : exn).
Arguments Ok {A} a.
Arguments Err {A} e.

Definition bind {A B} (r : res A) (k : A -> res B) : res B :=
  match r with Ok a => k a | Err e => Err e end.

Notation "'do' x <- r ;; k" := (bind r (fun x => k))
  (at level 200, x pattern, r at level 100, k at level 200).

Definition assert_ (b : bool) : res unit := if b then Ok tt else Err AssertionError.

(* Python sequence slicing l[a:b] for non-negative a and b. *)
Definition slice {A} (a b : nat) (l : list A) : list A := firstn (b - a) (skipn a l).

(* Python's list.sort() / sorted(): a stable sort, here stable insertion sort
   with respect to a boolean "less or equal". *)
Section Sort.
  Context {A : Type} (le : A -> A -> bool).
  Fixpoint insert (x : A) (l : list A) : list A :=
    match l with
    | [] => [x]
    | y :: l' => if le x y then x :: y :: l' else y :: insert x l'
    end.
  Fixpoint isort (l : list A) : list A :=
    match l with
    | [] => []
    | x :: l' => insert x (isort l')
    end.
End Sort.

(* Text: a list of code points. *)
Definition text := list N.

(* Python's comparison of strings: lexicographic by code point. *)
Fixpoint text_leb (a b : text) : bool :=
  match a, b with
  | [], _ => true
  | _ :: _, [] => false
  | x :: a', y :: b' => if (x <? y)%N then true else if (y <? x)%N then false else text_leb a' b'
  end.

Fixpoint text_eqb (a b : text) : bool :=
  match a, b with
  | [], [] => true
  | x :: a', y :: b' => (x =? y)%N && text_eqb a' b'
  | _, _ => false
  end.
