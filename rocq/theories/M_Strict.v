(* Model of is_strict and the directive prologue, pseudocode_semantics.py. *)
From Verif Require Import M_Base.

(* the symbols that matter; others by whether their names end in List, in Item or in neither *)
Inductive psym :=
| ModuleBody | ClassDeclaration | ClassExpression | Script
| FunctionDeclaration | FunctionExpression | GeneratorDeclaration | GeneratorExpression
| AsyncFunctionDeclaration | AsyncFunctionExpression | AsyncGeneratorDeclaration | AsyncGeneratorExpression
| MethodDefinition | ArrowFunction | AsyncArrowFunction
| ConciseBody | AsyncConciseBody | ExpressionBody | FunctionBody | GeneratorBody | AsyncFunctionBody | AsyncGeneratorBody
| GeneratorMethod | AsyncMethod | AsynGeneratorMethod | AsyncGeneratorMethod    (* AsynGeneratorMethod: as spelled in line 13076 *)
| FormalParameters | UniqueFormalParameters
| StatementList | StatementListItem | ModuleItem | ExpressionStatement | StringLiteral
| OtherList (n : nat) | OtherItem (n : nat) | OtherSym (n : nat).
Definition psym_eq_dec (a b : psym) : {a = b} + {a <> b}.
Proof. decide equality; apply Nat.eq_dec. Defined.
Definition psym_eqb (a b : psym) : bool := if psym_eq_dec a b then true else false.
Definition pmem (a : psym) (l : list psym) : bool := existsb (psym_eqb a) l.
Definition ends_List (s : psym) : bool := match s with StatementList | OtherList _ => true | _ => false end.
Definition ends_Item (s : psym) : bool := match s with StatementListItem | ModuleItem | OtherItem _ => true | _ => false end.

(* parse nodes: symbol, text, children *)
Inductive pnode := PN (symbol : psym) (ptext : text) (children : list pnode).
Definition symbol (n : pnode) : psym := match n with PN s _ _ => s end.
Definition ptext (n : pnode) : text := match n with PN _ t _ => t end.
Definition children (n : pnode) : list pnode := match n with PN _ _ cs => cs end.
(* l[-1] and l[-2] *)
Definition last1 {A} (l : list A) : res A := match rev l with x :: _ => Ok x | [] => Err IndexError end.
Definition last2 {A} (l : list A) : res A := match rev l with _ :: x :: _ => Ok x | _ => Err IndexError end.

(* es_parser.py:2081-2088  unit_derives_a *)
Fixpoint unit_derives_a (n : pnode) (s : psym) : option pnode :=
  match n with
  | PN s' t cs =>
    if psym_eqb s' s then Some n
    else match cs with
         | [c] => unit_derives_a c s
         | _ => None
         end
  end.
(* pseudocode_semantics.py:13165-13180  each_item_in_left_recursive_list (all its assertions precede the first item yielded) *)
Fixpoint each_item_in_left_recursive_list (n : pnode) : res (list pnode) :=
  match n with
  | PN s _ cs =>
    do _ <- assert_ (ends_List s) ;;
    match cs with
    | [item] => do _ <- assert_ (ends_Item (symbol item)) ;; Ok [item]
    | [sublist; item] =>
      do _ <- assert_ (ends_List (symbol sublist)) ;;
      do _ <- assert_ (ends_Item (symbol item)) ;;
      do r <- each_item_in_left_recursive_list sublist ;;
      Ok (r ++ [item])
    | _ => Err AssertionError
    end
  end.
(* pseudocode_semantics.py:13117-13124  has_the_shape_of_a_Directive_Prologue_item *)
Definition directive_literal (item : pnode) : res (option pnode) :=
  do _ <- assert_ (pmem (symbol item) [StatementListItem; ModuleItem]) ;;
  match unit_derives_a item ExpressionStatement with
  | None => Ok None
  | Some es =>
    match children es with
    | [e; _] => Ok (unit_derives_a e StringLiteral)
    | _ => Err ValueError
    end
  end.
(* "use strict" in double and single quotes *)
Definition use_strict (q : N) : text := [q; 117; 115; 101; 32; 115; 116; 114; 105; 99; 116; q]%N.
(* pseudocode_semantics.py:13148-13161 *)
Fixpoint look_for_USD (items : list pnode) : res bool :=
  match items with
  | [] => Ok false
  | item :: items' =>
    do _ <- assert_ (psym_eqb (symbol item) StatementListItem) ;;
    do l <- directive_literal item ;;
    match l with
    | Some lit => if text_eqb (ptext lit) (use_strict 34) || text_eqb (ptext lit) (use_strict 39) then Ok true else look_for_USD items'
    | None => Ok false
    end
  end.
(* pseudocode_semantics.py:13107-13163  begins_with_a_DP_that_contains_a_USD *)
Definition begins_with_USD (n : pnode) : res bool :=
  do _ <- assert_ (pmem (symbol n) [Script; ModuleBody; FunctionBody; GeneratorBody; ConciseBody; AsyncConciseBody]) ;;
  do _ <- assert_ (negb (psym_eqb (symbol n) ModuleBody)) ;;          (* assert NYI *)
  do b <- (if pmem (symbol n) [ConciseBody; AsyncConciseBody] then
             match children n with
             | [c] => do _ <- assert_ (psym_eqb (symbol c) ExpressionBody) ;; Ok None
             | [_; fnbody; _] => do _ <- assert_ (pmem (symbol fnbody) [FunctionBody; AsyncFunctionBody]) ;; Ok (Some fnbody)
             | _ => Err AssertionError
             end
           else Ok (Some n)) ;;
  match b with
  | None => Ok false
  | Some n' =>
    do _ <- assert_ (pmem (symbol n') [Script; FunctionBody; GeneratorBody]) ;;
    match unit_derives_a n' StatementList with
    | None => Ok false
    | Some sl => do items <- each_item_in_left_recursive_list sl ;; look_for_USD items
    end
  end.
(* pseudocode_semantics.py:13066-13084  the body of a function *)
Definition function_body (n : pnode) : res pnode :=
  if pmem (symbol n) [ArrowFunction; AsyncArrowFunction] then
    do body <- last1 (children n) ;;
    do _ <- assert_ (pmem (symbol body) [ConciseBody; AsyncConciseBody]) ;; Ok body
  else if psym_eqb (symbol n) MethodDefinition then
    match children n with
    | [cnode] =>
      do _ <- assert_ (pmem (symbol cnode) [GeneratorMethod; AsyncMethod; AsynGeneratorMethod]) ;;
      do body <- last2 (children cnode) ;;
      do _ <- assert_ (pmem (symbol body) [GeneratorBody; AsyncFunctionBody; AsyncGeneratorBody]) ;; Ok body
    | cs =>
      do body <- last2 cs ;;
      do _ <- assert_ (psym_eqb (symbol body) FunctionBody) ;; Ok body
    end
  else
    do body <- last2 (children n) ;;
    do _ <- assert_ (pmem (symbol body) [FunctionBody; GeneratorBody]) ;; Ok body.
Definition function_symbols : list psym :=
  [FunctionDeclaration; FunctionExpression; GeneratorDeclaration; GeneratorExpression;
   AsyncFunctionDeclaration; AsyncFunctionExpression; AsyncGeneratorDeclaration; AsyncGeneratorExpression;
   MethodDefinition; ArrowFunction; AsyncArrowFunction].
(* the part of is_strict before looking outside *)
Definition own_strict (n : pnode) : res bool :=
  if pmem (symbol n) [ModuleBody; ClassDeclaration; ClassExpression] then Ok true
  else if psym_eqb (symbol n) Script then begins_with_USD n
  else if pmem (symbol n) function_symbols then do body <- function_body n ;; begins_with_USD body
  else Ok false.
(* a node with what is outside of it: its parent, or, for a root, the covering thing if it has one *)
Inductive place := At (n : pnode) (up : outside)
with outside := Root | Covered_by (p : place) | Parent (p : place).
(* pseudocode_semantics.py:13012-13105  is_strict *)
Fixpoint is_strict (p : place) : res bool :=
  match p with
  | At n up =>
    do b <- own_strict n ;;
    if b then Ok true
    else match up with
         | Parent p' => is_strict p'
         | Root => do _ <- assert_ (negb (pmem (symbol n) [FormalParameters; UniqueFormalParameters])) ;; Ok false
         | Covered_by p' => do _ <- assert_ (negb (pmem (symbol n) [FormalParameters; UniqueFormalParameters])) ;; is_strict p'
         end
  end.
