(* Model of the hierarchy of Record schemas (records.py:177-297, 497-504) and of its uses in pseudocode_semantics.py:2503-2575. *)
From Coq Require Import Ascii String.
From Verif Require Import M_Base M_HTML.
Open Scope list_scope.
Notation length := List.length.

(* dictionaries with strings as keys *)
Fixpoint tget {A} (d : list (text * A)) (k : text) : option A :=
  match d with [] => None | (k', v) :: d' => if text_eqb k' k then Some v else tget d' k end.
Fixpoint tset {A} (d : list (text * A)) (k : text) (v : A) : list (text * A) :=
  match d with [] => [(k, v)] | (k', v') :: d' => if text_eqb k' k then (k, v) :: d' else (k', v') :: tset d' k v end.
Definition thas {A} (d : list (text * A)) (k : text) : bool := match tget d k with Some _ => true | None => false end.

(* records.py:226-244  RecordSchema; a schema is referred to by its number, in the order of creation; the declarations are numbers too *)
Record schema := mkSchema {
  s_name : text; s_super : option nat; s_level : nat; s_subs : list nat;
  s_fields : list (text * nat); s_methods : list (text * nat); s_defns : list (text * nat) }.
(* all the schemas; spec.RecordSchema_for_name_; the schema and the method named in a printed warning *)
Record st := mkSt { schemas : list schema; registry : list (text * nat); warnings : list (nat * text) }.

(* records.py:296 *)
Definition root_name : text := tx "Empty Record".
(* records.py:199-224 *)
Definition sub_to_super : list (text * text) := [
  (tx "Declarative Environment Record", tx "Environment Record");
  (tx "Object Environment Record", tx "Environment Record");
  (tx "Global Environment Record", tx "Environment Record");
  (tx "Function Environment Record", tx "Declarative Environment Record");
  (tx "Module Environment Record", tx "Declarative Environment Record");
  (tx "Synthetic Module Record", tx "Module Record");
  (tx "Cyclic Module Record", tx "Module Record");
  (tx "Source Text Module Record", tx "Cyclic Module Record") ].
(* records.py:295-297: after the creation of the root schema *)
Definition start : st := mkSt [mkSchema root_name None 0 [] [] [] []] [] [].

Definition get (s : st) (i : nat) : res schema := match nth_error (schemas s) i with Some x => Ok x | None => Err KeyError end.
Fixpoint set_nth {A} (l : list A) (n : nat) (a : A) : list A :=
  match l, n with [], _ => [] | _ :: l', 0 => a :: l' | x :: l', S n' => x :: set_nth l' n' a end.
Definition put (s : st) (i : nat) (x : schema) : st := mkSt (set_nth (schemas s) i x) (registry s) (warnings s).

(* records.py:241-244, given the super-schema: it gets one more sub-schema, the new schema is put under its name *)
Definition attach (s : st) (name : text) (sup : nat) : res (nat * st) :=
  do p <- get s sup ;;
  let i := length (schemas s) in
  let p' := mkSchema (s_name p) (s_super p) (s_level p) (s_subs p ++ [i]) (s_fields p) (s_methods p) (s_defns p) in
  let x := mkSchema name (Some sup) (1 + s_level p) [] [] [] [] in
  Ok (i, mkSt (set_nth (schemas s) sup p' ++ [x]) (tset (registry s) name i) (warnings s)).
(* records.py:177-192  ensure_RecordSchema (with RecordSchema.__init__); Python's recursion is bounded by fuel *)
Fixpoint ensure (fuel : nat) (s : st) (name : text) : res (nat * st) :=
  match fuel with
  | 0 => Err OutOfFuel
  | S f =>
    match tget (registry s) name with
    | Some i => Ok (i, s)
    | None =>
      if text_eqb name root_name then Ok (0, s)
      else
        let super_name := match tget sub_to_super name with Some n => n | None => root_name end in
        do (j, s1) <- ensure f s super_name ;;
        attach s1 name j
    end
  end.
(* the constructor called directly, with the name of a super-schema, as at static_types.py:1168-1169 *)
Definition construct (fuel : nat) (s : st) (name super_name : text) : res (nat * st) :=
  do (j, s1) <- ensure fuel s super_name ;; attach s1 name j.

(* records.py:282-288  self_and_supers: the schema, and its super-schemas up to the one below the root.  super_schema is None for the root *)
Fixpoint supers (fuel : nat) (s : st) (i : nat) : res (list nat) :=
  match fuel with
  | 0 => Err OutOfFuel
  | S f =>
    do x <- get s i ;;
    match s_super x with
    | None => Err AttributeError
    | Some j =>
      do y <- get s j ;;
      if text_eqb (s_name y) root_name then Ok []
      else do r <- supers f s j ;; Ok (j :: r)
    end
  end.
Definition self_and_supers (s : st) (i : nat) : res (list nat) := do r <- supers (length (schemas s)) s i ;; Ok (i :: r).
(* records.py:268-280  any(...): the rest of the chain is not asked for once one is found *)
Fixpoint declared_up (sel : schema -> list (text * nat)) (fuel : nat) (s : st) (i : nat) (name : text) : res bool :=
  match fuel with
  | 0 => Err OutOfFuel
  | S f =>
    do x <- get s i ;;
    if thas (sel x) name then Ok true
    else
      match s_super x with
      | None => Err AttributeError
      | Some j => do y <- get s j ;; if text_eqb (s_name y) root_name then Ok false else declared_up sel f s j name
      end
  end.
Definition somebody_declares_field (s : st) (i : nat) (name : text) : res bool := declared_up s_fields (length (schemas s)) s i name.
Definition somebody_declares_method (s : st) (i : nat) (name : text) : res bool := declared_up s_methods (length (schemas s)) s i name.
(* records.py:252-254 *)
Definition add_field (s : st) (i : nat) (name : text) (d : nat) : res st :=
  do b <- somebody_declares_field s i name ;;
  do _ <- assert_ (negb b) ;;
  do x <- get s i ;;
  Ok (put s i (mkSchema (s_name x) (s_super x) (s_level x) (s_subs x) (tset (s_fields x) name d) (s_methods x) (s_defns x))).
(* records.py:256-258 *)
Definition add_method (s : st) (i : nat) (name : text) (d : nat) : res st :=
  do b <- somebody_declares_method s i name ;;
  do _ <- assert_ (negb b) ;;
  do x <- get s i ;;
  Ok (put s i (mkSchema (s_name x) (s_super x) (s_level x) (s_subs x) (s_fields x) (tset (s_methods x) name d) (s_defns x))).
(* records.py:260-266 *)
Definition add_defn (s : st) (i : nat) (name : text) (d : nat) : res st :=
  do b <- somebody_declares_method s i name ;;
  let s1 := if b then s else mkSt (schemas s) (registry s) (warnings s ++ [(i, name)]) in
  do x <- get s1 i ;;
  do _ <- assert_ (negb (thas (s_defns x) name)) ;;
  Ok (put s1 i (mkSchema (s_name x) (s_super x) (s_level x) (s_subs x) (s_fields x) (s_methods x) (tset (s_defns x) name d))).

Fixpoint flatM {A B} (f : A -> res (list B)) (l : list A) : res (list B) :=
  match l with [] => Ok [] | a :: l' => do x <- f a ;; do y <- flatM f l' ;; Ok (x ++ y) end.
(* records.py:290-293  preorder_traverse_subtree *)
Fixpoint preorder (fuel : nat) (s : st) (i : nat) : res (list nat) :=
  match fuel with
  | 0 => Err OutOfFuel
  | S f => do x <- get s i ;; do r <- flatM (preorder f s) (s_subs x) ;; Ok (i :: r)
  end.
Definition subtree (s : st) (i : nat) : res (list nat) := preorder (length (schemas s)) s i.
(* records.py:497-504  get_depth_of_subtree *)
Fixpoint depths (f : nat -> res nat) (l : list nat) : res (list nat) :=
  match l with [] => Ok [] | a :: l' => do x <- f a ;; do y <- depths f l' ;; Ok (x :: y) end.
Fixpoint depth (fuel : nat) (s : st) (i : nat) : res nat :=
  match fuel with
  | 0 => Err OutOfFuel
  | S f =>
    do x <- get s i ;;
    match s_subs x with
    | [] => Ok 1
    | subs => do ds <- depths (depth f s) subs ;; Ok (1 + list_max ds)
    end
  end.
Definition get_depth_of_subtree (s : st) (i : nat) : res nat := depth (length (schemas s)) s i.
(* pseudocode_semantics.py:2565-2576  each_record_schema_that_declares_op *)
Fixpoint declarers (fuel : nat) (s : st) (method : text) (i : nat) : res (list nat) :=
  match fuel with
  | 0 => Err OutOfFuel
  | S f => do x <- get s i ;; if thas (s_methods x) method then Ok [i] else flatM (declarers f s method) (s_subs x)
  end.
Definition schemas_that_declare (s : st) (method : text) (base : nat) : res (list nat) := declarers (length (schemas s)) s method base.

(* pseudocode_semantics.py:2506-2514  d_from_spec, with the declaration in the place of its type *)
Definition update {A} (d : list (text * A)) (l : list (text * A)) : list (text * A) := fold_left (fun d '(k, v) => tset d k v) l d.
Fixpoint fields_along (s : st) (l : list nat) (d : list (text * nat)) : res (list (text * nat)) :=
  match l with [] => Ok d | i :: l' => do x <- get s i ;; fields_along s l' (update d (s_fields x)) end.
Definition fields_of (s : st) (i : nat) : res (list (text * nat)) := do l <- self_and_supers s i ;; fields_along s (rev l) [].

(* static_types.py:305-312  is A's schema the same as B's, or a descendant of it *)
Definition is_sub_schema (s : st) (a b : nat) : res bool := do l <- self_and_supers s a ;; Ok (existsb (Nat.eqb b) l).

(* what is done with the schemas, one after the other *)
Inductive op := OEnsure (name : text) | OConstruct (name super_name : text) | OField (name f : text) (d : nat) | OMethod (name m : text) (d : nat) | ODefn (name m : text) (d : nat).
Definition find_schema (s : st) (name : text) : res nat := match tget (registry s) name with Some i => Ok i | None => Err KeyError end.
(* depth of the recursion: four, the longest chain in sub_to_super being of three *)
Definition enough : nat := length sub_to_super + 2.
Definition do_op (s : st) (o : op) : res st :=
  match o with
  | OEnsure n => do (_, s1) <- ensure enough s n ;; Ok s1
  | OConstruct n p => do (_, s1) <- construct enough s n p ;; Ok s1
  | OField n f d => do i <- find_schema s n ;; add_field s i f d
  | OMethod n m d => do i <- find_schema s n ;; add_method s i m d
  | ODefn n m d => do i <- find_schema s n ;; add_defn s i m d
  end.
