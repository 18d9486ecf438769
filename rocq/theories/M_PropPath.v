(* Model of the paths of properties: Section.py:3366-3415 and intrinsics.py:99-134. *)
From Coq Require Import Ascii String.
From Verif Require Import M_Base M_HTML M_Shared M_Records M_Refs.
Open Scope list_scope.
Open Scope nat_scope.
Notation length := List.length.

(* t = a m b; what is between a beginning and an end *)
Definition between (a b t : text) : option text :=
  if is_prefix a t && is_prefix (rev b) (rev t) && (length a + length b <=? length t)
  then Some (slice (length a) (length t - length b) t) else None.
Definition no_newline (t : text) : bool := forallb (fun c => negb (N.eqb c 10)) t.
Fixpoint first_some {A B} (f : A -> option B) (l : list A) : option B :=
  match l with [] => None | x :: l' => match f x with Some y => Some y | None => first_some f l' end end.

Section Words.
Variable uniword : N -> bool.   (* which characters beyond ASCII are \w *)
(* \w+ *)
Definition words (t : text) : bool := negb (length t =? 0) && forallb (wordc uniword) t.
(* %Symbol\.\w+% *)
Definition sym_key (t : text) : bool := match between (tx "%Symbol.") (tx "%") t with Some m => words m | None => false end.

(* Section.py:3405-3407  pystr_to_spec_String_literal *)
Definition pystr_to_spec_String_literal (p : text) : res text :=
  do _ <- assert_ (negb (existsb (N.eqb 34) p)) ;; Ok (tx "*""" ++ p ++ tx """*").
(* Section.py:3409-3410  destarquote: '$' also matches before a final newline *)
Definition destarquote (t : text) : text :=
  match between (tx "*""") (tx """*") t with
  | Some m => if no_newline m then m else t
  | None => match between (tx "*""") (tx """*" ++ [10%N]) t with
            | Some m => if no_newline m then m ++ [10%N] else t
            | None => t end
  end.
(* Section.py:3412-3413  detick *)
Definition detick (t : text) : text := str_replace [96%N] [] t.

(* Section.py:3372: (%\w+%|\w+)(\.\w+| ?\[ ?%Symbol\.\w+% ?\])*; from left to right: no word
   character can follow a word, so nothing is gained by going back *)
Definition eat (p t : text) : option text := if is_prefix p t then Some (skipn (length p) t) else None.
Definition opt_space (t : text) : text := match t with c :: t' => if (c =? 32)%N then t' else t | [] => t end.
Fixpoint after_word (t : text) : text := match t with c :: t' => if wordc uniword c then after_word t' else t | [] => [] end.
Definition scan_name (t : text) : option text :=
  match t with c :: t' => if wordc uniword c then Some (after_word t') else None | [] => None end.
Definition and_then {A B} (x : option A) (f : A -> option B) : option B := match x with Some a => f a | None => None end.
Definition scan_comp (t : text) : option text :=
  match eat (tx ".") t with
  | Some r => scan_name r
  | None => and_then (eat (tx "[") (opt_space t)) (fun r => and_then (eat (tx "%Symbol.") (opt_space r)) (fun r =>
            and_then (scan_name r) (fun r => and_then (eat (tx "%") r) (fun r => eat (tx "]") (opt_space r)))))
  end.
Fixpoint scan_comps (fuel : nat) (t : text) : option nat :=
  match t with
  | [] => Some 0
  | _ => match fuel with 0 => None | S f => and_then (scan_comp t) (fun r => and_then (scan_comps f r) (fun n => Some (S n))) end
  end.
Definition scan_path (t : text) : option nat :=
  and_then (match eat (tx "%") t with Some r => and_then (scan_name r) (eat (tx "%")) | None => scan_name t end)
    (fun r => scan_comps (length r) r).
(* Section.py:3384: \.(\w+)| ?\[ ?(%Symbol\.\w+%) ?\] as a whole: g3 or g4 *)
Inductive last_g : Set := G3 (w : text) | G4 (s : text).
Definition drop_end (t : text) : text := rev (opt_space (rev t)).
Definition last_comp (t : text) : option last_g :=
  match between (tx ".") [] t with
  | Some m => if words m then Some (G3 m) else None
  | None => match between (tx "[") (tx "]") (opt_space t) with
            | Some m => let k := drop_end (opt_space m) in if sym_key k then Some (G4 k) else None
            | None => None end
  end.
(* Section.py:3384: (.+?) takes as little as possible *)
Definition split_last (t : text) : option (text * last_g) :=
  first_some (fun i => if no_newline (firstn i t) then and_then (last_comp (skipn i t)) (fun g => Some (firstn i t, g)) else None) (seq 1 (length t)).
(* Section.py:3366-3391  split_prop_path *)
Definition split_prop_path (path : text) : res (option text * text) :=
  if sym_key path then Ok (None, path)
  else if match between (tx "*""") (tx """*") path with Some m => words m | None => false end then Ok (None, path)
  else match scan_path path with
       | None => Err AssertionError
       | Some 0 => do _ <- assert_ (words path) ;; do k <- pystr_to_spec_String_literal path ;; Ok (None, k)
       | Some (S _) =>
         match split_last path with
         | None => Err AttributeError
         | Some (g1, G3 w) => do k <- pystr_to_spec_String_literal w ;; Ok (Some g1, k)
         | Some (g1, G4 s) => Ok (Some g1, s)
         end
       end.

(* intrinsics.py:122-123: (.+)(\.\w+) takes as much as possible *)
Definition split_dot (t : text) : option (text * text) :=
  first_some (fun i => if no_newline (firstn i t) && match between (tx ".") [] (skipn i t) with Some m => words m | None => false end
                       then Some (firstn i t, skipn i t) else None) (rev (seq 1 (length t))).
(* intrinsics.py:127: (.+) \[ (%Symbol\.\w+%) \] *)
Definition split_sym (t : text) : option (text * text) :=
  first_some (fun i => if no_newline (firstn i t)
                       then and_then (between (tx " [ ") (tx " ]") (skipn i t)) (fun k => if sym_key k then Some (firstn i t, k) else None)
                       else None) (rev (seq 1 (length t))).
(* intrinsics.py:99-134  normalize_property_path; fuel: the head is shorter than the path *)
Fixpoint normalize (fuel : nat) (path : text) : res text :=
  match fuel with
  | 0 => Err OutOfFuel
  | S f =>
    if text_eqb path (tx "the prototype of generator objects") then Ok (tx "GeneratorPrototype")
    else if text_eqb path (tx "the prototype of async generator objects") then Ok (tx "AsyncGeneratorPrototype")
    else if words path then Ok path
    else match (match between (tx "%") (tx "%") path with Some m => if words m then Some m else None | None => None end) with
         | Some m => Ok m
         | None =>
           match split_dot path with
           | Some (h, tl) => do x <- normalize f h ;; Ok (x ++ tl)
           | None =>
             match split_sym path with
             | Some (h, k) => do x <- normalize f h ;; Ok (x ++ tx "[" ++ k ++ tx "]")
             | None => Err AssertionError
             end
           end
         end
  end.
Definition normalize_property_path (path : text) : res text := normalize (S (length path)) path.

(* Section.py:3395-3403  attr_string_to_dict.  str.split(', ') *)
Fixpoint split_go (sep : text) (skip : nat) (acc : text) (t : text) : list text :=
  match t with
  | [] => [rev acc]
  | c :: t' =>
    match skip with
    | S k => split_go sep k acc t'
    | 0 => if is_prefix sep t then rev acc :: split_go sep (length sep - 1) [] t' else split_go sep 0 (c :: acc) t'
    end
  end.
Definition split_on (sep t : text) : list text := split_go sep 0 [] t.
(* (\[\[\w+\]\]): (.+); the name cannot contain a bracket *)
Definition field_of (f : text) : res (text * text) :=
  match eat (tx "[[") f with
  | None => Err AttributeError
  | Some r =>
    match scan_name r with
    | None => Err AttributeError
    | Some r' =>
      match eat (tx "]]: ") r' with
      | Some v => if negb (length v =? 0) && no_newline v then Ok (firstn (length f - length v - 2) f, v) else Err AttributeError
      | None => Err AttributeError
      end
    end
  end.
Fixpoint fields_of (l : list text) : res (list (text * text)) :=
  match l with [] => Ok [] | f :: l' => do x <- field_of f ;; do xs <- fields_of l' ;; Ok (x :: xs) end.
(* dict(pairs): a later pair replaces the value of an earlier one *)
Definition attr_string_to_dict (st : text) : res (list (text * text)) :=
  match between (tx "{ ") (tx " }") st with
  | Some m => if negb (length m =? 0) && no_newline m
              then do ps <- fields_of (split_on (tx ", ") m) ;; Ok (fold_left (fun d p => tset d (fst p) (snd p)) ps [])
              else Err AssertionError
  | None => Err AssertionError
  end.
End Words.
