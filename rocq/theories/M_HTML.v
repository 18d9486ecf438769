(* Model of the HTML parser, HTML.py:28-185, and of the node lookup, Pseudocode.py:117-129. *)
From Coq Require Import Ascii String.
From Verif Require Import M_Base.
Open Scope list_scope.

(* a string literal as text *)
Fixpoint tx (x : string) : text :=
  match x with
  | EmptyString => []
  | String c x' => N_of_ascii c :: tx x'
  end.

(* HTML.py:189-195 with the positions set by 74-76; [inner] is None as long as inner_start_posn and
   inner_end_posn are not set.  Attributes are left out. *)
Inductive hnode := HNode (start_posn end_posn : nat) (element_name : text) (inner : option (nat * nat)) (children : list hnode).
Definition h_start (n : hnode) := let '(HNode s _ _ _ _) := n in s.
Definition h_end (n : hnode) := let '(HNode _ e _ _ _) := n in e.
Definition h_name (n : hnode) := let '(HNode _ _ x _ _) := n in x.
Definition h_inner (n : hnode) := let '(HNode _ _ _ i _) := n in i.
Definition h_children (n : hnode) := let '(HNode _ _ _ _ c) := n in c.

(* What the regular expressions at HTML.py:91-158 recognize at a position. *)
Inductive event := Literal | StartTag (name : text) | EndTag (name : text) | Comment | Decl.

(* HTML.py:40 *)
Definition complete_child (name : text) : bool :=
  match name with
  | c :: _ => (c =? 35)%N                                                       (* startswith('#') *)
  | [] => false
  end || existsb (text_eqb name) [tx "html"; tx "meta"; tx "link"; tx "img"; tx "br"].

Section HTML.
  Variable len : nat.                                  (* len(shared.spec_text) *)
  (* the first pattern that matches at a position, and the position after the match (for a start tag, after
     the closing '>', HTML.py:98-117); None: HTML.py:115 or 173 fatal_error *)
  Variable lex : nat -> option (event * nat).
  (* HTML.py:126  position of "</style>" at or after the given position *)
  Variable style_end : nat -> option nat.

  (* An open element: start, end of the start tag, name, children so far.  The list of frames, innermost
     first, stands for current_open_node and its chain of parents. *)
  Record frame := mkFrame { f_start : nat; f_end : nat; f_name : text; f_children : list hnode }.
  Record pstate := mkP { posn : nat; top : frame; outer : list frame; skipped : list nat }.

  Definition push_child (f : frame) (c : hnode) : frame := mkFrame (f_start f) (f_end f) (f_name f) (f_children f ++ [c]).

  (* HTML.py:35-46 *)
  Definition add_child (s e : nat) (name : text) (st : pstate) : pstate :=
    if complete_child name
    then mkP (posn st) (push_child (top st) (HNode s e name None [])) (outer st) (skipped st)
    else mkP (posn st) (mkFrame s e name []) (top st :: outer st) (skipped st).

  (* HTML.py:48-78; a mismatched end tag is reported (the positions reported are recorded in [skipped]) and skipped.
     Closing the document node would make current_open_node None, so that its next use raises AttributeError. *)
  Definition close_open_child (s e : nat) (name : text) (st : pstate) : res pstate :=
    if text_eqb name (f_name (top st)) then
      match outer st with
      | [] => Err AttributeError
      | p :: ps =>
        let f := top st in
        Ok (mkP (posn st) (push_child p (HNode (f_start f) e (f_name f) (Some (f_end f, s)) (f_children f))) ps (skipped st))
      end
    else Ok (mkP (posn st) (top st) (outer st) (skipped st ++ [s])).

  Definition at_posn (p : nat) (st : pstate) : pstate := mkP p (top st) (outer st) (skipped st).

  (* HTML.py:165-173  one round of the main loop, with the functions at 91-158 *)
  Definition step (st : pstate) : res pstate :=
    let p := posn st in
    match lex p with
    | None => Err SystemExit
    | Some (Literal, e) => Ok (at_posn e (add_child p e (tx "#LITERAL") st))
    | Some (Comment, e) => Ok (at_posn e (add_child p e (tx "#COMMENT") st))
    | Some (Decl, e) => Ok (at_posn e (add_child p e (tx "#DECL") st))
    | Some (EndTag name, e) => do st' <- close_open_child p e name st ;; Ok (at_posn e st')
    | Some (StartTag name, e) =>
      let st' := add_child p e name st in
      if text_eqb name (tx "style") then                                          (* 125-130 *)
        match style_end e with
        | None => Err SystemExit
        | Some q => Ok (at_posn q (add_child e q (tx "#LITERAL") st'))
        end
      else Ok (at_posn e st')
    end.

  (* HTML.py:166-185 *)
  Fixpoint loop (fuel : nat) (st : pstate) : res (hnode * list nat) :=
    match fuel with
    | O => Err OutOfFuel
    | S f =>
      if posn st <? len then do st' <- step st ;; loop f st'
      else if text_eqb (f_name (top st)) (tx "#DOC")
      then Ok (HNode (f_start (top st)) (f_end (top st)) (f_name (top st)) None (f_children (top st)), skipped st)
      else Err SystemExit                                                         (* 178-183 *)
    end.

  (* HTML.py:28-185; every round moves posn forward *)
  Definition parse : res (hnode * list nat) :=
    loop (S len) (mkP 0 (mkFrame 0 len (tx "#DOC") []) [] []).
End HTML.

(* Pseudocode.py:117-129 *)
Fixpoint find_deepest (posn : nat) (n : hnode) : res hnode :=
  let '(HNode s e _ _ cs) := n in
  if (s <=? posn) && (posn <=? e) then
    match cs with
    | [] => Ok n
    | _ =>
      (fix first (cs : list hnode) : res hnode :=
         match cs with
         | [] => Err AssertionError
         | c :: cs' => if (h_start c <=? posn) && (posn <=? h_end c) then find_deepest posn c else first cs'
         end) cs
    end
  else Err AssertionError.
