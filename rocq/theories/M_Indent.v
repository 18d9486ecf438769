(* Model of analyze_spec.py:103-284: check_indentation. *)
From Coq Require Import Ascii String.
From Verif Require Import M_Base M_HTML M_Layout.
Open Scope list_scope.
Notation length := List.length.

(* HTML.py:189-197, 265-275: an element: name, start_posn, end_posn, inner_start_posn, inner_end_posn, whether
   block_child_element_names is not empty, whether 'br' is among inline_child_element_names, the attribute class, the children *)
Inductive elem := Elem (ename : text) (sp ep isp iep : nat) (block br : bool) (cls : option text) (kids : list elem).
Definition ename (n : elem) := let '(Elem e _ _ _ _ _ _ _ _) := n in e.
Definition sp (n : elem) := let '(Elem _ a _ _ _ _ _ _ _) := n in a.
Definition ep (n : elem) := let '(Elem _ _ a _ _ _ _ _ _) := n in a.
Definition isp (n : elem) := let '(Elem _ _ _ a _ _ _ _ _) := n in a.
Definition iep (n : elem) := let '(Elem _ _ _ _ a _ _ _ _) := n in a.
Definition cls (n : elem) := let '(Elem _ _ _ _ _ _ _ c _) := n in c.
Definition kids (n : elem) := let '(Elem _ _ _ _ _ _ _ _ c) := n in c.

(* analyze_spec.py:144, 268 | 146 | 274 *)
Inductive what := Expected (want got : nat) | NotFirst (name : text) | ExpectedLess (top got : nat).
Definition msg := (nat * what)%type.

(* str.isspace for one character, \s *)
Definition py_space (c : N) : bool :=
  existsb (fun r => (fst r <=? c)%N && (c <=? snd r)%N)
    [(9, 13); (28, 32); (133, 133); (160, 160); (5760, 5760); (8192, 8202); (8232, 8233); (8239, 8239); (8287, 8287); (12288, 12288)]%N.

(* analyze_spec.py:259  the expression: a newline, any number of spaces (the group), a character that is not whitespace *)
Definition try_line (s : text) : option nat :=
  match s with
  | c :: s1 =>
      if (c =? 10)%N then
        let k := count_while is_space s1 in
        match skipn k s1 with d :: _ => if py_space d then None else Some (k + 2) | [] => None end
      else None
  | [] => None
  end.
(* analyze_spec.py:257-261: the indentation and the position of the first other character, for each line *)
Definition lines_between (s : text) (a b : nat) : list (nat * nat) :=
  map (fun m => (snd m - 2, a + fst m + snd m - 1)) (finditer try_line 0 0 (slice a b s)).

(* analyze_spec.py:263-280  check_lines *)
Fixpoint check_lines (fuel : nat) (line : list (nat * nat)) (lo hi emi : nat) : list msg * res unit :=
  match fuel with
  | 0 => ([], Err OutOfFuel)
  | S f =>
      if lo =? hi then ([], Ok tt)
      else if negb (lo <? hi) then ([], Err AssertionError)
      else
        match nth_error line lo with
        | None => ([], Err IndexError)
        | Some (top, x) =>
            let m1 := if top =? emi then [] else [(x, Expected emi top)] in
            let rng := seq (lo + 1) (hi - (lo + 1)) in
            let m2 := flat_map (fun i => match nth_error line i with Some (ind, x) => if ind <? top then [(x, ExpectedLess top ind)] else [] | None => [] end) rng in
            let siblings := filter (fun i => match nth_error line i with Some (ind, _) => ind <=? top | None => false end) rng in
            let fix loop l := match l with
              | [] => ([], Ok tt)
              | (i, j) :: l' =>
                  let '(m, r) := check_lines f line (i + 1) j (top + 2) in
                  match r with Err e => (m, Err e) | Ok _ => let '(m', r') := loop l' in (m ++ m', r') end
              end in
            let '(m3, r) := loop (combine (lo :: siblings) (siblings ++ [hi])) in
            (m1 ++ m2 ++ m3, r)
        end
  end.

Section Indent.
Variable spec : text.          (* spec.text *)

(* analyze_spec.py:123-130  the start of the line: spec.text.rfind('\n', 0, posn) + 1, or 0 *)
Fixpoint line_start (p : nat) : nat :=
  match p with 0 => 0 | S k => match nth_error spec k with Some c => if (c =? 10)%N then S k else line_start k | None => line_start k end end.
(* spec.text.find('\n', posn), or the length *)
Definition line_end (p : nat) : nat := p + count_while (fun c => negb (c =? 10)%N) (skipn p spec).

(* analyze_spec.py:135-146  check_tag_indent *)
Definition check_tag (expected line_s tag_s : nat) (name : text) : list msg :=
  let before := slice line_s tag_s spec in
  if forallb py_space before then
    if length before =? expected then [] else [(tag_s, Expected expected (length before))]
  else [(tag_s, NotFirst name)].

(* analyze_spec.py:249-282  check_inline_content *)
Definition check_inline (comment : bool) (n : elem) (emi : nat) : list msg * res unit :=
  let line := if comment then lines_between spec (sp n + 4) (ep n - 3) else lines_between spec (isp n) (iep n) in
  check_lines (S (length line)) line 0 (length line) emi.

Definition is_name (n : elem) (l : list text) : bool := existsb (text_eqb (ename n)) l.

(* results of one thing after the other *)
Definition andthen (a : list msg * res unit) (b : list msg * res unit) : list msg * res unit :=
  match snd a with Err e => a | Ok _ => (fst a ++ fst b, snd b) end.

(* analyze_spec.py:108-247  check_indentation_for_node, for an element other than the document *)
Fixpoint check_node (expected : nat) (n : elem) {struct n} : list msg * res unit :=
  let '(Elem name nsp nep nisp niep block br ncls nkids) := n in
  if text_eqb name (tx "#LITERAL") then ([], Ok tt)
  else
    let start_line_s := line_start nsp in
    let end_line_s := line_start nep in
    let m1 := check_tag expected start_line_s nsp name in
    let indent := nsp - start_line_s in
    if start_line_s =? end_line_s then (m1, Ok tt)
    else
      andthen (m1, Ok tt)
      (if text_eqb name (tx "#COMMENT") then check_inline true n (indent + 2)
       else
         match (if text_eqb name (tx "pre") then match nkids with [c] => if text_eqb (ename c) (tx "code") then Some c else None | _ => None end else None) with
         | Some code =>
             match cls code with
             | None => ([], Err KeyError)
             | Some c =>
                 if text_eqb c (tx "javascript") then
                   andthen (check_inline false code (indent + 2)) (check_tag expected end_line_s (iep code) (tx "code"), Ok tt)
                 else ([], Err AssertionError)
             end
         | None =>
             andthen
               (if existsb (text_eqb name) [tx "emu-grammar"; tx "emu-alg"; tx "emu-eqn"] then check_inline false n (indent + 2)
                else if negb block then check_inline false n (indent + 2)
                else
                  let child :=
                    if existsb (text_eqb name) [tx "html"; tx "head"; tx "body"] then indent
                    else if existsb (text_eqb name) [tx "thead"; tx "tbody"] then
                      let next := line_end nsp + 1 in
                      let piece := slice next (next + indent + 2) spec in
                      if negb (length piece =? 0) && forallb py_space piece then indent + 2 else indent
                    else indent + 2 in
                  (fix loop (l : list elem) : list msg * res unit :=
                     match l with [] => ([], Ok tt) | c :: l' => andthen (check_node child c) (loop l') end) nkids)
               (if text_eqb name (tx "p") && br && negb (starts_with [10%N] (slice nisp niep spec)) then ([], Ok tt)
                else (check_tag expected end_line_s niep name, Ok tt))
         end).

(* analyze_spec.py:109-113, 284: the document; its children *)
Fixpoint check_doc (l : list elem) : list msg * res unit :=
  match l with [] => ([], Ok tt) | c :: l' => andthen (check_node 0 c) (check_doc l') end.
End Indent.
