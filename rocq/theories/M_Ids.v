(* Model of analyze_spec.py:338-545: check_ids and kebab. *)
From Coq Require Import Ascii String.
From Verif Require Import M_Base M_HTML M_Records.
Open Scope list_scope.
Notation length := List.length.

(* HTML.py:189-200  an element of the document: a number that stands for its identity, the name, the attributes,
   the text between the tags (inner_source_text) and the children *)
Inductive node := Node (num : nat) (ename : text) (attrs : list (text * text)) (inner : text) (kids : list node).
Definition num (n : node) := let '(Node k _ _ _ _) := n in k.
Definition ename (n : node) := let '(Node _ e _ _ _) := n in e.
Definition attrs (n : node) := let '(Node _ _ a _ _) := n in a.
Definition inner (n : node) := let '(Node _ _ _ i _) := n in i.
Definition kids (n : node) := let '(Node _ _ _ _ c) := n in c.

(* the messages of check_ids (analyze_spec.py:352, 370, 378, 400, 410, 470, 478, 483, 497, 534) *)
Inductive what :=
| Duplicate (id : text) | WantPrefix (p : text) | BadPrefix | WantId (id : text)
| UnneededEmpty (deftext id : text) | UnneededTags (reftext id : text) | UnexpectedDef (name : text)
| Nonexistent (id : text) | Unreferenced (id : text).
(* a message and the element at which it is placed *)
Definition msg := (nat * what)%type.

(* what has been reported when a step ends, and how it ends *)
Definition out (A : Type) := (list msg * res A)%type.
Definition oret {A} (a : A) : out A := ([], Ok a).
Definition obind {A B} (o : out A) (k : A -> out B) : out B :=
  match snd o with Ok a => (fst o ++ fst (k a), snd (k a)) | Err e => (fst o, Err e) end.
Definition say (b : bool) (m : msg) : out unit := (if b then [m] else [], Ok tt).
Definition ofail {A} (e : exn) : out A := ([], Err e).
Definition oassert (b : bool) : out unit := ([], assert_ b).

Fixpoint ofold {A B} (f : A -> B -> out A) (a : A) (l : list B) : out A :=
  match l with [] => oret a | x :: l' => obind (f a x) (fun a' => ofold f a' l') end.

(* str.startswith *)
Fixpoint starts (p s : text) : bool :=
  match p, s with [], _ => true | c :: p', d :: s' => (c =? d)%N && starts p' s' | _, _ => false end.
(* s in l *)
Definition tin (l : list text) (s : text) : bool := existsb (text_eqb s) l.

(* str.split(',') *)
Fixpoint split_comma (s : text) : list text :=
  match s with
  | [] => [[]]
  | c :: s' => if (c =? 44)%N then [] :: split_comma s'
               else match split_comma s' with w :: ws => (c :: w) :: ws | [] => [[c]] end
  end.

(* str.replace(' ', '-') *)
Definition dash_spaces (s : text) : text := map (fun c => if (c =? 32)%N then 45%N else c) s.
(* str.replace('::', '-') *)
Fixpoint dash_colons (s : text) : text :=
  match s with
  | a :: (b :: s') as r => if (a =? 58)%N && (b =? 58)%N then 45%N :: dash_colons s' else a :: dash_colons r
  | _ => s
  end.

(* analyze_spec.py:538-545  kebab *)
Definition is_upper (c : N) : bool := (65 <=? c)%N && (c <=? 90)%N.
Definition kebab (s : text) : text :=
  match s with
  | [] => []
  | c :: s' => (if is_upper c then (c + 32)%N else c) :: flat_map (fun d => if is_upper d then [45%N; (d + 32)%N] else [d]) s'
  end.

(* analyze_spec.py:360-367 *)
Definition prefix_for (name : text) : option text :=
  tget [(tx "emu-intro", tx "sec-"); (tx "emu-clause", tx "sec-"); (tx "emu-annex", tx "sec-");
        (tx "emu-eqn", tx "eqn-"); (tx "emu-figure", tx "figure-"); (tx "emu-table", tx "table-")] name.

(* analyze_spec.py:341-342  node_with_id_ and all_oldids *)
Record ids := mkIds { with_id : list (text * node); oldids : list text }.

Section Ids.
(* which characters beyond ASCII count as letters for \b; str.lower *)
Variable uniword : N -> bool.
Variable lower : text -> text.

Definition word_char (c : N) : bool :=
  ((48 <=? c) && (c <=? 57))%N || is_upper c || ((97 <=? c) && (c <=? 122))%N || (c =? 95)%N || ((128 <=? c)%N && uniword c).

(* one or more characters other than a quote, and the quote after them: what is before the first quote, and what follows it *)
Fixpoint to_quote (s : text) : option (text * text) :=
  match s with
  | [] => None
  | c :: s' => if (c =? 34)%N then Some ([], s') else match to_quote s' with Some (x, r) => Some (c :: x, r) | None => None end
  end.

(* analyze_spec.py:403  one attempt of the regular expression (a word boundary, the letters id, an equals sign, a text in quotes) at a position: the letter before the position, and the text from it on;
   the result is the group and what is left after the match *)
Definition id_at (after_word : bool) (s : text) : option (text * text) :=
  if negb after_word && starts (tx "id=""") s then
    match to_quote (skipn 4 s) with Some (x :: xs, r) => Some (x :: xs, r) | _ => None end
  else None.

(* re.finditer; [skip] counts the characters of the present match that are still to be passed over *)
Fixpoint find_ids (after_word : bool) (skip : nat) (s : text) : list text :=
  match s with
  | [] => []
  | c :: s' =>
      match skip with
      | S k => find_ids (word_char c) k s'
      | 0 =>
          match id_at after_word s with
          | Some (x, r) => x :: find_ids (word_char c) (length s' - length r) s'
          | None => find_ids (word_char c) 0 s'
          end
      end
  end.

(* analyze_spec.py:344-400: the id of an element *)
Definition gather_own (st : ids) (n : node) : out ids :=
  match tget (attrs n) (tx "id") with
  | None => oret st
  | Some defid =>
      obind (say (thas (with_id st) defid) (num n, Duplicate defid)) (fun _ =>
      let st := mkIds (tset (with_id st) defid n) (oldids st) in
      obind (match prefix_for (ename n) with
             | Some p => say (negb (starts p defid)) (num n, WantPrefix p)
             | None => say (starts (tx "sec-") defid || starts (tx "eqn-") defid || starts (tx "figure-") defid || starts (tx "table-") defid)
                           (num n, BadPrefix)
             end) (fun _ =>
      match tget (attrs n) (tx "aoid") with
      | None => oret st
      | Some aoid =>
          obind (oassert (tin [tx "emu-clause"; tx "emu-eqn"] (ename n))) (fun _ =>
          match prefix_for (ename n) with
          | None => ofail AssertionError
          | Some p =>
              let first := p ++ dash_colons (dash_spaces (lower aoid)) in
              let possibles := [first; p ++ aoid; p ++ kebab aoid; p ++ tx "static-semantics-" ++ lower aoid; p ++ tx "runtime-semantics-" ++ lower aoid] in
              obind (say (negb (tin possibles defid)) (num n, WantId first)) (fun _ => oret st)
          end)
      end))
  end.

(* analyze_spec.py:402-419: the ids in the text of an algorithm *)
Definition gather_step (n : node) (st : ids) (defid : text) : out ids :=
  obind (say (thas (with_id st) defid) (num n, Duplicate defid)) (fun _ =>
  obind (oassert (starts (tx "step-") defid)) (fun _ =>
  oret (mkIds (tset (with_id st) defid n) (oldids st)))).

(* analyze_spec.py:421-424 *)
Definition gather_old (st : ids) (oldid : text) : out ids :=
  obind (oassert (negb (tin (oldids st) oldid))) (fun _ => oret (mkIds (with_id st) (oldids st ++ [oldid]))).

(* analyze_spec.py:344-424: all for one element *)
Definition gather_one (st : ids) (n : node) : out ids :=
  obind (gather_own st n) (fun st =>
  obind (if text_eqb (ename n) (tx "emu-alg") then ofold (gather_step n) st (find_ids false 0 (inner n)) else oret st) (fun st =>
  match tget (attrs n) (tx "oldids") with Some v => ofold gather_old st (split_comma v) | None => oret st end)).

(* analyze_spec.py:344-427  gather_def_ids *)
Fixpoint gather (st : ids) (n : node) {struct n} : out ids :=
  obind (gather_one st n) (fun st =>
  (fix loop (st : ids) (l : list node) : out ids :=
     match l with [] => oret st | c :: l' => obind (gather st c) (fun st' => loop st' l') end) st (kids n)).

(* analyze_spec.py:447-497: check_ref_ids for one element; the state is refids *)
Definition ref_one (d : list (text * node)) (refids : list text) (r : node) : out (list text) :=
  if text_eqb (ename r) (tx "emu-xref") then
    match tget (attrs r) (tx "href") with
    | None => ofail SystemExit
    | Some href =>
        obind (oassert (starts (tx "#") href)) (fun _ =>
        let refid := tl href in
        let refids := refids ++ [refid] in
        match tget d refid with
        | Some def =>
            if tin [tx "emu-clause"; tx "emu-annex"; tx "emu-table"; tx "emu-alg"; tx "emu-note"] (ename def) then oret refids
            else if text_eqb (ename def) (tx "dfn") then
              obind (oassert (negb (text_eqb (inner def) []))) (fun _ =>
              if text_eqb (inner r) [] then obind (say true (num r, UnneededEmpty (inner def) refid)) (fun _ => oret refids)
              else
                let variants := split_comma (match tget (attrs def) (tx "variants") with Some v => v | None => [] end) in
                obind (say (text_eqb (inner r) (inner def) || tin variants (inner r)) (num r, UnneededTags (inner r) refid)) (fun _ => oret refids))
            else obind (say true (num def, UnexpectedDef (ename def))) (fun _ => oret refids)
        | None =>
            obind (say (negb (tin [tx "table-binary-unicode-properties"; tx "table-nonbinary-unicode-properties";
                                   tx "table-binary-unicode-properties-of-strings"; tx "table-unicode-general-category-values";
                                   tx "table-unicode-script-values"] refid)) (num r, Nonexistent refid)) (fun _ => oret refids)
        end)
    end
  else oret refids.

(* analyze_spec.py:447-500  check_ref_ids *)
Fixpoint check_refs (d : list (text * node)) (refids : list text) (n : node) {struct n} : out (list text) :=
  obind (ref_one d refids n) (fun refids =>
  (fix loop (refids : list text) (l : list node) : out (list text) :=
     match l with [] => oret refids | c :: l' => obind (check_refs d refids c) (fun r => loop r l') end) refids (kids n)).

(* analyze_spec.py:508-534 *)
Definition unreferenced (refids : list text) (e : text * node) : list msg :=
  let '(id, def) := e in
  if tin refids id then []
  else if tin [tx "metadata-block"; tx "ecma-logo"] id then []
  else if tin [tx "emu-intro"; tx "emu-clause"; tx "emu-annex"] (ename def) then []
  else if tin [tx "emu-figure"; tx "emu-table"] (ename def) then []
  else if tin [tx "dfn"; tx "emu-eqn"] (ename def) then []
  else [(num def, Unreferenced id)].

(* analyze_spec.py:434-438: the lines of the file 'ids'; sorted() of a set *)
Fixpoint dedup (l : list text) : list text :=
  match l with [] => [] | x :: l' => if tin l' x then dedup l' else x :: dedup l' end.
Definition ids_file (st : ids) : list text := isort text_leb (dedup (oldids st ++ map fst (with_id st))).

(* analyze_spec.py:338-536  check_ids; the result: the lines of the file 'ids' (written before the references are checked)
   and spec.node_with_id_ *)
Definition check_ids (doc : node) : out (list text * list (text * node)) :=
  obind (gather (mkIds [] []) doc) (fun st =>
  obind (oassert (negb (existsb (thas (with_id st)) (oldids st)))) (fun _ =>
  obind (check_refs (with_id st) [] doc) (fun refids =>
  obind (flat_map (unreferenced refids) (with_id st), Ok tt) (fun _ =>
  oret (ids_file st, with_id st))))).

End Ids.
