(* Model of two checks of the sections of the specification: Section.py:3628-3708. *)
From Coq Require Import Ascii String.
From Verif Require Import M_Base M_HTML M_Shared M_Records M_Refs M_PropPath.
Open Scope list_scope.
Open Scope nat_scope.
Notation length := List.length.

(* HTML.py with Section.py:88-147: a section with section_kind, section_title, attrs['aoid'] if it has one, the names of its alg_headers, section_children *)
Inductive sec := Sec (kind title : text) (aoid : option text) (heads : list (option text)) (kids : list sec).
Definition s_kind (s : sec) := let 'Sec k _ _ _ _ := s in k.
Definition s_title (s : sec) := let 'Sec _ t _ _ _ := s in t.
Definition s_aoid (s : sec) := let 'Sec _ _ a _ _ := s in a.
Definition s_heads (s : sec) := let 'Sec _ _ _ h _ := s in h.
Definition s_kids (s : sec) := let 'Sec _ _ _ _ c := s in c.

(* HTML.py:247-252  each_descendant_that_is_a_section: a section, then what is below it; with the path and the parent (None: the document, whose title is None).
   The root itself is not a section, so the walk from it goes through its children. *)
Fixpoint visits (par : option sec) (s : sec) : list (list nat * option sec * sec) :=
  ([], par, s) ::
  (fix go (i : nat) (l : list sec) :=
     match l with [] => [] | c :: l' => map (fun v => (i :: fst (fst v), snd (fst v), snd v)) (visits (Some s) c) ++ go (S i) l' end) 0 (s_kids s).
Fixpoint visits_all (i : nat) (l : list sec) : list (list nat * option sec * sec) :=
  match l with [] => [] | c :: l' => map (fun v => (i :: fst (fst v), snd (fst v), snd v)) (visits None c) ++ visits_all (S i) l' end.

(* ---------- Section.py:3628-3664  _check_aoids ---------- *)
Definition opt_eqb (a b : option text) : bool :=
  match a, b with Some x, Some y => text_eqb x y | None, None => true | _, _ => false end.
(* 3631: op_name *)
Definition op_name (s : sec) : option text := match s_heads s with h :: _ => h | [] => None end.
(* 3640-3656: expected_aoid *)
Definition expected_aoid (par : option sec) (s : sec) : option text :=
  if text_eqb (s_kind s) (tx "catchall") then
    match par with
    | Some p => if text_eqb (s_title p) (tx "Relations of Candidate Executions") then Some (s_title s) else None
    | None => None
    end
  else None.
(* 3658-3664; an f-string shows None as None *)
Definition shown (a : option text) : text := match a with Some x => x | None => tx "None" end.
Definition aoid_msg (aoid expected : option text) : text :=
  match aoid with
  | None => tx "Should this clause have aoid=""" ++ shown expected ++ tx """?"
  | Some _ => match expected with None => tx "Didn't expect this clause to have an aoid" | Some e => tx "Expected aoid=""" ++ e ++ tx """" end
  end.
Definition aoid_one (_ : unit) (v : list nat * option sec * sec) : outm (list nat * text) unit :=
  let '(p, par, s) := v in
  if text_eqb (s_kind s) (tx "shorthand") then massert (opt_eqb (op_name s) None)
  else
    mbind (if text_eqb (s_kind s) (tx "catchall") then massert (opt_eqb (op_name s) None) else mret tt) (fun _ =>
    if opt_eqb (s_aoid s) (expected_aoid par s) then mret tt else mtell [(p, aoid_msg (s_aoid s) (expected_aoid par s))]).
Definition check_aoids (tops : list sec) : outm (list nat * text) unit := mfold aoid_one tt (visits_all 0 tops).

(* ---------- Section.py:3669-3708  _check_section_order ---------- *)
(* 3689: re.sub(r'^get ', '', t) *)
Definition strip_get (t : text) : text := match eat (tx "get ") t with Some t' => t' | None => t end.
(* 3690: re.sub(r'(^|\.)__', r'\1zz__', t); skip: how many characters belong to the last match *)
Fixpoint sub_under (skip : nat) (start : bool) (t : text) : text :=
  match t with
  | [] => []
  | c :: t' =>
      match skip with
      | S k => sub_under k false t'
      | O =>
          if start && is_prefix (tx "__") t then tx "zz__" ++ sub_under 1 false t'
          else if is_prefix (tx ".__") t then tx ".zz__" ++ sub_under 2 false t'
          else c :: sub_under 0 false t'
      end
  end.
Section Order.
(* str.lower; which characters beyond ASCII are word characters *)
Variable lower : text -> text.
Variable uniword : N -> bool.
(* the longest word at the beginning *)
Fixpoint the_word (t : text) : text := match t with c :: t' => if wordc uniword c then c :: the_word t' else [] | [] => [] end.
(* 3692, 3694: a match of r' \[ %symbol\.(\w+)% \]' at the beginning: the group *)
Definition symbol_at (t : text) : option text :=
  and_then (eat (tx " [ %symbol.") t) (fun u =>
  let w := the_word u in
  if length w =? 0 then None else and_then (eat (tx "% ]") (skipn (length w) u)) (fun _ => Some w)).
Fixpoint sub_symbol (before : text) (skip : nat) (t : text) : text :=
  match t with
  | [] => []
  | c :: t' =>
      match skip with
      | S k => sub_symbol before k t'
      | O =>
          match symbol_at t with
          | Some w => before ++ w ++ sub_symbol before (length (tx " [ %symbol.") + length w + length (tx "% ]") - 1) t'
          | None => c :: sub_symbol before 0 t'
          end
      end
  end.
(* 3686-3694: t, for a child with this title in a section with that title *)
Definition order_key (section title : text) : text :=
  let t := lower title in
  let t := str_replace (tx "int8") (tx "int08") t in
  let t := strip_get t in
  let t := sub_under 0 true t in
  if text_eqb section (tx "Properties of the RegExp Prototype Object") then sub_symbol (tx ".") 0 t
  else sub_symbol (tx ".zz_") 0 t.
(* 3679-3685 *)
Definition ordered (kind : text) : bool :=
  existsb (text_eqb kind) [tx "accessor_property"; tx "function_property"; tx "function_property_xref"; tx "other_property"; tx "other_property_xref"].
(* 3676-3708: the loop through the children; a message is about the child with that number; prev is prev_t and prev_title *)
Fixpoint order_kids (p : list nat) (section : text) (j : nat) (prev : option (text * text)) (l : list sec) : outm (list nat * nat * text) unit :=
  match l with
  | [] => mret tt
  | c :: l' =>
      if ordered (s_kind c) then
        let t := order_key section (s_title c) in
        mbind (match prev with
               | Some (t0, title0) => if text_leb t t0 then mtell [(p, j, tx """" ++ s_title c ++ tx """ should be before """ ++ title0 ++ tx """")] else mret tt
               | None => mret tt
               end) (fun _ =>
        order_kids p section (S j) (Some (t, s_title c)) l')
      else
        mbind (massert (if text_eqb section (tx "URI Handling Functions") then text_eqb (s_kind c) (tx "abstract_operation")
                        else existsb (text_eqb (s_kind c)) [tx "- // properties"; tx "catchall"])) (fun _ =>
        order_kids p section (S j) prev l')
  end.
(* str.endswith *)
Definition ends_with (e t : text) : bool := is_prefix (rev e) (rev t).
Definition order_one (_ : unit) (v : list nat * option sec * sec) : outm (list nat * nat * text) unit :=
  let '(p, _, s) := v in
  if ends_with (tx "// properties") (s_kind s) then order_kids p (s_title s) 0 None (s_kids s) else mret tt.
Definition check_section_order (tops : list sec) : outm (list nat * nat * text) unit := mfold order_one tt (visits_all 0 tops).
End Order.
