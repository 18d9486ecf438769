(* Model of the validation of the document, HTML.py:278-511 with the tables at 513-675. *)
From Coq Require Import Ascii String.
From Verif Require Import M_Base M_HTML M_Shared M_Layout M_Indent M_Refs.
Open Scope list_scope.
Open Scope nat_scope.
Notation length := List.length.

(* ------------------------------------------------------------------ *)
(* The part of the regular expressions of Python that content models use. *)
Inductive re : Set :=
| RNone | REps | RChar (c : N) | RCat (a b : re) | RAlt (a b : re) | RStar (a : re).
(* reading a regular expression: alternatives of sequences of characters and
   groups, each with ?, * or + after it, or not *)
Inductive post : Set := POpt | PStar | PPlus.
Definition post_of (c : N) : option post :=
  if (c =? 63)%N then Some POpt else if (c =? 42)%N then Some PStar else if (c =? 43)%N then Some PPlus else None.
Definition with_post (p : post) (r : re) : re :=
  match p with POpt => RAlt r REps | PStar => RStar r | PPlus => RCat r (RStar r) end.
(* characters with another meaning that are not provided for here *)
Definition other_special (c : N) : bool := existsb (N.eqb c) (tx ".^$[]{}\").
Fixpoint re_alt (fuel : nat) (t : text) : option (re * text) :=
  match fuel with
  | O => None
  | S f =>
    match re_seq f t with
    | Some (r, c :: t') => if (c =? 124)%N then match re_alt f t' with Some (r', t'') => Some (RAlt r r', t'') | None => None end
                           else Some (r, c :: t')
    | Some (r, []) => Some (r, [])
    | None => None
    end
  end
with re_seq (fuel : nat) (t : text) : option (re * text) :=
  match fuel with
  | O => None
  | S f =>
    match t with
    | [] => Some (REps, [])
    | c :: t' =>
      if (c =? 124)%N || (c =? 41)%N then Some (REps, t)
      else
        let atom := if (c =? 40)%N
                    then match re_alt f t' with Some (r, d :: t'') => if (d =? 41)%N then Some (r, t'') else None | _ => None end
                    else if other_special c then None
                    else match post_of c with Some _ => None | None => Some (RChar c, t') end in
        match atom with
        | None => None
        | Some (r, t2) =>
          let (r', t3) := match t2 with
                          | d :: t2' => match post_of d with Some p => (with_post p r, t2') | None => (r, t2) end
                          | [] => (r, t2)
                          end in
          match re_seq f t3 with Some (rest, t4) => Some (RCat r' rest, t4) | None => None end
        end
    end
  end.
Definition re_parse (t : text) : option re :=
  match re_alt (3 + 3 * length t) t with Some (r, []) => Some r | _ => None end.
(* Whether an expression matches the whole of a text, by derivatives: what is left
   to be matched after a character. *)
Fixpoint nullable (r : re) : bool :=
  match r with
  | RNone => false | REps => true | RChar _ => false
  | RCat a b => nullable a && nullable b
  | RAlt a b => nullable a || nullable b
  | RStar _ => true
  end.
Definition cat (a b : re) : re := match a with RNone => RNone | REps => b | _ => RCat a b end.
Definition alt (a b : re) : re := match a, b with RNone, _ => b | _, RNone => a | _, _ => RAlt a b end.
Fixpoint deriv (c : N) (r : re) : re :=
  match r with
  | RNone => RNone | REps => RNone
  | RChar d => if (c =? d)%N then REps else RNone
  | RCat a b => if nullable a then alt (cat (deriv c a) b) (deriv c b) else cat (deriv c a) b
  | RAlt a b => alt (deriv c a) (deriv c b)
  | RStar a => cat (deriv c a) (RStar a)
  end.
Fixpoint fullmatch (r : re) (t : text) : bool :=
  match t with
  | [] => nullable r
  | c :: t' => fullmatch (deriv c r) t'
  end.

(* ------------------------------------------------------------------ *)
(* HTML.py:666-675  what is said of an element: whether it is a block (B), inline (I),
   can be both (A) or neither (None); required and optional attributes; content *)
Inductive kind : Set := KB | KI | KA | KNone.
Record info := mkInfo { i_kind : kind; i_req : list text; i_opt : list text; i_model : text }.

(* a node of the document, with its attributes in order (None: without value) and
   the positions between its tags, if it has an end tag *)
Inductive vnode := VN (s e : nat) (name : text) (attrs : list (text * option text)) (inner : option (nat * nat)) (children : list vnode).
Definition v_start (n : vnode) := let '(VN s _ _ _ _ _) := n in s.
Definition v_end (n : vnode) := let '(VN _ e _ _ _ _) := n in e.
Definition v_name (n : vnode) := let '(VN _ _ x _ _ _) := n in x.
Definition v_attrs (n : vnode) := let '(VN _ _ _ a _ _) := n in a.
Definition v_inner (n : vnode) := let '(VN _ _ _ _ i _) := n in i.
Definition v_children (n : vnode) := let '(VN _ _ _ _ _ c) := n in c.

(* the messages of HTML.py:309-312 | 370-373 | 377-380 | 391 | 397 | 412 | 414 | 426-429 |
   435-438 | 440-443 | 446-449 | 470 | 473-478 | 498 | 503-504 *)
Inductive vmsg : Set :=
| Spaces (n : nat) | ShouldBeEntity (c : N) | ShouldBeLiteral (t : text)
| StartsWithSpace (name : text) | EndsWithSpace (name : text)
| Missing (a : list text) | Unexpected (a : list text) | UnknownAttr (a : text)
| NoValueExpected (a v : text) | ValueExpected (a p : text) | BadValue (a p v : text)
| WhichKind (name : text) | Mixed (name : text) (blocks inlines : list text)
| NoModel (name : text) | BadContent (name content model : text).

Definition tget_ {A} (k : text) (d : list (text * A)) : option A :=
  match find (fun e => text_eqb k (fst e)) d with Some e => Some (snd e) | None => None end.
Definition tmem_ (k : text) (l : list text) : bool := existsb (text_eqb k) l.
Definition sorted_set (l : list text) : list text := isort text_leb (nodup (list_eq_dec N.eq_dec) l).

Section Validate.
  Variable uniword : N -> bool.                                 (* which characters beyond ASCII match \w *)
  Variable valfull : text -> text -> bool.                      (* re.fullmatch(pattern, value) is not None *)
  Variable einfo : list (text * info).                          (* element_info *)
  Variable ainfo : list (text * option text).                   (* attribute_info *)
  Variable spec_text : text.

  (* 282-293  is_loose_about_spaces; chain: the node and its ancestors *)
  Fixpoint nearest_table (chain : list vnode) : option vnode :=
    match chain with
    | [] => None
    | x :: up => if text_eqb (v_name x) (tx "table") then Some x else nearest_table up
    end.
  Definition is_loose (chain : list vnode) : res bool :=
    match chain with
    | [] => Err AttributeError
    | x :: _ =>
      if tmem_ (v_name x) [tx "th"; tx "td"] then
        match nearest_table chain with
        | None => Err AttributeError                                                  (* None.attrs *)
        | Some tb => Ok (match tget_ (tx "class") (v_attrs tb) with
                         | Some (Some v) => text_eqb v (tx "lightweight-table")
                         | _ => false
                         end)
        end
      else Ok false
    end.

  (* 299  the expression: two or more spaces *)
  Definition try_spaces (s : text) : option nat :=
    let n := count_while is_space s in if 2 <=? n then Some n else None.
  (* 302  shared.spec.text[s_posn-1] *)
  Definition char_before (p : nat) : option N :=
    match p with O => last (map Some spec_text) None | S q => nth_error spec_text q end.
  Fixpoint space_msgs (s : nat) (chain : list vnode) (ms : list (nat * nat)) : res (list (nat * vmsg)) :=
    match ms with
    | [] => Ok []
    | (q, n) :: ms' =>
      if match char_before (s + q) with Some c => (c =? 10)%N | None => false end
      then space_msgs s chain ms'                                                     (* 302-304 *)
      else
        do l <- is_loose chain ;;                                                     (* 306-307 *)
        do r <- space_msgs s chain ms' ;;
        Ok (if l then r else (s + q, Spaces n) :: r)
    end.

  (* 315-360  the entities that are allowed, and the characters that are not *)
  Definition always_pairs : list (text * option N) := [ (tx "&amp;", Some 38%N); (tx "&lt;", Some 60%N); (tx "&nbsp;", Some 160%N); (tx "&reg;", Some 174%N) ].
  Definition grammar_pairs : list (text * option N) :=
    [ (tx "&gt;", None); (tx "&ldquo;", Some 8220%N); (tx "&rdquo;", Some 8221%N); (tx "&isin;", Some 8712%N); (tx "&notin;", Some 8713%N); (tx "&le;", Some 8804%N) ].
  Definition h1_pairs : list (text * option N) := [ (tx "&infin;", Some 8734%N); (tx "&gt;", None) ].
  Definition code_pairs : list (text * option N) :=
    [ (tx "&gt;", None); (tx "&hellip;", Some 8230%N); (tx "&#x0307;", Some 775%N); (tx "&#x030A;", Some 778%N); (tx "&#x0323;", Some 803%N);
      (tx "&#x03A9;", Some 937%N); (tx "&#x1100;", Some 4352%N); (tx "&#x1161;", Some 4449%N); (tx "&#x1E0B;", Some 7691%N); (tx "&#x1E0D;", Some 7693%N);
      (tx "&#x1E69;", Some 7785%N); (tx "&#x2126;", Some 8486%N); (tx "&#x212B;", Some 8491%N); (tx "&#xAC00;", Some 44032%N) ].
  Definition pairs (parent : text) : list (text * option N) :=
    (if text_eqb parent (tx "script") then [] else always_pairs)
    ++ (if text_eqb parent (tx "emu-grammar") then grammar_pairs else [])
    ++ (if text_eqb parent (tx "h1") then h1_pairs else [])
    ++ (if tmem_ parent [tx "code"; tx "td"] then code_pairs else []).
  (* 362  the expression: an ampersand, perhaps a number sign, word characters and a
     semicolon; or else any character but a newline *)
  Definition entity_length (s : text) : option nat :=
    match s with
    | c :: s1 =>
      if (c =? 38)%N then
        let k := match s1 with d :: _ => if (d =? 35)%N then 1 else 0 | [] => 0 end in
        let n := count_while (wordc uniword) (skipn k s1) in
        match n, skipn (k + n) s1 with
        | S _, d :: _ => if (d =? 59)%N then Some (S (k + n + 1)) else None
        | _, _ => None
        end
      else None
    | [] => None
    end.
  Definition try_piece (s : text) : option nat :=
    match entity_length s with
    | Some n => Some n
    | None => match s with c :: _ => if (c =? 10)%N then None else Some 1 | [] => None end
    end.
  Definition piece_msgs (s : nat) (parent : text) (lit : text) : list (nat * vmsg) :=
    flat_map (fun m : nat * nat =>
      let (q, n) := m in
      let t := slice q (q + n) lit in
      match t with
      | [c] => if existsb (fun p : text * option N => match snd p with Some d => (c =? d)%N | None => false end) (pairs parent)
               then [(s + q, ShouldBeEntity c)] else []
      | _ => if tmem_ t (map fst (pairs parent)) then [] else [(s + q, ShouldBeLiteral t)]
      end) (finditer try_piece 0 0 lit).
  (* 297-384  the checks of a #LITERAL; its parent is the first of the chain *)
  Definition literal_msgs (n : vnode) (up : list vnode) : res (list (nat * vmsg)) :=
    let lit := slice (v_start n) (v_end n) spec_text in
    do a <- space_msgs (v_start n) up (finditer try_spaces 0 0 lit) ;;
    match up with
    | [] => Err AttributeError                                                        (* None.element_name *)
    | p :: _ => Ok (a ++ piece_msgs (v_start n) (v_name p) lit)
    end.

  (* 388-397  spaces at the start and at the end of the content *)
  Definition ends_with_space (t : text) : bool := match rev t with c :: _ => is_space c | [] => false end.
  (* the expression: a newline, one or more spaces, and the end (perhaps a newline, and then the end) *)
  Definition indented_end (t : text) : bool :=
    let at_end (r : text) := match count_while is_space r with S k => match skipn (S k) r with c :: _ => (c =? 10)%N | [] => false end | O => false end in
    at_end (rev t) || match rev t with c :: r => (c =? 10)%N && at_end r | [] => false end.
  Definition edge_msgs (n : vnode) (up : list vnode) : res (list (nat * vmsg)) :=
    match v_inner n with
    | None => Ok []
    | Some (a, b) =>
      do l <- is_loose (n :: up) ;;
      if l then Ok [] else
      let ist := slice a b spec_text in
      Ok ((match ist with c :: _ => if is_space c then [(a, StartsWithSpace (v_name n))] else [] | [] => [] end)
          ++ (if indented_end ist then [] else if ends_with_space ist then [(b, EndsWithSpace (v_name n))] else []))
    end.

  (* 402-449  the attributes *)
  Definition attr_msgs (n : vnode) : list (nat * vmsg) :=
    let names := map fst (v_attrs n) in
    (match tget_ (v_name n) einfo with
     | None => []
     | Some i =>
       let missing := filter (fun a => negb (tmem_ a names)) (i_req i) in
       let extra := filter (fun a => negb (tmem_ a (i_req i ++ i_opt i))) names in
       (match missing with [] => [] | _ => [(v_start n, Missing (sorted_set missing))] end)
       ++ (match extra with [] => [] | _ => [(v_start n, Unexpected (sorted_set extra))] end)
     end)
    ++ flat_map (fun av : text * option text =>
         let (a, v) := av in
         match (match tget_ (v_name n ++ 46%N :: a) ainfo with Some p => Some p | None => tget_ a ainfo end) with
         | None => [(v_start n, UnknownAttr a)]
         | Some None => match v with None => [] | Some x => [(v_start n, NoValueExpected a x)] end
         | Some (Some p) => match v with
                            | None => [(v_start n, ValueExpected a p)]
                            | Some x => if valfull p x then [] else [(v_start n, BadValue a p x)]
                            end
         end) (v_attrs n).

  (* HTML.py:205-206, 272-275  is_whitespace *)
  Definition is_whitespace (c : vnode) : bool :=
    text_eqb (v_name c) (tx "#LITERAL") &&
    match slice (v_start c) (v_end c) spec_text with [] => false | t => forallb py_space t end.
  (* 455-468  the names of the block-level and of the inline children *)
  Definition child_names (k : kind) (n : vnode) : list text :=
    flat_map (fun c =>
      if text_eqb (v_name c) (tx "#COMMENT") then []
      else if text_eqb (v_name c) (tx "#LITERAL")
           then (if is_whitespace c then [] else match k with KI => [v_name c] | _ => [] end)
      else match tget_ (v_name c) einfo with
           | Some i => match i_kind i, k with KB, KB => [v_name c] | KI, KI => [v_name c] | _, _ => [] end
           | None => []
           end) (v_children n).
  (* 469-478 *)
  Definition kind_msgs (n : vnode) : list (nat * vmsg) :=
    flat_map (fun c =>
      if text_eqb (v_name c) (tx "#COMMENT") || text_eqb (v_name c) (tx "#LITERAL") then []
      else match tget_ (v_name c) einfo with Some _ => [] | None => [(v_start c, WhichKind (v_name c))] end) (v_children n)
    ++ match child_names KB n, child_names KI n with
       | (_ :: _) as b, (_ :: _) as i => [(v_start n, Mixed (v_name n) (sorted_set b) (sorted_set i))]
       | _, _ => []
       end.

  (* 482-494  the content, as a text *)
  Definition content_name (n c : vnode) : res text :=
    if text_eqb (v_name c) (tx "#LITERAL") then
      match child_names KI n with
      | _ :: _ => Ok (tx "#TEXT;")
      | [] => do _ <- assert_ (is_whitespace c) ;; Ok (tx "#WS;")
      end
    else Ok (v_name c ++ tx ";").
  Fixpoint content_names (n : vnode) (cs : list vnode) : res text :=
    match cs with
    | [] => Ok []
    | c :: cs' => do x <- content_name n c ;; do r <- content_names n cs' ;; Ok (x ++ r)
    end.
  (* 495-504; an expression that cannot be compiled: re.error *)
  Definition content_msgs (n : vnode) : res (list (nat * vmsg)) :=
    do raw <- content_names n (v_children n) ;;
    let names := str_replace (tx "#WS;#COMMENT;#WS;") (tx "#WS;") raw in
    match tget_ (v_name n) einfo with
    | None => Ok [(v_start n, NoModel (v_name n))]
    | Some i =>
      match re_parse (i_model i) with
      | None => Err ValueError
      | Some r => Ok (if fullmatch r names then [] else [(v_start n, BadContent (v_name n) names (i_model i))])
      end
    end.

  (* 278-511  _validate; up: the ancestors, the parent first *)
  Fixpoint validate (up : list vnode) (n : vnode) : res (list (nat * vmsg)) :=
    if text_eqb (v_name n) (tx "#LITERAL") then literal_msgs n up
    else
      do a <- edge_msgs n up ;;
      do c <- content_msgs n ;;
      do below <- (fix go (cs : list vnode) : res (list (nat * vmsg)) :=
                     match cs with
                     | [] => Ok []
                     | x :: cs' => do m <- validate (n :: up) x ;; do ms <- go cs' ;; Ok (m ++ ms)
                     end) (v_children n) ;;
      Ok (a ++ attr_msgs n ++ kind_msgs n ++ c ++ below).
End Validate.

(* HTML.py:513-610  element_info *)
Definition element_info : list (text * info) := [
  (tx "#DOC", mkInfo KB [] []
     (tx "#DECL;#WS;html;#WS;meta;#WS;link;#WS;(script;#WS;)?(style;#WS;)+pre;#WS;p;#WS;div;#WS;emu-intro;#WS;(emu-clause;#WS;)+(emu-annex;#WS;)+"));
  (tx "emu-intro", mkInfo KB [tx "id"] []
     (tx "#WS;h1;#WS;((p;|emu-integration-plans;)#WS;)+"));
  (tx "emu-clause", mkInfo KB [tx "id"] [tx "aoid"; tx "example"; tx "legacy"; tx "namespace"; tx "normative-optional"; tx "oldids"; tx "type"]
     (tx "#WS;h1;#WS;((div;|dl;|em;|emu-alg;|emu-import;|emu-eqn;|emu-figure;|emu-grammar;|emu-motivation;|emu-note;|emu-table;|figure;|h2;|ol;|p;|pre;|ul;)#WS;)*((emu-clause;|emu-integration-plans;)#WS;)*"));
  (tx "emu-annex", mkInfo KB [tx "id"] [tx "aoid"; tx "back-matter"; tx "namespace"; tx "normative"; tx "oldids"; tx "type"]
     (tx "#WS;h1;#WS;((dl;|emu-alg;|emu-grammar;|emu-note;|emu-prodref;|emu-table;|h2;|ol;|p;|ul;)#WS;)*(emu-annex;#WS;)*"));
  (tx "emu-table", mkInfo KB [tx "id"] [tx "caption"; tx "informative"; tx "of"; tx "oldids"; tx "type"]
     (tx "#WS;(emu-caption;#WS;)?table;#WS;"));
  (tx "emu-figure", mkInfo KB [tx "caption"; tx "id"] [tx "informative"]
     (tx "#WS;(object;|img;)#WS;"));
  (tx "figure", mkInfo KB [] []
     (tx "#WS;table;#WS;"));
  (tx "table", mkInfo KB [] [tx "class"]
     (tx "#WS;(thead;#WS;)?(tbody;#WS;|(tr;#WS;)+)"));
  (tx "thead", mkInfo KB [] []
     (tx "#WS;(tr;#WS;)+"));
  (tx "tbody", mkInfo KB [] []
     (tx "#WS;(tr;#WS;)+"));
  (tx "tr", mkInfo KB [] [tx "id"]
     (tx "(#WS;)?((th;|td;)(#WS;)?)+"));
  (tx "ul", mkInfo KB [] [tx "normative-optional"]
     (tx "#WS;(li;#WS;)+"));
  (tx "ol", mkInfo KB [] []
     (tx "#WS;(li;#WS;)+"));
  (tx "dl", mkInfo KB [] [tx "class"]
     (tx "#WS;(dt;#WS;dd;#WS;)*"));
  (tx "object", mkInfo KB [tx "data"; tx "height"; tx "type"; tx "width"] []
     (tx "img;"));
  (tx "emu-integration-plans", mkInfo KB [] []
     (tx "#WS;(p;#WS;)+|(#TEXT;|a;)+"));
  (tx "emu-note", mkInfo KB [] [tx "class"; tx "id"]
     (tx "#WS;((div;|emu-alg;|emu-grammar;|emu-table;|figure;|p;|pre;|ul;)#WS;)*|(#TEXT;|a;|code;|emu-not-ref;|emu-xref;|sub;)+"));
  (tx "li", mkInfo KB [] [tx "oldids"]
     (tx "#WS;p;#WS;((emu-alg;|emu-note;|ol;|p;|ul;|dl;)#WS;)*|(#COMMENT;|#TEXT;|a;|br;|code;|dfn;|em;|emu-eqn;|emu-grammar;|emu-not-ref;|emu-val;|emu-xref;|i;|ins;|span;|strong;|sub;|sup;|var;)+"));
  (tx "td", mkInfo KB [] [tx "colspan"; tx "oldids"; tx "rowspan"]
     (tx "#WS;((emu-alg;|p;|emu-note;)#WS;)*|(#TEXT;|b;|br;|code;|dfn;|em;|emu-concrete-method-dfns;|emu-not-ref;|emu-xref;|i;|ins;|sub;|sup;)+"));
  (tx "div", mkInfo KB [] [tx "class"; tx "id"]
     (tx "#WS;((h1;|p;|ul;)#WS;)*|#TEXT;((br;|em;|i;|sup;)#TEXT;)*"));
  (tx "dd", mkInfo KB [] []
     (tx "#WS;((p;|ul;)#WS;)+|(#TEXT;|a;|code;|dfn;|em;|emu-eqn;|emu-grammar;|emu-xref;|i;|sub;|sup;)*"));
  (tx "emu-motivation", mkInfo KB [] []
     (tx "(#TEXT;|a;)+"));
  (tx "emu-todo", mkInfo KB [] []
     (tx "(#TEXT;|a;)+"));
  (tx "emu-alg", mkInfo KB [] [tx "example"; tx "replaces-step"]
     (tx "(#TEXT;|a;|b;|code;|emu-grammar;|emu-meta;|emu-not-ref;|emu-xref;|figure;|sub;|sup;|var;)+"));
  (tx "emu-caption", mkInfo KB [] []
     (tx "(#TEXT;|emu-xref;)+"));
  (tx "pre", mkInfo KB [] [tx "class"]
     (tx "(#TEXT;|code;|sup;)+"));
  (tx "style", mkInfo KB [] [tx "media"]
     (tx "#TEXT;"));
  (tx "p", mkInfo KB [] []
     (tx "img;|(#COMMENT;|#TEXT;|a;|b;|br;|code;|dfn;|em;|emu-eqn;|emu-grammar;|emu-not-ref;|emu-prodref;|emu-t;|emu-xref;|i;|ins;|span;|sub;|sup;|var;)+"));
  (tx "h1", mkInfo KB [] []
     (tx "(#TEXT;|del;|dfn;|emu-not-ref;|emu-xref;|i;|ins;|sub;)+"));
  (tx "h2", mkInfo KB [] []
     (tx "#TEXT;"));
  (tx "th", mkInfo KB [] [tx "class"]
     (tx "#TEXT;(sup;#TEXT;)?"));
  (tx "script", mkInfo KB [] [tx "src"]
     (tx "(#TEXT;)?"));
  (tx "dt", mkInfo KB [] []
     (tx "#TEXT;"));
  (tx "#DECL", mkInfo KB [] []
     (tx ""));
  (tx "html", mkInfo KB [tx "lang"] []
     (tx ""));
  (tx "meta", mkInfo KB [tx "charset"] []
     (tx ""));
  (tx "link", mkInfo KB [tx "href"; tx "rel"] []
     (tx ""));
  (tx "img", mkInfo KB [tx "src"] [tx "alt"; tx "height"; tx "id"; tx "width"]
     (tx ""));
  (tx "emu-import", mkInfo KB [tx "href"] []
     (tx ""));
  (tx "emu-grammar", mkInfo KA [] [tx "example"; tx "type"]
     (tx "(#TEXT;|ins;|del;)+"));
  (tx "emu-prodref", mkInfo KA [tx "name"] [tx "a"]
     (tx ""));
  (tx "emu-eqn", mkInfo KA [] [tx "aoid"; tx "id"]
     (tx "#TEXT;(sub;|sup;|#TEXT;)*"));
  (tx "a", mkInfo KA [tx "href"] []
     (tx "(#TEXT;|code;|del;|ins;)*"));
  (tx "em", mkInfo KA [] [tx "id"]
     (tx "#TEXT;"));
  (tx "emu-concrete-method-dfns", mkInfo KA [tx "for"] []
     (tx ""));
  (tx "b", mkInfo KI [] []
     (tx "(#TEXT;|sub;|sup;)+"));
  (tx "br", mkInfo KI [] []
     (tx ""));
  (tx "code", mkInfo KI [] [tx "class"]
     (tx "(#TEXT;|i;|var;)+"));
  (tx "del", mkInfo KI [] []
     (tx "(#TEXT;|emu-xref;)+"));
  (tx "dfn", mkInfo KI [] [tx "aoid"; tx "id"; tx "oldids"; tx "variants"]
     (tx "(#TEXT;|emu-eqn;)"));
  (tx "emu-meta", mkInfo KI [] [tx "effects"; tx "suppress-effects"]
     (tx "(#TEXT;|sub;)+"));
  (tx "emu-not-ref", mkInfo KI [] []
     (tx "#TEXT;"));
  (tx "emu-t", mkInfo KI [] []
     (tx "#TEXT;"));
  (tx "emu-val", mkInfo KI [] []
     (tx "#TEXT;var;#TEXT;"));
  (tx "emu-xref", mkInfo KI [tx "href"] [tx "title"]
     (tx "(#TEXT;|code;)?"));
  (tx "i", mkInfo KI [] []
     (tx "#TEXT;(sup;#TEXT;)?"));
  (tx "ins", mkInfo KI [] []
     (tx "(#TEXT;|sub;)+"));
  (tx "span", mkInfo KI [] [tx "class"; tx "normative-optional"]
     (tx "(#TEXT;|emu-grammar;|emu-xref;)+"));
  (tx "strong", mkInfo KI [] []
     (tx "(#TEXT;|code;)+"));
  (tx "sub", mkInfo KI [] []
     (tx "#TEXT;|dfn;"));
  (tx "sup", mkInfo KI [] []
     (tx "(#TEXT;|sub;)+"));
  (tx "var", mkInfo KI [] []
     (tx "#TEXT;"));
  (tx "#COMMENT", mkInfo KNone [] []
     (tx "")) ].
(* HTML.py:614-664  attribute_info *)
Definition attribute_info : list (text * option text) := [
  (tx "pre.class", Some (tx "metadata"));
  (tx "code.class", Some (tx "javascript|html"));
  (tx "dl.class", Some (tx "header"));
  (tx "div.class", Some (tx "math-display|rhs|slash"));
  (tx "table.class", Some (tx "lightweight-table"));
  (tx "emu-table.class", Some (tx "module-overflow"));
  (tx "emu-note.class", Some (tx "module-overflow-note"));
  (tx "th.class", Some (tx "corner-cell"));
  (tx "span.class", Some (tx "column|row"));
  (tx "object.type", Some (tx "image/svg\+xml"));
  (tx "emu-grammar.type", Some (tx "definition"));
  (tx "emu-clause.type", Some (tx "abstract operation|built-in function|concrete method|(host|implementation)-defined abstract operation|internal method|numeric method|sdo"));
  (tx "emu-annex.type", Some (tx "abstract operation|built-in function"));
  (tx "emu-table.type", Some (tx "abstract methods"));
  (tx "a", Some (tx "\w+"));
  (tx "alt", Some (tx "[\w .,()?]+"));
  (tx "aoid", Some (tx "[-\w]+"));
  (tx "caption", Some (tx "[-\w /()<>]+"));
  (tx "charset", Some (tx "utf-8"));
  (tx "colspan", Some (tx "\d"));
  (tx "data", Some (tx "img/figure-1.svg"));
  (tx "effects", Some (tx "user-code"));
  (tx "for", Some (tx "\w+"));
  (tx "height", Some (tx "\d+"));
  (tx "href", Some (tx "[-\w:/.#%@]+"));
  (tx "id", Some (tx "[-\w.%@]+"));
  (tx "lang", Some (tx "en-GB-oxendict"));
  (tx "media", Some (tx "print"));
  (tx "name", Some (tx "\w+"));
  (tx "namespace", Some (tx "grammar-notation|asi-rules|annexB"));
  (tx "of", Some (tx "(\w+ )+Records"));
  (tx "oldids", Some (tx "[-\w.%@]+(,[-\w.%@]+)*"));
  (tx "rel", Some (tx "icon"));
  (tx "replaces-step", Some (tx "[-\w.%@]+"));
  (tx "rowspan", Some (tx "\d"));
  (tx "src", Some (tx "img/[-\w.]+"));
  (tx "suppress-effects", Some (tx "user-code"));
  (tx "variants", Some (tx "(\w+([ -]\w+)*)(,\w+([ -]\w+)*)*"));
  (tx "width", Some (tx "\d+"));
  (tx "back-matter", None);
  (tx "example", None);
  (tx "informative", None);
  (tx "legacy", None);
  (tx "normative", None);
  (tx "normative-optional", None);
  (tx "title", None) ].
