(* Specification of C66 and C67: grammars as data, how they are written in an <emu-grammar> element,
   and what it means that a node stands for a piece of a grammar. *)
From Coq Require Import Ascii String.
From Verif Require Import M_Base M_HTML M_Meta.
Open Scope string_scope.
Open Scope nat_scope.
Open Scope list_scope.
Notation length := Datatypes.length.

(* -------- grammars -------- *)

(* a list of one or more *)
Definition ne (A : Type) : Type := (A * list A)%type.
Definition ne_list {A} (l : ne A) : list A := fst l :: snd l.

Inductive prefix := NoPrefix | Tilde | Plus | Quest.
Definition param : Type := (prefix * text)%type.

Inductive symbol := SNt (name : text) (ps : option (ne param)) | STok (w : text) | SChr (name : text).
Inductive excl := XNt (name : text) | XTok (w : text).
Inductive term := TTok (w : text) | TChr (name : text) | TNlth.

(* [neg] says that the lookahead must not be; [ButNotOneOf x l]: at each further excluded thing, whether
   it is introduced by "or" *)
Inductive constr :=
| LaSingle (neg : bool) (ts : ne term)
| LaNt (neg : bool) (name : text)
| LaSet (neg : bool) (ss : ne (ne term))
| Nlth
| ButOnly (w : text)
| ButNot (x : excl)
| ButNotOneOf (x : excl) (l : list (bool * excl)).

Inductive item := ISym (s : symbol) (optional : bool) | ICon (c : constr).

Inductive body := BRange (lo hi : text) | BProp (name : text) | BAny | BEmpty | BItems (l : ne item).

Record rhs := { r_guard : option (ne param); r_body : body; r_label : option text }.

Inductive gprod :=
| Lines (comment : bool) (lhs : text) (ps : option (ne param)) (colons : nat) (rs : ne rhs)
| LinesOneOf (comment : bool) (lhs : text) (ps : option (ne param)) (colons : nat) (ls : ne (ne text))
| OneLine (lhs : text) (ps : option (ne param)) (colons : nat) (b : body)
| OneLineOneOf (lhs : text) (ps : option (ne param)) (colons : nat) (l : ne text).

(* -------- how they are written -------- *)

Definition sep_by {A} (sep : text) (w : A -> text) (l : ne A) : text :=
  w (fst l) ++ flat_map (fun x => sep ++ w x) (snd l).

Definition w_prefix (x : prefix) : text := match x with NoPrefix => [] | Tilde => tx "~" | Plus => tx "+" | Quest => tx "?" end.
Definition w_param (x : param) : text := w_prefix (fst x) ++ snd x.
Definition w_params (l : ne param) : text := tx "[" ++ sep_by (tx ", ") w_param l ++ tx "]".
Definition w_opt {A} (w : A -> text) (o : option A) : text := match o with Some a => w a | None => [] end.
Definition w_tok (w : text) : text := tx "`" ++ w ++ tx "`".
Definition w_chr (n : text) : text := tx "&lt;" ++ n ++ tx "&gt;".
Definition w_nlth : text := tx "[no LineTerminator here]".
Definition w_symbol (s : symbol) : text :=
  match s with SNt n ps => n ++ w_opt w_params ps | STok w => w_tok w | SChr n => w_chr n end.
Definition w_excl (x : excl) : text := match x with XNt n => n | XTok w => w_tok w end.
Definition w_term (x : term) : text := match x with TTok w => w_tok w | TChr n => w_chr n | TNlth => w_nlth end.
Definition w_terms (l : ne term) : text := sep_by (tx " ") w_term l.
Definition w_constr (c : constr) : text :=
  match c with
  | LaSingle neg ts => tx "[lookahead " ++ (if neg then tx "!=" else tx "==") ++ tx " " ++ w_terms ts ++ tx "]"
  | LaNt neg n => tx "[lookahead " ++ (if neg then tx "&notin;" else tx "&isin;") ++ tx " " ++ n ++ tx "]"
  | LaSet neg ss => tx "[lookahead " ++ (if neg then tx "&notin;" else tx "&isin;") ++ tx " "
                    ++ tx "{ " ++ sep_by (tx ", ") w_terms ss ++ tx " }" ++ tx "]"
  | Nlth => w_nlth
  | ButOnly w => tx "[> but only if " ++ w ++ tx "]"
  | ButNot x => tx "but not " ++ w_excl x
  | ButNotOneOf x l => tx "but not " ++ tx "one of " ++ w_excl x
                       ++ flat_map (fun y : bool * excl => (if fst y then tx " or " else tx " ") ++ w_excl (snd y)) l
  end.
Definition w_item (i : item) : text :=
  match i with ISym s o => w_symbol s ++ (if o then tx "?" else []) | ICon c => w_constr c end.
Definition w_any : text := tx "&gt; any Unicode code point".
Definition w_body (b : body) : text :=
  match b with
  | BRange lo hi => w_any ++ tx " in the inclusive interval from U+" ++ lo ++ tx " to U+" ++ hi
  | BProp n => w_any ++ tx " with the Unicode property &ldquo;" ++ n ++ tx "&rdquo;"
  | BAny => w_any
  | BEmpty => tx "[empty]"
  | BItems l => sep_by (tx " ") w_item l
  end.

(* a new line with that much indentation *)
Definition nl (i : nat) : text := 10%N :: repeat 32%N i.

Definition w_rhs (i : nat) (r : rhs) : text :=
  nl i ++ w_opt (fun ps => w_params ps ++ tx " ") (r_guard r) ++ w_body (r_body r) ++ w_opt (fun l => tx " " ++ l) (r_label r).

Definition w_left (lhs : text) (ps : option (ne param)) (colons : nat) : text :=
  lhs ++ w_opt w_params ps ++ tx " " ++ repeat 58%N colons.
Definition w_comment (i : nat) (comment : bool) : text := if comment then nl i ++ tx "// emu-format ignore" else [].
Definition w_toks (l : ne text) : text := sep_by (tx " ") w_tok l.
Definition w_oneline (lhs : text) (ps : option (ne param)) (colons : nat) (r : text) : text := w_left lhs ps colons ++ tx " " ++ r.

Definition w_prod (i : nat) (p : gprod) : text :=
  match p with
  | Lines c lhs ps n rs => w_comment i c ++ nl i ++ w_left lhs ps n ++ flat_map (w_rhs (i + 2)) (ne_list rs)
  | LinesOneOf c lhs ps n ls =>
      w_comment i c ++ nl i ++ w_left lhs ps n ++ tx " one of" ++ nl (i + 2) ++ sep_by (nl (i + 2)) w_toks ls
  | OneLine lhs ps n b => nl i ++ w_oneline lhs ps n (w_body b)
  | OneLineOneOf lhs ps n l => nl i ++ w_oneline lhs ps n (tx "one of " ++ w_toks l)
  end.

(* the content of an element at indentation i: the productions, with blank lines between them *)
Definition w_block (i : nat) (g : ne gprod) : text := sep_by [10%N] (w_prod (i + 2)) g ++ nl i.

(* -------- which grammars can be written -------- *)

Section Wf.
Variable uniword : N -> bool.

Definition upper (c : N) : bool := (65 <=? c)%N && (c <=? 90)%N.
Definition lower (c : N) : bool := (97 <=? c)%N && (c <=? 122)%N.
Definition digit (c : N) : bool := (48 <=? c)%N && (c <=? 57)%N.
Definition hex (c : N) : bool := digit c || ((65 <=? c)%N && (c <=? 70)%N).
Definition wordb (c : N) : bool := digit c || upper c || lower c || (c =? 95)%N || ((128 <=? c)%N && uniword c).

(* the name of a nonterminal *)
Definition wf_nt (n : text) : Prop :=
  (exists c w, n = c :: w /\ upper c = true /\ forallb wordb w = true) \/
  (exists w, n = tx "uri" ++ w /\ forallb wordb w = true) \/
  n = tx "@".
Definition wf_param (x : param) : Prop := exists c w, snd x = c :: w /\ upper c = true /\ forallb (fun d => lower d || upper d) w = true.
Definition wf_ps (ps : option (ne param)) : Prop := forall x, ps = Some x -> Forall wf_param (ne_list x).
(* what is between backticks: a backtick, or anything without backticks and spaces *)
Definition wf_tok (w : text) : Prop := w = tx "`" \/ (w <> [] /\ Forall (fun c => c <> 96%N /\ c <> 32%N) w).
Definition wf_chr (n : text) : Prop := n <> [] /\ forallb upper n = true.
Definition wf_symbol (s : symbol) : Prop :=
  match s with SNt n ps => wf_nt n /\ wf_ps ps | STok w => wf_tok w | SChr n => wf_chr n end.
Definition wf_excl (x : excl) : Prop := match x with XNt n => wf_nt n | XTok w => wf_tok w end.
Definition wf_term (x : term) : Prop := match x with TTok w => wf_tok w | TChr n => wf_chr n | TNlth => True end.
Definition wf_constr (c : constr) : Prop :=
  match c with
  | LaSingle _ ts => Forall wf_term (ne_list ts)
  | LaNt _ n => wf_nt n
  | LaSet _ ss => Forall (fun ts => Forall wf_term (ne_list ts)) (ne_list ss)
  | Nlth => True
  | ButOnly w => w <> [] /\ Forall (fun c => c <> 91%N /\ c <> 93%N) w
  | ButNot x => wf_excl x
  | ButNotOneOf x l => wf_excl x /\ Forall (fun y : bool * excl => wf_excl (snd y)) l
  end.
Definition wf_item (i : item) : Prop := match i with ISym s _ => wf_symbol s | ICon c => wf_constr c end.
Definition wf_body (b : body) : Prop :=
  match b with
  | BRange lo hi => (lo <> [] /\ forallb hex lo = true) /\ (hi <> [] /\ forallb hex hi = true)
  | BProp n => n <> [] /\ forallb wordb n = true
  | BAny => True
  | BEmpty => True
  | BItems l => Forall wf_item (ne_list l)
  end.
Definition wf_label (l : text) : Prop := exists w, l = tx "#" ++ w /\ w <> [] /\ forallb wordb w = true.
Definition wf_rhs (r : rhs) : Prop := wf_ps (r_guard r) /\ wf_body (r_body r) /\ forall l, r_label r = Some l -> wf_label l.
Definition wf_left (lhs : text) (ps : option (ne param)) (colons : nat) : Prop := wf_nt lhs /\ wf_ps ps /\ 1 <= colons.
Definition wf_prod (p : gprod) : Prop :=
  match p with
  | Lines _ lhs ps n rs => wf_left lhs ps n /\ Forall wf_rhs (ne_list rs)
  | LinesOneOf _ lhs ps n ls => wf_left lhs ps n /\ Forall (fun l => Forall wf_tok (ne_list l)) (ne_list ls)
  | OneLine lhs ps n b => wf_left lhs ps n /\ wf_body b
  | OneLineOneOf lhs ps n l => wf_left lhs ps n /\ Forall wf_tok (ne_list l)
  end.

(* "but not one of ..." takes the nonterminals and terminals after it as excluded things, too; so it can
   only be followed by something else. *)
Definition after_but_not (i j : item) : Prop :=
  match i with
  | ICon (ButNotOneOf _ _) => match j with ISym (SNt _ _) _ => False | ISym (STok _) _ => False | _ => True end
  | _ => True
  end.
Fixpoint but_nots_end (l : list item) : Prop :=
  match l with i :: ((j :: _) as l') => after_but_not i j /\ but_nots_end l' | _ => True end.
Definition clear_body (b : body) : Prop := match b with BItems l => but_nots_end (ne_list l) | _ => True end.
Definition clear_prod (p : gprod) : Prop :=
  match p with
  | Lines _ _ _ _ rs => Forall (fun r => clear_body (r_body r)) (ne_list rs)
  | OneLine _ _ _ b => clear_body b
  | _ => True
  end.
End Wf.

(* -------- what a node stands for -------- *)

Section Stands.
Variable t : text.

Definition says (n : gnode) (w : text) : Prop := g_text t n = w.

(* a node of that kind, with that text and those groups, and no children *)
Definition leaf (n : gnode) (kind : string) (w : text) (gs : list text) : Prop :=
  g_kind n = kind /\ says n w /\ g_groups n = gs /\ g_children n = [].

Definition is_param (n : gnode) (x : param) : Prop := leaf n "PARAM" (w_param x) [w_prefix (fst x); snd x].
Definition is_params (n : gnode) (l : ne param) : Prop :=
  g_kind n = "PARAMS" /\ says n (w_params l) /\ Forall2 is_param (g_children n) (ne_list l).
Definition is_opt_params (n : gnode) (o : option (ne param)) : Prop :=
  match o with
  | Some l => is_params n l
  | None => leaf n "OMITTED_OPTIONAL" [] []
  end.
Definition is_gnt (n : gnode) (name : text) (o : option (ne param)) : Prop :=
  g_kind n = "GNT" /\ says n (name ++ w_opt w_params o) /\
  exists nt ps, g_children n = [nt; ps] /\ leaf nt "NT" name [] /\ is_opt_params ps o.
Definition is_tok (n : gnode) (w : text) : Prop := leaf n "BACKTICKED_THING" (w_tok w) [w].
Definition is_chr (n : gnode) (x : text) : Prop := leaf n "NAMED_CHAR" (w_chr x) [x].
Definition is_symbol (n : gnode) (s : symbol) : Prop :=
  match s with SNt name o => is_gnt n name o | STok w => is_tok n w | SChr x => is_chr n x end.
Definition is_excl (n : gnode) (x : excl) : Prop := match x with XNt name => leaf n "NT" name [] | XTok w => is_tok n w end.
Definition is_term (n : gnode) (x : term) : Prop :=
  match x with TTok w => is_tok n w | TChr c => is_chr n c | TNlth => leaf n "NLTH" w_nlth [] end.
Definition is_terms (n : gnode) (l : ne term) : Prop := g_kind n = "TERMINAL_SEQ" /\ Forall2 is_term (g_children n) (ne_list l).

Definition is_constr (n : gnode) (c : constr) : Prop :=
  says n (w_constr c) /\
  match c with
  | LaSingle neg ts =>
      g_kind n = "LAC_SINGLE" /\ exists o l, g_children n = [o; l] /\ leaf o "LAC_SINGLE_OP" (if neg then tx "!=" else tx "==") [] /\ is_terms l ts
  | LaNt neg name =>
      g_kind n = "LAC_SET" /\ exists o l, g_children n = [o; l] /\ leaf o "LAC_SET_OP" (if neg then tx "&notin;" else tx "&isin;") [] /\ leaf l "NT" name []
  | LaSet neg ss =>
      g_kind n = "LAC_SET" /\ exists o l, g_children n = [o; l] /\ leaf o "LAC_SET_OP" (if neg then tx "&notin;" else tx "&isin;") [] /\
        g_kind l = "SET_OF_TERMINAL_SEQ" /\ Forall2 is_terms (g_children l) (ne_list ss)
  | Nlth => g_kind n = "NLTH" /\ g_children n = []
  | ButOnly w => g_kind n = "BUT_ONLY" /\ g_groups n = [w] /\ g_children n = []
  | ButNot x => g_kind n = "BUT_NOT" /\ exists m, g_children n = [m] /\ is_excl m x
  | ButNotOneOf x l =>
      g_kind n = "BUT_NOT" /\ exists m, g_children n = [m] /\ g_kind m = "EXCLUDABLES" /\ Forall2 is_excl (g_children m) (x :: map snd l)
  end.

Definition is_item (n : gnode) (i : item) : Prop :=
  match i with
  | ISym s false => is_symbol n s
  | ISym s true => g_kind n = "RHS_SYMBOL_QM" /\ says n (w_item i) /\ exists m, g_children n = [m] /\ is_symbol m s
  | ICon c => is_constr n c
  end.

(* the items of a right-hand side, as kept in _rhs_items *)
Definition is_body_items (ns : list gnode) (b : body) : Prop :=
  match b with
  | BRange lo hi => exists n, ns = [n] /\ leaf n "U_RANGE" (w_body b) [lo; hi]
  | BProp x => exists n, ns = [n] /\ leaf n "U_PROP" (w_body b) [x]
  | BAny => exists n, ns = [n] /\ leaf n "U_ANY" (w_body b) []
  | BEmpty => ns = []
  | BItems l => Forall2 is_item ns (ne_list l)
  end.
Definition is_guard_items (ns : list gnode) (o : option (ne param)) : Prop :=
  match o with Some l => exists n, ns = [n] /\ is_params n l | None => ns = [] end.
Definition is_label_items (ns : list gnode) (o : option text) : Prop :=
  match o with Some l => exists n, ns = [n] /\ leaf n "LABEL" l [] | None => ns = [] end.

(* the reduced form: symbols, without parameters *)
Definition red_item (i : item) : list text :=
  match i with
  | ISym (SNt n _) o => [n ++ if o then tx "?" else []]
  | ISym s o => [w_item (ISym s o)]
  | ICon _ => []
  end.
Definition red_body (b : body) : text :=
  match b with
  | BEmpty => []
  | BItems l => match flat_map red_item (ne_list l) with [] => [] | x :: l' => sep_by (tx " ") (fun y => y) (x, l') end
  | _ => w_body b
  end.

(* an element of _rhss: the node, its items, its reduced form *)
Definition is_rhs (x : gnode * list gnode * text) (r : rhs) : Prop :=
  let '(n, items, red) := x in
  g_kind n = "RHS_LINE" /\ red = red_body (r_body r) /\
  exists g b l, items = g ++ b ++ l /\ is_guard_items g (r_guard r) /\ is_body_items b (r_body r) /\ is_label_items l (r_label r).
Definition is_oneline_rhs (x : gnode * list gnode * text) (b : body) : Prop :=
  let '(n, items, red) := x in red = red_body b /\ is_body_items items b.
Definition is_tok_rhs (x : gnode * list gnode * text) (w : text) : Prop :=
  let '(n, items, red) := x in red = w_tok w /\ items = [n] /\ is_tok n w.

Definition has_left (d : dprod) (lhs : text) (ps : option (ne param)) (colons : nat) : Prop :=
  dp_lhs d = lhs /\ dp_params d = match ps with Some l => map snd (ne_list l) | None => [] end /\ dp_colons d = colons.

Definition is_prod (d : dprod) (p : gprod) : Prop :=
  match p with
  | Lines _ lhs ps n rs => has_left d lhs ps n /\ Forall2 is_rhs (dp_rhss d) (ne_list rs)
  | LinesOneOf _ lhs ps n ls => has_left d lhs ps n /\ Forall2 is_tok_rhs (dp_rhss d) (flat_map ne_list (ne_list ls))
  | OneLine lhs ps n b => has_left d lhs ps n /\ exists x, dp_rhss d = [x] /\ is_oneline_rhs x b
  | OneLineOneOf lhs ps n l => has_left d lhs ps n /\ Forall2 is_tok_rhs (dp_rhss d) (ne_list l)
  end.
End Stands.
