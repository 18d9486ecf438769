(* Model of the values of executed pseudocode (pseudocode_semantics.py, classes
   named ES_... and EL_...), of the comparison of values, and of the conditions and
   expressions about values, Lists, Strings and sequences of code points. *)
From Coq Require Import Ascii String.
From Verif Require Import M_Base M_HTML M_Shared M_Mathnum.
Open Scope list_scope.
Notation length := List.length.

(* The symbol of a Parse Node: a nonterminal's name, T_lit(chars), or another
   kind of terminal (es_parser.py:1958-1972) *)
Inductive nsym : Set := SymNT (name : text) | SymLit (chars : text) | SymOther.

(* The classes of values.  Those that are not dataclasses are compared by
   identity, given by a number.  Symbols and Objects have identities too,
   though Python's comparison of them does not see it. Records and Agents are
   not modelled: nothing makes them. *)
Inductive val : Set :=
| VUndefined                               (* 8596 *)
| VNull                                    (* 8614 *)
| VBoolean (b : bool)                      (* 8632 *)
| VString (code_units : list N)            (* 8670 *)
| VSymbol (id : nat) (description : val)   (* 9168 *)
| VNumber (n : number)                     (* 9198 *)
| VObject (id : nat) (properties : nat)    (* 9550; the number of properties, which have no fields: 9545-9547 *)
| VList (elements : list val)              (* 10087 *)
| VCodePoint (scalar : N)                  (* 3534 *)
| VCodePoints (chars : text)               (* 3714 *)
| VCodeUnit (numeric_value : N)            (* 3880 *)
| VAdhoc (chars : text)                    (* 8168 *)
| VMath (m : mnum)                         (* 6992 *)
| VNode (id : nat) (symbol : nsym) (is_terminal : bool)   (* es_parser.py:1944 *)
| VAbsent (id : nat)                       (* 4200 *)
| VNonterminal (name : text)               (* 4016 *)
| VTerminal (chars : text).                (* 4082 *)

Inductive cls : Set :=
| CUndefined | CNull | CBoolean | CString | CSymbol | CNumber | CObject | CList | CCodePoint | CCodePoints
| CCodeUnit | CAdhoc | CMath | CNode | CAbsent | CNonterminal | CTerminal.
Scheme Equality for cls.
(* type(a) *)
Definition class_of (a : val) : cls :=
  match a with
  | VUndefined => CUndefined | VNull => CNull | VBoolean _ => CBoolean | VString _ => CString
  | VSymbol _ _ => CSymbol | VNumber _ => CNumber | VObject _ _ => CObject | VList _ => CList
  | VCodePoint _ => CCodePoint | VCodePoints _ => CCodePoints | VCodeUnit _ => CCodeUnit
  | VAdhoc _ => CAdhoc | VMath _ => CMath | VNode _ _ _ => CNode | VAbsent _ => CAbsent
  | VNonterminal _ => CNonterminal | VTerminal _ => CTerminal
  end.

(* a == b: the __eq__ that @dataclass makes compares the classes and then the
   tuples of the fields, i.e. of the names annotated in the class body; other
   classes have object.__eq__.  EL_Number (9198) annotates no name, so it has no
   fields. *)
Fixpoint py_eq (a b : val) {struct a} : bool :=
  match a, b with
  | VUndefined, VUndefined => true
  | VNull, VNull => true
  | VBoolean x, VBoolean y => Bool.eqb x y
  | VString x, VString y => text_eqb x y
  | VSymbol _ x, VSymbol _ y => py_eq x y
  | VNumber _, VNumber _ => true
  | VObject _ x, VObject _ y => Nat.eqb x y
  | VList x, VList y =>
      (fix go (x y : list val) : bool :=
         match x, y with
         | [], [] => true
         | v :: x', w :: y' => py_eq v w && go x' y'
         | _, _ => false
         end) x y
  | VCodePoint x, VCodePoint y => N.eqb x y
  | VCodePoints x, VCodePoints y => text_eqb x y
  | VCodeUnit x, VCodeUnit y => N.eqb x y
  | VAdhoc x, VAdhoc y => text_eqb x y
  | VMath x, VMath y => Z.eqb (units x) (units y)
  | VNode i _ _, VNode j _ _ => Nat.eqb i j
  | VAbsent i, VAbsent j => Nat.eqb i j
  | VNonterminal x, VNonterminal y => text_eqb x y
  | VTerminal x, VTerminal y => text_eqb x y
  | _, _ => false
  end.

(* pseudocode_semantics.py:8200-8206  same_value *)
Definition same_value (a b : val) : bool :=
  if cls_beq (class_of a) (class_of b) then py_eq a b else false.

(* ------------------------------------------------------------------ *)
(* s in t, for texts *)
Fixpoint text_in (s t : text) : bool :=
  is_prefix s t || match t with [] => false | _ :: t' => text_in s t' end.

(* any(f(x) for x in l): stops at the first true, or at a failure *)
Fixpoint any_ {A} (f : A -> res bool) (l : list A) : res bool :=
  match l with
  | [] => Ok false
  | x :: l' => do b <- f x ;; if b then Ok true else any_ f l'
  end.

(* Value descriptions, with the parts that are executed already executed *)
Inductive vdesc : Set :=
| DLiteral (v : val)             (* {VAL_DESC} : {LITERAL} *)
| DString                        (* a String *)
| DSymbol                        (* a Symbol *)
| DNumber                        (* a Number *)
| DParseNode                     (* a Parse Node *)
| DSymbolOf (nt : text)          (* {VAL_DESC} : {nonterminal} *)
| DInstanceNT                    (* an instance of a nonterminal *)
| DInstanceOf (gsym : val)       (* an instance of {var} *)
| DAnyOf (ds : list vdesc).      (* {VAL_DESC_DISJUNCTION} *)

Definition nsym_eqb (a b : nsym) : bool :=
  match a, b with
  | SymNT x, SymNT y => text_eqb x y
  | SymLit x, SymLit y => text_eqb x y
  | SymOther, SymOther => false        (* distinct terminals: not looked at *)
  | _, _ => false
  end.

(* pseudocode_semantics.py:3343-3354  value_matches_description, with d_desc of: *)
Fixpoint matches (v : val) (d : vdesc) : res bool :=
  match d with
  | DLiteral w => Ok (same_value v w)                                        (* 8565-8568 *)
  | DString => Ok (cls_beq (class_of v) CString)                             (* 8712-8714 *)
  | DSymbol => Ok (cls_beq (class_of v) CSymbol)                             (* 9175-9177 *)
  | DNumber => Ok (cls_beq (class_of v) CNumber)                             (* 9226-9228 *)
  | DParseNode => Ok (cls_beq (class_of v) CNode)                            (* 4207-4209 *)
  | DSymbolOf nt =>                                                          (* 4067-4076 *)
      match v with
      | VNonterminal n => Ok (text_eqb n nt)
      | VTerminal _ => Ok false
      | _ => Err AssertionError
      end
  | DInstanceNT =>                                                           (* 4221-4224 *)
      match v with VNode _ _ t => Ok (negb t) | _ => Err AssertionError end
  | DInstanceOf g =>                                                         (* 4233-4246 *)
      do s <- match g with
              | VTerminal c => Ok (SymLit c)
              | VNonterminal n => Ok (SymNT n)
              | _ => Err AssertionError
              end ;;
      match v with VNode _ s' _ => Ok (nsym_eqb s' s) | _ => Err AssertionError end
  | DAnyOf ds =>                                                             (* 8528-8532 *)
      (fix go (ds : list vdesc) : res bool :=
         match ds with
         | [] => Ok false
         | d :: ds' => do b <- matches v d ;; if b then Ok true else go ds'
         end) ds
  end.

(* pseudocode_semantics.py:8463-8470  X is Y; rhs: the production's right-hand side *)
Definition is_cond (rhs : text) (v : val) (d : vdesc) : res bool :=
  do m <- matches v d ;;
  if text_in (tx "not") rhs || text_in (tx "never") rhs then Ok (negb m) else Ok m.
(* pseudocode_semantics.py:8487-8493  X is neither ... nor ... *)
Fixpoint neither_cond (v : val) (ds : list vdesc) : res bool :=
  match ds with
  | [] => Ok true
  | d :: ds' => do m <- matches v d ;; if m then Ok false else neither_cond v ds'
  end.

(* ------------------------------------------------------------------ *)
(* Lists: pseudocode_semantics.py:10087-10172 *)

Definition as_list (v : val) : res (list val) :=       (* EXEC(_, ES_List): 3302, 3313-3318 *)
  match v with VList l => Ok l | _ => Err AssertionError end.

(* 10103-10109 concat *)
Fixpoint concat_ (ls : list val) : res (list val) :=
  match ls with
  | [] => Ok []
  | v :: ls' => do l <- as_list v ;; do r <- concat_ ls' ;; Ok (l ++ r)
  end.
(* 10137-10141 contains *)
Definition contains (l : list val) (v : val) : bool := existsb (fun e => same_value e v) l.
(* 10149-10154 number_of_occurrences_of *)
Definition occurrences (l : list val) (v : val) : nat := length (filter (fun e => same_value e v) l).
(* 10156-10163 contains_any_duplicates: the elements before the i-th are in [before] *)
Fixpoint dups_go (before l : list val) : bool :=
  match l with
  | [] => false
  | e :: l' => existsb (fun e' => same_value e e') before || dups_go (before ++ [e]) l'
  end.
Definition duplicates (l : list val) : bool := dups_go [] l.
(* 10165-10170 has_any_element_in_common_with *)
Definition common (l m : list val) : bool :=
  existsb (fun a => existsb (fun b => same_value a b) m) l.

(* 10582-10588 *)
Definition duplicates_cond (rhs : text) (c : val) : res bool :=
  do l <- as_list c ;;
  if text_in (tx "no duplicate") rhs then Ok (negb (duplicates l)) else Ok (duplicates l).
(* 10597-10603: the attribute symbol is one of Parse Nodes only *)
Definition contains_nts_cond (c : val) (nt : text) : res bool :=
  do l <- as_list c ;;
  any_ (fun e => match e with VNode _ s _ => Ok (nsym_eqb s (SymNT nt)) | _ => Err AttributeError end) l.
(* 10630-10634 *)
Definition more_than_one_cond (c v : val) : res bool :=
  do l <- as_list c ;; Ok (Nat.ltb 1 (occurrences l v)).
(* 10697-10701 *)
Definition also_occurs_cond (a b : val) : res bool :=
  do l <- as_list a ;; do m <- as_list b ;; Ok (common l m).
(* 10712-10720 *)
Definition occurs_in_neither_cond (a b c : val) : res bool :=
  do l <- as_list a ;; do m <- as_list b ;; do n <- as_list c ;;
  Ok (existsb (fun e => negb (contains m e || contains n e)) l).
(* 10762-10768 *)
Definition empty_cond (rhs : text) (c : val) : res bool :=
  do l <- as_list c ;;
  let e := match l with [] => true | _ => false end in
  if text_in (tx "is not") rhs then Ok (negb e) else Ok e.
(* 10778-10782 *)
Definition not_include_cond (c v : val) : res bool :=
  do l <- as_list c ;; Ok (negb (contains l v)).
(* 10398-10406: the List after the command *)
Definition append_command (rhs : text) (v c : val) : res val :=
  do l <- as_list c ;;
  if text_in (tx "Append") rhs || text_in (tx "append") rhs then Ok (VList (l ++ [v]))
  else Err AssertionError.
(* 10533-10536, 10132-10133 *)
Definition number_of_elements (c : val) : res val :=
  do l <- as_list c ;; Ok (VMath (MInt (Z.of_nat (length l)))).

(* 10801-10817: container contains e *)
Definition contains_code_point (t : text) (e : val) : res bool :=      (* 3740-3742 *)
  match e with
  | VCodePoint c => Ok (text_in [c] t)
  | _ => Err AssertionError
  end.
Definition contains_cond (rhs : text) (container e : val) : res bool :=
  do it <- match container with
           | VList l => Ok (contains l e)
           | VCodePoints t =>
               match e with
               | VCodePoints [c] => contains_code_point t (VCodePoint c)
               | VCodePoints _ => Err AssertionError                   (* 10808 *)
               | _ => contains_code_point t e
               end
           | _ => Err AssertionError
           end ;;
  if text_in (tx "does not contain") rhs then Ok (negb it) else Ok it.

(* ------------------------------------------------------------------ *)
(* pseudocode_semantics.py:13233-13276: contains any duplicate entries for v and
   at least two of those entries were obtained from productions of the form ... *)

(* A PropertyDefinition: whether it is one (its symbol), the outcome of executing
   PropName on it, its production *)
Record propdef := mkPD { pd_ok : bool; pd_name : res val; pd_puk : nat }.
(* A PropertyDefinitionList: the two productions, or another node *)
Inductive pdlist : Type := PLOne (d : propdef) | PLMore (l : pdlist) (d : propdef) | PLOther.
(* 13252-13264 each_PD_in_PDL, a generator: the definitions yielded before it
   ends or fails *)
Fixpoint each_pd (l : pdlist) : list propdef * bool :=
  match l with
  | PLOne d => ([d], true)
  | PLMore l' d => let (ds, ok) := each_pd l' in if ok then (ds ++ [d], true) else (ds, false)
  | PLOther => ([], false)
  end.
(* 13266-13275 *)
Fixpoint count_pds (v : val) (puks : list nat) (n : nat) (ds : list propdef) : res nat :=
  match ds with
  | [] => Ok n
  | d :: ds' =>
    do _ <- assert_ (pd_ok d) ;;
    do name <- pd_name d ;;
    count_pds v puks
      (if same_value name v then if existsb (Nat.eqb (pd_puk d)) puks then S n else n else n) ds'
  end.
Definition duplicates_of_form (c v : val) (pdl : pdlist) (puks : list nat) : res bool :=
  do l <- as_list c ;;
  if Nat.leb (occurrences l v) 1 then Ok false else                    (* 13237 *)
  let (ds, ok) := each_pd pdl in
  do n <- count_pds v puks 0 ds ;;
  do _ <- assert_ ok ;;
  Ok (Nat.leb 2 n).                                                    (* 13276 *)

(* ------------------------------------------------------------------ *)
(* Strings, code units and code points *)

(* 3886-3889 ES_CodeUnit(m.val) *)
Definition code_unit (m : mnum) : res N :=
  match m with
  | MInt z => do _ <- assert_ ((0 <=? z) && (z <? 2 ^ 16))%Z ;; Ok (Z.to_N z)
  | MFlt _ => Err AssertionError
  end.
(* 3931-3934 the code unit whose numeric value is *)
Definition code_unit_with_value (v : val) : res val :=
  match v with
  | VMath m => do u <- code_unit m ;; Ok (VCodeUnit u)
  | VCodePoint c => do u <- code_unit (MInt (Z.of_N c)) ;; Ok (VCodeUnit u)     (* 3306-3311 *)
  | _ => Err AssertionError
  end.
(* 3581-3584, 3536-3538 the code point whose numeric value is (of a float, which
   passes the assertion, only the integral ones are modelled) *)
Definition code_point_with_value (v : val) : res val :=
  match v with
  | VMath (MInt z) => do _ <- assert_ ((0 <=? z) && (z <=? 1114111))%Z ;; Ok (VCodePoint (Z.to_N z))
  | VCodePoint c => do _ <- assert_ (c <=? 1114111)%N ;; Ok (VCodePoint c)      (* 3306-3311 *)
  | _ => Err AssertionError
  end.

(* 8680-8686 from_Python_string *)
Definition from_python (s : text) : res val :=
  do _ <- assert_ (forallb (fun c => c <? 128)%N s) ;; Ok (VString s).
(* 8695-8699 to_Python_String *)
Definition to_python (code_units : list N) : text := code_units.

(* 3916-3922: a literal of a code unit.  re.fullmatch of
   the code unit 0x([0-9A-F]{4}) \([A-Z -]+\) *)
Definition upper_hex (c : N) : bool := (((48 <=? c) && (c <=? 57)) || ((65 <=? c) && (c <=? 70)))%N.
Definition name_char (c : N) : bool := (((65 <=? c) && (c <=? 90)) || (c =? 32) || (c =? 45))%N.
Definition match_code_unit (chars : text) : option text :=
  let p := tx "the code unit 0x" in
  if negb (is_prefix p chars) then None else
  let s := skipn (length p) chars in
  let h := firstn 4 s in
  let r := skipn 4 s in
  if (length h =? 4)%nat && forallb upper_hex h && is_prefix (tx " (") r then
    match rev (skipn 2 r) with
    | c :: n => if (c =? 41)%N && forallb name_char n && negb (length n =? 0)%nat then Some h else None
    | [] => None
    end
  else None.
Definition code_unit_lit (chars : text) : res val :=
  match match_code_unit chars with
  | None => Err AssertionError
  | Some h =>
    match int_of 16 0 h with
    | Some z => do u <- code_unit (MInt z) ;; Ok (VCodeUnit u)
    | None => Err ValueError
    end
  end.

(* 8906-8910 {starred_str} *)
Definition starred_str (chars : text) : res val :=
  from_python (str_replace (tx "\*") (tx "*") (slice 2 (length chars - 2) chars)).

(* 8822-8830 the string-concatenation of *)
Fixpoint string_concat (vs : list val) : res (list N) :=
  match vs with
  | [] => Ok []
  | v :: vs' =>
    do us <- match v with VCodeUnit u => Ok [u] | VString us => Ok us | _ => Err AssertionError end ;;
    do r <- string_concat vs' ;; Ok (us ++ r)
  end.
(* 8957-8960 the String value consisting of *)
Definition string_of (v : val) : res val :=
  match v with VCodeUnit u => Ok (VString [u]) | _ => Err AssertionError end.
(* 9126-9134 each of the 16-bit elements as a Unicode BMP code point *)
Definition bmp_code_points (v : val) : res val :=
  match v with VString us => Ok (VCodePoints us) | _ => Err AssertionError end.

(* 13205-13221: ... is the StringValue of any |ReservedWord| except for yield or
   await.  rhss: for each right-hand side of ReservedWord its characters, or None
   if it is not a single terminal *)
Fixpoint all_some {A} (l : list (option A)) : res (list A) :=
  match l with
  | [] => Ok []
  | Some a :: l' => do r <- all_some l' ;; Ok (a :: r)
  | None :: _ => Err AssertionError
  end.
Definition reserved_cond (rhss : list (option text)) (v : val) : res bool :=
  match v with
  | VString us =>
    do ws <- all_some rhss ;;
    Ok (existsb (text_eqb (to_python us))
          (filter (fun w => negb (existsb (text_eqb w) [tx "yield"; tx "await"])) ws))
  | _ => Err AssertionError
  end.

(* 3804-3807 {backticked_word} *)
Definition backticked_word (chars : text) : text := slice 1 (length chars - 1) chars.
(* 3748-3749, 3826-3829: contains any code point more than once; set(list(text)) is
   as long as the text without repetitions *)
Definition more_than_once_cond (v : val) : res bool :=
  match v with
  | VCodePoints t => Ok (Nat.ltb (length (nodup N.eq_dec t)) (length t))
  | _ => Err AssertionError
  end.
(* 3744-3746, 3840-3849: contains any code points other than *)
Fixpoint single_code_points (ws : list text) : res (list N) :=
  match ws with
  | [] => Ok []
  | w :: ws' =>
    match backticked_word w with
    | [c] => do r <- single_code_points ws' ;; Ok (c :: r)
    | _ => Err AssertionError
    end
  end.
Definition other_than_cond (v : val) (ws : list text) : res bool :=
  match v with
  | VCodePoints t =>
    do allowed <- single_code_points ws ;;
    Ok (existsb (fun c => negb (existsb (N.eqb c) allowed)) t)
  | _ => Err AssertionError
  end.
(* 4433-4436, 4445-4449: the number of code points in a node's text, without
   separators *)
Definition number_of_code_points (t : text) : val := VMath (MInt (Z.of_nat (length t))).
Definition number_without_separators (t : text) : val :=
  VMath (MInt (Z.of_nat (length (str_replace (tx "_") [] t)))).
