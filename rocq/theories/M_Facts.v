(* Model of what sections say about intrinsic objects: the names of objects (intrinsics.py:18-95), and how facts are expanded and normalized (Section.py:3307-3361, 3417-3590). *)
From Coq Require Import Ascii String.
From Verif Require Import M_Base M_HTML M_Shared M_Records M_Refs M_Style M_PropPath M_PGrammar M_Validate M_Steps.
Open Scope list_scope.
Open Scope nat_scope.
Notation length := List.length.

Section Facts.
Variable uniword : N -> bool.   (* which characters beyond ASCII are \w *)
Variable up : N -> text.        (* str.upper of a single character *)

(* ---------- intrinsics.py:18-95  get_pdn ---------- *)
(* 24 *)
Definition pc (s : text) : text := tx "%" ++ s ++ tx "%".
(* 27: %[^%]+% *)
Definition delimited (p : text) : bool := match between (tx "%") (tx "%") p with Some (c :: m) => forallb (fun x => negb (x =? 37)%N) (c :: m) | _ => false end.
(* 47-54 *)
Definition fixed_phrases : list (text * text) :=
  [ (tx "the constructor of async function objects", tx "%AsyncFunction%")
  ; (tx "the constructor of async generator function objects", tx "%AsyncGeneratorFunction%")
  ; (tx "the constructor of generator function objects", tx "%GeneratorFunction%")
  ; (tx "the super class of all typed Array constructors", tx "%TypedArray%")
  ; (tx "the prototype of Iterator Helper objects", tx "%IteratorHelperPrototype%")
  ; (tx "the prototype of wrapped iterator objects returned by Iterator.from", tx "%WrapForValidIteratorPrototype%") ].
(* re.split at single characters; cur is the piece being read, reversed *)
Fixpoint pieces (sep : N -> bool) (cur t : text) : list text :=
  match t with
  | [] => [rev cur]
  | c :: t' => if sep c then rev cur :: pieces sep [] t' else pieces sep (c :: cur) t'
  end.
(* 65: [- ] *)
Definition hyphen_or_space (c : N) : bool := (c =? 45)%N || (c =? 32)%N.
(* 63-66: word[0].upper() + word[1:], joined *)
Fixpoint camel (ws : list text) : res text :=
  match ws with
  | [] => Ok []
  | w :: ws' => match w with [] => Err IndexError | c :: w' => do r <- camel ws' ;; Ok (up c ++ w' ++ r) end
  end.
(* (.+) as the whole of a middle *)
Definition some_line (o : option text) : option text := match o with Some ((_ :: _) as m) => if no_newline m then Some m else None | _ => None end.
(* (\w+) as the whole of a middle *)
Definition some_word (o : option text) : option text := match o with Some m => if words uniword m then Some m else None | None => None end.
Definition either {A} (a b : option A) : option A := match a with Some x => Some x | None => b end.
(* (the )? in front: with it first *)
Definition opt_the (f : text -> option text) (p : text) : option text := either (and_then (eat (tx "the ") p) f) (f p).
(* 82: \w+ and then \.\w+ any number of times *)
Definition dotted_words (t : text) : bool := forallb (words uniword) (pieces (fun c => (c =? 46)%N) [] t).
Definition some_dotted (o : option text) : option text := match o with Some m => if dotted_words m then Some m else None | None => None end.
Definition get_pdn (p : text) : res text :=
  if delimited p then
    if text_eqb p (tx "%GeneratorFunction.prototype.prototype%") then Ok (tx "%GeneratorPrototype%")
    else if text_eqb p (tx "%AsyncGeneratorFunction.prototype.prototype%") then Ok (tx "%AsyncGeneratorPrototype%")
    else Ok p
  else if text_eqb p (tx "the global object") || text_eqb p (tx "global object") then Ok (tx "%(global)%")
  else match tget_ p fixed_phrases with Some r => Ok r | None =>
  match either (some_line (between (tx "the prototype of ") (tx " Iterator objects") p)) (some_line (between (tx "the prototype of ") (tx " iterator objects") p)) with
  | Some what => do x <- camel (pieces hyphen_or_space [] what) ;; Ok (pc (x ++ tx "IteratorPrototype"))
  | None =>
  match opt_the (fun q => some_word (between (tx "%") (tx "% prototype object") q)) p with
  | Some w => Ok (pc (w ++ tx ".prototype"))
  | None =>
  match opt_the (fun q => either (some_word (between [] (tx " prototype object") q)) (some_word (between [] (tx " prototype") q))) p with
  | Some w => do x <- normalize_property_path uniword (w ++ tx ".prototype") ;; Ok (pc x)
  | None =>
  match either (some_word (between (tx "the ") (tx " constructor") p)) (some_word (between (tx "the ") (tx " object") p)) with
  | Some w => Ok (pc w)
  | None =>
  match either (some_dotted (between (tx "the %") (tx "% object") p)) (some_dotted (between (tx "the %") (tx "% intrinsic object") p)) with
  | Some w => Ok (pc w)
  | None =>
  match some_word (between (tx "the ") (tx " function") p) with
  | Some w => Ok (pc w)
  | None =>
  match some_line (between (tx "get ") [] p) with
  | Some path => do x <- normalize_property_path uniword path ;; Ok (pc (x ++ tx ":get"))
  | None =>
  match some_line (between (tx "set ") [] p) with
  | Some path => do x <- normalize_property_path uniword path ;; Ok (pc (x ++ tx ":set"))
  | None => do x <- normalize_property_path uniword p ;; Ok (pc x)
  end end end end end end end end end.

(* ---------- Section.py:3444-3590  section_put_fact ---------- *)
(* the right side of a fact; OtherR: anything else *)
Inductive rside := RStr (s : text) | RSlot (name value : text) | RProp (key : text) (attrs : list (text * text)) | OtherR.
(* 3473-3487: expand_str; the replacements are done in this order *)
Definition expand_str (name expansion s : text) : text :=
  let u := tx "_" ++ name ++ tx "_" in
  let q := tx "*""" ++ expansion ++ tx """*" in
  str_replace (tx "the String value of the constructor name specified for it in <emu-xref href=""#table-the-typedarray-constructors""></emu-xref>") q
  (str_replace (tx "the String value <emu-val>""<var>" ++ name ++ tx "</var>""</emu-val>") q
  (str_replace u expansion
  (str_replace (tx "a " ++ u) (tx "the " ++ expansion)
  (str_replace (tx "each " ++ u) (tx "the " ++ expansion)
  (str_replace (tx "the String value consisting of the name of the constructor (the name used instead of _NativeError_)") q
  (str_replace (tx "the constructor itself") (tx "the " ++ expansion ++ tx " constructor")
  (str_replace (tx "the corresponding " ++ u ++ tx " prototype intrinsic object (<emu-xref href=""#sec-properties-of-typedarray-prototype-objects""></emu-xref>)")
     (tx "the " ++ expansion ++ tx " prototype object") s))))))).
(* 3497-3515; S_Property's assertion on the names of attributes, which stay the same, has held before *)
Definition expand_side (f : text -> text) (r : rside) : res rside :=
  match r with
  | RStr s => Ok (RStr (f s))
  | RSlot n v => Ok (RSlot n (f v))
  | RProp k a => Ok (RProp (f k) (map (fun x => (fst x, f (snd x))) a))
  | OtherR => Err AssertionError
  end.
(* 3469-3518: one fact for each expansion; the left side is None if it is not a string *)
Fixpoint expand_all (name : text) (l : option text) (r : rside) (es : list text) : res (list (option text * rside)) :=
  match es with
  | [] => Ok []
  | e :: es' =>
      match l with
      | None => Err AssertionError
      | Some s => do r' <- expand_side (expand_str name e) r ;; do rest <- expand_all name l r es' ;; Ok ((Some (expand_str name e s), r') :: rest)
      end
  end.
(* 3458-3524; the two lists of names come from the specification (3450-3461) *)
Definition expanded_facts (natives typeds : list text) (title : text) (l : option text) (r : rside) : res (list (option text * rside)) :=
  if has_sub (tx "_NativeError_") title then expand_all (tx "NativeError") l r natives
  else if has_sub (tx "_TypedArray_") title then expand_all (tx "TypedArray") l r typeds
  else Ok [(l, r)].
(* 3534-3557: normalize_str *)
Definition as_is : list text :=
  [ tx "*"; tx "the largest"; tx "the smallest"; tx "the Number value"; tx "The Number value"; tx "the Element Size"; tx "the empty String"; tx "the String value"
  ; tx "the well-known symbol"; tx "1"; tx "host-defined"; tx "emu-alg in"; tx "prose in" ].
Definition normalize_str (s : text) : res text := if existsb (fun p => is_prefix p s) as_is then Ok s else get_pdn s.
Fixpoint normalize_attrs (a : list (text * text)) : res (list (text * text)) :=
  match a with [] => Ok [] | (n, v) :: a' => do v' <- normalize_str v ;; do r <- normalize_attrs a' ;; Ok ((n, v') :: r) end.
(* 3565-3582 *)
Definition normalize_side (verb : text) (r : rside) : res rside :=
  if text_eqb verb (tx "exists") || text_eqb verb (tx "is") then Ok r
  else match r with
       | RStr s => do x <- normalize_str s ;; Ok (RStr x)
       | RSlot n v => do x <- normalize_str v ;; Ok (RSlot n x)
       | RProp k a => do x <- normalize_attrs a ;; Ok (RProp k x)
       | OtherR => Err AssertionError
       end.
(* 3530-3588: what is appended to intrinsic_facts_cooked for one fact *)
Definition cook (verb : text) (f : option text * rside) : outm (text * text * rside) unit :=
  match fst f with
  | None => mfail TypeError
  | Some l =>
      match get_pdn l with
      | Err e => mfail e
      | Ok nl =>
          match normalize_side verb (snd f) with
          | Err e => mfail e
          | Ok nr => if text_eqb verb (tx "is-aka") then massert (match nr with RStr x => text_eqb nl x | _ => false end) else mtell [(nl, verb, nr)]
          end
      end
  end.
Fixpoint cook_all (verb : text) (fs : list (option text * rside)) : outm (text * text * rside) unit :=
  match fs with [] => mret tt | f :: fs' => mbind (cook verb f) (fun _ => cook_all verb fs') end.
(* the facts that are added to intrinsic_facts_cooked; to intrinsic_facts_raw the fact itself is always added (3446) *)
Definition put_fact (natives typeds : list text) (title : text) (l : option text) (verb : text) (r : rside) : outm (text * text * rside) unit :=
  match expanded_facts natives typeds title l r with Err e => mfail e | Ok fs => cook_all verb fs end.

(* ---------- Section.py:3307-3361 ---------- *)
(* section.this_property: container and key *)
Definition confirm_this_property (this : option (option text * text)) (t : text) : res unit :=
  match split_prop_path uniword (detick t) with
  | Err AssertionError => Ok tt
  | Err e => Err e
  | Ok (c, k) =>
      match this with
      | Some (c', k') =>
          do _ <- assert_ (match c with None => true | Some x => match c' with Some y => text_eqb x y | None => false end end) ;;
          assert_ (text_eqb k k')
      | None => assert_ (match c with None => true | Some _ => false end)
      end
  end.
(* the groups of the match: func_name1 or func_name2, group 2, func_what1 or func_what3 *)
Record funcref := mkFunc { fn_name : option text; fn_group2 : option text; fn_what : option text }.
Inductive pmsg := ByName | ExpectedMethod (got : text) | UnexpectedMethod.
Definition wants_method (title : text) (this_object : option text) : bool :=
  ((has_sub (tx ".prototype") title || has_sub (tx "Prototype%") title) && negb (is_prefix (tx "get ") title))
  || match this_object with Some o => existsb (text_eqb o) [tx "Array.from"; tx "Array.of"; tx "%TypedArray%.from"; tx "%TypedArray%.of"] | None => false end.
Definition check_this_function (title : text) (this : option (option text * text)) (this_object : option text) (f : funcref) : outm pmsg unit :=
  mbind (match fn_name f with
         | Some n => if text_eqb n (tx "It") then mret tt
                     else match confirm_this_property this n with
                          | Err e => mfail e
                          | Ok _ => if match fn_group2 f with Some g => text_eqb g (tx "Each") | None => false end then mret tt else mtell [ByName]
                          end
         | None => mret tt
         end) (fun _ =>
  match fn_what f with
  | Some w => if wants_method title this_object
              then if text_eqb w (tx "method") then mret tt else mtell [ExpectedMethod w]
              else if text_eqb w (tx "method") then mtell [UnexpectedMethod] else mret tt
  | None => mret tt
  end).
End Facts.
