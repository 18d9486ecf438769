(* Model of the check of a section's id against its kind and title (Section.py:1755-2355): check_id, apply_pipeline and the transformations of titles.
   A section is given by its kind, title and id, its element's name, and its parent's title. *)
From Coq Require Import Ascii String.
From Verif Require Import M_Base M_HTML M_Shared M_Indent M_Defs M_Refs M_Style M_PropPath M_Steps M_PGrammar M_Validate M_Meta.
Open Scope list_scope.
Open Scope nat_scope.
Notation length := List.length.

(* ---------- re.sub ---------- *)
(* f says, from the text before (reversed) and the text from here on, whether the pattern matches here: the replacement, and how much is matched (not nothing) *)
Fixpoint sub_go (f : text -> text -> option (text * nat)) (rb : text) (skip : nat) (t : text) : text :=
  match t with
  | [] => []
  | c :: t' =>
    match skip with
    | S k => sub_go f (c :: rb) k t'
    | O => match f rb t with
           | Some (x, n) => x ++ sub_go f (c :: rb) (n - 1) t'
           | None => c :: sub_go f (c :: rb) 0 t'
           end
    end
  end.
Definition re_sub f (t : text) : text := sub_go f [] 0 t.
(* patterns made of literals, single characters of a class, and runs of characters of a class which the pattern takes whole; each with what replaces it *)
Inductive item := ILit (p o : text) | IOne (k : N -> bool) (f : text -> text) | IRun (k : N -> bool) (f : text -> text).
Fixpoint take (k : N -> bool) (t : text) : text * text :=
  match t with c :: t' => if k c then let '(a, r) := take k t' in (c :: a, r) else ([], t) | [] => ([], []) end.
Fixpoint items_at (l : list item) (t : text) : option (text * nat) :=
  match l with
  | [] => Some ([], 0)
  | ILit p o :: l' => match eat p t with
                      | Some r => match items_at l' r with Some (x, n) => Some (o ++ x, length p + n) | None => None end
                      | None => None end
  | IOne k f :: l' => match t with
                      | c :: r => if k c then match items_at l' r with Some (x, n) => Some (f [c] ++ x, 1 + n) | None => None end else None
                      | [] => None end
  | IRun k f :: l' => match take k t with
                      | ([], _) => None
                      | (w, r) => match items_at l' r with Some (x, n) => Some (f w ++ x, length w + n) | None => None end
                      end
  end.
(* a pattern with what must hold before it and after it *)
Record rule := mkRule { r_before : text -> bool; r_body : list item; r_after : text -> bool }.
Definition rule_at (ru : rule) (rb t : text) : option (text * nat) :=
  if r_before ru rb then
    match items_at (r_body ru) t with Some (x, n) => if r_after ru (skipn n t) then Some (x, n) else None | None => None end
  else None.
Fixpoint rules_at (l : list rule) (rb t : text) : option (text * nat) :=
  match l with [] => None | ru :: l' => match rule_at ru rb t with Some r => Some r | None => rules_at l' rb t end end.
Definition anywhere (t : text) : bool := true.
Definition at_start (rb : text) : bool := match rb with [] => true | _ => false end.
(* $: at the end, or before a newline at the end *)
Definition at_dollar (t : text) : bool := text_eqb t [] || text_eqb t [10%N].
Definition plain (l : list item) : list rule := [mkRule anywhere l anywhere].
Definition first (l : list item) : rule := mkRule at_start l anywhere.
Definition same (t : text) : text := t.
Definition none (t : text) : text := [].
Definition nonnl (c : N) : bool := negb (c =? 10)%N.

(* the last place where p (not empty) comes in the text *)
Fixpoint last_split (p t : text) : option (text * text) :=
  match t with
  | [] => None
  | c :: t' => match last_split p t' with
               | Some (a, b) => Some (c :: a, b)
               | None => match eat p t with Some b => Some ([], b) | None => None end
               end
  end.

Section SecId.
Variable uniword : N -> bool.     (* which characters beyond ASCII are \w *)
Variable lower : text -> text.    (* str.lower *)
Notation word := (wordc uniword).
Definition unworded (t : text) : bool := match t with c :: _ => negb (word c) | [] => true end.

(* ---------- Section.py:1756-1763 ---------- *)
Definition remove_param_list : text -> text := re_sub (rules_at (plain [ILit (tx " (") []; IRun nonnl none])).
Definition remove_initial_The : text -> text := re_sub (rules_at [first [ILit (tx "The ") []]]).
Definition trim_underscores_from_aliases : text -> text := re_sub (rules_at [mkRule unworded [ILit (tx "_") []; IRun letter same; ILit (tx "_") []] unworded]).
Definition remove_backticks : text -> text := str_replace (tx "`") [].
Definition change_space_to_hyphen : text -> text := str_replace (tx " ") (tx "-").
Definition prepend_sec (s : text) : text := tx "sec-" ++ s.
Definition prepend (p s : text) : text := p ++ tx " " ++ s.

(* ---------- Section.py:2254-2290  extract_param_names ---------- *)
(* re.findall(r'\w+', ...): cur is the word being read, reversed *)
Fixpoint runs (cur t : text) : list text :=
  match t with
  | [] => match cur with [] => [] | _ => [rev cur] end
  | c :: t' => if word c then runs (c :: cur) t' else match cur with [] => runs [] t' | _ => rev cur :: runs [] t' end
  end.
Definition back_env : list (text * text) := [(tx "_name_", tx "_N_"); (tx "_strict_", tx "_S_"); (tx "_deletable_", tx "_D_"); (tx "_value_", tx "_V_")].
Definition back_other (pre : text) : list (text * text) :=
  [ (tx "_argList_", tx "_argumentsList_"); (tx "_char_", tx "_ch_"); (tx "_obj_", tx "_O_"); (tx "_patternOrRegexp_", tx "_pattern_")
  ; (tx "_propertyDesc_", tx "_desc_"); (tx "_propertyKey_", tx "_P_"); (tx "_proto_", tx "_V_"); (tx "_source_", tx "_X_")
  ; (tx "_thisArg_", tx "_thisArgument_"); (tx "_value_", if text_eqb pre (tx "Set") then tx "_V_" else tx "_value_") ].
Definition back (pre w : text) : text :=
  match tget_ w (if has_sub (tx "Environment Records") pre then back_env else back_other pre) with Some v => v | None => w end.
(* 2255: something, then a space and the rest in parentheses; the whole of s *)
Definition split_params (s : text) : option (text * text) :=
  match between [] (tx ")") s with
  | Some (c :: u) => if no_newline s then match last_split (tx " (") u with Some (a, b) => Some (c :: a, b) | None => None end else None
  | _ => None
  end.
Definition extract_param_names (s : text) : text :=
  match split_params s with
  | Some (pre, l) => match map (back pre) (runs [] l) with [] => pre | ns => pre ++ tx " " ++ joined (tx " ") ns end
  | None => s
  end.

(* ---------- Section.py:2293-2325 ---------- *)
Definition lower_except_last_propname (s : text) : text :=
  match last_split (tx ".") s with
  | Some (a, r) => match take word r with
                   | ([], _) => lower s
                   | (w, c) => if no_newline a then lower a ++ tx "." ++ w ++ lower c else lower s
                   end
  | None => lower s
  end.
Definition split_words (s : text) : text :=
  str_replace (tx "JSONModule") (tx "JSON Module") (re_sub (rules_at (plain [IOne lowerc same; IOne upper (fun c => tx " " ++ c)])) s).
Definition split_certain_words (s : text) : text :=
  str_replace (tx "WeakRef") (tx "Weak Ref") (str_replace (tx "FinalizationRegistry") (tx "Finalization Registry")
    (str_replace (tx "AsyncFunction") (tx "Async Function") (str_replace (tx "AggregateError") (tx "Aggregate Error") s))).
Definition undo_3238 (s : text) : text :=
  re_sub (rules_at (plain [ILit (tx "%GeneratorPrototype%") (tx "Generator.prototype")] ++ plain [ILit (tx "%AsyncGeneratorPrototype%") (tx "AsyncGenerator.prototype")]))
    (re_sub (rules_at (plain [ILit (tx "The %GeneratorPrototype% Object") (tx "Properties of the Generator Prototype Object")]
                       ++ plain [ILit (tx "The %AsyncGeneratorPrototype% Object") (tx "Properties of the AsyncGenerator Prototype Object")])) s).

(* ---------- Section.py:2327-2355  apply_pipeline: a set of texts is a list of them here ---------- *)
Inductive stage := Keep | Do (f : text -> text) | AnyOf (fs : list (option (text -> text))).
Definition stage_step (currents : list text) (st : stage) : list text :=
  match st with
  | Keep => currents
  | Do f => map f currents
  | AnyOf fs => flat_map (fun cur => map (fun alt => match alt with None => cur | Some f => f cur end) fs) currents
  end.
Definition apply_pipeline (starter : text) (pipeline : list stage) : list text := fold_left stage_step pipeline [starter].

(* ---------- the transformations written in place ---------- *)
(* 1778-1784 *)
Definition one_word (s : text) : bool :=
  match take word s with
  | ([], _) => false
  | (_, r) => text_eqb r [] || match between (tx " (") (tx ")") r with Some m => no_newline m | None => false end
  end.
Definition with_parent (ptitle s : text) : text := if one_word s then prepend ptitle s else s.
(* 1795, 1803, 1806, 1817 *)
Definition drop_options : text -> text := re_sub (rules_at [mkRule anywhere [ILit (tx " _options_") []] at_dollar]).
Definition unbracket_symbol : text -> text := re_sub (rules_at (plain [ILit (tx " [ %Symbol.") (tx " %Symbol."); IRun word same; ILit (tx "% ]") (tx "%")])).
Definition drop_get : text -> text := re_sub (rules_at [first [ILit (tx "get ") []]]).
Definition dash_dots : text -> text := re_sub (rules_at [mkRule (fun rb => negb (is_prefix (rev (tx "%symbol")) rb)) [ILit (tx ".") (tx "-")] anywhere]).
(* 1846: (.+) takes as much as it can *)
Definition the_object_at (rb t : text) : option (text * nat) :=
  match eat (tx " the ") t with
  | Some u => let '(line, r) := take nonnl u in
              if at_dollar r then match between [] (tx " Object") line with
                                  | Some ((_ :: _) as v) => Some (tx " " ++ v, length (tx " the ") + length line)
                                  | _ => None end
              else None
  | None => None
  end.
Definition drop_the_Object : text -> text := re_sub the_object_at.
(* 1891, 1933, 1960 *)
Definition drop_semantics : text -> text := re_sub (rules_at [first [ILit (tx "Static Semantics: ") []]; first [ILit (tx "Runtime Semantics: ") []]]).
Definition drop_regexpRecord : text -> text := re_sub (rules_at [mkRule anywhere [ILit (tx " _regexpRecord_") []] unworded]).
Definition join_TypedArray : text -> text := re_sub (rules_at [mkRule unworded [ILit (tx "Typed Array") (tx "TypedArray")] unworded]).
(* 2042, 2102, 2157, 2187 *)
Definition drop_ticked : text -> text :=
  re_sub (rules_at (plain [ILit (tx " ( `") []; IRun (fun c => negb (existsb (N.eqb c) [96; 40; 41]%N)) none; ILit (tx "` ) ") (tx " ")])).
Definition numeric_id : text -> text := re_sub (rules_at [mkRule at_start [IRun word lower; ILit (tx "::") (tx "-"); IRun word same] at_dollar]).
Definition unbracket_method : text -> text := re_sub (rules_at [first [ILit (tx "[[") []; IRun word same; ILit (tx "]]") []]]).
Definition drop_static : text -> text := re_sub (rules_at [first [ILit (tx "Static Semantics: ") []]]).

(* ---------- Section.py:1765-2233  the pipelines, and the ids let through ---------- *)
Record isec := mkISec { i_kind : text; i_title : text; i_id : text; i_element : text; i_ptitle : text }.
Definition starts (l : list text) (t : text) : bool := existsb (fun p => is_prefix p t) l.
Definition ends_in (l : list text) (t : text) : bool := existsb (fun p => is_prefix (rev p) (rev t)) l.
Definition kind_in (s : isec) (l : list text) : bool := existsb (text_eqb (i_kind s)) l.
(* 1766-1835 *)
Definition property_stages (s : isec) : list stage :=
  [ Do undo_3238
  ; AnyOf [None; Some (with_parent (i_ptitle s))]
  ; Do (str_replace (tx "The ") [])
  ; AnyOf [None; Some (str_replace (tx " Instances ") (tx " Instance "))]
  ; AnyOf [Some remove_param_list; Some extract_param_names]
  ; Do drop_options
  ; Do trim_underscores_from_aliases
  ; Do unbracket_symbol
  ; AnyOf [None; Some drop_get]
  ; AnyOf [None; Some split_certain_words]
  ; AnyOf [Some lower; Some lower_except_last_propname]
  ; Do change_space_to_hyphen
  ; AnyOf [None; Some dash_dots]
  ; Do prepend_sec ].
Definition property_failures : list text :=
  [ tx "sec-constructor-properties-of-the-global-object-finnalization-registry"; tx "sec-function-p1-p2-pn-body"; tx "sec-bigint-constructor-number-value"
  ; tx "sec-finalization-registry-cleanup-callback"; tx "sec-async-function-constructor-arguments"; tx "sec-async-function-constructor-prototype"
  ; tx "sec-async-function-prototype-properties-constructor"; tx "sec-async-function-prototype-properties-toStringTag"; tx "String.prototype.trimleft"
  ; tx "String.prototype.trimright"; tx "sec-isfinite-number"; tx "sec-isnan-number" ].
(* 1838-1862 *)
Definition intrinsic_stages : list stage :=
  [ Do undo_3238; Do remove_initial_The; AnyOf [None; Some drop_the_Object]; Do trim_underscores_from_aliases; Do split_certain_words; Do lower; Do change_space_to_hyphen; Do prepend_sec ].
Definition intrinsic_failures : list text :=
  [ tx "sec-properties-of-the-aggregate-error-constructors"; tx "sec-properties-of-the-aggregate-error-prototype-objects"; tx "sec-properties-of-the-%typedarrayprototype%-object"
  ; tx "sec-properties-of-typedarray-prototype-objects"; tx "sec-asynciteratorprototype"; tx "sec-properties-of-asyncgeneratorfunction"
  ; tx "sec-async-function-constructor-properties"; tx "sec-async-function-prototype-properties" ].
(* 1865-1886 *)
Definition shorthand_stages : list stage :=
  [ Do remove_param_list; Do trim_underscores_from_aliases; Do split_certain_words; Do remove_backticks; Do lower; Do change_space_to_hyphen; Do prepend_sec ].
Definition shorthand_failures : list text :=
  [ tx "sec-properties-of-the-arraybuffer-instances"; tx "sec-properties-of-the-sharedarraybuffer-instances"; tx "sec-properties-of-asyncgenerator-intances"
  ; tx "sec-object.prototype-legacy-accessor-methods"; tx "sec-throw-an-exception" ].
(* 1889-2008 *)
Definition operation_stages (s : isec) : list stage :=
  let t := i_title s in
  [ Do drop_semantics
  ; (if starts [tx "ForIn/OfHeadEvaluation"; tx "ForIn/OfBodyEvaluation"; tx "CaseClauseIsSelected"; tx "ScriptEvaluation"; tx "RepeatMatcher"; tx "IsWordChar"; tx "CharacterSetMatcher";
                tx "Canonicalize"; tx "CharacterRange"; tx "HasEitherUnicodeFlag"; tx "UnicodeMatchProperty"; tx "UnicodeMatchPropertyValue"; tx "CharacterRangeOrUnion"] t
     then Do (prepend (tx "Runtime Semantics")) else Keep)
  ; (if starts [tx "IsExtensible"; tx "Get "; tx "Set "; tx "UTC "; tx "Canonicalize "; tx "UnicodeMatchProperty "; tx "UnicodeMatchPropertyValue "] t
     then Do extract_param_names else Do remove_param_list)
  ; Do drop_regexpRecord
  ; Do trim_underscores_from_aliases
  ; (if starts [tx "RepeatMatcher"; tx "IsWordChar"; tx "CharacterSetMatcher"; tx "CharacterRange"; tx "HasEitherUnicodeFlag"; tx "CharacterRangeOrUnion"] t
     then Do (fun s => s ++ tx " Abstract Operation") else if is_prefix (tx "Completion ") t then Do (fun s => s ++ tx " AO") else Keep)
  ; AnyOf [None; Some split_words]
  ; Do join_TypedArray
  ; Do (str_replace (tx "/") [])
  ; (if starts [tx "ContinueDynamicImport"; tx "InnerModuleLoading"; tx "ContinueModuleLoading"; tx "InnerModuleLinking"; tx "GetImportedModule"; tx "FinishLoadingImportedModule";
                tx "SetterThatIgnoresPrototypeProperties"; tx "ModuleRequestsEqual"; tx "AllImportAttributesSupported"; tx "IncrementModuleAsyncEvaluationCount"; tx "EvaluateModuleSync"] t
     then Keep else Do lower)
  ; Do change_space_to_hyphen
  ; (if starts [tx "TypedArraySpeciesCreate"; tx "Await "] t then Keep else Do prepend_sec) ].
Definition operation_failures : list text :=
  [ tx "sec-createlistiteratorRecord"; tx "sec-weakref-execution"; tx "sec-utf16decodesurrogatepair"; tx "sec-runtime-semantics-forin-div-ofbodyevaluation-lhs-stmt-iterator-lhskind-labelset"
  ; tx "sec-timezoneestring"; tx "sec-async-functions-abstract-operations-async-function-start"; tx "sec-sharedatablockeventset"; tx "sec-tear-free-aligned-reads"; tx "sec-createiterresultobject" ].
(* 2011-2024 *)
Definition host_stages : list stage := [Do remove_param_list; Do lower; Do prepend_sec].
Definition host_failures : list text := [tx "sec-host-cleanup-finalization-registry"; tx "sec-HostLoadImportedModule"; tx "sec-host-promise-rejection-tracker"].
(* 2027-2096 *)
Definition sdo_stages (s : isec) : list stage :=
  [ AnyOf [Some (str_replace (tx ":") []); Some drop_semantics] ] ++
  (if text_eqb (i_title s) (tx "Runtime Semantics: Evaluation") && negb (text_eqb (i_ptitle s) (tx "Syntax-Directed Operations")) then
     [ Do (prepend (i_ptitle s)); Do remove_initial_The; Do (str_replace (tx "( `+` )") (tx "plus")); Do (str_replace (tx "( `-` )") (tx "minus")); Do drop_ticked; Do remove_backticks
     ; Do (str_replace (tx ",") []); Do (fun s => str_replace (tx " - ") (tx " minus ") (str_replace (tx " + ") (tx " plus ") s)); Do (str_replace (tx "Exponentiation") (tx "Exp")) ]
   else if starts [tx "Runtime Semantics: PropertyBindingInitialization"; tx "Runtime Semantics: RestBindingInitialization"] (i_title s) then [Do (prepend (i_ptitle s))]
   else if ends_in [tx "CapturingGroupNumber"; tx "IsCharacterClass"; tx "CharacterValue"] (i_title s) then
     [ Do (prepend (tx "Patterns")); Do split_words; if text_eqb (i_element s) (tx "emu-annex") then Do (fun s => s ++ tx " AnnexB") else Keep ]
   else []) ++
  [Do lower; Do change_space_to_hyphen; Do prepend_sec].
Definition sdo_failures : list text :=
  [ tx "sec-runtime-semantics-mv-for-stringintegerliteral"; tx "sec-string-literals-static-semantics-mv"; tx "sec-optional-chaining-evaluation"; tx "sec-optional-chaining-chain-evaluation"
  ; tx "sec-import-call-runtime-semantics-evaluation"; tx "sec-for-in-and-for-of-statements-runtime-semantics-evaluation"; tx "sec-asyncgenerator-definitions-evaluation"
  ; tx "sec-static-semantics-classelementevaluation"; tx "sec-script-semantics-runtime-semantics-evaluation" ].
(* 2099-2110 *)
Definition numeric_stages : list stage := [Do remove_param_list; Do numeric_id; Do (fun s => tx "numeric-types-" ++ s); Do prepend_sec].
Definition numeric_failures : list text := [tx "sec-numeric-types-number-tostring"; tx "sec-numeric-types-bigint-tostring"].
(* 2112-2151 *)
Definition env_stages (s : isec) : list stage :=
  (if starts [tx "BindThisValue "; tx "GetSuperBase "; tx "HasVarDeclaration "; tx "HasLexicalDeclaration "; tx "HasRestrictedGlobalProperty "; tx "CanDeclareGlobalVar ";
              tx "CanDeclareGlobalFunction "; tx "CreateGlobalVarBinding "; tx "CreateGlobalFunctionBinding "; tx "CreateImportBinding "] (i_title s)
   then [Do remove_param_list] else [Do (prepend (i_ptitle s)); Do extract_param_names; Do trim_underscores_from_aliases]) ++
  [Do lower; Do change_space_to_hyphen; Do prepend_sec].
(* 2154-2182 *)
Definition internal_stages (s : isec) : list stage :=
  [Do unbracket_method] ++
  (if has_sub (tx "TypedArray") (i_ptitle s) then [Do remove_param_list; Do (prepend (tx "TypedArray"))]
   else [Do extract_param_names; Do trim_underscores_from_aliases; Do (prepend (i_ptitle s))]) ++
  [Do lower; Do change_space_to_hyphen; Do prepend_sec].
(* 2185-2201 *)
Definition early_stages (s : isec) : list stage :=
  [ AnyOf [Some drop_static; Some (str_replace (tx ":") [])]; Do (prepend (i_ptitle s)); Do remove_initial_The; Do remove_backticks; Do lower; Do change_space_to_hyphen; Do prepend_sec ].
Definition early_failures : list text :=
  [ tx "sec-primary-expression-regular-expression-literals-static-semantics-early-errors"; tx "sec-static-semantics-template-early-errors"
  ; tx "sec-left-hand-side-expressions-static-semantics-early-errors"; tx "sec-for-in-and-for-of-statements-static-semantics-early-errors"; tx "sec-patterns-static-semantics-early-errors-annexb" ].
(* nothing for the kinds of 2204-2205 *)
Definition pipeline_of (s : isec) : res (option (list stage * list text)) :=
  if has_sub (tx "_property") (i_kind s) || kind_in s [tx "CallConstruct"] then Ok (Some (property_stages s, property_failures))
  else if kind_in s [tx "intrinsic: info // CallConstruct"; tx "intrinsic: info // properties"; tx "intrinsic: - // properties"] then Ok (Some (intrinsic_stages, intrinsic_failures))
  else if kind_in s [tx "shorthand"; tx "- // properties"; tx "instances: info // properties"; tx "loop"] then Ok (Some (shorthand_stages, shorthand_failures))
  else if kind_in s [tx "abstract_operation"] then Ok (Some (operation_stages s, operation_failures))
  else if kind_in s [tx "host-defined_abstract_operation"; tx "implementation-defined_abstract_operation"] then Ok (Some (host_stages, host_failures))
  else if kind_in s [tx "syntax_directed_operation"] then Ok (Some (sdo_stages s, sdo_failures))
  else if kind_in s [tx "numeric_method"] then Ok (Some (numeric_stages, numeric_failures))
  else if kind_in s [tx "env_rec_method"; tx "env_rec_method_unused"] then Ok (Some (env_stages s, []))
  else if kind_in s [tx "internal_method"] then Ok (Some (internal_stages s, []))
  else if kind_in s [tx "early_errors"] then Ok (Some (early_stages s, early_failures))
  else if kind_in s [tx "catchall"; tx "changes"; tx "module_rec_method"] then Ok None
  else Err AssertionError.
(* 2239-2252: the messages at the section *)
Definition check_id (s : isec) : res (list text) :=
  do p <- pipeline_of s ;;
  match p with
  | None => Ok []
  | Some (stages, failures) =>
    let possibles := apply_pipeline (i_title s) stages in
    if tmem_ (i_id s) possibles || tmem_ (i_id s) failures then Ok []
    else Ok [tx "Based on the section's kind (" ++ i_kind s ++ tx ") and title, the value of its `id` attribute should be one of:"
             ++ concat (map (fun poss => 10%N :: tx "--    " ++ poss) (sorted_set possibles))]
  end.
End SecId.
