(* C102: the id of a section is accepted exactly if it comes from the section's title by the rules of its kind, or is one of the known exceptions. *)
From Coq Require Import Ascii String Lia List Sorted.
From Verif Require Import M_Base L_Base M_HTML M_Shared M_Indent M_Defs M_Refs M_Style L_StyleDesc L_ValTree M_PropPath L_PropPath Properties_PropPath M_PGrammar Properties_PGrammar M_Steps Properties_Steps M_Validate L_Validate L_ValNodes M_Meta M_Deps L_DepsReach M_SecId L_SecId.
Open Scope list_scope.
Open Scope nat_scope.
Notation length := List.length.

Section Spec.
Variable uw : N -> bool.          (* which characters beyond ASCII are letters or digits *)
Variable lower : text -> text.    (* str.lower *)
Notation wordch := (word_char uw).
Definition a_word (w : text) : Prop := w <> [] /\ all_are wordch w.
Definition no_word_before (b : text) : Prop := next_not wordch (rev b).
Definition no_word_after (r : text) : Prop := next_not wordch r.
Definition line_end (r : text) : Prop := r = [] \/ exists r', r = 10%N :: r'.
Definition text_end (r : text) : Prop := r = [] \/ r = [10%N].
Definition starting (p : text) (t : text) : Prop := exists r, t = p ++ r.
Definition starting_any (ps : list text) (t : text) : Prop := exists p, In p ps /\ starting p t.
Definition ending_any (ps : list text) (t : text) : Prop := exists p a, In p ps /\ t = a ++ p.

(* ---------- what is replaced by what ---------- *)
(* from a space and a parenthesis to the end of the line *)
Definition m_params : mrel := fun b m r x => exists u, m = tx " (" ++ u /\ u <> [] /\ ~ In 10%N u /\ line_end r /\ x = [].
(* the beginning of the text *)
Definition m_first (p : text) : mrel := fun b m r x => b = [] /\ m = p /\ x = [].
Definition m_alias : mrel := fun b m r x => exists w, m = tx "_" ++ w ++ tx "_" /\ w <> [] /\ all_are is_letter w /\ x = w /\ no_word_before b /\ no_word_after r.
Definition m_gen_object : mrel := fun b m r x => exists g, In g [tx "Generator"; tx "AsyncGenerator"] /\ m = tx "The %" ++ g ++ tx "Prototype% Object" /\ x = tx "Properties of the " ++ g ++ tx " Prototype Object".
Definition m_gen : mrel := fun b m r x => exists g, In g [tx "Generator"; tx "AsyncGenerator"] /\ m = tx "%" ++ g ++ tx "Prototype%" /\ x = g ++ tx ".prototype".
Definition m_options : mrel := fun b m r x => m = tx " _options_" /\ text_end r /\ x = [].
Definition m_symbol : mrel := fun b m r x => exists w, a_word w /\ m = tx " [ %Symbol." ++ w ++ tx "% ]" /\ x = tx " %Symbol." ++ w ++ tx "%".
Definition m_dot : mrel := fun b m r x => m = tx "." /\ x = tx "-" /\ ~ exists a, b = a ++ tx "%symbol".
Definition m_the_object : mrel := fun b m r x => exists v, v <> [] /\ ~ In 10%N v /\ m = tx " the " ++ v ++ tx " Object" /\ text_end r /\ x = tx " " ++ v.
Definition m_semantics : mrel := fun b m r x => b = [] /\ x = [] /\ (m = tx "Static Semantics: " \/ m = tx "Runtime Semantics: ").
Definition m_record : mrel := fun b m r x => m = tx " _regexpRecord_" /\ x = [] /\ no_word_after r.
Definition m_typed : mrel := fun b m r x => m = tx "Typed Array" /\ x = tx "TypedArray" /\ no_word_before b /\ no_word_after r.
Definition m_ticked : mrel := fun b m r x => exists u, u <> [] /\ (forall c, In c u -> c <> 96%N /\ c <> 40%N /\ c <> 41%N) /\ m = tx " ( `" ++ u ++ tx "` ) " /\ x = tx " ".
Definition m_numeric : mrel := fun b m r x => b = [] /\ text_end r /\ exists v w, a_word v /\ a_word w /\ m = v ++ tx "::" ++ w /\ x = lower v ++ tx "-" ++ w.
Definition m_method : mrel := fun b m r x => b = [] /\ exists w, a_word w /\ m = tx "[[" ++ w ++ tx "]]" /\ x = w.
Definition m_hump : mrel := fun b m r x => exists c d, is_low c /\ is_up d /\ m = [c; d] /\ x = [c; 32%N; d].

(* ---------- the transformations ---------- *)
Definition rel := text -> text -> Prop.
Definition unchanged : rel := eq.
Definition lowered : rel := fun s s' => s' = lower s.
Definition after (R S0 : rel) : rel := fun s s' => exists u, R s u /\ S0 u s'.
Definition if_then (P : Prop) (R S0 : rel) : rel := fun s s' => P /\ R s s' \/ ~ P /\ S0 s s'.
Definition led_by (p : text) : rel := fun s s' => s' = p ++ tx " " ++ s.
Definition followed_by (p : text) : rel := fun s s' => s' = s ++ tx " " ++ p.
Definition prefixed (p : text) : rel := fun s s' => s' = p ++ s.
Definition no_params : rel := replaced m_params.
Definition no_The : rel := replaced (m_first (tx "The ")).
Definition no_aliases : rel := replaced m_alias.
Definition no_semantics : rel := replaced m_semantics.
Definition no_static : rel := replaced (m_first (tx "Static Semantics: ")).
Definition old_generators : rel := after (replaced m_gen_object) (replaced m_gen).
Definition certain_words : rel :=
  after (swapped (tx "AggregateError") (tx "Aggregate Error")) (after (swapped (tx "AsyncFunction") (tx "Async Function"))
    (after (swapped (tx "FinalizationRegistry") (tx "Finalization Registry")) (swapped (tx "WeakRef") (tx "Weak Ref")))).
Definition all_words : rel := after (replaced m_hump) (swapped (tx "JSONModule") (tx "JSON Module")).
(* a word, perhaps with a list of parameters *)
Definition single (s : text) : Prop := exists w, a_word w /\ (s = w \/ exists l, s = w ++ tx " (" ++ l ++ tx ")" /\ ~ In 10%N l).
Definition with_parents (p : text) : rel := fun s s' => single s /\ s' = p ++ tx " " ++ s \/ ~ single s /\ s' = s.
(* the words in a text *)
Inductive words_of : text -> list text -> Prop :=
| wo_end : words_of [] []
| wo_other c r ws : ~ wordch c -> words_of r ws -> words_of (c :: r) ws
| wo_word w r ws : a_word w -> next_not wordch r -> words_of r ws -> words_of (w ++ r) (w :: ws).
(* names of parameters have changed *)
Definition renamings (pre : text) (now before : text) : Prop :=
  contains (tx "Environment Records") pre /\ In (now, before) [(tx "_name_", tx "_N_"); (tx "_strict_", tx "_S_"); (tx "_deletable_", tx "_D_"); (tx "_value_", tx "_V_")] \/
  ~ contains (tx "Environment Records") pre /\
    (In (now, before) [ (tx "_argList_", tx "_argumentsList_"); (tx "_char_", tx "_ch_"); (tx "_obj_", tx "_O_"); (tx "_patternOrRegexp_", tx "_pattern_"); (tx "_propertyDesc_", tx "_desc_")
                      ; (tx "_propertyKey_", tx "_P_"); (tx "_proto_", tx "_V_"); (tx "_source_", tx "_X_"); (tx "_thisArg_", tx "_thisArgument_") ] \/
     pre = tx "Set" /\ now = tx "_value_" /\ before = tx "_V_").
Definition old_name (pre now before : text) : Prop := renamings pre now before \/ (forall v, ~ renamings pre now v) /\ before = now.
(* a title with a list of parameters: the last parenthesis after a space, and the one at the end *)
Definition listed (s pre l : text) : Prop := s = pre ++ tx " (" ++ l ++ tx ")" /\ pre <> [] /\ ~ In 10%N s /\ ~ contains (tx " (") l.
Definition named_params : rel := fun s s' =>
  (exists pre l ws os, listed s pre l /\ words_of l ws /\ Forall2 (old_name pre) ws os /\ s' = pre ++ concat (map (fun o => tx " " ++ o) os)) \/
  (forall pre l, ~ listed s pre l) /\ s' = s.
(* in lower case but for the last name after a dot *)
Definition dotted (s a w c : text) : Prop := s = a ++ tx "." ++ w ++ c /\ ~ In 10%N a /\ a_word w /\ next_not wordch c /\ ~ In 46%N c.
Definition lowered_but_last : rel := fun s s' =>
  (exists a w c, dotted s a w c /\ s' = lower a ++ tx "." ++ w ++ lower c) \/ (forall a w c, ~ dotted s a w c) /\ s' = lower s.

(* ---------- the ways from a title to an id ---------- *)
Definition choice := list rel.
Inductive reach : list choice -> rel :=
| reach_end s : reach [] s s
| reach_step (R : rel) c cs s u s' : In R c -> R s u -> reach cs u s' -> reach (c :: cs) s s'.
Definition to_id : list choice := [[lowered]; [swapped (tx " ") (tx "-")]; [prefixed (tx "sec-")]].
Definition late_method (s : isec) : Prop :=
  starting_any [tx "BindThisValue "; tx "GetSuperBase "; tx "HasVarDeclaration "; tx "HasLexicalDeclaration "; tx "HasRestrictedGlobalProperty "; tx "CanDeclareGlobalVar ";
    tx "CanDeclareGlobalFunction "; tx "CreateGlobalVarBinding "; tx "CreateGlobalFunctionBinding "; tx "CreateImportBinding "] (i_title s).
Definition an_evaluation (s : isec) : Prop := i_title s = tx "Runtime Semantics: Evaluation" /\ i_ptitle s <> tx "Syntax-Directed Operations".
Definition a_binding (s : isec) : Prop := starting_any [tx "Runtime Semantics: PropertyBindingInitialization"; tx "Runtime Semantics: RestBindingInitialization"] (i_title s).
Definition a_pattern (s : isec) : Prop := ending_any [tx "CapturingGroupNumber"; tx "IsCharacterClass"; tx "CharacterValue"] (i_title s).
Inductive sdo_middle (s : isec) : list choice -> Prop :=
| sdo_evaluation : an_evaluation s -> sdo_middle s
    [ [led_by (i_ptitle s)]; [no_The]; [swapped (tx "( `+` )") (tx "plus")]; [swapped (tx "( `-` )") (tx "minus")]; [replaced m_ticked]; [swapped (tx "`") []]; [swapped (tx ",") []]
    ; [after (swapped (tx " + ") (tx " plus ")) (swapped (tx " - ") (tx " minus "))]; [swapped (tx "Exponentiation") (tx "Exp")] ]
| sdo_binding : a_binding s -> sdo_middle s [[led_by (i_ptitle s)]]
| sdo_pattern : ~ a_binding s -> a_pattern s -> sdo_middle s [[led_by (tx "Patterns")]; [all_words]; [if_then (i_element s = tx "emu-annex") (followed_by (tx "AnnexB")) unchanged]]
| sdo_other : ~ an_evaluation s -> ~ a_binding s -> ~ a_pattern s -> sdo_middle s [].
(* the kinds, with the exceptions *)
Inductive route (s : isec) : list choice -> list text -> Prop :=
| rt_property : contains (tx "_property") (i_kind s) \/ i_kind s = tx "CallConstruct" ->
    route s
      [ [old_generators]
      ; [unchanged; with_parents (i_ptitle s)]
      ; [swapped (tx "The ") []]
      ; [unchanged; swapped (tx " Instances ") (tx " Instance ")]
      ; [no_params; named_params]
      ; [replaced m_options]
      ; [no_aliases]
      ; [replaced m_symbol]
      ; [unchanged; replaced (m_first (tx "get "))]
      ; [unchanged; certain_words]
      ; [lowered; lowered_but_last]
      ; [swapped (tx " ") (tx "-")]
      ; [unchanged; replaced m_dot]
      ; [prefixed (tx "sec-")] ]
      [ tx "sec-constructor-properties-of-the-global-object-finnalization-registry"; tx "sec-function-p1-p2-pn-body"; tx "sec-bigint-constructor-number-value"
      ; tx "sec-finalization-registry-cleanup-callback"; tx "sec-async-function-constructor-arguments"; tx "sec-async-function-constructor-prototype"
      ; tx "sec-async-function-prototype-properties-constructor"; tx "sec-async-function-prototype-properties-toStringTag"; tx "String.prototype.trimleft"
      ; tx "String.prototype.trimright"; tx "sec-isfinite-number"; tx "sec-isnan-number" ]
| rt_intrinsic : In (i_kind s) [tx "intrinsic: info // CallConstruct"; tx "intrinsic: info // properties"; tx "intrinsic: - // properties"] ->
    route s
      ([[old_generators]; [no_The]; [unchanged; replaced m_the_object]; [no_aliases]; [certain_words]] ++ to_id)
      [ tx "sec-properties-of-the-aggregate-error-constructors"; tx "sec-properties-of-the-aggregate-error-prototype-objects"; tx "sec-properties-of-the-%typedarrayprototype%-object"
      ; tx "sec-properties-of-typedarray-prototype-objects"; tx "sec-asynciteratorprototype"; tx "sec-properties-of-asyncgeneratorfunction"
      ; tx "sec-async-function-constructor-properties"; tx "sec-async-function-prototype-properties" ]
| rt_shorthand : In (i_kind s) [tx "shorthand"; tx "- // properties"; tx "instances: info // properties"; tx "loop"] ->
    route s
      ([[no_params]; [no_aliases]; [certain_words]; [swapped (tx "`") []]] ++ to_id)
      [ tx "sec-properties-of-the-arraybuffer-instances"; tx "sec-properties-of-the-sharedarraybuffer-instances"; tx "sec-properties-of-asyncgenerator-intances"
      ; tx "sec-object.prototype-legacy-accessor-methods"; tx "sec-throw-an-exception" ]
| rt_operation : i_kind s = tx "abstract_operation" ->
    route s
      [ [no_semantics]
      ; [if_then (starting_any [tx "ForIn/OfHeadEvaluation"; tx "ForIn/OfBodyEvaluation"; tx "CaseClauseIsSelected"; tx "ScriptEvaluation"; tx "RepeatMatcher"; tx "IsWordChar";
                                tx "CharacterSetMatcher"; tx "Canonicalize"; tx "CharacterRange"; tx "HasEitherUnicodeFlag"; tx "UnicodeMatchProperty"] (i_title s))
           (led_by (tx "Runtime Semantics")) unchanged]
      ; [if_then (starting_any [tx "IsExtensible"; tx "Get "; tx "Set "; tx "UTC "; tx "Canonicalize "; tx "UnicodeMatchProperty "; tx "UnicodeMatchPropertyValue "] (i_title s)) named_params no_params]
      ; [replaced m_record]
      ; [no_aliases]
      ; [if_then (starting_any [tx "RepeatMatcher"; tx "IsWordChar"; tx "CharacterSetMatcher"; tx "CharacterRange"; tx "HasEitherUnicodeFlag"] (i_title s)) (followed_by (tx "Abstract Operation"))
           (if_then (starting (tx "Completion ") (i_title s)) (followed_by (tx "AO")) unchanged)]
      ; [unchanged; all_words]
      ; [replaced m_typed]
      ; [swapped (tx "/") []]
      ; [if_then (starting_any [tx "ContinueDynamicImport"; tx "InnerModuleLoading"; tx "ContinueModuleLoading"; tx "InnerModuleLinking"; tx "GetImportedModule"; tx "FinishLoadingImportedModule";
                                tx "SetterThatIgnoresPrototypeProperties"; tx "ModuleRequestsEqual"; tx "AllImportAttributesSupported"; tx "IncrementModuleAsyncEvaluationCount"; tx "EvaluateModuleSync"] (i_title s))
           unchanged lowered]
      ; [swapped (tx " ") (tx "-")]
      ; [if_then (starting_any [tx "TypedArraySpeciesCreate"; tx "Await "] (i_title s)) unchanged (prefixed (tx "sec-"))] ]
      [ tx "sec-createlistiteratorRecord"; tx "sec-weakref-execution"; tx "sec-utf16decodesurrogatepair"; tx "sec-runtime-semantics-forin-div-ofbodyevaluation-lhs-stmt-iterator-lhskind-labelset"
      ; tx "sec-timezoneestring"; tx "sec-async-functions-abstract-operations-async-function-start"; tx "sec-sharedatablockeventset"; tx "sec-tear-free-aligned-reads"; tx "sec-createiterresultobject" ]
| rt_host : In (i_kind s) [tx "host-defined_abstract_operation"; tx "implementation-defined_abstract_operation"] ->
    route s [[no_params]; [lowered]; [prefixed (tx "sec-")]]
      [tx "sec-host-cleanup-finalization-registry"; tx "sec-HostLoadImportedModule"; tx "sec-host-promise-rejection-tracker"]
| rt_sdo mid : i_kind s = tx "syntax_directed_operation" -> sdo_middle s mid ->
    route s
      ([[swapped (tx ":") []; no_semantics]] ++ mid ++ to_id)
      [ tx "sec-runtime-semantics-mv-for-stringintegerliteral"; tx "sec-string-literals-static-semantics-mv"; tx "sec-optional-chaining-evaluation"; tx "sec-optional-chaining-chain-evaluation"
      ; tx "sec-import-call-runtime-semantics-evaluation"; tx "sec-for-in-and-for-of-statements-runtime-semantics-evaluation"; tx "sec-asyncgenerator-definitions-evaluation"
      ; tx "sec-static-semantics-classelementevaluation"; tx "sec-script-semantics-runtime-semantics-evaluation" ]
| rt_numeric : i_kind s = tx "numeric_method" ->
    route s [[no_params]; [replaced m_numeric]; [prefixed (tx "numeric-types-")]; [prefixed (tx "sec-")]] [tx "sec-numeric-types-number-tostring"; tx "sec-numeric-types-bigint-tostring"]
| rt_env : In (i_kind s) [tx "env_rec_method"; tx "env_rec_method_unused"] -> ~ late_method s ->
    route s ([[led_by (i_ptitle s)]; [named_params]; [no_aliases]] ++ to_id) []
| rt_env_late : In (i_kind s) [tx "env_rec_method"; tx "env_rec_method_unused"] -> late_method s -> route s ([[no_params]] ++ to_id) []
| rt_internal : i_kind s = tx "internal_method" -> ~ contains (tx "TypedArray") (i_ptitle s) ->
    route s ([[replaced m_method]; [named_params]; [no_aliases]; [led_by (i_ptitle s)]] ++ to_id) []
| rt_internal_typed : i_kind s = tx "internal_method" -> contains (tx "TypedArray") (i_ptitle s) ->
    route s ([[replaced m_method]; [no_params]; [led_by (tx "TypedArray")]] ++ to_id) []
| rt_early : i_kind s = tx "early_errors" ->
    route s
      ([[no_static; swapped (tx ":") []]; [led_by (i_ptitle s)]; [no_The]; [swapped (tx "`") []]] ++ to_id)
      [ tx "sec-primary-expression-regular-expression-literals-static-semantics-early-errors"; tx "sec-static-semantics-template-early-errors"
      ; tx "sec-left-hand-side-expressions-static-semantics-early-errors"; tx "sec-for-in-and-for-of-statements-static-semantics-early-errors"; tx "sec-patterns-static-semantics-early-errors-annexb" ].

(* ------------------------------------------------------------------ *)
Lemma fits_nil m r x : fits [] m r x <-> m = [] /\ x = [].
Proof. split; [intros H; inversion H; auto|intros (-> & ->); constructor]. Qed.
Lemma fits_lit p o l m r x : fits (ILit p o :: l) m r x <-> exists m' x', m = p ++ m' /\ x = o ++ x' /\ fits l m' r x'.
Proof. split; [intros H; inversion H; subst; eauto|intros (m' & x' & -> & -> & H); now constructor]. Qed.
Lemma fits_one k f l m r x : fits (IOne k f :: l) m r x <-> exists c m' x', k c = true /\ m = c :: m' /\ x = f [c] ++ x' /\ fits l m' r x'.
Proof. split; [intros H; inversion H; subst; repeat eexists; eauto|intros (c & m' & x' & K & -> & -> & H); now constructor]. Qed.
Lemma fits_run k f l m r x : fits (IRun k f :: l) m r x <-> exists w m' x', w <> [] /\ (forall c, In c w -> k c = true) /\ head_not k (m' ++ r) /\ m = w ++ m' /\ x = f w ++ x' /\ fits l m' r x'.
Proof. split; [intros H; inversion H; subst; repeat eexists; eauto|intros (w & m' & x' & A & B & C & -> & -> & H); now constructor]. Qed.
Lemma nonnl_iff c : nonnl c = true <-> c <> 10%N.
Proof. unfold nonnl. now rewrite Bool.negb_true_iff, N.eqb_neq. Qed.
Lemma unworded_iff t : unworded uw t = true <-> next_not wordch t.
Proof. unfold unworded, next_not. destruct t as [|c t]; [split; auto|]. rewrite Bool.negb_true_iff, <- Bool.not_true_iff_false, wordc_iff. reflexivity. Qed.
Lemma dollar_iff t : at_dollar t = true <-> text_end t.
Proof. unfold at_dollar, text_end. now rewrite Bool.orb_true_iff, !text_eqb_eq. Qed.
Lemma start_iff b : at_start (rev b) = true <-> b = [].
Proof. unfold at_start. split; [|intros ->; reflexivity]. destruct (rev b) eqn:E; [|discriminate]. intros _. rewrite <- (rev_involutive b), E. reflexivity. Qed.
Lemma all_word w : (forall c, In c w -> wordc uw c = true) <-> all_are wordch w.
Proof. unfold all_are. split; intros H c I; apply (wordc_iff uw), H, I. Qed.
Lemma notin_nl w : (forall c, In c w -> nonnl c = true) <-> ~ In 10%N w.
Proof. split; [intros H I; apply H, nonnl_iff in I; congruence|]. intros H c I. apply nonnl_iff. intros ->. contradiction. Qed.

Lemma no_params_iff s s' : no_params s s' <-> s' = remove_param_list s.
Proof.
  apply replaced_iff, rule_finds. intros b m r x. unfold of_rule. cbn [r_body r_before r_after]. unfold anywhere, m_params. split.
  - intros (H & _). apply fits_lit in H as (m' & x' & -> & -> & H). apply fits_run in H as (w & m2 & x2 & NE & A & HN & -> & -> & H). apply fits_nil in H as (-> & ->). split; [discriminate|]. exists w. rewrite app_nil_r. repeat split; [exact NE|now apply notin_nl|].
    cbn [app] in HN. unfold line_end. destruct r as [|c r]; [now left|]. right. exists r. cbn in HN. unfold nonnl in HN. apply Bool.negb_false_iff, N.eqb_eq in HN. now subst.
  - intros (_ & u & -> & NE & A & LE & ->). split; [|auto]. apply fits_lit. exists u, []. split; [reflexivity|]. split; [reflexivity|]. apply fits_run. exists u, [], []. rewrite app_nil_r. split; [exact NE|]. split; [now apply notin_nl|]. split; [destruct LE as [->|(r' & ->)]; reflexivity|]. split; [reflexivity|]. split; [reflexivity|constructor].
Qed.
Lemma first_finds p : p <> [] -> finds (rules_at [first [ILit p []]]) (m_first p).
Proof.
  intros NE. apply rule_finds. intros b m r x. unfold of_rule, first, m_first. cbn [r_body r_before r_after]. rewrite start_iff. split.
  - intros (H & -> & _). apply fits_lit in H as (m' & x' & -> & -> & H). apply fits_nil in H as (-> & ->). rewrite app_nil_r. auto.
  - intros (_ & -> & -> & ->). repeat split. apply fits_lit. exists [], []. rewrite app_nil_r. repeat split. constructor.
Qed.
Lemma no_The_iff s s' : no_The s s' <-> s' = remove_initial_The s.
Proof. apply replaced_iff, first_finds. discriminate. Qed.
Lemma no_static_iff s s' : no_static s s' <-> s' = drop_static s.
Proof. apply replaced_iff, first_finds. discriminate. Qed.
Lemma no_get_iff s s' : replaced (m_first (tx "get ")) s s' <-> s' = drop_get s.
Proof. apply replaced_iff, first_finds. discriminate. Qed.
Lemma no_aliases_iff s s' : no_aliases s s' <-> s' = trim_underscores_from_aliases uw s.
Proof.
  apply replaced_iff, rule_finds. intros b m r x. unfold of_rule. cbn [r_body r_before r_after]. rewrite !unworded_iff. unfold m_alias, no_word_before, no_word_after. split.
  - intros (H & NB & NA). apply fits_lit in H as (m' & x' & -> & -> & H). apply fits_run in H as (w & m2 & x2 & NE & A & HN & -> & -> & H). apply fits_lit in H as (m3 & x3 & -> & -> & H). apply fits_nil in H as (-> & ->). split; [discriminate|].
    exists w. split; [reflexivity|]. split; [exact NE|]. split; [intros c I; now apply letter_iff, A|]. split; [unfold same; cbn [app]; apply app_nil_r|auto].
  - intros (_ & w & -> & NE & A & -> & NB & NA). split; [|auto]. apply fits_lit. exists (w ++ tx "_"), w. split; [reflexivity|]. split; [reflexivity|]. apply fits_run. exists w, (tx "_"), []. unfold same. rewrite app_nil_r. split; [exact NE|]. split; [intros c I; now apply letter_iff, A|]. split; [reflexivity|]. split; [reflexivity|]. split; [reflexivity|].
    apply fits_lit. exists [], []. repeat split. constructor.
Qed.
Lemma no_semantics_iff s s' : no_semantics s s' <-> s' = drop_semantics s.
Proof.
  apply replaced_iff, rules_finds.
  - intros b m r x. unfold of_rule, first, m_semantics. cbn [r_body r_before r_after]. rewrite !start_iff. split.
    + intros [(H & -> & _)|(H & -> & _)]; apply fits_lit in H as (m' & x' & -> & -> & H); apply fits_nil in H as (-> & ->); (split; [discriminate|]); auto.
    + intros (_ & -> & -> & [->| ->]); [left|right]; (split; [|auto]); apply fits_lit; exists [], []; repeat split; constructor.
  - intros b m r x m' r' x' (H & _) (H' & _). unfold first in H, H'. cbn [r_body] in H, H'. apply fits_lit in H as (m2 & x2 & -> & _ & _). apply fits_lit in H' as (m3 & x3 & -> & _ & _). discriminate.
Qed.
Lemma swap2 {A} (P Q : A -> Prop) : (forall x, P x <-> Q x) -> (exists x, P x) <-> (exists x, Q x).
Proof. intros H. split; intros (x & X); exists x; apply H; exact X. Qed.
Lemma two_lits p o p' o' (M : mrel) : p <> [] -> p' <> [] -> (forall r r', p ++ r <> p' ++ r') -> (forall b m r x, (m = p /\ x = o) \/ (m = p' /\ x = o') <-> M b m r x) ->
  finds (rules_at (plain [ILit p o] ++ plain [ILit p' o'])) M.
Proof.
  intros NE NE' D H. unfold plain. cbn [app]. apply rules_finds.
  - intros b m r x. rewrite <- H. unfold of_rule. cbn [r_body r_before r_after]. unfold anywhere. split.
    + intros [(F & _)|(F & _)]; apply fits_lit in F as (m' & x' & -> & -> & F); apply fits_nil in F as (-> & ->); rewrite !app_nil_r; auto.
    + intros (_ & [(-> & ->)|(-> & ->)]); [left|right]; (split; [|auto]); apply fits_lit; exists [], []; rewrite !app_nil_r; repeat split; constructor.
  - intros b m r x m' r' x' (F & _) (F' & _). cbn [r_body] in F, F'. apply fits_lit in F as (m2 & x2 & -> & _ & _). apply fits_lit in F' as (m3 & x3 & -> & _ & _). rewrite <- !app_assoc. apply D.
Qed.
Lemma gen_finds : finds (rules_at (plain [ILit (tx "%GeneratorPrototype%") (tx "Generator.prototype")] ++ plain [ILit (tx "%AsyncGeneratorPrototype%") (tx "AsyncGenerator.prototype")])) m_gen.
Proof.
  apply two_lits; [discriminate|discriminate|intros r r' E; discriminate|]. intros b m r x. unfold m_gen. split.
  - intros [(-> & ->)|(-> & ->)]; [exists (tx "Generator")|exists (tx "AsyncGenerator")]; (split; [cbn [In]; auto|split; reflexivity]).
  - intros (g & [<-|[<-|[]]] & -> & ->); [left|right]; split; reflexivity.
Qed.
Lemma gen_object_finds : finds (rules_at (plain [ILit (tx "The %GeneratorPrototype% Object") (tx "Properties of the Generator Prototype Object")]
                       ++ plain [ILit (tx "The %AsyncGeneratorPrototype% Object") (tx "Properties of the AsyncGenerator Prototype Object")])) m_gen_object.
Proof.
  apply two_lits; [discriminate|discriminate|intros r r' E; discriminate|]. intros b m r x. unfold m_gen_object. split.
  - intros [(-> & ->)|(-> & ->)]; [exists (tx "Generator")|exists (tx "AsyncGenerator")]; (split; [cbn [In]; auto|split; reflexivity]).
  - intros (g & [<-|[<-|[]]] & -> & ->); [left|right]; split; reflexivity.
Qed.
(* one after the other *)
Lemma after_iff (R S0 : rel) f g : (forall s s', R s s' <-> s' = f s) -> (forall s s', S0 s s' <-> s' = g s) -> forall s s', after R S0 s s' <-> s' = g (f s).
Proof. intros F G s s'. unfold after. split; [intros (u & A & B); apply F in A; apply G in B; congruence|]. intros ->. exists (f s). split; [now apply F|now apply G]. Qed.
Lemma old_generators_iff s s' : old_generators s s' <-> s' = undo_3238 s.
Proof. unfold old_generators, undo_3238. apply (after_iff _ _ _ _ (replaced_iff _ _ gen_object_finds) (replaced_iff _ _ gen_finds)). Qed.
Lemma certain_words_iff s s' : certain_words s s' <-> s' = split_certain_words s.
Proof.
  unfold certain_words, split_certain_words. apply (after_iff _ _ (str_replace (tx "AggregateError") (tx "Aggregate Error")) (fun s => str_replace (tx "WeakRef") (tx "Weak Ref") (str_replace (tx "FinalizationRegistry") (tx "Finalization Registry") (str_replace (tx "AsyncFunction") (tx "Async Function") s)))); [apply swapped_iff; discriminate|].
  apply (after_iff _ _ (str_replace (tx "AsyncFunction") (tx "Async Function")) (fun s => str_replace (tx "WeakRef") (tx "Weak Ref") (str_replace (tx "FinalizationRegistry") (tx "Finalization Registry") s))); [apply swapped_iff; discriminate|].
  apply (after_iff _ _ (str_replace (tx "FinalizationRegistry") (tx "Finalization Registry")) (str_replace (tx "WeakRef") (tx "Weak Ref"))); apply swapped_iff; discriminate.
Qed.
Lemma all_words_iff s s' : all_words s s' <-> s' = split_words s.
Proof.
  unfold all_words, split_words. apply (after_iff _ _ (re_sub (rules_at (plain [IOne lowerc same; IOne upper (fun c => tx " " ++ c)]))) (str_replace (tx "JSONModule") (tx "JSON Module"))); [|apply swapped_iff; discriminate].
  apply replaced_iff, rule_finds. intros b m r x. unfold of_rule, m_hump. cbn [r_body r_before r_after]. unfold anywhere. split.
  - intros (H & _). apply fits_one in H as (c & m' & x' & C & -> & -> & H). apply fits_one in H as (d & m2 & x2 & D & -> & -> & H). apply fits_nil in H as (-> & ->). split; [discriminate|]. exists c, d. repeat split; [apply low_iff, C|apply low_iff, C|apply up_iff, D|apply up_iff, D].
  - intros (_ & c & d & C & D & -> & ->). split; [|auto]. apply fits_one. exists c, [d], [32%N; d]. split; [now apply low_iff|]. split; [reflexivity|]. split; [reflexivity|]. apply fits_one. exists d, [], []. split; [now apply up_iff|]. repeat split. constructor.
Qed.
Lemma no_options_iff s s' : replaced m_options s s' <-> s' = drop_options s.
Proof.
  apply replaced_iff, rule_finds. intros b m r x. unfold of_rule, m_options. cbn [r_body r_before r_after]. rewrite dollar_iff. split.
  - intros (H & _ & E). apply fits_lit in H as (m' & x' & -> & -> & H). apply fits_nil in H as (-> & ->). split; [discriminate|]. auto.
  - intros (_ & -> & E & ->). repeat split; [|exact E]. apply fits_lit. exists [], []. repeat split. constructor.
Qed.
Lemma not_word c : ~ wordch c -> wordc uw c = false.
Proof. intros H. apply Bool.not_true_iff_false. now rewrite wordc_iff. Qed.
Lemma dot_not_word : wordc uw 46 = false.
Proof. apply Bool.not_true_iff_false. rewrite wordc_iff. unfold word_char. lia. Qed.
Lemma percent_not_word : wordc uw 37 = false.
Proof. apply Bool.not_true_iff_false. rewrite wordc_iff. unfold word_char. lia. Qed.
Lemma symbol_iff s s' : replaced m_symbol s s' <-> s' = unbracket_symbol uw s.
Proof.
  apply replaced_iff, rule_finds. intros b m r x. unfold of_rule, m_symbol. cbn [r_body r_before r_after]. unfold anywhere. split.
  - intros (H & _). apply fits_lit in H as (m' & x' & -> & -> & H). apply fits_run in H as (w & m2 & x2 & NE & A & HN & -> & -> & H). apply fits_lit in H as (m3 & x3 & -> & -> & H). apply fits_nil in H as (-> & ->). split; [discriminate|].
    exists w. rewrite !app_nil_r. split; [split; [exact NE|now apply all_word]|]. split; reflexivity.
  - intros (_ & w & (NE & A) & -> & ->). split; [|auto]. apply fits_lit. exists (w ++ tx "% ]"), (w ++ tx "%"). split; [reflexivity|]. split; [reflexivity|]. apply fits_run. exists w, (tx "% ]"), (tx "%"). split; [exact NE|]. split; [now apply all_word|]. split; [exact percent_not_word|]. split; [reflexivity|]. split; [reflexivity|].
    apply fits_lit. exists [], []. repeat split. constructor.
Qed.
Lemma dots_iff s s' : replaced m_dot s s' <-> s' = dash_dots s.
Proof.
  apply replaced_iff, rule_finds. intros b m r x. unfold of_rule, m_dot. cbn [r_body r_before r_after]. rewrite Bool.negb_true_iff, <- Bool.not_true_iff_false, begins_iff.
  assert (E : (exists b0 : text, rev b = rev (tx "%symbol") ++ b0) <-> exists a, b = a ++ tx "%symbol").
  { split; intros (a & H); exists (rev a). - rewrite <- (rev_involutive b), H, rev_app_distr, rev_involutive. reflexivity. - rewrite H. apply rev_app_distr. }
  rewrite E. split.
  - intros (H & NB & _). apply fits_lit in H as (m' & x' & -> & -> & H). apply fits_nil in H as (-> & ->). split; [discriminate|]. auto.
  - intros (_ & -> & -> & NB). split; [|split; [exact NB|reflexivity]]. apply fits_lit. exists [], []. repeat split. constructor.
Qed.
Lemma record_iff s s' : replaced m_record s s' <-> s' = drop_regexpRecord uw s.
Proof.
  apply replaced_iff, rule_finds. intros b m r x. unfold of_rule, m_record. cbn [r_body r_before r_after]. rewrite unworded_iff. split.
  - intros (H & _ & E). apply fits_lit in H as (m' & x' & -> & -> & H). apply fits_nil in H as (-> & ->). split; [discriminate|]. auto.
  - intros (_ & -> & -> & E). repeat split; [|exact E]. apply fits_lit. exists [], []. repeat split. constructor.
Qed.
Lemma typed_iff s s' : replaced m_typed s s' <-> s' = join_TypedArray uw s.
Proof.
  apply replaced_iff, rule_finds. intros b m r x. unfold of_rule, m_typed. cbn [r_body r_before r_after]. rewrite !unworded_iff. split.
  - intros (H & B & E). apply fits_lit in H as (m' & x' & -> & -> & H). apply fits_nil in H as (-> & ->). split; [discriminate|]. auto.
  - intros (_ & -> & -> & B & E). split; [|auto]. apply fits_lit. exists [], []. repeat split. constructor.
Qed.
Lemma ticked_iff s s' : replaced m_ticked s s' <-> s' = drop_ticked s.
Proof.
  assert (K : forall c, negb (existsb (N.eqb c) [96; 40; 41]%N) = true <-> c <> 96%N /\ c <> 40%N /\ c <> 41%N). { intros c. cbn [existsb]. rewrite Bool.negb_true_iff, !Bool.orb_false_iff, !N.eqb_neq. tauto. }
  apply replaced_iff, rule_finds. intros b m r x. unfold of_rule, m_ticked. cbn [r_body r_before r_after]. unfold anywhere. split.
  - intros (H & _). apply fits_lit in H as (m' & x' & -> & -> & H). apply fits_run in H as (w & m2 & x2 & NE & A & HN & -> & -> & H). apply fits_lit in H as (m3 & x3 & -> & -> & H). apply fits_nil in H as (-> & ->). split; [discriminate|].
    exists w. rewrite !app_nil_r. split; [exact NE|]. split; [intros c I; now apply K, A|]. split; reflexivity.
  - intros (_ & w & NE & A & -> & ->). split; [|auto]. apply fits_lit. exists (w ++ tx "` ) "), (tx " "). split; [reflexivity|]. split; [reflexivity|]. apply fits_run. exists w, (tx "` ) "), (tx " "). split; [exact NE|]. split; [intros c I; now apply K, A|]. split; [reflexivity|]. split; [reflexivity|]. split; [reflexivity|].
    apply fits_lit. exists [], []. repeat split. constructor.
Qed.
Lemma end_not_word r : text_end r -> head_not (wordc uw) r.
Proof. intros [->| ->]; [exact I|]. apply (not_word 10). unfold word_char. lia. Qed.
Lemma numeric_iff s s' : replaced m_numeric s s' <-> s' = numeric_id uw lower s.
Proof.
  apply replaced_iff, rule_finds. intros b m r x. unfold of_rule, m_numeric. cbn [r_body r_before r_after]. rewrite start_iff, dollar_iff. split.
  - intros (H & B & E). apply fits_run in H as (v & m2 & x2 & NE & A & HN & -> & -> & H). apply fits_lit in H as (m3 & x3 & -> & -> & H). apply fits_run in H as (w & m4 & x4 & NE' & A' & HN' & -> & -> & H). apply fits_nil in H as (-> & ->).
    split; [destruct v; [contradiction|discriminate]|]. split; [exact B|]. split; [exact E|]. exists v, w. rewrite !app_nil_r. split; [split; [exact NE|now apply all_word]|]. split; [split; [exact NE'|now apply all_word]|]. split; reflexivity.
  - intros (_ & -> & E & v & w & (NE & A) & (NE' & A') & -> & ->). split; [|auto]. apply fits_run. exists v, (tx "::" ++ w), (tx "-" ++ w). split; [exact NE|]. split; [now apply all_word|]. split; [apply (not_word 58); unfold word_char; lia|]. split; [reflexivity|]. split; [reflexivity|].
    apply fits_lit. exists w, w. split; [reflexivity|]. split; [reflexivity|]. apply fits_run. exists w, [], []. rewrite app_nil_r. split; [exact NE'|]. split; [now apply all_word|]. split; [now apply end_not_word|]. split; [reflexivity|]. split; [symmetry; apply app_nil_r|constructor].
Qed.
Lemma method_iff s s' : replaced m_method s s' <-> s' = unbracket_method uw s.
Proof.
  apply replaced_iff, rule_finds. intros b m r x. unfold of_rule, m_method, first. cbn [r_body r_before r_after]. rewrite start_iff. split.
  - intros (H & B & _). apply fits_lit in H as (m' & x' & -> & -> & H). apply fits_run in H as (w & m2 & x2 & NE & A & HN & -> & -> & H). apply fits_lit in H as (m3 & x3 & -> & -> & H). apply fits_nil in H as (-> & ->). split; [discriminate|].
    split; [exact B|]. exists w. rewrite !app_nil_r. split; [split; [exact NE|now apply all_word]|]. split; reflexivity.
  - intros (_ & -> & w & (NE & A) & -> & ->). split; [|auto]. apply fits_lit. exists (w ++ tx "]]"), w. split; [reflexivity|]. split; [reflexivity|]. apply fits_run. exists w, (tx "]]"), []. split; [exact NE|]. split; [now apply all_word|]. split; [apply (not_word 93); unfold word_char; lia|]. split; [reflexivity|]. split; [symmetry; apply app_nil_r|].
    apply fits_lit. exists [], []. repeat split. constructor.
Qed.
Lemma the_object_iff s s' : replaced m_the_object s s' <-> s' = drop_the_Object s.
Proof.
  apply replaced_iff. intros b t x n. unfold the_object_at, m_the_object. destruct (eat (tx " the ") t) as [u|] eqn:E.
  - apply eat_inv in E. subst t. destruct (take nonnl u) as (line, r) eqn:T. assert (T' := proj1 (take_split _ _ _ _) T). destruct T' as (-> & A & HN). apply notin_nl in A.
    assert (U : forall m r' v, tx " the " ++ line ++ r = m ++ r' -> ~ In 10%N v -> m = tx " the " ++ v ++ tx " Object" -> text_end r' -> line = v ++ tx " Object" /\ r = r').
    { intros m r' v Q NI -> TE. rewrite <- !app_assoc in Q. apply app_inv_head in Q. assert (X : take nonnl (line ++ r) = (v ++ tx " Object", r')).
      { apply take_split. split; [rewrite Q; apply app_assoc|]. split; [|destruct TE as [->| ->]; [exact I|reflexivity]]. intros c I. apply in_app_iff in I as [I|I]; [apply nonnl_iff; intros ->; contradiction|]. apply nonnl_iff. intros ->. revert I. clear. cbn. intuition discriminate. }
      rewrite T in X. injection X as -> ->. auto. }
    destruct (at_dollar r) eqn:D.
    + apply dollar_iff in D. destruct (between [] (tx " Object") line) as [v|] eqn:B.
      * apply between_iff in B. cbn [app] in B. destruct v as [|c v].
        -- split; [discriminate|]. intros (m & r' & Q & _ & _ & v & NE & NI & M0 & TE & _). destruct (U m r' v Q NI M0 TE) as (L & _). rewrite B in L. apply (app_inv_tail (tx " Object") []) in L. congruence.
        -- split.
           ++ intros [= <- <-]. exists (tx " the " ++ line), r. split; [apply app_assoc|]. split; [discriminate|]. split; [now rewrite app_length|]. exists (c :: v). split; [discriminate|]. split; [intros I; apply A; rewrite B; apply in_app_iff; now left|]. split; [now rewrite B|]. split; [exact D|reflexivity].
           ++ intros (m & r' & Q & _ & -> & w & NE & NI & M0 & TE & ->). destruct (U m r' w Q NI M0 TE) as (L & _). rewrite M0, <- L. rewrite B in L. apply app_inv_tail in L. subst w. now rewrite app_length.
      * split; [discriminate|]. intros (m & r' & Q & _ & _ & v & NE & NI & M0 & TE & _). destruct (U m r' v Q NI M0 TE) as (L & _). assert (X := proj2 (between_iff [] (tx " Object") line v) L). congruence.
    + split; [discriminate|]. intros (m & r' & Q & _ & _ & v & NE & NI & M0 & TE & _). destruct (U m r' v Q NI M0 TE) as (_ & ->). apply dollar_iff in TE. congruence.
  - split; [discriminate|]. intros (m & r & -> & _ & _ & v & _ & _ & -> & _). rewrite <- !app_assoc, eat_ok in E. discriminate.
Qed.
Lemma one_word_iff s : one_word uw s = true <-> single s.
Proof.
  unfold one_word, single. destruct (take (wordc uw) s) as (w, r) eqn:T. assert (T' := proj1 (take_split _ _ _ _) T). destruct T' as (E & A & HN). apply all_word in A. destruct w as [|c w].
  - split; [discriminate|]. intros (v & (NE & AV) & X). exfalso. cbn [app] in E. subst r. destruct v as [|c v]; [contradiction|]. assert (W : wordc uw c = true) by (apply wordc_iff, AV; now left).
    destruct X as [-> |(l & -> & _)]; cbn in HN; congruence.
  - rewrite Bool.orb_true_iff, text_eqb_eq. split.
    + intros [-> |H]; [exists (c :: w); rewrite app_nil_r in E; split; [split; [discriminate|exact A]|now left]|]. destruct (between (tx " (") (tx ")") r) as [l|] eqn:B; [|discriminate]. apply between_iff in B. apply no_newline_iff in H. exists (c :: w). split; [split; [discriminate|exact A]|]. right. exists l. subst r. auto.
    + intros (v & (NE & AV) & X). destruct X as [-> |(l & -> & NL)].
      * left. assert (Y : take (wordc uw) v = (v, [])) by (apply take_split; split; [symmetry; apply app_nil_r|]; split; [now apply all_word|exact I]). rewrite T in Y. injection Y as _ ->. reflexivity.
      * right. assert (Y : take (wordc uw) (v ++ tx " (" ++ l ++ tx ")") = (v, tx " (" ++ l ++ tx ")")) by (apply take_split; split; [reflexivity|]; split; [now apply all_word|apply (not_word 32); unfold word_char; lia]). rewrite T in Y. apply (f_equal snd) in Y. cbn [snd] in Y. subst r. rewrite (proj2 (between_iff _ _ _ _) eq_refl). now apply no_newline_iff.
Qed.
Lemma with_parents_iff p s s' : with_parents p s s' <-> s' = with_parent uw p s.
Proof.
  unfold with_parents, with_parent. destruct (one_word uw s) eqn:O.
  - apply one_word_iff in O. split; [intros [(_ & ->)|(X & _)]; [reflexivity|contradiction]|]. intros ->. now left.
  - assert (O' : ~ single s) by (rewrite <- one_word_iff; congruence). split; [intros [(X & _)|(_ & ->)]; [contradiction|reflexivity]|]. intros ->. now right.
Qed.
(* the words *)
Lemma runs_app w : forall cur r, (forall c, In c w -> wordc uw c = true) -> runs uw cur (w ++ r) = runs uw (rev w ++ cur) r.
Proof.
  induction w as [|c w IH]; intros cur r A; [reflexivity|]. cbn [app runs]. rewrite (A c (or_introl eq_refl)), IH by (intros d I; apply A; now right). cbn [rev]. now rewrite <- app_assoc.
Qed.
Lemma runs_word w r : w <> [] -> head_not (wordc uw) r -> runs uw (rev w) r = w :: runs uw [] r.
Proof.
  intros NE H. assert (R : rev w <> []) by (intros E; apply NE; rewrite <- (rev_involutive w), E; reflexivity). destruct r as [|c r]; cbn [runs].
  - rewrite <- (rev_involutive w) at 2. destruct (rev w); [contradiction|reflexivity].
  - cbn in H. rewrite H. rewrite <- (rev_involutive w) at 2. destruct (rev w); [contradiction|reflexivity].
Qed.
Lemma runs_ok k : forall t, length t <= k -> words_of t (runs uw [] t).
Proof.
  induction k as [|k IH]; intros t L; [destruct t; [constructor|cbn in L; lia]|]. destruct (take (wordc uw) t) as (w, r) eqn:T. apply take_split in T as (-> & A & HN). destruct w as [|c w].
  - cbn [app] in *. destruct r as [|c r]; [constructor|]. cbn in HN. cbn [runs]. rewrite HN. constructor; [rewrite <- wordc_iff; congruence|]. apply IH. cbn in L. lia.
  - rewrite (runs_app (c :: w) [] r A), app_nil_r, (runs_word (c :: w) r ltac:(discriminate) HN). constructor; [split; [discriminate|now apply all_word]|now apply (head_not_iff _ _ _ (wordc_iff uw))|]. apply IH. rewrite app_length in L. cbn in L. lia.
Qed.
Lemma runs_iff t ws : words_of t ws <-> ws = runs uw [] t.
Proof.
  split; [|intros ->; apply (runs_ok (length t)); lia]. intros H. induction H as [|c r ws N0 H IH|w r ws (NE & A) HN H IH]; [reflexivity| |].
  - cbn [runs]. rewrite (not_word c N0). exact IH.
  - rewrite (runs_app w [] r) by now apply all_word. rewrite app_nil_r, runs_word; [now rewrite IH|exact NE|now apply (head_not_iff _ _ _ (wordc_iff uw))].
Qed.
(* the list of parameters *)
Lemma last_is_last p t : p <> [] -> forall a b a' b', last_split p t = Some (a, b) -> t = a' ++ p ++ b' -> length a' <= length a.
Proof.
  intros NE. induction t as [|c t IH]; intros a b a' b' L E; cbn [last_split] in L; [discriminate|]. destruct a' as [|d a']; [cbn; lia|]. cbn [app] in E. injection E as <- E. destruct (last_split p t) as [(a2, b2)|] eqn:Q.
  - injection L as <- <-. cbn [length]. specialize (IH _ _ _ _ eq_refl E). lia.
  - exfalso. apply (last_split_none p t Q NE). now exists a', b'.
Qed.
Lemma split_params_iff s pre l : split_params s = Some (pre, l) <-> listed s pre l.
Proof.
  unfold split_params, listed. split.
  - destruct (between [] (tx ")") s) as [[|c u]|] eqn:B; [discriminate| |discriminate]. apply between_iff in B. cbn [app] in B. destruct (no_newline s) eqn:NN; [|discriminate]. apply no_newline_iff in NN. destruct (last_split (tx " (") u) as [(a, b)|] eqn:L; [|discriminate]. intros [= <- <-].
    assert (U := last_split_some (tx " (") u ltac:(discriminate) _ _ L). split; [rewrite B, U; cbn [app]; rewrite <- !app_assoc; reflexivity|]. split; [discriminate|]. split; [exact NN|]. intros (x & y & ->).
    assert (X := last_is_last (tx " (") u ltac:(discriminate) a (x ++ tx " (" ++ y) (a ++ tx " (" ++ x) y L). rewrite !app_length in X. cbn in X. specialize (X ltac:(rewrite U, <- !app_assoc; reflexivity)). lia.
  - intros (E & NE & NN & NC). destruct pre as [|c pre]; [contradiction|].
    assert (B : between [] (tx ")") s = Some (c :: pre ++ tx " (" ++ l)) by (apply between_iff; rewrite E; cbn [app]; rewrite <- !app_assoc; reflexivity). rewrite B, (proj2 (no_newline_iff s) NN).
    destruct (last_split (tx " (") (pre ++ tx " (" ++ l)) as [(a, b)|] eqn:L.
    + assert (U := last_split_some (tx " (") _ ltac:(discriminate) _ _ L). assert (X := last_is_last (tx " (") _ ltac:(discriminate) _ _ pre l L eq_refl).
      assert (Y : exists z, a = pre ++ z). { exists (skipn (length pre) a). assert (F := f_equal (firstn (length pre)) U). rewrite !firstn_app, !Nat.sub_diag, firstn_all in F. cbn [firstn] in F. replace (length pre - length a) with 0 in F by lia. rewrite app_nil_r in F. cbn [firstn] in F. rewrite app_nil_r in F. rewrite F at 1. symmetry. apply firstn_skipn. }
      destruct Y as (z & ->). rewrite <- app_assoc in U. apply app_inv_head in U. destruct z as [|z1 z]; [rewrite app_nil_r; change (tx " (" ++ l = tx " (" ++ b) in U; apply app_inv_head in U; rewrite U; reflexivity|]. exfalso. destruct z as [|z2 z].
      * apply (f_equal (@tl N)) in U. cbn in U. discriminate.
      * apply NC. exists z, b. apply (f_equal (fun t => tl (tl t))) in U. exact U.
    + exfalso. apply (last_split_none _ _ L); [discriminate|]. now exists pre, l.
Qed.
(* names *)
Lemma tget_listed {A} (d : list (text * A)) k v : NoDup (map fst d) -> tget_ k d = Some v <-> In (k, v) d.
Proof.
  unfold tget_. induction d as [|(k', v') d IH]; intros ND; [split; [discriminate|intros []]|]. cbn [map fst] in ND. inversion ND as [|? ? NI ND']; subst. cbn [find fst]. destruct (text_eqb k k') eqn:E.
  - apply text_eqb_eq in E. subst k'. cbn [snd]. split; [intros [= <-]; now left|]. intros [X|X]; [injection X as ->; reflexivity|]. exfalso. apply NI. change k with (fst (k, v)). now apply in_map.
  - rewrite (IH ND'). split; [now right|]. intros [X|X]; [|exact X]. injection X as -> ->. rewrite (proj2 (text_eqb_eq k k) eq_refl) in E. discriminate.
Qed.
Ltac keys := repeat (constructor; [cbn [map fst In]; intros X; repeat (destruct X as [X|X]; [vm_compute in X; discriminate X|]); exact X|]); constructor.
Lemma env_keys : NoDup (map fst back_env).
Proof. unfold back_env. cbn [map fst]. keys. Qed.
Lemma other_keys pre : NoDup (map fst (back_other pre)).
Proof. unfold back_other. cbn [map fst]. keys. Qed.
Lemma renamings_iff pre w o : renamings pre w o <-> (exists v, tget_ w (if has_sub (tx "Environment Records") pre then back_env else back_other pre) = Some v /\ o = v /\ (o <> w \/ v <> tx "_value_")).
Proof.
  unfold renamings. rewrite <- !has_sub_iff. destruct (has_sub (tx "Environment Records") pre).
  - split.
    + intros [(_ & I)|(F & _)]; [|congruence]. exists o. split; [apply tget_listed; [exact env_keys|exact I]|]. split; [reflexivity|]. right. clear -I. cbn [In] in I. repeat (destruct I as [I|I]; [apply (f_equal snd) in I; cbn [snd] in I; subst o; intros X; vm_compute in X; discriminate X|]). destruct I.
    + intros (v & T & -> & _). left. split; [reflexivity|]. apply tget_listed in T; [exact T|exact env_keys].
  - split.
    + intros [(F & _)|(_ & [I|(-> & -> & ->)])]; [discriminate| |].
      * exists o. split; [apply tget_listed; [apply other_keys|]; unfold back_other; cbn [In] in *; tauto|]. split; [reflexivity|]. right. clear -I. cbn [In] in I. repeat (destruct I as [I|I]; [apply (f_equal snd) in I; cbn [snd] in I; subst o; intros X; vm_compute in X; discriminate X|]). destruct I.
      * exists (tx "_V_"). split; [reflexivity|]. split; [reflexivity|]. left. discriminate.
    + intros (v & T & -> & G). right. split; [discriminate|]. apply tget_listed in T; [|apply other_keys]. unfold back_other in T. cbn [In] in T. repeat (destruct T as [T|T]; [try (left; rewrite <- T; cbn [In]; tauto)|]); [|destruct T].
      right. destruct (text_eqb pre (tx "Set")) eqn:P; [apply text_eqb_eq in P; apply pair_equal_spec in T as (<- & <-); auto|]. apply pair_equal_spec in T as (<- & <-). destruct G; congruence.
Qed.
Lemma old_name_iff pre w o : old_name pre w o <-> o = back pre w.
Proof.
  unfold old_name, back. setoid_rewrite renamings_iff. destruct (tget_ w _) as [v|] eqn:T.
  - split.
    + intros [(v' & [= <-] & -> & _)|(NV & ->)]; [reflexivity|]. destruct (text_eqb v w) eqn:E; [apply text_eqb_eq in E; now symmetry|]. exfalso. apply (NV v). exists v. split; [reflexivity|]. split; [reflexivity|]. left. intros ->. rewrite (proj2 (text_eqb_eq w w) eq_refl) in E. discriminate.
    + intros ->. destruct (text_eqb v w) eqn:E.
      * apply text_eqb_eq in E. subst v. destruct (text_eqb w (tx "_value_")) eqn:V.
        -- apply text_eqb_eq in V. right. split; [|reflexivity]. intros v (v' & [= <-] & -> & [X|X]); [now apply X|now apply X].
        -- left. exists w. split; [reflexivity|]. split; [reflexivity|]. right. intros ->. discriminate.
      * left. exists v. split; [reflexivity|]. split; [reflexivity|]. left. intros ->. rewrite (proj2 (text_eqb_eq w w) eq_refl) in E. discriminate.
  - split; [intros [(v & F & _)|(_ & ->)]; [discriminate|reflexivity]|]. intros ->. right. split; [|reflexivity]. intros v (v' & F & _). discriminate.
Qed.
Lemma joined_led pre ns : match ns with [] => pre | t :: l => pre ++ tx " " ++ M_Meta.joined (tx " ") (t :: l) end = pre ++ concat (map (fun o => tx " " ++ o) ns).
Proof.
  assert (J : forall n ns, M_Meta.joined (tx " ") (n :: ns) = n ++ concat (map (fun o => tx " " ++ o) ns)).
  { intros n l. revert n. induction l as [|m l IH]; intros n; [cbn; symmetry; apply app_nil_r|]. change (M_Meta.joined (tx " ") (n :: m :: l)) with (n ++ tx " " ++ M_Meta.joined (tx " ") (m :: l)). rewrite IH. cbn [map concat]. now rewrite <- app_assoc. }
  destruct ns as [|n ns]; [cbn; symmetry; apply app_nil_r|]. rewrite J. cbn [map concat]. now rewrite <- !app_assoc.
Qed.
Lemma forall2_map {A B} (R : A -> B -> Prop) f l l' : (forall x y, R x y <-> y = f x) -> Forall2 R l l' <-> l' = map f l.
Proof.
  intros H. split.
  - intros F. induction F as [|x y l l' A0 F IH]; [reflexivity|]. apply H in A0. cbn [map]. congruence.
  - intros ->. induction l as [|x l IH]; constructor; [now apply H|exact IH].
Qed.
Lemma named_params_iff s s' : named_params s s' <-> s' = extract_param_names uw s.
Proof.
  unfold named_params, extract_param_names. destruct (split_params s) as [(pre, l)|] eqn:P.
  - apply split_params_iff in P. match goal with |- _ <-> s' = ?X => replace X with (pre ++ concat (map (fun o => tx " " ++ o) (map (back pre) (runs uw [] l)))) by (symmetry; apply joined_led) end. split.
    + intros [(pre' & l' & ws & os & L & W & O & ->)|(NO & _)]; [|destruct (NO _ _ P)]. apply split_params_iff in L. apply split_params_iff in P. rewrite P in L. injection L as <- <-. apply runs_iff in W. apply (forall2_map _ (back pre)) in O; [|apply old_name_iff]. now subst.
    + intros ->. left. exists pre, l, (runs uw [] l), (map (back pre) (runs uw [] l)). split; [exact P|]. split; [now apply runs_iff|]. split; [|reflexivity]. apply (forall2_map _ (back pre)); [apply old_name_iff|reflexivity].
  - split; [|intros ->; right; split; [|reflexivity]; intros pre l L; apply split_params_iff in L; congruence]. intros [(pre & l & _ & _ & L & _)|(_ & ->)]; [|reflexivity]. apply split_params_iff in L. congruence.
Qed.
(* lower case but for the last name *)
Lemma no_dot_in w : all_are wordch w -> ~ In 46%N w.
Proof. intros A I. apply A in I. unfold word_char in I. lia. Qed.
Lemma contains_dot t : contains (tx ".") t <-> In 46%N t.
Proof. split; [intros (a & b & ->); apply in_app_iff; right; now left|]. intros I. apply in_split in I as (a & b & ->). exists a, b. reflexivity. Qed.
Lemma lowered_but_last_iff s s' : lowered_but_last s s' <-> s' = lower_except_last_propname uw lower s.
Proof.
  unfold lowered_but_last, lower_except_last_propname. destruct (last_split (tx ".") s) as [(a, r)|] eqn:L.
  - assert (U := last_split_some (tx ".") s ltac:(discriminate) _ _ L). destruct (take (wordc uw) r) as (w, c) eqn:T. assert (T' := proj1 (take_split _ _ _ _) T). destruct T' as (R & A & HN).
    assert (ND : ~ In 46%N r). { intros I. apply in_split in I as (x & y & ->). assert (X := last_is_last (tx ".") s ltac:(discriminate) a _ (a ++ tx "." ++ x) y L). rewrite !app_length in X. cbn in X. specialize (X ltac:(rewrite U, <- !app_assoc; reflexivity)). lia. }
    assert (D : forall a' w' c', dotted s a' w' c' -> a' = a /\ w' = w /\ c' = c /\ w <> [] /\ ~ In 10%N a).
    { intros a' w' c' (E & NL & (NE & AW) & HC & NC). assert (X : a' = a /\ w' ++ c' = r).
      { rewrite U in E. assert (M' : ~ In 46%N (w' ++ c')) by (intros I; apply in_app_iff in I as [I|I]; [exact (no_dot_in w' AW I)|contradiction]). clear -E ND M'. cbn in E, ND. revert a' E. induction a as [|x a IH]; intros [|y a'] E; cbn [app] in E.
        - injection E as E. auto.
        - injection E as <- E. exfalso. apply ND. rewrite E. apply in_app_iff. right. now left.
        - injection E as -> E. exfalso. apply M'. rewrite <- E. apply in_app_iff. right. now left.
        - injection E as -> E. destruct (IH a' E) as (-> & ->). auto. }
      destruct X as (-> & <-). assert (Y : take (wordc uw) (w' ++ c') = (w', c')) by (apply take_split; split; [reflexivity|]; split; [now apply all_word|now apply (head_not_iff _ _ _ (wordc_iff uw))]). rewrite T in Y. injection Y as -> ->. auto. }
    destruct w as [|x w].
    + split; [intros [(a' & w' & c' & X & _)|(_ & ->)]; [destruct (D _ _ _ X) as (_ & _ & _ & F & _); now destruct F|reflexivity]|]. intros ->. right. split; [|reflexivity]. intros a' w' c' X. destruct (D _ _ _ X) as (_ & _ & _ & F & _). now destruct F.
    + destruct (no_newline a) eqn:NN.
      * apply no_newline_iff in NN. assert (X0 : dotted s a (x :: w) c). { repeat split; [rewrite U, R; reflexivity|exact NN|discriminate|now apply all_word|now apply (head_not_iff _ _ _ (wordc_iff uw))|]. intros I. apply ND. rewrite R. apply in_app_iff. now right. }
        split; [intros [(a' & w' & c' & X & ->)|(NO & _)]; [destruct (D _ _ _ X) as (-> & -> & -> & _); reflexivity|destruct (NO _ _ _ X0)]|]. intros ->. left. exists a, (x :: w), c. split; [exact X0|reflexivity].
      * assert (NN' : ~ ~ In 10%N a) by (intros H; apply no_newline_iff in H; congruence). split; [intros [(a' & w' & c' & X & _)|(_ & ->)]; [destruct (D _ _ _ X) as (_ & _ & _ & _ & F); contradiction|reflexivity]|]. intros ->. right. split; [|reflexivity]. intros a' w' c' X. destruct (D _ _ _ X) as (_ & _ & _ & _ & F). contradiction.
  - assert (NC := last_split_none _ _ L ltac:(discriminate)). assert (NO : forall a w c, ~ dotted s a w c). { intros a w c (E & _). apply NC. exists a, (w ++ c). exact E. }
    split; [intros [(a & w & c & X & _)|(_ & ->)]; [destruct (NO _ _ _ X)|reflexivity]|]. intros ->. right. auto.
Qed.

(* ------------------------------------------------------------------ *)
(* the pipelines *)
Definition realizes (st : stage) (c : choice) : Prop := forall a b, In b (stage_step [a] st) <-> exists R, In R c /\ R a b.
Lemma stage_each st cur b : In b (stage_step cur st) <-> exists a, In a cur /\ In b (stage_step [a] st).
Proof.
  destruct st as [|f|fs]; cbn [stage_step].
  - split; [intros I; exists b; cbn; auto|]. intros (a & I & [<-|[]]). exact I.
  - rewrite in_map_iff. split; [intros (a & <- & I); exists a; cbn; auto|]. intros (a & I & [<-|[]]). now exists a.
  - rewrite in_flat_map. split; intros (a & I & H); exists a; (split; [exact I|]); cbn [flat_map] in *; rewrite app_nil_r in *; exact H.
Qed.
Lemma pipeline_iff p cs : Forall2 realizes p cs -> forall cur t, In t (fold_left stage_step p cur) <-> exists a, In a cur /\ reach cs a t.
Proof.
  intros F. induction F as [|st c p cs R0 F IH]; intros cur t; cbn [fold_left].
  - split; [intros I; exists t; split; [exact I|constructor]|]. intros (a & I & H). inversion H; subst. exact I.
  - rewrite IH. split.
    + intros (u & I & H). apply stage_each in I as (a & I & U). apply R0 in U as (R & IR & U). exists a. split; [exact I|]. now apply (reach_step R c cs a u t).
    + intros (a & I & H). inversion H as [|R c' cs' s0 u s' IR U H']; subst. exists u. split; [|exact H']. apply stage_each. exists a. split; [exact I|]. apply R0. now exists R.
Qed.
Lemma possible_iff p cs t i : Forall2 realizes p cs -> In i (apply_pipeline t p) <-> reach cs t i.
Proof.
  intros F. unfold apply_pipeline. rewrite (pipeline_iff p cs F). split; [intros (a & [<-|[]] & H); exact H|]. intros H. exists t. split; [now left|exact H].
Qed.
Definition does (f : text -> text) (R : rel) : Prop := forall a b, R a b <-> b = f a.
Lemma re_keep : realizes Keep [unchanged].
Proof. intros a b. cbn. unfold unchanged. split; [intros [->|[]]; exists eq; auto|]. intros (R & [<-|[]] & H). auto. Qed.
Lemma re_do f R : does f R -> realizes (Do f) [R].
Proof. intros D a b. cbn. split; [intros [<-|[]]; exists R; split; [now left|now apply D]|]. intros (R' & [<-|[]] & H). apply D in H. auto. Qed.
Lemma re_any fs Rs : Forall2 (fun o R => does (match o with None => fun a => a | Some f => f end) R) fs Rs -> realizes (AnyOf fs) Rs.
Proof.
  intros F a b. cbn [stage_step flat_map]. rewrite app_nil_r, in_map_iff. split.
  - intros (o & <- & I). induction F as [|o' R fs Rs D F IH]; [destruct I|]. destruct I as [-> |I].
    + exists R. split; [now left|]. apply D. now destruct o.
    + destruct (IH I) as (R' & I' & H). exists R'. split; [now right|exact H].
  - intros (R & I & H). induction F as [|o' R' fs Rs D F IH]; [destruct I|]. destruct I as [-> |I].
    + exists o'. split; [apply D in H; destruct o'; now symmetry|now left].
    + destruct (IH I) as (o & E & I'). exists o. split; [exact E|now right].
Qed.
Lemma re_if (c : bool) (P : Prop) st st' R R' : (c = true <-> P) -> realizes st [R] -> realizes st' [R'] -> realizes (if c then st else st') [if_then P R R'].
Proof.
  intros C A B a b. assert (X : (exists R0, In R0 [if_then P R R'] /\ R0 a b) <-> if_then P R R' a b) by (split; [intros (R0 & [<-|[]] & H); exact H|intros H; exists (if_then P R R'); split; [now left|exact H]]). rewrite X. unfold if_then.
  assert (Y : forall st R, realizes st [R] -> In b (stage_step [a] st) <-> R a b) by (intros st0 R0 H; rewrite (H a b); split; [intros (R1 & [<-|[]] & Z); exact Z|intros Z; exists R0; split; [now left|exact Z]]).
  destruct c; [rewrite (Y st R A)|rewrite (Y st' R' B)]; intuition congruence.
Qed.
Lemma does_swapped p o : p <> [] -> does (str_replace p o) (swapped p o).
Proof. intros NE a b. now apply swapped_iff. Qed.
Lemma does_same : does (fun a => a) unchanged.
Proof. intros a b. unfold unchanged. split; auto. Qed.
Lemma does_lower : does lower lowered.
Proof. intros a b. reflexivity. Qed.
Lemma does_sec : does prepend_sec (prefixed (tx "sec-")).
Proof. intros a b. reflexivity. Qed.
Lemma does_prefixed p : does (fun s => p ++ s) (prefixed p).
Proof. intros a b. reflexivity. Qed.
Lemma does_led p : does (prepend p) (led_by p).
Proof. intros a b. reflexivity. Qed.
Ltac stages := repeat (apply Forall2_cons; [|]); [..|apply Forall2_nil].
Lemma to_id_ok : Forall2 realizes [Do lower; Do change_space_to_hyphen; Do prepend_sec] to_id.
Proof. unfold to_id. stages; apply re_do; [exact does_lower|apply does_swapped; discriminate|exact does_sec]. Qed.
Lemma starts_iff l t : starts l t = true <-> starting_any l t.
Proof. unfold starts, starting_any, starting. rewrite existsb_exists. split; intros (p & I & H); exists p; (split; [exact I|]); now apply begins_iff. Qed.
Lemma ends_in_iff l t : ends_in l t = true <-> ending_any l t.
Proof.
  unfold ends_in, ending_any. rewrite existsb_exists. split.
  - intros (p & I & H). apply begins_iff in H as (a & H). exists p, (rev a). split; [exact I|]. rewrite <- (rev_involutive t), H, rev_app_distr, rev_involutive. reflexivity.
  - intros (p & a & I & ->). exists p. split; [exact I|]. apply begins_iff. exists (rev a). apply rev_app_distr.
Qed.
Lemma kind_in_iff s l : kind_in s l = true <-> In (i_kind s) l.
Proof. unfold kind_in. rewrite existsb_exists. split; [intros (x & I & E); apply text_eqb_eq in E; now subst|]. intros I. exists (i_kind s). split; [exact I|now apply text_eqb_eq]. Qed.
Lemma starting_less l l' t : (forall p, In p l -> exists q z, In q l' /\ p = q ++ z) -> incl l' l -> starting_any l t <-> starting_any l' t.
Proof.
  intros A B. split.
  - intros (p & I & r & ->). destruct (A p I) as (q & z & IQ & ->). exists q. split; [exact IQ|]. exists (z ++ r). now rewrite app_assoc.
  - intros (p & I & H). exists p. auto.
Qed.
Ltac dos := first [exact re_keep | apply re_do | apply re_any; repeat (apply Forall2_cons; [|]); [..|apply Forall2_nil]].
Ltac one := first
  [ exact does_same | exact does_lower | exact does_sec | apply does_prefixed | apply does_led | (apply does_swapped; discriminate)
  | (intros a b; first [ apply no_params_iff | apply no_The_iff | apply no_static_iff | apply no_get_iff | apply no_aliases_iff | apply no_semantics_iff | apply old_generators_iff
                       | apply certain_words_iff | apply all_words_iff | apply no_options_iff | apply symbol_iff | apply dots_iff | apply record_iff | apply typed_iff | apply ticked_iff
                       | apply numeric_iff | apply method_iff | apply the_object_iff | apply with_parents_iff | apply named_params_iff | apply lowered_but_last_iff | reflexivity ]) ].
Lemma tail_ok p cs : Forall2 realizes p cs -> Forall2 realizes (p ++ [Do lower; Do change_space_to_hyphen; Do prepend_sec]) (cs ++ to_id).
Proof. intros F. apply Forall2_app; [exact F|exact to_id_ok]. Qed.
Lemma runtime_less t : starts [tx "ForIn/OfHeadEvaluation"; tx "ForIn/OfBodyEvaluation"; tx "CaseClauseIsSelected"; tx "ScriptEvaluation"; tx "RepeatMatcher"; tx "IsWordChar"; tx "CharacterSetMatcher";
                tx "Canonicalize"; tx "CharacterRange"; tx "HasEitherUnicodeFlag"; tx "UnicodeMatchProperty"; tx "UnicodeMatchPropertyValue"; tx "CharacterRangeOrUnion"] t = true <->
  starting_any [tx "ForIn/OfHeadEvaluation"; tx "ForIn/OfBodyEvaluation"; tx "CaseClauseIsSelected"; tx "ScriptEvaluation"; tx "RepeatMatcher"; tx "IsWordChar";
                                tx "CharacterSetMatcher"; tx "Canonicalize"; tx "CharacterRange"; tx "HasEitherUnicodeFlag"; tx "UnicodeMatchProperty"] t.
Proof.
  rewrite starts_iff. apply starting_less.
  - intros p I. cbn [In] in I. repeat (destruct I as [<-|I]; [first [eexists; exists []; split; [|symmetry; apply app_nil_r]; cbn [In]; tauto | exists (tx "UnicodeMatchProperty"), (tx "Value"); split; [cbn [In]; tauto|reflexivity] | exists (tx "CharacterRange"), (tx "OrUnion"); split; [cbn [In]; tauto|reflexivity]]|]). destruct I.
  - intros p I. cbn [In] in *. tauto.
Qed.
Lemma matcher_less t : starts [tx "RepeatMatcher"; tx "IsWordChar"; tx "CharacterSetMatcher"; tx "CharacterRange"; tx "HasEitherUnicodeFlag"; tx "CharacterRangeOrUnion"] t = true <->
  starting_any [tx "RepeatMatcher"; tx "IsWordChar"; tx "CharacterSetMatcher"; tx "CharacterRange"; tx "HasEitherUnicodeFlag"] t.
Proof.
  rewrite starts_iff. apply starting_less.
  - intros p I. cbn [In] in I. repeat (destruct I as [<-|I]; [first [eexists; exists []; split; [|symmetry; apply app_nil_r]; cbn [In]; tauto | exists (tx "CharacterRange"), (tx "OrUnion"); split; [cbn [In]; tauto|reflexivity]]|]). destruct I.
  - intros p I. cbn [In] in *. tauto.
Qed.
Lemma eqb_true_iff_ a b : text_eqb a b = true <-> a = b.
Proof. apply text_eqb_eq. Qed.
Lemma sdo_ok s mid : sdo_middle s mid -> Forall2 realizes (sdo_stages lower s) ([[swapped (tx ":") []; no_semantics]] ++ mid ++ to_id).
Proof.
  intros H. unfold sdo_stages. apply Forall2_app; [stages; dos; one|]. apply tail_ok.
  destruct H as [(T & P)|B|NB A|NE NB NA].
  - replace (text_eqb (i_title s) (tx "Runtime Semantics: Evaluation") && negb (text_eqb (i_ptitle s) (tx "Syntax-Directed Operations"))) with true.
    2: { symmetry. rewrite Bool.andb_true_iff, Bool.negb_true_iff, <- Bool.not_true_iff_false, !text_eqb_eq. auto. }
    stages; dos; try one. intros a b. apply (after_iff _ _ (str_replace (tx " + ") (tx " plus ")) (str_replace (tx " - ") (tx " minus "))); apply swapped_iff; discriminate.
  - replace (text_eqb (i_title s) (tx "Runtime Semantics: Evaluation") && negb (text_eqb (i_ptitle s) (tx "Syntax-Directed Operations"))) with false.
    2: { symmetry. rewrite Bool.andb_false_iff. left. apply Bool.not_true_iff_false. rewrite text_eqb_eq. destruct B as (p & I & r & ->). cbn [In] in I. destruct I as [<-|[<-|[]]]; discriminate. }
    rewrite (proj2 (starts_iff _ _) B). stages; dos; one.
  - replace (text_eqb (i_title s) (tx "Runtime Semantics: Evaluation") && negb (text_eqb (i_ptitle s) (tx "Syntax-Directed Operations"))) with false.
    2: { symmetry. rewrite Bool.andb_false_iff. left. apply Bool.not_true_iff_false. rewrite text_eqb_eq. intros E. unfold a_pattern in A. rewrite <- ends_in_iff, E in A. vm_compute in A. discriminate. }
    unfold a_binding in NB. rewrite <- starts_iff in NB. apply Bool.not_true_iff_false in NB. rewrite NB. rewrite (proj2 (ends_in_iff _ _) A).
    apply Forall2_cons; [dos; one|]. apply Forall2_cons; [dos; one|]. apply Forall2_cons; [|constructor]. apply re_if; [apply text_eqb_eq|dos; one|dos].
  - replace (text_eqb (i_title s) (tx "Runtime Semantics: Evaluation") && negb (text_eqb (i_ptitle s) (tx "Syntax-Directed Operations"))) with false.
    2: { symmetry. apply Bool.not_true_iff_false. rewrite Bool.andb_true_iff, Bool.negb_true_iff, <- (Bool.not_true_iff_false (text_eqb (i_ptitle s) _)), !text_eqb_eq. exact NE. }
    unfold a_binding in NB. rewrite <- starts_iff in NB. apply Bool.not_true_iff_false in NB. unfold a_pattern in NA. rewrite <- ends_in_iff in NA. apply Bool.not_true_iff_false in NA. rewrite NB, NA. constructor.
Qed.
Lemma route_ok s cs ex : route s cs ex -> exists p, pipeline_of uw lower s = Ok (Some (p, ex)) /\ Forall2 realizes p cs.
Proof.
  destruct s as [k t i e pt]. intros R. unfold pipeline_of. destruct R as [K|K|K|K|K|mid K S0|K|K L|K L|K L|K L|K]; cbn [i_kind i_title i_id i_element i_ptitle] in *.
  - exists (property_stages uw lower (mkISec k t i e pt)). split.
    + replace (has_sub (tx "_property") k || kind_in (mkISec k t i e pt) [tx "CallConstruct"]) with true; [reflexivity|]. symmetry. rewrite Bool.orb_true_iff, has_sub_iff, kind_in_iff. cbn [i_kind In]. destruct K as [K| ->]; auto.
    + unfold property_stages. stages; dos; one.
  - exists (intrinsic_stages uw lower). split; [cbn [In] in K; destruct K as [<-|[<-|[<-|[]]]]; reflexivity|]. apply (tail_ok [_; _; _; _; _]). stages; dos; one.
  - exists (shorthand_stages uw lower). split; [cbn [In] in K; destruct K as [<-|[<-|[<-|[<-|[]]]]]; reflexivity|]. apply (tail_ok [_; _; _; _]). stages; dos; one.
  - exists (operation_stages uw lower (mkISec k t i e pt)). split; [subst k; reflexivity|]. unfold operation_stages. cbn [i_title].
    apply Forall2_cons; [dos; one|]. apply Forall2_cons; [apply re_if; [apply runtime_less|dos; one|dos]|]. apply Forall2_cons; [apply re_if; [apply starts_iff|dos; one|dos; one]|]. apply Forall2_cons; [dos; one|]. apply Forall2_cons; [dos; one|].
    apply Forall2_cons; [apply re_if; [apply matcher_less|dos; one|apply re_if; [apply begins_iff|dos; one|dos]]|]. apply Forall2_cons; [dos; one|]. apply Forall2_cons; [dos; one|]. apply Forall2_cons; [dos; one|].
    apply Forall2_cons; [apply re_if; [apply starts_iff|dos|dos; one]|]. apply Forall2_cons; [dos; one|]. apply Forall2_cons; [apply re_if; [apply starts_iff|dos|dos; one]|]. constructor.
  - exists (host_stages lower). split; [cbn [In] in K; destruct K as [<-|[<-|[]]]; reflexivity|]. unfold host_stages. stages; dos; one.
  - exists (sdo_stages lower (mkISec k t i e pt)). split; [subst k; reflexivity|]. now apply sdo_ok.
  - exists (numeric_stages uw lower). split; [subst k; reflexivity|]. unfold numeric_stages. stages; dos; one.
  - exists (env_stages uw lower (mkISec k t i e pt)). split; [cbn [In] in K; destruct K as [<-|[<-|[]]]; reflexivity|]. unfold env_stages. apply tail_ok. unfold late_method in L. rewrite <- starts_iff in L. apply Bool.not_true_iff_false in L. rewrite L. stages; dos; one.
  - exists (env_stages uw lower (mkISec k t i e pt)). split; [cbn [In] in K; destruct K as [<-|[<-|[]]]; reflexivity|]. unfold env_stages. apply tail_ok. unfold late_method in L. rewrite <- starts_iff in L. rewrite L. stages; dos; one.
  - exists (internal_stages uw lower (mkISec k t i e pt)). split; [subst k; reflexivity|]. unfold internal_stages. cbn [i_ptitle]. rewrite <- has_sub_iff in L. apply Bool.not_true_iff_false in L. rewrite L. apply (tail_ok [_; _; _; _]). stages; dos; one.
  - exists (internal_stages uw lower (mkISec k t i e pt)). split; [subst k; reflexivity|]. unfold internal_stages. cbn [i_ptitle]. rewrite (proj2 (has_sub_iff _ _) L). apply (tail_ok [_; _; _]). stages; dos; one.
  - exists (early_stages lower (mkISec k t i e pt)). split; [subst k; reflexivity|]. apply (tail_ok [_; _; _; _]). stages; dos; one.
Qed.
Definition unchecked : list text := [tx "catchall"; tx "changes"; tx "module_rec_method"].
Lemma sdo_some s : exists mid, sdo_middle s mid.
Proof.
  destruct (starts [tx "Runtime Semantics: PropertyBindingInitialization"; tx "Runtime Semantics: RestBindingInitialization"] (i_title s)) eqn:B; [apply starts_iff in B; eexists; apply sdo_binding; exact B|].
  apply Bool.not_true_iff_false in B. rewrite starts_iff in B. destruct (ends_in [tx "CapturingGroupNumber"; tx "IsCharacterClass"; tx "CharacterValue"] (i_title s)) eqn:A; [apply ends_in_iff in A; eexists; apply sdo_pattern; [exact B|exact A]|].
  apply Bool.not_true_iff_false in A. rewrite ends_in_iff in A. destruct (text_eqb (i_title s) (tx "Runtime Semantics: Evaluation")) eqn:T; [apply text_eqb_eq in T|].
  - destruct (text_eqb (i_ptitle s) (tx "Syntax-Directed Operations")) eqn:P; [apply text_eqb_eq in P; eexists; apply sdo_other; [intros (_ & X); contradiction|exact B|exact A]|]. eexists. apply sdo_evaluation. split; [exact T|]. intros E. apply text_eqb_eq in E. congruence.
  - eexists. apply sdo_other; [intros (X & _); apply text_eqb_eq in X; congruence|exact B|exact A].
Qed.
Lemma pipe_cases s :
  match pipeline_of uw lower s with
  | Ok (Some (p, ex)) => exists cs, route s cs ex
  | Ok None => In (i_kind s) unchecked
  | Err e => e = AssertionError /\ ~ In (i_kind s) unchecked
  end.
Proof.
  unfold pipeline_of. destruct (_ || _) eqn:K1.
  { apply Bool.orb_true_iff in K1. rewrite has_sub_iff, kind_in_iff in K1. eexists. apply rt_property. destruct K1 as [K1|[<-|[]]]; auto. }
  destruct (kind_in s [tx "intrinsic: info // CallConstruct"; tx "intrinsic: info // properties"; tx "intrinsic: - // properties"]) eqn:K2; [apply kind_in_iff in K2; eexists; apply rt_intrinsic; exact K2|].
  destruct (kind_in s [tx "shorthand"; tx "- // properties"; tx "instances: info // properties"; tx "loop"]) eqn:K3; [apply kind_in_iff in K3; eexists; apply rt_shorthand; exact K3|].
  destruct (kind_in s [tx "abstract_operation"]) eqn:K4; [apply kind_in_iff in K4; eexists; apply rt_operation; destruct K4 as [<-|[]]; reflexivity|].
  destruct (kind_in s [tx "host-defined_abstract_operation"; tx "implementation-defined_abstract_operation"]) eqn:K5; [apply kind_in_iff in K5; eexists; apply rt_host; exact K5|].
  destruct (kind_in s [tx "syntax_directed_operation"]) eqn:K6; [apply kind_in_iff in K6; destruct (sdo_some s) as (mid & M0); eexists; apply (rt_sdo s mid); [destruct K6 as [<-|[]]; reflexivity|exact M0]|].
  destruct (kind_in s [tx "numeric_method"]) eqn:K7; [apply kind_in_iff in K7; eexists; apply rt_numeric; destruct K7 as [<-|[]]; reflexivity|].
  destruct (kind_in s [tx "env_rec_method"; tx "env_rec_method_unused"]) eqn:K8.
  { apply kind_in_iff in K8. destruct (starts [tx "BindThisValue "; tx "GetSuperBase "; tx "HasVarDeclaration "; tx "HasLexicalDeclaration "; tx "HasRestrictedGlobalProperty "; tx "CanDeclareGlobalVar ";
      tx "CanDeclareGlobalFunction "; tx "CreateGlobalVarBinding "; tx "CreateGlobalFunctionBinding "; tx "CreateImportBinding "] (i_title s)) eqn:L.
    - apply starts_iff in L. eexists. apply rt_env_late; [exact K8|exact L].
    - apply Bool.not_true_iff_false in L. rewrite starts_iff in L. eexists. apply rt_env; [exact K8|exact L]. }
  destruct (kind_in s [tx "internal_method"]) eqn:K9.
  { apply kind_in_iff in K9. assert (K : i_kind s = tx "internal_method") by (destruct K9 as [<-|[]]; reflexivity). destruct (has_sub (tx "TypedArray") (i_ptitle s)) eqn:L.
    - apply has_sub_iff in L. eexists. apply rt_internal_typed; [exact K|exact L].
    - apply Bool.not_true_iff_false in L. rewrite has_sub_iff in L. eexists. apply rt_internal; [exact K|exact L]. }
  destruct (kind_in s [tx "early_errors"]) eqn:K10; [apply kind_in_iff in K10; eexists; apply rt_early; destruct K10 as [<-|[]]; reflexivity|].
  destruct (kind_in s [tx "catchall"; tx "changes"; tx "module_rec_method"]) eqn:K11; [apply kind_in_iff in K11; exact K11|]. split; [reflexivity|]. unfold unchecked. rewrite <- kind_in_iff. congruence.
Qed.
Lemma unchecked_no_route s cs ex : In (i_kind s) unchecked -> ~ route s cs ex.
Proof.
  intros K R. destruct (route_ok s cs ex R) as (p & P & _). unfold pipeline_of in P. unfold kind_in in P. cbn [In unchecked] in K. destruct K as [K|[K|[K|[]]]]; rewrite <- K in P; vm_compute in P; discriminate.
Qed.

(* the id is accepted *)
Definition accepted (s : isec) : Prop := In (i_kind s) unchecked \/ exists cs ex, route s cs ex /\ (reach cs (i_title s) (i_id s) \/ In (i_id s) ex).
Definition complaint (s : isec) (l : list text) : text :=
  tx "Based on the section's kind (" ++ i_kind s ++ tx ") and title, the value of its `id` attribute should be one of:" ++ concat (map (fun i => 10%N :: tx "--    " ++ i) l).
(* no message exactly for an accepted id *)
Theorem C102_accepted s : check_id uw lower s = Ok [] <-> accepted s.
Proof.
  unfold check_id, accepted. assert (C := pipe_cases s). split.
  - destruct (pipeline_of uw lower s) as [[(p, ex)|]|e] eqn:P; cbn [bind]; [|intros _; left; exact C|discriminate]. destruct C as (cs & R). destruct (route_ok s cs ex R) as (p' & P' & F). rewrite P in P'. injection P' as <-. intros H. right. exists cs, ex. split; [exact R|].
    rewrite <- (possible_iff p cs _ _ F), <- !tmem_iff_. destruct (tmem_ (i_id s) (apply_pipeline (i_title s) p)), (tmem_ (i_id s) ex); auto. discriminate.
  - intros [K|(cs & ex & R & A)].
    + destruct (pipeline_of uw lower s) as [[(p, ex)|]|e]; cbn [bind]; [|reflexivity|]; [destruct C as (cs & R); destruct (unchecked_no_route s cs ex K R)|destruct C as (_ & C); contradiction].
    + destruct (route_ok s cs ex R) as (p & P & F). rewrite P. cbn [bind]. rewrite <- (possible_iff p cs _ _ F), <- !tmem_iff_ in A. destruct A as [A|A]; rewrite A; [reflexivity|now rewrite Bool.orb_true_r].
Qed.
(* otherwise one, with all that would be accepted (but for the exceptions) *)
Theorem C102_message s ms : check_id uw lower s = Ok ms -> ms <> [] ->
  exists cs ex l, route s cs ex /\ ~ reach cs (i_title s) (i_id s) /\ ~ In (i_id s) ex /\ L_Validate.listing l (reach cs (i_title s)) /\ ms = [complaint s l].
Proof.
  unfold check_id. assert (C := pipe_cases s). destruct (pipeline_of uw lower s) as [[(p, ex)|]|e] eqn:P; cbn [bind]; [|intros [= <-]; contradiction|discriminate].
  destruct C as (cs & R). destruct (route_ok s cs ex R) as (p' & P' & F). rewrite P in P'. injection P' as <-. destruct (_ || _) eqn:T; [intros [= <-]; contradiction|]. intros H _. apply ok_inj in H. subst ms.
  apply Bool.orb_false_iff in T as (T1 & T2). exists cs, ex, (sorted_set (apply_pipeline (i_title s) p)). split; [exact R|]. split; [rewrite <- (possible_iff p cs _ _ F), <- tmem_iff_; congruence|]. split; [rewrite <- tmem_iff_; congruence|]. split; [|reflexivity].
  destruct (sorted_set_ok (apply_pipeline (i_title s) p)) as (A & B & D). split; [exact A|]. split; [exact B|]. intros x. rewrite D. now apply possible_iff.
Qed.
(* the check stops exactly at kinds that are not known *)
Theorem C102_stops s e : check_id uw lower s = Err e <-> e = AssertionError /\ ~ In (i_kind s) unchecked /\ forall cs ex, ~ route s cs ex.
Proof.
  unfold check_id. assert (C := pipe_cases s). destruct (pipeline_of uw lower s) as [[(p, ex)|]|e'] eqn:P; cbn [bind].
  - destruct C as (cs & R). split; [destruct (_ || _); discriminate|]. intros (_ & _ & NR). destruct (NR _ _ R).
  - split; [discriminate|]. intros (_ & K & _). contradiction.
  - destruct C as (-> & K). split; [|intros (-> & _); reflexivity]. intros [= <-]. split; [reflexivity|]. split; [exact K|]. intros cs ex R. destruct (route_ok s cs ex R) as (p & P' & _). congruence.
Qed.
(* the ways *)
Lemma reach_app cs ds s t : reach (cs ++ ds) s t <-> exists u, reach cs s u /\ reach ds u t.
Proof.
  revert s. induction cs as [|c cs IH]; intros s; cbn [app].
  - split; [intros H; exists s; split; [constructor|exact H]|]. intros (u & H & H'). inversion H; subst. exact H'.
  - split.
    + intros H. inversion H as [|R c' cs' s0 v s' I U H']; subst. apply IH in H' as (u & A & B). exists u. split; [now apply (reach_step R c cs s v u)|exact B].
    + intros (u & H & B). inversion H as [|R c' cs' s0 v s' I U H']; subst. apply (reach_step R c (cs ++ ds) s v t I U). apply IH. eauto.
Qed.
Lemma reach_one c s t : reach [c] s t <-> exists R, In R c /\ R s t.
Proof.
  split; [intros H; inversion H as [|R c' cs' s0 v s' I U H']; subst; inversion H'; subst; eauto|]. intros (R & I & U). apply (reach_step R c [] s t t I U). constructor.
Qed.
(* accepted ids begin with sec-, but for two kinds of titles *)
Theorem C102_sec s cs ex i : route s cs ex -> reach cs (i_title s) i ->
  (exists r, i = tx "sec-" ++ r) \/ i_kind s = tx "abstract_operation" /\ starting_any [tx "TypedArraySpeciesCreate"; tx "Await "] (i_title s).
Proof.
  intros R H. assert (G : (exists cs', cs = cs' ++ [[prefixed (tx "sec-")]]) \/ exists cs', cs = cs' ++ [[if_then (starting_any [tx "TypedArraySpeciesCreate"; tx "Await "] (i_title s)) unchanged (prefixed (tx "sec-"))]] /\ i_kind s = tx "abstract_operation").
  { destruct R as [K|K|K|K|K|mid K S0|K|K L|K L|K L|K L|K].
    - left. eexists [_; _; _; _; _; _; _; _; _; _; _; _; _]. reflexivity.
    - left. eexists [_; _; _; _; _; _; _]. reflexivity.
    - left. eexists [_; _; _; _; _; _]. reflexivity.
    - right. eexists [_; _; _; _; _; _; _; _; _; _; _]. split; [reflexivity|exact K].
    - left. eexists [_; _]. reflexivity.
    - left. eexists ([_] ++ mid ++ [_; _]). unfold to_id. rewrite <- !app_assoc. reflexivity.
    - left. eexists [_; _; _]. reflexivity.
    - left. eexists [_; _; _; _; _]. reflexivity.
    - left. eexists [_; _; _]. reflexivity.
    - left. eexists [_; _; _; _; _; _]. reflexivity.
    - left. eexists [_; _; _; _; _]. reflexivity.
    - left. eexists [_; _; _; _; _; _]. reflexivity. }
  destruct G as [(cs' & ->)|(cs' & -> & K)]; apply reach_app in H as (u & _ & H); apply reach_one in H as (R' & [<-|[]] & H).
  - left. exists u. exact H.
  - destruct H as [(P & _)|(_ & H)]; [right; auto|left; exists u; exact H].
Qed.
Lemma hyphens s : ~ In 32%N (str_replace (tx " ") (tx "-") s).
Proof.
  unfold str_replace. induction s as [|c s IH]; [intros []|]. cbn [replace_go]. destruct (is_prefix (tx " ") (c :: s)) eqn:P.
  - intros I. apply in_app_iff in I as [[I|[]]|I]; [discriminate|]. exact (IH I).
  - intros [I|I]; [|exact (IH I)]. subst c. discriminate.
Qed.
Lemma dots_no_space s : forall b t, rewritten m_dot b s t -> ~ In 32%N s -> ~ In 32%N t.
Proof.
  intros b t H. induction H as [b|b m r x y NE (-> & -> & _) R IH|b c r y NM R IH]; intros NI; [exact NI| |].
  - intros I. apply in_app_iff in I as [[I|[]]|I]; [discriminate|]. apply IH; [|exact I]. intros I'. apply NI. apply in_app_iff. now right.
  - intros [-> |I]; [apply NI; now left|]. apply IH; [|exact I]. intros I'. apply NI. now right.
Qed.
Lemma to_id_no_space u i : reach to_id u i -> ~ In 32%N i.
Proof.
  intros H. change to_id with ([[lowered]] ++ [[swapped (tx " ") (tx "-")]] ++ [[prefixed (tx "sec-")]]) in H. apply reach_app in H as (v & _ & H). apply reach_app in H as (w & H1 & H2). apply reach_one in H1 as (R1 & [<-|[]] & H1). apply reach_one in H2 as (R2 & [<-|[]] & H2).
  apply swapped_iff in H1; [|discriminate]. unfold prefixed in H2. subst i w. intros I. apply in_app_iff in I as [I|I]; [revert I; clear; cbn; intuition discriminate|]. exact (hyphens v I).
Qed.
(* and have no spaces, but for the kinds whose titles are single words *)
Theorem C102_no_space s cs ex i : route s cs ex -> reach cs (i_title s) i ->
  ~ In (i_kind s) [tx "host-defined_abstract_operation"; tx "implementation-defined_abstract_operation"; tx "numeric_method"] -> ~ In 32%N i.
Proof.
  intros R H NK. destruct R as [K|K|K|K|K|mid K S0|K|K L|K L|K L|K L|K]; try (apply reach_app in H as (u & _ & H); exact (to_id_no_space u i H)).
  - match type of H with reach [?a; ?b; ?c; ?d; ?e; ?f; ?g; ?h; ?j; ?k; ?l; ?m; ?n; ?o] _ _ => change (reach ([a; b; c; d; e; f; g; h; j; k; l] ++ [m] ++ [n] ++ [o]) (i_title s) i) in H end.
    apply reach_app in H as (u & _ & H). apply reach_app in H as (v & H1 & H). apply reach_app in H as (w & H2 & H3). apply reach_one in H1 as (R1 & [<-|[]] & H1). apply reach_one in H2 as (R2 & I2 & H2). apply reach_one in H3 as (R3 & [<-|[]] & H3). apply swapped_iff in H1; [|discriminate]. unfold prefixed in H3. subst i v.
    assert (NW : ~ In 32%N w). { destruct I2 as [<-|[<-|[]]]; [unfold unchanged in H2; subst w; apply hyphens|]. apply (dots_no_space _ _ _ H2). apply hyphens. }
    intros I. apply in_app_iff in I as [I|I]; [revert I; clear; cbn; intuition discriminate|contradiction].
  - match type of H with reach [?a; ?b; ?c; ?d; ?e; ?f; ?g; ?h; ?j; ?k; ?l; ?m] _ _ => change (reach ([a; b; c; d; e; f; g; h; j; k] ++ [l] ++ [m]) (i_title s) i) in H end.
    apply reach_app in H as (u & _ & H). apply reach_app in H as (v & H1 & H2). apply reach_one in H1 as (R1 & [<-|[]] & H1). apply reach_one in H2 as (R2 & [<-|[]] & H2). apply swapped_iff in H1; [|discriminate]. subst v.
    destruct H2 as [(_ & H2)|(_ & H2)]; [unfold unchanged in H2; subst i; apply hyphens|]. unfold prefixed in H2. subst i. intros I. apply in_app_iff in I as [I|I]; [revert I; clear; cbn; intuition discriminate|exact (hyphens u I)].
  - exfalso. apply NK. cbn [In] in *. tauto.
  - apply reach_app in H as (u & _ & H). apply reach_app in H as (v & _ & H). exact (to_id_no_space v i H).
  - exfalso. apply NK. cbn [In]. rewrite K. auto.
Qed.
(* there is always an id to propose; for most kinds just one *)
Lemma single_way cs : Forall (fun c => exists f, realizes (Do f) c) cs -> forall t, exists i, forall j, reach cs t j <-> j = i.
Proof.
  intros F. induction F as [|c cs (f & R0) F IH]; intros t.
  - exists t. intros j. split; [intros H; inversion H; auto|intros ->; constructor].
  - destruct (IH (f t)) as (i & I0). exists i. intros j. rewrite <- I0. split.
    + intros H. inversion H as [|R c' cs' s0 v s' IR V H']; subst. replace (f t) with v; [exact H'|]. assert (X : In v (stage_step [t] (Do f))) by (apply R0; eauto). destruct X as [X|[]]. now symmetry.
    + intros H. destruct (proj1 (R0 t (f t)) (or_introl eq_refl)) as (R & IR & V). now apply (reach_step R c cs t (f t) j).
Qed.
Definition settled : list text :=
  [ tx "shorthand"; tx "- // properties"; tx "instances: info // properties"; tx "loop"; tx "host-defined_abstract_operation"; tx "implementation-defined_abstract_operation"
  ; tx "numeric_method"; tx "env_rec_method"; tx "env_rec_method_unused"; tx "internal_method" ].
Ltac ways := unfold to_id; cbn [app]; repeat (apply Forall_cons; [eexists; apply re_do; one|]); apply Forall_nil.
Theorem C102_one s cs ex : route s cs ex -> In (i_kind s) settled -> exists i, forall j, reach cs (i_title s) j <-> j = i.
Proof.
  intros R S1. assert (S2 := proj2 (tmem_iff_ _ _) S1). unfold settled in S2. destruct R as [K|K|K|K|K|mid K S0|K|K L|K L|K L|K L|K].
  - exfalso. unfold settled in S1. cbn [In] in S1. destruct K as [K|K]; [|rewrite K in S2; vm_compute in S2; discriminate]. apply has_sub_iff in K. repeat (destruct S1 as [S1|S1]; [rewrite <- S1 in K; vm_compute in K; discriminate|]). destruct S1.
  - exfalso. cbn [In] in K. repeat (destruct K as [K|K]; [rewrite <- K in S2; vm_compute in S2; discriminate|]). destruct K.
  - apply single_way. ways.
  - exfalso. rewrite K in S2. vm_compute in S2. discriminate.
  - apply single_way. ways.
  - exfalso. rewrite K in S2. vm_compute in S2. discriminate.
  - apply single_way. ways.
  - apply single_way. ways.
  - apply single_way. ways.
  - apply single_way. ways.
  - apply single_way. ways.
  - exfalso. rewrite K in S2. vm_compute in S2. discriminate.
Qed.
(* there is always an id to propose *)
Theorem C102_some s cs ex : route s cs ex -> exists i, reach cs (i_title s) i.
Proof.
  assert (G : forall p cs t, Forall2 realizes p cs -> Forall (fun st => match st with AnyOf [] => False | _ => True end) p -> exists i, reach cs t i).
  { intros p cs' t F. revert t. induction F as [|st c p cs' R0 F IH]; intros t A; [exists t; constructor|]. inversion A as [|x y A1 A2]; subst.
    assert (X : exists b, In b (stage_step [t] st)) by (destruct st as [|f|[|o fs]]; [exists t; now left|exists (f t); now left|contradiction|cbn; eexists; left; reflexivity]). destruct X as (b & I0). apply R0 in I0 as (R & IR & H). destruct (IH b A2) as (i & H'). exists i. now apply (reach_step R c cs' t b i). }
  intros R. destruct (route_ok s cs ex R) as (p & P & F). apply (G p cs (i_title s) F). clear -P. unfold pipeline_of in P.
  repeat match type of P with (if ?b then _ else _) = _ => destruct b end; try discriminate; apply ok_inj in P; injection P as <- _.
  - unfold property_stages. repeat constructor.
  - repeat constructor.
  - repeat constructor.
  - unfold operation_stages. repeat (apply Forall_cons; [repeat match goal with |- context [if ?b then _ else _] => destruct b end; exact I|]). constructor.
  - repeat constructor.
  - unfold sdo_stages. repeat match goal with |- context [if ?b then _ else _] => destruct b end; repeat constructor.
  - repeat constructor.
  - unfold env_stages. repeat match goal with |- context [if ?b then _ else _] => destruct b end; repeat constructor.
  - unfold internal_stages. repeat match goal with |- context [if ?b then _ else _] => destruct b end; repeat constructor.
  - repeat constructor.
Qed.
End Spec.

(* ------------------------------------------------------------------ *)
(* Examples, with letters of ASCII only *)
Definition uw0 (c : N) : bool := false.
Definition low0 (t : text) : text := map lower1 t.
Definition sec (k t i p : string) : isec := mkISec (tx k) (tx t) (tx i) (tx "emu-clause") (tx p).
Definition quiet (s : isec) : Prop := check_id uw0 low0 s = Ok [].
(* ids that are accepted *)
Example C102_accepted_ex :
  quiet (sec "function_property" "Array.prototype.at ( _index_ )" "sec-array.prototype.at" "Properties of the Array Prototype Object") /\
  quiet (sec "function_property" "String.prototype [ %Symbol.iterator% ] ( )" "sec-string.prototype-%symbol.iterator%" "Properties of the String Prototype Object") /\
  quiet (sec "accessor_property" "get RegExp.prototype.flags" "sec-regexp.prototype.flags" "Properties of the RegExp Prototype Object") /\
  quiet (sec "CallConstruct" "WeakRef ( _target_ )" "sec-weak-ref-target" "The WeakRef Constructor") /\
  quiet (sec "intrinsic: info // properties" "Properties of the AggregateError Constructor" "sec-properties-of-the-aggregate-error-constructor" "") /\
  quiet (sec "abstract_operation" "SetFunctionName ( _func_, _name_ [ , _prefix_ ] )" "sec-setfunctionname" "") /\
  quiet (sec "abstract_operation" "Set ( _obj_, _propertyKey_, _value_, _throw_ )" "sec-set-o-p-v-throw" "") /\
  quiet (sec "abstract_operation" "Await ( _value_ )" "await" "") /\
  quiet (sec "syntax_directed_operation" "Runtime Semantics: Evaluation" "sec-addition-operator-plus-runtime-semantics-evaluation" "The Addition Operator ( `+` )") /\
  quiet (sec "numeric_method" "Number::unaryMinus ( _x_ )" "sec-numeric-types-number-unaryMinus" "") /\
  quiet (sec "env_rec_method" "SetMutableBinding ( _name_, _value_, _strict_ )" "sec-declarative-environment-records-setmutablebinding-n-v-s" "Declarative Environment Records") /\
  quiet (sec "internal_method" "[[Get]] ( _propertyKey_, _receiver_ )" "sec-proxy-object-internal-methods-and-internal-slots-get-p-receiver" "Proxy Object Internal Methods and Internal Slots") /\
  quiet (sec "early_errors" "Static Semantics: Early Errors" "sec-switch-statement-early-errors" "The `switch` Statement") /\
  quiet (sec "numeric_method" "Number::toString ( _x_, _radix_ )" "sec-numeric-types-number-tostring" "") /\
  quiet (sec "catchall" "Anything" "whatever" "").
Proof. vm_compute. repeat split. Qed.
Definition odd := sec "early_errors" "Static Semantics: Early Errors" "sec-wrong" "The `switch` Statement".
Example C102_message_ex : check_id uw0 low0 odd = Ok [complaint odd [tx "sec-switch-statement-early-errors"; tx "sec-switch-statement-static-semantics-early-errors"]].
Proof. vm_compute. reflexivity. Qed.
Example C102_stops_ex : check_id uw0 low0 (sec "UNSET!" "X" "sec-x" "") = Err AssertionError.
Proof. vm_compute. reflexivity. Qed.
(* the hypotheses of the theorems on ids *)
Definition host := sec "host-defined_abstract_operation" "HostFoo Bar ( _x_ )" "sec-hostfoo bar" "".
Lemma host_route : route uw0 low0 host [[no_params]; [lowered low0]; [prefixed (tx "sec-")]] [tx "sec-host-cleanup-finalization-registry"; tx "sec-HostLoadImportedModule"; tx "sec-host-promise-rejection-tracker"].
Proof. apply rt_host. now left. Qed.
Lemma host_reach : reach [[no_params]; [lowered low0]; [prefixed (tx "sec-")]] (i_title host) (i_id host).
Proof.
  apply (reach_step no_params _ _ _ (tx "HostFoo Bar")); [now left|apply no_params_iff; reflexivity|]. apply (reach_step (lowered low0) _ _ _ (tx "hostfoo bar")); [now left|reflexivity|]. apply (reach_step (prefixed (tx "sec-")) _ _ _ (tx "sec-hostfoo bar")); [now left|reflexivity|]. constructor.
Qed.
Example C102_sec_ex : exists r, i_id host = tx "sec-" ++ r.
Proof. destruct (C102_sec uw0 low0 host _ _ _ host_route host_reach) as [H|(K & _)]; [exact H|discriminate]. Qed.
Example C102_one_ex : In (i_kind host) settled /\ exists i, forall j, reach [[no_params]; [lowered low0]; [prefixed (tx "sec-")]] (i_title host) j <-> j = i.
Proof. assert (S1 : In (i_kind host) settled) by (unfold settled; cbn [In]; tauto). split; [exact S1|]. exact (C102_one uw0 low0 host _ _ host_route S1). Qed.
Example C102_some_ex : exists i, reach [[no_params]; [lowered low0]; [prefixed (tx "sec-")]] (i_title host) i.
Proof. exact (C102_some uw0 low0 host _ _ host_route). Qed.
(* so that the id of such an operation may have a space, which no id should *)
Theorem C102_space_refuted : exists s, check_id uw0 low0 s = Ok [] /\ In 32%N (i_id s).
Proof. exists host. split; [vm_compute; reflexivity|]. cbn. tauto. Qed.
Definition plain_shorthand := sec "shorthand" "Algorithm Conventions" "sec-algorithm-conventions" "".
Lemma shorthand_accepted : exists cs ex, route uw0 low0 plain_shorthand cs ex /\ reach cs (i_title plain_shorthand) (i_id plain_shorthand).
Proof.
  destruct (proj1 (C102_accepted uw0 low0 plain_shorthand) ltac:(vm_compute; reflexivity)) as [K|(cs & ex & R & H)]; [exfalso; cbn [In unchecked] in K; destruct K as [K|[K|[K|[]]]]; vm_compute in K; discriminate|].
  exists cs, ex. split; [exact R|]. destruct H as [H|H]; [exact H|]. exfalso. inversion R; subst; try (vm_compute in H; repeat (destruct H as [H|H]; [discriminate|]); exact H).
Qed.
Example C102_no_space_ex : ~ In 32%N (i_id plain_shorthand).
Proof. destruct shorthand_accepted as (cs & ex & R & H). apply (C102_no_space uw0 low0 _ _ _ _ R H). intros K. cbn [In] in K. destruct K as [K|[K|[K|[]]]]; vm_compute in K; discriminate. Qed.
(* what is meant to remove an initial The removes it wherever it comes: the list of parameters of this method is then not found *)
Theorem C102_The_refuted : exists s, i_title s = tx "Reflect.seeThe ( _x_ )" /\ i_kind s = tx "function_property" /\ i_id s = tx "sec-reflect.seethe" /\ check_id uw0 low0 s <> Ok [] /\
  check_id uw0 low0 (mkISec (i_kind s) (i_title s) (tx "sec-reflect.see(-x-)") (i_element s) (i_ptitle s)) = Ok [].
Proof. exists (sec "function_property" "Reflect.seeThe ( _x_ )" "sec-reflect.seethe" "The Reflect Object"). vm_compute. repeat split. discriminate. Qed.

Print Assumptions C102_accepted.
Print Assumptions C102_message.
Print Assumptions C102_stops.
Print Assumptions C102_sec.
Print Assumptions C102_no_space.
Print Assumptions C102_one.
Print Assumptions C102_some.
Print Assumptions C102_space_refuted.
Print Assumptions C102_The_refuted.
