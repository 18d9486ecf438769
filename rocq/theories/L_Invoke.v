(* Invocations of operations in pseudocode, after the grammar; and that the annotation finds them. *)
From Coq Require Import Ascii String Lia List Sorting.Sorted.
From Verif Require Import M_Base L_Base M_HTML M_Shared M_Records M_Values M_Validate L_Validate L_ValTree L_ValLists M_Style L_Style L_StyleVars L_Deps M_Invoke.
Open Scope list_scope.
Open Scope nat_scope.
Notation length := List.length.

(* pseudocode.grammar:1019-1032, 1061-1073, 1097-1103, 1540-1543: productions with the symbols of
   their children (words and punctuation have no nodes) *)
Definition inv_grammar : list (text * text * list text) :=
  [ (tx "{NAMED_OPERATION_INVOCATION}", tx "the CharSet returned by {h_emu_grammar}", [tx "{h_emu_grammar}"])
  ; (tx "{NAMED_OPERATION_INVOCATION}", tx "the result of performing {cap_word} on {EX}", [tx "{cap_word}"; tx "{EX}"])
  ; (tx "{NAMED_OPERATION_INVOCATION}", tx "the {cap_word} of {LOCAL_REF}", [tx "{cap_word}"; tx "{LOCAL_REF}"])
  ; (tx "{NAMED_OPERATION_INVOCATION}", tx "the {cap_word} of {LOCAL_REF} (see {h_emu_xref})", [tx "{cap_word}"; tx "{LOCAL_REF}"; tx "{h_emu_xref}"])
  ; (tx "{NAMED_OPERATION_INVOCATION}", tx "the {cap_word} of {LOCAL_REF} as defined in {h_emu_xref}", [tx "{cap_word}"; tx "{LOCAL_REF}"; tx "{h_emu_xref}"])
  ; (tx "{NAMED_OPERATION_INVOCATION}", tx "the {cap_word} of {LOCAL_REF} {WITH_ARGS}", [tx "{cap_word}"; tx "{LOCAL_REF}"; tx "{WITH_ARGS}"])
  ; (tx "{NAMED_OPERATION_INVOCATION}", tx "{LOCAL_REF} Contains {G_SYM}", [tx "{LOCAL_REF}"; tx "{G_SYM}"])
  ; (tx "{NAMED_OPERATION_INVOCATION}", tx "{LOCAL_REF} Contains {var}", [tx "{LOCAL_REF}"; tx "{var}"])
  ; (tx "{NAMED_OPERATION_INVOCATION}", tx "{PREFIX_PAREN}", [tx "{PREFIX_PAREN}"])
  ; (tx "{NAMED_OPERATION_INVOCATION}", tx "{cap_word} of {LOCAL_REF}", [tx "{cap_word}"; tx "{LOCAL_REF}"])
  ; (tx "{NAMED_OPERATION_INVOCATION}", tx "{cap_word} of {LOCAL_REF} {WITH_ARGS}", [tx "{cap_word}"; tx "{LOCAL_REF}"; tx "{WITH_ARGS}"])
  ; (tx "{NAMED_OPERATION_INVOCATION}", tx "{h_emu_meta_start}{NAMED_OPERATION_INVOCATION}{h_emu_meta_end}", [tx "{h_emu_meta_start}"; tx "{NAMED_OPERATION_INVOCATION}"; tx "{h_emu_meta_end}"])
  ; (tx "{NAMED_OPERATION_INVOCATION}", tx "{h_emu_meta_start}{NAMED_OPERATION_INVOCATION}{h_emu_meta_end} (see {h_emu_xref})", [tx "{h_emu_meta_start}"; tx "{NAMED_OPERATION_INVOCATION}"; tx "{h_emu_meta_end}"; tx "{h_emu_xref}"])
  ; (tx "{WITH_ARGS}", tx "with argument {EX}", [tx "{EX}"])
  ; (tx "{WITH_ARGS}", tx "with arguments {EX} and {EX}", [tx "{EX}"; tx "{EX}"])
  ; (tx "{WITH_ARGS}", tx "with arguments {EX}, {EX}, and {EX}", [tx "{EX}"; tx "{EX}"; tx "{EX}"])
  ; (tx "{PREFIX_PAREN}", tx "{OPN_BEFORE_PAREN}({EXLIST_OPT})", [tx "{OPN_BEFORE_PAREN}"; tx "{EXLIST_OPT}"])
  ; (tx "{OPN_BEFORE_PAREN}", tx "{DOTTING}", [tx "{DOTTING}"])
  ; (tx "{OPN_BEFORE_PAREN}", tx "{SIMPLE_OPERATION_NAME}", [tx "{SIMPLE_OPERATION_NAME}"])
  ; (tx "{OPN_BEFORE_PAREN}", tx "{var}", [tx "{var}"])
  ; (tx "{OPN_BEFORE_PAREN}", tx "{var}.{cap_word}", [tx "{var}"; tx "{cap_word}"])
  ; (tx "{EXLIST_OPT}", tx "{EPSILON}", [])
  ; (tx "{EXLIST_OPT}", tx "{EXLIST}", [tx "{EXLIST}"])
  ; (tx "{EXLIST}", tx "{EXLIST}, {EX}", [tx "{EXLIST}"; tx "{EX}"])
  ; (tx "{EXLIST}", tx "{EX}", [tx "{EX}"])
  ; (tx "{DOTTING}", tx "{DOTTING}.{DSBN}", [tx "{DOTTING}"; tx "{DSBN}"])
  ; (tx "{DOTTING}", tx "{var}.{DSBN}", [tx "{var}"; tx "{DSBN}"])
  ; (tx "{DOTTING}", tx "C.{DSBN}", [tx "{DSBN}"]) ].
(* a tree whose nodes are made by these productions, as far as these have their symbols *)
Inductive built : anode -> Prop :=
| built_ l r s e ch :
    (In l (map (fun p => fst (fst p)) inv_grammar) -> exists ks, In (l, r, ks) inv_grammar /\ Forall2 (fun k c => lhs_of c = Ok k) ks ch) ->
    (forall c, In c ch -> built c) -> built (Node l r s e ch).

(* the arguments of a call, in the order in which they are written *)
Inductive args_in : anode -> list anode -> Prop :=
| args_one s e x : args_in (Node (tx "{EXLIST}") (tx "{EX}") s e [x]) [x]
| args_more s e l x xs : args_in l xs -> args_in (Node (tx "{EXLIST}") (tx "{EXLIST}, {EX}") s e [l; x]) (xs ++ [x]).
Inductive args_opt : anode -> list anode -> Prop :=
| args_none s e : args_opt (Node (tx "{EXLIST_OPT}") (tx "{EPSILON}") s e []) []
| args_some s e l xs : args_in l xs -> args_opt (Node (tx "{EXLIST_OPT}") (tx "{EXLIST}") s e [l]) xs.

Section Source.
  Variable st : text.   (* the text of the document *)
  (* a node stands for a piece of text *)
  Definition reads (n : anode) (t : text) : Prop := exists l r s e ch, n = Node l r s e ch /\ t = slice s e st.
  (* what is called, by what stands before the parenthesis; closures in variables are not followed *)
  Inductive called : anode -> option (list text) -> Prop :=
  | called_simple s e x : called (Node (tx "{OPN_BEFORE_PAREN}") (tx "{SIMPLE_OPERATION_NAME}") s e [x]) (Some [slice s e st])
  | called_method s e r s' e' x m t : reads m t -> t <> tx "[[ModifyOp]]" -> t <> tx "[[ReadsBytesFrom]]" ->
      called (Node (tx "{OPN_BEFORE_PAREN}") (tx "{DOTTING}") s e [Node (tx "{DOTTING}") r s' e' [x; m]]) (Some [t])
  | called_field s e r s' e' x m t : reads m t -> t = tx "[[ModifyOp]]" \/ t = tx "[[ReadsBytesFrom]]" ->
      called (Node (tx "{OPN_BEFORE_PAREN}") (tx "{DOTTING}") s e [Node (tx "{DOTTING}") r s' e' [x; m]]) (Some [])
  | called_record s e v w t : reads w t -> called (Node (tx "{OPN_BEFORE_PAREN}") (tx "{var}.{cap_word}") s e [v; w]) (Some [t])
  | called_conversion s e v : slice s e st = tx "_conversionOperation_" ->
      called (Node (tx "{OPN_BEFORE_PAREN}") (tx "{var}") s e [v])
        (Some [ tx "ToInt8"; tx "ToUint8"; tx "ToUint8Clamp"; tx "ToInt16"; tx "ToUint16"; tx "ToInt32"; tx "ToUint32"; tx "ToBigInt64"; tx "ToBigUint64" ])
  | called_binary s e v : slice s e st = tx "_operation_" ->
      called (Node (tx "{OPN_BEFORE_PAREN}") (tx "{var}") s e [v])
        (Some [ tx "Number::exponentiate"; tx "BigInt::exponentiate"; tx "Number::multiply"; tx "BigInt::multiply"; tx "Number::divide"; tx "BigInt::divide"
              ; tx "Number::remainder"; tx "BigInt::remainder"; tx "Number::add"; tx "BigInt::add"; tx "Number::subtract"; tx "BigInt::subtract"
              ; tx "Number::leftShift"; tx "BigInt::leftShift"; tx "Number::signedRightShift"; tx "BigInt::signedRightShift"
              ; tx "Number::unsignedRightShift"; tx "BigInt::unsignedRightShift"; tx "Number::bitwiseAND"; tx "BigInt::bitwiseAND"
              ; tx "Number::bitwiseXOR"; tx "BigInt::bitwiseXOR"; tx "Number::bitwiseOR"; tx "BigInt::bitwiseOR" ])
  | called_closure s e v : slice s e st <> tx "_conversionOperation_" -> slice s e st <> tx "_operation_" ->
      called (Node (tx "{OPN_BEFORE_PAREN}") (tx "{var}") s e [v]) None.
  (* a node invokes some operations with some arguments *)
  Inductive invocation : anode -> list text -> list anode -> Prop :=
  | i_of r s e w x t : In r [tx "the {cap_word} of {LOCAL_REF}"; tx "{cap_word} of {LOCAL_REF}"; tx "the result of performing {cap_word} on {EX}"] -> reads w t ->
      invocation (Node (tx "{NAMED_OPERATION_INVOCATION}") r s e [w; x]) [t] [x]
  | i_of_ref r s e w x y t : In r [tx "the {cap_word} of {LOCAL_REF} (see {h_emu_xref})"; tx "the {cap_word} of {LOCAL_REF} as defined in {h_emu_xref}"] -> reads w t ->
      invocation (Node (tx "{NAMED_OPERATION_INVOCATION}") r s e [w; x; y]) [t] [x]
  | i_with r s e w x t ar s' e' xs : In r [tx "the {cap_word} of {LOCAL_REF} {WITH_ARGS}"; tx "{cap_word} of {LOCAL_REF} {WITH_ARGS}"] -> reads w t ->
      invocation (Node (tx "{NAMED_OPERATION_INVOCATION}") r s e [w; x; Node (tx "{WITH_ARGS}") ar s' e' xs]) [t] (x :: xs)
  | i_charset s e g : invocation (Node (tx "{NAMED_OPERATION_INVOCATION}") (tx "the CharSet returned by {h_emu_grammar}") s e [g]) [tx "CompileToCharSet"] [g]
  | i_contains r s e x y : In r [tx "{LOCAL_REF} Contains {G_SYM}"; tx "{LOCAL_REF} Contains {var}"] ->
      invocation (Node (tx "{NAMED_OPERATION_INVOCATION}") r s e [x; y]) [tx "Contains"] [x; y]
  | i_paren s e opn a ns xs : called opn (Some ns) -> args_opt a xs ->
      invocation (Node (tx "{PREFIX_PAREN}") (tx "{OPN_BEFORE_PAREN}({EXLIST_OPT})") s e [opn; a]) ns xs
  | i_reject s e x y ch : invocation (Node (tx "{COMMAND}") (tx "IfAbruptRejectPromise({var}, {var}).") s e (x :: y :: ch)) [tx "IfAbruptRejectPromise"] [x; y].
  (* what the annotation cannot deal with: C.[[X]](...), and _operation_ called with other arguments *)
  Definition plain (n : anode) : Prop := forall s e opn a, n = Node (tx "{PREFIX_PAREN}") (tx "{OPN_BEFORE_PAREN}({EXLIST_OPT})") s e [opn; a] ->
    (forall s1 e1 s2 e2 ch, opn <> Node (tx "{OPN_BEFORE_PAREN}") (tx "{DOTTING}") s1 e1 [Node (tx "{DOTTING}") (tx "C.{DSBN}") s2 e2 ch]) /\
    (forall s1 e1 v, opn = Node (tx "{OPN_BEFORE_PAREN}") (tx "{var}") s1 e1 [v] -> slice s1 e1 st = tx "_operation_" -> slice s e st = tx "_operation_(_leftNumber_, _rightNumber_)").
  (* the two commands and the condition that are looked for besides invocations proper *)
  Definition other_prods (n : anode) : Prop :=
    match n with
    | Node l r _ _ ch =>
      (prod_str l r = tx "{COMMAND} : IfAbruptRejectPromise({var}, {var})." -> l = tx "{COMMAND}" /\ r = tx "IfAbruptRejectPromise({var}, {var})." /\ 2 <= length ch) /\
      prod_str l r <> tx "{CONDITION_1} : {var} and {var} are in a race in {var}" /\
      prod_str l r <> tx "{COMMAND} : Set fields of {var} with the values listed in {h_emu_xref}. {the_field_names_are_the_names_listed_etc}"
    | Leaf _ => True
    end.

  Lemma forall2_lhs_in ks ch c : Forall2 (fun k c => lhs_of c = Ok k) ks ch -> In c ch -> exists l r s e cs, c = Node l r s e cs.
  Proof. intros F I. destruct (forall2_in_r _ _ _ _ F I) as (k & _ & K). destruct c as [l r s e cs|t]; [now exists l, r, s, e, cs|discriminate]. Qed.
  Lemma built_kids l r s e ch : built (Node l r s e ch) -> In l (map (fun p => fst (fst p)) inv_grammar) -> exists ks, In (l, r, ks) inv_grammar /\ Forall2 (fun k c => lhs_of c = Ok k) ks ch.
  Proof. intros B. inversion B; subst. assumption. Qed.
  Lemma built_in l r s e ch c : built (Node l r s e ch) -> In c ch -> built c.
  Proof. intros B. inversion B; subst. auto. Qed.
  Lemma lhs_node c k : lhs_of c = Ok k -> exists r s e ch, c = Node k r s e ch.
  Proof. destruct c as [l r s e ch|t]; [|discriminate]. intros H. apply ok_inj in H. subst k. now exists r, s, e, ch. Qed.

  Lemma reads_text n t : reads n t -> source_text st n = Ok t.
  Proof. intros (l & r & s & e & ch & -> & ->). reflexivity. Qed.
  Lemma node_reads n k : lhs_of n = Ok k -> exists t, reads n t.
  Proof. intros H. destruct (lhs_node _ _ H) as (r & s & e & ch & ->). exists (slice s e st), k, r, s, e, ch. auto. Qed.

  (* the arguments *)
  Lemma exes_in n xs : args_in n xs -> forall acc, exes_in_exlist n acc = Ok (xs ++ acc).
  Proof.
    intros A. induction A as [s e x|s e l x xs A IH]; intros acc; [reflexivity|]. rewrite <- app_assoc. cbn [app]. rewrite <- (IH (x :: acc)). reflexivity.
  Qed.
  Lemma exes_opt n xs : args_opt n xs -> exes_in_exlist_opt n = Ok xs.
  Proof. intros [s e|s e l ys A]; [reflexivity|]. generalize (exes_in _ _ A []). rewrite app_nil_r. intros <-. reflexivity. Qed.
  Lemma row_inj {A B C} (a a' : A) (b b' : B) (c c' : C) : (a, b, c) = (a', b', c') -> b = b' /\ c = c'.
  Proof. intros H. split; [exact (f_equal (fun p => snd (fst p)) H)|exact (f_equal snd H)]. Qed.
  Lemma kid_cons k ks ch : Forall2 (fun k c => lhs_of c = Ok k) (k :: ks) ch -> exists c ch', ch = c :: ch' /\ lhs_of c = Ok k /\ Forall2 (fun k c => lhs_of c = Ok k) ks ch'.
  Proof. intros H. inversion H; subst. eauto. Qed.
  Lemma kid_nil ch : Forall2 (fun k c => lhs_of c = Ok k) [] ch -> ch = [].
  Proof. intros H. now inversion H. Qed.
  Ltac rows K := unfold inv_grammar in K; cbn [In] in K; repeat (destruct K as [K|K]; [first [exfalso; apply (f_equal (fun p => fst (fst p))) in K; cbn [fst] in K; vm_compute in K; discriminate K | injection K as <- <-; auto 20]|]); try destruct K.
  Ltac is_row := apply (proj1 (tmem_iff_ _ _)); vm_compute; reflexivity.
  Lemma exlist_built n : built n -> lhs_of n = Ok (tx "{EXLIST}") -> exists xs, args_in n xs.
  Proof.
    intros B. induction B as [l r s e ch G BC IH]. intros L. cbn [lhs_of] in L. apply ok_inj in L. subst l.
    destruct G as (ks & K & F); [is_row|].
    assert (C : (r = tx "{EX}" /\ ks = [tx "{EX}"]) \/ (r = tx "{EXLIST}, {EX}" /\ ks = [tx "{EXLIST}"; tx "{EX}"])) by (clear - K; rows K).
    destruct C as [(-> & ->)|(-> & ->)].
    - inversion F as [|? x ? l' _ F']; subst. inversion F'; subst. exists [x]. constructor.
    - inversion F as [|? i ? l' LI F']; subst. inversion F' as [|? x ? l2 _ F2]; subst. inversion F2; subst. destruct (IH i) as (xs & A); [now left|assumption|]. exists (xs ++ [x]). now constructor.
  Qed.
  Lemma opt_built n : built n -> lhs_of n = Ok (tx "{EXLIST_OPT}") -> exists xs, args_opt n xs.
  Proof.
    intros B L. destruct (lhs_node _ _ L) as (r & s & e & ch & ->). destruct (built_kids _ _ _ _ _ B) as (ks & K & F); [is_row|].
    assert (C : (r = tx "{EPSILON}" /\ ks = []) \/ (r = tx "{EXLIST}" /\ ks = [tx "{EXLIST}"])) by (clear - K; rows K).
    destruct C as [(-> & ->)|(-> & ->)].
    - inversion F; subst. exists []. constructor.
    - inversion F as [|? x ? l' LX F']; subst. inversion F'; subst. destruct (exlist_built x) as (xs & A); [apply (built_in _ _ _ _ _ x B); now left|assumption|]. exists xs. now constructor.
  Qed.
  Definition c_dotting (opn : anode) : Prop := exists s1 e1 s2 e2 ch, opn = Node (tx "{OPN_BEFORE_PAREN}") (tx "{DOTTING}") s1 e1 [Node (tx "{DOTTING}") (tx "C.{DSBN}") s2 e2 ch].
  Lemma opn_built n : built n -> lhs_of n = Ok (tx "{OPN_BEFORE_PAREN}") -> (exists o, called n o) \/ c_dotting n.
  Proof.
    intros B L. destruct (lhs_node _ _ L) as (r & s & e & ch & ->). destruct (built_kids _ _ _ _ _ B) as (ks & K & F); [is_row|].
    assert (C : (r = tx "{DOTTING}" /\ ks = [tx "{DOTTING}"]) \/ (r = tx "{SIMPLE_OPERATION_NAME}" /\ ks = [tx "{SIMPLE_OPERATION_NAME}"]) \/ (r = tx "{var}" /\ ks = [tx "{var}"])
      \/ (r = tx "{var}.{cap_word}" /\ ks = [tx "{var}"; tx "{cap_word}"])) by (clear - K; rows K).
    destruct C as [(-> & ->)|[(-> & ->)|[(-> & ->)|(-> & ->)]]].
    - inversion F as [|? x ? l' LX F']; subst. inversion F'; subst. clear F F' L. destruct (lhs_node _ _ LX) as (r & s' & e' & dch & ->).
      assert (BD : built (Node (tx "{DOTTING}") r s' e' dch)) by (apply (built_in _ _ _ _ _ _ B); now left). destruct (built_kids _ _ _ _ _ BD) as (ks & K' & F); [is_row|].
      assert (C : ((exists k, ks = [k; tx "{DSBN}"])) \/ (r = tx "C.{DSBN}")) by (clear - K'; unfold inv_grammar in K'; cbn [In] in K'; repeat (destruct K' as [K'|K']; [first [exfalso; apply (f_equal (fun p => fst (fst p))) in K'; cbn [fst] in K'; vm_compute in K'; discriminate K' | injection K' as <- <-; eauto]|]); destruct K').
      destruct C as [(k & ->)| ->]; [|right; now exists s, e, s', e', dch]. left. inversion F as [|? x ? l' LX1 F']; subst. inversion F' as [|? m ? l2 LM F2]; subst. inversion F2; subst.
      destruct (node_reads _ _ LM) as (t & R). destruct (list_eq_dec N.eq_dec t (tx "[[ModifyOp]]")) as [E|N1]; [exists (Some []); apply called_field with (t := t); auto|].
      destruct (list_eq_dec N.eq_dec t (tx "[[ReadsBytesFrom]]")) as [E|N2]; [exists (Some []); apply called_field with (t := t); auto|]. exists (Some [t]). now apply called_method.
    - inversion F as [|? x ? l' LX F']; subst. inversion F'; subst. left. eexists. constructor.
    - inversion F as [|? x ? l' LX F']; subst. inversion F'; subst. left. destruct (list_eq_dec N.eq_dec (slice s e st) (tx "_conversionOperation_")) as [E|N1]; [eexists; now apply called_conversion|].
      destruct (list_eq_dec N.eq_dec (slice s e st) (tx "_operation_")) as [E|N2]; [eexists; now apply called_binary|]. exists None. now apply called_closure.
    - inversion F as [|? x ? l' LX F']; subst. inversion F' as [|? m ? l2 LM F2]; subst. inversion F2; subst. left. destruct (node_reads _ _ LM) as (t & R). exists (Some [t]). now apply called_record.
  Qed.
  Lemma called_names s e opn a o : called opn o -> plain (Node (tx "{PREFIX_PAREN}") (tx "{OPN_BEFORE_PAREN}({EXLIST_OPT})") s e [opn; a]) ->
    names_before_paren st (Node (tx "{PREFIX_PAREN}") (tx "{OPN_BEFORE_PAREN}({EXLIST_OPT})") s e [opn; a]) opn = Ok o
    /\ lhs_of opn = Ok (tx "{OPN_BEFORE_PAREN}") /\ exists r, rhs_of opn = Ok r /\ text_eqb r (tx "{h_emu_meta_start}{OPN_BEFORE_PAREN}{h_emu_meta_end}") = false.
  Proof.
    intros C P. split; [|split; [now destruct C|destruct C; eexists; (split; [reflexivity|vm_compute; reflexivity])]].
    destruct (P s e opn a eq_refl) as (_ & OP). unfold names_before_paren.
    destruct C as [s1 e1 x|s1 e1 r s' e' x m t R N1 N2|s1 e1 r s' e' x m t R T|s1 e1 v w t R|s1 e1 v E|s1 e1 v E|s1 e1 v N1 N2]; cbn [rhs_of ch_of bind].
    - change (text_eqb (tx "{SIMPLE_OPERATION_NAME}") (tx "{SIMPLE_OPERATION_NAME}")) with true. reflexivity.
    - change (text_eqb (tx "{DOTTING}") (tx "{SIMPLE_OPERATION_NAME}")) with false. change (text_eqb (tx "{DOTTING}") (tx "{DOTTING}")) with true. cbv iota. cbn [ch_of bind]. rewrite (reads_text _ _ R). cbn [bind].
      replace (lhs_in t _) with false; [reflexivity|]. symmetry. apply Bool.not_true_iff_false. intros H. apply tmem_iff_ in H. destruct H as [H|[H|[]]]; congruence.
    - change (text_eqb (tx "{DOTTING}") (tx "{SIMPLE_OPERATION_NAME}")) with false. change (text_eqb (tx "{DOTTING}") (tx "{DOTTING}")) with true. cbv iota. cbn [ch_of bind]. rewrite (reads_text _ _ R). cbn [bind].
      replace (lhs_in t _) with true; [reflexivity|]. symmetry. apply (proj2 (tmem_iff_ _ _)). destruct T as [->| ->]; cbn [In]; auto.
    - change (text_eqb (tx "{var}.{cap_word}") (tx "{SIMPLE_OPERATION_NAME}")) with false. change (text_eqb (tx "{var}.{cap_word}") (tx "{DOTTING}")) with false. change (text_eqb (tx "{var}.{cap_word}") (tx "{var}.{cap_word}")) with true. cbv iota.
      rewrite (reads_text _ _ R). reflexivity.
    - change (text_eqb (tx "{var}") (tx "{SIMPLE_OPERATION_NAME}")) with false. change (text_eqb (tx "{var}") (tx "{DOTTING}")) with false. change (text_eqb (tx "{var}") (tx "{var}.{cap_word}")) with false. change (text_eqb (tx "{var}") (tx "{var}")) with true. cbv iota.
      cbn [source_text bind]. rewrite E. reflexivity.
    - change (text_eqb (tx "{var}") (tx "{SIMPLE_OPERATION_NAME}")) with false. change (text_eqb (tx "{var}") (tx "{DOTTING}")) with false. change (text_eqb (tx "{var}") (tx "{var}.{cap_word}")) with false. change (text_eqb (tx "{var}") (tx "{var}")) with true. cbv iota.
      cbn [source_text bind]. rewrite E, (OP _ _ _ eq_refl E). reflexivity.
    - change (text_eqb (tx "{var}") (tx "{SIMPLE_OPERATION_NAME}")) with false. change (text_eqb (tx "{var}") (tx "{DOTTING}")) with false. change (text_eqb (tx "{var}") (tx "{var}.{cap_word}")) with false. change (text_eqb (tx "{var}") (tx "{var}")) with true. cbv iota.
      cbn [source_text bind]. destruct (text_eqb _ _) eqn:E1; [apply text_eqb_eq in E1; contradiction|]. destruct (text_eqb _ (tx "_operation_")) eqn:E2; [apply text_eqb_eq in E2; contradiction|]. reflexivity.
  Qed.
  Lemma args_lhs a xs : args_opt a xs -> lhs_of a = Ok (tx "{EXLIST_OPT}").
  Proof. now intros []. Qed.
  Lemma paren_annotated s e opn a o xs : called opn o -> args_opt a xs -> plain (Node (tx "{PREFIX_PAREN}") (tx "{OPN_BEFORE_PAREN}({EXLIST_OPT})") s e [opn; a]) ->
    annotate st (Node (tx "{PREFIX_PAREN}") (tx "{OPN_BEFORE_PAREN}({EXLIST_OPT})") s e [opn; a]) = Ok (match o with Some ns => Some (ns, xs) | None => None end).
  Proof.
    intros C A P. destruct (called_names _ _ _ _ _ C P) as (NB & L & r & R & M). unfold annotate. cbn [lhs_of rhs_of ch_of bind].
    change (form_of (tx "{PREFIX_PAREN}") (tx "{OPN_BEFORE_PAREN}({EXLIST_OPT})")) with FParen. cbv iota.
    change (lhs_in (tx "{OPN_BEFORE_PAREN}({EXLIST_OPT})") _) with true. cbn [assert_ bind]. rewrite L. cbn [bind]. change (text_eqb (tx "{OPN_BEFORE_PAREN}") (tx "{OPN_BEFORE_PAREN}")) with true. cbn [assert_ bind].
    rewrite R. cbn [bind]. destruct opn as [ol orr os oe och|]; [|discriminate]. cbn [ch_of bind]. rewrite M. cbn [bind]. rewrite NB. cbn [bind]. rewrite (args_lhs _ _ A). cbn [bind].
    change (text_eqb (tx "{EXLIST_OPT}") (tx "{EXLIST_OPT}")) with true. cbv iota. rewrite (exes_opt _ _ A). reflexivity.
  Qed.
  Lemma with_built s e w x ar s' e' xs r : built (Node (tx "{NAMED_OPERATION_INVOCATION}") r s e [w; x; Node (tx "{WITH_ARGS}") ar s' e' xs]) -> text_in (tx "{PASSING}") ar = false.
  Proof.
    intros B. assert (BW : built (Node (tx "{WITH_ARGS}") ar s' e' xs)) by (apply (built_in _ _ _ _ _ _ B); cbn [In]; auto). destruct (built_kids _ _ _ _ _ BW) as (ks & K & F); [is_row|].
    clear - K. unfold inv_grammar in K. cbn [In] in K. repeat (destruct K as [K|K]; [first [exfalso; apply (f_equal (fun p => fst (fst p))) in K; cbn [fst] in K; vm_compute in K; discriminate K | injection K as <- <-; vm_compute; reflexivity]|]). destruct K.
  Qed.
  Lemma inv_annotated n ns xs : invocation n ns xs -> built n -> plain n -> annotate st n = Ok (Some (ns, xs)).
  Proof.
    intros I B P. destruct I as [r s e w x t R T|r s e w x y t R T|r s e w x t ar s' e' xs R T|s e g|r s e x y R|s e opn a ns xs C A|s e x y ch].
    - unfold annotate. cbn [lhs_of rhs_of ch_of bind]. assert (E : form_of (tx "{NAMED_OPERATION_INVOCATION}") r = FWord false) by (cbn [In] in R; repeat (destruct R as [<-|R]; [vm_compute; reflexivity|]); destruct R).
      rewrite E. cbn [item nth_error bind]. rewrite (reads_text _ _ T). reflexivity.
    - unfold annotate. cbn [lhs_of rhs_of ch_of bind]. assert (E : form_of (tx "{NAMED_OPERATION_INVOCATION}") r = FWord false) by (cbn [In] in R; repeat (destruct R as [<-|R]; [vm_compute; reflexivity|]); destruct R).
      rewrite E. cbn [item nth_error bind]. rewrite (reads_text _ _ T). reflexivity.
    - unfold annotate. cbn [lhs_of rhs_of ch_of bind]. assert (E : form_of (tx "{NAMED_OPERATION_INVOCATION}") r = FWord true) by (cbn [In] in R; repeat (destruct R as [<-|R]; [vm_compute; reflexivity|]); destruct R).
      rewrite E. unfold item. cbn [nth_error bind]. rewrite (reads_text _ _ T). cbn [bind lhs_of]. change (text_eqb (tx "{WITH_ARGS}") (tx "{WITH_ARGS}")) with true. cbn [assert_ bind rhs_of ch_of]. now rewrite (with_built _ _ _ _ _ _ _ _ _ B).
    - reflexivity.
    - unfold annotate. cbn [lhs_of rhs_of ch_of bind]. assert (E : form_of (tx "{NAMED_OPERATION_INVOCATION}") r = FFixed (tx "Contains")) by (cbn [In] in R; repeat (destruct R as [<-|R]; [vm_compute; reflexivity|]); destruct R).
      rewrite E. reflexivity.
    - exact (paren_annotated s e opn a (Some ns) xs C A P).
    - reflexivity.
  Qed.
  Lemma inv_or_none n : built n -> plain n -> other_prods n -> (exists ns xs, invocation n ns xs) \/ annotate st n = Ok None.
  Proof.
    intros B P O. destruct B as [l r s e ch G BC]. assert (B : built (Node l r s e ch)) by now constructor.
    destruct (list_eq_dec N.eq_dec l (tx "{NAMED_OPERATION_INVOCATION}")) as [->|N1].
    - destruct G as (ks & K & F); [is_row|]. clear O P. unfold inv_grammar in K; cbn [In] in K.
      repeat (destruct K as [K|K]; [first [exfalso; apply (f_equal (fun p => fst (fst p))) in K; cbn [fst] in K; vm_compute in K; discriminate K
        | destruct (row_inj _ _ _ _ _ _ K) as (<- & <-); clear K; repeat match goal with F : Forall2 _ (_ :: _) _ |- _ => destruct (kid_cons _ _ _ F) as (? & ? & -> & ? & ?); clear F | F : Forall2 _ [] _ |- _ => rewrite (kid_nil _ F) in *; clear F end;
          repeat match goal with H : lhs_of ?x = Ok (tx "{cap_word}") |- _ => destruct (node_reads _ _ H) as (? & ?); clear H | H : lhs_of ?x = Ok (tx "{WITH_ARGS}") |- _ => destruct (lhs_node _ _ H) as (? & ? & ? & ? & ->); clear H end;
          first [right; vm_compute; reflexivity | left; do 2 eexists; first [eapply i_of; [|eassumption]; cbn [In]; auto; fail | eapply i_of_ref; [|eassumption]; cbn [In]; auto; fail | eapply i_with; [|eassumption]; cbn [In]; auto; fail | eapply i_charset | eapply i_contains; cbn [In]; auto; fail]]]|]). destruct K.
    - destruct (list_eq_dec N.eq_dec l (tx "{PREFIX_PAREN}")) as [->|N2].
      + destruct G as (ks & K & F); [is_row|]. assert (C : r = tx "{OPN_BEFORE_PAREN}({EXLIST_OPT})" /\ ks = [tx "{OPN_BEFORE_PAREN}"; tx "{EXLIST_OPT}"]) by (clear - K; rows K). destruct C as (-> & ->).
        inversion F as [|? opn ? l' LO F']; subst. inversion F' as [|? a ? l2 LA F2]; subst. inversion F2; subst. clear F F' F2.
        destruct (opn_built opn) as [(o & C)|(s1 & e1 & s2 & e2 & c & ->)]; [apply BC; now left|assumption| |destruct (P _ _ _ _ eq_refl) as (X & _); exfalso; now apply (X s1 e1 s2 e2 c)].
        destruct (opt_built a) as (xs & A); [apply BC; cbn [In]; auto|assumption|]. destruct o as [ns|]; [left; exists ns, xs; now constructor|]. right. exact (paren_annotated s e opn a None xs C A P).
      + cbn [other_prods] in O. destruct O as (O1 & O2 & O3). unfold annotate. cbn [lhs_of rhs_of ch_of bind]. unfold form_of.
        destruct (text_eqb l (tx "{NAMED_OPERATION_INVOCATION}")) eqn:E1; [apply text_eqb_eq in E1; contradiction|]. destruct (text_eqb l (tx "{PREFIX_PAREN}")) eqn:E2; [apply text_eqb_eq in E2; contradiction|].
        destruct (text_eqb (prod_str l r) (tx "{CONDITION_1} : {var} and {var} are in a race in {var}")) eqn:E3; [apply text_eqb_eq in E3; contradiction|].
        destruct (text_eqb (prod_str l r) (tx "{COMMAND} : Set fields of {var} with the values listed in {h_emu_xref}. {the_field_names_are_the_names_listed_etc}")) eqn:E4; [apply text_eqb_eq in E4; contradiction|].
        destruct (text_eqb (prod_str l r) (tx "{COMMAND} : IfAbruptRejectPromise({var}, {var}).")) eqn:E5; [|now right]. left. apply text_eqb_eq in E5. destruct (O1 E5) as (-> & -> & LE).
        destruct ch as [|x [|y ch]]; cbn [List.length] in LE; try lia. exists [tx "IfAbruptRejectPromise"], [x; y]. constructor.
  Qed.
  Theorem annotate_iff n : built n -> plain n -> other_prods n -> exists o, annotate st n = Ok o /\ forall ns xs, o = Some (ns, xs) <-> invocation n ns xs.
  Proof.
    intros B P O. destruct (inv_or_none n B P O) as [(ns & xs & I)|E].
    - exists (Some (ns, xs)). split; [now apply inv_annotated|]. intros ns' xs'. split; [intros [= <- <-]; assumption|]. intros I'. apply inv_annotated in I, I'; auto. congruence.
    - exists None. split; [assumption|]. intros ns xs. split; [discriminate|]. intros I. apply inv_annotated in I; auto. congruence.
  Qed.
End Source.
