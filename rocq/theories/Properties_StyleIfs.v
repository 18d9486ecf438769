(* C87: the If-commands that are reported; C88: the disjunctions of values that are reported. *)
From Coq Require Import Ascii String Sorted Permutation.
From Verif Require Import M_Base M_HTML M_Shared M_Refs M_Records M_Values M_Meta M_Style L_Base L_Style L_StyleVars L_StyleIfs L_StyleDesc Properties_StyleVars.
From Verif Require L_Validate.
Open Scope list_scope.
Open Scope nat_scope.
Notation length := List.length.

(* ------------------------------------------------------------------ *)
(* The messages about a tree whose If-commands are as in the grammar are, in reading order, one for each
   If-command with arms of different forms, and one for each on a single line whose two branches do not
   begin with the same return, let or set. *)
Theorem C87_ifs_exact : forall uniword st root, ifs_formed root ->
  exists ms, check_ifs_in_anode uniword st (Some root) = Ok ms /\ reports (if_fault uniword st root) ms.
Proof. exact ifs_exact. Qed.
(* An If-command without further arms, and one whose arms are all indented or all on a line of their own, is not reported. *)
Theorem C87_balanced : forall uniword st root q r s e ch arms l,
  at_path root q (Node (tx "{IF_OTHER}") r s e ch) -> open_arms (Node (tx "{IF_OTHER}") r s e ch) arms ->
  (forall a, In a arms -> side a = l) -> forall ms, ~ if_fault uniword st root q ms.
Proof.
  intros uniword st root q r s e ch arms l A O H ms [r' s' e' ch' arms' A' O' (a & b & Ia & Ib & N) | r' s' e' ch' l1 r1 s1 e1 c1 l2 r2 s2 e2 c2 A' _ _];
  pose proof (at_fun _ _ _ A _ A') as Y.
  - injection Y; intros; subst. rewrite <- (open_fun _ _ O _ O') in Ia, Ib. apply N. rewrite (H a Ia), (H b Ib). reflexivity.
  - apply (f_equal (fun n => text_eqb (side n) (tx "{IF_OTHER}"))) in Y. vm_compute in Y. discriminate.
Qed.
(* os.path.commonprefix gives the longest text that all of some texts begin with. *)
Theorem C87_commonprefix : forall l, l <> [] ->
  (forall x, In x l -> begins (commonprefix l) x) /\ (forall p, (forall x, In x l -> begins p x) -> begins p (commonprefix l)).
Proof.
  intros l NE. split.
  - apply commonprefix_begins; auto. exists []. now rewrite app_nil_r.
  - intros p H. now apply commonprefix_begins.
Qed.
Theorem C87_ifs_order : forall uniword st ops ops' bifs bifs',
  NoDup (map fst ops) -> NoDup (map fst bifs) -> Permutation ops ops' -> Permutation bifs bifs' ->
  check_for_unbalanced_ifs uniword st ops bifs = check_for_unbalanced_ifs uniword st ops' bifs'.
Proof.
  intros uniword st ops ops' bifs bifs' N1 N2 P1 P2. unfold check_for_unbalanced_ifs, in_order. now rewrite (sorted_items_perm ops ops'), (sorted_items_perm bifs bifs').
Qed.

(* examples *)
Definition no_word (c : N) : bool := false.
Definition leafn (l : text) (s e : nat) : anode := Node l (tx "...") s e [].
Definition cond_ : anode := leafn (tx "{CONDITION}") 3 4.
Definition small_ (s e : nat) : anode := leafn (tx "{SMALL_COMMAND}") s e.
Definition ind_ (s e : nat) : anode := leafn (tx "{IND_COMMANDS}") s e.
Definition if_open_ (b : anode) : anode := Node (tx "{IF_OPEN}") (tx "If {CONDITION}, then{IND_COMMANDS}") 0 10 [cond_; b].
Definition elseif_ (b t : anode) : anode :=
  Node (tx "{IF_TAIL}") (tx "{_NL_N} {ELSEIF_PART}{IF_TAIL}") 10 20 [Node (tx "{ELSEIF_PART}") (tx "Else if {CONDITION}, {SMALL_COMMAND}.") 10 20 [cond_; b]; t].
Definition else_ (b : anode) : anode := Node (tx "{IF_TAIL}") (tx "{_NL_N} {ELSE_PART}") 20 30 [Node (tx "{ELSE_PART}") (tx "Else,{IND_COMMANDS}") 20 30 [b]].
Definition eps_ : anode := Node (tx "{IF_TAIL}") (tx "{EPSILON}") 30 30 [].
Definition if_ (a t : anode) : anode := Node (tx "{IF_OTHER}") (tx "{IF_OPEN}{IF_TAIL}") 0 30 [if_open_ a; t].
Definition closed_ (a b : anode) : anode := Node (tx "{IF_CLOSED}") (tx "If {CONDITION}, {SMALL_COMMAND}; else {SMALL_COMMAND}.") 0 30 [cond_; a; b].
Definition mixed : anode := if_ (ind_ 4 5) (elseif_ (small_ 5 6) (else_ (ind_ 6 7))).
(* the If-commands of a small tree are as in the grammar if those among its paths are *)
Lemma formed_by root : Forall (fun x => (forall r s e ch, snd x = Node (tx "{IF_OTHER}") r s e ch -> exists arms, open_arms (snd x) arms)
     /\ (forall r s e ch, snd x = Node (tx "{IF_CLOSED}") r s e ch -> exists a b, closed_arms (snd x) a b)) (paths root) -> ifs_formed root.
Proof.
  intros F q r s e ch. rewrite Forall_forall in F. split; intros A; destruct (F _ (paths_all _ _ _ A)) as [X Y]; cbn [snd] in X, Y; eauto.
Qed.
Ltac other_side := let H := fresh in intros ? ? ? ? H; apply (f_equal (fun n => text_eqb (side n) (tx "{IF_OTHER}"))) in H; vm_compute in H; discriminate H.
Ltac closed_side := let H := fresh in intros ? ? ? ? H; apply (f_equal (fun n => text_eqb (side n) (tx "{IF_CLOSED}"))) in H; vm_compute in H; discriminate H.
Example C87_exact_ex : ifs_formed mixed /\
  check_ifs_in_anode no_word [] (Some mixed) = Ok [(0, tx "If-command has 'unbalanced' arms: {IND_COMMANDS} {SMALL_COMMAND} {IND_COMMANDS}")].
Proof.
  split; [|vm_compute; reflexivity]. apply formed_by.
  assert (C1 : forall s e, command (ind_ s e)) by (intros; unfold command, ind_, leafn; do 5 eexists; split; [reflexivity | now left]).
  assert (C2 : forall s e, command (small_ s e)) by (intros; unfold command, small_, leafn; do 5 eexists; split; [reflexivity | now right]).
  cbn [paths mixed if_ if_open_ elseif_ else_ ind_ small_ leafn cond_ map app fst snd].
  constructor; [split; cbn [snd]; [|closed_side]|].
  { intros r s e ch _. exists [ind_ 4 5; small_ 5 6; ind_ 6 7]. apply oa; auto. apply ta_elseif; auto. apply ta_else; auto. }
  repeat (constructor; [split; cbn [snd]; [other_side | closed_side]|]). constructor.
Qed.
Example C87_balanced_ex :
  open_arms (if_ (ind_ 4 5) (else_ (ind_ 6 7))) [ind_ 4 5; ind_ 6 7] /\
  check_ifs_in_anode no_word [] (Some (if_ (ind_ 4 5) (else_ (ind_ 6 7)))) = Ok [] /\ check_ifs_in_anode no_word [] (Some (if_ (small_ 4 5) eps_)) = Ok [].
Proof.
  split; [|split; vm_compute; reflexivity].
  assert (C1 : forall s e, command (ind_ s e)) by (intros; unfold command, ind_, leafn; do 5 eexists; split; [reflexivity | now left]).
  apply oa; auto. apply ta_else; auto.
Qed.
Definition two (a b : text) : res (list msg) :=
  check_ifs_in_anode no_word (a ++ b) (Some (closed_ (small_ 0 (length a)) (small_ (length a) (length a + length b)))).
Example C87_closed_ex :
  two (tx "let _x_ be 1") (tx "let _x_ be 2") = Ok [] /\ two (tx "return 1") (tx "return 2") = Ok [] /\ two (tx "set _a_b_ to 1") (tx "set _a_b_ to 2") = Ok [] /\
  two (tx "let _x_ be 1") (tx "let _xy_ be 2") = Ok [(0, tx "If-command branches don't all 'do the same thing'")] /\
  two (tx "let _x_ be 1") (tx "return 2") = Ok [(0, tx "If-command branches don't all 'do the same thing'")].
Proof. vm_compute. repeat split. Qed.
(* Two branches that both perform the same operation are reported, although the convention that the check cites allows them. *)
Theorem C87_perform_refuted : exists st root a b m ms,
  closed_arms root a b /\ source_text st a = Ok (tx "perform Foo(_x_)") /\ source_text st b = Ok (tx "perform Foo(_y_)") /\
  check_ifs_in_anode no_word st (Some root) = Ok (m :: ms).
Proof.
  exists (tx "perform Foo(_x_)perform Foo(_y_)"), (closed_ (small_ 0 16) (small_ 16 32)), (small_ 0 16), (small_ 16 32). do 2 eexists.
  split; [|split; [|split]]; [|vm_compute; reflexivity..].
  constructor; unfold condition, small, cond_, small_, leafn; do 4 eexists; reflexivity.
Qed.
(* Nor may two branches set the same field of a record. *)
Theorem C87_set_field_refuted : exists st root a b m ms,
  closed_arms root a b /\ source_text st a = Ok (tx "set _r_.[[F]] to 1") /\ source_text st b = Ok (tx "set _r_.[[F]] to 2") /\
  check_ifs_in_anode no_word st (Some root) = Ok (m :: ms).
Proof.
  exists (tx "set _r_.[[F]] to 1set _r_.[[F]] to 2"), (closed_ (small_ 0 18) (small_ 18 36)), (small_ 0 18), (small_ 18 36). do 2 eexists.
  split; [|split; [|split]]; [|vm_compute; reflexivity..].
  constructor; unfold condition, small, cond_, small_, leafn; do 4 eexists; reflexivity.
Qed.

(* ------------------------------------------------------------------ *)
(* The messages about a tree whose disjunctions are of terms that are known, and in places that are known, are exactly, in reading order:
   for a disjunction in which a term of one value comes before one of many, the order;
   and for one that is not introduced by the right word, that word. *)
Theorem C88_descs_exact : forall root, descs_formed root ->
  exists ms, check_value_descriptions root = Ok ms /\ reports (desc_fault root) ms.
Proof. exact descs_exact. Qed.
(* The right word is unique. *)
Theorem C88_word_unique : forall l r ch, ch <> [] -> Forall (fun c => multi_term c \/ single_term c) ch -> prose l r \/ declaration l r ->
  exists w, wanted l r ch w /\ forall w', wanted l r ch w' -> w' = w.
Proof.
  intros l r ch NE T P. destruct (terms_kinds ch T) as [ks [_ K]]. destruct (wanted_ok l r ch ks NE T K P) as [w [_ W]].
  exists w. split; [now apply W | intros w' H; now apply W].
Qed.
(* Of the alternatives of the grammar, all but two are known as descriptions of many values or of one. *)
Theorem C88_alternatives : forall r, In r val_desc_alternatives ->
  (rhs_kind r = Ok true /\ multi r) \/ (rhs_kind r = Ok false /\ single r) \/
  (rhs_kind r = Err AssertionError /\ In r [tx "either a WriteSharedMemory or ReadModifyWriteSharedMemory event"; tx "the single code point {code_point_lit}"]).
Proof.
  intros r I.
  assert (F : forallb (fun r => match rhs_kind r with
     | Ok true => true | Ok false => true
     | Err AssertionError => lhs_in r [tx "either a WriteSharedMemory or ReadModifyWriteSharedMemory event"; tx "the single code point {code_point_lit}"] | _ => false end) val_desc_alternatives = true) by (vm_compute; reflexivity).
  rewrite forallb_forall in F. specialize (F r I). destruct (rhs_kind r) as [[|]|e] eqn:K.
  - left. split; auto. unfold rhs_kind in K. destruct (existsb (fun p => is_prefix p r) multi_starts) eqn:X.
    + apply existsb_exists in X. destruct X as [p [P B]]. apply begins_iff in B. unfold multi. cbn [multi_starts In] in P.
      destruct P as [<- | [<- | [<- | [<- | [<- | []]]]]]; tauto.
    + destruct (lhs_in r multi_whole) eqn:Y; [|destruct (lhs_in r single_whole); discriminate]. apply lhs_in_iff in Y. unfold multi. do 5 right. exact Y.
  - right. left. split; auto. unfold rhs_kind in K. destruct (existsb (fun p => is_prefix p r) multi_starts); [discriminate|]. destruct (lhs_in r multi_whole); [discriminate|].
    destruct (lhs_in r single_whole) eqn:Y; [|discriminate]. apply lhs_in_iff in Y. exact Y.
  - right. right. destruct e; try discriminate. split; auto. now apply lhs_in_iff.
Qed.
(* Of the places in which the grammar has a value description, all but one are known as prose or as declaration. *)
Theorem C88_contexts : forall l r, In (l, r) value_description_contexts ->
  prose l r \/ declaration l r \/ (l = tx "{VAL_DESC}" /\ r = tx "an Abstract Closure that takes {VAL_DESC} and returns {VALUE_DESCRIPTION}").
Proof.
  intros l r I. unfold value_description_contexts in I. cbn [In] in I.
  repeat (destruct I as [I | I]; [pose proof (f_equal fst I) as E1; pose proof (f_equal snd I) as E2; cbn [fst snd] in E1, E2; subst l r; clear I|]); [..|destruct I].
  all: unfold prose, declaration; first
    [ left; left; split; reflexivity | left; right; left; split; reflexivity | left; right; right; left; split; reflexivity | left; right; right; right; split; reflexivity
    | right; left; left; reflexivity | right; left; right; left; reflexivity | right; left; right; right; left; reflexivity
    | right; left; right; right; right; left; split; [reflexivity | eexists; reflexivity]
    | right; left; right; right; right; right; split; reflexivity
    | right; right; split; reflexivity ].
Qed.

Definition desc_ (r : text) : anode := Node (tx "{VAL_DESC}") r 0 1 [].
Definition disj_ (ch : list anode) : anode := Node (tx "{VAL_DESC_DISJUNCTION}") (tx "...") 7 20 ch.
Definition place (l r intro : text) (ch : list anode) : anode := Node l r 5 20 [Node (tx "{VALUE_DESCRIPTION}") intro 6 20 [disj_ ch]].
Definition lit_ : anode := desc_ (tx "{LITERAL}").
Definition str_ : anode := desc_ (tx "a String").
Definition param_decl (intro : text) (ch : list anode) : anode := place (tx "{PARAMETER_DECL}") (tx "{nlai}{OPTIONALITY}{var}: {VALUE_DESCRIPTION},") intro ch.
Definition is_cond (intro : text) (ch : list anode) : anode := place (tx "{CONDITION_1}") (tx "{EX} is {VALUE_DESCRIPTION}") intro ch.
Example C88_exact_ex :
  descs_formed (param_decl (tx "either {VAL_DESC_DISJUNCTION}") [lit_; str_]) /\
  check_value_descriptions (param_decl (tx "either {VAL_DESC_DISJUNCTION}") [lit_; str_]) =
   Ok [(7, tx "In a VAL_DESC_DISJUNCTION, the multi-valued terms should come before the single-valued terms, but here the terms are 'SM'");
       (7, tx "this VAL_DESC_DISJUNCTION should be preceded by '' rather than 'either'")].
Proof.
  split; [|vm_compute; reflexivity]. set (root := param_decl (tx "either {VAL_DESC_DISJUNCTION}") [lit_; str_]).
  intros q r s e ch A.
  assert (Q : (q, Node (tx "{VAL_DESC_DISJUNCTION}") r s e ch) = ([0; 0], disj_ [lit_; str_])).
  { pose proof (paths_all _ _ _ A) as I. cbn [paths root param_decl place disj_ lit_ str_ desc_ map app fst snd In] in I.
    repeat (destruct I as [I | I]; [pose proof (f_equal fst I) as E1; pose proof (f_equal snd I) as E2; cbn [fst snd] in E1, E2; subst q;
      first [ f_equal; symmetry; exact E2 | apply (f_equal (fun n => text_eqb (side n) (tx "{VAL_DESC_DISJUNCTION}"))) in E2; vm_compute in E2; discriminate E2 ] |]).
    destruct I. }
  pose proof (f_equal fst Q) as Q1. pose proof (f_equal snd Q) as Q2. cbn [fst snd] in Q1, Q2. subst q. injection Q2; intros; subst. clear Q Q2.
  split; [discriminate|]. split.
  - constructor; [right; unfold single_term, lit_, desc_; do 4 eexists; split; [reflexivity | right; right; left; reflexivity]|].
    constructor; [left; unfold multi_term, str_, desc_; do 4 eexists; split; [reflexivity | left; eexists; reflexivity] | constructor].
  - exists (tx "either"), (tx "{PARAMETER_DECL}"), (tx "{nlai}{OPTIONALITY}{var}: {VALUE_DESCRIPTION},"). split; [|right; right; left; reflexivity].
    change ([0; 0]) with (([] ++ [0]) ++ [0]). unfold root, param_decl, place. eapply dj; [constructor | | | left; split; reflexivity].
    + cbn [app]. econstructor; [reflexivity | constructor].
    + cbn [app]. econstructor; [reflexivity|]. econstructor; [reflexivity | constructor].
Qed.
Example C88_words_ex :
  check_value_descriptions (is_cond (tx "one of {VAL_DESC_DISJUNCTION}") [lit_; lit_; lit_]) = Ok [] /\
  check_value_descriptions (is_cond (tx "one of {VAL_DESC_DISJUNCTION}") [lit_; lit_]) = Ok [(7, tx "this VAL_DESC_DISJUNCTION should be preceded by 'either' rather than 'one of'")] /\
  check_value_descriptions (is_cond (tx "either {VAL_DESC_DISJUNCTION}") [str_; lit_]) = Ok [] /\
  check_value_descriptions (param_decl (tx "{VAL_DESC_DISJUNCTION}") [str_; lit_]) = Ok [] /\
  check_value_descriptions (param_decl (tx "{VAL_DESC_DISJUNCTION}") [desc_ (tx "a normal completion containing {VALUE_DESCRIPTION}"); desc_ (tx "an abrupt completion")]) =
    Ok [(7, tx "this VAL_DESC_DISJUNCTION should be preceded by 'either' rather than ''")].
Proof. vm_compute. repeat split. Qed.
Example C88_word_unique_ex : wanted (tx "{PARAMETER_DECL}") (tx "...") [str_; lit_] [].
Proof.
  apply w_nothing; [right; left; reflexivity|]. intros (l & s & e & c & rest & E). apply (f_equal (fun l => match l with Node _ r _ _ _ :: _ => text_eqb r (tx "a String") | _ => false end)) in E.
  vm_compute in E. discriminate E.
Qed.
Example C88_alternatives_ex : length val_desc_alternatives = 207 /\ length value_description_contexts = 14 /\
  In (tx "an? {nonterminal} Parse Node") val_desc_alternatives /\ In (tx "{PARAMETER_DECL}", tx "{nlai}{OPTIONALITY}{var}: {VALUE_DESCRIPTION},") value_description_contexts.
Proof. split; [reflexivity|]. split; [reflexivity|]. split; [|cbn; tauto]. apply lhs_in_iff. vm_compute. reflexivity. Qed.
(* Two descriptions of the grammar stop the run if they are in a disjunction,
   and so does a disjunction as what a closure with one parameter returns. *)
Theorem C88_stops_refuted : exists l r, In (l, r) value_description_contexts /\ exists t, In t val_desc_alternatives /\ In (tx "a String") val_desc_alternatives /\
  check_value_descriptions (place (tx "{PARAMETER_DECL}") (tx "...") (tx "{VAL_DESC_DISJUNCTION}") [str_; desc_ t]) = Err AssertionError /\
  check_value_descriptions (place l r (tx "either {VAL_DESC_DISJUNCTION}") [str_; lit_]) = Err AssertionError.
Proof.
  exists (tx "{VAL_DESC}"), (tx "an Abstract Closure that takes {VAL_DESC} and returns {VALUE_DESCRIPTION}"). split; [cbn; tauto|].
  exists (tx "the single code point {code_point_lit}"). split; [apply lhs_in_iff; vm_compute; reflexivity|]. split; [apply lhs_in_iff; vm_compute; reflexivity|].
  split; vm_compute; reflexivity.
Qed.

Print Assumptions C87_ifs_exact.
Print Assumptions C87_balanced.
Print Assumptions C87_commonprefix.
Print Assumptions C87_ifs_order.
Print Assumptions C87_perform_refuted.
Print Assumptions C87_set_field_refuted.
Print Assumptions C88_descs_exact.
Print Assumptions C88_word_unique.
Print Assumptions C88_alternatives.
Print Assumptions C88_contexts.
Print Assumptions C88_stops_refuted.
