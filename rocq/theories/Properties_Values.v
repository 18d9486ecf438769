(* C79: two values of executed pseudocode are compared as the specification
   means it, Numbers, Symbols and Objects aside; C80: questions about Lists;
   C81: Strings, code units and code points. *)
From Coq Require Import Ascii String QArith.
From Verif Require Import M_Base L_Base M_HTML M_Shared M_Mathnum M_Values L_Values L_ValLists L_Mathnum.
Open Scope list_scope.
Open Scope nat_scope.
Notation length := List.length.

(* ---------- C79 ---------- *)
Theorem C79_exact a b : plain a -> plain b -> (same_value a b = true <-> same a b).
Proof. apply same_value_plain. Qed.
Theorem C79_sees a b : same_value a b = true <-> same (blur a) (blur b).
Proof. apply same_value_blur. Qed.
Theorem C79_never_misses a b : same a b -> same_value a b = true.
Proof. intros H. apply same_value_blur. now apply blur_keeps_same. Qed.
Theorem C79_equivalence a b c :
  same_value a a = true /\ same_value a b = same_value b a /\ (same_value a b = true -> same_value b c = true -> same_value a c = true).
Proof.
  split; [apply same_value_blur, same_refl|]. split.
  - apply eq_true_iff_eq. rewrite !same_value_blur. split; apply same_sym.
  - rewrite !same_value_blur. apply same_trans.
Qed.
(* Every Number is the same value as every other, so in particular each of them is NaN. *)
Theorem C79_numbers m n : same_value (VNumber m) (VNumber n) = true /\ is_cond (tx "{EX} is {VALUE_DESCRIPTION}") (VNumber n) (DLiteral (VNumber NaN)) = Ok true.
Proof. split; reflexivity. Qed.
Theorem C79_number_refuted : exists m n, ~ same (VNumber m) (VNumber n) /\ same_value (VNumber m) (VNumber n) = true.
Proof. exists (Finite false 1), (Finite false 2). split; [intros H; inversion H|reflexivity]. Qed.
(* Two Symbols with the same description are the same value. *)
Theorem C79_symbol_refuted : exists i j d, ~ same (VSymbol i d) (VSymbol j d) /\ same_value (VSymbol i d) (VSymbol j d) = true.
Proof. exists 0, 1, VUndefined. split; [intros H; inversion H|reflexivity]. Qed.
Theorem C79_object_refuted : exists i j n, ~ same (VObject i n) (VObject j n) /\ same_value (VObject i n) (VObject j n) = true.
Proof. exists 0, 1, 0. split; [intros H; inversion H|reflexivity]. Qed.

Theorem C79_description v d b : plain v -> plain_desc d -> matches v d = Ok b -> (b = true <-> means v d).
Proof. intros PV PD. now apply matches_means. Qed.
Theorem C79_answers v d : sensible v d -> exists b, matches v d = Ok b.
Proof. apply matches_total. Qed.
Theorem C79_fails v d e : matches v d = Err e -> e = AssertionError /\ ~ sensible v d.
Proof. intros H. split; [now apply matches_err in H|]. intros S. apply matches_total in S. destruct S as (b & B). congruence. Qed.

Theorem C79_is v d : plain v -> plain_desc d -> sensible v d ->
  (exists b, is_cond (tx "{EX} is {VALUE_DESCRIPTION}") v d = Ok b /\ (b = true <-> means v d)) /\
  (exists b, is_cond (tx "{EX} is also {VAL_DESC}") v d = Ok b /\ (b = true <-> means v d)) /\
  (exists b, is_cond (tx "{EX} is not {VALUE_DESCRIPTION}") v d = Ok b /\ (b = true <-> ~ means v d)).
Proof.
  intros PV PD S. destruct (matches_total v d S) as (b & B). pose proof (matches_means v d PV PD b B) as M. unfold is_cond. rewrite B. cbn [bind].
  assert (E1 : (text_in (tx "not") (tx "{EX} is {VALUE_DESCRIPTION}") || text_in (tx "never") (tx "{EX} is {VALUE_DESCRIPTION}"))%bool = false) by (vm_compute; reflexivity).
  assert (E2 : (text_in (tx "not") (tx "{EX} is also {VAL_DESC}") || text_in (tx "never") (tx "{EX} is also {VAL_DESC}"))%bool = false) by (vm_compute; reflexivity).
  assert (E3 : (text_in (tx "not") (tx "{EX} is not {VALUE_DESCRIPTION}") || text_in (tx "never") (tx "{EX} is not {VALUE_DESCRIPTION}"))%bool = true) by (vm_compute; reflexivity).
  rewrite E1, E2, E3. split; [|split].
  - now exists b.
  - now exists b.
  - exists (negb b). split; [reflexivity|]. rewrite negb_true_iff, <- M. now destruct b.
Qed.
Theorem C79_neither v ds : plain v -> Forall plain_desc ds -> Forall (sensible v) ds ->
  exists b, neither_cond v ds = Ok b /\ (b = true <-> forall d, In d ds -> ~ means v d).
Proof.
  intros PV PD S. induction ds as [|d ds IH].
  - exists true. split; [reflexivity|]. split; [intros _ d []|reflexivity].
  - inversion PD as [|? ? P1 P2]; subst. inversion S as [|? ? S1 S2]; subst. destruct (IH P2 S2) as (b & B & M). destruct (matches_total v d S1) as (c & C). pose proof (matches_means v d PV P1 c C) as K. cbn [neither_cond]. rewrite C. cbn [bind]. destruct c.
    + exists false. split; [reflexivity|]. split; [discriminate|]. intros H. destruct (H d); [now left|]. now apply K.
    + exists b. split; [exact B|]. rewrite M. split; intros H d' I.
      * destruct I as [<-|I]; [|now apply H]. intros Q. apply K in Q. discriminate.
      * apply H. now right.
Qed.
Print Assumptions C79_exact.
Print Assumptions C79_sees.
Print Assumptions C79_never_misses.
Print Assumptions C79_equivalence.
Print Assumptions C79_numbers.
Print Assumptions C79_number_refuted.
Print Assumptions C79_symbol_refuted.
Print Assumptions C79_object_refuted.
Print Assumptions C79_description.
Print Assumptions C79_answers.
Print Assumptions C79_fails.
Print Assumptions C79_is.
Print Assumptions C79_neither.

Definition str (s : string) : val := VString (tx s).
Example C79_exact_ex :
  plain (VList [str "a"; VMath (MInt 2)]) /\ same (VList [str "a"; VMath (MInt 2)]) (VList [str "a"; VMath (MFlt (2 ^ 1075))]) /\
  same_value (VList [str "a"; VMath (MInt 2)]) (VList [str "a"; VMath (MFlt (2 ^ 1075))]) = true /\
  same_value (VString (tx "super")) (VTerminal (tx "super")) = false.
Proof.
  split; [cbn; tauto|]. split; [|split; vm_compute; reflexivity]. repeat constructor.
Qed.
Example C79_sees_ex : blur (VList [VNumber (Finite true 5); VNull]) = VList [VNumber NaN; VNull].
Proof. reflexivity. Qed.
Example C79_description_ex :
  let d := DAnyOf [DLiteral (VAdhoc (tx "~empty~")); DInstanceNT] in
  matches (VNode 3 (SymNT (tx "Block")) false) d = Ok true /\ plain_desc d /\ sensible (VNode 3 (SymNT (tx "Block")) false) d /\
  matches (str "x") d = Err AssertionError /\ matches (VAdhoc (tx "~empty~")) d = Ok true.
Proof. cbn. tauto. Qed.
Example C79_is_ex : is_cond (tx "{EX} is not {VALUE_DESCRIPTION}") VNull (DLiteral VUndefined) = Ok true /\ sensible VNull (DLiteral VUndefined).
Proof. split; [vm_compute; reflexivity|exact I]. Qed.
Example C79_neither_ex : neither_cond (VNode 1 (SymNT (tx "Block")) false) [DInstanceOf (VNonterminal (tx "ObjectLiteral")); DInstanceOf (VTerminal (tx "super"))] = Ok true.
Proof. vm_compute. reflexivity. Qed.

(* ---------- C80 ---------- *)
(* each question about a List gets its answer *)
Theorem C80_duplicates l : Forall plain l -> exists b,
  (b = true <-> repeated l) /\
  duplicates_cond (tx "{EX} contains any duplicate elements") (VList l) = Ok b /\
  duplicates_cond (tx "{EX} contains any duplicate entries") (VList l) = Ok b /\
  duplicates_cond (tx "{var} has any duplicate entries") (VList l) = Ok b /\
  duplicates_cond (tx "{EX} contains no duplicate entries") (VList l) = Ok (negb b) /\
  duplicates_cond (tx "{var} has no duplicate entries") (VList l) = Ok (negb b).
Proof.
  intros PL. exists (duplicates l). split; [now apply duplicates_iff|].
  unfold duplicates_cond. cbn [as_list bind].
  assert (E1 : text_in (tx "no duplicate") (tx "{EX} contains any duplicate elements") = false) by (vm_compute; reflexivity).
  assert (E2 : text_in (tx "no duplicate") (tx "{EX} contains any duplicate entries") = false) by (vm_compute; reflexivity).
  assert (E3 : text_in (tx "no duplicate") (tx "{var} has any duplicate entries") = false) by (vm_compute; reflexivity).
  assert (E4 : text_in (tx "no duplicate") (tx "{EX} contains no duplicate entries") = true) by (vm_compute; reflexivity).
  assert (E5 : text_in (tx "no duplicate") (tx "{var} has no duplicate entries") = true) by (vm_compute; reflexivity).
  rewrite E1, E2, E3, E4, E5. repeat split; reflexivity.
Qed.
Theorem C80_contains l v : Forall plain l -> plain v -> exists b,
  (b = true <-> exists e, In e l /\ same e v) /\
  contains_cond (tx "{EX} contains {EX}") (VList l) v = Ok b /\ contains_cond (tx "{EX} does not contain {EX}") (VList l) v = Ok (negb b) /\
  not_include_cond (VList l) v = Ok (negb b).
Proof.
  intros PL PV. exists (contains l v). split; [now apply contains_iff|]. unfold contains_cond, not_include_cond. cbn [as_list bind].
  assert (E1 : text_in (tx "does not contain") (tx "{EX} contains {EX}") = false) by (vm_compute; reflexivity). assert (E2 : text_in (tx "does not contain") (tx "{EX} does not contain {EX}") = true) by (vm_compute; reflexivity).
  rewrite E1, E2. repeat split; reflexivity.
Qed.
Theorem C80_more_than_one l v : Forall plain l -> plain v -> exists b, more_than_one_cond (VList l) v = Ok b /\ (b = true <-> two_of (fun e => same e v) l).
Proof. intros PL PV. eexists. split; [reflexivity|]. rewrite Nat.ltb_lt. now apply occurrences_iff. Qed.
Theorem C80_also_occurs l m : Forall plain l -> Forall plain m -> exists b, also_occurs_cond (VList l) (VList m) = Ok b /\ (b = true <-> exists x y, In x l /\ In y m /\ same x y).
Proof. intros PL PM. eexists. split; [reflexivity|]. now apply common_iff. Qed.
Theorem C80_in_neither l m n : Forall plain l -> Forall plain m -> Forall plain n ->
  exists b, occurs_in_neither_cond (VList l) (VList m) (VList n) = Ok b /\
    (b = true <-> exists x, In x l /\ forall y, same y x -> ~ In y m /\ ~ In y n).
Proof.
  intros PL PM PN. eexists. split; [reflexivity|]. rewrite existsb_exists. split.
  - intros (x & I & H). exists x. split; [assumption|]. assert (PX : plain x) by (rewrite Forall_forall in PL; auto). apply negb_true_iff, orb_false_iff in H. destruct H as (H1 & H2). intros y S. split; intros J.
    + assert (contains m x = true) by (apply contains_iff; try assumption; now exists y). congruence.
    + assert (contains n x = true) by (apply contains_iff; try assumption; now exists y). congruence.
  - intros (x & I & H). exists x. split; [assumption|]. assert (PX : plain x) by (rewrite Forall_forall in PL; auto). apply negb_true_iff, orb_false_iff. split.
    + destruct (contains m x) eqn:E; [|reflexivity]. apply contains_iff in E; [|assumption..]. destruct E as (y & J & S). now destruct (H y S).
    + destruct (contains n x) eqn:E; [|reflexivity]. apply contains_iff in E; [|assumption..]. destruct E as (y & J & S). now destruct (H y S).
Qed.
Theorem C80_empty l : exists b, (b = true <-> l = []) /\ empty_cond (tx "{EX} is empty") (VList l) = Ok b /\ empty_cond (tx "{EX} is not empty") (VList l) = Ok (negb b).
Proof.
  exists (match l with [] => true | _ => false end). split; [destruct l; split; congruence|]. unfold empty_cond. cbn [as_list bind].
  assert (E1 : text_in (tx "is not") (tx "{EX} is empty") = false) by (vm_compute; reflexivity). assert (E2 : text_in (tx "is not") (tx "{EX} is not empty") = true) by (vm_compute; reflexivity). rewrite E1, E2. now split.
Qed.
(* Nonterminals among the nodes of a List; a value that is not a Parse Node makes it fail, unless one was found before it *)
Theorem C80_nonterminals l nt b : contains_nts_cond (VList l) nt = Ok b -> (b = true <-> exists i t, In (VNode i (SymNT nt) t) l).
Proof.
  unfold contains_nts_cond. cbn [as_list bind]. revert b. induction l as [|e l IH]; intros b H; cbn [any_] in H.
  - injection H as <-. split; [discriminate|intros (i & t & [])].
  - destruct e as [| |?|?|? ?|?|? ?|?|?|?|?|?|?|i s t|?|?|?]; cbn [bind] in H; try discriminate. destruct (nsym_eqb s (SymNT nt)) eqn:E.
    + injection H as <-. split; [intros _|reflexivity]. destruct s; cbn in E; try discriminate. apply text_eqb_eq in E. subst. exists i, t. now left.
    + rewrite (IH b H). split; intros (i' & t' & I); exists i', t'; [now right|]. destruct I as [I|I]; [|assumption]. injection I as -> -> ->. cbn in E. rewrite (proj2 (text_eqb_eq nt nt) eq_refl) in E. discriminate.
Qed.
Theorem C80_nonterminals_answers l nt : (forall e, In e l -> exists i s t, e = VNode i s t) -> exists b, contains_nts_cond (VList l) nt = Ok b.
Proof.
  unfold contains_nts_cond. cbn [as_list bind]. induction l as [|e l IH]; intros H; cbn [any_]; [now exists false|]. destruct (H e (or_introl eq_refl)) as (i & s & t & ->). cbn [bind]. destruct (nsym_eqb s (SymNT nt)); [now exists true|]. apply IH. intros e' I. apply H. now right.
Qed.
(* What is made: concatenation, appending, counting *)
Theorem C80_concat vs l : concat_ vs = Ok l <-> exists ls, vs = map VList ls /\ l = List.concat ls.
Proof. apply concat_ok. Qed.
Theorem C80_append l v :
  append_command (tx "Append {EX} to {EX}.") v (VList l) = Ok (VList (l ++ [v])) /\ append_command (tx "append {EX} to {SETTABLE}") v (VList l) = Ok (VList (l ++ [v])) /\
  append_command (tx "Insert {var} as the first element of {var}.") v (VList l) = Err AssertionError /\ append_command (tx "Prepend {var} to {var}.") v (VList l) = Err AssertionError.
Proof.
  unfold append_command. cbn [as_list bind].
  assert (E1 : (text_in (tx "Append") (tx "Append {EX} to {EX}.") || text_in (tx "append") (tx "Append {EX} to {EX}."))%bool = true) by (vm_compute; reflexivity).
  assert (E2 : (text_in (tx "Append") (tx "append {EX} to {SETTABLE}") || text_in (tx "append") (tx "append {EX} to {SETTABLE}"))%bool = true) by (vm_compute; reflexivity).
  assert (E3 : (text_in (tx "Append") (tx "Insert {var} as the first element of {var}.") || text_in (tx "append") (tx "Insert {var} as the first element of {var}."))%bool = false) by (vm_compute; reflexivity).
  assert (E4 : (text_in (tx "Append") (tx "Prepend {var} to {var}.") || text_in (tx "append") (tx "Prepend {var} to {var}."))%bool = false) by (vm_compute; reflexivity).
  rewrite E1, E2, E3, E4. repeat split; reflexivity.
Qed.
Theorem C80_number l : exists m, number_of_elements (VList l) = Ok (VMath m) /\ Qeq (qval m) (inject_Z (Z.of_nat (length l))).
Proof. eexists. split; [reflexivity|reflexivity]. Qed.
(* Anything but a List makes these questions fail *)
Theorem C80_not_a_list c rhs v w : (forall l, c <> VList l) ->
  duplicates_cond rhs c = Err AssertionError /\ more_than_one_cond c v = Err AssertionError /\ also_occurs_cond c w = Err AssertionError /\ empty_cond rhs c = Err AssertionError /\
  not_include_cond c v = Err AssertionError /\ append_command rhs v c = Err AssertionError /\ number_of_elements c = Err AssertionError.
Proof.
  intros H. assert (E : as_list c = Err AssertionError) by (apply as_list_err; now split).
  unfold duplicates_cond, more_than_one_cond, also_occurs_cond, empty_cond, not_include_cond, append_command, number_of_elements. rewrite E. cbn [bind]. repeat split; reflexivity.
Qed.
(* A List with two Numbers, whatever they are, has duplicates. *)
Theorem C80_numbers_refuted : exists l, ~ repeated l /\ duplicates_cond (tx "{EX} contains any duplicate elements") (VList l) = Ok true.
Proof.
  exists [VNumber (Finite false 1); VNumber (Finite false 2)]. split; [|vm_compute; reflexivity]. intros (i & j & a & b & L & HI & HJ & S).
  destruct j as [|[|j]]; [lia| |destruct j; discriminate]. destruct i; [|lia]. cbn in HI, HJ. injection HI as <-. injection HJ as <-. inversion S.
Qed.

(* duplicate entries that were obtained from productions of a form *)
Theorem C80_of_form l v pdl ds puks : Forall plain l -> plain v -> lists pdl ds ->
  Forall (fun d => pd_ok d = true /\ exists n, pd_name d = Ok n /\ plain n) ds ->
  exists b, duplicates_of_form (VList l) v pdl puks = Ok b /\ (b = true <-> two_of (fun e => same e v) l /\ two_of (of_form v puks) ds).
Proof.
  intros PL PV LI F. unfold duplicates_of_form. cbn [as_list bind]. pose proof (occurrences_iff l v PL PV) as O. destruct (Nat.leb_spec (occurrences l v) 1) as [L|L].
  - exists false. split; [reflexivity|]. rewrite <- O. split; [discriminate|lia].
  - rewrite (each_pd_lists _ _ LI), count_pds_ok.
    + cbn [bind assert_ Nat.add]. eexists. split; [reflexivity|]. rewrite <- O, Nat.leb_le.
      change (2 <= length (filter (of_form_b v puks) ds)) with (1 < length (filter (of_form_b v puks) ds)). rewrite filter_two.
      rewrite (two_of_ext _ (of_form v puks)); [tauto|]. intros d I. rewrite Forall_forall in F. destruct (F d I) as (_ & n & N & PN). apply of_form_iff; [assumption|]. intros n' N'. congruence.
    + eapply Forall_impl; [|exact F]. cbn. intros d (K & n & N & _). split; [assumption|now exists n].
Qed.
(* If the List consists of the names of the definitions, in order, perhaps without some that are not the name in question, the first part of the condition follows from the second. *)
Theorem C80_of_form_names names keep v pdl ds puks : Forall plain names -> plain v -> lists pdl ds ->
  Forall2 (fun d n => pd_ok d = true /\ pd_name d = Ok n) ds names -> (forall n, In n names -> same n v -> keep n = true) ->
  exists b, duplicates_of_form (VList (filter keep names)) v pdl puks = Ok b /\ (b = true <-> two_of (of_form v puks) ds).
Proof.
  intros PN PV LI F K.
  assert (PF : Forall plain (filter keep names)) by (rewrite Forall_forall in *; intros x I; apply filter_In in I; apply PN; tauto).
  destruct (C80_of_form (filter keep names) v pdl ds puks PF PV LI) as (b & B & E).
  { rewrite Forall_forall in PN. rewrite Forall_forall. intros d I. clear - F PN I. induction F as [|d' n ds ns (A & N) F IH]; [destruct I|]. destruct I as [<-|I]; [split; [assumption|exists n; split; [assumption|apply PN; now left]]|]. apply IH; [|assumption]. intros x J. apply PN. now right. }
  exists b. split; [exact B|]. rewrite E. split; [tauto|]. intros T. split; [|assumption]. rewrite <- occurrences_iff by assumption. unfold occurrences.
  assert (X : length (filter (fun e => same_value e v) (filter keep names)) = length (filter (fun e => same_value e v) names)).
  { rewrite Forall_forall in PN. clear - K PN PV. induction names as [|n ns IH]; [reflexivity|]. cbn [filter]. specialize (IH (fun x I => PN x (or_intror I)) (fun x I => K x (or_intror I))). destruct (keep n) eqn:Q; cbn [filter]; destruct (same_value n v) eqn:S; cbn [length]; try lia. apply same_value_plain in S; [|apply PN; now left|assumption]. rewrite K in Q; [discriminate|now left|assumption]. }
  rewrite X. assert (T' : two_of (fun d => of_form_b v puks d = true) ds).
  { eapply two_of_ext; [|exact T]. intros d I. apply of_form_iff; [assumption|]. rewrite Forall_forall in PN. clear - F PN I. intros m M. induction F as [|d' n ds ns (A & N) F IH]; [destruct I|]. destruct I as [<-|I]; [|apply IH; [intros x J; apply PN; now right|assumption]]. apply PN. left. congruence. }
  apply filter_two in T'. eapply Nat.lt_le_trans; [exact T'|]. clear - F. induction F as [|d n ds ns (A & N) F IH]; cbn [filter]; [reflexivity|]. unfold of_form_b at 1. rewrite N. destruct (same_value n v); cbn [andb]; [|exact IH]. destruct (existsb _ puks); cbn [length]; lia.
Qed.
Print Assumptions C80_duplicates.
Print Assumptions C80_contains.
Print Assumptions C80_more_than_one.
Print Assumptions C80_also_occurs.
Print Assumptions C80_in_neither.
Print Assumptions C80_empty.
Print Assumptions C80_nonterminals.
Print Assumptions C80_nonterminals_answers.
Print Assumptions C80_concat.
Print Assumptions C80_append.
Print Assumptions C80_number.
Print Assumptions C80_not_a_list.
Print Assumptions C80_numbers_refuted.
Print Assumptions C80_of_form.
Print Assumptions C80_of_form_names.

Definition abc := [str "a"; str "b"; str "a"].
Example C80_duplicates_ex : Forall plain abc /\ repeated abc /\ duplicates_cond (tx "{EX} contains no duplicate entries") (VList abc) = Ok false.
Proof. split; [repeat constructor|]. split; [|vm_compute; reflexivity]. exists 0, 2, (str "a"), (str "a"). repeat split; try lia. constructor. Qed.
Example C80_contains_ex : contains_cond (tx "{EX} does not contain {EX}") (VList abc) (str "c") = Ok true /\ not_include_cond (VList abc) (str "b") = Ok false.
Proof. split; vm_compute; reflexivity. Qed.
Example C80_more_than_one_ex : more_than_one_cond (VList abc) (str "a") = Ok true /\ more_than_one_cond (VList abc) (str "b") = Ok false.
Proof. split; vm_compute; reflexivity. Qed.
Example C80_also_occurs_ex : also_occurs_cond (VList abc) (VList [str "x"; str "b"]) = Ok true /\ also_occurs_cond (VList abc) (VList []) = Ok false.
Proof. split; vm_compute; reflexivity. Qed.
Example C80_in_neither_ex : occurs_in_neither_cond (VList abc) (VList [str "x"; str "b"]) (VList [str "y"]) = Ok true /\ occurs_in_neither_cond (VList abc) (VList [str "b"]) (VList [str "a"]) = Ok false.
Proof. split; vm_compute; reflexivity. Qed.
Example C80_empty_ex : empty_cond (tx "{EX} is not empty") (VList abc) = Ok true /\ empty_cond (tx "{EX} is empty") (VList []) = Ok true.
Proof. split; vm_compute; reflexivity. Qed.
Example C80_nonterminals_ex :
  contains_nts_cond (VList [VNode 1 (SymNT (tx "A")) false; VNode 2 (SymNT (tx "B")) false]) (tx "B") = Ok true /\
  contains_nts_cond (VList [VNode 1 (SymNT (tx "A")) false; VNull]) (tx "B") = Err AttributeError.
Proof. split; vm_compute; reflexivity. Qed.
Example C80_concat_ex : concat_ [VList abc; VList []; VList [VNull]] = Ok (abc ++ [VNull]) /\ concat_ [VList abc; VNull] = Err AssertionError.
Proof. split; vm_compute; reflexivity. Qed.
Example C80_not_a_list_ex : forall l, str "a" <> VList l.
Proof. discriminate. Qed.
Definition pd (s : string) (k : nat) := mkPD true (Ok (str s)) k.
Definition three := PLMore (PLMore (PLOne (pd "__proto__" 1)) (pd "x" 1)) (pd "__proto__" 2).
Example C80_of_form_ex :
  lists three [pd "__proto__" 1; pd "x" 1; pd "__proto__" 2] /\
  duplicates_of_form (VList [str "__proto__"; str "x"; str "__proto__"]) (str "__proto__") three [1] = Ok false /\
  duplicates_of_form (VList [str "__proto__"; str "x"; str "__proto__"]) (str "__proto__") three [1; 2] = Ok true.
Proof.
  split; [|split; vm_compute; reflexivity]. change [pd "__proto__" 1; pd "x" 1; pd "__proto__" 2] with (([pd "__proto__" 1] ++ [pd "x" 1]) ++ [pd "__proto__" 2]). repeat constructor.
Qed.
Example C80_of_form_names_ex :
  Forall2 (fun d n => pd_ok d = true /\ pd_name d = Ok n) [pd "__proto__" 1; pd "x" 1; pd "__proto__" 2] [str "__proto__"; str "x"; str "__proto__"] /\
  two_of (of_form (str "__proto__") [1; 2]) [pd "__proto__" 1; pd "x" 1; pd "__proto__" 2].
Proof.
  split; [repeat constructor|]. exists 0, 2, (pd "__proto__" 1), (pd "__proto__" 2). split; [lia|]. split; [reflexivity|]. split; [reflexivity|]. split; exists (str "__proto__"); (split; [reflexivity|split; [constructor|cbn; tauto]]).
Qed.

(* ---------- C81 ---------- *)
(* the text is all ASCII *)
Definition ascii (s : text) : Prop := forall c, In c s -> (c < 128)%N.
Theorem C81_from_python s :
  (ascii s -> from_python s = Ok (VString s)) /\ (~ ascii s -> from_python s = Err AssertionError).
Proof.
  unfold from_python. destruct (forallb (fun c => (c <? 128)%N) s) eqn:F; cbn [assert_ bind]; (split; intros A; [|]); try reflexivity; exfalso.
  - apply A. intros c I. rewrite forallb_forall in F. now apply N.ltb_lt, F.
  - enough (forallb (fun c => (c <? 128)%N) s = true) by congruence. apply forallb_forall. intros c I. now apply N.ltb_lt, A.
Qed.
Theorem C81_there_and_back s v : from_python s = Ok v -> exists us, v = VString us /\ to_python us = s.
Proof. unfold from_python. destruct (assert_ _); cbn [bind]; [|discriminate]. intros H. injection H as <-. now exists s. Qed.
(* The code units of a String are taken for code points: the one code point that a pair of surrogates encodes becomes two. *)
Definition utf16 (cp : N) : list N := if (cp <? 65536)%N then [cp] else [55296 + (cp - 65536) / 1024; 56320 + (cp - 65536) mod 1024]%N.
Theorem C81_to_python_refuted : exists cp, (cp <= 1114111)%N /\ to_python (utf16 cp) <> [cp].
Proof. exists 128512%N. split; [lia|vm_compute; discriminate]. Qed.
(* The test for reserved words is not affected by this *)
Theorem C81_reserved ws us : exists b, reserved_cond (map Some ws) (VString us) = Ok b /\ (b = true <-> In us ws /\ us <> tx "yield" /\ us <> tx "await").
Proof.
  unfold reserved_cond. rewrite (proj2 (all_some_ok (map Some ws) ws) eq_refl). cbn [bind]. eexists. split; [reflexivity|]. rewrite existsb_exists. unfold to_python. split.
  - intros (w & I & E). apply text_eqb_eq in E. subst w. apply filter_In in I. destruct I as (I & N). split; [assumption|]. apply negb_true_iff in N. cbn [existsb] in N. apply orb_false_iff in N. destruct N as (N1 & N2). apply orb_false_iff in N2. destruct N2 as (N2 & _). split; intros ->.
    + now rewrite (proj2 (text_eqb_eq (tx "yield") (tx "yield")) eq_refl) in N1.
    + now rewrite (proj2 (text_eqb_eq (tx "await") (tx "await")) eq_refl) in N2.
  - intros (I & N1 & N2). exists us. split; [|now apply text_eqb_eq]. apply filter_In. split; [assumption|]. apply negb_true_iff. cbn [existsb]. destruct (text_eqb us (tx "yield")) eqn:E1; [apply text_eqb_eq in E1; contradiction|]. destruct (text_eqb us (tx "await")) eqn:E2; [apply text_eqb_eq in E2; contradiction|]. reflexivity.
Qed.

(* numeric values *)
Theorem C81_code_unit z : ((0 <= z < 65536)%Z -> code_unit_with_value (VMath (MInt z)) = Ok (VCodeUnit (Z.to_N z))) /\ (~ (0 <= z < 65536)%Z -> code_unit_with_value (VMath (MInt z)) = Err AssertionError).
Proof.
  unfold code_unit_with_value, code_unit. change (2 ^ 16)%Z with 65536%Z. destruct (Z.leb_spec 0 z), (Z.ltb_spec z 65536); cbn [andb assert_ bind]; split; intros; try reflexivity; lia.
Qed.
Theorem C81_code_point z : ((0 <= z <= 1114111)%Z -> code_point_with_value (VMath (MInt z)) = Ok (VCodePoint (Z.to_N z))) /\ (~ (0 <= z <= 1114111)%Z -> code_point_with_value (VMath (MInt z)) = Err AssertionError).
Proof.
  unfold code_point_with_value. destruct (Z.leb_spec 0 z), (Z.leb_spec z 1114111); cbn [andb assert_ bind]; split; intros; try reflexivity; lia.
Qed.
(* A code point stands for its numeric value where one is expected; a quotient, even a whole one, is refused *)
Theorem C81_code_unit_of_code_point c : code_unit_with_value (VCodePoint c) = code_unit_with_value (VMath (MInt (Z.of_N c))).
Proof. reflexivity. Qed.
Theorem C81_whole_quotient_refuted : exists a b k, (b <> 0 /\ a mod b = 0 /\ 0 <= a / b < 65536)%Z /\ m_div (MInt a) (MInt b) = NOk (MFlt k) /\ code_unit_with_value (VMath (MFlt k)) = Err AssertionError.
Proof. exists 4%Z, 2%Z, (2 ^ 1075)%Z. split; [cbn; lia|]. split; [vm_compute; reflexivity|reflexivity]. Qed.

(* literals *)
Definition name_text (n : text) : Prop := n <> [] /\ forall c, In c n -> (65 <= c <= 90)%N \/ c = 32%N \/ c = 45%N.
Definition hex_upper (c : N) (d : Z) : Prop := digit c d /\ (c < 97)%N.
Lemma upper_hex_iff c : upper_hex c = true <-> exists d, hex_upper c d.
Proof.
  unfold upper_hex, hex_upper. rewrite orb_true_iff, !andb_true_iff, !N.leb_le. split.
  - intros [H|H]; [exists (Z.of_N c - 48)%Z|exists (Z.of_N c - 55)%Z]; (split; [|lia]); [apply digit_dec|apply digit_upper]; lia.
  - intros (d & D & L). inversion D; lia.
Qed.
Lemma name_char_iff c : name_char c = true <-> (65 <= c <= 90)%N \/ c = 32%N \/ c = 45%N.
Proof. unfold name_char. rewrite !orb_true_iff, andb_true_iff, !N.leb_le, !N.eqb_eq. tauto. Qed.
Lemma is_prefix_iff s t : is_prefix s t = true <-> exists b, t = s ++ b.
Proof.
  revert t. induction s as [|c s IH]; intros t; cbn [is_prefix]; [split; [now exists t|reflexivity]|]. destruct t as [|d t].
  - split; [discriminate|]. intros (b & H). discriminate.
  - rewrite andb_true_iff, N.eqb_eq, IH. split; [intros (-> & b & ->); now exists b|]. intros (b & H). injection H as -> ->. split; [reflexivity|now exists b].
Qed.
Lemma skipn_self {A} (p s : list A) : skipn (length p) (p ++ s) = s.
Proof. rewrite skipn_app, skipn_all, Nat.sub_diag. reflexivity. Qed.
Lemma match_code_unit_iff chars h : match_code_unit chars = Some h <->
  exists n, chars = tx "the code unit 0x" ++ h ++ tx " (" ++ n ++ tx ")" /\ length h = 4 /\ (forall c, In c h -> exists d, hex_upper c d) /\ name_text n.
Proof.
  unfold match_code_unit. set (p := tx "the code unit 0x"). set (q := tx " ("). assert (Q2 : length q = 2) by reflexivity. clearbody p. split.
  - destruct (is_prefix p chars) eqn:P; cbn [negb]; [|discriminate]. apply is_prefix_iff in P. destruct P as (s & ->). rewrite skipn_self.
    destruct (Nat.eqb_spec (length (firstn 4 s)) 4) as [L|L]; cbn [andb]; [|discriminate]. destruct (forallb upper_hex (firstn 4 s)) eqn:U; cbn [andb]; [|discriminate]. destruct (is_prefix q (skipn 4 s)) eqn:Q; [|discriminate].
    apply is_prefix_iff in Q. destruct Q as (r & Q). rewrite Q. rewrite <- Q2, skipn_self. destruct (rev r) as [|c n] eqn:R; [discriminate|].
    destruct (N.eqb_spec c 41) as [->|]; cbn [andb]; [|discriminate]. destruct (forallb name_char n) eqn:NC; cbn [andb]; [|discriminate]. destruct (Nat.eqb_spec (length n) 0) as [L0|L0]; cbn [negb]; [discriminate|]. intros H. injection H as <-.
    exists (rev n). assert (RR : r = rev n ++ [41%N]) by (rewrite <- (rev_involutive r), R; reflexivity). split; [|split; [exact L|split]].
    + rewrite <- (firstn_skipn 4 s) at 1. rewrite Q, RR. reflexivity.
    + intros x I. rewrite forallb_forall in U. now apply upper_hex_iff, U.
    + split; [intros EE; apply L0; rewrite <- rev_length, EE; reflexivity|]. intros x I. apply in_rev in I. rewrite forallb_forall in NC. now apply name_char_iff, NC.
  - intros (n & -> & L & U & N0 & NC). assert (P : is_prefix p (p ++ h ++ q ++ n ++ tx ")") = true) by (apply is_prefix_iff; eexists; reflexivity). rewrite P. cbn [negb]. rewrite skipn_self.
    assert (F : firstn 4 (h ++ q ++ n ++ tx ")") = h) by (rewrite <- L, firstn_app, firstn_all, Nat.sub_diag; cbn [firstn]; apply app_nil_r). assert (S : skipn 4 (h ++ q ++ n ++ tx ")") = q ++ n ++ tx ")") by (rewrite <- L; apply skipn_self).
    rewrite F, S, L. cbn [Nat.eqb andb]. assert (UH : forallb upper_hex h = true) by (apply forallb_forall; intros c I; apply upper_hex_iff, U, I). rewrite UH. cbn [andb]. assert (Q : is_prefix q (q ++ n ++ tx ")") = true) by (apply is_prefix_iff; eexists; reflexivity). rewrite Q.
    assert (SK : skipn 2 (q ++ n ++ tx ")") = n ++ [41%N]) by (rewrite <- Q2; apply skipn_self). rewrite SK. rewrite rev_app_distr. cbn [rev app]. assert (NN : forallb name_char (rev n) = true) by (apply forallb_forall; intros c I; apply name_char_iff, NC, in_rev, I). rewrite NN, rev_length. cbn [N.eqb andb]. destruct (Nat.eqb_spec (length n) 0) as [E|E]; [destruct n; [contradiction|discriminate]|]. reflexivity.
Qed.
Lemma hex4 a b c d x y z w : hex_upper a x -> hex_upper b y -> hex_upper c z -> hex_upper d w -> int_of 16 0 [a; b; c; d] = Some (((x * 16 + y) * 16 + z) * 16 + w)%Z.
Proof.
  assert (K : forall c d, hex_upper c d -> digit_val c = Some d /\ (d <? 16)%Z = true) by (intros c' d' (D & _); split; [now apply digit_val_iff|inversion D; apply Z.ltb_lt; lia]).
  intros A B C D. apply K in A, B, C, D. destruct A as (A1 & A2), B as (B1 & B2), C as (C1 & C2), D as (D1 & D2). cbn [int_of]. rewrite A1, A2, B1, B2, C1, C2, D1, D2. reflexivity.
Qed.
Lemma hex_upper_range c d : hex_upper c d -> (0 <= d < 16)%Z.
Proof. intros (D & _). inversion D; lia. Qed.
Theorem C81_code_unit_literal a b c d x y z w n : hex_upper a x -> hex_upper b y -> hex_upper c z -> hex_upper d w -> name_text n ->
  code_unit_lit (tx "the code unit 0x" ++ [a; b; c; d] ++ tx " (" ++ n ++ tx ")") = Ok (VCodeUnit (Z.to_N (4096 * x + 256 * y + 16 * z + w))).
Proof.
  intros A B C D N. unfold code_unit_lit. assert (M : match_code_unit (tx "the code unit 0x" ++ [a; b; c; d] ++ tx " (" ++ n ++ tx ")") = Some [a; b; c; d]).
  { apply match_code_unit_iff. exists n. split; [reflexivity|]. split; [reflexivity|]. split; [|assumption]. intros e [<-|[<-|[<-|[<-|[]]]]]; eauto. }
  rewrite M, (hex4 a b c d x y z w) by assumption. unfold code_unit. apply hex_upper_range in A, B, C, D. change (2 ^ 16)%Z with 65536%Z. destruct (Z.leb_spec 0 (((x * 16 + y) * 16 + z) * 16 + w)%Z), (Z.ltb_spec (((x * 16 + y) * 16 + z) * 16 + w)%Z 65536); cbn [andb assert_ bind]; try lia. do 3 f_equal. lia.
Qed.
(* Every literal that is executed is of this form; the shorter form of literal, 0x.... (NAME), which is in the grammar too, always fails. *)
Theorem C81_code_unit_literal_only chars v : code_unit_lit chars = Ok v -> exists h n, chars = tx "the code unit 0x" ++ h ++ tx " (" ++ n ++ tx ")" /\ length h = 4 /\ name_text n.
Proof.
  unfold code_unit_lit. destruct (match_code_unit chars) as [h|] eqn:M; [|discriminate]. intros _. apply match_code_unit_iff in M. destruct M as (n & -> & L & _ & N). now exists h, n.
Qed.
Theorem C81_short_literal_refuted : forall h n, code_unit_lit (tx "0x" ++ h ++ tx " (" ++ n ++ tx ")") = Err AssertionError.
Proof. reflexivity. Qed.
(* A String literal: the asterisks are escaped *)
Theorem C81_starred_str s : (ascii s -> starred_str (tx "*""" ++ escape s ++ tx """*") = Ok (VString s)) /\ (~ ascii s -> starred_str (tx "*""" ++ escape s ++ tx """*") = Err AssertionError).
Proof.
  unfold starred_str. assert (E : slice 2 (length (tx "*""" ++ escape s ++ tx """*") - 2) (tx "*""" ++ escape s ++ tx """*") = escape s) by (apply (slice_mid (tx "*""") (escape s) (tx """*"))). rewrite E, unescape. apply C81_from_python.
Qed.

(* Strings from parts *)
Inductive parts : list val -> list N -> Prop :=
| parts_nil : parts [] []
| parts_unit u vs us : parts vs us -> parts (VCodeUnit u :: vs) (u :: us)
| parts_string s vs us : parts vs us -> parts (VString s :: vs) (s ++ us).
Theorem C81_concat vs us : string_concat vs = Ok us <-> parts vs us.
Proof.
  split.
  - revert us. induction vs as [|v vs IH]; intros us H; cbn [string_concat] in H.
    + injection H as <-. constructor.
    + destruct v; cbn [bind] in H; try discriminate; (destruct (string_concat vs) as [r|]; cbn [bind] in H; [|discriminate]); injection H as <-; constructor; now apply IH.
  - induction 1 as [|u vs us _ IH|s vs us _ IH]; cbn [string_concat]; [reflexivity| |]; rewrite IH; reflexivity.
Qed.
Theorem C81_concat_fails vs e : string_concat vs = Err e <-> e = AssertionError /\ exists v, In v vs /\ (forall u, v <> VCodeUnit u) /\ forall s, v <> VString s.
Proof.
  induction vs as [|v vs IH]; cbn [string_concat].
  - split; [discriminate|]. intros (_ & v & [] & _).
  - assert (K : (exists us, match v with VCodeUnit u => Ok [u] | VString us => Ok us | _ => Err AssertionError end = Ok us /\ ((exists u, v = VCodeUnit u) \/ exists s, v = VString s)) \/ (match v with VCodeUnit u => Ok [u] | VString us => Ok us | _ => Err AssertionError end = Err AssertionError /\ (forall u, v <> VCodeUnit u) /\ forall s, v <> VString s)) by (destruct v; try (right; repeat split; congruence); left; eauto 6).
    destruct K as [(us & -> & W)|(-> & N1 & N2)]; cbn [bind].
    + assert (P : bind (string_concat vs) (fun r => Ok (us ++ r)) = Err e <-> string_concat vs = Err e) by (destruct (string_concat vs); cbn [bind]; split; congruence). rewrite P, IH. split; intros (-> & w & I & N1 & N2); (split; [reflexivity|]); exists w; (split; [|now split]); [now right|]. destruct I as [<-|I]; [|assumption]. destruct W as [(u & ->)|(s & ->)]; [now destruct (N1 u)|now destruct (N2 s)].
    + split; [intros H; injection H as <-; split; [reflexivity|]; exists v; split; [now left|now split]|]. intros (-> & _). reflexivity.
Qed.
(* code points *)
Theorem C81_more_than_once t : exists b, more_than_once_cond (VCodePoints t) = Ok b /\ (b = true <-> ~ NoDup t).
Proof. eexists. split; [reflexivity|]. rewrite Nat.ltb_lt. apply repeat_nodup. Qed.
Theorem C81_other_than t cs : exists b, other_than_cond (VCodePoints t) (map (fun c => [96; c; 96]%N) cs) = Ok b /\ (b = true <-> exists c, In c t /\ ~ In c cs).
Proof.
  unfold other_than_cond. assert (S : single_code_points (map (fun c => [96; c; 96]%N) cs) = Ok cs) by (induction cs as [|c cs IH]; cbn [map single_code_points]; [reflexivity|]; change (backticked_word [96; c; 96]%N) with [c]; rewrite IH; reflexivity). rewrite S. cbn [bind]. eexists. split; [reflexivity|].
  rewrite existsb_exists. split; intros (c & I & H); exists c; (split; [assumption|]).
  - apply negb_true_iff in H. intros J. enough (existsb (N.eqb c) cs = true) by congruence. apply existsb_exists. exists c. split; [assumption|apply N.eqb_refl].
  - apply negb_true_iff. destruct (existsb (N.eqb c) cs) eqn:E; [|reflexivity]. apply existsb_exists in E. destruct E as (d & J & Q). apply N.eqb_eq in Q. subst d. contradiction.
Qed.
Theorem C81_contains t c : exists b, (b = true <-> In c t) /\
  contains_cond (tx "{EX} contains {EX}") (VCodePoints t) (VCodePoint c) = Ok b /\ contains_cond (tx "{EX} contains {EX}") (VCodePoints t) (VCodePoints [c]) = Ok b /\
  contains_cond (tx "{EX} does not contain {EX}") (VCodePoints t) (VCodePoint c) = Ok (negb b) /\ contains_cond (tx "{EX} does not contain {EX}") (VCodePoints t) (VCodePoints [c]) = Ok (negb b).
Proof.
  exists (text_in [c] t). split.
  - rewrite text_in_iff. split; [intros (a & b & ->); apply in_app_iff; right; now left|]. intros I. apply in_split in I. destruct I as (a & b & ->). now exists a, b.
  - unfold contains_cond, contains_code_point. cbn [bind]. assert (E1 : text_in (tx "does not contain") (tx "{EX} contains {EX}") = false) by (vm_compute; reflexivity). assert (E2 : text_in (tx "does not contain") (tx "{EX} does not contain {EX}") = true) by (vm_compute; reflexivity). rewrite E1, E2. repeat split; reflexivity.
Qed.
Theorem C81_contains_fails rhs t e : (forall c, e <> VCodePoint c) -> (forall c, e <> VCodePoints [c]) -> contains_cond rhs (VCodePoints t) e = Err AssertionError.
Proof.
  intros N1 N2. unfold contains_cond. destruct e as [| |?|?|? ?|?|? ?|?|c|s|?|?|?|? ? ?|?|?|?]; try reflexivity; [now destruct (N1 c)|]. destruct s as [|c [|d s]]; try reflexivity. now destruct (N2 c).
Qed.
(* the number of code points, without separators *)
Theorem C81_number t : exists m, number_without_separators t = VMath m /\ Qeq (qval m) (inject_Z (Z.of_nat (length (filter (fun c => negb (c =? 95)%N) t)))).
Proof. eexists. split; [reflexivity|]. rewrite drop_underscores. reflexivity. Qed.
Theorem C81_number_all t : exists m, number_of_code_points t = VMath m /\ Qeq (qval m) (inject_Z (Z.of_nat (length t))).
Proof. eexists. split; reflexivity. Qed.
Theorem C81_bmp us : exists cps, bmp_code_points (VString us) = Ok (VCodePoints cps) /\ length cps = length us /\ forall i u, nth_error us i = Some u -> nth_error cps i = Some u.
Proof. eexists. split; [reflexivity|]. split; [reflexivity|]. intros i u H. exact H. Qed.
Print Assumptions C81_from_python.
Print Assumptions C81_there_and_back.
Print Assumptions C81_to_python_refuted.
Print Assumptions C81_reserved.
Print Assumptions C81_code_unit.
Print Assumptions C81_code_point.
Print Assumptions C81_code_unit_of_code_point.
Print Assumptions C81_whole_quotient_refuted.
Print Assumptions C81_code_unit_literal.
Print Assumptions C81_code_unit_literal_only.
Print Assumptions C81_short_literal_refuted.
Print Assumptions C81_starred_str.
Print Assumptions C81_concat.
Print Assumptions C81_concat_fails.
Print Assumptions C81_more_than_once.
Print Assumptions C81_other_than.
Print Assumptions C81_contains.
Print Assumptions C81_contains_fails.
Print Assumptions C81_number.
Print Assumptions C81_number_all.
Print Assumptions C81_bmp.

Example C81_from_python_ex : from_python (tx "eval") = Ok (str "eval") /\ from_python [233%N] = Err AssertionError.
Proof. split; vm_compute; reflexivity. Qed.
Example C81_reserved_ex : reserved_cond (map Some [tx "if"; tx "yield"]) (str "if") = Ok true /\ reserved_cond (map Some [tx "if"; tx "yield"]) (str "yield") = Ok false /\ reserved_cond [None] (str "if") = Err AssertionError.
Proof. repeat split; vm_compute; reflexivity. Qed.
Example C81_code_unit_ex : code_unit_with_value (VCodePoint 65535) = Ok (VCodeUnit 65535) /\ code_unit_with_value (VCodePoint 65536) = Err AssertionError.
Proof. split; vm_compute; reflexivity. Qed.
Example C81_code_unit_literal_ex : code_unit_lit (tx "the code unit 0x002D (HYPHEN-MINUS)") = Ok (VCodeUnit 45) /\ code_unit_lit (tx "0x002D (HYPHEN-MINUS)") = Err AssertionError.
Proof. split; vm_compute; reflexivity. Qed.
Example C81_starred_str_ex : starred_str (tx "*""a\*b""*") = Ok (str "a*b") /\ escape (tx "a*b") = tx "a\*b".
Proof. split; vm_compute; reflexivity. Qed.
Example C81_concat_ex : string_concat [str "ab"; VCodeUnit 99; str ""] = Ok (tx "abc") /\ string_concat [str "ab"; VNull] = Err AssertionError.
Proof. split; vm_compute; reflexivity. Qed.
Example C81_more_than_once_ex : more_than_once_cond (VCodePoints (tx "gig")) = Ok true /\ more_than_once_cond (VCodePoints (tx "gi")) = Ok false.
Proof. split; vm_compute; reflexivity. Qed.
Example C81_other_than_ex : other_than_cond (VCodePoints (tx "gx")) [tx "`d`"; tx "`g`"] = Ok true /\ other_than_cond (VCodePoints (tx "gd")) [tx "`d`"; tx "`g`"] = Ok false.
Proof. split; vm_compute; reflexivity. Qed.
Example C81_contains_ex : contains_cond (tx "{EX} contains {EX}") (VCodePoints (tx "gu")) (VCodePoints (tx "u")) = Ok true /\ contains_cond (tx "{EX} contains {EX}") (VCodePoints (tx "gu")) (str "u") = Err AssertionError.
Proof. split; vm_compute; reflexivity. Qed.
Example C81_number_ex : number_without_separators (tx "1_000_0") = VMath (MInt 5).
Proof. vm_compute. reflexivity. Qed.
Example C81_bmp_ex : bmp_code_points (VString [55357; 56832]%N) = Ok (VCodePoints [55357; 56832]%N).
Proof. reflexivity. Qed.
