(* C90-C92: the annotation of invocations, and the checks of optional parameters and of names of
   syntax-directed operations *)
From Coq Require Import Ascii String Lia List Sorting.Sorted Sorting.Permutation.
From Verif Require Import M_Base L_Base M_HTML M_Shared M_Records M_Values M_Validate L_Validate L_ValTree L_ValLists M_Style L_Style L_StyleVars L_StyleIfs L_StyleDesc L_Deps M_Invoke L_Invoke.
Open Scope list_scope.
Open Scope nat_scope.
Notation length := List.length.

(* ------------------------------------------------------------------ *)
(* C90: on a tree of the grammar, the annotations are the invocations, in the order of the text *)
Lemma built_at root q n : at_path root q n -> built root -> built n.
Proof. induction 1 as [n|l r s e ch i c q m N A IH]; intros B; [assumption|]. apply IH. apply (built_in _ _ _ _ _ _ B). eapply nth_error_In; eauto. Qed.
Theorem C90_invocations : forall st root, built root -> (forall q n, at_path root q n -> plain st n /\ other_prods n) ->
  exists l qs, annotate_invocations st root = Ok l /\ StronglySorted before qs /\ Forall2 (fun q x => visit_of root [] 0 q (fst x)) qs l /\
    forall q v ns xs, In (q, (v, (ns, xs))) (combine qs l) <-> visit_of root [] 0 q v /\ invocation st (v_node v) ns xs.
Proof.
  intros st root B H. destruct (walk_all root [] 0) as [ps [W [S0 C]]].
  assert (U : forall q v1 v2, visit_of root [] 0 q v1 -> visit_of root [] 0 q v2 -> v1 = v2).
  { intros q [n1 i1 a1] [n2 i2 a2] [A1 [_ [I1 [c1 [C1 E1]]]]] [A2 [_ [I2 [c2 [C2 E2]]]]]. cbn in *. f_equal; [eapply at_fun; eauto|congruence|subst; f_equal; eapply chain_fun; eauto]. }
  assert (G : exists l qs, (do l <- map_res (fun v => do o <- annotate st (v_node v) ;; Ok (match o with Some i => [(v, i)] | None => [] end)) (each_desc [] 0 root) ;; Ok (concat l)) = Ok l
     /\ StronglySorted before qs /\ Forall2 (fun q x => visit_of root [] 0 q (fst x)) qs l /\ (forall q, In q qs -> In q ps)
     /\ forall q v ns xs, In (q, (v, (ns, xs))) (combine qs l) <-> In q ps /\ visit_of root [] 0 q v /\ invocation st (v_node v) ns xs).
  { clear C. revert S0. induction W as [|q v ps vs V W IH]; intros S0; cbn [map_res].
    - exists [], []. split; [reflexivity|]. split; [constructor|]. split; [constructor|]. split; [intros q []|]. cbn. tauto.
    - inversion S0 as [|? ? S1 F1]; subst. destruct (IH S1) as (l & qs & E & SQ & F & SUB & IFF). clear IH.
      destruct (annotate_iff st (v_node v)) as (o & A & O); [destruct V as [A _]; now apply (built_at root q)|destruct V as [A _]; now apply (H q)|destruct V as [A _]; now apply (H q)|].
      rewrite A. cbn [bind]. destruct (map_res _ vs) as [ls|x] eqn:M; cbn [bind] in *; [|discriminate E]. apply ok_inj in E. subst l.
      assert (LT : forall q', In q' qs -> before q q') by (intros q' Q'; rewrite Forall_forall in F1; now apply F1, SUB).
      assert (NEW : ~ In q ps). { intros I. rewrite Forall_forall in F1. specialize (F1 _ I). clear - F1. induction q as [|i q IH]; [inversion F1|]. inversion F1; subst; [lia|auto]. }
      destruct o as [[ns xs]|]; cbn [concat app].
      + exists ((v, (ns, xs)) :: concat ls), (q :: qs). split; [reflexivity|]. split; [constructor; [assumption|apply Forall_forall; assumption]|]. split; [now constructor|]. split; [intros q' [<-|I]; [now left|right; auto]|].
        intros q' v' ns' xs'. cbn [combine In]. rewrite IFF. split.
        * intros [X|(I & K)]; [|tauto]. injection X as <- <- <- <-. split; [now left|]. split; [assumption|]. now apply O.
        * intros ([<-|I] & K & L); [|tauto]. left. assert (EV := U _ _ _ V K). subst v'. apply (proj2 (O _ _)) in L. injection L as -> ->. reflexivity.
      + exists (concat ls), qs. split; [reflexivity|]. split; [assumption|]. split; [assumption|]. split; [intros q' I; right; auto|].
        intros q' v' ns' xs'. rewrite IFF. cbn [In]. split; [tauto|]. intros ([<-|I] & K & L); [|tauto]. exfalso. assert (EV := U _ _ _ V K). subst v'. apply (proj2 (O _ _)) in L. discriminate. }
  destruct G as (l & qs & E & SQ & F & _ & IFF). exists l, qs. split; [exact E|]. split; [assumption|]. split; [assumption|]. intros q v ns xs. rewrite IFF.
  split; [tauto|]. intros (V & I). split; [|tauto]. destruct V as [A [(l' & r & s & e & ch & N) _]]. rewrite N in A. eapply C; eauto.
Qed.
Print Assumptions C90_invocations.

(* what breaks the run, and what is not noticed *)
Definition leaf_node (l : string) (s e : nat) : anode := Node (tx l) [] s e [].
(* two forms that are understood though the grammar no longer has them: a passing word before the arguments, which is not one of them, and a single expression between the parentheses *)
Theorem C90_passing : forall st r s e w x t ar s' e' p xs, In r [tx "the {cap_word} of {LOCAL_REF} {WITH_ARGS}"; tx "{cap_word} of {LOCAL_REF} {WITH_ARGS}"] -> reads st w t ->
  (exists a b, ar = a ++ tx "{PASSING}" ++ b) ->
  annotate st (Node (tx "{NAMED_OPERATION_INVOCATION}") r s e [w; x; Node (tx "{WITH_ARGS}") ar s' e' (p :: xs)]) = Ok (Some ([t], x :: xs)).
Proof.
  intros st r s e w x t ar s' e' p xs I R P. apply (proj2 (text_in_iff _ _)) in P. apply reads_text in R.
  destruct I as [<-|[<-|[]]]; unfold annotate; cbn [lhs_of rhs_of ch_of bind]; (match goal with |- context [form_of ?a ?b] => let f := eval vm_compute in (form_of a b) in change (form_of a b) with f end);
    cbn [item nth_error bind]; rewrite R; cbn [bind lhs_of rhs_of ch_of]; (replace (text_eqb (tx "{WITH_ARGS}") (tx "{WITH_ARGS}")) with true by reflexivity); cbn [assert_ bind]; now rewrite P.
Qed.
Print Assumptions C90_passing.
Theorem C90_expr : forall st s e s1 e1 x r2 s2 e2 ch,
  annotate st (Node (tx "{PREFIX_PAREN}") (tx "{OPN_BEFORE_PAREN}({EXPR})") s e [Node (tx "{OPN_BEFORE_PAREN}") (tx "{SIMPLE_OPERATION_NAME}") s1 e1 [x]; Node (tx "{EXPR}") r2 s2 e2 ch])
  = Ok (Some ([slice s1 e1 st], [Node (tx "{EXPR}") r2 s2 e2 ch])).
Proof. intros. reflexivity. Qed.
Print Assumptions C90_expr.
Example ex_C90_passing : annotate (tx "the SV of |Foo| passing _b_") (Node (tx "{NAMED_OPERATION_INVOCATION}") (tx "the {cap_word} of {LOCAL_REF} {WITH_ARGS}") 0 27
  [leaf_node "{cap_word}" 4 6; leaf_node "{LOCAL_REF}" 10 15; Node (tx "{WITH_ARGS}") (tx "{PASSING} {var}") 16 27 [leaf_node "{PASSING}" 16 23; leaf_node "{var}" 24 27]])
  = Ok (Some ([tx "SV"], [leaf_node "{LOCAL_REF}" 10 15; leaf_node "{var}" 24 27])).
Proof. reflexivity. Qed.
Theorem C90_current_realm_refuted : exists st n, built n /\ other_prods n /\ annotate st n = Err ValueError.
Proof.
  exists (tx "C.[[F]]()"), (Node (tx "{PREFIX_PAREN}") (tx "{OPN_BEFORE_PAREN}({EXLIST_OPT})") 0 9
    [Node (tx "{OPN_BEFORE_PAREN}") (tx "{DOTTING}") 0 7 [Node (tx "{DOTTING}") (tx "C.{DSBN}") 0 7 [leaf_node "{DSBN}" 2 7]]; Node (tx "{EXLIST_OPT}") (tx "{EPSILON}") 8 8 []]).
  split; [|split; [|vm_compute; reflexivity]].
  - assert (D : built (leaf_node "{DSBN}" 2 7)). { constructor; [|intros c []]. intros I. apply tmem_iff_ in I. vm_compute in I. discriminate. }
    assert (G : forall l r ks s e ch, In (l, r, ks) inv_grammar -> Forall2 (fun k c => lhs_of c = Ok k) ks ch -> (forall c, In c ch -> built c) -> built (Node l r s e ch)) by (intros; constructor; eauto).
    eapply G; [unfold inv_grammar; cbn [In]; auto 20|repeat constructor|]. intros c [<-|[<-|[]]].
    + eapply G; [unfold inv_grammar; cbn [In]; auto 25|repeat constructor|]. intros c [<-|[]]. eapply G with (ks := [tx "{DSBN}"]); [unfold inv_grammar; cbn [In]; auto 40|repeat constructor|]. intros c [<-|[]]. exact D.
    + eapply G with (ks := []); [unfold inv_grammar; cbn [In]; auto 30|constructor|]. intros c [].
  - cbn [other_prods]. split; [intros E; vm_compute in E; discriminate|]. split; intros E; vm_compute in E; discriminate.
Qed.
Print Assumptions C90_current_realm_refuted.
(* pseudocode.grammar:201 has {DOTTING} where Pseudocode.py:466 looks for {var} *)
Theorem C90_set_fields_refuted : forall st s e ch,
  annotate st (Node (tx "{COMMAND}") (tx "Set fields of {DOTTING} with the values listed in {h_emu_xref}. {the_field_names_are_the_names_listed_etc}") s e ch) = Ok None.
Proof. intros. reflexivity. Qed.
Print Assumptions C90_set_fields_refuted.

(* ------------------------------------------------------------------ *)
(* C91: optional parameters *)
(* how many arguments an invocation gives, besides the node that a syntax-directed operation is about *)
Inductive supplied (st op : text) : anode -> nat -> Prop :=
| sup_paren s e opn a xs : args_opt a xs -> supplied st op (Node (tx "{PREFIX_PAREN}") (tx "{OPN_BEFORE_PAREN}({EXLIST_OPT})") s e [opn; a]) (length xs)
| sup_of s e w x : supplied st op (Node (tx "{NAMED_OPERATION_INVOCATION}") (tx "{cap_word} of {LOCAL_REF}") s e [w; x]) 0
| sup_with s e w x ar s' e' xs : reads st w op ->
    supplied st op (Node (tx "{NAMED_OPERATION_INVOCATION}") (tx "{cap_word} of {LOCAL_REF} {WITH_ARGS}") s e [w; x; Node (tx "{WITH_ARGS}") ar s' e' xs]) (length xs).
(* a parameter, counted from 1, deserves a report *)
Definition deserves (st op : text) (o : oper) (i : nat) (name : text) (v : verdict) : Prop :=
  (exists ps j, op_params o = Some ps /\ i = S j /\ nth_error ps j = Some (name, tx "[]")) /\
  (match v with
   | NoInvocations => op_invs o = []
   | AllSupply n => n = length (op_invs o) /\ n <> 0 /\ forall x, In x (op_invs o) -> exists k, supplied st op x k /\ i <= k
   | NoneSupplies n => n = length (op_invs o) /\ n <> 0 /\ forall x, In x (op_invs o) -> exists k, supplied st op x k /\ k < i
   end).
Definition report_lt (a b : text * nat * text * verdict) : Prop :=
  let '(o, i, _, _) := a in let '(o', i', _, _) := b in text_lt o o' \/ (o = o' /\ i < i').

Lemma supplied_args st op n k : supplied st op n k -> exists a, args_of st op n = Ok a /\ length a = k.
Proof.
  intros [s e opn a xs A|s e w x|s e w x ar s' e' xs R].
  - exists xs. split; [|reflexivity]. rewrite <- (exes_opt _ _ A). reflexivity.
  - exists []. split; reflexivity.
  - exists xs. split; [|reflexivity]. unfold args_of. cbn [prod_of ch_of bind].
    change (text_eqb (prod_str (tx "{NAMED_OPERATION_INVOCATION}") (tx "{cap_word} of {LOCAL_REF} {WITH_ARGS}")) (tx "{PREFIX_PAREN} : {OPN_BEFORE_PAREN}({EXLIST_OPT})")) with false.
    change (text_eqb (prod_str (tx "{NAMED_OPERATION_INVOCATION}") (tx "{cap_word} of {LOCAL_REF} {WITH_ARGS}")) (tx "{NAMED_OPERATION_INVOCATION} : {cap_word} of {LOCAL_REF}")) with false.
    change (text_eqb (prod_str (tx "{NAMED_OPERATION_INVOCATION}") (tx "{cap_word} of {LOCAL_REF} {WITH_ARGS}")) (tx "{NAMED_OPERATION_INVOCATION} : {cap_word} of {LOCAL_REF} {WITH_ARGS}")) with true.
    cbv iota. rewrite (reads_text _ _ _ R). cbn [bind]. rewrite (proj2 (text_eqb_eq op op) eq_refl). reflexivity.
Qed.
Lemma supplied_fun st op n k k' : supplied st op n k -> supplied st op n k' -> k = k'.
Proof. intros A B. apply supplied_args in A as (a & A & <-), B as (b & B & <-). congruence. Qed.
Lemma counts (l : list bool) : length (filter (fun b => b) l) + length (filter negb l) = length l.
Proof. induction l as [|[] l IH]; cbn [filter negb length]; lia. Qed.
Lemma none_left {A} (p : A -> bool) l : length (filter p l) = 0 <-> forall x, In x l -> p x = false.
Proof.
  induction l as [|x l IH]; cbn [filter]; [split; [intros _ x []|reflexivity]|]. destruct (p x) eqn:E; cbn [length].
  - split; [discriminate|]. intros H. rewrite (H x) in E; [discriminate|now left].
  - rewrite IH. split; [intros H y [<-|I]; auto|intros H y I; apply H; now right].
Qed.
Lemma param_iff st op invs i name punct : (forall x, In x invs -> exists k, supplied st op x k) -> punct = [] \/ punct = tx "[]" ->
  exists l, check_param st op invs i (name, punct) = Ok l /\ length l <= 1 /\ forall r, In r l <-> exists v, r = (op, i, name, v) /\ punct = tx "[]" /\
    match v with
    | NoInvocations => invs = []
    | AllSupply n => n = length invs /\ n <> 0 /\ forall x, In x invs -> exists k, supplied st op x k /\ i <= k
    | NoneSupplies n => n = length invs /\ n <> 0 /\ forall x, In x invs -> exists k, supplied st op x k /\ k < i
    end.
Proof.
  intros SUP [->| ->]; unfold check_param; cbn [snd fst].
  - change (lhs_in [] [tx ""; tx "[]"]) with true. cbn [assert_ bind]. change (text_eqb [] (tx "[]")) with false. exists []. split; [reflexivity|]. split; [cbn; lia|]. intros r. split; [intros []|]. intros (v & _ & E & _). discriminate E.
  - change (lhs_in (tx "[]") [tx ""; tx "[]"]) with true. cbn [assert_ bind]. change (text_eqb (tx "[]") (tx "[]")) with true. cbv iota.
    destruct (length invs =? 0) eqn:Z.
    + apply Nat.eqb_eq in Z. destruct invs; [|discriminate]. exists [(op, i, name, NoInvocations)]. split; [reflexivity|]. split; [cbn; lia|]. intros r. split.
      * intros [<-|[]]. exists NoInvocations. auto.
      * intros (v & -> & _ & V). left. destruct v; [reflexivity|destruct V as (-> & V & _); now destruct V|destruct V as (-> & V & _); now destruct V].
    + apply Nat.eqb_neq in Z.
      assert (M : exists ls, map_res (fun inv => do a <- args_of st op inv ;; Ok (i <=? length a)) invs = Ok ls /\ Forall2 (fun x b => exists k, supplied st op x k /\ b = (i <=? k)) invs ls).
      { clear Z. induction invs as [|x invs IH]; cbn [map_res]; [exists []; split; [reflexivity|constructor]|]. destruct (SUP x) as (k & K); [now left|]. destruct (supplied_args _ _ _ _ K) as (a & A & L). rewrite A. cbn [bind].
        destruct IH as (ls & -> & F); [intros y I; apply SUP; now right|]. cbn [bind]. rewrite L. exists ((i <=? k) :: ls). split; [reflexivity|]. constructor; [now exists k|assumption]. }
      destruct M as (ls & -> & F). cbn [bind]. rewrite counts. assert (LEN : length ls = length invs) by (symmetry; clear - F; induction F; cbn [length]; congruence). rewrite LEN, Nat.eqb_refl. cbn [assert_ bind].
      assert (ALL : length (filter negb ls) = 0 <-> forall x, In x invs -> exists k, supplied st op x k /\ i <= k).
      { rewrite none_left. split.
        - intros H x I. destruct (forall2_in_l _ _ _ _ F I) as (b & J & k & K & E). exists k. split; [assumption|]. specialize (H _ J). apply Bool.negb_false_iff in H. subst b. now apply Nat.leb_le.
        - intros H b J. destruct (forall2_in_r _ _ _ _ F J) as (x & I & k & K & E). destruct (H _ I) as (k' & K' & L). rewrite (supplied_fun _ _ _ _ _ K K') in E. subst b. apply Bool.negb_false_iff. now apply Nat.leb_le. }
      assert (NONE : length (filter (fun b => b) ls) = 0 <-> forall x, In x invs -> exists k, supplied st op x k /\ k < i).
      { rewrite none_left. split.
        - intros H x I. destruct (forall2_in_l _ _ _ _ F I) as (b & J & k & K & E). exists k. split; [assumption|]. specialize (H _ J). subst b. now apply Nat.leb_gt.
        - intros H b J. destruct (forall2_in_r _ _ _ _ F J) as (x & I & k & K & E). destruct (H _ I) as (k' & K' & L). rewrite (supplied_fun _ _ _ _ _ K K') in E. subst b. now apply Nat.leb_gt. }
      eexists. split; [reflexivity|]. split.
      * generalize (counts ls). intros CT. destruct (length (filter negb ls) =? 0) eqn:A; destruct (length (filter (fun b => b) ls) =? 0) eqn:B; cbn [app length]; try lia. apply Nat.eqb_eq in A, B. lia.
      * intros r. rewrite in_app_iff. split.
        -- intros [I|I].
           ++ destruct (length (filter negb ls) =? 0) eqn:A; [|destruct I]. destruct I as [<-|[]]. exists (AllSupply (length invs)). apply Nat.eqb_eq in A. rewrite ALL in A. auto.
           ++ destruct (length (filter (fun b => b) ls) =? 0) eqn:A; [|destruct I]. destruct I as [<-|[]]. exists (NoneSupplies (length invs)). apply Nat.eqb_eq in A. rewrite NONE in A. auto.
        -- intros (v & -> & _ & V). destruct v as [|n|n].
           ++ subst invs. now destruct Z.
           ++ destruct V as (-> & _ & V). left. rewrite <- ALL in V. rewrite V. cbn. auto.
           ++ destruct V as (-> & _ & V). right. rewrite <- NONE in V. rewrite V. cbn. auto.
Qed.
Lemma params_iff st op invs : (forall x, In x invs -> exists k, supplied st op x k) -> forall ps i, (forall p, In p ps -> snd p = [] \/ snd p = tx "[]") ->
  exists l, check_params st op invs i ps = Ok l /\ StronglySorted report_lt l /\ (forall r, In r l <-> exists name v j, r = (op, i + j, name, v) /\ nth_error ps j = Some (name, tx "[]") /\
    match v with
    | NoInvocations => invs = []
    | AllSupply n => n = length invs /\ n <> 0 /\ forall x, In x invs -> exists k, supplied st op x k /\ i + j <= k
    | NoneSupplies n => n = length invs /\ n <> 0 /\ forall x, In x invs -> exists k, supplied st op x k /\ k < i + j
    end).
Proof.
  intros SUP ps. induction ps as [|[name punct] ps IH]; intros i PU; cbn [check_params].
  - exists []. split; [reflexivity|]. split; [constructor|]. intros r. split; [intros []|]. intros (name & v & j & _ & N & _). destruct j; discriminate.
  - destruct (param_iff st op invs i name punct SUP) as (a & EA & LA & A); [apply (PU (name, punct)); now left|]. destruct (IH (S i)) as (b & EB & SB & B); [intros p I; apply PU; now right|].
    rewrite EA. cbn [bind]. rewrite EB. cbn [bind]. exists (a ++ b). split; [reflexivity|]. split.
    + apply sorted_app; [destruct a as [|x [|y a]]; [constructor|repeat constructor|cbn in LA; lia]|assumption|]. intros x y X Y. apply A in X as (v & -> & _ & _). apply B in Y as (nm & v' & j & -> & _ & _). right. split; [reflexivity|lia].
    + intros r. rewrite in_app_iff, A, B. split.
      * intros [(v & -> & -> & V)|(nm & v & j & -> & NTH & V)].
        -- exists name, v, 0. rewrite Nat.add_0_r. auto.
        -- exists nm, v, (S j). rewrite Nat.add_succ_r. auto.
      * intros (nm & v & [|j] & -> & NTH & V).
        -- rewrite Nat.add_0_r in *. left. injection NTH as -> ->. exists v. auto.
        -- rewrite Nat.add_succ_r in *. right. exists nm, v, j. auto.
Qed.
(* the report: each optional parameter that is never omitted, or never supplied, or whose operation is
   not invoked, and nothing else; by operation, and then by parameter *)
Theorem C91_optional_parameters : forall st ops, NoDup (map fst ops) ->
  (forall op o ps, In (op, o) ops -> op_params o = Some ps -> (forall p, In p ps -> snd p = [] \/ snd p = tx "[]") /\ forall x, In x (op_invs o) -> exists k, supplied st op x k) ->
  exists l, check_optional_parameters st ops = Ok l /\ StronglySorted report_lt l /\
    forall op i name v, In (op, i, name, v) l <-> exists o, In (op, o) ops /\ deserves st op o i name v.
Proof.
  intros st ops ND H. unfold check_optional_parameters.
  assert (SK : StronglySorted text_lt (map fst (sorted_items ops))) by now apply sorted_keys.
  assert (IN : forall e, In e (sorted_items ops) <-> In e ops) by (intros e; unfold sorted_items; split; apply Permutation_in; [apply isort_perm|apply Permutation_sym, isort_perm]).
  assert (G : forall ops', StronglySorted text_lt (map fst ops') -> (forall e, In e ops' -> In e ops) ->
    exists l, (do l <- map_res (fun e => match op_params (snd e) with None => Ok [] | Some ps => check_params st (fst e) (op_invs (snd e)) 1 ps end) ops' ;; Ok (concat l)) = Ok l /\ StronglySorted report_lt l /\
      forall op i name v, In (op, i, name, v) l <-> exists o, In (op, o) ops' /\ deserves st op o i name v).
  { clear SK IN. induction ops' as [|[op o] ops' IH]; intros SK SUB; cbn [map_res].
    - exists []. split; [reflexivity|]. split; [constructor|]. intros op i name v. split; [intros []|intros (o & [] & _)].
    - cbn [map fst] in SK. inversion SK as [|? ? SK' F]; subst. destruct (IH SK') as (b & EB & SB & B); [intros e I; apply SUB; now right|]. cbn [snd fst].
      assert (A : exists a, match op_params o with None => Ok [] | Some ps => check_params st op (op_invs o) 1 ps end = Ok a /\ StronglySorted report_lt a /\ forall op' i name v, In (op', i, name, v) a <-> op' = op /\ deserves st op o i name v).
      { destruct (op_params o) as [ps|] eqn:P.
        - destruct (H op o ps) as (PU & SUP); [apply SUB; now left|assumption|]. destruct (params_iff st op (op_invs o) SUP ps 1 PU) as (a & EA & SA & A). exists a. split; [assumption|]. split; [assumption|].
          intros op' i name v. rewrite A. unfold deserves. split.
          + intros (nm & v' & j & E & NTH & V). injection E as -> -> -> ->. split; [reflexivity|]. split; [exists ps, j; auto|exact V].
          + intros (-> & (ps' & j & P' & -> & NTH) & V). exists name, v, j. rewrite P in P'. injection P' as <-. auto.
        - exists []. split; [reflexivity|]. split; [constructor|]. intros op' i name v. split; [intros []|]. intros (_ & (ps & j & P' & _) & _). congruence. }
      destruct A as (a & EA & SA & A). rewrite EA. cbn [bind]. destruct (map_res _ ops') as [ls|x]; cbn [bind] in *; [|discriminate EB]. apply ok_inj in EB. subst b. exists (a ++ concat ls). split; [reflexivity|]. split.
      + apply sorted_app; [assumption|assumption|]. intros [[[o1 i1] n1] v1] [[[o2 i2] n2] v2] X Y. apply A in X as (-> & _). apply B in Y as (o' & I & _). left. rewrite Forall_forall in F. apply F. apply in_map_iff. now exists (o2, o').
      + intros op' i name v. rewrite in_app_iff, A, B. split.
        * intros [(-> & D)|(o' & I & D)]; [exists o; split; [now left|assumption]|exists o'; split; [now right|assumption]].
        * intros (o' & [E|I] & D); [injection E as -> ->; auto|right; now exists o']. }
  destruct (G (sorted_items ops) SK) as (l & E & S1 & L); [intros e; apply IN|]. exists l. split; [exact E|]. split; [assumption|]. intros op i name v. rewrite L. split; intros (o & I & D); exists o; (split; [now apply IN|assumption]).
Qed.
Print Assumptions C91_optional_parameters.
(* the arguments counted here are those of the annotation, up to the node that the operation is about *)
Theorem C91_same_arguments : forall st op n ns xs, built n -> plain st n -> invocation st n ns xs -> forall ys, args_of st op n = Ok ys ->
  (lhs_of n = Ok (tx "{PREFIX_PAREN}") /\ xs = ys) \/ (lhs_of n = Ok (tx "{NAMED_OPERATION_INVOCATION}") /\ exists t, xs = t :: ys).
Proof.
  intros st op n ns xs B P I ys E. destruct I as [r s e w x t R T|r s e w x y t R T|r s e w x t ar s' e' xs R T|s e g|r s e x y R|s e opn a ns xs C A|s e x y ch].
  - right. split; [reflexivity|]. exists x. cbn [In] in R. destruct R as [<-|[<-|[<-|[]]]]; [vm_compute in E; discriminate|vm_compute in E; injection E as <-; reflexivity|vm_compute in E; discriminate].
  - exfalso. cbn [In] in R. destruct R as [<-|[<-|[]]]; vm_compute in E; discriminate.
  - right. split; [reflexivity|]. exists x. cbn [In] in R. destruct R as [<-|[<-|[]]]; [exfalso; vm_compute in E; discriminate|]. unfold args_of in E. cbn [prod_of ch_of bind] in E.
    change (text_eqb (prod_str (tx "{NAMED_OPERATION_INVOCATION}") (tx "{cap_word} of {LOCAL_REF} {WITH_ARGS}")) (tx "{PREFIX_PAREN} : {OPN_BEFORE_PAREN}({EXLIST_OPT})")) with false in E.
    change (text_eqb (prod_str (tx "{NAMED_OPERATION_INVOCATION}") (tx "{cap_word} of {LOCAL_REF} {WITH_ARGS}")) (tx "{NAMED_OPERATION_INVOCATION} : {cap_word} of {LOCAL_REF}")) with false in E.
    change (text_eqb (prod_str (tx "{NAMED_OPERATION_INVOCATION}") (tx "{cap_word} of {LOCAL_REF} {WITH_ARGS}")) (tx "{NAMED_OPERATION_INVOCATION} : {cap_word} of {LOCAL_REF} {WITH_ARGS}")) with true in E.
    cbv iota in E. rewrite (reads_text _ _ _ T) in E. cbn [bind] in E. destruct (text_eqb t op); cbn [assert_ bind] in E; [|discriminate]. apply ok_inj in E. now subst.
  - exfalso. vm_compute in E. discriminate.
  - exfalso. cbn [In] in R. destruct R as [<-|[<-|[]]]; vm_compute in E; discriminate.
  - left. split; [reflexivity|]. change (exes_in_exlist_opt a = Ok ys) in E. rewrite (exes_opt _ _ A) in E. now apply ok_inj in E.
  - exfalso. vm_compute in E. discriminate.
Qed.
Print Assumptions C91_same_arguments.
(* an invocation in one of the forms with 'the' stops the run, though it is a good invocation *)
Theorem C91_the_refuted : exists st op o n xs, built n /\ plain st n /\ invocation st n [op] xs /\ op_params o = Some [(tx "_x_", tx "[]")] /\ op_invs o = [n]
  /\ check_optional_parameters st [(op, o)] = Err AssertionError.
Proof.
  pose (w := leaf_node "{cap_word}" 4 12). pose (x := leaf_node "{LOCAL_REF}" 16 21). pose (y := leaf_node "{EX}" 36 41).
  pose (n := Node (tx "{NAMED_OPERATION_INVOCATION}") (tx "the {cap_word} of {LOCAL_REF} {WITH_ARGS}") 0 41 [w; x; Node (tx "{WITH_ARGS}") (tx "with argument {EX}") 22 41 [y]]).
  exists (tx "the EvalTree of |Foo| with argument _bar_"), (tx "EvalTree"), (mkOper (Some [(tx "_x_", tx "[]")]) [n]), n, [x; y].
  assert (G : forall l r ks s e ch, In (l, r, ks) inv_grammar -> Forall2 (fun k c => lhs_of c = Ok k) ks ch -> (forall c, In c ch -> built c) -> built (Node l r s e ch)) by (intros; constructor; eauto).
  assert (L : forall l s e, tmem_ (tx l) (map (fun p => fst (fst p)) inv_grammar) = false -> built (leaf_node l s e)).
  { intros l s e F. constructor; [|intros c []]. intros I. apply tmem_iff_ in I. congruence. }
  split; [|split; [|split; [|split; [reflexivity|split; [reflexivity|vm_compute; reflexivity]]]]].
  - eapply G; [unfold inv_grammar; cbn [In]; auto 20|repeat constructor|]. intros c [<-|[<-|[<-|[]]]]; try (apply L; vm_compute; reflexivity).
    eapply G with (ks := [tx "{EX}"]); [unfold inv_grammar; cbn [In]; auto 20|repeat constructor|]. intros c [<-|[]]; apply L; vm_compute; reflexivity.
  - intros s e opn a E. exfalso. assert (E' := f_equal lhs_of E). vm_compute in E'. discriminate.
  - apply i_with; [cbn [In]; auto|]. exists (tx "{cap_word}"), [], 4, 12, []. split; [reflexivity|vm_compute; reflexivity].
Qed.
Print Assumptions C91_the_refuted.

(* ------------------------------------------------------------------ *)
(* C92: 'the' before the names of syntax-directed operations *)
(* the operations whose names take no 'the', after Pseudocode.py:1209-1222 *)
Definition takes_no_the (op r : text) : Prop :=
  In r [ tx "a Boolean"; tx "~unused~"; tx "either a normal completion containing ~unused~ or an abrupt completion"
       ; tx "a Completion Record"; tx "a return completion"; tx "a throw completion or a return completion" ]
  \/ (exists p, In p [tx "Compile"; tx "Instantiate"; tx "Define"; tx "Evaluate"] /\ begins p op)
  \/ op = tx "WithClauseToAttributes"
  \/ exists m, m <> [] /\ ~ In 10%N m /\ r = tx "either a normal completion containing " ++ m ++ tx " or an abrupt completion".
(* the invocation is within the parentheses of another, or is one *)
Definition in_parens (v : visit) : Prop := exists n, In n (v_node v :: v_anc v) /\ lhs_of n = Ok (tx "{PREFIX_PAREN}").
Definition says_the (n : anode) : Prop :=
  exists r, rhs_of n = Ok r /\ In r [ tx "the {cap_word} of {LOCAL_REF}"; tx "the {cap_word} of {LOCAL_REF} (see {h_emu_xref})"
                                    ; tx "the {cap_word} of {LOCAL_REF} as defined in {h_emu_xref}"; tx "the {cap_word} of {LOCAL_REF} {WITH_ARGS}" ].
(* what is said of one invocation *)
Definition about (op r : text) (v : visit) (l : list the_msg) : Prop :=
  exists p, posn_of (v_node v) = Ok p /\
  ((says_the (v_node v) /\ (takes_no_the op r \/ in_parens v) /\ l = [NotThe p])
   \/ (~ says_the (v_node v) /\ ~ takes_no_the op r /\ ~ in_parens v /\ l = [NeedsThe p])
   \/ (says_the (v_node v) /\ ~ takes_no_the op r /\ ~ in_parens v /\ l = [])
   \/ (~ says_the (v_node v) /\ (takes_no_the op r \/ in_parens v) /\ l = [])).
(* what the first header says that the operation returns; MV has no such words *)
Definition returns_ (op : text) (s : sdo) (r : text) : Prop :=
  (exists hs, sdo_headers s = Some r :: hs) \/ (exists hs, sdo_headers s = None :: hs /\ op = tx "MV" /\ r = tx "a mathematical value").
(* what is said of one operation *)
Definition about_op (e : text * sdo) (l : list the_msg) : Prop :=
  (~ begins (tx "op: discriminated by syntax") (sdo_species (snd e)) /\ l = [])
  \/ (begins (tx "op: discriminated by syntax") (sdo_species (snd e)) /\ sdo_invs (snd e) = [] /\ fst e = tx "Early Errors" /\ l = [])
  \/ (begins (tx "op: discriminated by syntax") (sdo_species (snd e)) /\ sdo_invs (snd e) = [] /\ fst e <> tx "Early Errors" /\ l = [NoCalls (fst e)])
  \/ (begins (tx "op: discriminated by syntax") (sdo_species (snd e)) /\ sdo_invs (snd e) <> [] /\
      exists r ls, returns_ (fst e) (snd e) r /\ Forall2 (about (fst e) r) (sdo_invs (snd e)) ls /\ l = concat ls).

Lemma normal_or_abrupt_iff r : normal_or_abrupt r = true <-> exists m, m <> [] /\ ~ In 10%N m /\ r = tx "either a normal completion containing " ++ m ++ tx " or an abrupt completion".
Proof.
  unfold normal_or_abrupt. generalize (tx "either a normal completion containing ") as a. generalize (tx " or an abrupt completion") as b. intros b a. cbv zeta.
  assert (NL : forall m : text, forallb (fun c => negb (N.eqb c 10)) m = true <-> ~ In 10%N m).
  { intros m. rewrite forallb_forall. split; [intros H I; specialize (H _ I); discriminate|]. intros H x I. apply Bool.negb_true_iff, N.eqb_neq. intros ->. contradiction. }
  assert (MID : forall m, slice (length a) (length (a ++ m ++ b) - length b) (a ++ m ++ b) = m).
  { intros m. unfold slice. rewrite !app_length. replace (length a + (length m + length b) - length b - length a) with (length m) by lia. rewrite skipn_app, skipn_all, Nat.sub_diag. cbn [app skipn]. rewrite firstn_app, firstn_all, Nat.sub_diag. cbn [firstn]. apply app_nil_r. }
  rewrite !Bool.andb_true_iff, Nat.ltb_lt, NL, !begins_iff. split.
  - intros (((H1 & H2) & L) & M). destruct H1 as (t & ->). destruct H2 as (u & U).
    assert (U' : a ++ t = rev u ++ b) by (rewrite <- (rev_involutive (a ++ t)), U, rev_app_distr, rev_involutive; reflexivity).
    assert (T : exists m, t = m ++ b /\ rev u = a ++ m).
    { rewrite app_length in L. assert (LU := f_equal (@length _) U'). rewrite !app_length in LU. clear - U' L LU. revert U' LU. generalize (rev u) as w. induction a as [|c a IH]; intros w U' LU; cbn [app length] in *; [exists w; auto|].
      destruct w as [|d w]; cbn [app length] in *; [lia|]. injection U' as <- U'. destruct (IH ltac:(lia) w U' ltac:(lia)) as (m & -> & ->). exists m. auto. }
    destruct T as (m & -> & _). exists m. rewrite MID in M. rewrite !app_length in L. split; [intros ->; cbn in L; lia|auto].
  - intros (m & NE & M & ->). rewrite MID. split; [|assumption]. split; [split|].
    + now exists (m ++ b).
    + exists (rev (a ++ m)). rewrite app_assoc, rev_app_distr. reflexivity.
    + rewrite !app_length. destruct m; [congruence|]. cbn [length]. lia.
Qed.
Lemma accepts_iff op r : accepts_the op r = false <-> takes_no_the op r.
Proof.
  unfold accepts_the, takes_no_the. rewrite Bool.negb_false_iff, !Bool.orb_true_iff, !lhs_in_iff, text_eqb_eq, existsb_exists, normal_or_abrupt_iff.
  assert (P : (exists p, In p [tx "Compile"; tx "Instantiate"; tx "Define"; tx "Evaluate"] /\ is_prefix p op = true) <-> exists p, In p [tx "Compile"; tx "Instantiate"; tx "Define"; tx "Evaluate"] /\ begins p op) by (split; intros (p & I & B); exists p; (split; [assumption|now apply begins_iff])).
  rewrite P. cbn [In]. tauto.
Qed.
Lemma closest_none v : (forall n, In n (v_node v :: v_anc v) -> exists k, lhs_of n = Ok k) ->
  match closest_containing v (tx "{PREFIX_PAREN}") with None => true | Some _ => false end = true <-> ~ in_parens v.
Proof.
  intros H. unfold closest_containing, in_parens. destruct (find _ _) as [n|] eqn:F.
  - apply find_some in F as (I & F). split; [discriminate|]. intros X. exfalso. apply X. exists n. split; [assumption|]. destruct (lhs_of n); [|discriminate]. apply text_eqb_eq in F. now subst.
  - split; [|reflexivity]. intros _ (n & I & L). generalize (find_none _ _ F _ I). rewrite L. rewrite (proj2 (text_eqb_eq _ _) eq_refl). discriminate.
Qed.
Lemma in_parens_dec v : in_parens v \/ ~ in_parens v.
Proof.
  unfold in_parens. induction (v_node v :: v_anc v) as [|n l IH]; [right; intros (n & [] & _)|]. destruct IH as [(m & I & L)|NO]; [left; exists m; split; [now right|assumption]|].
  destruct (lhs_of n) as [k|x] eqn:E; [destruct (list_eq_dec N.eq_dec k (tx "{PREFIX_PAREN}")) as [->|NE]; [left; exists n; split; [now left|assumption]|]|]; right; intros (m & [<-|I] & L); try congruence; apply NO; now exists m.
Qed.
Lemma is_the_iff l r s e ch : built (Node l r s e ch) -> l = tx "{NAMED_OPERATION_INVOCATION}" -> text_in (tx "the {cap_word}") r = true <-> says_the (Node l r s e ch).
Proof.
  intros B ->. unfold says_the. cbn [rhs_of]. destruct (built_kids _ _ _ _ _ B) as (ks & K & _); [apply (proj1 (tmem_iff_ _ _)); vm_compute; reflexivity|].
  split.
  - intros T. exists r. split; [reflexivity|]. clear B. unfold inv_grammar in K; cbn [In] in K.
    repeat (destruct K as [K|K]; [first [exfalso; apply (f_equal (fun p => fst (fst p))) in K; cbn [fst] in K; vm_compute in K; discriminate K | destruct (row_inj _ _ _ _ _ _ K) as (<- & <-); first [exfalso; vm_compute in T; discriminate T | cbn [In]; auto 10; fail]]|]). destruct K.
  - intros (r' & E & I). apply ok_inj in E. subst r'. clear - I. cbn [In] in I. repeat (destruct I as [<-|I]; [vm_compute; reflexivity|]). destruct I.
Qed.
Lemma check_the_ok op r v : built (v_node v) -> lhs_of (v_node v) = Ok (tx "{NAMED_OPERATION_INVOCATION}") -> (forall n, In n (v_anc v) -> exists k, lhs_of n = Ok k) ->
  exists l, check_the (accepts_the op r) v = Ok l /\ forall l', about op r v l' <-> l' = l.
Proof.
  intros B L A. unfold check_the. rewrite L. cbn [bind]. change (text_eqb (tx "{NAMED_OPERATION_INVOCATION}") (tx "{NAMED_OPERATION_INVOCATION}")) with true. cbn [assert_ bind]. cbv zeta.
  assert (PD := in_parens_dec v). assert (CN := closest_none v). specialize (CN ltac:(intros n [<-|I]; [eauto|auto])).
  destruct (match closest_containing v (tx "{PREFIX_PAREN}") with None => true | Some _ => false end) eqn:CC; clear CC.
  all: destruct (v_node v) as [l rh s e ch|] eqn:V; [|discriminate]; cbn [lhs_of] in L; apply ok_inj in L; assert (T := is_the_iff l rh s e ch B L); cbn [rhs_of posn_of bind].
  all: assert (AC := accepts_iff op r); unfold about; rewrite V; cbn [posn_of].
  all: destruct (accepts_the op r); destruct (text_in (tx "the {cap_word}") rh); cbn [andb negb].
  all: eexists; (split; [reflexivity|]); intros l'; split.
  all: try (intros (p & P & Q); apply ok_inj in P; subst p; assert (Y : true = true) by reflexivity; assert (Z : false <> true) by discriminate; assert (Z' : true <> false) by discriminate; assert (Y' : false = false) by reflexivity; tauto).
  all: intros ->; exists s; (split; [reflexivity|]); assert (Y : true = true) by reflexivity; assert (Z : false <> true) by discriminate; assert (Z' : true <> false) by discriminate; assert (Y' : false = false) by reflexivity; tauto.
Qed.
Theorem C92_the : forall ops,
  (forall op s, In (op, s) ops -> begins (tx "op: discriminated by syntax") (sdo_species s) -> sdo_invs s <> [] ->
     (exists r, returns_ op s r) /\
     forall v, In v (sdo_invs s) -> built (v_node v) /\ lhs_of (v_node v) = Ok (tx "{NAMED_OPERATION_INVOCATION}") /\ forall n, In n (v_anc v) -> exists k, lhs_of n = Ok k) ->
  exists ops' ls, Permutation ops ops' /\ StronglySorted (fun a b => text_leb (fst a) (fst b) = true) ops' /\
    Forall2 about_op ops' ls /\ check_the_sdo_name ops = Ok (concat ls).
Proof.
  intros ops H. unfold check_the_sdo_name. exists (sorted_items ops).
  assert (PM : Permutation ops (sorted_items ops)) by apply Permutation_sym, isort_perm.
  assert (G : forall ops', (forall e, In e ops' -> In e ops) -> exists ls, map_res check_sdo ops' = Ok ls /\ Forall2 about_op ops' ls).
  { clear PM. induction ops' as [|[op s] ops' IH]; intros SUB; cbn [map_res]; [exists []; split; [reflexivity|constructor]|].
    destruct IH as (ls & E & F); [intros e I; apply SUB; now right|].
    assert (X : exists l, check_sdo (op, s) = Ok l /\ about_op (op, s) l).
    { unfold check_sdo, about_op. cbn [fst snd]. destruct (is_prefix (tx "op: discriminated by syntax") (sdo_species s)) eqn:SP.
      - apply begins_iff in SP. destruct (length (sdo_invs s) =? 0) eqn:Z.
        + apply Nat.eqb_eq in Z. apply length_zero_iff_nil in Z. destruct (text_eqb op (tx "Early Errors")) eqn:T.
          * apply text_eqb_eq in T. exists []. split; [reflexivity|]. right; left. auto.
          * exists [NoCalls op]. split; [reflexivity|]. right; right; left. split; [assumption|]. split; [assumption|]. split; [|reflexivity]. intros Q. apply text_eqb_eq in Q. congruence.
        + apply Nat.eqb_neq in Z. assert (NE : sdo_invs s <> []) by (intros Q; rewrite Q in Z; now apply Z). destruct (H op s) as ((r & R) & V); [apply SUB; now left|assumption|assumption|].
          assert (M : exists l', map_res (check_the (accepts_the op r)) (sdo_invs s) = Ok l' /\ Forall2 (about op r) (sdo_invs s) l').
          { clear - V. induction (sdo_invs s) as [|v vs IHv]; cbn [map_res]; [exists []; split; [reflexivity|constructor]|]. destruct (V v) as (B & L & A); [now left|]. destruct (check_the_ok op r v B L A) as (l & C & AB). rewrite C. cbn [bind].
            destruct IHv as (l' & -> & F); [intros w I; apply V; now right|]. cbn [bind]. exists (l :: l'). split; [reflexivity|]. constructor; [now apply AB|assumption]. }
          destruct M as (l' & M & F'). exists (concat l'). split.
          * destruct R as [(hs & ->)|(hs & -> & -> & ->)].
            -- cbn [item nth_error bind]. rewrite M. reflexivity.
            -- cbn [item nth_error bind]. change (text_eqb (tx "MV") (tx "MV")) with true. cbn [assert_ bind]. rewrite M. reflexivity.
          * right; right; right. split; [assumption|]. split; [assumption|]. exists r, l'. auto.
      - exists []. split; [reflexivity|]. left. split; [|reflexivity]. intros Q. apply begins_iff in Q. congruence. }
    destruct X as (l & -> & AB). cbn [bind]. rewrite E. cbn [bind]. exists (l :: ls). split; [reflexivity|now constructor]. }
  destruct (G (sorted_items ops)) as (ls & E & F); [intros e I; eapply Permutation_in; [apply Permutation_sym, PM|assumption]|].
  exists ls. split; [assumption|]. split; [apply isort_sorted; intros; [apply text_leb_total|eapply text_leb_trans; eauto]|]. split; [assumption|]. rewrite E. reflexivity.
Qed.
Print Assumptions C92_the.
(* against the rule in the comment (1188-1192): an operation that returns a completion record *)
Theorem C92_completion_refuted : exists op r v, begins (tx "either a normal completion containing ") r /\ built (v_node v)
  /\ lhs_of (v_node v) = Ok (tx "{NAMED_OPERATION_INVOCATION}") /\ says_the (v_node v) /\ v_anc v = []
  /\ check_the_sdo_name [(op, mkSdo (tx "op: discriminated by syntax: steps") [v] [Some r])] = Ok [].
Proof.
  exists (tx "BindingInitialization"), (tx "either a normal completion containing a String or a throw completion"),
    (mkV (Node (tx "{NAMED_OPERATION_INVOCATION}") (tx "the {cap_word} of {LOCAL_REF}") 0 30 [leaf_node "{cap_word}" 4 12; leaf_node "{LOCAL_REF}" 16 21]) 0 []).
  split; [now exists (tx "a String or a throw completion")|]. split; [|split; [reflexivity|split; [|split; [reflexivity|vm_compute; reflexivity]]]].
  - constructor; [intros _; eexists; split; [unfold inv_grammar; cbn [In]; auto 20|repeat constructor]|].
    intros c [<-|[<-|[]]]; (constructor; [|intros c []]; intros I; apply tmem_iff_ in I; vm_compute in I; discriminate).
  - eexists. split; [reflexivity|]. cbn [In]. auto.
Qed.
Print Assumptions C92_completion_refuted.
(* a syntax-directed operation that is called with parentheses stops the run *)
Theorem C92_parens_refuted : exists st op r v ns xs, built (v_node v) /\ invocation st (v_node v) ns xs /\ In op ns
  /\ check_the_sdo_name [(op, mkSdo (tx "op: discriminated by syntax: steps") [v] [Some r])] = Err AssertionError.
Proof.
  pose (n := Node (tx "{PREFIX_PAREN}") (tx "{OPN_BEFORE_PAREN}({EXLIST_OPT})") 0 4 [Node (tx "{OPN_BEFORE_PAREN}") (tx "{SIMPLE_OPERATION_NAME}") 0 2 [leaf_node "{SIMPLE_OPERATION_NAME}" 0 2]; Node (tx "{EXLIST_OPT}") (tx "{EPSILON}") 3 3 []]).
  exists (tx "SV()"), (tx "SV"), (tx "a String"), (mkV n 0 []), [tx "SV"], [].
  assert (G : forall l r ks s e ch, In (l, r, ks) inv_grammar -> Forall2 (fun k c => lhs_of c = Ok k) ks ch -> (forall c, In c ch -> built c) -> built (Node l r s e ch)) by (intros; constructor; eauto).
  split; [|split; [|split; [now left|vm_compute; reflexivity]]].
  - eapply G; [unfold inv_grammar; cbn [In]; auto 20|repeat constructor|]. intros c [<-|[<-|[]]].
    + eapply G with (ks := [tx "{SIMPLE_OPERATION_NAME}"]); [unfold inv_grammar; cbn [In]; auto 30|repeat constructor|]. intros c [<-|[]]. constructor; [|intros c []]. intros I. apply tmem_iff_ in I. vm_compute in I. discriminate.
    + eapply G with (ks := []); [unfold inv_grammar; cbn [In]; auto 30|constructor|]. intros c [].
  - apply i_paren; [apply (called_simple (tx "SV()") 0 2)|constructor].
Qed.
Print Assumptions C92_parens_refuted.

(* ------------------------------------------------------------------ *)
(* Examples *)
Example ex_src : text := tx "Let _s_ be Append(_a_, the SV of |Foo| with argument _b_).".
Example ex_sv : anode := Node (tx "{NAMED_OPERATION_INVOCATION}") (tx "the {cap_word} of {LOCAL_REF} {WITH_ARGS}") 23 56
  [leaf_node "{cap_word}" 27 29; leaf_node "{LOCAL_REF}" 33 38; Node (tx "{WITH_ARGS}") (tx "with argument {EX}") 39 56 [leaf_node "{EX}" 53 56]].
Example ex_ex : anode := Node (tx "{EX}") (tx "{NAMED_OPERATION_INVOCATION}") 23 56 [ex_sv].
Example ex_call : anode := Node (tx "{PREFIX_PAREN}") (tx "{OPN_BEFORE_PAREN}({EXLIST_OPT})") 11 57
  [ Node (tx "{OPN_BEFORE_PAREN}") (tx "{SIMPLE_OPERATION_NAME}") 11 17 [leaf_node "{SIMPLE_OPERATION_NAME}" 11 17]
  ; Node (tx "{EXLIST_OPT}") (tx "{EXLIST}") 18 56 [Node (tx "{EXLIST}") (tx "{EXLIST}, {EX}") 18 56 [Node (tx "{EXLIST}") (tx "{EX}") 18 21 [leaf_node "{EX}" 18 21]; ex_ex]] ].
Example ex_root : anode := Node (tx "{COMMAND}") (tx "Let {var} be {EXPR}.") 0 58 [leaf_node "{var}" 4 7; Node (tx "{EXPR}") (tx "{EX}") 11 57 [Node (tx "{NAMED_OPERATION_INVOCATION}") (tx "{PREFIX_PAREN}") 11 57 [ex_call]]].
Fixpoint builtb (n : anode) : bool :=
  match n with
  | Leaf _ => false
  | Node l r _ _ ch => (negb (tmem_ l (map (fun p => fst (fst p)) inv_grammar))
      || existsb (fun p => text_eqb (fst (fst p)) l && text_eqb (snd (fst p)) r && (length (snd p) =? length ch)
                         && forallb (fun kc => match lhs_of (snd kc) with Ok k => text_eqb k (fst kc) | Err _ => false end) (combine (snd p) ch)) inv_grammar)
      && forallb builtb ch
  end.
Lemma builtb_ok n : builtb n = true -> built n.
Proof.
  induction n as [t | l r s e ch IH] using anode_nested; [discriminate|]. cbn [builtb]. intros H. apply andb_prop in H as (H & K). constructor.
  - intros I. apply Bool.orb_prop in H as [H|H]; [apply Bool.negb_true_iff in H; apply tmem_iff_ in I; congruence|]. apply existsb_exists in H as ([[l' r'] ks] & I' & H). cbn [fst snd] in H.
    apply andb_prop in H as (H & F). apply andb_prop in H as (H & L). apply andb_prop in H as (H1 & H2). apply text_eqb_eq in H1, H2. subst l' r'. apply Nat.eqb_eq in L. exists ks. split; [assumption|].
    clear - L F. revert ch L F. induction ks as [|k ks IH]; intros [|c ch] L F; try discriminate; [constructor|]. cbn [combine forallb fst snd] in F. apply andb_prop in F as (F1 & F2). constructor; [|apply IH; [now injection L|assumption]]. destruct (lhs_of c); [|discriminate]. apply text_eqb_eq in F1. now subst.
  - rewrite forallb_forall in K. rewrite Forall_forall in IH. intros c I. now apply IH, K.
Qed.
Definition plainb (st : text) (n : anode) : bool :=
  match n with
  | Node l r s e [Node ol orr s1 e1 och; a] => negb (text_eqb l (tx "{PREFIX_PAREN}")) || text_eqb orr (tx "{SIMPLE_OPERATION_NAME}")
  | _ => true
  end.
Lemma plainb_ok st n : plainb st n = true -> plain st n.
Proof.
  intros H s e opn a ->. cbn [plainb] in H. destruct opn as [ol orr s1 e1 och|]; [|split; discriminate]. change (text_eqb (tx "{PREFIX_PAREN}") (tx "{PREFIX_PAREN}")) with true in H. cbn [negb orb] in H. apply text_eqb_eq in H. subst orr.
  split; [intros ? ? ? ? ? E|intros ? ? ? E ?]; exfalso; apply (f_equal rhs_of) in E; vm_compute in E; discriminate E.
Qed.
Definition otherb (n : anode) : bool :=
  match n with
  | Node l r _ _ ch => negb (text_eqb (prod_str l r) (tx "{COMMAND} : IfAbruptRejectPromise({var}, {var}).")) && negb (text_eqb (prod_str l r) (tx "{CONDITION_1} : {var} and {var} are in a race in {var}"))
      && negb (text_eqb (prod_str l r) (tx "{COMMAND} : Set fields of {var} with the values listed in {h_emu_xref}. {the_field_names_are_the_names_listed_etc}"))
  | Leaf _ => true
  end.
Lemma otherb_ok n : otherb n = true -> other_prods n.
Proof.
  destruct n as [l r s e ch|t]; cbn [otherb other_prods]; [|trivial]. intros H. apply andb_prop in H as (H & C). apply andb_prop in H as (A & B). apply Bool.negb_true_iff in A, B, C.
  split; [|split]; intros E; apply text_eqb_eq in E; congruence.
Qed.
(* the hypotheses of C90 hold of a command with one invocation inside another *)
Example ex_C90_hyps : built ex_root /\ (forall q n, at_path ex_root q n -> plain ex_src n /\ other_prods n).
Proof.
  split; [apply builtb_ok; vm_compute; reflexivity|]. intros q n A. apply paths_all in A.
  assert (F : forallb (fun p => plainb ex_src (snd p) && otherb (snd p)) (paths ex_root) = true) by (vm_compute; reflexivity).
  rewrite forallb_forall in F. specialize (F _ A). cbn [snd] in F. apply andb_prop in F as (F1 & F2). split; [now apply plainb_ok|now apply otherb_ok].
Qed.
Example ex_C90 : exists l, annotate_invocations ex_src ex_root = Ok l
  /\ map (fun x => (v_node (fst x), snd x)) l = [(ex_call, ([tx "Append"], [leaf_node "{EX}" 18 21; ex_ex])); (ex_sv, ([tx "SV"], [leaf_node "{LOCAL_REF}" 33 38; leaf_node "{EX}" 53 56]))].
Proof. eexists. split; [vm_compute; reflexivity|vm_compute; reflexivity]. Qed.
(* Append has an optional third parameter that nobody supplies; its second is always supplied *)
Example ex_append : oper := mkOper (Some [(tx "_x_", []); (tx "_y_", tx "[]"); (tx "_z_", tx "[]")]) [ex_call].
Example ex_unused : oper := mkOper (Some [(tx "_x_", tx "[]")]) [].
Example ex_ops : list (text * oper) := [(tx "Zap", ex_unused); (tx "Append", ex_append); (tx "Odd", mkOper None [ex_sv])].
Example ex_C91_hyps : NoDup (map fst ex_ops) /\
  (forall op o ps, In (op, o) ex_ops -> op_params o = Some ps -> (forall p, In p ps -> snd p = [] \/ snd p = tx "[]") /\ forall x, In x (op_invs o) -> exists k, supplied ex_src op x k).
Proof.
  split; [repeat constructor; cbn [In]; intuition discriminate|]. intros op o ps [E|[E|[E|[]]]] P; injection E as <- <-; cbn [op_params] in P; try discriminate; injection P as <-.
  - split; [intros p [<-|[]]; auto|intros x []].
  - split; [intros p [<-|[<-|[<-|[]]]]; auto|]. intros x [<-|[]]. eexists. apply sup_paren. apply args_some. apply (args_more 18 56 _ ex_ex [leaf_node "{EX}" 18 21]). constructor.
Qed.
Example ex_C91 : check_optional_parameters ex_src ex_ops = Ok [(tx "Append", 2, tx "_y_", AllSupply 1); (tx "Append", 3, tx "_z_", NoneSupplies 1); (tx "Zap", 1, tx "_x_", NoInvocations)].
Proof. vm_compute. reflexivity. Qed.
Example ex_same : args_of ex_src (tx "Append") ex_call = Ok [leaf_node "{EX}" 18 21; ex_ex].
Proof. reflexivity. Qed.
(* SV takes 'the', but not within the parentheses of Append *)
Example ex_visit : visit := mkV ex_sv 0 [ex_ex; ex_call; ex_root].
Example ex_sdos : list (text * sdo) := [(tx "SV", mkSdo (tx "op: discriminated by syntax: steps") [ex_visit; mkV ex_sv 0 []] [Some (tx "a String")]); (tx "Nowhere", mkSdo (tx "op: discriminated by syntax: steps") [] [])].
Example ex_C92_hyps : forall op s, In (op, s) ex_sdos -> begins (tx "op: discriminated by syntax") (sdo_species s) -> sdo_invs s <> [] ->
     (exists r, returns_ op s r) /\
     forall v, In v (sdo_invs s) -> built (v_node v) /\ lhs_of (v_node v) = Ok (tx "{NAMED_OPERATION_INVOCATION}") /\ forall n, In n (v_anc v) -> exists k, lhs_of n = Ok k.
Proof.
  intros op s [E|[E|[]]] _ NE; injection E as <- <-; [|now destruct NE]. split; [exists (tx "a String"); left; now exists []|].
  intros v [<-|[<-|[]]]; (split; [apply builtb_ok; vm_compute; reflexivity|split; [reflexivity|]]); cbn [v_anc ex_visit]; [intros n [<-|[<-|[<-|[]]]]; eexists; reflexivity|intros n []].
Qed.
Example ex_C92 : check_the_sdo_name ex_sdos = Ok [NoCalls (tx "Nowhere"); NotThe 23].
Proof. vm_compute. reflexivity. Qed.
