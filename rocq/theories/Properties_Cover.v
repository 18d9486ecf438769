(* C60: the analysis of the coverage of syntax-directed operations. *)
From Coq Require Import Ascii String.
From Verif Require Import M_Base L_Base M_HTML M_PNode L_PNode M_Cover L_Cover.
Open Scope list_scope.
Notation length := Datatypes.length.

(* What is reported, exactly: for the nonterminals reached from those of the invocations, the keys with several rules, and those without a rule that are neither an exception nor a chain; and the rules for no such key. *)
Theorem C60_report g m exc fuel nts ms : analyze g m exc fuel nts = Ok ms -> forall x, In x ms <->
  (exists nt r bits, reached g m exc nts nt /\ key_of g nt r bits /\ 2 <= n_rules m (nt, reduced r, bits) /\ x = Handled (nt, reduced r, bits) (n_rules m (nt, reduced r, bits))) \/
  (exists nt r bits, reached g m exc nts nt /\ key_of g nt r bits /\ n_rules m (nt, reduced r, bits) = 0 /\ exc nt (reduced r) = false /\ length (present (citems r) bits) <> 1 /\ x = NeedsRule (nt, reduced r, bits)) \/
  (exists k, In k (map fst m) /\ (forall nt r bits, reached g m exc nts nt -> key_of g nt r bits -> k <> (nt, reduced r, bits)) /\ x = Unused k).
Proof.
  intros E x. rewrite (analyze_spec g m exc fuel nts ms E x). split.
  - intros [(nt & R & [(r & bits & H)|(r & bits & H)])|H]; [left; exists nt, r, bits; auto|right; left; exists nt, r, bits; auto|right; right; assumption].
  - intros [(nt & r & bits & R & H)|[(nt & r & bits & R & H)|H]]; [left; exists nt; split; [assumption|]; left; exists r, bits; assumption|left; exists nt; split; [assumption|]; right; exists r, bits; assumption|right; assumption].
Qed.
Print Assumptions C60_report.

(* If nothing is reported but unused rules, then the operation, invoked on any parse tree for one of the nonterminals in which no optional terminal is present, executes the definition for a node to which the chain rule leads -
   or the chain rule leads to a production that is listed as an exception. *)
Theorem C60_sound cover name g m exc fuel nts ms : find (fun e => text_eqb (fst e) name) cover = Some (name, m) -> NoDup (map fst m) -> Forall (fun e => snd e <> []) m ->
  ~ In name [tx "Early Errors"; tx "Contains"; tx "AllPrivateIdentifiersValid"; tx "ContainsArguments"] ->
  analyze g m exc fuel nts = Ok ms -> (forall x, In x ms -> exists k, x = Unused k) ->
  forall n s fuel', tree_of g n -> sane n -> sym n = Some s -> In s nts -> height n <= fuel' ->
  exists f, chain_path m n f /\
    ((exists d k, choose fuel' cover name n = Ok (Run d f) /\ production f k /\ In (k, [d]) m) \/ (exists s' r b, production f (s', r, b) /\ exc s' r = true)).
Proof.
  intros FD ND NE NI E H n s fuel' T SN ES I HF. unfold choose. rewrite FD.
  assert (ST : style_of name = chain_style).
  { unfold style_of. destruct (text_eqb name (tx "Early Errors")) eqn:E1; [apply text_eqb_eq in E1; exfalso; apply NI; now left|]. destruct (existsb _ _) eqn:E2; [|reflexivity]. apply existsb_exists in E2 as (x & J & E2). apply text_eqb_eq in E2 as <-. exfalso. apply NI. now right. }
  rewrite ST. apply (tree_sound g m exc nts name fuel' ND NE) with s; auto; [|now constructor]. intros nt x R S. destruct (H x) as [k ->]; [apply (analyze_spec g m exc fuel nts ms E); left; eauto|]. destruct S as [(r & b & _ & _ & X)|(r & b & _ & _ & _ & _ & X)]; discriminate.
Qed.
Print Assumptions C60_sound.

(* The analysis ends, however the chains run in circles, unless a right-hand side has more than three optional symbols. *)
Theorem C60_total g m exc nts : NoDup nts -> (forall nt rs, In (nt, rs) g -> Forall (fun r => optionals (citems r) <= 3) rs) -> exists fuel ms, analyze g m exc fuel nts = Ok ms.
Proof.
  intros ND W. exists (S (length (nts ++ mentioned g))). unfold analyze.
  destruct (do_queue_ok g m exc nts) with (fuel := S (length (nts ++ mentioned g))) (i := 0) (st := mkC nts [] []) as [st E]; cbn [nt_queue]; auto.
  - intros nt rs D. assert (X : exists nt', In (nt', rs) g) by (eapply def_occ_in; eauto). destruct X as [nt' X]. eapply Forall_impl; [|exact (W _ _ X)]. intros r L. cbn beta in *. now rewrite rsq_len.
  - apply incl_appl, incl_refl.
  - lia.
  - lia.
  - rewrite E. cbn [bind]. eexists. reflexivity.
Qed.
Print Assumptions C60_total.
Theorem C60_optionals m exc nt r rs st : 3 < optionals (citems r) -> do_rhss m exc nt (r :: rs) st = Err AssertionError.
Proof.
  intros L. cbn [do_rhss]. rewrite <- rsq_len in L. rename L into L'.
  destruct (RSQs_of r) as [|a [|b [|c [|d l]]]]; cbn in L'; try lia. reflexivity.
Qed.
Print Assumptions C60_optionals.

(* With an optional terminal the report is clean, but the operation fails on a tree in which it is present: the analysis does not count it as a nonterminal, and the invocation does. *)
Definition g_import : cgrammar :=
  [(tx "ImportCall", [mkRhs (tx "`import` `(` AssignmentExpression `,`?") [I_other; I_other; I_GNT (tx "AssignmentExpression"); I_QM C_term; I_other]]); (tx "AssignmentExpression", [mkRhs (tx "Ident") [I_other]])].
Definition m_import : sdo_map := [((tx "AssignmentExpression", tx "Ident", []), [7])].
Definition lit_ (i a b : nat) := PN i None [] [] a b [].
Definition t_import (comma : bool) : pnode :=
  PN 0 (Some (tx "ImportCall")) (tx "`import` `(` AssignmentExpression `,`?") [if comma then 1 else 0] 0 10
    [lit_ 5 0 6; lit_ 6 6 7; PN 1 (Some (tx "AssignmentExpression")) (tx "Ident") [] 7 8 [lit_ 2 7 8]; PN 3 (Some (tx ",?")) [] [] 8 9 (if comma then [lit_ 4 8 9] else []); lit_ 7 9 10].
Lemma t_import_tree comma : tree_of g_import (t_import comma).
Proof.
  eapply to_node; [vm_compute; reflexivity|left; reflexivity|reflexivity|]. cbn [citems]. apply fi_lit; [reflexivity|]. apply fi_lit; [reflexivity|]. apply fi_gnt; [reflexivity|reflexivity| |].
  - eapply to_node; [vm_compute; reflexivity|left; reflexivity|reflexivity|]. apply fi_lit; [reflexivity|constructor].
  - destruct comma.
    + eapply (fi_term _ _ (tx ",?") (lit_ 4 8 9)); [reflexivity|reflexivity|reflexivity|reflexivity|]. apply fi_lit; [reflexivity|constructor].
    + eapply (fi_absent _ _ _ (tx ",?")); [reflexivity|reflexivity|reflexivity|]. apply fi_lit; [reflexivity|constructor].
Qed.
Theorem C60_optional_terminal_refuted : exists g m nts name n s, analyze g m (fun _ _ => false) 5 nts = Ok [] /\ tree_of g n /\ sym n = Some s /\ In s nts /\
  (forall k, In k (map fst m) -> exists d, In (k, [d]) m) /\ forall fuel, 0 < fuel -> choose fuel [(name, m)] name n = Err AssertionError.
Proof.
  exists g_import, m_import, [tx "ImportCall"], (tx "IsFunctionDefinition"), (t_import true), (tx "ImportCall"). split; [vm_compute; reflexivity|]. split; [apply t_import_tree|]. split; [reflexivity|]. split; [now left|].
  split; [intros k [<-|[]]; exists 7; now left|]. intros [|f] H; [lia|reflexivity].
Qed.
Print Assumptions C60_optional_terminal_refuted.

(* without the comma the operation works *)
Example C60_sound_ex : analyze g_import m_import (fun _ _ => false) 5 [tx "ImportCall"] = Ok [] /\ tree_of g_import (t_import false) /\
  choose 5 [(tx "IsFunctionDefinition", m_import)] (tx "IsFunctionDefinition") (t_import false) = Ok (Run 7 (PN 1 (Some (tx "AssignmentExpression")) (tx "Ident") [] 7 8 [lit_ 2 7 8])) /\ sane (t_import false).
Proof.
  split; [vm_compute; reflexivity|]. split; [apply t_import_tree|]. split; [vm_compute; reflexivity|]. intros n c s B IC E Q.
  assert (B' : n = t_import false \/ In n (kids (t_import false)) \/ n = lit_ 2 7 8).
  { inversion B as [|? x ? I1 B1]; subst; [now left|]. right. cbn [t_import kids In] in I1. destruct I1 as [<-|[<-|[<-|[<-|[<-|[]]]]]]; (inversion B1 as [|? y ? I2 B2]; subst; [left; cbn; tauto|]); cbn [kids lit_ In] in I2; try contradiction.
    destruct I2 as [<-|[]]. inversion B2 as [|? z ? I3 B3]; subst; [now right|destruct I3]. }
  destruct B' as [->|[B'| ->]]; [|cbn [t_import kids In] in B'; destruct B' as [<-|[<-|[<-|[<-|[<-|[]]]]]]; cbn [kids lit_ In] in IC; try contradiction; destruct IC as [<-|[]]; discriminate|destruct IC].
  cbn [t_import kids In] in IC. destruct IC as [<-|[<-|[<-|[<-|[<-|[]]]]]]; cbn in E; try discriminate; inversion E; subst; try discriminate. cbn. split; [lia|constructor].
Qed.
Example C60_report_ex : analyze [(tx "A", [mkRhs (tx "B C?") [I_GNT (tx "B"); I_QM (C_GNT (tx "C"))]]); (tx "B", [mkRhs (tx "b") [I_other]; mkRhs (tx "A") [I_GNT (tx "A")]]); (tx "C", [])]
  [((tx "B", tx "b", []), [1; 2]); ((tx "C", tx "c", []), [3])] (fun _ _ => false) 9 [tx "A"]
  = Ok [NeedsRule (tx "A", tx "B C?", [1]); Handled (tx "B", tx "b", []) 2; Unused (tx "C", tx "c", [])].
Proof. vm_compute. reflexivity. Qed.
