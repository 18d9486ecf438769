(* C66: the reader of <emu-grammar> elements accepts exactly the written grammars, and what it gets from
   them is what is written.  C67: what it does with the other elements. *)
From Coq Require Import Ascii String.
From Verif Require Import M_Base M_HTML M_Meta L_Base L_Meta L_MetaRx L_MetaFwd L_MetaRead L_MetaRead3 L_MetaDec L_MetaFull L_MetaTot L_MetaOut.
Open Scope string_scope.
Open Scope nat_scope.
Open Scope list_scope.
Notation length := Datatypes.length.

(* C66: what is written is read *)
Theorem C66_what_is_written_is_read : forall uniword before tag content close after g r, close = 60%N :: r ->
  holds before tag content close g -> good uniword g ->
  exists ds, read_element uniword before tag content close after = Ok (inr (ds, [])) /\
             Forall2 (is_prod (before ++ tag ++ content ++ close ++ after)) ds (ne_list g).
Proof. exact reads_written. Qed.
Print Assumptions C66_what_is_written_is_read.

(* C66: nothing else is accepted, and nothing else is got from it; the check of the prefixes of the
   parameters never says anything *)
Theorem C66_only_what_is_written_is_read : forall uniword before tag content close after ds msgs,
  read_element uniword before tag content close after = Ok (inr (ds, msgs)) ->
  msgs = [] /\ exists g, holds before tag content close g /\ good uniword g /\
                         Forall2 (is_prod (before ++ tag ++ content ++ close ++ after)) ds (ne_list g).
Proof. exact reads_only_written. Qed.
Print Assumptions C66_only_what_is_written_is_read.

(* C66: whether an element is accepted depends on its content and its column only *)
Theorem C66_accepted_wherever_it_stands : forall uniword before before' tag tag' content close after after' i r ds msgs,
  close = 60%N :: r -> In 10%N content -> column before i -> column before' i ->
  read_element uniword before tag content close after = Ok (inr (ds, msgs)) ->
  exists ds', read_element uniword before' tag' content close after' = Ok (inr (ds', [])) /\ length ds' = length ds /\
              Forall2 (fun d d' => dp_lhs d = dp_lhs d' /\ dp_params d = dp_params d' /\ dp_colons d = dp_colons d' /\ map snd (dp_rhss d) = map snd (dp_rhss d')) ds ds'.
Proof.
  intros uniword before before' tag tag' content close after after' i r ds msgs Ec Nl Co Co' H. destruct (reads_only_written _ _ _ _ _ _ _ _ H) as [_ [g [Ho [Go P]]]].
  assert (Ho' : holds before' tag' content close g).
  { destruct Ho as [[_ [k [Ck [Ik E]]]]|[N _]]; [|exfalso; apply N; apply in_or_app; right; apply in_or_app; left; exact Nl].
    left. split; [apply in_or_app; right; apply in_or_app; left; exact Nl|]. exists i. split; [exact Co'|]. pose proof (column_start before k [] Ck) as E1. pose proof (column_start before i [] Co) as E2. rewrite E1 in E2. subst i. split; [exact Ik|exact E]. }
  destruct (reads_written uniword before' tag' content close after' g r Ec Ho' Go) as [ds' [E P']]. exists ds'. split; [exact E|].
  split; [rewrite (Forall2_length _ _ _ P), (Forall2_length _ _ _ P'); reflexivity|].
  clear - P P'. revert ds' P'. induction P as [|d x ds l Hd P IH]; intros ds' P'; inversion P' as [|d' x' ds0 l0 Hd' P0]; subst; constructor; [|apply IH; exact P0].
  assert (K : forall A (R R' : gnode * list gnode * text -> A -> Prop) (f : A -> text) l ys zs, (forall y a, R y a -> snd y = f a) -> (forall y a, R' y a -> snd y = f a) -> Forall2 R ys l -> Forall2 R' zs l -> map snd ys = map snd zs).
  { clear. intros A R R' f l ys zs HR HR' F. revert zs. induction F as [|y a ys l Ry F IH]; intros zs F'; inversion F' as [|z a' zs0 l0 Rz F0]; subst; [reflexivity|]. cbn. rewrite (HR _ _ Ry), (HR' _ _ Rz), (IH _ F0). reflexivity. }
  destruct x as [cm lhs ps n rs|cm lhs ps n ls|lhs ps n b|lhs ps n ws]; destruct Hd as [[A1 [A2 A3]] B], Hd' as [[A1' [A2' A3']] B'];
    (split; [congruence|]); (split; [congruence|]); (split; [congruence|]).
  - eapply (K _ _ _ (fun r => red_body (r_body r))); [| |exact B|exact B']; intros [[? ?] ?] a [_ [E _]]; exact E.
  - eapply (K _ _ _ w_tok); [| |exact B|exact B']; intros [[? ?] ?] a [E _]; exact E.
  - destruct B as [[[? ?] ?] [-> [-> _]]], B' as [[[? ?] ?] [-> [-> _]]]. reflexivity.
  - eapply (K _ _ _ w_tok); [| |exact B|exact B']; intros [[? ?] ?] a [E _]; exact E.
Qed.
Print Assumptions C66_accepted_wherever_it_stands.

(* ---- an example: a block of three productions ---- *)

Definition ascii_only : N -> bool := fun _ => false.

Definition ex_before : text := tx "<p>Syntax</p>
    ".
Definition ex_tag : text := tx "<emu-grammar type=""definition"">".
Definition ex_close : text := tx "</emu-grammar>".
Definition ex_content : text := tx "
      Stmt[Yield, Await] :
        [+Yield] `if` `(` Expr[+In, ?Yield] `)` [lookahead != `else`] #ifstmt
        [empty]

      // emu-format ignore
      Word :: one of
        `a` `b`
        `c`

      Char :: Source but not one of `\` or Term [no LineTerminator here] &lt;LF&gt;?
    ".

Definition ex_grammar : ne gprod :=
  (Lines false (tx "Stmt") (Some ((NoPrefix, tx "Yield"), [(NoPrefix, tx "Await")])) 1
     ({| r_guard := Some ((Plus, tx "Yield"), []);
         r_body := BItems (ISym (STok (tx "if")) false,
                     [ISym (STok (tx "(")) false; ISym (SNt (tx "Expr") (Some ((Plus, tx "In"), [(Quest, tx "Yield")]))) false; ISym (STok (tx ")")) false; ICon (LaSingle true (TTok (tx "else"), []))]);
         r_label := Some (tx "#ifstmt") |},
      [{| r_guard := None; r_body := BEmpty; r_label := None |}]),
   [LinesOneOf true (tx "Word") None 2 ((tx "a", [tx "b"]), [(tx "c", [])]);
    OneLine (tx "Char") None 2 (BItems (ISym (SNt (tx "Source") None) false,
                     [ICon (ButNotOneOf (XTok (tx "\")) [(true, XNt (tx "Term"))]); ICon Nlth; ISym (SChr (tx "LF")) true]))]).

Ltac wf_ex := repeat (first [ exact I | reflexivity | discriminate | split | constructor | left; eexists; eexists; split; [reflexivity|split; reflexivity] | eexists; eexists; split; [reflexivity|split; reflexivity] ]).

Example C66_ex_written : holds ex_before ex_tag ex_content ex_close ex_grammar.
Proof.
  left. split; [vm_compute; tauto|]. exists 4. split; [|split; [cbn; auto|vm_compute; reflexivity]].
  exists (tx "<p>Syntax</p>
"), (tx "    "). split; [reflexivity|]. split; [reflexivity|]. split; [vm_compute; intuition discriminate|]. right. exists (tx "<p>Syntax</p>"). reflexivity.
Qed.

Lemma tok_ok : forall w, w <> [] -> forallb (fun c => negb (c =? 96)%N && negb (c =? 32)%N) w = true -> wf_tok w.
Proof.
  intros w N H. right. split; [exact N|]. apply Forall_forall. intros c Hc. rewrite forallb_forall in H. specialize (H c Hc). apply andb_prop in H. destruct H as [H1 H2].
  apply negb_true_iff in H1, H2. apply N.eqb_neq in H1, H2. auto.
Qed.
Lemma nt_ok : forall c w, upper c = true -> forallb (wordb ascii_only) w = true -> wf_nt ascii_only (c :: w).
Proof. intros c w H1 H2. left. exists c, w. auto. Qed.
Lemma param_ok : forall p c w, upper c = true -> forallb (fun d => lower d || upper d) w = true -> wf_param (p, c :: w).
Proof. intros p c w H1 H2. exists c, w. auto. Qed.

Example C66_ex_good : good ascii_only ex_grammar.
Proof.
  split; [|split].
  - unfold ex_grammar, ne_list. cbn [fst snd].
    constructor; [|constructor; [|constructor; [|constructor]]].
    + split; [split; [|split]|].
      * apply nt_ok; reflexivity.
      * intros x E. inversion E; subst. repeat (constructor; [apply param_ok; reflexivity|]). constructor.
      * lia.
      * constructor; [|constructor; [|constructor]]; (split; [|split]).
        -- intros x E. inversion E; subst. repeat (constructor; [apply param_ok; reflexivity|]). constructor.
        -- cbn [r_body wf_body ne_list fst snd]. constructor; [apply tok_ok; [discriminate|reflexivity]|]. constructor; [apply tok_ok; [discriminate|reflexivity]|].
           constructor; [split; [apply nt_ok; reflexivity|]|].
           { intros x E. inversion E; subst. repeat (constructor; [apply param_ok; reflexivity|]). constructor. }
           constructor; [apply tok_ok; [discriminate|reflexivity]|]. constructor; [|constructor]. constructor; [apply tok_ok; [discriminate|reflexivity]|constructor].
        -- intros l E. inversion E; subst. exists (tx "ifstmt"). repeat split; discriminate.
        -- intros x E. discriminate E.
        -- exact I.
        -- intros l E. discriminate E.
    + split; [split; [apply nt_ok; reflexivity|split; [intros x E; discriminate E|lia]]|].
      repeat (constructor; [repeat (constructor; [apply tok_ok; [discriminate|reflexivity]|]); constructor|]). constructor.
    + split; [split; [apply nt_ok; reflexivity|split; [intros x E; discriminate E|lia]]|].
      constructor; [split; [apply nt_ok; reflexivity|intros x E; discriminate E]|].
      constructor; [split; [apply tok_ok; [discriminate|reflexivity]|constructor; [apply nt_ok; reflexivity|constructor]]|].
      constructor; [exact I|]. constructor; [split; [discriminate|reflexivity]|constructor].
  - unfold ex_grammar, ne_list. cbn. repeat (constructor; cbn; auto).
  - unfold ex_grammar, ne_list. cbn. repeat (constructor; cbn; auto; try discriminate).
Qed.

Definition summary (r : res ((nat * list expectation) + (list dprod * list pmsg))) : option (list (text * list text * nat * list text)) :=
  match r with
  | Ok (inr (ds, [])) => Some (map (fun d => (dp_lhs d, dp_params d, dp_colons d, map snd (dp_rhss d))) ds)
  | _ => None
  end.

Example C66_ex_read :
  summary (read_element ascii_only ex_before ex_tag ex_content ex_close (tx "
  </body>")) =
  Some [ (tx "Stmt", [tx "Yield"; tx "Await"], 1, [tx "`if` `(` Expr `)`"; []])
       ; (tx "Word", [], 2, [tx "`a`"; tx "`b`"; tx "`c`"])
       ; (tx "Char", [], 2, [tx "Source &lt;LF&gt;?"]) ].
Proof. vm_compute. reflexivity. Qed.

(* on one line *)
Example C66_ex_line :
  summary (read_element ascii_only (tx "<p>") (tx "<emu-grammar>") (tx "A[B] : `x`? @ &lt;TAB&gt;") (tx "</emu-grammar>") (tx "</p>")) =
  Some [(tx "A", [tx "B"], 1, [tx "`x`? @ &lt;TAB&gt;"])].
Proof. vm_compute. reflexivity. Qed.

(* C66, an observation: a symbol written after "but not one of ..." is taken as one more excluded thing, so
   a grammar in which it is meant as the next symbol is read as another one *)
Theorem C66_symbol_after_but_not_refuted : exists g content,
  holds [] [] content (tx "<") g /\ Forall (wf_prod ascii_only) (ne_list g) /\ Forall full_prod (ne_list g) /\
  exists ds, read_element ascii_only [] [] content (tx "<") [] = Ok (inr (ds, [])) /\
    ~ Forall2 (is_prod (content ++ tx "<")) ds (ne_list g).
Proof.
  exists (OneLine (tx "A") None 1 (BItems (ISym (SNt (tx "B") None) false, [ICon (ButNotOneOf (XTok (tx "x")) [(true, XTok (tx "y"))]); ISym (SNt (tx "C") None) false])), []).
  exists (tx "A : B but not one of `x` or `y` C").
  split; [right; split; [vm_compute; intuition discriminate|eexists; split; [reflexivity|split; [exact I|reflexivity]]]|].
  split.
  { constructor; [|constructor]. split; [split; [apply nt_ok; reflexivity|split; [intros x E; discriminate E|lia]]|].
    constructor; [split; [apply nt_ok; reflexivity|intros x E; discriminate E]|].
    constructor; [split; [apply tok_ok; [discriminate|reflexivity]|constructor; [apply tok_ok; [discriminate|reflexivity]|constructor]]|].
    constructor; [split; [apply nt_ok; reflexivity|intros x E; discriminate E]|constructor]. }
  split; [repeat (constructor; cbn; auto; try discriminate)|].
  destruct (read_element ascii_only [] [] (tx "A : B but not one of `x` or `y` C") (tx "<") []) as [[m|[ds ms]]|x] eqn:E; try (vm_compute in E; discriminate E).
  assert (S : summary (read_element ascii_only [] [] (tx "A : B but not one of `x` or `y` C") (tx "<") []) = Some [(tx "A", [], 1, [tx "B"])]) by (vm_compute; reflexivity).
  rewrite E in S. destruct ms; [|discriminate S]. exists ds. split; [reflexivity|]. intros F. inversion F as [|d g ds' gs H F0]; subst. cbn in S.
  destruct H as [_ [[[n items] red] [Er [Hr _]]]]. rewrite Er in S. rewrite Hr in S. vm_compute in S. inversion S.
Qed.
Print Assumptions C66_symbol_after_but_not_refuted.

(* ------------------------------------------------------------------------------------------- *)

(* C67: a message about a syntax error is true: nothing of what it says was expected is there.  Its
   position is at or after the beginning of the content. *)
Theorem C67_messages_are_true : forall uniword before tag content close after pos exps,
  read_element uniword before tag content close after = Ok (inl (pos, exps)) ->
  let t := before ++ tag ++ content ++ close ++ after in
  exps <> [] /\ length before + length tag <= pos <= length t /\
  Forall (not_there uniword t (length before + length tag + length content) pos) exps.
Proof. exact message_true. Qed.
Print Assumptions C67_messages_are_true.

(* C67: the reader comes to an end on every element, and the only failure is a failed assertion, which has
   one of four reasons *)
Theorem C67_the_only_failures : forall uniword before tag content close after x,
  read_element uniword before tag content close after = Err x ->
  x = AssertionError /\
  (odd_column before tag content close \/
   odd_from (before ++ tag ++ content ++ close ++ after) (length before + length tag) \/
   runs_over uniword before tag content close after \/
   not_full uniword before tag content close).
Proof. exact why_not. Qed.
Print Assumptions C67_the_only_failures.

(* C67: an element with a newline that is not at one of the columns 2, 4, ..., 10 is a failed assertion *)
Theorem C67_odd_columns_fail : forall uniword before tag content close after,
  odd_column before tag content close -> read_element uniword before tag content close after = Err AssertionError.
Proof.
  intros uniword before tag content close after [Nl [i [Co Ni]]]. unfold read_element, parse_emu_grammar. rewrite element_slice. rewrite (proj2 (existsb_in _ _) Nl). cbv zeta.
  rewrite (column_start _ _ (tag ++ content ++ close ++ after) Co). destruct (existsb (Nat.eqb i) [2; 4; 6; 8; 10]) eqn:E; [apply in_existsb in E; contradiction|]. reflexivity.
Qed.
Print Assumptions C67_odd_columns_fail.

(* C67: a well-written grammar that is not full is a failed assertion *)
Theorem C67_not_full_fails : forall uniword before tag content close after r, close = 60%N :: r ->
  not_full uniword before tag content close -> read_element uniword before tag content close after = Err AssertionError.
Proof. exact not_full_fails. Qed.
Print Assumptions C67_not_full_fails.

(* the four reasons, and a message *)

Definition ex_read (content after : string) := read_element ascii_only ex_before ex_tag (tx content) ex_close (tx after).

(* an odd indentation *)
Theorem C67_odd_indentation_refuted : exists content, ex_read content "" = Err AssertionError /\
  odd_from (ex_before ++ ex_tag ++ tx content ++ ex_close) (length ex_before + length ex_tag).
Proof.
  exists "
      A :
       `x`
    ". split; [vm_compute; reflexivity|].
  exists (length ex_before + length ex_tag + 10), 7, (tx "`x`
    " ++ ex_close). split; [lia|]. split; [|split; [exists 3; reflexivity|reflexivity]].
  exists (ex_before ++ ex_tag ++ tx "
      A :"). split; vm_compute; reflexivity.
Qed.
Print Assumptions C67_odd_indentation_refuted.

(* a range of characters on the line of the left-hand side *)
Theorem C67_chars_on_a_line_refuted : exists content, ex_read content "" = Err AssertionError /\ not_full ascii_only ex_before ex_tag (tx content) ex_close.
Proof.
  exists "
      A :: &gt; any Unicode code point
    ". split; [vm_compute; reflexivity|].
  exists (OneLine (tx "A") None 2 BAny, []). split; [|split; [|split]].
  - left. split; [vm_compute; tauto|]. exists 4. split; [|split; [cbn; auto|vm_compute; reflexivity]].
    exists (tx "<p>Syntax</p>
"), (tx "    "). split; [reflexivity|]. split; [reflexivity|]. split; [vm_compute; intuition discriminate|]. right. exists (tx "<p>Syntax</p>"). reflexivity.
  - constructor; [|constructor]. split; [split; [apply nt_ok; reflexivity|split; [intros x E; discriminate E|lia]]|exact I].
  - repeat constructor.
  - intros F. apply Forall_inv in F. destruct F as [_ H]. exact H.
Qed.
Print Assumptions C67_chars_on_a_line_refuted.

(* one thing after "but not one of" *)
Theorem C67_one_excluded_refuted : exists content, ex_read content "" = Err AssertionError /\ not_full ascii_only ex_before ex_tag (tx content) ex_close.
Proof.
  exists "
      A :: B but not one of `x`
    ". split; [vm_compute; reflexivity|].
  exists (OneLine (tx "A") None 2 (BItems (ISym (SNt (tx "B") None) false, [ICon (ButNotOneOf (XTok (tx "x")) [])])), []). split; [|split; [|split]].
  - left. split; [vm_compute; tauto|]. exists 4. split; [|split; [cbn; auto|vm_compute; reflexivity]].
    exists (tx "<p>Syntax</p>
"), (tx "    "). split; [reflexivity|]. split; [reflexivity|]. split; [vm_compute; intuition discriminate|]. right. exists (tx "<p>Syntax</p>"). reflexivity.
  - constructor; [|constructor]. split; [split; [apply nt_ok; reflexivity|split; [intros x E; discriminate E|lia]]|].
    constructor; [split; [apply nt_ok; reflexivity|intros x E; discriminate E]|]. constructor; [split; [apply tok_ok; [discriminate|reflexivity]|constructor]|constructor].
  - repeat constructor.
  - intros F. apply Forall_inv in F. destruct F as [H _]. apply Forall_inv_tail, Forall_inv in H. apply H. reflexivity.
Qed.
Print Assumptions C67_one_excluded_refuted.

(* a backtick that is closed only after the element: the reader goes on beyond the end *)
Theorem C67_runs_over_refuted : exists content after, read_element ascii_only [] (tx "<emu-grammar>") (tx content) (tx "</emu-grammar>") (tx after) = Err AssertionError /\
  runs_over ascii_only [] (tx "<emu-grammar>") (tx content) (tx "</emu-grammar>") (tx after).
Proof.
  exists "A : `x", "<b>`y`</b>". split; [vm_compute; reflexivity|].
  exists (OneLine (tx "A") None 1 (BItems (ISym (STok (tx "x</emu-grammar><b>")) false, [])), []), (tx "A : `x</emu-grammar><b>`"), (tx "y`</b>").
  split; [|split; [|split; [|split]]].
  - constructor; [|constructor]. split; [split; [apply nt_ok; reflexivity|split; [intros x E; discriminate E|lia]]|]. constructor; [apply tok_ok; [discriminate|reflexivity]|constructor].
  - repeat constructor.
  - reflexivity.
  - vm_compute. lia.
  - right. split; [vm_compute; intuition discriminate|]. eexists. split; [reflexivity|]. split; [exact I|reflexivity].
Qed.
Print Assumptions C67_runs_over_refuted.

Example C67_ex_message : exists exps, ex_read "
      A :
        `x` $
    " "" = Ok (inl (length ex_before + length ex_tag + 23, exps)) /\ In (ExpPattern "LABEL" "#\w+") exps /\ In (ExpPattern "NT" "[A-Z]\w*|uri\w*|@") exps.
Proof. eexists. split; [vm_compute; reflexivity|]. split; cbn; tauto. Qed.

Example C67_ex_odd_column : odd_column (tx "   ") ex_tag ex_content ex_close.
Proof. split; [vm_compute; tauto|]. exists 3. split; [exists [], (tx "   "); repeat split; auto; vm_compute; intuition discriminate|cbn; lia]. Qed.
