(* Theorems about the examination of the files of test262. *)
From Coq Require Import Ascii String.
From Verif Require Import M_Base L_Base M_HTML M_Shared M_Layout M_Validate L_Validate L_ValTree M_Test262 L_Test262 L_YamlColl L_YamlSpec L_TestOne.
Open Scope list_scope.
Open Scope nat_scope.
Notation length := List.length.

(* Every text consists of lines, in one way; and a text of lines is accepted with the
   data that the lines mean, and with no other; any other text is refused, with a failed
   assertion and not in any other way. *)
Theorem C85_lines : forall s, exists ls, ls <> [] /\ Forall written ls /\ s = text_of ls /\
  forall ls', ls' <> [] -> Forall written ls' -> s = text_of ls' -> ls' = ls.
Proof. intros s. destruct (lines_exist s) as (ls & N & W & ->). exists ls. split; [assumption|]. split; [assumption|]. split; [reflexivity|]. intros ls' N' W' E. now apply lines_unique. Qed.
Theorem C85_frontmatter : forall uniword ls, ls <> [] -> Forall written ls ->
  (forall d, parse_frontmatter uniword (text_of ls) = Ok d <-> block uniword ls d) /\
  (forall e, parse_frontmatter uniword (text_of ls) = Err e <-> e = AssertionError /\ ~ exists d, block uniword ls d).
Proof.
  intros uniword ls N W. destruct (frontmatter_lines uniword ls N W) as (A & B). split; [exact A|]. intros e. split.
  - intros E. split; [now apply B|]. intros (d & D). apply A in D. congruence.
  - intros (-> & D). destruct (parse_frontmatter uniword (text_of ls)) as [d|e] eqn:P; [exfalso; apply D; exists d; now apply A|]. now rewrite (B e eq_refl).
Qed.
(* The meaning is unique, and a mapping has every key once. *)
Theorem C85_one_meaning : forall uniword ls d d', ls <> [] -> Forall written ls -> block uniword ls d -> block uniword ls d' -> d = d'.
Proof. intros uniword ls d d' N W B B'. destruct (frontmatter_lines uniword ls N W) as (A & _). apply A in B, B'. congruence. Qed.
Theorem C85_keys : forall uniword fm m, parse_frontmatter uniword fm = Ok (DMap m) -> m <> [] /\ NoDup (map fst m) /\ forall k, In k (map fst m) -> k <> [] /\ Forall (word uniword) k.
Proof.
  intros uniword fm m H. apply (proj1 (proj1 (says_iff _ _) _)) in H. destruct H as (ls & N & W & -> & B). inversion B as [|l ls' ? _ _ M ND]; subst. split; [intros ->; inversion M|]. split; [assumption|]. clear B ND W N. induction M as [|? ? ? ? ? ? ? ? K _ _ _ _ _ IH]; [intros k []|]. intros k' [<-|I]; [exact K|now apply IH].
Qed.
(* The lines of a text given in several lines, with the indentation, are the text. *)
Theorem C85_block_text : forall uniword k bar body, k <> [] /\ Forall (word uniword) k -> bar = tx "|" \/ bar = tx ">" ->
  body <> [] -> tight body -> Forall (deeper 0) body -> Forall written body ->
  parse_frontmatter uniword (k ++ tx ": " ++ bar ++ 10%N :: text_of body) = Ok (DMap [(k, DStr (text_of body))]).
Proof.
  intros uniword k bar body K BAR NE T D W. replace (k ++ tx ": " ++ bar ++ 10%N :: text_of body) with (text_of ((0, k ++ tx ": " ++ bar) :: body)) by (rewrite text_of_cons by assumption; unfold render; cbn [fst snd repeat app]; now rewrite <- !app_assoc).
  assert (WK : forall c, In c k -> c <> 10%N /\ c <> 32%N /\ c <> 45%N) by (intros c I; destruct K as (_ & K); rewrite Forall_forall in K; specialize (K c I); unfold word in K; lia).
  assert (W1 : written (0, k ++ tx ": " ++ bar)).
  { split; cbn [snd].
    - intros I. rewrite !in_app_iff in I. destruct I as [I|[I|I]]; [apply WK in I; tauto|vm_compute in I; intuition discriminate|]. destruct BAR as [->| ->]; vm_compute in I; intuition discriminate.
    - destruct k as [|c k]; [now destruct K|]. cbn [app]. apply (WK c). now left. }
  apply (C85_frontmatter uniword ((0, k ++ tx ": " ++ bar) :: body)); [discriminate|now constructor|]. apply b_map; cbn [fst snd].
  - intros (v & V). destruct k as [|c k]; [now destruct K|]. injection V as -> _. destruct (WK 45%N) as (_ & _ & X); [now left|]. congruence.
  - now exists k, bar.
  - rewrite <- (app_nil_r body) at 1. change (k ++ tx ": " ++ bar) with (k ++ tx ":" ++ (tx " " ++ bar)). change (body ++ []) with (body ++ [] ++ []). apply me_cons; [exact K|assumption|assumption|constructor| |constructor]. apply e_text; [|assumption]. destruct BAR as [->| ->]; [left|right]; reflexivity.
  - repeat constructor. intros [].
Qed.
(* What is done with a file: for every path, file and outcome. *)
Theorem C85_outcome : forall uniword path file r, test_one uniword path file = r <-> verdict uniword path file r.
Proof. exact test_verdict. Qed.
(* A test is counted as one run if it has one of three flags, otherwise as two. *)
Theorem C85_runs : forall uniword path file ms n, test_one uniword path file = Ok (ms, Some n) ->
  exists p q m, sole opening file p /\ sole closing file q /\ says uniword (slice (p + 7) q file) (DMap m) /\
    (n = 1 /\ (flag m (tx "onlyStrict") \/ flag m (tx "noStrict") \/ flag m (tx "raw")) \/
     n = 2 /\ ~ flag m (tx "onlyStrict") /\ ~ flag m (tx "noStrict") /\ ~ flag m (tx "raw")).
Proof.
  intros uniword path file ms n H. apply test_verdict in H. inversion H as [|?|?|p q m ms' n' P Q C D K|]; subst. exists p, q, m. split; [assumption|]. split; [assumption|]. split; [assumption|]. destruct K as (_ & [(O & ->)|(O & ->)] & _).
  - left. split; [reflexivity|]. destruct O as (f & [<-|[<-|[<-|[]]]] & F); tauto.
  - right. split; [reflexivity|]. repeat split; intros F; apply O; eexists; (split; [|exact F]); unfold once_flags; cbn [In]; tauto.
Qed.
(* A file of which the copyright section or the front matter cannot be read is reported and not counted. *)
Theorem C85_not_counted : forall uniword path file ms, test_one uniword path file = Ok (ms, None) -> ms = [BadCopyright] \/ ms = [BadFrontmatter].
Proof. intros uniword path file ms H. apply test_verdict in H. inversion H; subst; auto. Qed.
Theorem C85_fails : forall uniword path file e, test_one uniword path file = Err e ->
  e = ValueError /\ (~ exists p q, sole opening file p /\ sole closing file q) \/
  e = AssertionError /\ exists p q d, sole opening file p /\ sole closing file q /\ says uniword (slice (p + 7) q file) d /\ ~ exists m, d = DMap m /\ acceptable uniword m.
Proof. intros uniword path file e H. apply test_verdict in H. inversion H as [N| | | |p q d P Q C D K]; subst; [left; now split|]. right. split; [reflexivity|]. now exists p, q, d. Qed.

(* ---------- what one would not expect ---------- *)
Definition ascii_only (c : N) : bool := false.
Fixpoint nls (l : list text) : text := match l with [] => [] | [x] => x | x :: l' => x ++ 10%N :: nls l' end.
Definition a_file (fm : list text) : text := nls ([tx "// Copyright (C) 2017"; tx "/*---"] ++ fm ++ [tx "---*/"; tx ""; tx "foo();"; tx ""]).

Example C85_file_example :
  test_one ascii_only (tx "x.js") (a_file [tx "description: a test"; tx "info: |"; tx "  Some"; tx ""; tx "    more: text"; tx "includes: [a.js, b-c.js]"; tx "negative:"; tx "  phase: parse"; tx "  type: SyntaxError"; tx "flags: [onlyStrict, foo]"; tx "features:"; tx "  - let"; tx "  - class"; tx "bar: 1"])
  = Ok ([UnexpectedKey (tx "bar"); InvalidFlag (tx "foo")], Some 1) /\
  parse_frontmatter ascii_only (nls [tx "description: a test"; tx "info: |"; tx "  Some"; tx ""; tx "    more: text"; tx ""; tx "features:"; tx "  - let"; tx "  - class"])
  = Ok (DMap [(tx "description", DStr (tx "a test")); (tx "info", DStr (tx "  Some" ++ [10; 10]%N ++ tx "    more: text")); (tx "features", DList [tx "let"; tx "class"])]) /\
  test_one ascii_only (tx "x.js") (a_file [tx "description: a test"]) = Ok ([], Some 2) /\
  test_one ascii_only (tx "x.js") (a_file [tx "description: a test"; tx "  more"]) = Ok ([BadFrontmatter], None) /\
  test_one ascii_only (tx "x.js") (10%N :: tx "x" ++ a_file [tx "description: a test"]) = Ok ([BadCopyright], None) /\
  test_one ascii_only (tx "language/comments/hashbang/x.js") (10%N :: tx "x" ++ a_file [tx "description: a test"]) = Ok ([], Some 2).
Proof. repeat split; vm_compute; reflexivity. Qed.
(* the hypotheses of the theorem on the lines, and of the one on the text in several lines *)
Example C85_lines_example :
  let ls := [(0, tx "info: |"); (2, tx "a"); (1, []); (4, tx "b: c")] in
  Forall written ls /\ block ascii_only ls (DMap [(tx "info", DStr (tx "  a" ++ [10; 32; 10]%N ++ tx "    b: c"))]) /\ tight (tl ls) /\ Forall (deeper 0) (tl ls) /\ a_key ascii_only (tx "info").
Proof.
  cbv zeta. assert (W : Forall written [(0, tx "info: |"); (2, tx "a"); (1, []); (4, tx "b: c")]) by (repeat constructor; vm_compute; intuition discriminate). split; [exact W|]. split; [destruct (C85_frontmatter ascii_only [(0, tx "info: |"); (2, tx "a"); (1, []); (4, tx "b: c")]) as (A & _); [discriminate|exact W|]; apply A; vm_compute; reflexivity|].
  split; [right; exists [(2, tx "a"); (1, [])], (4, tx "b: c"); split; [reflexivity|intros X; discriminate X]|]. split; [repeat apply Forall_cons; try apply Forall_nil; unfold deeper, blank; cbn [fst snd]; (right; lia) || (now left)|]. split; [discriminate|]. change (tx "info") with [105; 110; 102; 111]%N. repeat apply Forall_cons; try apply Forall_nil; unfold word; left; lia.
Qed.
Example C85_fails_example :
  test_one ascii_only (tx "x.js") (tx "foo();") = Err ValueError /\ test_one ascii_only (tx "x.js") (a_file [tx "esid: x"]) = Err AssertionError /\
  test_one ascii_only (tx "x.js") (a_file [tx "description: x"; tx "flags: [raw, raw]"]) = Err AssertionError /\
  test_one ascii_only (tx "x.js") (a_file [tx "description: x"; tx "flags: [raw, noStrict]"]) = Err AssertionError /\
  test_one ascii_only (tx "x.js") (a_file [tx "description: x"; tx "includes: [a]"]) = Err AssertionError.
Proof. repeat split; vm_compute; reflexivity. Qed.

(* The order of the keys matters: a first key of which the value is a block is refused. *)
Theorem C85_first_key_refuted : exists a b, parse_frontmatter ascii_only (nls (a ++ b)) = Err AssertionError /\
  parse_frontmatter ascii_only (nls (b ++ a)) = Ok (DMap [(tx "description", DStr (tx "x")); (tx "negative", DMap [(tx "phase", DStr (tx "parse")); (tx "type", DStr (tx "SyntaxError"))])]).
Proof. exists [tx "negative:"; tx "  phase: parse"; tx "  type: SyntaxError"], [tx "description: x"]. split; vm_compute; reflexivity. Qed.
(* It is so for every front matter: the first line has a colon with a space after it, or is an item of a list. *)
Theorem C85_first_key : forall uniword l ls d, ls = l :: tl ls -> block uniword ls d -> (exists v, snd l = tx "-" ++ v) \/ (exists u w, snd l = u ++ tx ": " ++ w).
Proof. intros uniword l ls d E B. inversion B; subst; injection E as; subst; [left|right]; assumption. Qed.
(* A front matter that is a list, instead of a mapping, stops the whole run, though one that cannot be read is only reported. *)
Theorem C85_list_stops_refuted : exists a b,
  test_one ascii_only (tx "x.js") (a_file a) = Err AssertionError /\ test_one ascii_only (tx "x.js") (a_file b) = Ok ([BadFrontmatter], None) /\
  parse_frontmatter ascii_only (nls a) = Ok (DList [tx "description: x"]).
Proof. exists [tx "- description: x"], [tx "description"]. repeat split; vm_compute; reflexivity. Qed.
(* The code of a module is always strict, but a test with the flag counts as two runs. *)
Theorem C85_module_refuted : test_one ascii_only (tx "x.js") (a_file [tx "description: x"; tx "flags: [module]"]) = Ok ([], Some 2).
Proof. vm_compute. reflexivity. Qed.
(* A space before the bracket or the comma becomes part of the flag, which then counts for nothing. *)
Theorem C85_space_refuted :
  test_one ascii_only (tx "x.js") (a_file [tx "description: x"; tx "flags: [onlyStrict ]"]) = Ok ([InvalidFlag (tx "onlyStrict ")], Some 2) /\
  test_one ascii_only (tx "x.js") (a_file [tx "description: x"; tx "flags: [onlyStrict , onlyStrict]"]) = Ok ([InvalidFlag (tx "onlyStrict ")], Some 1).
Proof. split; vm_compute; reflexivity. Qed.
(* A text in several lines, without any lines, is a text of one character; quotes are part of a text. *)
Theorem C85_bar_refuted :
  parse_frontmatter ascii_only (nls [tx "description: |"; tx "info: 'x'"]) = Ok (DMap [(tx "description", DStr (tx "|")); (tx "info", DStr (tx "'x'"))]).
Proof. vm_compute. reflexivity. Qed.
(* Comments, which yaml allows, are refused or become part of the text. *)
Theorem C85_comment_refuted :
  parse_frontmatter ascii_only (nls [tx "description: x"; tx "# why"]) = Err AssertionError /\
  parse_frontmatter ascii_only (nls [tx "description: x # why"]) = Ok (DMap [(tx "description", DStr (tx "x # why"))]).
Proof. split; vm_compute; reflexivity. Qed.
(* Two opening marks with one line end in common are taken as one. *)
Theorem C85_marks_refuted : exists file p, occurs opening file p /\ occurs opening file (p + 6) /\ sole opening file p /\ test_one ascii_only (tx "x.js") file = Ok ([BadFrontmatter], None).
Proof.
  exists (nls [tx ""; tx "/*---"; tx "/*---"; tx "description: x"; tx "---*/"; tx ""]), 0. split; [eexists; reflexivity|]. split; [eexists; reflexivity|].
  assert (T : test_one ascii_only (tx "x.js") (nls [tx ""; tx "/*---"; tx "/*---"; tx "description: x"; tx "---*/"; tx ""]) = Ok ([BadFrontmatter], None)) by (vm_compute; reflexivity). split; [|exact T].
  apply (sole_iff opening _ 0 7 ltac:(discriminate)). vm_compute. reflexivity.
Qed.

Print Assumptions C85_lines.
Print Assumptions C85_frontmatter.
Print Assumptions C85_one_meaning.
Print Assumptions C85_keys.
Print Assumptions C85_block_text.
Print Assumptions C85_outcome.
Print Assumptions C85_runs.
Print Assumptions C85_not_counted.
Print Assumptions C85_fails.
Print Assumptions C85_first_key.
Print Assumptions C85_first_key_refuted.
Print Assumptions C85_list_stops_refuted.
Print Assumptions C85_module_refuted.
Print Assumptions C85_space_refuted.
Print Assumptions C85_bar_refuted.
Print Assumptions C85_comment_refuted.
Print Assumptions C85_marks_refuted.
