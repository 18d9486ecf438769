(* Property C40: strict mode code. *)
From Verif Require Import M_Base L_Base M_Strict L_Strict.

(* if an answer is given, it is yes exactly if the node, or one around it (through parents and covering things), is a class or
   module body or code that begins with a directive prologue containing a Use Strict Directive *)
Theorem C40_exact : forall p b, is_strict p = Ok b -> (b = true <-> exists m, around p m /\ strict_itself m).
Proof. exact is_strict_spec. Qed.
Print Assumptions C40_exact.
(* an answer is given if there are, besides what is inherently strict, no async functions, async methods or async generators around,
   and no detached formal parameters *)
Theorem C40_answers : forall p, (forall m, around p m -> answerable m) -> exists b, is_strict p = Ok b.
Proof. exact is_strict_ok. Qed.
Print Assumptions C40_answers.
(* strictness is inherited *)
Inductive inside : place -> place -> Prop :=
| in_self p : inside p p
| in_parent n p q : inside p q -> inside (At n (Parent p)) q
| in_cover n p q : inside p q -> inside (At n (Covered_by p)) q.
Theorem C40_inherited : forall p q b, inside p q -> is_strict q = Ok true -> is_strict p = Ok b -> b = true.
Proof.
  intros p q b H Hq Hp. apply (is_strict_spec p b Hp). apply is_strict_spec in Hq. destruct Hq as [Hq _]. destruct (Hq eq_refl) as (m & Hm & Hs). exists m. split; [|exact Hs].
  clear Hp. induction H; [exact Hm|constructor; auto|constructor; auto].
Qed.
Print Assumptions C40_inherited.
(* ... but in an async function, async generator or async method there is no answer *)
Definition async_symbol (n : pnode) : Prop :=
  match symbol n with
  | AsyncFunctionDeclaration | AsyncFunctionExpression => exists l b x, children n = l ++ [b; x] /\ symbol b = AsyncFunctionBody
  | AsyncGeneratorDeclaration | AsyncGeneratorExpression => exists l b x, children n = l ++ [b; x] /\ symbol b = AsyncGeneratorBody
  | MethodDefinition => exists c, children n = [c] /\
      (symbol c = AsyncGeneratorMethod \/ (symbol c = AsyncMethod /\ exists l b x, children c = l ++ [b; x] /\ symbol b = AsyncFunctionBody))
  | AsyncArrowFunction => exists l c x b y, children n = l ++ [c] /\ symbol c = AsyncConciseBody /\ children c = [x; b; y] /\ symbol b = AsyncFunctionBody
  | _ => False
  end.
Theorem C40_async_refuted : forall n up, async_symbol n -> is_strict (At n up) = Err AssertionError.
Proof.
  intros n up H. cbn [is_strict]. enough (own_strict n = Err AssertionError) as -> by reflexivity. unfold async_symbol in H. unfold own_strict. destruct (symbol n) eqn:S; try (now destruct H); cbn; unfold function_body; rewrite S; cbn -[last1 last2].
  1-4: destruct H as (l & b & x & C & Sb); rewrite (proj2 (last2_ok (children n) b) (ex_intro _ l (ex_intro _ x C))); cbn [bind]; rewrite Sb; reflexivity.
  - destruct H as (c & -> & [Sc|(Sc & l & b & x & C & Sb)]); rewrite Sc; cbn -[last2]; [reflexivity|]. rewrite (proj2 (last2_ok (children c) b) (ex_intro _ l (ex_intro _ x C))). cbn [bind]. rewrite Sb. cbn. unfold begins_with_USD. rewrite Sb. reflexivity.
  - destruct H as (l & c & x & b & y & C & Sc & Cc & Sb). rewrite (proj2 (last1_ok (children n) c) (ex_intro _ l C)). cbn [bind]. rewrite Sc. cbn. unfold begins_with_USD. rewrite Sc, Cc. cbn. rewrite Sb. cbn. rewrite Sb. reflexivity.
Qed.
Print Assumptions C40_async_refuted.
(* nor is there for what is within: a node without strictness of its own has the fate of its parent *)
Theorem C40_within : forall n p, ~ In (symbol n) ([ModuleBody; ClassDeclaration; ClassExpression; Script] ++ function_symbols) -> is_strict (At n (Parent p)) = is_strict p.
Proof.
  intros n p H. cbn [is_strict]. unfold own_strict. destruct (pmem (symbol n) [ModuleBody; ClassDeclaration; ClassExpression]) eqn:E1; [exfalso; apply H; apply pmem_in in E1; cbn in *; tauto|].
  destruct (psym_eqb (symbol n) Script) eqn:E2; [exfalso; apply H; apply psym_eqb_eq in E2; cbn; auto|].
  destruct (pmem (symbol n) function_symbols) eqn:E3; [exfalso; apply H; apply pmem_in in E3; apply in_or_app; now right|reflexivity].
Qed.
Print Assumptions C40_within.

(* function f() { 'a'; 'use strict'; x } *)
Definition ex_lit (t : text) : pnode := PN StatementListItem [] [PN (OtherSym 0) [] [PN ExpressionStatement [] [PN (OtherSym 1) [] [PN (OtherSym 2) [] [PN StringLiteral t []]]; PN (OtherSym 3) [59%N] []]]].
Definition ex_stmt : pnode := PN StatementListItem [] [PN (OtherSym 0) [] [PN ExpressionStatement [] [PN (OtherSym 1) [] []; PN (OtherSym 3) [] []]]].
Definition ex_fn (items : list pnode) : pnode :=
  let sl := fold_left (fun acc i => PN StatementList [] (match acc with PN (OtherSym _) _ _ => [i] | _ => [acc; i] end)) items (PN (OtherSym 9) [] []) in
  PN FunctionDeclaration [] [PN (OtherSym 4) [] []; PN (OtherSym 5) [] []; PN FunctionBody [] [PN (OtherSym 6) [] [sl]]; PN (OtherSym 7) [] []].
Definition ex_use : text := [39; 117; 115; 101; 32; 115; 116; 114; 105; 99; 116; 39]%N.
Definition ex_in (f : pnode) : place := At ex_stmt (Parent (At f Root)).
Example C40_ex : is_strict (ex_in (ex_fn [ex_lit [39; 97; 39]%N; ex_lit ex_use; ex_stmt])) = Ok true /\ is_strict (ex_in (ex_fn [ex_stmt; ex_lit ex_use])) = Ok false /\
  is_strict (At ex_stmt (Covered_by (ex_in (ex_fn [ex_lit ex_use])))) = Ok true.
Proof. repeat split; reflexivity. Qed.
Example C40_ex_answers : forall m, around (ex_in (ex_fn [ex_lit ex_use])) m -> answerable m.
Proof.
  intros m H. inversion H as [|? ? ? H'|]; subst; [exact I|]. inversion H'; subst. cbn. eexists [_; _], _, _. split; [reflexivity|]. split; [now left|].
  intros sl Hc. apply unit_spec in Hc. cbn in Hc. injection Hc as <-. eapply wl_one; [reflexivity..|]. constructor; [reflexivity|]. intros es He. apply unit_spec in He. cbn in He. now injection He as <-.
Qed.
Example C40_ex_async : async_symbol (PN AsyncFunctionDeclaration [] [PN (OtherSym 4) [] []; PN AsyncFunctionBody [] []; PN (OtherSym 7) [] []]).
Proof. cbn. eexists [_], _, _. split; reflexivity. Qed.
