(* Specifications and lemmas for M_Strict. *)
From Verif Require Import M_Base L_Base M_Strict.

Lemma psym_eqb_eq a b : psym_eqb a b = true <-> a = b.
Proof. unfold psym_eqb. destruct (psym_eq_dec a b); split; congruence. Qed.
Lemma psym_eqb_neq a b : psym_eqb a b = false <-> a <> b.
Proof. unfold psym_eqb. destruct (psym_eq_dec a b); split; congruence. Qed.
Lemma pmem_in a l : pmem a l = true <-> In a l.
Proof. unfold pmem. rewrite existsb_exists. split; [intros (x & H & E); apply psym_eqb_eq in E; now subst|]. intros H. exists a. split; [exact H|now apply psym_eqb_eq]. Qed.

(* the first node with that symbol down a chain of only children *)
Inductive chain_to (s : psym) : pnode -> pnode -> Prop :=
| ct_here n : symbol n = s -> chain_to s n n
| ct_down n c r : symbol n <> s -> children n = [c] -> chain_to s c r -> chain_to s n r.
(* the items of a left-recursive list *)
Inductive spine : pnode -> list pnode -> Prop :=
| sp_one n item : children n = [item] -> spine n [item]
| sp_more n sub item items : children n = [sub; item] -> spine sub items -> spine n (items ++ [item]).
(* a string literal and a semicolon *)
Definition directive (item : pnode) (t : text) : Prop :=
  exists es e semi lit, chain_to ExpressionStatement item es /\ children es = [e; semi] /\ chain_to StringLiteral e lit /\ ptext lit = t.
(* the text of "use strict" and 'use strict' *)
Definition USD (t : text) : Prop := t = [34; 117; 115; 101; 32; 115; 116; 114; 105; 99; 116; 34]%N \/ t = [39; 117; 115; 101; 32; 115; 116; 114; 105; 99; 116; 39]%N.
(* the list of statements begins with directives of which one is a Use Strict Directive *)
Definition prologue_has_USD (items : list pnode) : Prop :=
  exists pre item post t, items = pre ++ item :: post /\ (forall x, In x pre -> exists t', directive x t') /\ directive item t /\ USD t.
Definition code_declares (n : pnode) : Prop := exists sl items, chain_to StatementList n sl /\ spine sl items /\ prologue_has_USD items.
(* the code of a function: the body at its end, in braces if not an arrow's *)
Definition code_of (n b : pnode) : Prop :=
  match symbol n with
  | ArrowFunction | AsyncArrowFunction => exists l c x y, children n = l ++ [c] /\ children c = [x; b; y]
  | MethodDefinition => (exists c l x, children n = [c] /\ children c = l ++ [b; x]) \/ (exists l x, children n = l ++ [b; x])
  | FunctionDeclaration | FunctionExpression | GeneratorDeclaration | GeneratorExpression
  | AsyncFunctionDeclaration | AsyncFunctionExpression | AsyncGeneratorDeclaration | AsyncGeneratorExpression => exists l x, children n = l ++ [b; x]
  | _ => False
  end.
Definition strict_itself (n : pnode) : Prop :=
  match symbol n with
  | ModuleBody | ClassDeclaration | ClassExpression => True
  | Script => code_declares n
  | _ => exists b, code_of n b /\ code_declares b
  end.
(* the place itself and the places around it, through parents and covering things *)
Inductive around : place -> pnode -> Prop :=
| ar_self n up : around (At n up) n
| ar_parent n p m : around p m -> around (At n (Parent p)) m
| ar_cover n p m : around p m -> around (At n (Covered_by p)) m.

Fixpoint pnode_ind' (P : pnode -> Prop) (H : forall s t cs, Forall P cs -> P (PN s t cs)) (n : pnode) : P n :=
  match n with
  | PN s t cs => H s t cs ((fix go (l : list pnode) : Forall P l := match l with [] => Forall_nil P | c :: l' => Forall_cons c (pnode_ind' P H c) (go l') end) cs)
  end.
Lemma unit_spec s n : forall r, unit_derives_a n s = Some r <-> chain_to s n r.
Proof.
  induction n as [s' t cs IH] using pnode_ind'. intros r. cbn [unit_derives_a]. destruct (psym_eqb s' s) eqn:E.
  - apply psym_eqb_eq in E. subst s'. split; [intros [= <-]; now constructor|]. intros H. inversion H; subst; [reflexivity|]. cbn in *. congruence.
  - apply psym_eqb_neq in E. destruct cs as [|c [|c' cs]].
    + split; [discriminate|]. intros H. inversion H; subst; cbn in *; [congruence|discriminate].
    + apply Forall_inv in IH. rewrite IH. split; [intros H; apply ct_down with c; auto|]. intros H. inversion H as [? Q|? c0 ? Q1 Q2 Q3]; subst; cbn in *; [congruence|]. now injection Q2 as ->.
    + split; [discriminate|]. intros H. inversion H; subst; cbn in *; [congruence|discriminate].
Qed.
Lemma unit_none s n : unit_derives_a n s = None -> forall r, ~ chain_to s n r.
Proof. intros H r Q. apply unit_spec in Q. congruence. Qed.
Lemma chain_fun s n r r' : chain_to s n r -> chain_to s n r' -> r = r'.
Proof. rewrite <- !unit_spec. congruence. Qed.
Lemma items_spine n : forall items, each_item_in_left_recursive_list n = Ok items -> spine n items.
Proof.
  induction n as [s t cs IH] using pnode_ind'. intros items. cbn [each_item_in_left_recursive_list]. intros H. apply bind_ok in H as (u & _ & H). destruct cs as [|a [|b [|c cs]]]; try discriminate.
  - apply bind_ok in H as (u' & _ & [= <-]). now apply sp_one.
  - apply bind_ok in H as (u' & _ & H). apply bind_ok in H as (u2 & _ & H). apply bind_ok in H as (r & E & [= <-]). apply Forall_inv in IH. eapply sp_more; [reflexivity|]. now apply IH.
Qed.
Lemma spine_fun n : forall a b, spine n a -> spine n b -> a = b.
Proof.
  induction n as [s t cs IH] using pnode_ind'. intros a b Ha Hb. inversion Ha as [? i1 E1|? s1 i1 l1 E1 S1]; inversion Hb as [? i2 E2|? s2 i2 l2 E2 S2]; subst; cbn in *; subst cs; try discriminate.
  - congruence.
  - injection E2 as <- <-. apply Forall_inv in IH. now rewrite (IH l1 l2 S1 S2).
Qed.
Lemma directive_spec item r : directive_literal item = Ok r ->
  match r with Some lit => directive item (ptext lit) | None => forall t, ~ directive item t end /\
  forall t, directive item t -> exists lit, r = Some lit /\ ptext lit = t.
Proof.
  unfold directive_literal. intros H. apply bind_ok in H as (u & _ & H). destruct (unit_derives_a item ExpressionStatement) as [es|] eqn:E.
  - apply unit_spec in E. destruct (children es) as [|e [|semi [|]]] eqn:C; try discriminate. injection H as <-.
    assert (K : forall t, directive item t -> exists lit, unit_derives_a e StringLiteral = Some lit /\ ptext lit = t).
    { intros t (es' & e' & semi' & lit & H1 & H2 & H3 & H4). rewrite (chain_fun _ _ _ _ H1 E) in H2. rewrite C in H2. injection H2 as <- <-. exists lit. split; [now apply unit_spec|exact H4]. }
    split; [|exact K]. destruct (unit_derives_a e StringLiteral) as [lit|] eqn:E'.
    + apply unit_spec in E'. exists es, e, semi, lit. auto.
    + intros t Q. apply K in Q as (lit & Q & _). discriminate.
  - injection H as <-. assert (K : forall t, ~ directive item t) by (intros t (es & e & semi & lit & H1 & _); exact (unit_none _ _ E es H1)). split; [exact K|]. intros t Q. destruct (K t Q).
Qed.
Lemma directive_fun item t t' : directive item t -> directive item t' -> t = t'.
Proof.
  intros (es & e & s & l & H1 & H2 & H3 & H4) (es' & e' & s' & l' & H1' & H2' & H3' & H4'). rewrite (chain_fun _ _ _ _ H1' H1) in H2'. rewrite H2 in H2'. injection H2' as <- <-. rewrite (chain_fun _ _ _ _ H3' H3) in H4'. congruence.
Qed.
Lemma USD_test t : text_eqb t (use_strict 34) || text_eqb t (use_strict 39) = true <-> USD t.
Proof. rewrite orb_true_iff, !text_eqb_eq. reflexivity. Qed.
Lemma look_spec items : forall b, look_for_USD items = Ok b -> b = true <-> prologue_has_USD items.
Proof.
  induction items as [|item items IH]; intros b; cbn [look_for_USD].
  - intros [= <-]. split; [discriminate|]. intros (pre & x & post & t & E & _). destruct pre; discriminate.
  - intros H. apply bind_ok in H as (u & _ & H). apply bind_ok in H as (l & El & H). destruct (directive_spec item l El) as [D1 D2]. destruct l as [lit|].
    + destruct (text_eqb (ptext lit) (use_strict 34) || text_eqb (ptext lit) (use_strict 39)) eqn:U.
      * injection H as <-. split; [|reflexivity]. intros _. exists [], item, items, (ptext lit). split; [reflexivity|]. split; [intros x []|]. split; [exact D1|now apply USD_test].
      * rewrite (IH b H). split.
        -- intros (pre & x & post & t & -> & H1 & H2 & H3). exists (item :: pre), x, post, t. split; [reflexivity|]. split; [|auto]. intros y [<-|Hy]; eauto.
        -- intros ([|y pre] & x & post & t & E & H1 & H2 & H3); injection E as -> E.
           ++ exfalso. rewrite <- (directive_fun _ _ _ D1 H2) in H3. apply USD_test in H3. congruence.
           ++ exists pre, x, post, t. split; [exact E|]. split; [intros z Hz; apply H1; now right|auto].
    + injection H as <-. split; [discriminate|]. intros ([|y pre] & x & post & t & E & H1 & H2 & H3); injection E as -> E.
      * destruct (D1 t H2).
      * destruct (H1 y (or_introl eq_refl)) as (t' & Q). destruct (D1 t' Q).
Qed.
Lemma code_spec n b : match unit_derives_a n StatementList with None => Ok false | Some sl => do items <- each_item_in_left_recursive_list sl ;; look_for_USD items end = Ok b -> b = true <-> code_declares n.
Proof.
  destruct (unit_derives_a n StatementList) as [sl|] eqn:E.
  - intros H. apply bind_ok in H as (items & Ei & H). rewrite (look_spec items b H). apply unit_spec in E. apply items_spine in Ei. split.
    + intros Q. exists sl, items. auto.
    + intros (sl' & items' & H1 & H2 & H3). rewrite (chain_fun _ _ _ _ H1 E) in H2. now rewrite (spine_fun _ _ _ H2 Ei) in H3.
  - intros [= <-]. split; [discriminate|]. intros (sl & items & H1 & _). destruct (unit_none _ _ E sl H1).
Qed.
Lemma bind_assert {A} b (k : res A) x : (do _ <- assert_ b ;; k) = Ok x -> b = true /\ k = Ok x.
Proof. destruct b; cbn; [auto|discriminate]. Qed.
(* what begins_with_USD answers *)
Lemma begins_spec n b : begins_with_USD n = Ok b ->
  match symbol n with
  | Script | FunctionBody | GeneratorBody => b = true <-> code_declares n
  | ConciseBody | AsyncConciseBody => b = true <-> exists x m y, children n = [x; m; y] /\ code_declares m
  | _ => False
  end.
Proof.
  unfold begins_with_USD. intros H. apply bind_assert in H as [H1 H]. apply bind_assert in H as [H2 H]. apply bind_ok in H as (o & Eo & H).
  destruct (symbol n) eqn:S; try discriminate H1; try discriminate H2; cbn in Eo.
  1,4,5: injection Eo as <-; apply bind_assert in H as [_ H]; exact (code_spec n b H).
  1,2: destruct (children n) as [|x [|m [|y [|]]]] eqn:C; try discriminate Eo;
    [apply bind_assert in Eo as [_ [= <-]]; injection H as <-; split; [discriminate|]; intros (? & ? & ? & Q & _); discriminate
    |apply bind_assert in Eo as [_ [= <-]]; apply bind_assert in H as [_ H]; rewrite (code_spec m b H); split; [intros Q; exists x, m, y; auto|intros (? & ? & ? & Q & Q'); now injection Q as <- <- <-]].
Qed.
Lemma last1_ok {A} (l : list A) x : last1 l = Ok x <-> exists l', l = l' ++ [x].
Proof.
  unfold last1. split.
  - destruct (rev l) as [|y r] eqn:E; [discriminate|]. intros [= ->]. exists (rev r). rewrite <- (rev_involutive l), E. reflexivity.
  - intros (l' & ->). now rewrite rev_app_distr.
Qed.
Lemma last2_ok {A} (l : list A) x : last2 l = Ok x <-> exists l' y, l = l' ++ [x; y].
Proof.
  unfold last2. split.
  - destruct (rev l) as [|y [|z r]] eqn:E; try discriminate. intros [= ->]. exists (rev r), y. rewrite <- (rev_involutive l), E. cbn. now rewrite <- app_assoc.
  - intros (l' & y & ->). now rewrite rev_app_distr.
Qed.
Lemma app_two {A} (l l' : list A) x y x' y' : l ++ [x; y] = l' ++ [x'; y'] -> x = x'.
Proof. intros H. apply (f_equal (@rev A)) in H. rewrite !rev_app_distr in H. cbn in H. congruence. Qed.
Lemma app_one {A} (l l' : list A) x x' : l ++ [x] = l' ++ [x'] -> x = x'.
Proof. intros H. apply (f_equal (@rev A)) in H. rewrite !rev_app_distr in H. cbn in H. congruence. Qed.
Lemma own_spec n b : own_strict n = Ok b -> b = true <-> strict_itself n.
Proof.
  unfold own_strict. destruct (pmem (symbol n) [ModuleBody; ClassDeclaration; ClassExpression]) eqn:E1.
  { intros [= <-]. split; [|reflexivity]. intros _. unfold strict_itself. destruct (symbol n); cbn in E1; try discriminate; exact I. }
  destruct (psym_eqb (symbol n) Script) eqn:E2.
  { intros H. apply begins_spec in H. apply psym_eqb_eq in E2. unfold strict_itself. rewrite E2 in *. exact H. }
  assert (K : (exists b, code_of n b /\ code_declares b) <-> strict_itself n).
  { unfold strict_itself. apply psym_eqb_neq in E2. destruct (symbol n); cbn in E1; try discriminate; try reflexivity. congruence. }
  rewrite <- K. clear K. destruct (pmem (symbol n) function_symbols) eqn:E3.
  - intros H. apply bind_ok in H as (body & Eb & H). unfold function_body in Eb. unfold code_of.
    assert (PLAIN : (do body <- last2 (children n) ;; do _ <- assert_ (pmem (symbol body) [FunctionBody; GeneratorBody]) ;; Ok body) = Ok body -> b = true <-> exists b, (exists l x, children n = l ++ [b; x]) /\ code_declares b).
    { intros Q. apply bind_ok in Q as (body' & Q1 & Q). apply bind_assert in Q as [Q2 [= ->]]. apply last2_ok in Q1 as (l & x & Q1). apply begins_spec in H.
      assert (H' : b = true <-> code_declares body) by (destruct (symbol body); cbn in Q2; try discriminate; exact H).
      rewrite H'. split; [intros D; exists body; eauto|]. intros (b' & (l' & x' & Q') & D). rewrite Q1 in Q'. now rewrite (app_two _ _ _ _ _ _ Q'). }
    assert (ARROW : (do body <- last1 (children n) ;; do _ <- assert_ (pmem (symbol body) [ConciseBody; AsyncConciseBody]) ;; Ok body) = Ok body ->
                    b = true <-> exists b, (exists l c x y, children n = l ++ [c] /\ children c = [x; b; y]) /\ code_declares b).
    { intros Q. apply bind_ok in Q as (body' & Q1 & Q). apply bind_assert in Q as [Q2 [= ->]]. apply last1_ok in Q1 as (l & Q1). apply begins_spec in H.
      assert (H' : b = true <-> exists x m y, children body = [x; m; y] /\ code_declares m) by (destruct (symbol body); cbn in Q2; try discriminate; exact H).
      rewrite H'. split; [intros (x & m & y & C & D); exists m; split; [exists l, body, x, y; auto|exact D]|].
      intros (m & (l' & c & x & y & C1 & C2) & D). rewrite Q1 in C1. apply app_one in C1. subst c. exists x, m, y. auto. }
    destruct (symbol n) eqn:S; cbn in E3; try discriminate; cbn in Eb; try (exact (PLAIN Eb)); try (exact (ARROW Eb)).
    (* MethodDefinition *)
    destruct (children n) as [|c [|c' cs]] eqn:C; [discriminate| |].
    + apply bind_assert in Eb as [_ Eb]. apply bind_ok in Eb as (body' & Q1 & Q). apply bind_assert in Q as [Q2 [= ->]]. apply last2_ok in Q1 as (l & x & Q1). apply begins_spec in H.
      assert (H' : b = true <-> code_declares body) by (destruct (symbol body); cbn in Q2; try discriminate; (exact H || destruct H)).
      rewrite H'. split; [intros D; exists body; split; [left; exists c, l, x; auto|exact D]|].
      intros (b' & [(c0 & l' & x' & [= <-] & Q')|(l' & x' & Q')] & D); [rewrite Q1 in Q'; now rewrite (app_two _ _ _ _ _ _ Q')|].
      exfalso. apply (f_equal (@length _)) in Q'. rewrite app_length in Q'. cbn in Q'. lia.
    + apply bind_ok in Eb as (body' & Q1 & Q). apply bind_assert in Q as [Q2 [= ->]]. apply last2_ok in Q1 as (l & x & Q1). apply begins_spec in H. apply psym_eqb_eq in Q2. rewrite Q2 in H.
      rewrite H. split; [intros D; exists body; split; [right; eauto|exact D]|]. intros (b' & [(c0 & l' & x' & Q' & _)|(l' & x' & Q')] & D); [discriminate|]. rewrite Q1 in Q'. now rewrite (app_two _ _ _ _ _ _ Q').
  - intros [= <-]. split; [discriminate|]. intros (b & Q & _). unfold code_of in Q. destruct (symbol n); cbn in E3; try discriminate; destruct Q.
Qed.

Fixpoint is_strict_spec (p : place) : forall b, is_strict p = Ok b -> b = true <-> exists m, around p m /\ strict_itself m.
Proof.
  destruct p as [n up]. intros b. cbn [is_strict]. intros H. apply bind_ok in H as (o & Eo & H). apply own_spec in Eo. destruct o.
  - injection H as <-. split; [|reflexivity]. intros _. exists n. split; [constructor|now apply Eo].
  - assert (NS : ~ strict_itself n) by (intros Q; apply Eo in Q; discriminate). destruct up as [|p|p].
    + apply bind_assert in H as [_ [= <-]]. split; [discriminate|]. intros (m & Q1 & Q2). inversion Q1; subst. contradiction.
    + apply bind_assert in H as [_ H]. apply is_strict_spec in H. rewrite H. split; [intros (m & Q1 & Q2); exists m; split; [now constructor|exact Q2]|]. intros (m & Q1 & Q2). inversion Q1; subst; [contradiction|eauto].
    + apply is_strict_spec in H. rewrite H. split; [intros (m & Q1 & Q2); exists m; split; [now constructor|exact Q2]|]. intros (m & Q1 & Q2). inversion Q1; subst; [contradiction|eauto].
Qed.

(* a statement list as the ECMAScript grammar has it, each expression statement an expression and a semicolon *)
Inductive well_listed : pnode -> Prop :=
| wl_one n item : ends_List (symbol n) = true -> children n = [item] -> well_item item -> well_listed n
| wl_more n sub item : ends_List (symbol n) = true -> children n = [sub; item] -> well_listed sub -> well_item item -> well_listed n
with well_item : pnode -> Prop :=
| wi item : symbol item = StatementListItem -> (forall es, chain_to ExpressionStatement item es -> length (children es) = 2) -> well_item item.
Definition well_coded (n : pnode) : Prop := forall sl, chain_to StatementList n sl -> well_listed sl.
Definition answerable (n : pnode) : Prop :=
  match symbol n with
  | Script => well_coded n
  | FunctionDeclaration | FunctionExpression | GeneratorDeclaration | GeneratorExpression =>
    exists l b x, children n = l ++ [b; x] /\ (symbol b = FunctionBody \/ symbol b = GeneratorBody) /\ well_coded b
  | MethodDefinition =>
    (exists c l b x, children n = [c] /\ symbol c = GeneratorMethod /\ children c = l ++ [b; x] /\ symbol b = GeneratorBody /\ well_coded b) \/
    (exists l b x, children n = l ++ [b; x] /\ symbol b = FunctionBody /\ well_coded b)
  | ArrowFunction | AsyncArrowFunction =>
    exists l c, children n = l ++ [c] /\ (symbol c = ConciseBody \/ symbol c = AsyncConciseBody) /\
      ((exists e, children c = [e] /\ symbol e = ExpressionBody) \/ (exists x b y, children c = [x; b; y] /\ symbol b = FunctionBody /\ well_coded b))
  | AsyncFunctionDeclaration | AsyncFunctionExpression | AsyncGeneratorDeclaration | AsyncGeneratorExpression => False
  | FormalParameters | UniqueFormalParameters => False
  | _ => True
  end.
Lemma ends_List_of_listed n : well_listed n -> ends_List (symbol n) = true.
Proof. intros H. now inversion H. Qed.
Lemma item_ok i : well_item i -> symbol i = StatementListItem.
Proof. intros H. now inversion H. Qed.
Lemma listed_items n : well_listed n -> exists items, each_item_in_left_recursive_list n = Ok items /\ forall i, In i items -> well_item i.
Proof.
  induction n as [s t cs IH] using pnode_ind'. intros H. cbn [each_item_in_left_recursive_list]. inversion H as [? item E C W|? sub item E C L W]; subst; cbn in E, C; subst cs; rewrite E; cbn [assert_ bind].
  - rewrite (item_ok _ W). exists [item]. split; [reflexivity|]. now intros i [<-|[]].
  - rewrite (ends_List_of_listed _ L), (item_ok _ W). cbn [assert_ bind ends_Item]. apply Forall_inv in IH. destruct (IH L) as (items & -> & HI). cbn [bind]. exists (items ++ [item]). split; [reflexivity|].
    intros i Hi. apply in_app_or in Hi as [Hi|[<-|[]]]; auto.
Qed.
Lemma look_ok items : (forall i, In i items -> well_item i) -> exists b, look_for_USD items = Ok b.
Proof.
  induction items as [|i items IH]; intros H; cbn [look_for_USD]; [eauto|]. pose proof (H i (or_introl eq_refl)) as W. inversion W as [? S E]; subst. rewrite S. cbn [assert_ bind psym_eqb psym_eq_dec].
  replace (psym_eqb StatementListItem StatementListItem) with true by reflexivity. cbn [assert_ bind]. unfold directive_literal. rewrite S. replace (pmem StatementListItem [StatementListItem; ModuleItem]) with true by reflexivity. cbn [assert_ bind].
  destruct (unit_derives_a i ExpressionStatement) as [es|] eqn:U; cbn [bind]; [|eauto]. apply unit_spec, E in U. destruct (children es) as [|e [|semi [|]]]; try discriminate U. cbn [bind].
  destruct (unit_derives_a e StringLiteral); [|eauto]. destruct (_ || _); [eauto|]. apply IH. intros j Hj. apply H. now right.
Qed.
Lemma code_ok n : well_coded n -> exists b, match unit_derives_a n StatementList with None => Ok false | Some sl => do items <- each_item_in_left_recursive_list sl ;; look_for_USD items end = Ok b.
Proof.
  intros H. destruct (unit_derives_a n StatementList) as [sl|] eqn:E; [|eauto]. apply unit_spec, H in E. destruct (listed_items sl E) as (items & -> & W). cbn [bind]. now apply look_ok.
Qed.
Lemma begins_plain n : In (symbol n) [Script; FunctionBody; GeneratorBody] -> well_coded n -> exists b, begins_with_USD n = Ok b.
Proof.
  intros H W. unfold begins_with_USD. destruct (code_ok n W) as (b & E). exists b. destruct H as [S|[S|[S|[]]]]; rewrite <- S; cbn; rewrite <- S; cbn; exact E.
Qed.
Lemma own_ok n : answerable n -> exists b, own_strict n = Ok b.
Proof.
  unfold answerable, own_strict. intros A. destruct (symbol n) eqn:S; cbn; try (now eauto); try (now destruct A).
  1: apply begins_plain; [rewrite S; cbn; auto|exact A].
  1,2,3,4: destruct A as (l & b & x & C & B & W); unfold function_body; rewrite S; cbn -[last2]; rewrite (proj2 (last2_ok (children n) b) (ex_intro _ l (ex_intro _ x C))); cbn [bind];
      destruct B as [B|B]; rewrite B; cbn [pmem existsb psym_eqb psym_eq_dec assert_ bind]; cbn; apply begins_plain; try exact W; rewrite B; cbn; auto.
  - destruct A as [(c & l & b & x & C & Sc & C' & B & W)|(l & b & x & C & B & W)]; unfold function_body; rewrite S; cbn -[last2].
    + rewrite C, Sc. cbn -[last2]. rewrite (proj2 (last2_ok (children c) b) (ex_intro _ l (ex_intro _ x C'))). cbn [bind]. rewrite B. cbn. apply begins_plain; [rewrite B; cbn; auto|exact W].
    + assert (E : last2 (children n) = Ok b) by (apply last2_ok; eauto). destruct (children n) as [|c [|c' cs]] eqn:Q; [discriminate|discriminate|]. rewrite E. cbn [bind]. rewrite B. cbn. apply begins_plain; [rewrite B; cbn; auto|exact W].
  - destruct A as (l & c & C & B & W). unfold function_body. rewrite S. cbn -[last1]. rewrite (proj2 (last1_ok (children n) c) (ex_intro _ l C)). cbn [bind].
    assert (E : exists b, begins_with_USD c = Ok b).
    { unfold begins_with_USD. destruct W as [(e & Ce & Se)|(x & b & y & Cc & Sb & W)].
      - rewrite Ce. destruct B as [B|B]; rewrite B; cbn; rewrite Se; cbn; eauto.
      - rewrite Cc. destruct (code_ok b W) as (r & E). exists r. destruct B as [B|B]; rewrite B; cbn; rewrite Sb; cbn; rewrite Sb; cbn; exact E. }
    destruct B as [B|B]; rewrite B; cbn; exact E.
  - destruct A as (l & c & C & B & W). unfold function_body. rewrite S. cbn -[last1]. rewrite (proj2 (last1_ok (children n) c) (ex_intro _ l C)). cbn [bind].
    assert (E : exists b, begins_with_USD c = Ok b).
    { unfold begins_with_USD. destruct W as [(e & Ce & Se)|(x & b & y & Cc & Sb & W)].
      - rewrite Ce. destruct B as [B|B]; rewrite B; cbn; rewrite Se; cbn; eauto.
      - rewrite Cc. destruct (code_ok b W) as (r & E). exists r. destruct B as [B|B]; rewrite B; cbn; rewrite Sb; cbn; rewrite Sb; cbn; exact E. }
    destruct B as [B|B]; rewrite B; cbn; exact E.
Qed.
Lemma not_params n : answerable n -> pmem (symbol n) [FormalParameters; UniqueFormalParameters] = false.
Proof. unfold answerable. destruct (symbol n); intros A; try reflexivity; destruct A. Qed.
Fixpoint is_strict_ok (p : place) : (forall m, around p m -> answerable m) -> exists b, is_strict p = Ok b.
Proof.
  destruct p as [n up]. intros H. cbn [is_strict]. assert (A : answerable n) by (apply H; constructor). destruct (own_ok n A) as ([|] & ->); cbn [bind]; [eauto|].
  destruct up as [|p|p].
  - rewrite (not_params n A). cbn. eauto.
  - rewrite (not_params n A). cbn [negb assert_ bind]. apply is_strict_ok. intros m Hm. apply H. now constructor.
  - apply is_strict_ok. intros m Hm. apply H. now constructor.
Qed.
