(* References to the symbols of a production (C64): specification and lemmas. *)
From Coq Require Import Ascii String.
From Verif Require Import M_Base M_Dict M_HTML M_PNode M_Focus L_Base L_PNode.
Open Scope list_scope.

(* ---- specification ---- *)

(* a child that is an instance of symbol x, or of the optional symbol x?, and the node of x, if there is one *)
Inductive stands_for (c : pnode) (x : text) : ref -> Prop :=
| sf_plain : sym c = Some x -> stands_for c x (Node c)
| sf_present d : sym c = Some (x ++ tx "?") -> kids c = [d] -> stands_for c x (Node d)
| sf_absent : sym c = Some (x ++ tx "?") -> kids c = [] -> stands_for c x Absent.
(* the occurrences of x among the children, from left to right *)
Inductive occurrences (x : text) : list pnode -> list ref -> Prop :=
| occ_end : occurrences x [] []
| occ_other c cs rs : (forall r, ~ stands_for c x r) -> occurrences x cs rs -> occurrences x (c :: cs) rs
| occ_this c cs r rs : stands_for c x r -> occurrences x cs rs -> occurrences x (c :: cs) (r :: rs).

(* nt: the names of nonterminals. A node as the parser makes it: the child for an optional symbol x? is called "x?" and has no child or one, called x
   unless x is a terminal *)
Definition child_ok (nt : text -> Prop) (c : pnode) : Prop :=
  is_terminal c = true
  \/ (exists x, sym c = Some x /\ nt x)
  \/ (exists x, sym c = Some (x ++ tx "?") /\ ((nt x /\ (kids c = [] \/ exists d, kids c = [d] /\ sym d = Some x)) \/ (~ nt x /\ length (kids c) <= 1))).
Definition regular (nt : text -> Prop) (n : pnode) : Prop := (exists s, sym n = Some s /\ nt s) /\ Forall (child_ok nt) (kids n).
(* names of nonterminals do not end with a question mark *)
Definition names_ok (nt : text -> Prop) : Prop := forall x, nt x -> forall y, x <> y ++ tx "?".

(* productions X : ... X ... for which "X" is taken to mean the left-hand side *)
Definition means_lhs (n : pnode) : Prop :=
  production n (tx "IdentifierName", tx "IdentifierName IdentifierPart", []) \/ production n (tx "UnaryExpression", tx "`delete` UnaryExpression", []).
(* ... and those for which it is taken to mean the right-hand side: lists that start with a shorter list, strings that end with a shorter one *)
Definition list_like : list (string * string) := [
  ("BindingPropertyList", " `,` BindingProperty"); ("ClassElementList", " ClassElement"); ("FormalParameterList", " `,` FormalParameter");
  ("StatementList", " StatementListItem"); ("ImportsList", " `,` ImportSpecifier"); ("ModuleItemList", " ModuleItem"); ("BindingList", " `,` LexicalBinding");
  ("BindingElementList", " `,` BindingElisionElement"); ("MemberExpression", " `.` IdentifierName"); ("ExportsList", " `,` ExportSpecifier");
  ("HexDigits", " HexDigit"); ("CaseClauses", " CaseClause"); ("VariableDeclarationList", " `,` VariableDeclaration"); ("CallExpression", " `.` IdentifierName");
  ("TemplateMiddleList", " TemplateMiddle Expression"); ("PropertyDefinitionList", " `,` PropertyDefinition"); ("DecimalDigits", " DecimalDigit");
  ("LegacyOctalIntegerLiteral", " OctalDigit") ]%string.
Definition string_like : list string := ["DoubleString"; "SingleString"; "Template"]%string.
Definition means_rhs (n : pnode) : Prop :=
  (exists x rest, In (x, rest) list_like /\ production n (tx x, tx (x ++ rest), []))
  \/ (exists x, In x string_like /\ production n (tx (x ++ "Characters"), tx (x ++ "Character " ++ x ++ "Characters?"), [1])).

(* what a reference to name with an ordinal means at node n *)
Inductive refers (n : pnode) (name : text) : ordinal -> ref -> Prop :=
| ref_nowhere o : sym n <> Some name -> occurrences name (kids n) [] -> refers n name o Absent
| ref_lhs : sym n = Some name -> occurrences name (kids n) [] -> refers n name NoOrdinal (Node n)
| ref_only r : sym n <> Some name -> occurrences name (kids n) [r] -> refers n name NoOrdinal r
| ref_nth rs k r : sym n <> Some name -> occurrences name (kids n) rs -> 2 <= length rs -> nth_error rs k = Some r -> refers n name (Nth (S k)) r
| ref_derived r : sym n = Some name -> occurrences name (kids n) [r] -> refers n name Derived r
| ref_guess_lhs r : sym n = Some name -> occurrences name (kids n) [r] -> means_lhs n -> refers n name NoOrdinal (Node n)
| ref_guess_rhs r : sym n = Some name -> occurrences name (kids n) [r] -> means_rhs n -> refers n name NoOrdinal r.

(* a node fits a production as written at a definition: there, an optional symbol may be kept, or be written as present, or be left out; e: the
   names of those left out *)
Inductive fits (nt : text -> Prop) : list ritem -> list pnode -> list text -> Prop :=
| fit_end : fits nt [] [] []
| fit_nothing is cs e : fits nt is cs e -> fits nt (Other :: is) cs e
| fit_terminal is c cs e : is_terminal c = true -> fits nt is cs e -> fits nt is (c :: cs) e
| fit_optional_terminal x is c cs e : sym c = Some (x ++ tx "?") -> ~ nt x -> length (kids c) <= 1 -> fits nt is cs e -> fits nt is (c :: cs) e
| fit_nonterminal x is c cs e : nt x -> sym c = Some x -> fits nt is cs e -> fits nt (GNT x :: is) (c :: cs) e
| fit_written_as_present x is c cs d e : nt x -> sym c = Some (x ++ tx "?") -> kids c = [d] -> sym d = Some x -> fits nt is cs e -> fits nt (GNT x :: is) (c :: cs) e
| fit_optional_present x is c cs d e : nt x -> sym c = Some (x ++ tx "?") -> kids c = [d] -> sym d = Some x -> fits nt is cs e -> fits nt (QM x :: is) (c :: cs) e
| fit_optional_absent x is c cs e : nt x -> sym c = Some (x ++ tx "?") -> kids c = [] -> fits nt is cs e -> fits nt (QM x :: is) (c :: cs) e
| fit_left_out x is c cs e : nt x -> sym c = Some (x ++ tx "?") -> kids c = [] -> fits nt is cs e -> fits nt is (c :: cs) (x :: e).
Definition instance (nt : text -> Prop) (n : pnode) (lhs : text) (rhs : list ritem) (e : list text) : Prop := nt lhs /\ sym n = Some lhs /\ fits nt rhs (kids n) e.

(* which occurrence of name in production lhs : rhs a reference with this prefix is for *)
Definition designates (p : prefix) (n : pnode) (name : text) (r : ref) : Prop :=
  match p with
  | This => sym n = Some name /\ r = Node n
  | Plain => (sym n = Some name /\ occurrences name (kids n) [] /\ r = Node n) \/ (sym n <> Some name /\ (occurrences name (kids n) [r] \/ (occurrences name (kids n) [] /\ r = Absent)))
  | TheDerived => sym n = Some name /\ occurrences name (kids n) [r]
  | TheNth k => sym n <> Some name /\ exists rs, occurrences name (kids n) rs /\ 1 <= k /\ nth_error rs (k - 1) = Some r
  end.
(* number of occurrences of name among items *)
Fixpoint mentions (name : text) (is : list ritem) : nat :=
  match is with
  | [] => 0
  | GNT x :: is' | QM x :: is' => (if list_eq_dec N.eq_dec x name then 1 else 0) + mentions name is'
  | Other :: is' => mentions name is'
  end.
(* the k-th mention (from 1) is optional *)
Definition optional_mention (name : text) (k : nat) (is : list ritem) : Prop := exists l1 l2, is = l1 ++ QM name :: l2 /\ S (mentions name l1) = k.
(* according to production lhs : rhs, the reference may be for something absent *)
Definition may_be_absent (p : prefix) (name lhs : text) (rhs : list ritem) : Prop :=
  match p with
  | This => False
  | Plain => (lhs <> name /\ mentions name rhs = 0) \/ exists k, optional_mention name k rhs
  | TheDerived => exists k, optional_mention name k rhs
  | TheNth k => optional_mention name k rhs
  end.
(* the form of a reference is right for the production *)
Definition proper (p : prefix) (name lhs : text) (rhs : list ritem) : Prop :=
  match p with
  | This => lhs = name
  | Plain => True
  | TheDerived => lhs = name /\ mentions name rhs = 1
  | TheNth k => lhs <> name /\ 1 <= k <= mentions name rhs
  end.
(* how often a plain reference could be meant *)
Definition meanings (name lhs : text) (rhs : list ritem) : nat := (if list_eq_dec N.eq_dec lhs name then 1 else 0) + mentions name rhs.

(* ---- the map ---- *)

Lemma key_eqb_eq a b : key_eqb a b = true <-> a = b.
Proof. destruct a, b; cbn; try (split; congruence). rewrite text_eqb_eq. split; congruence. Qed.
Lemma key_eqb_refl a : key_eqb a a = true. Proof. now apply key_eqb_eq. Qed.
Lemma fget_fappend m k r k' : fget (fappend m k r) k' = if key_eqb k k' then Some (match fget m k with Some v => v | None => [] end ++ [r]) else fget m k'.
Proof.
  induction m as [|[a v] m IH]; cbn [fappend fget]; [reflexivity|].
  destruct (key_eqb a k) eqn:E; cbn [fget].
  - apply key_eqb_eq in E as ->. destruct (key_eqb k k'); reflexivity.
  - rewrite IH. destruct (key_eqb k k') eqn:E'; [|reflexivity]. apply key_eqb_eq in E' as ->. now rewrite E.
Qed.
(* the referents for a key among nodes *)
Fixpoint under (k : option text) (cs : list pnode) : list ref :=
  match cs with
  | [] => []
  | c :: cs' => match ref_of c with Ok (k', r) => if key_eqb k' k then r :: under k cs' else under k cs' | Err _ => under k cs' end
  end.
Definition joined (o : option (list ref)) (l : list ref) : option (list ref) := match o, l with None, [] => None | None, _ => Some l | Some v, _ => Some (v ++ l) end.
Lemma add_refs_get cs : forall m m', add_refs m cs = Ok m' -> forall k, fget m' k = joined (fget m k) (under k cs).
Proof.
  induction cs as [|c cs IH]; intros m m' E k; cbn [add_refs under] in *.
  - inversion E; subst. destruct (fget m' k); cbn; [now rewrite app_nil_r|reflexivity].
  - destruct (ref_of c) as [[k' r]|] eqn:Er; cbn [bind] in E; [|discriminate]. rewrite (IH _ _ E k), fget_fappend.
    destruct (key_eqb k' k) eqn:Ek; [|reflexivity]. apply key_eqb_eq in Ek as ->. destruct (fget m k) as [v|]; cbn; [now rewrite <- app_assoc|reflexivity].
Qed.
Lemma add_refs_ok cs : Forall (fun c => exists k r, ref_of c = Ok (k, r)) cs -> forall m, exists m', add_refs m cs = Ok m'.
Proof.
  induction 1 as [|c cs (k & r & E) F IH]; intros m; cbn; [eauto|]. rewrite E. cbn. apply IH.
Qed.

(* ---- names ---- *)

Lemma tx_q : tx "?" = [63%N]. Proof. reflexivity. Qed.
Lemma ends_q_app x : ends_q (x ++ tx "?") = true.
Proof. unfold ends_q. rewrite rev_app_distr. reflexivity. Qed.
Lemma ends_q_split s : ends_q s = true -> s = removelast s ++ tx "?".
Proof.
  unfold ends_q. destruct s as [|c s] using rev_ind; [discriminate|]. rewrite rev_app_distr. cbn. intros E. apply N.eqb_eq in E as ->. now rewrite removelast_last.
Qed.
Lemma ends_q_false s : ends_q s = false <-> forall y, s <> y ++ tx "?".
Proof.
  split; [intros E y ->; rewrite ends_q_app in E; discriminate|]. intros H. destruct (ends_q s) eqn:E; [|reflexivity]. apply ends_q_split in E. now apply H in E.
Qed.
Lemma nt_ends nt x : names_ok nt -> nt x -> ends_q x = false. Proof. intros H N. apply ends_q_false. exact (H x N). Qed.
Lemma q_inj (x y : text) : x ++ tx "?" = y ++ tx "?" -> x = y. Proof. apply app_inv_tail. Qed.

(* ---- one child ---- *)

Lemma ref_of_terminal c : is_terminal c = true -> ref_of c = Ok (None, Node c).
Proof. unfold is_terminal, ref_of. destruct (sym c); [discriminate|reflexivity]. Qed.
Lemma ref_of_plain c x : sym c = Some x -> ends_q x = false -> ref_of c = Ok (Some x, Node c).
Proof. unfold ref_of. intros -> ->. reflexivity. Qed.
Lemma ref_of_absent c x : sym c = Some (x ++ tx "?") -> kids c = [] -> ref_of c = Ok (Some x, Absent).
Proof. unfold ref_of. intros -> ->. rewrite ends_q_app, tx_q, removelast_last. reflexivity. Qed.
Lemma ref_of_present c x d : sym c = Some (x ++ tx "?") -> kids c = [d] -> ref_of c = Ok (Some x, Node d).
Proof. unfold ref_of. intros -> ->. rewrite ends_q_app, tx_q, removelast_last. reflexivity. Qed.
Lemma child_ok_ref nt c : names_ok nt -> child_ok nt c -> exists k r, ref_of c = Ok (k, r).
Proof.
  intros O [T|[(x & E & N)|(x & E & H)]]; [eauto using ref_of_terminal|eauto using ref_of_plain, nt_ends|].
  destruct H as [[N [K|(d & K & _)]]|[_ L]]; [eauto using ref_of_absent|eauto using ref_of_present|].
  destruct (kids c) as [|d [|d' l]] eqn:K; cbn in L; [eauto using ref_of_absent|eauto using ref_of_present|lia].
Qed.
Lemma sf_not_terminal c x r : is_terminal c = true -> ~ stands_for c x r.
Proof. unfold is_terminal. intros T H. destruct (sym c) eqn:E; [discriminate|]. inversion H; congruence. Qed.
(* for the name of a nonterminal, the map is right about each child *)
Lemma ref_of_stands nt c x k r0 : names_ok nt -> nt x -> child_ok nt c -> ref_of c = Ok (k, r0) -> (k = Some x -> stands_for c x r0) /\ (k <> Some x -> forall r, ~ stands_for c x r).
Proof.
  intros O Nx [T|[(y & E & N)|(y & E & H)]] Er.
  - rewrite (ref_of_terminal c T) in Er. inversion Er; subst. split; [discriminate|]. intros _ r. now apply sf_not_terminal.
  - rewrite (ref_of_plain c y E (nt_ends nt y O N)) in Er. inversion Er; subst. split.
    + intros X. inversion X; subst. now constructor.
    + intros X r S. inversion S; subst; try congruence; rewrite E in *; match goal with H : Some y = Some (x ++ _) |- _ => inversion H; subst; eapply O; [exact N|reflexivity] end.
  - assert (A : forall r, stands_for c x r -> x = y).
    { intros r S. inversion S as [E'|d E' K|E' K]; subst; rewrite E in E'; inversion E' as [E'']; [|now apply q_inj|now apply q_inj]. exfalso. rewrite <- E'' in Nx. exact (O _ Nx y eq_refl). }
    assert (B : exists r, ref_of c = Ok (Some y, r) /\ stands_for c y r).
    { destruct H as [[N [K|(d & K & _)]]|[_ L]]; [exists Absent; split; [now apply ref_of_absent|now constructor]|exists (Node d); split; [now apply ref_of_present|econstructor 2; eassumption]|].
      destruct (kids c) as [|d [|d' l]] eqn:K; cbn in L; [exists Absent; split; [now apply ref_of_absent|now constructor]|exists (Node d); split; [now apply ref_of_present|econstructor 2; eassumption]|lia]. }
    destruct B as (r & B1 & B2). rewrite B1 in Er. inversion Er; subst. split; [intros X; inversion X; subst; assumption|]. intros X r' S. apply A in S. apply X. now rewrite S.
Qed.
Lemma under_occurrences nt x cs : names_ok nt -> nt x -> Forall (child_ok nt) cs -> occurrences x cs (under (Some x) cs).
Proof.
  intros O N F. induction F as [|c cs H F IH]; cbn [under]; [constructor|].
  destruct (child_ok_ref nt c O H) as (k & r & E). rewrite E. destruct (ref_of_stands nt c x k r O N H E) as [Y Z].
  destruct (key_eqb k (Some x)) eqn:K.
  - apply key_eqb_eq in K. apply occ_this; auto.
  - apply occ_other; [|assumption]. apply Z. intros X. apply key_eqb_eq in X. congruence.
Qed.
Lemma sf_fun nt c x r r' : names_ok nt -> nt x -> stands_for c x r -> stands_for c x r' -> r = r'.
Proof.
  intros O N A B.
  destruct A as [E|d E K|E K], B as [E'|d' E' K'|E' K']; try congruence;
    rewrite E in E'; inversion E' as [E'']; exfalso; [| |symmetry in E''|symmetry in E'']; exact (O x N x E'').
Qed.
Lemma occurrences_fun nt x cs rs : names_ok nt -> nt x -> occurrences x cs rs -> forall rs', occurrences x cs rs' -> rs = rs'.
Proof.
  intros O N A. induction A as [|c cs rs H A IH|c cs r rs H A IH]; intros rs' B; inversion B as [|c' cs' rs1 H1 B1|c' cs' r1 rs1 H1 B1]; subst; [reflexivity|auto|exfalso; eapply H; eassumption|exfalso; eapply H1; eassumption|].
  f_equal; [eapply sf_fun; eassumption|auto].
Qed.
Lemma occ_sym nt x cs : names_ok nt -> nt x -> Forall (child_ok nt) cs -> forall rs, occurrences x cs rs -> Forall (fun r => match r with Node d => sym d = Some x | Absent => True end) rs.
Proof.
  intros O N F. induction F as [|c cs H F IH]; intros rs A; inversion A as [|c' cs' rs1 H1 A1|c' cs' r1 rs1 H1 A1]; subst; [constructor|auto|]. constructor; [|auto].
  destruct H1 as [E|d E K|E K]; [assumption| |exact I].
  destruct H as [T|[(y & E' & N')|(y & E' & H)]]; [unfold is_terminal in T; rewrite E in T; discriminate|rewrite E in E'; inversion E'; subst; exfalso; exact (O _ N' x eq_refl)|].
  rewrite E in E'. inversion E' as [E'']. apply q_inj in E'' as <-. destruct H as [[_ [K'|(d' & K' & S)]]|[H _]]; [rewrite K in K'; discriminate|rewrite K in K'; inversion K'; subst; exact S|contradiction].
Qed.

(* the map of a node *)
Lemma make_ok nt n : names_ok nt -> regular nt n -> exists m, make_focus_map n = Ok m.
Proof.
  intros O [(s & E & N) F]. apply add_refs_ok. constructor; [exists (Some s), (Node n); apply ref_of_plain; [assumption|now apply (nt_ends nt)]|].
  rewrite Forall_forall in *. intros c I. eapply child_ok_ref; eauto.
Qed.
Lemma make_get nt n m x rs : names_ok nt -> regular nt n -> nt x -> make_focus_map n = Ok m -> occurrences x (kids n) rs ->
  fget m (Some x) = if list_eq_dec N.eq_dec x (match sym n with Some s => s | None => [] end) then Some (Node n :: rs) else match rs with [] => None | _ => Some rs end.
Proof.
  intros O [(s & E & N) F] Nx M A. rewrite (add_refs_get _ _ _ M (Some x)). cbn [fget joined under]. rewrite (ref_of_plain n s E (nt_ends nt s O N)), E.
  rewrite <- (occurrences_fun nt x _ _ O Nx A _ (under_occurrences nt x _ O Nx F)). cbn [key_eqb]. destruct (text_eqb s x) eqn:X.
  - apply text_eqb_eq in X as ->. destruct (list_eq_dec N.eq_dec x x); [reflexivity|congruence].
  - destruct (list_eq_dec N.eq_dec x s) as [->|D]; [exfalso; assert (text_eqb s s = true) by (now apply text_eqb_eq); congruence|reflexivity].
Qed.

(* ---- the static check ---- *)

Lemma names_mentions name is : length (filter (names name) is) = mentions name is.
Proof.
  induction is as [|i is IH]; [reflexivity|]. cbn [filter mentions]. destruct i as [x|x|]; cbn [names]; [| |exact IH];
    (destruct (list_eq_dec N.eq_dec x name) as [->|D]; [replace (text_eqb name name) with true by (symmetry; now apply text_eqb_eq); cbn; now rewrite IH|]);
    (destruct (text_eqb x name) eqn:E; [apply text_eqb_eq in E; contradiction|exact IH]).
Qed.
Lemma mentions_app name a b : mentions name (a ++ b) = mentions name a + mentions name b.
Proof. induction a as [|[x|x|] a IH]; cbn; [reflexivity|rewrite IH; lia|rewrite IH; lia|assumption]. Qed.
Lemma nth_named name is : forall j i, nth_error (filter (names name) is) j = Some i -> (is_qm i = true <-> optional_mention name (S j) is).
Proof.
  induction is as [|i0 is IH]; intros j i E; [destruct j; discriminate|]. cbn [filter] in E.
  assert (SP : forall l1 l2, i0 :: is = l1 ++ QM name :: l2 -> (l1 = [] /\ i0 = QM name) \/ exists l1', l1 = i0 :: l1' /\ is = l1' ++ QM name :: l2).
  { intros [|y l1] l2 X; cbn in X; inversion X; subst; [left; auto|right; eauto]. }
  destruct (names name i0) eqn:Nm.
  - destruct j as [|j]; cbn [nth_error] in E.
    + inversion E; subst. split.
      * intros Q. destruct i as [x|x|]; cbn in Q, Nm; try discriminate. apply text_eqb_eq in Nm as ->. exists [], is. split; reflexivity.
      * intros (l1 & l2 & X & Mn). destruct (SP l1 l2 X) as [(-> & ->)|(l1' & -> & _)]; [reflexivity|]. exfalso. cbn [mentions] in Mn.
        destruct i as [x|x|]; cbn in Nm; [apply text_eqb_eq in Nm as ->|apply text_eqb_eq in Nm as ->|discriminate]; (destruct (list_eq_dec N.eq_dec name name); [lia|congruence]).
    + rewrite (IH j i E). clear E. split.
      * intros (l1 & l2 & -> & Mn). exists (i0 :: l1), l2. split; [reflexivity|]. cbn [mentions].
        destruct i0 as [x|x|]; cbn in Nm; [apply text_eqb_eq in Nm as ->|apply text_eqb_eq in Nm as ->|discriminate]; (destruct (list_eq_dec N.eq_dec name name); [lia|congruence]).
      * intros (l1 & l2 & X & Mn). destruct (SP l1 l2 X) as [(-> & _)|(l1' & -> & ->)]; [cbn in Mn; lia|]. exists l1', l2. split; [reflexivity|]. cbn [mentions] in Mn.
        destruct i0 as [x|x|]; cbn in Nm; [apply text_eqb_eq in Nm as ->|apply text_eqb_eq in Nm as ->|discriminate]; (destruct (list_eq_dec N.eq_dec name name); [lia|congruence]).
  - rewrite (IH j i E). assert (Z : forall l, mentions name (i0 :: l) = mentions name l).
    { intros l. cbn [mentions]. destruct i0 as [x|x|]; [| |reflexivity]; (destruct (list_eq_dec N.eq_dec x name) as [->|D]; [cbn in Nm; assert (text_eqb name name = true) by (now apply text_eqb_eq); congruence|reflexivity]). }
    split.
    + intros (l1 & l2 & -> & Mn). exists (i0 :: l1), l2. split; [reflexivity|now rewrite Z].
    + intros (l1 & l2 & X & Mn). destruct (SP l1 l2 X) as [(_ & ->)|(l1' & -> & ->)]; [cbn in Nm; assert (text_eqb name name = true) by (now apply text_eqb_eq); congruence|]. exists l1', l2. split; [reflexivity|now rewrite Z in Mn].
Qed.
Lemma some_qm name is : existsb is_qm (filter (names name) is) = true <-> exists k, optional_mention name k is.
Proof.
  rewrite existsb_exists. split.
  - intros (i & I & Q). apply In_nth_error in I as (j & E). exists (S j). now apply (nth_named name is j i E).
  - intros (k & l1 & l2 & -> & Mn). exists (QM name). split; [|reflexivity]. apply filter_In. split; [apply in_elt|]. cbn. now apply text_eqb_eq.
Qed.
Definition lhs_is (name lhs : text) : nat := if text_eqb lhs name then 1 else 0.
Lemma lhs_is_eq name lhs : lhs_is name lhs = if list_eq_dec N.eq_dec lhs name then 1 else 0.
Proof.
  unfold lhs_is. destruct (list_eq_dec N.eq_dec lhs name) as [->|D]; [replace (text_eqb name name) with true by (symmetry; now apply text_eqb_eq); reflexivity|].
  destruct (text_eqb lhs name) eqn:E; [apply text_eqb_eq in E; contradiction|reflexivity].
Qed.
(* the error for one production *)
Definition error_for (p : prefix) (name lhs : text) (loc : option (nat * nat)) (rhs : list ritem) : list ambiguity :=
  match p with Plain => if 2 <=? meanings name lhs rhs then [(loc, meanings name lhs rhs)] else [] | _ => [] end.
Lemma check_rhs_ok p name lhs loc rhs : proper p name lhs rhs -> exists b, check_rhs p name lhs loc rhs = Ok (b, error_for p name lhs loc rhs) /\ (b = true <-> may_be_absent p name lhs rhs).
Proof.
  intros P. unfold check_rhs. fold (lhs_is name lhs). rewrite lhs_is_eq, names_mentions. unfold error_for, meanings. pose proof (some_qm name rhs) as SQ. destruct p as [| | |k]; cbn [proper may_be_absent] in *.
  - destruct (list_eq_dec _ lhs name); [|contradiction]. cbn. exists false. split; [reflexivity|]. split; [discriminate|contradiction].
  - cbn [bind]. set (t := _ + mentions name rhs). exists ((t =? 0) || existsb is_qm (filter (names name) rhs)). split.
    + destruct t as [|[|t]]; reflexivity.
    + rewrite orb_true_iff, SQ, Nat.eqb_eq. assert (X : t = 0 <-> lhs <> name /\ mentions name rhs = 0) by (unfold t; destruct (list_eq_dec _ lhs name); [split; [lia|tauto]|split; [tauto|lia]]). rewrite X. tauto.
  - destruct P as [-> P]. destruct (list_eq_dec _ name name); [|congruence]. rewrite P. cbn. exists (existsb is_qm (filter (names name) rhs)). split; [reflexivity|assumption].
  - destruct P as [D P]. destruct (list_eq_dec _ lhs name); [contradiction|]. cbn. replace (k <=? mentions name rhs) with true by (symmetry; apply Nat.leb_le; lia). cbn. destruct k as [|j]; [lia|].
    destruct (nth_error (filter (names name) rhs) j) as [i|] eqn:E; [|apply nth_error_None in E; rewrite names_mentions in E; lia]. cbn. exists (is_qm i). rewrite orb_false_r. split; [reflexivity|]. exact (nth_named name rhs j i E).
Qed.
Lemma check_rhs_proper p name lhs loc rhs x : check_rhs p name lhs loc rhs = Ok x -> proper p name lhs rhs.
Proof.
  unfold check_rhs. fold (lhs_is name lhs). rewrite lhs_is_eq, names_mentions. destruct p as [| | |k]; cbn [proper].
  - destruct (list_eq_dec _ lhs name); [auto|discriminate].
  - auto.
  - destruct (list_eq_dec _ lhs name); [|discriminate]. cbn. destruct (mentions name rhs =? 1) eqn:E; [|discriminate]. apply Nat.eqb_eq in E. auto.
  - destruct (list_eq_dec _ lhs name); [discriminate|]. cbn. destruct (k <=? mentions name rhs) eqn:E; [|discriminate]. apply Nat.leb_le in E. destruct k; [discriminate|]. intros _. split; [assumption|lia].
Qed.
Lemma check_rhss_spec p name lhs single pi rhss : forall ri,
  (forall x, check_rhss p name lhs single pi ri rhss = Ok x -> Forall (proper p name lhs) rhss) /\
  (Forall (proper p name lhs) rhss -> exists b es, check_rhss p name lhs single pi ri rhss = Ok (b, es) /\ (b = true <-> Exists (may_be_absent p name lhs) rhss) /\
    forall e, In e es <-> exists j rhs, nth_error rhss j = Some rhs /\ In e (error_for p name lhs (if single then None else Some (pi, ri + j)) rhs)).
Proof.
  induction rhss as [|rhs rhss IH]; intros ri.
  - split; [constructor|]. intros _. exists false, []. split; [reflexivity|]. split; [split; [discriminate|inversion 1]|]. intros e. split; [contradiction|]. intros (j & rhs & E & _). destruct j; discriminate.
  - destruct (IH (S ri)) as [I1 I2]. cbn [check_rhss]. split.
    + intros x E. destruct (check_rhs p name lhs _ rhs) as [[b es]|] eqn:E1; cbn [bind] in E; [|discriminate]. destruct (check_rhss p name lhs single pi (S ri) rhss) as [x'|] eqn:E2; cbn [bind] in E; [|discriminate].
      constructor; [exact (check_rhs_proper _ _ _ _ _ _ E1)|exact (I1 _ eq_refl)].
    + intros F. inversion F as [|? ? P F']; subst. destruct (check_rhs_ok p name lhs (if single then None else Some (pi, ri)) rhs P) as (b & E & B). rewrite E. cbn [bind].
      destruct (I2 F') as (b' & es' & E' & B' & In'). rewrite E'. cbn [bind]. exists (b || b'), (error_for p name lhs (if single then None else Some (pi, ri)) rhs ++ es'). split; [reflexivity|]. split.
      * rewrite orb_true_iff, B, B', Exists_cons. tauto.
      * intros e. rewrite in_app_iff, In'. split.
        -- intros [H|(j & r & Ej & H)]; [exists 0, rhs; rewrite Nat.add_0_r; split; [reflexivity|assumption]|]. exists (S j), r. split; [assumption|]. now rewrite Nat.add_succ_r.
        -- intros ([|j] & r & Ej & H); [left; cbn in Ej; inversion Ej; subst; now rewrite Nat.add_0_r in H|right; exists j, r; split; [assumption|now rewrite Nat.add_succ_r in H]].
Qed.
Lemma check_prods_spec p name single ps : forall pi,
  (forall x, check_prods p name single pi ps = Ok x -> Forall (fun q => Forall (proper p name (fst q)) (snd q)) ps) /\
  (Forall (fun q => Forall (proper p name (fst q)) (snd q)) ps -> exists b es, check_prods p name single pi ps = Ok (b, es) /\ (b = true <-> Exists (fun q => Exists (may_be_absent p name (fst q)) (snd q)) ps) /\
    forall e, In e es <-> exists i j lhs rhss rhs, nth_error ps i = Some (lhs, rhss) /\ nth_error rhss j = Some rhs /\ In e (error_for p name lhs (if single then None else Some (pi + i, S j)) rhs)).
Proof.
  induction ps as [|[lhs rhss] ps IH]; intros pi.
  - split; [constructor|]. intros _. exists false, []. split; [reflexivity|]. split; [split; [discriminate|inversion 1]|]. intros e. split; [contradiction|]. intros (i & j & lhs & rhss & rhs & E & _). destruct i; discriminate.
  - destruct (IH (S pi)) as [I1 I2]. destruct (check_rhss_spec p name lhs single pi rhss 1) as [J1 J2]. cbn [check_prods]. split.
    + intros x E. destruct (check_rhss p name lhs single pi 1 rhss) as [[b es]|] eqn:E1; cbn [bind] in E; [|discriminate]. destruct (check_prods p name single (S pi) ps) as [x'|] eqn:E2; cbn [bind] in E; [|discriminate].
      constructor; [exact (J1 _ eq_refl)|exact (I1 _ eq_refl)].
    + intros F. inversion F as [|? ? P F']; subst. cbn [fst snd] in P. destruct (J2 P) as (b & es & E & B & Inn). rewrite E. cbn [bind]. destruct (I2 F') as (b' & es' & E' & B' & In'). rewrite E'. cbn [bind].
      exists (b || b'), (es ++ es'). split; [reflexivity|]. split; [rewrite orb_true_iff, B, B', Exists_cons; reflexivity|]. intros e. rewrite in_app_iff, Inn, In'. split.
      * intros [(j & r & Ej & H)|(i & j & l & rs & r & Ei & Ej & H)]; [exists 0, j, lhs, rhss, r; rewrite Nat.add_0_r; auto|]. exists (S i), j, l, rs, r. rewrite Nat.add_succ_r. auto.
      * intros ([|i] & j & l & rs & r & Ei & Ej & H); [left; cbn in Ei; inversion Ei; subst; exists j, r; rewrite Nat.add_0_r in H; auto|right; exists i, j, l, rs, r; rewrite Nat.add_succ_r in H; auto].
Qed.

(* ---- nodes that fit a production ---- *)

Lemma fits_children nt is cs e : fits nt is cs e -> Forall (child_ok nt) cs.
Proof.
  induction 1; try assumption; constructor; try assumption; unfold child_ok; eauto 10.
Qed.
Lemma instance_regular nt n lhs rhs e : instance nt n lhs rhs e -> regular nt n.
Proof. intros (N & E & F). split; [eauto|exact (fits_children _ _ _ _ F)]. Qed.
Lemma optional_mention_skip name k i is : optional_mention name k is -> mentions name [i] = 0 -> optional_mention name k (i :: is).
Proof.
  intros (l1 & l2 & -> & Mn) Z. exists (i :: l1), l2. split; [reflexivity|]. change (i :: l1) with ([i] ++ l1). rewrite mentions_app, Z. exact Mn.
Qed.
Lemma optional_mention_next name k i is : optional_mention name k is -> mentions name [i] = 1 -> optional_mention name (S k) (i :: is).
Proof.
  intros (l1 & l2 & -> & Mn) Z. exists (i :: l1), l2. split; [reflexivity|]. change (i :: l1) with ([i] ++ l1). rewrite mentions_app, Z. lia.
Qed.
Lemma fits_occ nt name is cs e : names_ok nt -> nt name -> fits nt is cs e -> ~ In name e ->
  exists rs, occurrences name cs rs /\ length rs = mentions name is /\ forall k, nth_error rs k = Some Absent -> optional_mention name (S k) is.
Proof.
  intros O N F. induction F as [|is cs e F IH|is c cs e T F IH|x is c cs e E Nx L F IH|x is c cs e Nx E F IH|x is c cs d e Nx E K Ed F IH|x is c cs d e Nx E K Ed F IH|x is c cs e Nx E K F IH|x is c cs e Nx E K F IH]; intros NI.
  - exists []. split; [constructor|]. split; [reflexivity|]. intros [|k]; discriminate.
  - destruct (IH NI) as (rs & A & L & P). exists rs. split; [assumption|]. split; [assumption|]. intros k X. apply optional_mention_skip; [now apply P|reflexivity].
  - destruct (IH NI) as (rs & A & L & P). exists rs. split; [apply occ_other; [intros r; now apply sf_not_terminal|assumption]|]. auto.
  - destruct (IH NI) as (rs & A & L' & P). exists rs. split; [apply occ_other; [|assumption]|auto]. intros r S. inversion S as [E'|d E' K|E' K]; subst; rewrite E in E'; inversion E' as [E'']; [|apply q_inj in E''; subst; contradiction|apply q_inj in E''; subst; contradiction].
    rewrite <- E'' in N. exact (O _ N x eq_refl).
  - destruct (IH NI) as (rs & A & L & P). destruct (list_eq_dec N.eq_dec x name) as [->|D].
    + exists (Node c :: rs). split; [apply occ_this; [now constructor|assumption]|]. split; [cbn; destruct (list_eq_dec N.eq_dec name name); [lia|congruence]|]. intros [|k] X; [discriminate|]. cbn in X. apply optional_mention_next; [now apply P|cbn; destruct (list_eq_dec N.eq_dec name name); [reflexivity|congruence]].
    + exists rs. split; [apply occ_other; [|assumption]|].
      * intros r S. inversion S as [E'|d E' K|E' K]; subst; rewrite E in E'; inversion E' as [E'']; [contradiction| |]; rewrite E'' in Nx; exact (O _ Nx name eq_refl).
      * split; [cbn; destruct (list_eq_dec N.eq_dec x name); [contradiction|lia]|]. intros k X. apply optional_mention_skip; [now apply P|cbn; destruct (list_eq_dec N.eq_dec x name); [contradiction|reflexivity]].
  - destruct (IH NI) as (rs & A & L & P). destruct (list_eq_dec N.eq_dec x name) as [->|D].
    + exists (Node d :: rs). split; [apply occ_this; [econstructor 2; eassumption|assumption]|]. split; [cbn; destruct (list_eq_dec N.eq_dec name name); [lia|congruence]|]. intros [|k] X; [discriminate|]. cbn in X. apply optional_mention_next; [now apply P|cbn; destruct (list_eq_dec N.eq_dec name name); [reflexivity|congruence]].
    + exists rs. split; [apply occ_other; [|assumption]|].
      * intros r S. inversion S as [E'|d' E' K'|E' K']; subst; rewrite E in E'; inversion E' as [E'']; [rewrite <- E'' in N; exact (O _ N x eq_refl)|apply q_inj in E''; contradiction|apply q_inj in E''; contradiction].
      * split; [cbn; destruct (list_eq_dec N.eq_dec x name); [contradiction|lia]|]. intros k X. apply optional_mention_skip; [now apply P|cbn; destruct (list_eq_dec N.eq_dec x name); [contradiction|reflexivity]].
  - destruct (IH NI) as (rs & A & L & P). destruct (list_eq_dec N.eq_dec x name) as [->|D].
    + exists (Node d :: rs). split; [apply occ_this; [econstructor 2; eassumption|assumption]|]. split; [cbn; destruct (list_eq_dec N.eq_dec name name); [lia|congruence]|]. intros [|k] X; [discriminate|]. cbn in X. apply optional_mention_next; [now apply P|cbn; destruct (list_eq_dec N.eq_dec name name); [reflexivity|congruence]].
    + exists rs. split; [apply occ_other; [|assumption]|].
      * intros r S. inversion S as [E'|d' E' K'|E' K']; subst; rewrite E in E'; inversion E' as [E'']; [rewrite <- E'' in N; exact (O _ N x eq_refl)|apply q_inj in E''; contradiction|apply q_inj in E''; contradiction].
      * split; [cbn; destruct (list_eq_dec N.eq_dec x name); [contradiction|lia]|]. intros k X. apply optional_mention_skip; [now apply P|cbn; destruct (list_eq_dec N.eq_dec x name); [contradiction|reflexivity]].
  - destruct (IH NI) as (rs & A & L & P). destruct (list_eq_dec N.eq_dec x name) as [->|D].
    + exists (Absent :: rs). split; [apply occ_this; [now constructor 3|assumption]|]. split; [cbn; destruct (list_eq_dec N.eq_dec name name); [lia|congruence]|]. intros [|k] X; [exists [], is; split; reflexivity|]. cbn in X. apply optional_mention_next; [now apply P|cbn; destruct (list_eq_dec N.eq_dec name name); [reflexivity|congruence]].
    + exists rs. split; [apply occ_other; [|assumption]|].
      * intros r S. inversion S as [E'|d' E' K'|E' K']; subst; rewrite E in E'; inversion E' as [E'']; [rewrite <- E'' in N; exact (O _ N x eq_refl)|apply q_inj in E''; contradiction|apply q_inj in E''; contradiction].
      * split; [cbn; destruct (list_eq_dec N.eq_dec x name); [contradiction|lia]|]. intros k X. apply optional_mention_skip; [now apply P|cbn; destruct (list_eq_dec N.eq_dec x name); [contradiction|reflexivity]].
  - destruct (IH (fun X => NI (or_intror X))) as (rs & A & L & P). exists rs. split; [apply occ_other; [|assumption]|auto]. intros r S. inversion S as [E'|d' E' K'|E' K']; subst; rewrite E in E'; inversion E' as [E'']; [rewrite <- E'' in N; exact (O _ N x eq_refl)| |]; apply q_inj in E''; subst; apply NI; now left.
Qed.
