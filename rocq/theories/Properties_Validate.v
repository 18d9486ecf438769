(* Theorems about the validation of the document. *)
From Coq Require Import Ascii String Sorting.Sorted.
From Verif Require Import M_Base L_Base M_HTML M_Shared M_Layout L_Layout M_Indent M_Defs M_Refs M_Validate L_Validate L_ValRegex L_ValTree L_ValNodes L_ValRest L_ValMain.
Open Scope list_scope.
Open Scope nat_scope.
Notation length := List.length.

(* The messages are those that some node is to be reported for, and no others: whatever
   the tables of elements and attributes are. *)
Theorem C84_reports : forall uniword valfull einfo ainfo t doc ms,
  v_name doc = tx "#DOC" ->
  (forall up n, reached [] doc up n -> forall c, In c (v_children n) -> proper (v_name c)) ->
  validate uniword valfull einfo ainfo t [] doc = Ok ms ->
  forall p m, In (p, m) ms <-> exists up n, reached [] doc up n /\ complaint uniword valfull einfo ainfo t up n p m.
Proof. intros uniword valfull einfo ainfo t doc ms D P V. apply validate_ok; [right; unfold literal; rewrite D; discriminate|exact P|exact V]. Qed.

(* It fails just when there is a cell outside of every table. *)
Theorem C84_fails : forall uniword valfull einfo ainfo t doc e,
  v_name doc = tx "#DOC" ->
  (forall x i, maps einfo x i -> exists r, w_alt r (i_model i)) ->
  (validate uniword valfull einfo ainfo t [] doc = Err e <->
   e = AttributeError /\ exists up n, reached [] doc up n /\
     ((~ literal n /\ v_inner n <> None /\ stray (n :: up)) \/
      (literal n /\ stray up /\ exists p k, run_of_spaces t (v_start n) (v_end n) p k /\ ~ after_newline t p))).
Proof. intros uniword valfull einfo ainfo t doc e D P. apply validate_err; [exact P|right; unfold literal; rewrite D; discriminate]. Qed.

(* Nothing is printed just when nothing is to be reported (and it does not fail). *)
Theorem C84_clean : forall uniword valfull einfo ainfo t doc,
  v_name doc = tx "#DOC" ->
  (forall x i, maps einfo x i -> exists r, w_alt r (i_model i)) ->
  (forall up n, reached [] doc up n -> forall c, In c (v_children n) -> proper (v_name c)) ->
  (forall up n, reached [] doc up n -> cell n -> exists y, In y up /\ v_name y = tx "table") ->
  (validate uniword valfull einfo ainfo t [] doc = Ok [] <-> forall up n, reached [] doc up n -> forall p m, ~ complaint uniword valfull einfo ainfo t up n p m).
Proof.
  intros uniword valfull einfo ainfo t doc D P PN NC. destruct (validate uniword valfull einfo ainfo t [] doc) as [ms|e] eqn:V.
  - pose proof (C84_reports _ _ _ _ _ _ _ D PN V) as R. split.
    + intros E up n RE p m C. apply ok_inj in E. subst ms. assert (X : In (p, m) []) by (apply R; now exists up, n). destruct X.
    + intros H. f_equal. destruct ms as [|(p & m) ms]; [reflexivity|]. exfalso. destruct (proj1 (R p m) (or_introl eq_refl)) as (up & n & RE & C). now apply (H up n RE p m).
  - exfalso. apply (proj1 (C84_fails _ _ _ _ _ _ _ D P)) in V. destruct V as (_ & up & n & RE & [(_ & _ & x & up' & E & C & N)|(L & (x & up' & E & C & N) & _)]).
    + injection E as <- <-. destruct (NC up n RE C) as (y & Y & T). apply (N y); [now right|assumption].
    + subst up. assert (RX : exists n', reached [] doc up' x) by (exists x; clear - RE D L; remember [] as u0; assert (G : forall u d u' n', reached u d u' n' -> forall x w, u' = x :: w -> (u' = u) \/ reached u d w x) by
        (intros u d u' n' R; induction R as [u d|u d c u' n' NL I R IH]; intros y w Q; [now left|]; destruct (IH y w Q) as [E|H]; [right; rewrite E in Q; injection Q as <- <-; constructor|right; now apply (r_child _ _ c)]);
        destruct (G _ _ _ _ RE x up' eq_refl) as [E|H]; [subst; discriminate|exact H]).
      destruct RX as (_ & RX). destruct (NC up' x RX C) as (y & Y & T). apply (N y); [now right|assumption].
Qed.

(* Expressions are read as they are written, in one way only; and what is matched is
   what they describe. *)
Theorem C84_expressions : forall u r, re_parse u = Some r <-> w_alt r u. Proof. apply re_parse_iff. Qed.
Theorem C84_one_reading : forall u r r', w_alt r u -> w_alt r' u -> r = r'.
Proof. intros u r r' A B. apply re_parse_iff in A, B. congruence. Qed.
Theorem C84_matching : forall r u, fullmatch r u = true <-> lang r u. Proof. intros r u. apply fullmatch_iff. Qed.

(* One comment between pieces of whitespace makes no difference to what is said of the
   content; with two in a row, one of them is left. *)
Lemma collapse_none xs : ~ In (tx "#COMMENT") xs -> collapsed xs xs.
Proof.
  induction xs as [|x xs IH]; intros N; [constructor|]. apply co_other; [|apply IH; intros I; apply N; now right]. intros (xs' & E). apply N. rewrite E. right. now left.
Qed.
Theorem C84_one_comment : forall xs ys, ~ In (tx "#COMMENT") xs -> ~ In (tx "#COMMENT") ys ->
  collapsed (xs ++ [tx "#WS"; tx "#COMMENT"; tx "#WS"] ++ ys) (xs ++ [tx "#WS"] ++ ys).
Proof.
  intros xs ys N1 N2. induction xs as [|x xs IH]; [cbn [app]; constructor; now apply collapse_none|]. cbn [app]. apply co_other; [|apply IH; intros I; apply N1; now right].
  intros (zs & E). injection E as -> E. destruct xs as [|y xs]; [discriminate|]. injection E as -> _. apply N1. right. now left.
Qed.
Theorem C84_two_comments : forall zs xs ys, ~ In (tx "#COMMENT") xs -> ~ In (tx "#COMMENT") ys ->
  (collapsed (xs ++ [tx "#WS"; tx "#COMMENT"; tx "#WS"; tx "#COMMENT"; tx "#WS"] ++ ys) zs <-> zs = xs ++ [tx "#WS"; tx "#COMMENT"; tx "#WS"] ++ ys).
Proof.
  intros zs xs ys N1 N2. assert (C : collapsed (xs ++ [tx "#WS"; tx "#COMMENT"; tx "#WS"; tx "#COMMENT"; tx "#WS"] ++ ys) (xs ++ [tx "#WS"; tx "#COMMENT"; tx "#WS"] ++ ys)).
  - induction xs as [|x xs IH].
    + cbn [app]. constructor. apply co_other; [intros (? & E); discriminate|]. apply collapse_none. intros [E|I]; [discriminate|contradiction].
    + cbn [app]. apply co_other; [|apply IH; intros I; apply N1; now right]. intros (us & E). injection E as -> E. destruct xs as [|y xs]; [discriminate|]. injection E as -> _. apply N1. right. now left.
  - split; [intros H; exact (collapsed_fun _ _ H _ C)|now intros ->].
Qed.

(* ---------- the tables ---------- *)
(* the names in an expression: what is between the other characters *)
Fixpoint names_in (acc : text) (u : text) : list text :=
  match u with
  | [] => match acc with [] => [] | _ => [rev acc] end
  | c :: u' => if existsb (N.eqb c) (tx "()|?*+;") then match acc with [] => names_in [] u' | _ => rev acc :: names_in [] u' end else names_in (c :: acc) u'
  end.
Theorem C84_tables :
  NoDup (map fst element_info) /\ NoDup (map fst attribute_info) /\
  (forall x i, In (x, i) element_info -> exists r, w_alt r (i_model i)) /\
  (forall x i y, In (x, i) element_info -> In y (names_in [] (i_model i)) -> y = tx "#WS" \/ y = tx "#TEXT" \/ In y (map fst element_info)) /\
  (forall x i a, In (x, i) element_info -> In a (i_req i) \/ In a (i_opt i) -> exists p, pattern attribute_info x a p).
Proof.
  assert (ND : forall l, (fix nd (l : list text) := match l with [] => true | x :: l' => negb (tmem_ x l') && nd l' end) l = true -> NoDup l).
  { induction l as [|x l IH]; intros H; [constructor|]. apply andb_true_iff in H. destruct H as (A & B). constructor; [intros I; apply tmem_iff_ in I; rewrite I in A; discriminate|now apply IH]. }
  split; [apply ND; vm_compute; reflexivity|]. split; [apply ND; vm_compute; reflexivity|]. split; [|split].
  - intros x i I. assert (A : forallb (fun e : text * info => match re_parse (i_model (snd e)) with Some _ => true | None => false end) element_info = true) by (vm_compute; reflexivity). rewrite forallb_forall in A. specialize (A _ I). cbn [snd] in A. destruct (re_parse (i_model i)) as [r|] eqn:E; [|discriminate]. exists r. now apply re_parse_iff.
  - intros x i y I Y. assert (A : forallb (fun e : text * info => forallb (fun y => tmem_ y (tx "#WS" :: tx "#TEXT" :: map fst element_info)) (names_in [] (i_model (snd e)))) element_info = true) by (vm_compute; reflexivity).
    rewrite forallb_forall in A. specialize (A _ I). cbn [snd] in A. rewrite forallb_forall in A. specialize (A _ Y). apply tmem_iff_ in A. cbn [In] in A. destruct A as [<-|[<-|A]]; auto.
  - intros x i a I H. assert (A : forallb (fun e : text * info => forallb (fun a => match (match tget_ (fst e ++ 46%N :: a) attribute_info with Some p => Some p | None => tget_ a attribute_info end) with Some _ => true | None => false end) (i_req (snd e) ++ i_opt (snd e))) element_info = true) by (vm_compute; reflexivity).
    rewrite forallb_forall in A. specialize (A _ I). cbn [fst snd] in A. rewrite forallb_forall in A. specialize (A a). rewrite in_app_iff in A. specialize (A H). destruct (match tget_ (x ++ 46%N :: a) attribute_info with Some p => Some p | None => tget_ a attribute_info end) as [p|] eqn:E; [|discriminate]. exists p. now apply pattern_iff.
Qed.
(* An <emu-todo> can stand nowhere, and there is a pattern for an attribute that cannot be. *)
Theorem C84_no_place_refuted : exists x i, In (x, i) element_info /\ x <> tx "#DOC" /\ forall y j, In (y, j) element_info -> ~ In x (names_in [] (i_model j)).
Proof.
  exists (tx "emu-todo"). eexists. split; [|split].
  - apply (find_some (fun e : text * info => text_eqb (fst e) (tx "emu-todo")) element_info). vm_compute. reflexivity.
  - discriminate.
  - intros y j I H. assert (A : forallb (fun e : text * info => negb (tmem_ (tx "emu-todo") (names_in [] (i_model (snd e))))) element_info = true) by (vm_compute; reflexivity). rewrite forallb_forall in A. specialize (A _ I). cbn [snd] in A. apply negb_true_iff in A. apply tmem_iff_ in H. congruence.
Qed.
Theorem C84_dead_pattern_refuted : exists x a, In (x ++ tx "." ++ a) (map fst attribute_info) /\ forall i, In (x, i) element_info -> ~ In a (i_req i) /\ ~ In a (i_opt i).
Proof.
  exists (tx "emu-table"), (tx "class"). split; [apply tmem_iff_; vm_compute; reflexivity|]. intros i I.
  assert (A : forallb (fun e : text * info => negb (text_eqb (fst e) (tx "emu-table")) || negb (tmem_ (tx "class") (i_req (snd e)) || tmem_ (tx "class") (i_opt (snd e)))) element_info = true) by (vm_compute; reflexivity). rewrite forallb_forall in A. specialize (A _ I). cbn [fst snd] in A. rewrite (proj2 (text_eqb_eq _ _) eq_refl) in A. cbn [negb orb] in A. apply negb_true_iff, orb_false_iff in A. destruct A as (A & B).
  split; intros H; apply tmem_iff_ in H; congruence.
Qed.

(* ---------- particular documents ---------- *)
Definition any (p v : text) : bool := true.
Definition none (c : N) : bool := false.
Definition report (t : text) (n : vnode) := validate none any element_info attribute_info t [VN 0 (length t) (tx "#DOC") [] None []] n.
Definition lit (s e : nat) : vnode := VN s e (tx "#LITERAL") [] None [].

(* With an <emu-alg> in which there are text and a figure, the report is unavoidable though
   the content is as it should be. *)
Theorem C84_figure_in_algorithm : forall uniword valfull ainfo t up n c d,
  v_name n = tx "emu-alg" -> In c (v_children n) -> literal c -> ~ white t c -> In d (v_children n) -> v_name d = tx "figure" ->
  exists b i, complaint uniword valfull element_info ainfo t up n (v_start n) (Mixed (tx "emu-alg") b i).
Proof.
  intros uniword valfull ainfo t up n c d N C LC W D F. exists (sorted_set (child_names element_info t KB n)), (sorted_set (child_names element_info t KI n)). rewrite <- N.
  assert (IN : inline_child element_info t n (v_name c)) by (exists c; split; [assumption|]; split; [reflexivity|]; left; now split).
  assert (BL : block_child element_info n (v_name d)).
  { exists d. split; [assumption|]. split; [reflexivity|]. split; [unfold literal; rewrite F; discriminate|]. split; [unfold comment; rewrite F; discriminate|]. rewrite F. eexists. split; [apply tget_iff; vm_compute; reflexivity|reflexivity]. }
  apply c_mixed; [unfold literal; rewrite N; discriminate| | |apply not_nil_set, not_nil|apply not_nil_set, not_nil].
  - apply (listing_ext _ (fun x => In x (child_names element_info t KB n))); [intros x; apply block_iff|apply sorted_set_ok].
  - apply (listing_ext _ (fun x => In x (child_names element_info t KI n))); [intros x; apply inline_iff|apply sorted_set_ok].
  - exists (v_name d). now apply block_iff.
  - exists (v_name c). now apply inline_iff.
Qed.
Theorem C84_figure_in_algorithm_refuted : exists i r, In (tx "emu-alg", i) element_info /\ w_alt r (i_model i) /\ lang r (tx "#TEXT;figure;#TEXT;").
Proof.
  eexists. eexists. split; [apply (find_some (fun e : text * info => text_eqb (fst e) (tx "emu-alg")) element_info); vm_compute; reflexivity|]. split; [apply re_parse_iff; vm_compute; reflexivity|]. apply fullmatch_iff. vm_compute. reflexivity.
Qed.
(* A stray <td> is not reported but ends the run. *)
Theorem C84_stray_cell_refuted : exists t n, v_name n = tx "td" /\ report t n = Err AttributeError.
Proof. exists (tx "<td>x</td>"), (VN 0 10 (tx "td") [] (Some (4, 5)) [lit 4 5]). split; [reflexivity|]. vm_compute. reflexivity. Qed.
(* A space between two <a> elements is a mistake in the content, unless there is other text. *)
Theorem C84_between_anchors_refuted : exists n n',
  report (tx "<p>x<a href=#></a> <a href=#></a></p>") n = Ok [] /\ map v_name (v_children n) = [tx "#LITERAL"; tx "a"; tx "#LITERAL"; tx "a"] /\
  map v_name (v_children n') = [tx "a"; tx "#LITERAL"; tx "a"] /\ v_name n' = v_name n /\
  exists m, report (tx "<p><a href=#></a> <a href=#></a></p>") n' = Ok [(0, BadContent (tx "p") (tx "a;#WS;a;") m)].
Proof.
  exists (VN 0 37 (tx "p") [] (Some (3, 33)) [lit 3 4; VN 4 18 (tx "a") [(tx "href", Some (tx "#"))] (Some (14, 14)) []; lit 18 19; VN 19 33 (tx "a") [(tx "href", Some (tx "#"))] (Some (29, 29)) []]),
    (VN 0 36 (tx "p") [] (Some (3, 32)) [VN 3 17 (tx "a") [(tx "href", Some (tx "#"))] (Some (13, 13)) []; lit 17 18; VN 18 32 (tx "a") [(tx "href", Some (tx "#"))] (Some (28, 28)) []]).
  split; [vm_compute; reflexivity|]. split; [reflexivity|]. split; [reflexivity|]. split; [reflexivity|]. eexists. vm_compute. reflexivity.
Qed.
(* Two comments in a row, in a list. *)
Definition nl : text := [10%N].
Theorem C84_two_comments_refuted : exists n n',
  map v_name (v_children n) = [tx "#LITERAL"; tx "#COMMENT"; tx "#LITERAL"; tx "li"; tx "#LITERAL"] /\
  map v_name (v_children n') = [tx "#LITERAL"; tx "#COMMENT"; tx "#LITERAL"; tx "#COMMENT"; tx "#LITERAL"; tx "li"; tx "#LITERAL"] /\
  report (tx "<ul>" ++ nl ++ tx "<!--x-->" ++ nl ++ tx "<li>y</li>" ++ nl ++ tx "</ul>") n = Ok [] /\
  exists m, report (tx "<ul>" ++ nl ++ tx "<!--x-->" ++ nl ++ tx "<!--x-->" ++ nl ++ tx "<li>y</li>" ++ nl ++ tx "</ul>") n' = Ok [(0, BadContent (tx "ul") (tx "#WS;#COMMENT;#WS;li;#WS;") m)].
Proof.
  exists (VN 0 30 (tx "ul") [] (Some (4, 25)) [lit 4 5; VN 5 13 (tx "#COMMENT") [] None []; lit 13 14; VN 14 24 (tx "li") [] (Some (18, 19)) [lit 18 19]; lit 24 25]),
    (VN 0 39 (tx "ul") [] (Some (4, 34)) [lit 4 5; VN 5 13 (tx "#COMMENT") [] None []; lit 13 14; VN 14 22 (tx "#COMMENT") [] None []; lit 22 23; VN 23 33 (tx "li") [] (Some (27, 28)) [lit 27 28]; lit 33 34]).
  split; [reflexivity|]. split; [reflexivity|]. split; [vm_compute; reflexivity|]. eexists. vm_compute. reflexivity.
Qed.
(* Spaces at the very start of the text are taken for indentation, if the text ends with a newline. *)
Theorem C84_first_spaces_refuted : exists t n,
  has t 0 32%N /\ has t 1 32%N /\ report t n = Ok [] /\ report (t ++ tx "x") n = Ok [(0, Spaces 2)] /\ literal n /\ v_start n = 0 /\ v_end n = 3.
Proof. exists (tx "  a" ++ nl), (lit 0 3). split; [reflexivity|]. split; [reflexivity|]. split; [vm_compute; reflexivity|]. split; [vm_compute; reflexivity|]. now repeat split. Qed.

(* ---------- examples ---------- *)
(* spaces, entities and characters, the edges, attributes, kinds and content *)
Example C84_text_example :
  report (tx "<p>a  b &gt; &amp; & &foo;c</p>") (VN 0 31 (tx "p") [] (Some (3, 27)) [lit 3 27])
  = Ok [(4, Spaces 2); (8, ShouldBeLiteral (tx "&gt;")); (19, ShouldBeEntity 38%N); (21, ShouldBeLiteral (tx "&foo;"))].
Proof. vm_compute. reflexivity. Qed.
Example C84_edges_example :
  report (tx "<p> a </p>") (VN 0 10 (tx "p") [] (Some (3, 6)) [lit 3 6]) = Ok [(3, StartsWithSpace (tx "p")); (6, EndsWithSpace (tx "p"))] /\
  report (tx "<p>a" ++ nl ++ tx "  </p>") (VN 0 11 (tx "p") [] (Some (3, 7)) [lit 3 7]) = Ok [].
Proof. split; vm_compute; reflexivity. Qed.
Example C84_lenient_example :
  report (tx "<td> a  </td>" ++ repeat 10%N 30) (VN 0 0 (tx "table") [(tx "class", Some (tx "lightweight-table"))] None [lit 40 41; VN 0 0 (tx "tr") [] None [VN 0 12 (tx "td") [] (Some (4, 8)) [lit 4 8]]; lit 40 41]) = Ok [] /\
  report (tx "<td> a  </td>" ++ repeat 10%N 30) (VN 0 0 (tx "table") [] None [lit 40 41; VN 0 0 (tx "tr") [] None [VN 0 12 (tx "td") [] (Some (4, 8)) [lit 4 8]]; lit 40 41])
  = Ok [(4, StartsWithSpace (tx "td")); (8, EndsWithSpace (tx "td")); (6, Spaces 2)].
Proof. split; vm_compute; reflexivity. Qed.
Example C84_attributes_example :
  validate none (fun p v => text_eqb v (tx "good")) element_info attribute_info (tx "x") [VN 0 1 (tx "#DOC") [] None []]
    (VN 0 1 (tx "a") [(tx "id", Some (tx "good")); (tx "foo", None); (tx "example", Some (tx "e")); (tx "name", None); (tx "for", Some (tx "bad"))] None [lit 0 1])
  = Ok [(0, Missing [tx "href"]); (0, Unexpected [tx "example"; tx "foo"; tx "for"; tx "id"; tx "name"]); (0, UnknownAttr (tx "foo"));
        (0, NoValueExpected (tx "example") (tx "e")); (0, ValueExpected (tx "name") (tx "\w+")); (0, BadValue (tx "for") (tx "\w+") (tx "bad"))].
Proof. vm_compute. reflexivity. Qed.
Example C84_kinds_example :
  report (tx "xy") (VN 0 2 (tx "h2") [] None [lit 0 1; VN 1 2 (tx "p") [] None [lit 1 2]; VN 1 2 (tx "foo") [] None [lit 1 2]])
  = Ok [(1, WhichKind (tx "foo")); (0, Mixed (tx "h2") [tx "p"] [tx "#LITERAL"]); (0, BadContent (tx "h2") (tx "#TEXT;p;foo;") (tx "#TEXT;")); (1, NoModel (tx "foo"))].
Proof. vm_compute. reflexivity. Qed.
(* a whole document meets the hypotheses of the theorems: *)
Definition small : vnode := VN 0 10 (tx "#DOC") [] None [VN 0 10 (tx "td") [] (Some (4, 5)) [lit 4 5]].
Example C84_small_example : validate none any element_info attribute_info (tx "<td>x</td>") [] small = Err AttributeError /\ v_name small = tx "#DOC".
Proof. split; vm_compute; reflexivity. Qed.
Definition small2 : vnode := VN 0 10 (tx "#DOC") [] None [VN 0 10 (tx "p") [] (Some (3, 6)) [lit 3 6]].
Example C84_small_reports_example :
  (exists ms, validate none any element_info attribute_info (tx "<p>a  </p>") [] small2 = Ok ms /\ In (6, EndsWithSpace (tx "p")) ms /\ In (4, Spaces 2) ms /\ length ms = 3) /\
  (forall up n, reached [] small2 up n -> forall c, In c (v_children n) -> proper (v_name c)) /\
  (forall up n, reached [] small2 up n -> cell n -> exists y, In y up /\ v_name y = tx "table").
Proof.
  split; [eexists; split; [vm_compute; reflexivity|]; split; [right; left; reflexivity || (left; reflexivity)|split; [cbn [In]; tauto|reflexivity]]|]. split.
  - intros up n R c C. unfold small2 in R. inversion R as [? ?|? ? d ? ? _ D R']; subst.
    + destruct C as [<-|[]]. split; vm_compute; intuition discriminate.
    + destruct D as [<-|[]]. inversion R' as [? ?|? ? d ? ? _ D R'']; subst.
      * destruct C as [<-|[]]. split; vm_compute; intuition discriminate.
      * destruct D as [<-|[]]. inversion R'' as [? ?|? ? d ? ? _ D R3]; subst; [destruct C|destruct D].
  - intros up n R C. exfalso. unfold small2 in R. inversion R as [? ?|? ? d ? ? _ D R']; subst; [destruct C; discriminate|]. destruct D as [<-|[]]. inversion R' as [? ?|? ? d ? ? _ D R'']; subst; [destruct C; discriminate|]. destruct D as [<-|[]]. inversion R'' as [? ?|? ? d ? ? _ D R3]; subst; [destruct C; discriminate|destruct D].
Qed.
Example C84_expressions_example : exists r, re_parse (tx "#WS;(tr;#WS;)+|a?") = Some r /\ fullmatch r (tx "#WS;tr;#WS;tr;#WS;") = true /\ fullmatch r (tx "#WS;") = false /\ fullmatch r (tx "") = true.
Proof. eexists. split; [vm_compute; reflexivity|]. repeat split; vm_compute; reflexivity. Qed.

Print Assumptions C84_reports.
Print Assumptions C84_fails.
Print Assumptions C84_clean.
Print Assumptions C84_expressions.
Print Assumptions C84_one_reading.
Print Assumptions C84_matching.
Print Assumptions C84_one_comment.
Print Assumptions C84_two_comments.
Print Assumptions C84_tables.
Print Assumptions C84_no_place_refuted.
Print Assumptions C84_dead_pattern_refuted.
Print Assumptions C84_figure_in_algorithm.
Print Assumptions C84_figure_in_algorithm_refuted.
Print Assumptions C84_stray_cell_refuted.
Print Assumptions C84_between_anchors_refuted.
Print Assumptions C84_two_comments_refuted.
Print Assumptions C84_first_spaces_refuted.
