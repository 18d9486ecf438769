(* The checks of attributes and of the content of a node, and the traversal of the document. *)
From Coq Require Import Ascii String Sorting.Sorted.
From Verif Require Import M_Base L_Base M_HTML M_Shared L_Entities M_Layout L_Layout M_Indent M_Defs M_Refs M_Validate L_Validate L_ValRegex L_ValTree L_ValNodes.
Open Scope list_scope.
Open Scope nat_scope.
Notation length := List.length.

Lemma not_nil {A} (l : list A) : l <> [] <-> exists x, In x l.
Proof. destruct l as [|a l]; [split; [tauto|intros (x & [])]|]. split; [intros _; exists a; now left|discriminate]. Qed.
Lemma not_nil_set l : sorted_set l <> [] <-> l <> [].
Proof. rewrite !not_nil. destruct (sorted_set_ok l) as (_ & _ & I). split; intros (x & X); exists x; now apply I. Qed.
Lemma nil_match {A B} (l : list A) (x : B) : match l with [] => [] | _ => [x] end = if match l with [] => true | _ => false end then [] else [x]. Proof. now destruct l. Qed.
Lemma in_unless {A B} (l : list A) (x y : B) : In x (match l with [] => [] | _ => [y] end) <-> l <> [] /\ x = y.
Proof. destruct l; cbn [In]; split; [tauto|tauto|intros [<-|[]]; split; [discriminate|reflexivity]|intros (_ & ->); now left]. Qed.
Lemma filter_not_mem l k x : In x (filter (fun a => negb (tmem_ a k)) l) <-> In x l /\ ~ In x k.
Proof. rewrite filter_In, negb_true_iff, <- not_true_iff_false, tmem_iff_. reflexivity. Qed.

Section Rest.
  Variable uniword : N -> bool.
  Variable valfull : text -> text -> bool.
  Variable einfo : list (text * info).
  Variable ainfo : list (text * option text).
  Variable t : text.
  Notation complaint := (complaint uniword valfull einfo ainfo t).

  (* ---------- attributes ---------- *)
  Lemma pattern_iff name a p : (match tget_ (name ++ 46%N :: a) ainfo with Some p => Some p | None => tget_ a ainfo end) = Some p <-> pattern ainfo name a p.
  Proof using.
    unfold pattern. change (name ++ tx "." ++ a) with (name ++ 46%N :: a). destruct (tget_ (name ++ 46%N :: a) ainfo) as [q|] eqn:G.
    - apply tget_iff in G. split; [intros E; injection E as ->; now left|]. intros [M|(N & _)]; [now rewrite (maps_fun _ _ _ _ G M)|]. apply maps_in in G. contradiction.
    - apply tget_none in G. rewrite tget_iff. split; [intros M; right; now split|]. intros [M|(_ & M)]; [apply maps_in in M; contradiction|assumption].
  Qed.
  Lemma pattern_none name a : (match tget_ (name ++ 46%N :: a) ainfo with Some p => Some p | None => tget_ a ainfo end) = None <-> ~ exists p, pattern ainfo name a p.
  Proof using.
    set (o := match tget_ (name ++ 46%N :: a) ainfo with Some p => Some p | None => tget_ a ainfo end). assert (P : forall p, o = Some p <-> pattern ainfo name a p) by (intros p; apply pattern_iff). destruct o as [p|].
    - split; [discriminate|]. intros N. exfalso. apply N. exists p. now apply P.
    - split; [|reflexivity]. intros _ (p & H). apply P in H. discriminate.
  Qed.
  Lemma attr_iff n p m : In (p, m) (attr_msgs valfull einfo ainfo n) <->
    p = v_start n /\
    ((exists i l, maps einfo (v_name n) i /\ listing l (fun a => In a (i_req i) /\ ~ In a (map fst (v_attrs n))) /\ l <> [] /\ m = Missing l) \/
     (exists i l, maps einfo (v_name n) i /\ listing l (fun a => In a (map fst (v_attrs n)) /\ ~ In a (i_req i) /\ ~ In a (i_opt i)) /\ l <> [] /\ m = Unexpected l) \/
     (exists a v, In (a, v) (v_attrs n) /\ (~ exists p, pattern ainfo (v_name n) a p) /\ m = UnknownAttr a) \/
     (exists a x, In (a, Some x) (v_attrs n) /\ pattern ainfo (v_name n) a None /\ m = NoValueExpected a x) \/
     (exists a q, In (a, None) (v_attrs n) /\ pattern ainfo (v_name n) a (Some q) /\ m = ValueExpected a q) \/
     (exists a q x, In (a, Some x) (v_attrs n) /\ pattern ainfo (v_name n) a (Some q) /\ valfull q x = false /\ m = BadValue a q x)).
  Proof using. clear t.
    unfold attr_msgs. rewrite in_app_iff. 
    assert (A : In (p, m) (match tget_ (v_name n) einfo with
       | None => []
       | Some i =>
         (match filter (fun a => negb (tmem_ a (map fst (v_attrs n)))) (i_req i) with [] => [] | _ => [(v_start n, Missing (sorted_set (filter (fun a => negb (tmem_ a (map fst (v_attrs n)))) (i_req i))))] end)
         ++ (match filter (fun a => negb (tmem_ a (i_req i ++ i_opt i))) (map fst (v_attrs n)) with [] => [] | _ => [(v_start n, Unexpected (sorted_set (filter (fun a => negb (tmem_ a (i_req i ++ i_opt i))) (map fst (v_attrs n)))))] end)
       end) <-> p = v_start n /\
      ((exists i l, maps einfo (v_name n) i /\ listing l (fun a => In a (i_req i) /\ ~ In a (map fst (v_attrs n))) /\ l <> [] /\ m = Missing l) \/
       (exists i l, maps einfo (v_name n) i /\ listing l (fun a => In a (map fst (v_attrs n)) /\ ~ In a (i_req i) /\ ~ In a (i_opt i)) /\ l <> [] /\ m = Unexpected l))).
    { destruct (tget_ (v_name n) einfo) as [i|] eqn:G.
      - apply tget_iff in G. rewrite in_app_iff, !in_unless.
        assert (M1 : forall l, l = sorted_set (filter (fun a => negb (tmem_ a (map fst (v_attrs n)))) (i_req i)) <-> listing l (fun a => In a (i_req i) /\ ~ In a (map fst (v_attrs n)))) by (intros l; apply sorted_set_iff; intros x; apply filter_not_mem).
        assert (M2 : forall l, l = sorted_set (filter (fun a => negb (tmem_ a (i_req i ++ i_opt i))) (map fst (v_attrs n))) <-> listing l (fun a => In a (map fst (v_attrs n)) /\ ~ In a (i_req i) /\ ~ In a (i_opt i))) by (intros l; apply sorted_set_iff; intros x; rewrite filter_not_mem, in_app_iff; tauto).
        split.
        + intros [(N & E)|(N & E)]; injection E as -> ->; (split; [reflexivity|]); [left|right]; exists i; eexists; (split; [exact G|]); (split; [first [now apply M1|now apply M2]|]); (split; [now apply not_nil_set|reflexivity]).
        + intros (-> & [(i' & l & G' & L & N & ->)|(i' & l & G' & L & N & ->)]); rewrite <- (maps_fun _ _ _ _ G G') in *.
          * left. apply M1 in L. subst l. split; [now apply not_nil_set|reflexivity].
          * right. apply M2 in L. subst l. split; [now apply not_nil_set|reflexivity].
      - apply tget_none in G. split; [intros []|]. intros (_ & [(i & l & M & _)|(i & l & M & _)]); apply maps_in in M; contradiction. }
    rewrite A. clear A. rewrite in_flat_map. split.
    - intros [(E & H)|((a & v) & I & H)]; [split; [assumption|]; destruct H as [H|H]; [now left|right; now left]|].
      destruct (match tget_ (v_name n ++ 46%N :: a) ainfo with Some p => Some p | None => tget_ a ainfo end) as [[q|]|] eqn:P.
      + apply pattern_iff in P. destruct v as [x|].
        * destruct (valfull q x) eqn:V; [destruct H|]. destruct H as [H|[]]. injection H as <- <-. split; [reflexivity|]. do 5 right. exists a, q, x. auto.
        * destruct H as [H|[]]. injection H as <- <-. split; [reflexivity|]. do 4 right. left. exists a, q. auto.
      + apply pattern_iff in P. destruct v as [x|]; [|destruct H]. destruct H as [H|[]]. injection H as <- <-. split; [reflexivity|]. do 3 right. left. exists a, x. auto.
      + apply (proj1 (pattern_none _ _)) in P. destruct H as [H|[]]. injection H as <- <-. split; [reflexivity|]. do 2 right. left. exists a, v. auto.
    - intros (-> & [H|[H|[(a & v & I & P & ->)|[(a & x & I & P & ->)|[(a & q & I & P & ->)|(a & q & x & I & P & V & ->)]]]]]).
      + left. split; [reflexivity|]. now left.
      + left. split; [reflexivity|]. now right.
      + right. exists (a, v). split; [assumption|]. apply pattern_none in P. rewrite P. now left.
      + right. exists (a, Some x). split; [assumption|]. apply pattern_iff in P. rewrite P. now left.
      + right. exists (a, None). split; [assumption|]. apply pattern_iff in P. rewrite P. now left.
      + right. exists (a, Some x). split; [assumption|]. apply pattern_iff in P. rewrite P, V. now left.
  Qed.

End Rest.

Section Content.
  Variable einfo : list (text * info).
  Variable t : text.
  (* ---------- block-level and inline children ---------- *)
  Lemma py_space_iff c : py_space c = true <-> space_char c.
  Proof. unfold py_space, space_char. cbn [existsb fst snd]. rewrite !orb_true_iff, !andb_true_iff, !N.leb_le. lia. Qed.
  Lemma white_iff c : literal c -> (is_whitespace t c = true <-> white t c).
  Proof.
    intros L. unfold is_whitespace, white. rewrite (proj2 (lit_iff c) L). cbn [andb]. destruct (slice (v_start c) (v_end c) t) as [|a u]; [split; [discriminate|tauto]|].
    rewrite forallb_forall, Forall_forall. split; [intros H; split; [discriminate|]; intros x I; now apply py_space_iff, H|]. intros (_ & H) x I. now apply py_space_iff, H.
  Qed.
  Lemma white_dec c : literal c -> white t c \/ ~ white t c.
  Proof. intros L. destruct (is_whitespace t c) eqn:W; [left; now apply white_iff|right]. intros X. apply white_iff in X; [congruence|assumption]. Qed.
  Lemma lit_false c : text_eqb (v_name c) (tx "#LITERAL") = false <-> ~ literal c.
  Proof. rewrite <- not_true_iff_false, lit_iff. reflexivity. Qed.
  Lemma com_false c : text_eqb (v_name c) (tx "#COMMENT") = false <-> ~ comment c.
  Proof. rewrite <- not_true_iff_false, com_iff. reflexivity. Qed.
  Lemma lit_com c : literal c -> ~ comment c. Proof. unfold literal, comment. intros -> E. discriminate. Qed.
  Lemma inline_iff n x : In x (child_names einfo t KI n) <-> inline_child einfo t n x.
  Proof.
    unfold child_names, inline_child. rewrite in_flat_map. split.
    - intros (c & I & H). destruct (text_eqb (v_name c) (tx "#COMMENT")) eqn:C; [destruct H|]. apply com_false in C. destruct (text_eqb (v_name c) (tx "#LITERAL")) eqn:L.
      + apply lit_iff in L. destruct (is_whitespace t c) eqn:W; [destruct H|]. destruct H as [<-|[]]. exists c. split; [assumption|]. split; [reflexivity|]. left. split; [assumption|]. intros X. apply white_iff in X; [congruence|assumption].
      + apply lit_false in L. destruct (tget_ (v_name c) einfo) as [i|] eqn:G; [|destruct H]. apply tget_iff in G. destruct (i_kind i) eqn:K; try (destruct H; fail). destruct H as [<-|[]]. exists c. split; [assumption|]. split; [reflexivity|]. right. split; [assumption|]. split; [assumption|]. now exists i.
    - intros (c & I & <- & [(L & W)|(L & C & i & G & K)]); exists c; (split; [assumption|]).
      + rewrite (proj2 (com_false c) (lit_com c L)), (proj2 (lit_iff c) L). destruct (is_whitespace t c) eqn:X; [apply (proj1 (white_iff c L)) in X; contradiction|now left].
      + apply com_false in C. apply lit_false in L. apply tget_iff in G. rewrite C, L, G, K. now left.
  Qed.
  Lemma block_iff n x : In x (child_names einfo t KB n) <-> block_child einfo n x.
  Proof.
    unfold child_names, block_child. rewrite in_flat_map. split.
    - intros (c & I & H). destruct (text_eqb (v_name c) (tx "#COMMENT")) eqn:C; [destruct H|]. apply com_false in C. destruct (text_eqb (v_name c) (tx "#LITERAL")) eqn:L; [destruct (is_whitespace t c); destruct H|].
      apply lit_false in L. destruct (tget_ (v_name c) einfo) as [i|] eqn:G; [|destruct H]. apply tget_iff in G. destruct (i_kind i) eqn:K; try (destruct H; fail). destruct H as [<-|[]]. exists c. split; [assumption|]. split; [reflexivity|]. split; [assumption|]. split; [assumption|]. now exists i.
    - intros (c & I & <- & L & C & i & G & K); exists c; (split; [assumption|]). apply com_false in C. apply lit_false in L. apply tget_iff in G. rewrite C, L, G, K. now left.
  Qed.
  Lemma kind_iff n p m : In (p, m) (kind_msgs einfo t n) <->
    (exists c, In c (v_children n) /\ ~ literal c /\ ~ comment c /\ ~ In (v_name c) (map fst einfo) /\ p = v_start c /\ m = WhichKind (v_name c)) \/
    (exists b i, listing b (block_child einfo n) /\ listing i (inline_child einfo t n) /\ b <> [] /\ i <> [] /\ p = v_start n /\ m = Mixed (v_name n) b i).
  Proof.
    unfold kind_msgs. rewrite in_app_iff. apply or_iff_compat_both.
    - rewrite in_flat_map. split.
      + intros (c & I & H). destruct (text_eqb (v_name c) (tx "#COMMENT")) eqn:C; [destruct H|]. destruct (text_eqb (v_name c) (tx "#LITERAL")) eqn:L; [destruct H|]. cbn [orb] in H. apply com_false in C. apply lit_false in L. destruct (tget_ (v_name c) einfo) eqn:G; [destruct H|]. apply (proj1 (tget_none _ _)) in G. destruct H as [H|[]]. injection H as <- <-. exists c. auto 7.
      + intros (c & I & L & C & N & -> & ->). exists c. split; [assumption|]. apply com_false in C. apply lit_false in L. apply (proj2 (tget_none _ _)) in N. rewrite C, L, N. now left.
    - assert (B : forall l, l = sorted_set (child_names einfo t KB n) <-> listing l (block_child einfo n)) by (intros l; apply sorted_set_iff; intros x; apply block_iff).
      assert (I : forall l, l = sorted_set (child_names einfo t KI n) <-> listing l (inline_child einfo t n)) by (intros l; apply sorted_set_iff; intros x; apply inline_iff).
      pose proof (not_nil_set (child_names einfo t KB n)) as NB. pose proof (not_nil_set (child_names einfo t KI n)) as NI. split.
      + intros H. assert (H' : child_names einfo t KB n <> [] /\ child_names einfo t KI n <> [] /\ (p, m) = (v_start n, Mixed (v_name n) (sorted_set (child_names einfo t KB n)) (sorted_set (child_names einfo t KI n)))).
        { destruct (child_names einfo t KB n) as [|b bs]; [destruct H|]. destruct (child_names einfo t KI n) as [|i is]; [destruct H|]. destruct H as [H|[]]. split; [discriminate|]. split; [discriminate|now rewrite H]. }
        destruct H' as (H1 & H2 & E). injection E as -> ->. eexists. eexists. split; [now apply B|]. split; [now apply I|]. tauto.
      + intros (b & i & LB & LI & N1 & N2 & -> & ->). apply B in LB. apply I in LI. subst b i. apply NB in N1. apply NI in N2. destruct (child_names einfo t KB n) as [|b bs]; [contradiction|]. destruct (child_names einfo t KI n) as [|i is]; [contradiction|]. now left.
  Qed.

  (* ---------- the content ---------- *)
  Lemma content_ok n : forall cs, (forall c, In c cs -> In c (v_children n)) -> exists xs, Forall2 (stands einfo t n) cs xs /\ content_names einfo t n cs = Ok (as_text xs).
  Proof.
    induction cs as [|c cs IH]; intros S; [exists []; split; [constructor|reflexivity]|]. destruct IH as (xs & F & E); [intros x X; apply S; now right|]. cbn [content_names].
    assert (H : exists x, stands einfo t n c x /\ content_name einfo t n c = Ok (x ++ [59%N])).
    { unfold content_name, stands. destruct (text_eqb (v_name c) (tx "#LITERAL")) eqn:L.
      - apply lit_iff in L. destruct (child_names einfo t KI n) as [|y ys] eqn:Y.
        + exists (tx "#WS"). assert (NI : ~ exists y, inline_child einfo t n y) by (intros (y & Z); apply inline_iff in Z; rewrite Y in Z; destruct Z). split; [right; left; auto|].
          destruct (is_whitespace t c) eqn:W; [reflexivity|]. exfalso. apply NI. exists (v_name c). exists c. split; [apply S; now left|]. split; [reflexivity|]. left. split; [assumption|]. intros X. apply white_iff in X; [congruence|assumption].
        + exists (tx "#TEXT"). split; [|reflexivity]. left. split; [assumption|]. split; [|reflexivity]. exists y. apply inline_iff. rewrite Y. now left.
      - apply lit_false in L. exists (v_name c). split; [right; right; now split|reflexivity]. }
    destruct H as (x & X & R). exists (x :: xs). split; [now constructor|]. rewrite R. cbn [bind]. rewrite E. cbn [bind]. rewrite as_text_cons, <- app_assoc. reflexivity.
  Qed.
  Lemma stands_fun n c x y : stands einfo t n c x -> stands einfo t n c y -> x = y.
  Proof. unfold stands. intros [(A & B & ->)|[(A & B & ->)|(A & ->)]] [(C & D & ->)|[(C & D & ->)|(C & ->)]]; try reflexivity; contradiction. Qed.
  Lemma content_fun n : forall cs xs ys, Forall2 (stands einfo t n) cs xs -> Forall2 (stands einfo t n) cs ys -> xs = ys.
  Proof.
    induction cs as [|c cs IH]; intros xs ys X Y; inversion X; inversion Y; subst; [reflexivity|]. f_equal; [now apply (stands_fun n c)|]. now apply IH.
  Qed.
  Definition proper_names (n : vnode) : Prop := forall c, In c (v_children n) -> proper (v_name c).
  Lemma content_proper n : proper_names n -> forall cs xs, (forall c, In c cs -> In c (v_children n)) -> Forall2 (stands einfo t n) cs xs -> Forall proper xs.
  Proof.
    intros P cs xs S F. induction F as [|c x cs xs H F IH]; [constructor|]. constructor; [|apply IH; intros c' C; apply S; now right].
    destruct H as [(_ & _ & ->)|[(_ & _ & ->)|(_ & ->)]]; [split; vm_compute; intuition discriminate|split; vm_compute; intuition discriminate|]. apply P, S. now left.
  Qed.
  Definition parses : Prop := forall x i, maps einfo x i -> exists r, w_alt r (i_model i).
  Lemma content_iff n ms : proper_names n -> content_msgs einfo t n = Ok ms -> forall p m, In (p, m) ms <->
    p = v_start n /\
    ((~ In (v_name n) (map fst einfo) /\ m = NoModel (v_name n)) \/
     (exists i r xs ys, maps einfo (v_name n) i /\ w_alt r (i_model i) /\ content einfo t n xs /\ collapsed xs ys /\ ~ lang r (as_text ys) /\ m = BadContent (v_name n) (as_text ys) (i_model i))).
  Proof.
    intros P H p m. unfold content_msgs in H. destruct (content_ok n (v_children n)) as (xs & F & E); [auto|]. rewrite E in H. cbn [bind] in H.
    destruct (collapse_text _ xs (le_n _) (content_proper n P _ _ (fun c C => C) F)) as (ys & C & R). rewrite R in H. destruct (tget_ (v_name n) einfo) as [i|] eqn:G.
    - apply tget_iff in G. destruct (re_parse (i_model i)) as [r|] eqn:PR; [|discriminate]. apply ok_inj in H. subst ms. split.
      + intros I. destruct (fullmatch r (as_text ys)) eqn:M; [destruct I|]. destruct I as [I|[]]. injection I as <- <-. split; [reflexivity|]. right. exists i, r, xs, ys. split; [assumption|]. split; [now apply re_parse_iff|]. split; [assumption|]. split; [assumption|]. split; [|reflexivity]. intros L. apply fullmatch_iff in L. congruence.
      + intros (-> & [(N & _)|(i' & r' & xs' & ys' & G' & PR' & F' & C' & L & ->)]); [apply maps_in in G; contradiction|].
        pose proof (maps_fun _ _ _ _ G G') as <-. apply re_parse_iff in PR'. rewrite PR in PR'. injection PR' as <-. pose proof (content_fun _ _ _ _ F F') as <-. pose proof (collapsed_fun _ _ C _ C') as <-. destruct (fullmatch r (as_text ys)) eqn:M; [apply fullmatch_iff in M; contradiction|]. now left.
    - apply (proj1 (tget_none _ _)) in G. apply ok_inj in H. subst ms. split; [intros [I|[]]; injection I as <- <-; split; [reflexivity|now left]|]. intros (-> & [(_ & ->)|(i & r & xs' & ys' & M & _)]); [now left|]. apply maps_in in M. contradiction.
  Qed.
  Lemma content_total n : parses -> exists ms, content_msgs einfo t n = Ok ms.
  Proof.
    intros P. unfold content_msgs. destruct (content_ok n (v_children n)) as (xs & F & E); [auto|]. rewrite E. cbn [bind]. destruct (tget_ (v_name n) einfo) as [i|] eqn:G; [|eauto]. apply tget_iff in G. destruct (P _ _ G) as (r & W). apply re_parse_iff in W. rewrite W. eauto.
  Qed.
End Content.
