(* What each node of the document is reported for, and lemmas about the model of the validation. *)
From Coq Require Import Ascii String Sorting.Sorted.
From Verif Require Import M_Base L_Base M_HTML M_Shared L_Entities M_Layout L_Layout M_Indent M_Defs M_Refs M_Validate L_Validate L_ValRegex.
Open Scope list_scope.
Open Scope nat_scope.
Notation length := List.length.

Lemma ok_inj {A} (a b : A) : Ok a = Ok b -> a = b. Proof. congruence. Qed.
(* ---------- the names in a content, as a text ---------- *)
Definition terminated (x : text) : text := x ++ [59%N].
Definition as_text (xs : list text) : text := flat_map terminated xs.
(* no semicolon in a name, and a number sign only at its start *)
Definition proper (x : text) : Prop := ~ In 59%N x /\ ~ In 35%N (tl x).
(* a comment between whitespace disappears, and one of the two pieces of whitespace with it *)
Inductive collapsed : list text -> list text -> Prop :=
| co_nil : collapsed [] []
| co_comment xs ys : collapsed xs ys -> collapsed (tx "#WS" :: tx "#COMMENT" :: tx "#WS" :: xs) (tx "#WS" :: ys)
| co_other x xs ys : (~ exists xs', x :: xs = tx "#WS" :: tx "#COMMENT" :: tx "#WS" :: xs') -> collapsed xs ys -> collapsed (x :: xs) (x :: ys).

Lemma cut_unique x y r s : ~ In 59%N x -> ~ In 59%N y -> x ++ 59%N :: r = y ++ 59%N :: s -> x = y /\ r = s.
Proof.
  revert y. induction x as [|c x IH]; intros [|d y] X Y E.
  - injection E as ->. auto.
  - injection E as <- _. exfalso. apply Y. now left.
  - injection E as -> _. exfalso. apply X. now left.
  - injection E as -> E. destruct (IH y) as (-> & ->); [intros I; apply X; now right|intros I; apply Y; now right|assumption|auto].
Qed.
Lemma as_text_cons x xs : as_text (x :: xs) = x ++ 59%N :: as_text xs.
Proof. unfold as_text, terminated. cbn [flat_map]. now rewrite <- app_assoc. Qed.
Lemma prefix_names : forall ps xs, Forall (fun x => ~ In 59%N x) ps -> Forall (fun x => ~ In 59%N x) xs -> forall r, as_text xs = as_text ps ++ r -> exists xs', xs = ps ++ xs' /\ r = as_text xs'.
Proof.
  induction ps as [|p ps IH]; intros xs P X r E; [now exists xs|]. inversion P as [|? ? P1 P2]; subst. destruct xs as [|x xs]; [rewrite as_text_cons in E; destruct p; discriminate|]. inversion X as [|? ? X1 X2]; subst.
  rewrite !as_text_cons, <- app_assoc in E. cbn [app] in E. destruct (cut_unique _ _ _ _ X1 P1 E) as (-> & E'). destruct (IH xs P2 X2 r E') as (xs' & -> & ->). now exists xs'.
Qed.
Lemma replace_go_char p r c u : match p with d :: _ => d <> c | [] => False end -> str_replace p r (c :: u) = c :: str_replace p r u.
Proof. intros H. apply replace_nomatch. destruct p as [|d p]; [destruct H|]. cbn [is_prefix]. destruct (N.eqb_spec d c); [contradiction|reflexivity]. Qed.
Lemma replace_over p r x u : match p with d :: _ => d = 35%N | [] => False end -> ~ In 35%N x -> str_replace p r (x ++ u) = x ++ str_replace p r u.
Proof.
  intros P. induction x as [|c x IH]; intros N; [reflexivity|]. cbn [app]. rewrite replace_go_char; [rewrite IH; [reflexivity|intros I; apply N; now right]|]. destruct p as [|d p]; [assumption|]. subst d. intros <-. apply N. now left.
Qed.
Lemma collapse_text : forall k xs, length xs <= k -> Forall proper xs -> exists ys, collapsed xs ys /\ str_replace (tx "#WS;#COMMENT;#WS;") (tx "#WS;") (as_text xs) = as_text ys.
Proof.
  induction k as [|k IH]; intros xs L P; [destruct xs; [exists []; split; [constructor|reflexivity]|cbn in L; lia]|].
  destruct xs as [|x xs]; [exists []; split; [constructor|reflexivity]|].
  assert (T : tx "#WS;#COMMENT;#WS;" = as_text [tx "#WS"; tx "#COMMENT"; tx "#WS"]) by reflexivity.
  assert (SEP : Forall (fun x => ~ In 59%N x) (x :: xs)) by (eapply Forall_impl; [|exact P]; intros a (A & _); exact A).
  destruct (is_prefix (tx "#WS;#COMMENT;#WS;") (as_text (x :: xs))) eqn:E.
  - rewrite T in E. apply is_prefix_app in E. destruct E as (r & E). assert (SP : Forall (fun x => ~ In 59%N x) [tx "#WS"; tx "#COMMENT"; tx "#WS"]) by (repeat constructor; vm_compute; intuition discriminate). destruct (prefix_names _ _ SP SEP r E) as (xs' & X & ->).
    assert (P' : Forall proper xs') by (rewrite X in P; cbn [app] in P; now do 3 apply Forall_inv_tail in P). destruct (IH xs') as (ys & C & R); [rewrite X in L; cbn in L; lia|assumption|].
    exists (tx "#WS" :: ys). split; [rewrite X; cbn [app]; now constructor|]. rewrite E, <- T, replace_match by discriminate. rewrite R. reflexivity.
  - destruct (IH xs) as (ys & C & R); [cbn in L; lia|now inversion P|]. exists (x :: ys). split.
    + apply co_other; [|assumption]. intros (xs' & X). rewrite X in E. assert (is_prefix (tx "#WS;#COMMENT;#WS;") (as_text (tx "#WS" :: tx "#COMMENT" :: tx "#WS" :: xs')) = true) by (rewrite T; apply is_prefix_app; exists (as_text xs'); reflexivity). congruence.
    + inversion P as [|? ? (P1 & P2) P3]; subst. rewrite !as_text_cons in *. destruct x as [|c x].
      * cbn [app]. rewrite replace_go_char by (vm_compute; discriminate). now rewrite R.
      * cbn [app] in *. rewrite replace_nomatch by assumption. cbn [tl] in P2. rewrite replace_over by (try reflexivity; assumption). rewrite replace_go_char by (vm_compute; discriminate). now rewrite R.
Qed.
Lemma collapsed_fun xs ys : collapsed xs ys -> forall zs, collapsed xs zs -> ys = zs.
Proof.
  induction 1 as [|xs ys C IH|x xs ys N C IH]; intros zs Z.
  - now inversion Z.
  - inversion Z as [|? ? Z'|? ? ? N Z']; subst; [f_equal; now apply IH|]. exfalso. apply N. now exists xs.
  - inversion Z as [|? ? Z'|? ? ? N' Z']; subst; [exfalso; apply N; now exists xs0|]. f_equal. now apply IH.
Qed.

(* ---------- what is reported ---------- *)
Definition space_char (c : N) : Prop :=
  (9 <= c <= 13 \/ 28 <= c <= 32 \/ c = 133 \/ c = 160 \/ c = 5760 \/ 8192 <= c <= 8202 \/ 8232 <= c <= 8233 \/ c = 8239 \/ c = 8287 \/ c = 12288)%N.
Definition literal (n : vnode) : Prop := v_name n = tx "#LITERAL".
Definition comment (n : vnode) : Prop := v_name n = tx "#COMMENT".
(* a cell of a table of the kind that is loose about spaces, and one outside of every table *)
Definition cell (n : vnode) : Prop := v_name n = tx "th" \/ v_name n = tx "td".
Definition table_of (chain : list vnode) (tb : vnode) : Prop :=
  exists l1 l2, chain = l1 ++ tb :: l2 /\ v_name tb = tx "table" /\ forall x, In x l1 -> v_name x <> tx "table".
Definition lenient (chain : list vnode) : Prop :=
  exists x up tb, chain = x :: up /\ cell x /\ table_of chain tb /\ maps (v_attrs tb) (tx "class") (Some (tx "lightweight-table")).
Definition stray (chain : list vnode) : Prop := exists x up, chain = x :: up /\ cell x /\ forall y, In y chain -> v_name y <> tx "table".

Definition allowed (parent e : text) : Prop :=
  (parent <> tx "script" /\ In e [tx "&amp;"; tx "&lt;"; tx "&nbsp;"; tx "&reg;"]) \/
  (parent = tx "emu-grammar" /\ In e [tx "&gt;"; tx "&ldquo;"; tx "&rdquo;"; tx "&isin;"; tx "&notin;"; tx "&le;"]) \/
  (parent = tx "h1" /\ In e [tx "&infin;"; tx "&gt;"]) \/
  ((parent = tx "code" \/ parent = tx "td") /\ In e [tx "&gt;"; tx "&hellip;"; tx "&#x0307;"; tx "&#x030A;"; tx "&#x0323;"; tx "&#x03A9;"; tx "&#x1100;"; tx "&#x1161;"; tx "&#x1E0B;"; tx "&#x1E0D;"; tx "&#x1E69;"; tx "&#x2126;"; tx "&#x212B;"; tx "&#xAC00;"]).
Definition forbidden (parent : text) (c : N) : Prop :=
  (parent <> tx "script" /\ In c [38; 60; 160; 174]%N) \/
  (parent = tx "emu-grammar" /\ In c [8220; 8221; 8712; 8713; 8804]%N) \/
  (parent = tx "h1" /\ c = 8734%N) \/
  ((parent = tx "code" \/ parent = tx "td") /\ In c [8230; 775; 778; 803; 937; 4352; 4449; 7691; 7693; 7785; 8486; 8491; 44032]%N).

Section Spec.
  Variable uniword : N -> bool.
  Variable valfull : text -> text -> bool.
  Variable einfo : list (text * info).
  Variable ainfo : list (text * option text).
  Variable t : text.
  (* the character before position 0 is the last of the text *)
  Definition after_newline (p : nat) : Prop := (0 < p /\ has t (p - 1) 10%N) \/ (p = 0 /\ exists u, t = u ++ [10%N]).
  Definition white (c : vnode) : Prop := slice (v_start c) (v_end c) t <> [] /\ Forall space_char (slice (v_start c) (v_end c) t).
  Definition inline_child (n : vnode) (x : text) : Prop :=
    exists c, In c (v_children n) /\ v_name c = x /\ ((literal c /\ ~ white c) \/ (~ literal c /\ ~ comment c /\ exists i, maps einfo x i /\ i_kind i = KI)).
  Definition block_child (n : vnode) (x : text) : Prop :=
    exists c, In c (v_children n) /\ v_name c = x /\ ~ literal c /\ ~ comment c /\ exists i, maps einfo x i /\ i_kind i = KB.
  (* what stands for a child in the content of a node *)
  Definition stands (n c : vnode) (x : text) : Prop :=
    (literal c /\ (exists y, inline_child n y) /\ x = tx "#TEXT") \/ (literal c /\ (~ exists y, inline_child n y) /\ x = tx "#WS") \/ (~ literal c /\ x = v_name c).
  Definition content (n : vnode) (xs : list text) : Prop := Forall2 (stands n) (v_children n) xs.
  Definition pattern (name a : text) (p : option text) : Prop := maps ainfo (name ++ tx "." ++ a) p \/ (~ In (name ++ tx "." ++ a) (map fst ainfo) /\ maps ainfo a p).

  Inductive complaint : list vnode -> vnode -> nat -> vmsg -> Prop :=
  | c_spaces up n p k : literal n -> run_of_spaces t (v_start n) (v_end n) p k -> ~ after_newline p -> ~ lenient up -> complaint up n p (Spaces k)
  | c_char parent up n p c : literal n -> v_start n <= p < v_end n -> has t p c -> forbidden (v_name parent) c ->
      (~ exists q m, is_entity uniword t q m /\ v_start n <= q /\ q + m <= v_end n /\ q <= p < q + m) -> complaint (parent :: up) n p (ShouldBeEntity c)
  | c_entity parent up n p k : literal n -> v_start n <= p -> p + k <= v_end n -> is_entity uniword t p k -> ~ allowed (v_name parent) (slice p (p + k) t) ->
      complaint (parent :: up) n p (ShouldBeLiteral (slice p (p + k) t))
  | c_start up n a b : ~ literal n -> v_inner n = Some (a, b) -> ~ lenient (n :: up) -> a < b -> has t a 32%N -> complaint up n a (StartsWithSpace (v_name n))
  | c_end up n a b u : ~ literal n -> v_inner n = Some (a, b) -> ~ lenient (n :: up) -> slice a b t = u ++ [32%N] -> (~ exists u' k, slice a b t = u' ++ 10%N :: repeat 32%N k) -> complaint up n b (EndsWithSpace (v_name n))
  | c_missing up n i l : ~ literal n -> maps einfo (v_name n) i -> listing l (fun a => In a (i_req i) /\ ~ In a (map fst (v_attrs n))) -> l <> [] -> complaint up n (v_start n) (Missing l)
  | c_unexpected up n i l : ~ literal n -> maps einfo (v_name n) i -> listing l (fun a => In a (map fst (v_attrs n)) /\ ~ In a (i_req i) /\ ~ In a (i_opt i)) -> l <> [] -> complaint up n (v_start n) (Unexpected l)
  | c_unknown up n a v : ~ literal n -> In (a, v) (v_attrs n) -> (~ exists p, pattern (v_name n) a p) -> complaint up n (v_start n) (UnknownAttr a)
  | c_no_value up n a x : ~ literal n -> In (a, Some x) (v_attrs n) -> pattern (v_name n) a None -> complaint up n (v_start n) (NoValueExpected a x)
  | c_value up n a p : ~ literal n -> In (a, None) (v_attrs n) -> pattern (v_name n) a (Some p) -> complaint up n (v_start n) (ValueExpected a p)
  | c_bad up n a p x : ~ literal n -> In (a, Some x) (v_attrs n) -> pattern (v_name n) a (Some p) -> valfull p x = false -> complaint up n (v_start n) (BadValue a p x)
  | c_kind up n c : ~ literal n -> In c (v_children n) -> ~ literal c -> ~ comment c -> ~ In (v_name c) (map fst einfo) -> complaint up n (v_start c) (WhichKind (v_name c))
  | c_mixed up n b i : ~ literal n -> listing b (block_child n) -> listing i (inline_child n) -> b <> [] -> i <> [] -> complaint up n (v_start n) (Mixed (v_name n) b i)
  | c_no_model up n : ~ literal n -> ~ In (v_name n) (map fst einfo) -> complaint up n (v_start n) (NoModel (v_name n))
  | c_content up n i r xs ys : ~ literal n -> maps einfo (v_name n) i -> w_alt r (i_model i) -> content n xs -> collapsed xs ys -> ~ lang r (as_text ys) ->
      complaint up n (v_start n) (BadContent (v_name n) (as_text ys) (i_model i)).

  (* the nodes that are visited, with their ancestors *)
  Inductive reached : list vnode -> vnode -> list vnode -> vnode -> Prop :=
  | r_self up n : reached up n up n
  | r_child up n c up' n' : ~ literal n -> In c (v_children n) -> reached (n :: up) c up' n' -> reached up n up' n'.

  (* ---------- lemmas ---------- *)
  Lemma lit_iff n : text_eqb (v_name n) (tx "#LITERAL") = true <-> literal n. Proof using. apply text_eqb_eq. Qed.
  Lemma com_iff n : text_eqb (v_name n) (tx "#COMMENT") = true <-> comment n. Proof using. apply text_eqb_eq. Qed.
  Lemma cell_iff n : tmem_ (v_name n) [tx "th"; tx "td"] = true <-> cell n.
  Proof using. clear. rewrite tmem_iff_. unfold cell. cbn [In]. intuition. Qed.
  Lemma nearest_some chain tb : nearest_table chain = Some tb <-> table_of chain tb.
  Proof using.
    unfold table_of. induction chain as [|x chain IH]; cbn [nearest_table].
    - split; [discriminate|]. intros ([|? ?] & l2 & E & _); discriminate.
    - destruct (text_eqb (v_name x) (tx "table")) eqn:E.
      + apply text_eqb_eq in E. split; [intros H; injection H as <-; exists [], chain; split; [reflexivity|split; [assumption|intros ? []]]|]. intros ([|y l1] & l2 & Q & T & N); [now injection Q as ->|]. injection Q as <- _. exfalso. apply (N x); [now left|assumption].
      + assert (NE : v_name x <> tx "table") by (intros Q; apply text_eqb_eq in Q; congruence). rewrite IH. split.
        * intros (l1 & l2 & -> & T & N). exists (x :: l1), l2. split; [reflexivity|]. split; [assumption|]. intros y [<-|I]; [assumption|now apply N].
        * intros ([|y l1] & l2 & Q & T & N); [injection Q as -> _; contradiction|]. injection Q as <- ->. exists l1, l2. split; [reflexivity|]. split; [assumption|]. intros z I. apply N. now right.
  Qed.
  Lemma nearest_none chain : nearest_table chain = None <-> forall y, In y chain -> v_name y <> tx "table".
  Proof using.
    induction chain as [|x chain IH]; cbn [nearest_table]; [split; [intros _ y []|reflexivity]|]. destruct (text_eqb (v_name x) (tx "table")) eqn:E.
    - split; [discriminate|]. intros H. exfalso. apply (H x); [now left|now apply text_eqb_eq].
    - assert (NE : v_name x <> tx "table") by (intros Q; apply text_eqb_eq in Q; congruence). rewrite IH. split; [intros H y [<-|I]; [assumption|now apply H]|]. intros H y I. apply H. now right.
  Qed.
  Lemma loose_ok x up b : is_loose (x :: up) = Ok b -> (b = true <-> lenient (x :: up)).
  Proof using.
    cbn [is_loose]. destruct (tmem_ (v_name x) [tx "th"; tx "td"]) eqn:C.
    - apply cell_iff in C. destruct (nearest_table (x :: up)) as [tb|] eqn:T; [|discriminate]. apply nearest_some in T. intros H. apply ok_inj in H. subst b. unfold lenient. split.
      + destruct (tget_ (tx "class") (v_attrs tb)) as [[v|]|] eqn:G; try discriminate. apply tget_iff in G. intros E. apply text_eqb_eq in E. subst v. now exists x, up, tb.
      + intros (x' & up' & tb' & Q & C' & T' & M). apply nearest_some in T, T'. rewrite T in T'. injection T' as <-. apply tget_iff in M. rewrite M. now apply text_eqb_eq.
    - intros H. injection H as <-. split; [discriminate|]. intros (x' & up' & tb & Q & C' & _). injection Q as <- <-. apply cell_iff in C'. congruence.
  Qed.
  Lemma loose_err x up e : is_loose (x :: up) = Err e <-> e = AttributeError /\ stray (x :: up).
  Proof using.
    cbn [is_loose]. unfold stray. destruct (tmem_ (v_name x) [tx "th"; tx "td"]) eqn:C.
    - apply cell_iff in C. destruct (nearest_table (x :: up)) as [tb|] eqn:T.
      + split; [discriminate|]. intros (_ & x' & up' & Q & _ & N). injection Q as <- <-. apply nearest_none in N. congruence.
      + pose proof (proj1 (nearest_none _) T) as T1. split; [intros H; injection H as <-; split; [reflexivity|now exists x, up]|]. now intros (-> & _).
    - split; [discriminate|]. intros (_ & x' & up' & Q & C' & _). injection Q as <- <-. apply cell_iff in C'. congruence.
  Qed.
  Lemma before_iff p : match char_before t p with Some c => (c =? 10)%N | None => false end = true <-> after_newline p.
  Proof using.
    unfold char_before, after_newline. destruct p as [|p].
    - split.
      + intros H. right. split; [reflexivity|]. destruct t as [|c s] using rev_ind; [discriminate|]. rewrite map_app in H. cbn [map] in H. rewrite last_last in H. apply N.eqb_eq in H. subst. now exists s.
      + intros [(L & _)|(_ & u & ->)]; [lia|]. rewrite map_app. cbn [map]. now rewrite last_last.
    - cbn [Nat.sub]. rewrite Nat.sub_0_r. unfold has. split.
      + intros H. left. split; [lia|]. destruct (nth_error t p) as [c|]; [|discriminate]. apply N.eqb_eq in H. now subst.
      + intros [(_ & ->)|(Q & _)]; [reflexivity|discriminate].
  Qed.
  Lemma space_msgs_ok x up s ms r : space_msgs t s (x :: up) ms = Ok r -> forall p m, In (p, m) r <-> exists q k, In (q, k) ms /\ p = s + q /\ m = Spaces k /\ ~ after_newline p /\ ~ lenient (x :: up).
  Proof using.
    revert r. induction ms as [|(q, k) ms IH]; intros r H p m; cbn [space_msgs] in H.
    - injection H as <-. split; [intros []|intros (q & k & [] & _)].
    - destruct (match char_before t (s + q) with Some c => (c =? 10)%N | None => false end) eqn:B.
      + apply before_iff in B. rewrite (IH r H). split; intros (q' & k' & I & E1 & E2 & N1 & N2).
        * exists q', k'. split; [now right|auto].
        * destruct I as [Q|I]; [injection Q as <- <-; subst p; contradiction|]. exists q', k'. auto.
      + assert (B' : ~ after_newline (s + q)) by (intros X; apply before_iff in X; congruence). apply bind_ok in H. destruct H as (l & L & H). apply bind_ok in H. destruct H as (r' & R & H). injection H as <-. pose proof (loose_ok _ _ _ L) as LL. destruct l.
        * rewrite (IH r' R). split; intros (q' & k' & I & E1 & E2 & N1 & N2); exfalso; apply N2; now apply LL.
        * cbn [In]. rewrite (IH r' R). split.
          -- intros [Q|(q' & k' & I & Z)]; [injection Q as <- <-; exists q, k; split; [now left|]; split; [reflexivity|]; split; [reflexivity|]; split; [assumption|]; intros X; apply LL in X; discriminate|]. exists q', k'. split; [now right|assumption].
          -- intros (q' & k' & [Q|I] & E1 & E2 & Z); [injection Q as <- <-; left; now subst|]. right. exists q', k'. auto.
  Qed.
  Lemma space_msgs_err x up s ms : forall e, space_msgs t s (x :: up) ms = Err e <-> e = AttributeError /\ stray (x :: up) /\ exists q k, In (q, k) ms /\ ~ after_newline (s + q).
  Proof using. clear uniword valfull einfo ainfo.
    induction ms as [|(q, k) ms IH]; intros e; cbn [space_msgs]; [split; [discriminate|intros (_ & _ & q & k & [] & _)]|].
    destruct (match char_before t (s + q) with Some c => (c =? 10)%N | None => false end) eqn:B.
    - apply before_iff in B. rewrite IH. split.
      + intros (E & S & q' & k' & I & N). split; [assumption|]. split; [assumption|]. exists q', k'. split; [now right|assumption].
      + intros (E & S & q' & k' & I & N). split; [assumption|]. split; [assumption|]. destruct I as [Q|I]; [injection Q as <- <-; contradiction|]. exists q', k'. auto.
    - assert (B' : ~ after_newline (s + q)) by (intros X; apply before_iff in X; congruence). destruct (is_loose (x :: up)) as [l|e'] eqn:L; cbn [bind].
      + assert (NS : ~ stray (x :: up)) by (intros S; assert (is_loose (x :: up) = Err AttributeError) by (apply loose_err; auto); congruence).
        destruct (space_msgs t s (x :: up) ms) as [r|e'] eqn:R; cbn [bind]; [split; [discriminate|tauto]|]. pose proof (proj1 (IH e') eq_refl) as (_ & S & _). contradiction.
      + pose proof (proj1 (loose_err x up e') L) as (-> & S). split; [intros H; injection H as <-; split; [reflexivity|]; split; [assumption|]; exists q, k; split; [now left|assumption]|]. now intros (-> & _).
  Qed.
End Spec.
