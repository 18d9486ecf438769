(* Specification and lemmas for the HTML parser (C19) and the node lookup (C20). *)
From Coq Require Import Ascii String.
From Verif Require Import M_Base L_Base M_HTML.
Open Scope list_scope.

(* ---------------- specification ---------------- *)

Definition void_names : list text := [tx "html"; tx "meta"; tx "link"; tx "img"; tx "br"].

(* what is assumed of the regular expressions: progress within the text, and tag names that begin with a
   character other than '#' *)
Definition name_ok (n : text) : Prop := exists c n', n = c :: n' /\ c <> 35%N.
Record lex_ok (len : nat) (lex : nat -> option (event * nat)) (style_end : nat -> option nat) : Prop := {
  lo_progress : forall p ev e, lex p = Some (ev, e) -> p < e <= len;
  lo_start : forall p n e, lex p = Some (StartTag n, e) -> name_ok n;
  lo_end : forall p n e, lex p = Some (EndTag n, e) -> name_ok n;
  lo_style : forall p q, style_end p = Some q -> p <= q <= len }.

Definition leaf_event (ev : event) (name : text) : Prop :=
  (ev = Literal /\ name = tx "#LITERAL") \/ (ev = Comment /\ name = tx "#COMMENT") \/ (ev = Decl /\ name = tx "#DECL").

(* [forest open p q cs sk]: between positions p and q, inside an element called [open], the document has
   the nodes cs; sk lists the positions of end tags that fit no open element. *)
Inductive forest (lex : nat -> option (event * nat)) (style_end : nat -> option nat) : text -> nat -> nat -> list hnode -> list nat -> Prop :=
| f_nil o p : forest lex style_end o p p [] []
| f_leaf o p ev e q name cs sk : lex p = Some (ev, e) -> leaf_event ev name -> forest lex style_end o e q cs sk ->
    forest lex style_end o p q (HNode p e name None [] :: cs) sk
| f_void o p e q name cs sk : lex p = Some (StartTag name, e) -> In name void_names -> forest lex style_end o e q cs sk ->
    forest lex style_end o p q (HNode p e name None [] :: cs) sk
| f_elem o p a b e q name kids cs sk sk' : lex p = Some (StartTag name, a) -> ~ In name void_names -> name <> tx "style" ->
    forest lex style_end name a b kids sk -> lex b = Some (EndTag name, e) -> forest lex style_end o e q cs sk' ->
    forest lex style_end o p q (HNode p e name (Some (a, b)) kids :: cs) (sk ++ sk')
| f_style o p a s b e q kids cs sk sk' : lex p = Some (StartTag (tx "style"), a) -> style_end a = Some s ->
    forest lex style_end (tx "style") s b kids sk -> lex b = Some (EndTag (tx "style"), e) -> forest lex style_end o e q cs sk' ->
    forest lex style_end o p q (HNode p e (tx "style") (Some (a, b)) (HNode a s (tx "#LITERAL") None [] :: kids) :: cs) (sk ++ sk')
| f_skip o p name e q cs sk : lex p = Some (EndTag name, e) -> name <> o -> forest lex style_end o e q cs sk ->
    forest lex style_end o p q cs (p :: sk).

(* nodes follow each other without gap or overlap *)
Fixpoint tile (a b : nat) (cs : list hnode) : Prop :=
  match cs with
  | [] => a = b
  | c :: cs' => h_start c = a /\ tile (h_end c) b cs'
  end.
(* every element's children tile its inner extent, which lies within the element *)
Inductive tiled : hnode -> Prop :=
| t_leaf s e n : s <= e -> tiled (HNode s e n None [])
| t_elem s e n a b cs : s < a -> a <= b -> b < e -> tile a b cs -> (forall c, In c cs -> tiled c) -> tiled (HNode s e n (Some (a, b)) cs).
(* the source text of a node, put together from its tags and the texts of its leaves *)
Fixpoint flatten (t : text) (n : hnode) : text :=
  let '(HNode s e _ i cs) := n in
  match i with
  | None => slice s e t
  | Some (a, b) => slice s a t ++ concat (map (flatten t) cs) ++ slice b e t
  end.

(* ---------------- lemmas ---------------- *)

Lemma text_eqb_refl t : text_eqb t t = true.
Proof. now apply text_eqb_eq. Qed.
Lemma text_eqb_neq a b : text_eqb a b = false <-> a <> b.
Proof. split; intros H; [intros ->; rewrite text_eqb_refl in H; discriminate|]. destruct (text_eqb a b) eqn:E; [|reflexivity]. apply text_eqb_eq in E. congruence. Qed.

Lemma complete_void n : name_ok n -> (complete_child n = true <-> In n void_names).
Proof.
  intros (c & n' & -> & Hc). unfold complete_child. apply N.eqb_neq in Hc. rewrite Hc. cbn [orb]. rewrite existsb_exists. split.
  - intros (x & Hx & E). apply text_eqb_eq in E. now subst x.
  - intros H. exists (c :: n'). split; [exact H|apply text_eqb_refl].
Qed.
Lemma style_not_void : ~ In (tx "style") void_names.
Proof. cbv. intros H. repeat (destruct H as [H|H]; [discriminate|]). exact H. Qed.

Section HTML.
  Variable len : nat.
  Variable lex : nat -> option (event * nat).
  Variable style_end : nat -> option nat.
  Hypothesis Hlex : lex_ok len lex style_end.

  Notation forest' := (forest lex style_end).
  Notation loop' := (loop len lex style_end).
  Notation step' := (step lex style_end).

  Lemma forest_app o p q cs sk : forest' o p q cs sk -> forall r cs' sk', forest' o q r cs' sk' -> forest' o p r (cs ++ cs') (sk ++ sk').
  Proof.
    induction 1; intros r cs' sk'' Hf; cbn [app]; auto.
    - eapply f_leaf; eauto.
    - eapply f_void; eauto.
    - rewrite <- app_assoc. eapply f_elem; eauto.
    - rewrite <- app_assoc. eapply f_style; eauto.
    - eapply f_skip; eauto.
  Qed.

  (* ---- from a forest to the parser ---- *)

  Definition adv (p : nat) (cs : list hnode) (sk : list nat) (st : pstate) : pstate :=
    mkP p (mkFrame (f_start (top st)) (f_end (top st)) (f_name (top st)) (f_children (top st) ++ cs)) (outer st) (skipped st ++ sk).

  Lemma adv_nil st : adv (posn st) [] [] st = st.
  Proof. destruct st as [p [a b c d] o s]. unfold adv. cbn. now rewrite !app_nil_r. Qed.
  Lemma adv_adv p q cs cs' sk sk' st : adv q cs' sk' (adv p cs sk st) = adv q (cs ++ cs') (sk ++ sk') st.
  Proof. unfold adv. cbn. now rewrite !app_assoc. Qed.

  Lemma loop_step fuel st st' : posn st < len -> step' st = Ok st' -> loop' (S fuel) st = loop' fuel st'.
  Proof. intros H E. cbn [loop]. apply Nat.ltb_lt in H. rewrite H, E. reflexivity. Qed.

  Lemma lex_lt p ev e : lex p = Some (ev, e) -> p < len.
  Proof. intros H. destruct (lo_progress _ _ _ Hlex _ _ _ H). lia. Qed.

  Lemma forest_loop o p q cs sk : forest' o p q cs sk -> forall st, posn st = p -> f_name (top st) = o ->
    exists n, forall fuel, loop' (n + fuel) st = loop' fuel (adv q cs sk st).
  Proof.
    induction 1 as [o p|o p ev e q name cs sk Hl Hev Hf IH|o p e q name cs sk Hl Hv Hf IH
      |o p a b e q name kids cs sk sk' Hl Hv Hns Hk IHk Hl' Hf IH
      |o p a s b e q kids cs sk sk' Hl Hs Hk IHk Hl' Hf IH|o p name e q cs sk Hl Hne Hf IH]; intros st Hp Ho.
    - exists 0. intros fuel. subst p. now rewrite adv_nil.
    - set (st1 := adv e [HNode p e name None []] [] st). destruct (IH st1 eq_refl Ho) as (n & Hn). exists (S n). intros fuel.
      cbn [plus]. rewrite (loop_step _ st st1).
      + rewrite Hn. unfold st1. rewrite adv_adv. reflexivity.
      + rewrite Hp. eapply lex_lt; eauto.
      + unfold step. rewrite Hp, Hl. unfold st1, adv.
        destruct Hev as [[-> ->]|[[-> ->]|[-> ->]]]; cbn; now rewrite app_nil_r.
    - set (st1 := adv e [HNode p e name None []] [] st). destruct (IH st1 eq_refl Ho) as (n & Hn). exists (S n). intros fuel.
      cbn [plus]. rewrite (loop_step _ st st1).
      + rewrite Hn. unfold st1. rewrite adv_adv. reflexivity.
      + rewrite Hp. eapply lex_lt; eauto.
      + unfold step. rewrite Hp, Hl. assert (Hn' := lo_start _ _ _ Hlex _ _ _ Hl). pose proof (proj2 (complete_void name Hn') Hv) as Hc.
        assert (text_eqb name (tx "style") = false) as Hst by (apply text_eqb_neq; intros ->; now apply style_not_void).
        rewrite Hst. unfold add_child. rewrite Hc. unfold st1, adv, at_posn, push_child. cbn. now rewrite app_nil_r.
    - assert (Hn' := lo_start _ _ _ Hlex _ _ _ Hl).
      assert (complete_child name = false) as Hc.
      { destruct (complete_child name) eqn:E; [|reflexivity]. apply (complete_void name Hn') in E. contradiction. }
      set (st1 := mkP a (mkFrame p a name []) (top st :: outer st) (skipped st)).
      destruct (IHk st1 eq_refl eq_refl) as (n1 & Hn1).
      set (st2 := adv e [HNode p e name (Some (a, b)) kids] sk st). destruct (IH st2 eq_refl Ho) as (n2 & Hn2).
      exists (S (n1 + S n2)). intros fuel. cbn [plus]. rewrite (loop_step _ st st1).
      + rewrite <- Nat.add_assoc, Hn1. cbn [plus]. rewrite (loop_step _ _ st2).
        * rewrite Hn2. unfold st2. rewrite adv_adv. reflexivity.
        * cbn. eapply lex_lt; eauto.
        * unfold step. cbn [adv posn]. rewrite Hl'. unfold close_open_child. cbn [top adv f_name st1]. rewrite text_eqb_refl. reflexivity.
      + rewrite Hp. eapply lex_lt; eauto.
      + unfold step. rewrite Hp, Hl. apply text_eqb_neq in Hns. rewrite Hns. unfold add_child. rewrite Hc. reflexivity.
    - set (st1 := mkP s (mkFrame p a (tx "style") [HNode a s (tx "#LITERAL") None []]) (top st :: outer st) (skipped st)).
      destruct (IHk st1 eq_refl eq_refl) as (n1 & Hn1).
      set (st2 := adv e [HNode p e (tx "style") (Some (a, b)) (HNode a s (tx "#LITERAL") None [] :: kids)] sk st). destruct (IH st2 eq_refl Ho) as (n2 & Hn2).
      exists (S (n1 + S n2)). intros fuel. cbn [plus]. rewrite (loop_step _ st st1).
      + rewrite <- Nat.add_assoc, Hn1. cbn [plus]. rewrite (loop_step _ _ st2).
        * rewrite Hn2. unfold st2. rewrite adv_adv. reflexivity.
        * cbn. eapply lex_lt; eauto.
        * unfold step. cbn [adv posn]. rewrite Hl'. unfold close_open_child. cbn [top adv f_name st1]. rewrite text_eqb_refl. reflexivity.
      + rewrite Hp. eapply lex_lt; eauto.
      + unfold step. rewrite Hp, Hl. rewrite text_eqb_refl, Hs. reflexivity.
    - set (st1 := adv e [] [p] st). destruct (IH st1 eq_refl Ho) as (n & Hn). exists (S n). intros fuel.
      cbn [plus]. rewrite (loop_step _ st st1).
      + rewrite Hn. unfold st1. rewrite adv_adv. reflexivity.
      + rewrite Hp. eapply lex_lt; eauto.
      + unfold step. rewrite Hp, Hl. unfold close_open_child. rewrite Ho. apply text_eqb_neq in Hne. rewrite Hne. cbn.
        unfold st1, adv, at_posn. cbn. rewrite app_nil_r, Ho. destruct (top st); cbn in *. now subst.
  Qed.

  (* ---- from the parser to a forest ---- *)

  (* the contents of an open element up to position q *)
  Definition body (f : frame) (q : nat) (sk : list nat) : Prop :=
    (f_name f <> tx "style" /\ forest' (f_name f) (f_end f) q (f_children f) sk) \/
    (f_name f = tx "style" /\ exists s kids, style_end (f_end f) = Some s /\ f_children f = HNode (f_end f) s (tx "#LITERAL") None [] :: kids /\
       forest' (f_name f) s q kids sk).
  (* the stack of open elements, innermost first; the last is the document *)
  Inductive stack_ok : nat -> frame -> list frame -> list nat -> Prop :=
  | so_doc q cs sk : forest' (tx "#DOC") 0 q cs sk -> stack_ok q (mkFrame 0 len (tx "#DOC") cs) [] sk
  | so_elem q f p ps sk sk' : lex (f_start f) = Some (StartTag (f_name f), f_end f) -> ~ In (f_name f) void_names ->
      body f q sk' -> stack_ok (f_start f) p ps sk -> stack_ok q f (p :: ps) (sk ++ sk').

  Lemma body_app f q r cs sk sk' : body f q sk -> forest' (f_name f) q r cs sk' ->
    body (mkFrame (f_start f) (f_end f) (f_name f) (f_children f ++ cs)) r (sk ++ sk').
  Proof.
    intros [[Hn H]|(Hn & s & kids & H1 & H2 & H3)] Hf.
    - left. split; [exact Hn|]. cbn. eapply forest_app; eauto.
    - right. split; [exact Hn|]. cbn. exists s, (kids ++ cs). split; [exact H1|]. split; [now rewrite H2|]. eapply forest_app; eauto.
  Qed.
  Lemma stack_app q r f ps sk cs sk' : stack_ok q f ps sk -> forest' (f_name f) q r cs sk' ->
    stack_ok r (mkFrame (f_start f) (f_end f) (f_name f) (f_children f ++ cs)) ps (sk ++ sk').
  Proof.
    intros H Hf. inversion H; subst; cbn in *.
    - constructor. eapply forest_app; eauto.
    - rewrite <- app_assoc. constructor; auto. now apply body_app with (q := q).
  Qed.
  Lemma stack_name q f ps sk : stack_ok q f ps sk -> ps <> [] -> name_ok (f_name f).
  Proof. intros H Hn. inversion H; subst; [congruence|]. eapply lo_start; eauto. Qed.

  Lemma doc_not_name n : name_ok n -> n <> tx "#DOC".
  Proof. intros (c & n' & -> & Hc) E. cbn in E. congruence. Qed.

  Lemma step_ok st st' : stack_ok (posn st) (top st) (outer st) (skipped st) -> step' st = Ok st' ->
    stack_ok (posn st') (top st') (outer st') (skipped st') /\ posn st < posn st'.
  Proof.
    intros HS H. unfold step in H. destruct (lex (posn st)) as [[ev e]|] eqn:El; [|discriminate].
    pose proof (lo_progress _ _ _ Hlex _ _ _ El) as Hpe.
    assert (Hleaf : forall name, leaf_event ev name -> st' = at_posn e (add_child (posn st) e name st) ->
       stack_ok (posn st') (top st') (outer st') (skipped st') /\ posn st < posn st').
    { intros name Hev ->. assert (complete_child name = true) as Hc by (destruct Hev as [[_ ->]|[[_ ->]|[_ ->]]]; reflexivity).
      unfold add_child. rewrite Hc. cbn. split; [|lia]. rewrite <- (app_nil_r (skipped st)). unfold push_child.
      eapply stack_app; [exact HS|]. eapply f_leaf; eauto. constructor. }
    destruct ev as [|name|name| |].
    - apply (Hleaf (tx "#LITERAL")); [left; auto|congruence].
    - pose proof (lo_start _ _ _ Hlex _ _ _ El) as Hn.
      destruct (text_eqb name (tx "style")) eqn:Es.
      + apply text_eqb_eq in Es. subst name. destruct (style_end e) as [q|] eqn:Eq; [|discriminate]. inversion H; subst st'; clear H.
        pose proof (lo_style _ _ _ Hlex _ _ Eq) as Hq. cbn. split; [|lia]. rewrite <- (app_nil_r (skipped st)). constructor.
        * exact El.
        * exact style_not_void.
        * right. split; [reflexivity|]. cbn. exists q, []. split; [exact Eq|]. split; [reflexivity|constructor].
        * exact HS.
      + apply text_eqb_neq in Es. inversion H; subst st'; clear H. unfold add_child. destruct (complete_child name) eqn:Ec; cbn.
        * split; [|lia]. rewrite <- (app_nil_r (skipped st)). eapply stack_app; [exact HS|]. eapply f_void; eauto; [now apply complete_void|constructor].
        * split; [|lia]. rewrite <- (app_nil_r (skipped st)). constructor; auto.
          -- intros Hv. apply (complete_void name Hn) in Hv. congruence.
          -- left. split; [exact Es|constructor].
    - pose proof (lo_end _ _ _ Hlex _ _ _ El) as Hn.
      apply bind_ok in H as (st1 & Hc & H). inversion H; subst st'; clear H. unfold close_open_child in Hc.
      destruct (text_eqb name (f_name (top st))) eqn:Et.
      + apply text_eqb_eq in Et. destruct (outer st) as [|p ps] eqn:Eo; [discriminate|]. inversion Hc; subst st1; clear Hc. cbn. split; [|lia].
        inversion HS as [|q f p0 ps0 sk sk' A1 A2 A3 A4 E1 E2 E3]; subst. unfold push_child. eapply stack_app; [exact A4|].
        rewrite <- (app_nil_r sk'). destruct A3 as [[B1 B2]|(B1 & s & kids & B2 & B3 & B4)].
        * eapply f_elem; [exact A1|exact A2|exact B1|exact B2|exact El|constructor].
        * rewrite B1 in *. rewrite B3. eapply f_style; [exact A1|exact B2|exact B4|exact El|constructor].
      + apply text_eqb_neq in Et. inversion Hc; subst st1; clear Hc. cbn. split; [|lia].
        replace (top st) with (mkFrame (f_start (top st)) (f_end (top st)) (f_name (top st)) (f_children (top st) ++ [])) by (rewrite app_nil_r; now destruct (top st)).
        eapply stack_app; [exact HS|]. cbn. eapply f_skip; eauto. constructor.
    - apply (Hleaf (tx "#COMMENT")); [right; left; auto|congruence].
    - apply (Hleaf (tx "#DECL")); [right; right; auto|congruence].
  Qed.

  Lemma step_posn st st' : step' st = Ok st' -> posn st' <= len.
  Proof.
    intros H. unfold step in H. destruct (lex (posn st)) as [[ev e]|] eqn:El; [|discriminate].
    pose proof (lo_progress _ _ _ Hlex _ _ _ El) as Hpe. destruct ev as [|name|name| |].
    - inversion H; subst. cbn. lia.
    - destruct (text_eqb name (tx "style")); [|inversion H; cbn; lia]. destruct (style_end e) as [q|] eqn:Eq; [|discriminate].
      pose proof (lo_style _ _ _ Hlex _ _ Eq). inversion H. cbn. lia.
    - apply bind_ok in H as (st1 & Hc & H). inversion H; subst. cbn. lia.
    - inversion H; subst. cbn. lia.
    - inversion H; subst. cbn. lia.
  Qed.

  Lemma loop_ok : forall fuel st doc sk, stack_ok (posn st) (top st) (outer st) (skipped st) -> posn st <= len ->
    loop' fuel st = Ok (doc, sk) -> exists cs, doc = HNode 0 len (tx "#DOC") None cs /\ forest' (tx "#DOC") 0 len cs sk.
  Proof.
    induction fuel as [|fuel IH]; intros st doc sk HS Hp H; cbn [loop] in H; [discriminate|].
    destruct (Nat.ltb_spec (posn st) len) as [Hlt|Hge].
    - apply bind_ok in H as (st' & Hs & H). destruct (step_ok st st' HS Hs) as [HS' _]. eapply IH; eauto. eapply step_posn; eauto.
    - destruct (text_eqb (f_name (top st)) (tx "#DOC")) eqn:E; [|discriminate]. apply text_eqb_eq in E. inversion H; subst.
      assert (Hl : posn st = len) by lia. rewrite Hl in HS. inversion HS; subst.
      + eauto.
      + exfalso. eapply doc_not_name; [|exact E]. eapply lo_start; eauto.
  Qed.

  Lemma step_err st er : step' st = Err er -> er <> OutOfFuel.
  Proof.
    unfold step. destruct (lex (posn st)) as [[[|n|n| |] e]|]; try discriminate; try congruence.
    - destruct (text_eqb n (tx "style")); [|discriminate]. destruct (style_end e); [discriminate|congruence].
    - unfold close_open_child. destruct (text_eqb n (f_name (top st))); [|discriminate]. destruct (outer st); cbn; congruence.
  Qed.

  Lemma loop_fuel : forall fuel st, stack_ok (posn st) (top st) (outer st) (skipped st) -> posn st <= len -> len < fuel + posn st ->
    loop' fuel st <> Err OutOfFuel.
  Proof.
    induction fuel as [|fuel IH]; intros st HS Hp Hf; cbn [loop]; [exfalso; lia|].
    destruct (Nat.ltb_spec (posn st) len) as [Hlt|Hge].
    - destruct (step' st) as [st'|er] eqn:E; cbn [bind].
      + destruct (step_ok st st' HS E) as [HS' Hlt']. apply IH; [exact HS'|eapply step_posn; eauto|lia].
      + apply step_err in E. congruence.
    - destruct (text_eqb (f_name (top st)) (tx "#DOC")); congruence.
  Qed.

  Lemma loop_mono : forall n st m, loop' n st <> Err OutOfFuel -> n <= m -> loop' m st = loop' n st.
  Proof.
    induction n as [|n IH]; intros st m Hn Hm; [cbn in Hn; congruence|]. destruct m as [|m]; [lia|]. cbn [loop] in *.
    destruct (posn st <? len); [|reflexivity]. destruct (step' st) as [st'|er]; cbn [bind] in *; [|reflexivity]. apply IH; [exact Hn|lia].
  Qed.

  Definition st0 := mkP 0 (mkFrame 0 len (tx "#DOC") []) [] [].
  Lemma st0_ok : stack_ok (posn st0) (top st0) (outer st0) (skipped st0).
  Proof. constructor. constructor. Qed.

  Lemma parse_fuel : parse len lex style_end <> Err OutOfFuel.
  Proof. unfold parse. apply loop_fuel; [exact st0_ok|cbn; lia|cbn; lia]. Qed.

  Lemma parse_iff doc sk : parse len lex style_end = Ok (doc, sk) <->
    exists cs, doc = HNode 0 len (tx "#DOC") None cs /\ forest' (tx "#DOC") 0 len cs sk.
  Proof.
    split.
    - intros H. unfold parse in H. eapply loop_ok; [exact st0_ok|cbn; lia|exact H].
    - intros (cs & -> & Hf). destruct (forest_loop _ _ _ _ _ Hf st0 eq_refl eq_refl) as (n & Hn).
      specialize (Hn 1). assert (E : loop' (n + 1) st0 = Ok (HNode 0 len (tx "#DOC") None cs, sk)).
      { rewrite Hn. cbn [loop adv posn]. rewrite Nat.ltb_irrefl. reflexivity. }
      pose proof parse_fuel as Hp. unfold parse in *. fold st0 in *.
      destruct (Nat.le_ge_cases (n + 1) (S len)) as [Hle|Hle].
      + rewrite (loop_mono (n + 1) st0 (S len)); [exact E|congruence|exact Hle].
      + rewrite <- (loop_mono (S len) st0 (n + 1)); [exact E|exact Hp|exact Hle].
  Qed.

  (* ---- consequences ---- *)

  Lemma forest_le o p q cs sk : forest' o p q cs sk -> p <= q.
  Proof.
    induction 1; auto; repeat match goal with H : lex _ = Some _ |- _ => apply (lo_progress _ _ _ Hlex) in H
      | H : style_end _ = Some _ |- _ => apply (lo_style _ _ _ Hlex) in H end; lia.
  Qed.

  Lemma forest_tiled o p q cs sk : forest' o p q cs sk -> sk = [] -> tile p q cs /\ forall c, In c cs -> tiled c.
  Proof.
    induction 1 as [o p|o p ev e q name cs sk Hl Hev Hf IH|o p e q name cs sk Hl Hv Hf IH
      |o p a b e q name kids cs sk sk' Hl Hv Hns Hk IHk Hl' Hf IH
      |o p a s b e q kids cs sk sk' Hl Hs Hk IHk Hl' Hf IH|o p name e q cs sk Hl Hne Hf IH]; intros E.
    - split; [reflexivity|intros c []].
    - destruct (IH E) as [I1 I2]. apply (lo_progress _ _ _ Hlex) in Hl. split; [split; auto|]. intros c [<-|Hc]; [constructor; lia|auto].
    - destruct (IH E) as [I1 I2]. apply (lo_progress _ _ _ Hlex) in Hl. split; [split; auto|]. intros c [<-|Hc]; [constructor; lia|auto].
    - apply app_eq_nil in E as [E1 E2]. destruct (IH E2) as [I1 I2], (IHk E1) as [K1 K2].
      apply (lo_progress _ _ _ Hlex) in Hl, Hl'. apply forest_le in Hk. split; [split; auto|].
      intros c [<-|Hc]; [|auto]. constructor; auto; lia.
    - apply app_eq_nil in E as [E1 E2]. destruct (IH E2) as [I1 I2], (IHk E1) as [K1 K2].
      apply (lo_progress _ _ _ Hlex) in Hl, Hl'. apply (lo_style _ _ _ Hlex) in Hs. apply forest_le in Hk. split; [split; auto|].
      intros c [<-|Hc]; [|auto]. constructor; try lia; [split; auto|]. intros c [<-|Hc]; [constructor; lia|auto].
    - discriminate.
  Qed.
End HTML.

Lemma tile_le cs : forall a b, tile a b cs -> (forall c, In c cs -> tiled c) -> a <= b.
Proof.
  induction cs as [|c cs IH]; intros a b H Hc; cbn in H; [lia|]. destruct H as [<- H]. apply IH in H; [|intros; apply Hc; now right].
  specialize (Hc c (or_introl eq_refl)). inversion Hc; subst; cbn in *; lia.
Qed.

Lemma slice_slice {A} (t : list A) a b c : a <= b -> b <= c -> slice a b t ++ slice b c t = slice a c t.
Proof.
  intros H1 H2. unfold slice. replace (c - a) with ((b - a) + (c - b)) by lia.
  rewrite <- (firstn_skipn (b - a) (firstn (b - a + (c - b)) (skipn a t))), firstn_firstn, Nat.min_l by lia. f_equal.
  rewrite skipn_firstn_comm, skipn_skipn. f_equal; [lia|f_equal; lia].
Qed.

Lemma flatten_tiled t n : tiled n -> flatten t n = slice (h_start n) (h_end n) t.
Proof.
  induction 1 as [s e n Hle|s e n a b cs H1 H2 H3 Ht Hc IH]; [reflexivity|]. cbn [flatten h_start h_end].
  assert (E : concat (map (flatten t) cs) = slice a b t).
  { clear H1 H2 H3. revert a Ht. induction cs as [|c cs IHcs]; intros a Ht; cbn in *.
    - subst. unfold slice. now rewrite Nat.sub_diag.
    - destruct Ht as [<- Ht]. rewrite (IH c (or_introl eq_refl)), (IHcs (fun c' H => Hc c' (or_intror H)) (fun c' H => IH c' (or_intror H)) _ Ht).
      apply slice_slice; [|eapply tile_le; [exact Ht|auto]]. specialize (Hc c (or_introl eq_refl)). inversion Hc; subst; cbn; lia. }
  rewrite E, app_assoc, !slice_slice; auto; lia.
Qed.

(* ---------------- the lookup ---------------- *)

(* [desc n m]: m is n or lies below it *)
Inductive desc : hnode -> hnode -> Prop :=
| d_refl n : desc n n
| d_step n c m : In c (h_children n) -> desc c m -> desc n m.
Definition covers (n : hnode) (p : nat) : Prop := h_start n <= p <= h_end n.
(* a whole document: the root has no tags of its own *)
Definition tiled_doc (n : hnode) : Prop :=
  h_inner n = None /\ tile (h_start n) (h_end n) (h_children n) /\ (forall c, In c (h_children n) -> tiled c).

Fixpoint first_covering (posn : nat) (cs : list hnode) : option hnode :=
  match cs with
  | [] => None
  | c :: cs' => if (h_start c <=? posn) && (posn <=? h_end c) then Some c else first_covering posn cs'
  end.

Lemma find_deepest_eq posn n : find_deepest posn n =
  if (h_start n <=? posn) && (posn <=? h_end n) then
    match h_children n with
    | [] => Ok n
    | _ => match first_covering posn (h_children n) with Some c => find_deepest posn c | None => Err AssertionError end
    end
  else Err AssertionError.
Proof.
  destruct n as [s e nm i cs]. cbn [find_deepest h_start h_end h_children]. destruct ((s <=? posn) && (posn <=? e)); [|reflexivity].
  destruct cs as [|c0 cs0]; [reflexivity|]. cbn [first_covering].
  destruct ((h_start c0 <=? posn) && (posn <=? h_end c0)); [reflexivity|]. induction cs0 as [|c cs IH]; [reflexivity|].
  cbn [first_covering]. destruct ((h_start c <=? posn) && (posn <=? h_end c)); [reflexivity|exact IH].
Qed.

Lemma cov_dec n p : (h_start n <=? p) && (p <=? h_end n) = true <-> covers n p.
Proof. unfold covers. rewrite andb_true_iff, !Nat.leb_le. tauto. Qed.

Lemma first_covering_some p cs c : first_covering p cs = Some c -> In c cs /\ covers c p.
Proof.
  induction cs as [|x cs IH]; cbn [first_covering]; [discriminate|]. destruct ((h_start x <=? p) && (p <=? h_end x)) eqn:E.
  - intros [= ->]. split; [now left|now apply cov_dec].
  - intros H. destruct (IH H). split; [now right|assumption].
Qed.

(* induction over trees *)
Fixpoint hsize (n : hnode) : nat := S (list_sum (map hsize (h_children n))).
Lemma hsize_child n c : In c (h_children n) -> hsize c < hsize n.
Proof.
  destruct n as [s e nm i cs]. cbn [h_children hsize]. intros H. assert (hsize c <= list_sum (map hsize cs)); [|lia].
  induction cs as [|x cs IH]; [destruct H|]. cbn [map]. assert (Hc : forall y m, list_sum (y :: m) = y + list_sum m) by reflexivity.
  rewrite Hc. destruct H as [->|H]; [lia|]. specialize (IH H). lia.
Qed.
Lemma tree_ind (P : hnode -> Prop) : (forall n, (forall c, In c (h_children n) -> P c) -> P n) -> forall n, P n.
Proof.
  intros H n. remember (hsize n) as k eqn:E. revert n E. induction k as [k IH] using lt_wf_ind. intros n ->. apply H. intros c Hc.
  eapply IH; [apply hsize_child; exact Hc|reflexivity].
Qed.

Lemma find_sound p : forall n m, find_deepest p n = Ok m -> desc n m /\ covers m p /\ h_children m = [].
Proof.
  intros n. induction n as [n IH] using tree_ind. intros m H. rewrite find_deepest_eq in H.
  destruct ((h_start n <=? p) && (p <=? h_end n)) eqn:E; [|discriminate]. apply cov_dec in E.
  destruct (h_children n) as [|c0 cs0] eqn:Ec.
  - inversion H; subst. split; [constructor|auto].
  - destruct (first_covering p (c0 :: cs0)) as [c|] eqn:Ef; [|discriminate]. apply first_covering_some in Ef as [Hin Hcov].
    destruct (IH c Hin m H) as (D & R). split; [|exact R]. econstructor; [rewrite Ec; exact Hin|exact D].
Qed.

Lemma tiled_children n c : tiled n -> In c (h_children n) -> tiled c.
Proof. intros H. destruct H; cbn; [tauto|auto]. Qed.
Lemma tiled_le n : tiled n -> h_start n <= h_end n.
Proof. intros H. destruct H; cbn; lia. Qed.

Lemma tile_bounds cs : forall a b, tile a b cs -> (forall c, In c cs -> tiled c) -> forall c, In c cs -> a <= h_start c /\ h_end c <= b.
Proof.
  induction cs as [|x cs IH]; intros a b H Ht c Hc; [destruct Hc|]. cbn in H. destruct H as [<- H].
  pose proof (tiled_le x (Ht x (or_introl eq_refl))). pose proof (tile_le _ _ _ H (fun c' H' => Ht c' (or_intror H'))).
  destruct Hc as [->|Hc]; [lia|]. destruct (IH _ _ H (fun c' H' => Ht c' (or_intror H')) c Hc). lia.
Qed.
Lemma child_bounds n c : tiled n -> In c (h_children n) -> h_start n <= h_start c /\ h_end c <= h_end n.
Proof.
  intros H Hc. destruct H as [s e nm Hle|s e nm a b cs H1 H2 H3 Ht Hcs]; cbn in *; [tauto|].
  destruct (tile_bounds _ _ _ Ht Hcs c Hc). lia.
Qed.
Lemma desc_bounds n m : desc n m -> tiled n -> h_start n <= h_start m /\ h_end m <= h_end n /\ tiled m.
Proof.
  induction 1 as [n|n c m Hc D IH]; intros Ht; [auto|]. destruct (IH (tiled_children _ _ Ht Hc)) as (A & B & C).
  destruct (child_bounds _ _ Ht Hc). repeat split; auto; lia.
Qed.

(* the first child that covers p, when one starts before p *)
Lemma first_covering_inside p cs : forall a b, tile a b cs -> (forall c, In c cs -> tiled c) ->
  forall c, In c cs -> h_start c < p <= h_end c -> first_covering p cs = Some c.
Proof.
  induction cs as [|x cs IH]; intros a b H Ht c Hc Hp; [destruct Hc|]. cbn in H. destruct H as [Hx H]. cbn [first_covering].
  destruct Hc as [->|Hc].
  - replace ((h_start c <=? p) && (p <=? h_end c)) with true; [reflexivity|]. symmetry. apply cov_dec. unfold covers. lia.
  - destruct (tile_bounds _ _ _ H (fun c' H' => Ht c' (or_intror H')) c Hc) as [B1 B2].
    destruct ((h_start x <=? p) && (p <=? h_end x)) eqn:E; [apply cov_dec in E; unfold covers in E; lia|].
    apply (IH _ _ H); auto. intros; apply Ht; now right.
Qed.
Lemma first_covering_total p cs : forall a b, tile a b cs -> (forall c, In c cs -> tiled c) -> cs <> [] -> a <= p <= b ->
  exists c, first_covering p cs = Some c.
Proof.
  induction cs as [|x cs IH]; intros a b H Ht Hne Hp; [congruence|]. cbn in H. destruct H as [Hx H]. cbn [first_covering].
  destruct ((h_start x <=? p) && (p <=? h_end x)) eqn:E; [eauto|].
  assert (h_end x < p).
  { destruct (Nat.leb_spec (h_start x) p); [|lia]. destruct (Nat.leb_spec p (h_end x)); [discriminate|lia]. }
  destruct cs as [|y cs]; [cbn in H; lia|]. apply (IH _ _ H); [intros; apply Ht; now right|discriminate|lia].
Qed.

Lemma find_inside p : forall n, tiled n -> forall m, desc n m -> h_children m = [] -> h_start m < p <= h_end m -> find_deepest p n = Ok m.
Proof.
  intros n. induction n as [n IH] using tree_ind. intros Ht m D Hm Hp. rewrite find_deepest_eq.
  destruct (desc_bounds _ _ D Ht) as (B1 & B2 & _).
  replace ((h_start n <=? p) && (p <=? h_end n)) with true by (symmetry; apply cov_dec; unfold covers; lia).
  destruct D as [n|n c m Hc D]; [now rewrite Hm|].
  destruct (desc_bounds _ _ D (tiled_children _ _ Ht Hc)) as (C1 & C2 & _).
  destruct Ht as [s e nm Hle|s e nm a b cs H1 H2 H3 Htl Hcs]; cbn [h_children] in *; [destruct Hc|].
  rewrite (first_covering_inside p cs a b Htl Hcs c Hc) by lia. destruct cs; [destruct Hc|]. now apply IH; auto.
Qed.

(* [tag_of n p]: p lies in one of n's tags, its right edge included *)
Definition in_tags (n : hnode) (p : nat) : Prop :=
  exists a b, h_inner n = Some (a, b) /\ ((h_start n < p < a) \/ (b < p <= h_end n)).
Definition at_tags (n : hnode) (p : nat) : Prop :=
  exists a b, h_inner n = Some (a, b) /\ ((h_start n <= p < a) \/ (b < p <= h_end n)).

Lemma find_in_tags p : forall n, tiled n -> forall m, desc n m -> h_children m <> [] -> in_tags m p -> find_deepest p n = Err AssertionError.
Proof.
  intros n. induction n as [n IH] using tree_ind. intros Ht m D Hm Hp. rewrite find_deepest_eq.
  destruct (desc_bounds _ _ D Ht) as (B1 & B2 & Hmt). destruct Hp as (a & b & Hi & Hp).
  assert (Hb : h_start m < p <= h_end m).
  { inversion Hmt; subst; cbn in *; [discriminate|]. inversion Hi; subst. lia. }
  replace ((h_start n <=? p) && (p <=? h_end n)) with true by (symmetry; apply cov_dec; unfold covers; lia).
  destruct D as [n|n c m Hc D].
  - destruct (h_children n) as [|c0 cs0] eqn:Ec; [congruence|]. destruct (first_covering p (c0 :: cs0)) as [c|] eqn:Ef; [|reflexivity].
    apply first_covering_some in Ef as [Hin Hcov]. exfalso. unfold covers in Hcov.
    inversion Hmt as [|s e nm a' b' cs H1 H2 H3 Htl Hcs]; subst; [discriminate|]. cbn in Ec, Hi, Hp. inversion Hi; subst.
    destruct (tile_bounds _ _ _ Htl Hcs c Hin). lia.
  - destruct (desc_bounds _ _ D (tiled_children _ _ Ht Hc)) as (C1 & C2 & _).
    destruct Ht as [s e nm Hle|s e nm a' b' cs H1 H2 H3 Htl Hcs]; cbn [h_children] in *; [destruct Hc|].
    rewrite (first_covering_inside p cs a' b' Htl Hcs c Hc) by lia. destruct cs; [destruct Hc|]. apply IH with (m := m); auto.
    exists a, b. auto.
Qed.

Lemma find_fails p : forall n, tiled n -> covers n p -> forall er, find_deepest p n = Err er ->
  exists m, desc n m /\ h_children m <> [] /\ at_tags m p.
Proof.
  intros n. induction n as [n IH] using tree_ind. intros Ht Hcov er H. rewrite find_deepest_eq in H.
  rewrite (proj2 (cov_dec n p) Hcov) in H. destruct (h_children n) as [|c0 cs0] eqn:Ec; [discriminate|].
  destruct (first_covering p (c0 :: cs0)) as [c|] eqn:Ef.
  - apply first_covering_some in Ef as [Hin Hc]. assert (In c (h_children n)) as Hin' by (rewrite Ec; exact Hin).
    destruct (IH c Hin (tiled_children _ _ Ht Hin') Hc er H) as (m & D & R). exists m. split; [|exact R]. econstructor; eauto.
  - exists n. split; [constructor|]. split; [congruence|]. unfold covers in Hcov.
    destruct Ht as [s e nm Hle|s e nm a b cs H1 H2 H3 Htl Hcs]; cbn [h_start h_end h_children] in *; [discriminate|]. subst cs. exists a, b. split; [reflexivity|]. cbn [h_start h_end].
    destruct (Nat.lt_ge_cases p a); [left; lia|]. destruct (Nat.lt_ge_cases b p); [right; lia|].
    destruct (first_covering_total p _ _ _ Htl Hcs ltac:(discriminate)) as (c & Hc); [lia|congruence].
Qed.

(* ---- the same for a whole document ---- *)

Lemma doc_child n p c : tiled_doc n -> In c (h_children n) -> h_start c < p <= h_end c -> find_deepest p n = find_deepest p c.
Proof.
  intros (_ & Htl & Hcs) Hc Hp. rewrite find_deepest_eq. destruct (tile_bounds _ _ _ Htl Hcs c Hc).
  replace ((h_start n <=? p) && (p <=? h_end n)) with true by (symmetry; apply cov_dec; unfold covers; lia).
  rewrite (first_covering_inside p _ _ _ Htl Hcs c Hc Hp). destruct (h_children n); [destruct Hc|reflexivity].
Qed.

Lemma doc_inside n p m : tiled_doc n -> desc n m -> h_children m = [] -> h_start m < p <= h_end m -> find_deepest p n = Ok m.
Proof.
  intros Hd D Hm Hp. pose proof Hd as (_ & Htl & Hcs). destruct D as [n|n c m Hc D].
  - rewrite find_deepest_eq, Hm. replace ((h_start n <=? p) && (p <=? h_end n)) with true by (symmetry; apply cov_dec; unfold covers; lia). reflexivity.
  - destruct (desc_bounds _ _ D (Hcs c Hc)) as (B1 & B2 & _). rewrite (doc_child n p c Hd Hc) by lia. apply find_inside; auto.
Qed.
Lemma doc_in_tags n p m : tiled_doc n -> desc n m -> h_children m <> [] -> in_tags m p -> find_deepest p n = Err AssertionError.
Proof.
  intros Hd D Hm Hp. pose proof Hd as (Hi & Htl & Hcs). destruct D as [n|n c m Hc D].
  - destruct Hp as (a & b & Hi' & _). congruence.
  - destruct (desc_bounds _ _ D (Hcs c Hc)) as (B1 & B2 & Hmt). rewrite (doc_child n p c Hd Hc).
    + now apply find_in_tags with (m := m); auto.
    + destruct Hp as (a & b & Hi' & Hp). inversion Hmt; subst; cbn in *; [discriminate|]. inversion Hi'; subst. lia.
Qed.
Lemma doc_fails n p er : tiled_doc n -> covers n p -> find_deepest p n = Err er ->
  er = AssertionError /\ exists m, desc n m /\ h_children m <> [] /\ at_tags m p.
Proof.
  intros (Hi & Htl & Hcs) Hcov H. split.
  { clear -H. revert er H. induction n as [n IH] using tree_ind. intros er H. rewrite find_deepest_eq in H.
    destruct ((h_start n <=? p) && (p <=? h_end n)); [|congruence]. destruct (h_children n) as [|c0 cs0]; [congruence|].
    destruct (first_covering p (c0 :: cs0)) as [c|] eqn:Ef; [|congruence]. apply first_covering_some in Ef as [Hin _]. eapply IH; eauto. }
  rewrite find_deepest_eq in H. rewrite (proj2 (cov_dec n p) Hcov) in H. destruct (h_children n) as [|c0 cs0] eqn:Ec; [discriminate|].
  destruct (first_covering_total p _ _ _ Htl Hcs ltac:(discriminate) Hcov) as (c & Hc). rewrite Hc in H.
  apply first_covering_some in Hc as [Hin Hc]. destruct (find_fails p c (Hcs c Hin) Hc er H) as (m & D & R). exists m. split; [|exact R].
  econstructor; [rewrite Ec; exact Hin|exact D].
Qed.
