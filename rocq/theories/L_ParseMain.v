(* Lemmas for parsing a text: bounds, and which errors there are. *)
From Coq Require Import Cantor.
From Verif Require Import M_Base M_Earley M_Tip M_Parse L_Earley L_EarleyTrace L_Tip L_TipMain L_TipRun L_Parse L_ParseRun.

Definition plain_error (e : exn) : Prop := e = AssertionError \/ e = IndexError \/ e = AttributeError.
Lemma py_nth_errors {A} (l : list A) i e : py_nth l i = Err e -> plain_error e.
Proof. unfold py_nth, plain_error. cbv zeta. match goal with |- (if ?b then _ else _) = _ -> _ => destruct b end; [intros H; injection H as <-; auto|]. destruct (nth_error _ _); intros H; [discriminate|injection H as <-; auto]. Qed.
Lemma lt_in_errors l e : lt_in l = Err e -> plain_error e.
Proof. induction l as [|x l IH]; cbn; [discriminate|]. unfold plain_error in *. destruct (ek x) as [[| |[|]]| | | | |]; auto; try discriminate; intros H; injection H as <-; auto. Qed.
Lemma assert_errors b e : assert_ b = Err e -> plain_error e.
Proof. unfold plain_error. destruct b; cbn; [discriminate|]. intros H; injection H as <-. auto. Qed.
Lemma rel_gap_errors t off e : rel_gap t off = Err e -> plain_error e.
Proof.
  intros H. unfold rel_gap in H. cbv zeta in H.
  repeat match type of H with
    | bind (assert_ ?b) _ = _ => destruct b eqn:?; cbn [assert_ bind] in H; [|injection H as <-; unfold plain_error; now auto]
    | bind (py_nth ?l ?i) _ = _ => destruct (py_nth l i) eqn:?; cbn [bind] in H; [|injection H as <-; eapply py_nth_errors; now eauto]
    | bind (if ?b then _ else _) _ = _ => destruct b eqn:?; cbn [bind] in H
    | bind (bind (py_nth ?l ?i) _) _ = _ => destruct (py_nth l i) eqn:?; cbn [bind] in H; [|injection H as <-; eapply py_nth_errors; now eauto]
    | Err _ = Err _ => injection H as <-; unfold plain_error; now auto
    | lt_in _ = _ => eapply lt_in_errors; now eauto
    end.
Qed.
Lemma check_errors source reserved t prev c e : check_constraint source reserved t prev c = Err e -> plain_error e.
Proof.
  destruct c as [m tss| |]; cbn [check_constraint].
  - assert (LO : forall ts e, lookahead source t ts = Err e -> plain_error e).
    { intros ts x H. unfold lookahead, plain_error in *. repeat match type of H with match ?l with _ => _ end = _ => destruct l end; try discriminate; try (injection H as <-; now auto).
      match type of H with bind ?g _ = _ => destruct g eqn:G end; cbn [bind] in H; [destruct a; discriminate|]. injection H as <-. eapply rel_gap_errors; eauto. }
    assert (AL : forall e, any_lookahead source t tss = Err e -> plain_error e).
    { induction tss as [|ts tss IH]; intros x H; cbn in H; [discriminate|]. destruct (lookahead source t ts) as [[|]|y] eqn:L; cbn [bind] in H; [discriminate|auto|]. injection H as <-. eauto. }
    intros H. destruct (any_lookahead source t tss) eqn:A; cbn [bind] in H; [discriminate|]. injection H as <-. auto.
  - intros H. destruct (rel_gap t 1) eqn:G; cbn [bind] in H; [discriminate|]. injection H as <-. eapply rel_gap_errors; eauto.
  - unfold plain_error. destruct prev as [[[|] x]|]; intros H; try discriminate; injection H as <-; auto.
Qed.
Lemma kludge_from_errors kind its : forall k e, kludge_from kind its k = Err e -> plain_error e.
Proof.
  induction its as [|i its IH]; intros k e H; cbn in H; [discriminate|]. destruct (kind (lhs (pr i))); [eauto| |]; (destruct k; cbn [assert_ bind] in H; [injection H as <-; unfold plain_error; now auto|eauto]).
Qed.

Section Bounds.
  Variable source : text.
  Variable lex : lgoal -> nat -> res (ekind * nat * nat).
  Hypothesis LW : lexer_lawful source lex.
  Lemma gnti_errors t posn exp kl e : inv source t -> inv2 lex t -> gnti source lex t posn exp kl = Err e -> plain_error e \/ e = UserError /\ done t = false /\ exists g, lex g (scout t) = Err UserError.
  Proof.
    intros I J H. pose proof (proj1 LW) as Hlex. unfold gnti in H. unfold lexical_goal in H. destruct (eqb _ _); cbn [assert_ bind] in H; [|injection H as <-; left; unfold plain_error; auto].
    match type of H with context [advance_token_cursor source lex t ?x] => set (g := x) in *; clearbody g end.
    destruct (advance_token_cursor source lex t g) as [[x t1]|y] eqn:A; cbn [bind] in H.
    - left. destruct (named_token x) as [nt|y] eqn:NT; cbn [bind] in H.
      + destruct (matching source x nt exp); [|discriminate]. match type of H with bind ?r _ = _ => destruct r as [may|y] eqn:MY end; cbn [bind] in H.
        * destruct (negb may); [discriminate|]. destruct (match asi_posn t1 with Some p => p =? posn | None => false end); [discriminate|]. destruct (filter is_semi exp) as [|s [|]]; [discriminate| |injection H as <-; unfold plain_error; auto].
          destruct kl; try discriminate; (match type of H with context [insert_before_current ?a ?b] => destruct (insert_before_current a b) eqn:INS end; cbn [bind] in H; [discriminate|]; injection H as <-;
            unfold insert_before_current in INS; destruct (py_nth _ _) as [[ct i]|] eqn:PN; cbn [bind] in INS; [|injection INS as <-; eapply py_nth_errors; eauto]; destruct (nth_error _ _); cbn [bind] in INS; [|injection INS as <-; unfold plain_error; auto];
            destruct (_ =? _); cbn [assert_ bind] in INS; [discriminate|injection INS as <-; unfold plain_error; auto]).
        * injection H as <-. destruct (ek x); try discriminate; (destruct (rel_gap t1 (-1)) eqn:G; cbn [bind] in MY; [discriminate|]; injection MY as <-; eapply rel_gap_errors; eauto).
      + injection H as <-. unfold named_token in NT. unfold plain_error. destruct (ek x); try discriminate; injection NT as <-; auto.
    - injection H as <-. unfold advance_token_cursor in A. cbv zeta in A. cbn [toks end_i] in A.
      destruct (match end_i t with Some m => (cur t + 1 <=? m)%Z | None => true end); cbn [assert_ bind] in A; [|injection A as <-; left; unfold plain_error; auto].
      destruct (match end_i t with Some m => (cur t + 1 =? m)%Z | None => false end).
      { destruct (py_nth _ _) eqn:PN; cbn [bind] in A; [discriminate|]. injection A as <-. left. eapply py_nth_errors; eauto. }
      destruct (cur t + 1 <=? _)%Z; cbn [assert_ bind] in A; [|injection A as <-; left; unfold plain_error; auto].
      destruct (cur t + 1 <? _)%Z.
      { destruct (py_nth _ _) eqn:PN; cbn [bind] in A; [discriminate|]. injection A as <-. left. eapply py_nth_errors; eauto. }
      set (t0 := mkTip (asi_posn t) (elems t) (toks t) (cur t + 1) (scout t) (done t) (end_i t) (fresh t)) in *.
      assert (I0 : inv source t0) by (apply (inv_same source t); auto; cbn; pose proof (i_cur _ _ I); lia).
      destruct (get_one_total source lex t0 g LW) as [[[b t1] G]|[G D]]; rewrite G in A; cbn [bind] in A.
      + left. destruct b; cbn [fst snd assert_ bind] in A; [|injection A as <-; unfold plain_error; auto]. destruct (_ <? _)%Z; cbn [assert_ bind] in A; [|injection A as <-; unfold plain_error; auto].
        destruct (get_one_inv source lex Hlex _ _ _ _ I0 G) as (I1 & _). destruct (scout_ok source lex (fuel source) LW t1 I1) as [t2 S]; [unfold fuel; destruct (done t1); lia|]. rewrite S in A. cbn [bind] in A.
        destruct (py_nth _ _) eqn:PN; cbn [bind] in A; [discriminate|]. injection A as <-. eapply py_nth_errors; eauto.
      + injection A as <-. right. split; [auto|]. split; [exact D|]. unfold get_one in G. rewrite D in G. destruct (scout t0 =? length source); [discriminate|]. destruct (lex g (scout t0)) as [[[k s] e]|x] eqn:L; cbn [bind] in G.
        * destruct (s =? scout t0); cbn [assert_ bind] in G; [|discriminate]. destruct (s <? e); discriminate.
        * exists g. injection G as ->. exact L.
  Qed.
  Lemma tiles_count l : forall a b, tiles a l b -> (forall e, In e l -> ek e <> E_end -> estart e < eend e) -> length (filter (fun e => match ek e with E_end => false | _ => true end) l) + a <= b.
  Proof.
    induction l as [|e l IH]; intros a b T S; cbn in *; [lia|]. destruct T as (E & L & T). specialize (IH _ _ T (fun x I => S x (or_intror I))). specialize (S e (or_introl eq_refl)). destruct (ek e); cbn; try lia; assert (estart e < eend e) by (apply S; discriminate); lia.
  Qed.
  Lemma tokens_bound t p : parse_calls source lex t p -> length (toks t) <= 2 * length source + 2.
  Proof.
    intros PC. pose proof (proj1 LW) as Hlex. destruct (parse_calls_posn source lex t p Hlex PC) as (I & EN & PS & _ & ND & IN). pose proof (parse_calls_lexed source lex t p PC) as LX.
    rewrite (i_toks _ _ I), toks_from_count.
    assert (A : length (filter inserted (elems t)) <= S (length source)).
    { rewrite <- (map_length estart). rewrite <- (seq_length (S (length source)) 0). apply NoDup_incl_length; [auto|]. intros x IX. apply in_map_iff in IX as (e & <- & IX). apply filter_In in IX as [IX Q]. destruct (IN e IX Q) as [L _].
      apply in_seq. pose proof (i_scout _ _ I). lia. }
    assert (B : length (filter (fun e => match ek e with E_end => false | _ => true end) (original (elems t))) + 0 <= scout t).
    { apply tiles_count; [apply I|]. intros e IE NE. unfold original in IE. apply filter_In in IE as [IE NI]. destruct (LX e IE) as [[Q _]|[[Q _]|[g Q]]]; [unfold inserted in NI; rewrite Q in NI; discriminate|congruence|].
      destruct LW as (_ & L1 & _). apply L1 in Q. lia. }
    assert (C : length (filter (fun e => match ek e with E_end => true | _ => false end) (elems t)) <= 1).
    { destruct (done t) eqn:D.
      - destruct (i_last _ _ I D) as (_ & l & e & -> & _ & NL). rewrite filter_app, app_length. assert (Z : filter (fun e => match ek e with E_end => true | _ => false end) l = []).
        { clear - NL. induction l as [|y l IH]; [auto|]. cbn. pose proof (NL y (or_introl eq_refl)) as NX. destruct (ek y); try congruence; apply IH; intros z IY; apply NL; now right. }
        rewrite Z. cbn. destruct (ek e); cbn; lia.
      - assert (Z : filter (fun e => match ek e with E_end => true | _ => false end) (elems t) = []); [|rewrite Z; cbn; lia]. match goal with |- ?f = [] => destruct f as [|x l] eqn:F end; [auto|].
        assert (IX : In x (filter (fun e => match ek e with E_end => true | _ => false end) (elems t))) by (rewrite F; now left). apply filter_In in IX as [IX Q]. exfalso. assert (done t = true) by (apply (i_done _ _ I); exists x; split; [auto|]; destruct (ek x); congruence). congruence. }
    pose proof (i_scout _ _ I) as SC. assert (D : forall l, length (filter (fun e => is_token (ek e)) l) <= length (filter inserted l) + length (filter (fun e => match ek e with E_end => false | _ => true end) (original l)) + length (filter (fun e => match ek e with E_end => true | _ => false end) l)).
    { clear. induction l as [|e l IH]; [cbn; lia|]. unfold original in *. cbn [filter]. assert (Q : inserted e = match ek e with E_semicolon => true | _ => false end) by reflexivity. rewrite Q. clear Q. destruct (ek e) eqn:K; cbn [is_token negb filter]; rewrite ?K; cbn [length]; lia. }
    specialize (D (elems t)). lia.
  Qed.
End Bounds.
