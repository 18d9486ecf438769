(* Lemmas for parsing a text with the source of tokens. *)
From Coq Require Import Cantor.
From Verif Require Import M_Base M_Earley M_Tip M_Parse L_Earley L_EarleyTrace L_Tip L_TipMain L_TipRun.

Section Steps.
  Variable source : text.
  Variable lex : lgoal -> nat -> res (ekind * nat * nat).
  Notation inv := (inv source).
  Notation inv2 := (inv2 lex).

  (* ---- where elements come from ---- *)
  Definition lexed (e : elem) : Prop :=
    ek e = E_semicolon /\ estart e = eend e \/ ek e = E_end /\ estart e = length source /\ eend e = length source \/ exists g, lex g (estart e) = Ok (ek e, estart e, eend e).
  Definition all_lexed (t : tip) : Prop := forall e, In e (elems t) -> lexed e.
  Lemma get_one_lexed t g b t' : get_one source lex t g = Ok (b, t') -> all_lexed t -> all_lexed t'.
  Proof.
    intros H A e I. unfold get_one in H. destruct (done t); [injection H as <- <-; auto|]. destruct (scout t =? length source) eqn:S.
    - apply Nat.eqb_eq in S. injection H as <- <-. cbn in I. apply in_app_iff in I as [I|[<-|[]]]; [auto|]. right. left. auto.
    - destruct (lex g (scout t)) as [[[k s] e0]|x] eqn:L; cbn [bind] in H; [|discriminate]. destruct (s =? scout t) eqn:ES; cbn [assert_ bind] in H; [|discriminate]. destruct (s <? e0); cbn [assert_ bind] in H; [|discriminate].
      apply Nat.eqb_eq in ES. subst s. injection H as <- <-. cbn in I. apply in_app_iff in I as [I|[<-|[]]]; [auto|]. right. right. exists g. exact L.
  Qed.
  Lemma scout_lexed n : forall t t', scout_ahead source lex n t = Ok t' -> all_lexed t -> all_lexed t'.
  Proof.
    induction n as [|n IH]; intros t t' H A; cbn in H; [discriminate|]. destruct (get_one source lex t InputElement_common) as [[[|] t1]|e] eqn:G.
    - apply (IH _ _ H). eapply get_one_lexed; eauto.
    - injection H as <-. eapply get_one_lexed; eauto.
    - destruct e; try discriminate. injection H as <-. auto.
  Qed.
  Lemma advance_lexed t g e t' : advance_token_cursor source lex t g = Ok (e, t') -> all_lexed t -> all_lexed t'.
  Proof.
    intros H A. unfold advance_token_cursor in H. destruct (match end_i _ with Some m => (cur t + 1 <=? m)%Z | None => true end); cbn [assert_ bind] in H; [|discriminate]. destruct (match end_i _ with Some m => (cur t + 1 =? m)%Z | None => false end).
    - destruct (py_nth _ _); cbn [bind] in H; [|discriminate]. injection H as _ <-. exact A.
    - destruct (_ <=? _)%Z; cbn [assert_ bind] in H; [|discriminate]. destruct (_ <? _)%Z.
      + destruct (py_nth _ _); cbn [bind] in H; [|discriminate]. injection H as _ <-. exact A.
      + destruct (get_one source lex _ g) as [[b t1]|] eqn:G; cbn [bind] in H; [|discriminate]. destruct b; cbn [fst snd assert_ bind] in H; [|discriminate]. destruct (_ <? _)%Z; cbn [assert_ bind] in H; [|discriminate].
        destruct (scout_ahead source lex (fuel source) t1) as [t2|] eqn:SC; cbn [bind] in H; [|discriminate]. destruct (py_nth _ _); cbn [bind] in H; [|discriminate]. injection H as _ <-.
        eapply scout_lexed; eauto. eapply get_one_lexed; eauto.
  Qed.
  Lemma insert_lexed t s t' : insert_before_current t s = Ok t' -> ek s = E_semicolon -> estart s = eend s -> all_lexed t -> all_lexed t'.
  Proof.
    intros H K E A x I. unfold insert_before_current in H. destruct (py_nth _ _) as [[ct i]|]; cbn [bind] in H; [|discriminate]. destruct (nth_error _ _); cbn [bind] in H; [|discriminate]. destruct (_ =? _); cbn [assert_ bind] in H; [|discriminate].
    injection H as <-. cbn in I. unfold insert_at in I. apply in_app_iff in I as [I|[<-|I]].
    - apply A. rewrite <- (firstn_skipn i (elems t)). apply in_or_app. auto.
    - left. auto.
    - apply A. rewrite <- (firstn_skipn i (elems t)). apply in_or_app. auto.
  Qed.
  Lemma gnti_lexed t posn exp kl r t' : gnti source lex t posn exp kl = Ok (r, t') -> all_lexed t -> all_lexed t'.
  Proof.
    intros H A. unfold gnti in H. destruct (lexical_goal exp) as [g|]; cbn [bind] in H; [|discriminate]. destruct (advance_token_cursor source lex t g) as [[e t1]|] eqn:AD; cbn [bind] in H; [|discriminate].
    pose proof (advance_lexed _ _ _ _ AD A) as A1. destruct (named_token e) as [nt|]; cbn [bind] in H; [|discriminate]. destruct (matching source e nt exp); [|injection H as _ <-; auto].
    match type of H with bind ?x _ = _ => destruct x as [b|] end; cbn [bind] in H; [|discriminate]. destruct (negb b); [injection H as _ <-; auto|].
    destruct (match asi_posn t1 with Some p => p =? posn | None => false end); [injection H as _ <-; auto|].
    destruct (filter is_semi exp) as [|s [|]]; [injection H as _ <-; exact A1| |discriminate].
    destruct kl; [|injection H as _ <-; exact A1|]; (match type of H with context [insert_before_current ?x ?y] => destruct (insert_before_current x y) as [t2|] eqn:INS end; cbn [bind] in H; [|discriminate]; injection H as _ <-; eapply insert_lexed; eauto).
  Qed.
  Lemma parse_calls_lexed t p : parse_calls source lex t p -> all_lexed t.
  Proof.
    induction 1 as [t H|t p exp kl ms p' t' PC IH H].
    - unfold new_tip in H. destruct (scout_ahead source lex (fuel source) _) as [t1|] eqn:SC; cbn [bind] in H; [|discriminate]. injection H as <-. eapply scout_lexed; eauto. intros e [].
    - eapply gnti_lexed; eauto.
  Qed.

  (* ---- the elements appended begin with a token ---- *)
  Definition front_token (l : list elem) : Prop := l = [] \/ exists e l', l = e :: l' /\ token e.
  Lemma front_app a b : front_token a -> (a = [] -> front_token b) -> front_token (a ++ b).
  Proof. intros [->|(e & l & -> & T)] H; [now apply H|]. right. exists e, (l ++ b). auto. Qed.
  Lemma get_one_front t g b t' : lexer_lawful source lex -> (done t = false -> lex InputElement_common (scout t) = Err UserError) -> get_one source lex t g = Ok (b, t') -> exists l, elems t' = elems t ++ l /\ front_token l.
  Proof.
    intros (_ & _ & _ & L3) F H. unfold get_one in H. destruct (done t) eqn:D; [injection H as <- <-; exists []; rewrite app_nil_r; split; [auto|now left]|]. specialize (F eq_refl).
    destruct (scout t =? length source).
    - injection H as <- <-. cbn. eexists. split; [reflexivity|]. right. eexists _, []. split; [reflexivity|]. intros n. discriminate.
    - destruct (lex g (scout t)) as [[[k s] e0]|x] eqn:L; cbn [bind] in H; [|discriminate]. destruct (s =? scout t); cbn [assert_ bind] in H; [|discriminate]. destruct (s <? e0); cbn [assert_ bind] in H; [|discriminate].
      injection H as <- <-. cbn. eexists. split; [reflexivity|]. right. eexists _, []. split; [reflexivity|]. intros n Q. cbn in Q. subst k. destruct (L3 _ _ _ _ _ L) as [r R]. congruence.
  Qed.
  Lemma advance_front t g e t' : lexer_lawful source lex -> inv t -> inv2 t -> advance_token_cursor source lex t g = Ok (e, t') -> exists l, elems t' = elems t ++ l /\ front_token l.
  Proof.
    intros LW I J H. pose proof (proj1 LW) as Hlex. assert (Z : exists l : list elem, elems t = elems t ++ l /\ front_token l) by (exists []; rewrite app_nil_r; split; [auto|now left]).
    unfold advance_token_cursor in H. destruct (match end_i _ with Some m => (cur t + 1 <=? m)%Z | None => true end); cbn [assert_ bind] in H; [|discriminate]. destruct (match end_i _ with Some m => (cur t + 1 =? m)%Z | None => false end).
    - destruct (py_nth _ _); cbn [bind] in H; [|discriminate]. injection H as _ <-. exact Z.
    - destruct (_ <=? _)%Z; cbn [assert_ bind] in H; [|discriminate]. destruct (_ <? _)%Z.
      + destruct (py_nth _ _); cbn [bind] in H; [|discriminate]. injection H as _ <-. exact Z.
      + destruct (get_one source lex _ g) as [[b t1]|] eqn:G; cbn [bind] in H; [|discriminate]. destruct b; cbn [fst snd assert_ bind] in H; [|discriminate]. destruct (_ <? _)%Z; cbn [assert_ bind] in H; [|discriminate].
        destruct (scout_ahead source lex (fuel source) t1) as [t2|] eqn:SC; cbn [bind] in H; [|discriminate]. destruct (py_nth _ _); cbn [bind] in H; [|discriminate]. injection H as _ <-.
        assert (I0 : inv (mkTip (asi_posn t) (elems t) (toks t) (cur t + 1) (scout t) (done t) (end_i t) (fresh t))) by (apply (inv_same source t); auto; cbn; pose proof (i_cur _ _ I); lia).
        pose proof G as G0. apply (get_one_front _ _ _ _ LW) in G0; [|exact (r_front _ _ J)]. destruct G0 as (l1 & E1 & F1). destruct (get_one_inv source lex Hlex _ _ _ _ I0 G) as (I1 & _ & _ & _ & _ & _ & _ & P).
        destruct (scout_inv source lex Hlex _ _ _ I1 SC) as (_ & _ & _ & _ & (l2 & E2) & _). cbn in E1. rewrite E1 in E2. rewrite <- app_assoc in E2. exists (l1 ++ l2). split; [auto|]. apply front_app; [auto|]. intros ->.
        exfalso. destruct (P eq_refl) as [D _]. cbn in D. unfold get_one in G. cbn [done scout elems] in G. rewrite D in G. clear - G E1.
        destruct (scout t =? length source); [injection G as <-; cbn in E1; apply app_inv_head in E1; discriminate|]. destruct (lex g (scout t)) as [[[k s] e0]|x]; cbn [bind] in G; [|discriminate]. destruct (s =? scout t); cbn [assert_ bind] in G; [|discriminate]. destruct (s <? e0); cbn [assert_ bind] in G; [|discriminate].
        injection G as <-. cbn in E1. apply app_inv_head in E1. discriminate.
  Qed.
  (* what a call does to the list of elements *)
  Lemma gnti_elems t posn exp kl r t' : lexer_lawful source lex -> inv t -> inv2 t -> gnti source lex t posn exp kl = Ok (r, t') ->
    exists l, front_token l /\ (elems t' = elems t ++ l \/ exists la s e lb, elems t ++ l = la ++ e :: lb /\ elems t' = la ++ s :: e :: lb /\ token e /\ token s /\ nth_error (toks t') (Z.to_nat (cur t')) = Some (s, length la)).
  Proof.
    intros LW I J H. pose proof (proj1 LW) as Hlex. unfold gnti in H. destruct (lexical_goal exp) as [g|]; cbn [bind] in H; [|discriminate]. destruct (advance_token_cursor source lex t g) as [[e t1]|] eqn:AD; cbn [bind] in H; [|discriminate].
    destruct (advance_front _ _ _ _ LW I J AD) as (l & E & F). exists l. split; [auto|]. destruct (advance_inv source lex Hlex _ _ _ _ I AD) as (I1 & C1 & _). pose proof (i_cur _ _ I) as CI.
    destruct (named_token e) as [nt|]; cbn [bind] in H; [|discriminate]. destruct (matching source e nt exp); [|injection H as _ <-; auto].
    match type of H with bind ?x _ = _ => destruct x as [b|] end; cbn [bind] in H; [|discriminate]. destruct (negb b); [injection H as _ <-; auto|].
    destruct (match asi_posn t1 with Some p => p =? posn | None => false end); [injection H as _ <-; auto|].
    destruct (filter is_semi exp) as [|s [|]]; [injection H as _ <-; auto| |discriminate].
    assert (KL : kl = K_EmptyStatement \/ kl <> K_EmptyStatement) by (destruct kl; auto; right; discriminate). destruct KL as [->|KL]; [injection H as _ <-; auto|].
    match type of H with context [insert_before_current ?x ?y] => destruct (insert_before_current x y) as [t2|] eqn:INS end; cbn [bind] in H; [|destruct kl; discriminate || congruence].
    assert (t' = t2) as -> by (destruct kl; [|congruence|]; injection H as _ <-; auto). right.
    eapply insert_inv in INS; [|apply (inv_same source t1 _ I1); auto; cbn; lia|cbn; lia|reflexivity].
    destruct INS as (I2 & C2 & _ & _ & _ & l1 & ct & l2 & E1 & E2 & TC & _ & N2 & _). cbn [elems cur] in E1, C2, N2. rewrite E in E1. eexists l1, _, ct, l2. split; [exact E1|]. split; [exact E2|]. split; [exact TC|]. split; [intros n; discriminate|]. rewrite C2. exact N2.
  Qed.
End Steps.
