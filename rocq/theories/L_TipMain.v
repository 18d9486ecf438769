(* Lemmas for the calls on the source of tokens. *)
From Verif Require Import M_Base M_Tip L_Tip.

(* the condition of the rules for inserting a semicolon before element e, token number c *)
Definition may_insert (source : text) (t : tip) (c : nat) (e : elem) (kl : asi_kludge) : Prop :=
  ek e = E_end \/ (exists mid x, gap t c mid /\ In x mid /\ breaks_line x) \/ firstn (eend e - estart e) (skipn (estart e) source) = [125%N] \/ kl = K_DoWhileStatement.

Section Calls.
  Variable source : text.
  Variable lex : lgoal -> nat -> res (ekind * nat * nat).
  Hypothesis Hlex : lexer_ok source lex.
  Notation inv := (inv source).

  Lemma gap_unique_elems t p mid mid' : gap t p mid -> gap t p mid' -> mid = mid'.
  Proof.
    intros (l1 & l2 & E & N & C & A & B) (l1' & l2' & E' & N' & C' & A' & B'). rewrite E in E'. set (f := fun e => match ek e with E_non _ => false | _ => true end) in *.
    assert (NF : forall m, (forall x, In x m -> exists n, ek x = E_non n) -> filter f m = []).
    { induction m as [|x m IH]; intros H; [auto|]. cbn. destruct (H x (or_introl eq_refl)) as [n EN]. unfold f at 1. rewrite EN. apply IH. intros y I. apply H. now right. }
    assert (LE : forall a b c d : list elem, a ++ b = c ++ d -> length a <= length c -> exists z, c = a ++ z /\ b = z ++ d).
    { clear. induction a as [|x a IH]; intros b c d E L; cbn in *; [eauto|]. destruct c as [|y c]; cbn in *; [lia|]. injection E as -> E. destruct (IH b c d E) as (z & -> & ->); [lia|]. eauto. }
    assert (TF : forall e, token e -> f e = true) by (intros e T; unfold f; destruct (ek e) eqn:K; auto; destruct (T n K)).
    assert (HEAD : forall a b a' b' : list elem, a ++ b = a' ++ b' -> length (filter f a) = length (filter f a') -> (a = [] \/ exists l e, a = l ++ [e] /\ token e) -> (a' = [] \/ exists l e, a' = l ++ [e] /\ token e) -> length a <= length a' -> a = a').
    { intros a b a' b' E0 F _ T' L. destruct (LE _ _ _ _ E0 L) as (z & -> & _). rewrite filter_app, app_length in F. destruct z as [|y z] using rev_ind; [now rewrite app_nil_r|]. exfalso. clear IHz.
      destruct T' as [T'|(l & e & T' & T)]; [destruct a; destruct z; discriminate|]. rewrite app_assoc in T'. apply app_inj_tail in T' as [_ ->]. rewrite filter_app, app_length in F. cbn in F. rewrite (TF _ T) in F. cbn in F. lia. }
    assert (l1 = l1') as ->.
    { destruct (Nat.le_ge_cases (length l1) (length l1')); [eapply (HEAD l1 _ l1')|symmetry; eapply (HEAD l1' _ l1)]; eauto; congruence. }
    apply app_inv_head in E'. 
    assert (TAIL : forall a b a' b' : list elem, a ++ b = a' ++ b' -> (forall x, In x a -> exists n, ek x = E_non n) -> (forall x, In x a' -> exists n, ek x = E_non n) -> (b = [] \/ exists e l, b = e :: l /\ token e) -> length a <= length a' -> a = a').
    { intros a b a' b' E0 H1 H2 H3 L. destruct (LE _ _ _ _ E0 L) as (z & -> & ->). destruct z as [|y z]; [now rewrite app_nil_r|]. exfalso. destruct H3 as [H3|(e & l & H3 & T)]; [discriminate|]. injection H3 as -> _.
      destruct (H2 e) as [n EN]; [apply in_or_app; right; now left|]. exact (T n EN). }
    destruct (Nat.le_ge_cases (length mid) (length mid')); [eapply (TAIL mid _ mid')|symmetry; eapply (TAIL mid' _ mid)]; eauto.
  Qed.
  (* inserting a token after the gap leaves the gap *)
  Lemma gap_insert t t' l1 s ct l2 c mid : elems t = l1 ++ ct :: l2 -> elems t' = l1 ++ s :: ct :: l2 -> token s -> token ct -> length (toks_from 0 l1) = c -> gap t c mid -> gap t' c mid.
  Proof.
    intros E E' TS TC C G. pose proof G as (a & b & EA & N & CA & A & B). rewrite E in EA.
    assert (X : exists z, l1 = a ++ mid ++ z /\ b = z ++ ct :: l2 \/ exists z, a ++ mid = l1 ++ ct :: z).
    { assert (Y : forall m l b, l ++ ct :: l2 = m ++ b -> (exists z, l = m ++ z /\ b = z ++ ct :: l2) \/ exists z, m = l ++ ct :: z).
      { clear. induction m as [|x m IH]; intros l b E; cbn in *; [left; eauto|]. destruct l as [|y l]; cbn in *; injection E as -> E; [right; eauto|]. destruct (IH _ _ E) as [(z & -> & ->)|(z & ->)]; [left|right]; eauto. }
      rewrite app_assoc in EA. destruct (Y _ _ _ EA) as [(z & -> & ->)|(z & W)]; [exists z; left|exists []; right; eauto]. rewrite <- app_assoc. auto. }
    rewrite toks_from_count in C.
    destruct X as (z & [[-> ->]|(w & W)]).
    - assert (z = []) as ->.
      { destruct B as [B|(e & l & B & T)]; [destruct z; discriminate|]. destruct z as [|y z]; [auto|]. exfalso. cbn in B. injection B as -> _. rewrite !filter_app, !app_length in C. cbn in C. assert (is_token (ek e) = true) as TE by now apply is_token_spec. rewrite TE in C. cbn in C.
        unfold is_token in *. rewrite CA in C. lia. }
      rewrite app_nil_r in *. exists a, (s :: ct :: l2). rewrite E', app_assoc. split; [reflexivity|]. repeat (split; [auto|]). right. eauto.
    - exfalso. assert (LE : forall a m l w : list elem, a ++ m = l ++ ct :: w -> (forall x, In x m -> exists n, ek x = E_non n) -> exists v, a = l ++ ct :: v /\ w = v ++ m).
      { clear -TC. induction a as [|x a IH]; intros m l w E N; cbn in *.
        - subst m. destruct (N ct) as [n EN]; [apply in_or_app; right; now left|]. destruct (TC n EN).
        - destruct l as [|y l]; cbn in *; injection E as -> E; [eauto|]. destruct (IH _ _ _ E N) as (v & -> & ->). eauto. }
      destruct (LE _ _ _ _ W N) as (v & -> & _). rewrite filter_app, app_length in CA. cbn in CA. assert (is_token (ek ct) = true) as TE by now apply is_token_spec.
      unfold is_token in *. rewrite C in CA. destruct (ek ct); try discriminate; cbn in CA; lia.
  Qed.

  Lemma named_ok e nt : named_token e = Ok nt -> forall n, ek e = E_named n <-> nt = Some n.
  Proof. unfold named_token. destruct (ek e); intros H n'; injection H as <- || discriminate; split; congruence. Qed.
  Lemma matching_spec e nt exp : named_token e = Ok nt -> forall x m, In (x, m) (matching source e nt exp) <-> In x exp /\ denotes source x e /\ m = mkM (estart e) (eend e).
  Proof.
    intros NE x m. pose proof (named_ok _ _ NE) as NK. unfold matching. rewrite in_flat_map.
    assert (D : forall y, (match y with
         | Lit c => text_eqb c (match ek e with E_semicolon => semi | _ => etext source e end)
         | Nam n => if (n =? 0) && match ek e with E_end => true | _ => false end then true else match nt with Some m => n =? m | None => false end
         end) = true <-> denotes source y e).
    { intros [c|n]; cbn.
      - rewrite text_eqb_eq. unfold inserted. destruct (ek e); reflexivity.
      - assert (B : (match nt with Some m => n =? m | None => false end) = true <-> ek e = E_named n).
        { rewrite NK. destruct nt as [m'|]; [rewrite Nat.eqb_eq|]; split; congruence. }
        destruct (Nat.eqb_spec n 0) as [->|NZ]; cbn [andb]; [|rewrite B; tauto]. destruct (ek e) eqn:K; try (rewrite B; split; [auto|]; intros [[_ Q]|Q]; [discriminate|auto]). tauto. }
    split.
    - intros (y & IY & H). destruct (match y with Lit c => _ | Nam n => _ end) eqn:B; [|destruct H]. destruct H as [H|[]]. injection H as -> ->. split; [auto|]. split; [now apply D|auto].
    - intros (I & H & ->). exists x. split; [auto|]. apply D in H. rewrite H. now left.
  Qed.
  Lemma semi_filter exp : (filter is_semi exp = [] -> ~ In (Lit [59%N]) exp) /\ (forall s, filter is_semi exp = [s] -> s = Lit [59%N] /\ In (Lit [59%N]) exp).
  Proof.
    assert (S : forall x, In x (filter is_semi exp) <-> In x exp /\ x = Lit [59%N]).
    { intros x. rewrite filter_In. split; intros [I H]; split; auto.
      - destruct x as [c|]; [|discriminate]. cbn in H. apply text_eqb_eq in H. now rewrite H.
      - subst x. reflexivity. }
    split.
    - intros E I. assert (Q : In (Lit [59%N]) (filter is_semi exp)) by (apply S; auto). rewrite E in Q. destruct Q.
    - intros s E. assert (Q : In s (filter is_semi exp)) by (rewrite E; now left). apply S in Q as [I ->]. auto.
  Qed.
  Lemma gap_same t t' c mid : elems t' = elems t -> gap t c mid -> gap t' c mid.
  Proof. intros E (l1 & l2 & H). exists l1, l2. rewrite E. exact H. Qed.
  Lemma may_insert_same t t' c e kl : elems t' = elems t -> may_insert source t c e kl -> may_insert source t' c e kl.
  Proof. intros E [H|[(mid & x & G & H)|H]]; [left; auto| |right; right; auto]. right. left. exists mid, x. split; [|auto]. eapply gap_same; eauto. Qed.
  Lemma may_dec t e kl e' k : inv t -> (0 <= cur t)%Z -> nth_error (toks t) (Z.to_nat (cur t)) = Some (e', k) ->
    exists b, (match ek e with
               | E_end => Ok true
               | _ => do b <- rel_gap t (-1) ;; Ok (b || text_eqb (etext source e) brace || match kl with K_DoWhileStatement => true | _ => false end)
               end) = Ok b /\ (b = true <-> may_insert source t (Z.to_nat (cur t)) e kl).
  Proof.
    intros I C N. assert (L : Z.to_nat (cur t) < length (toks t)) by (apply nth_error_Some; congruence).
    destruct (rel_gap_ok source t (-1) I) as (mid & g & G & RG & B); [lia|destruct (toks t); [cbn in L; lia|discriminate]|lia|cbn; lia|]. cbn in G. rewrite Z.add_0_r in G.
    assert (MI : ek e <> E_end -> (g || text_eqb (etext source e) brace || match kl with K_DoWhileStatement => true | _ => false end = true <-> may_insert source t (Z.to_nat (cur t)) e kl)).
    { intros NE. rewrite !orb_true_iff, B. change brace with [125%N]. rewrite text_eqb_eq. unfold may_insert, etext.
      assert (X : (exists x, In x mid /\ breaks_line x) <-> exists mid0 x, gap t (Z.to_nat (cur t)) mid0 /\ In x mid0 /\ breaks_line x).
      { split; [intros (x & H); eauto|]. intros (m & x & G' & H). rewrite (gap_unique_elems _ _ _ _ G' G) in H. eauto. }
      rewrite X. assert (K : (match kl with K_DoWhileStatement => true | _ => false end) = true <-> kl = K_DoWhileStatement) by (destruct kl; split; congruence). rewrite K. tauto. }
    destruct (ek e) eqn:EK; try (rewrite RG; cbn [bind]; eexists; split; [reflexivity|]; apply MI; discriminate).
    exists true. split; [auto|]. split; [|auto]. intros _. now left.
  Qed.

  Definition ok_match (t : tip) (exp : list term) (r : option (list (term * match_node) * nat)) (t' : tip) : Prop :=
    exists ms e, r = Some (ms, eend e) /\ ms <> [] /\ delivered t' (Z.to_nat (cur t')) e /\
      (forall x m, In (x, m) ms <-> In x exp /\ denotes source x e /\ m = mkM (estart e) (eend e)) /\
      asi_posn t' = asi_posn t /\ (exists l, elems t' = elems t ++ l) /\ filter inserted (elems t') = filter inserted (elems t).
  Definition ok_insert (t : tip) (posn : nat) (exp : list term) (kl : asi_kludge) (r : option (list (term * match_node) * nat)) (t' : tip) : Prop :=
    exists s k e e' k', r = Some ([(Lit [59%N], mkM posn posn)], posn) /\ In (Lit [59%N]) exp /\
      nth_error (toks t') (Z.to_nat (cur t')) = Some (s, k) /\ ek s = E_semicolon /\ estart s = posn /\ eend s = posn /\
      nth_error (toks t') (S (Z.to_nat (cur t'))) = Some (e', k') /\
      (end_i t' = Some (cur t') /\ ek e = E_end /\ estart e = estart e' /\ eend e = estart e' \/ end_i t' <> Some (cur t') /\ e = e') /\
      (forall x, In x exp -> ~ denotes source x e) /\ may_insert source t' (Z.to_nat (cur t')) e kl /\ kl <> K_EmptyStatement /\
      asi_posn t <> Some posn /\ asi_posn t' = Some posn /\
      filter inserted (elems t') <> filter inserted (elems t) /\
      exists l la lb, elems t ++ l = la ++ e' :: lb /\ elems t' = la ++ s :: e' :: lb /\ filter inserted l = [] /\ k = length la.
  Definition ok_none (t : tip) (posn : nat) (exp : list term) (kl : asi_kludge) (r : option (list (term * match_node) * nat)) (t' : tip) : Prop :=
    r = None /\ filter inserted (elems t') = filter inserted (elems t) /\ (exists l, elems t' = elems t ++ l) /\ exists e, delivered t' (Z.to_nat (cur t')) e /\ (forall x, In x exp -> ~ denotes source x e) /\
      (~ may_insert source t' (Z.to_nat (cur t')) e kl \/ asi_posn t = Some posn \/ ~ In (Lit [59%N]) exp \/ kl = K_EmptyStatement).

  Lemma inserted_new l : (forall e, In e l -> inserted e = false) -> filter inserted l = [].
  Proof. induction l as [|e l IH]; intros H; [auto|]. cbn. rewrite (H e); [|now left]. apply IH. intros x I. apply H. now right. Qed.
  Lemma get_one_new t g b t' : get_one source lex t g = Ok (b, t') -> filter inserted (elems t') = filter inserted (elems t).
  Proof.
    unfold get_one. destruct (done t); [intros H; injection H as <- <-; auto|]. destruct (scout t =? length source).
    - intros H; injection H as <- <-. cbn. rewrite filter_app. cbn. now rewrite app_nil_r.
    - destruct (lex g (scout t)) as [[[k s] e]|x] eqn:L; cbn [bind]; [|discriminate]. destruct (s =? scout t); cbn [assert_ bind]; [|discriminate]. destruct (s <? e); cbn [assert_ bind]; [|discriminate].
      intros H; injection H as <- <-. cbn. rewrite filter_app. cbn. destruct (Hlex _ _ _ _ _ L) as (K & _ & _). unfold inserted at 2. cbn. destruct k; try congruence; now rewrite app_nil_r.
  Qed.
  Lemma scout_new n : forall t t', scout_ahead source lex n t = Ok t' -> filter inserted (elems t') = filter inserted (elems t).
  Proof.
    induction n as [|n IH]; intros t t' H; cbn in H; [discriminate|]. destruct (get_one source lex t InputElement_common) as [[[|] t1]|e] eqn:G.
    - rewrite (IH _ _ H). eapply get_one_new; eauto.
    - injection H as <-. eapply get_one_new; eauto.
    - destruct e; try discriminate. injection H as <-. auto.
  Qed.
  Lemma advance_new t g e t' : advance_token_cursor source lex t g = Ok (e, t') -> filter inserted (elems t') = filter inserted (elems t).
  Proof.
    unfold advance_token_cursor. intros H. destruct (match end_i _ with Some m => (cur t + 1 <=? m)%Z | None => true end); cbn [assert_ bind] in H; [|discriminate]. destruct (match end_i _ with Some m => (cur t + 1 =? m)%Z | None => false end).
    - destruct (py_nth _ _); cbn [bind] in H; [|discriminate]. injection H as <- <-. auto.
    - destruct (_ <=? _)%Z; cbn [assert_ bind] in H; [|discriminate]. destruct (_ <? _)%Z.
      + destruct (py_nth _ _); cbn [bind] in H; [|discriminate]. injection H as <- <-. auto.
      + destruct (get_one source lex _ g) as [[b t1]|] eqn:G; cbn [bind] in H; [|discriminate]. apply get_one_new in G. cbn in G. destruct b; cbn [fst snd assert_ bind] in H; [|discriminate]. destruct (_ <? _)%Z; cbn [assert_ bind] in H; [|discriminate].
        destruct (scout_ahead source lex (fuel source) t1) as [t2|] eqn:S; cbn [bind] in H; [|discriminate]. apply scout_new in S. destruct (py_nth _ _); cbn [bind] in H; [|discriminate]. injection H as <- <-. congruence.
  Qed.

  Lemma gnti_decision t posn exp kl r t' : inv t -> gnti source lex t posn exp kl = Ok (r, t') ->
    inv t' /\ cur t' = (cur t + 1)%Z /\ end_i t' = end_i t /\ (exists l, original (elems t') = original (elems t) ++ l) /\ length (toks t) <= length (toks t') /\
    (ok_match t exp r t' \/ ok_insert t posn exp kl r t' \/ ok_none t posn exp kl r t').
  Proof.
    intros I H. unfold gnti in H. destruct (lexical_goal exp) as [g|]; cbn [bind] in H; [|discriminate]. destruct (advance_token_cursor source lex t g) as [[e t1]|] eqn:A; cbn [bind] in H; [|discriminate].
    pose proof (advance_new _ _ _ _ A) as NW. destruct (advance_inv source lex Hlex _ _ _ _ I A) as (I1 & C1 & E1 & A1 & (l1 & L1) & (m1 & M1) & e' & k & N & DV). pose proof (i_cur _ _ I) as CI.
    assert (XL : exists l, elems t1 = elems t ++ l) by eauto.
    assert (C0 : (0 <= cur t1)%Z) by lia. assert (ZC : Z.of_nat (Z.to_nat (cur t1)) = cur t1) by lia.
    assert (DV' : end_i t1 = Some (cur t1) /\ ek e = E_end /\ estart e = estart e' /\ eend e = estart e' \/ end_i t1 <> Some (cur t1) /\ e = e').
    { rewrite E1. destruct (end_i t) as [m|]; [|right; split; [discriminate|auto]]. destruct (Z.eqb_spec (cur t1) m) as [->|NE]; [left; tauto|right; split; [congruence|auto]]. }
    clear DV. assert (D1 : delivered t1 (Z.to_nat (cur t1)) e) by (exists e', k; rewrite ZC; auto).
    assert (O1 : exists l, original (elems t1) = original (elems t) ++ l) by (rewrite L1, original_app; eauto).
    assert (LT1 : length (toks t) <= length (toks t1)) by (rewrite M1, app_length; lia).
    destruct (named_token e) as [nt|] eqn:NT; cbn [bind] in H; [|discriminate]. pose proof (matching_spec e nt exp NT) as MS.
    destruct (matching source e nt exp) as [|x0 ms] eqn:EM.
    2:{ injection H as <- <-. repeat (split; [solve [auto]|]). left. exists (x0 :: ms), e. split; [auto|]. split; [discriminate|]. auto. }
    assert (NO : forall x, In x exp -> ~ denotes source x e).
    { intros x IX D. specialize (MS x (mkM (estart e) (eend e))). cbn in MS. tauto. }
    clear MS EM. destruct (may_dec t1 e kl e' k I1 C0 N) as (b & EB & B).
    match type of H with (bind ?x _ = _) => replace x with (@Ok bool b) in H by (symmetry; exact EB) end. cbn [bind] in H. clear EB.
    destruct b; cbn [negb] in H.
    2:{ injection H as <- <-. repeat (split; [solve [auto]|]). right. right. split; [auto|]. split; [auto|]. split; [auto|]. exists e. split; [auto|]. split; [auto|]. left. intros Q. apply B in Q. discriminate. }
    destruct (match asi_posn t1 with Some p => p =? posn | None => false end) eqn:AP.
    { injection H as <- <-. repeat (split; [solve [auto]|]). right. right. split; [auto|]. split; [auto|]. split; [auto|]. exists e. split; [auto|]. split; [auto|]. right. left. rewrite <- A1. destruct (asi_posn t1); [|discriminate]. apply Nat.eqb_eq in AP. now rewrite AP. }
    assert (AP' : asi_posn t <> Some posn) by (rewrite <- A1; intros Q; rewrite Q, Nat.eqb_refl in AP; discriminate). clear AP.
    destruct (semi_filter exp) as [SF1 SF2].
    assert (NONE : forall t2, elems t2 = elems t1 -> toks t2 = toks t1 -> scout t2 = scout t1 -> done t2 = done t1 -> cur t2 = cur t1 -> end_i t2 = end_i t1 -> ~ In (Lit [59%N]) exp \/ kl = K_EmptyStatement -> 
       inv t2 /\ cur t2 = (cur t + 1)%Z /\ end_i t2 = end_i t /\ (exists l, original (elems t2) = original (elems t) ++ l) /\ length (toks t) <= length (toks t2) /\ (ok_match t exp None t2 \/ ok_insert t posn exp kl None t2 \/ ok_none t posn exp kl None t2)).
    { intros t2 Q1 Q2 Q3 Q4 Q5 Q6 Q. split; [apply (inv_same source t1); auto; rewrite Q5; lia|]. rewrite Q1, Q2, Q5, Q6. repeat (split; [solve [auto]|]). right. right. split; [auto|]. rewrite Q1. split; [auto|]. split; [auto|]. exists e. split; [exists e', k; rewrite Q2, Q5, Q6, ZC; auto|]. split; [auto|]. right. right. exact Q. }
    destruct (filter is_semi exp) as [|s [|s' ss]] eqn:FS; [|destruct (SF2 s eq_refl) as [-> IS]|discriminate].
    { injection H as <- <-. apply NONE; auto. }
    assert (KL : kl = K_EmptyStatement \/ kl <> K_EmptyStatement) by (destruct kl; auto; right; discriminate). destruct KL as [->|KL].
    { injection H as <- <-. apply NONE; auto. }
    match type of H with context [insert_before_current ?x ?y] => destruct (insert_before_current x y) as [t2|] eqn:INS end; cbn [bind] in H; [|destruct kl; discriminate || congruence]. assert (HH : r = Some ([(Lit [59%N], mkM posn posn)], posn) /\ t' = t2) by (destruct kl; [|congruence|]; injection H as <- <-; auto). destruct HH as [-> ->]. clear H NONE SF1 SF2.
    cbn [asi_posn elems toks cur scout done end_i fresh] in INS.
    apply (insert_inv source) in INS as (I2 & C2 & E2 & A2 & O2 & la & ct & lb & EL & EL2 & TC & N1 & N2 & N3); [|apply (inv_same source t1); auto; cbn; lia|auto|reflexivity].
    cbn [asi_posn elems toks cur scout done end_i fresh] in *. rewrite N1 in N. injection N as -> <-.
    split; [auto|]. split; [congruence|]. split; [congruence|]. split; [rewrite O2; auto|].
    assert (TS : token (mkE (fresh t1) E_semicolon posn posn)) by (intros n; discriminate).
    split.
    { rewrite (i_toks _ _ I2), EL2, toks_from_count, filter_app, app_length. rewrite (i_toks _ _ I1), EL, toks_from_count, filter_app, app_length in LT1. cbn in *. destruct (is_token (ek e')); cbn in *; lia. }
    right. left. exists (mkE (fresh t1) E_semicolon posn posn), (length la), e, e', (S (length la)). rewrite C2, E2. cbn [ek estart eend]. repeat (split; [solve [auto]|]). split; [|split; [auto|split; [auto|split; [auto|]]]].
    - assert (CT : length (toks_from 0 la) = Z.to_nat (cur t1)).
      { rewrite (i_toks _ _ I1) in N1. destruct (toks_from_nth _ _ _ _ _ N1) as (a & b & E & EA & LA & _). cbn in EA. rewrite EL in E. assert (la = a) as ->; [|auto].
        rewrite <- (firstn_length_app la (e' :: lb)), E, EA. apply firstn_length_app. }
      destruct (proj1 B eq_refl) as [Q|[(mid & x & G & Q)|Q]]; [left; auto| |right; right; auto]. right. left. exists mid, x. split; [|auto]. eapply gap_insert; eauto.
    - split; [rewrite <- NW, EL, EL2, !filter_app; cbn; intros Q; apply (f_equal (@length elem)) in Q; rewrite !app_length in Q; destruct (inserted e'); cbn in Q; lia|].
      exists l1, la, lb. rewrite <- EL. repeat (split; [solve [auto]|]). split; [|auto]. rewrite L1, filter_app in NW. apply (f_equal (@length elem)) in NW. rewrite app_length in NW. apply length_zero_iff_nil. lia.
  Qed.
End Calls.
