(* Derivations in the expanded grammar are those in the grammar with parameters and optional symbols. *)
From Verif Require Import M_Base L_Base M_GramCheck L_GramCheck M_Expand L_Expand L_ExpandMain.

Section Der.
  Variable lexical : bool.
  Variable prodns : list prodn.
  Hypothesis W : well_formed lexical prodns.
  Variable tok : nat -> xthing -> Prop.
  Variable chk : option nat -> nat -> xthing -> Prop.
  Notation things := (things lexical prodns).
  Notation all_things := (all_things lexical prodns).
  Notation xrun := (xrun tok chk).
  Notation xder := (xder tok chk).
  Notation psym := (psym lexical prodns tok).
  Notation pitem := (pitem lexical prodns tok chk).
  Notation prun := (prun lexical prodns tok chk).
  Notation pder := (pder lexical prodns tok chk).
  Notation defines := (defines prodns).

  Lemma is_NT_defines n : is_NT prodns n = true <-> defines n.
  Proof. unfold is_NT, L_Expand.defines. rewrite existsb_exists. split; intros (p & I & E); exists p; (split; [auto|]); now apply text_eqb_eq. Qed.
  Lemma not_NT n : is_NT prodns n = false <-> ~ defines n.
  Proof. rewrite <- is_NT_defines. destruct (is_NT prodns n); split; congruence. Qed.
  Lemma defines_clean n : defines n -> clean n.
  Proof. intros (p & I & <-). exact (proj1 (w_names _ _ W p I)). Qed.
  Lemma one_prodn p p' : In p prodns -> In p' prodns -> p_lhs p = p_lhs p' -> p = p'.
  Proof.
    pose proof (w_nodup _ _ W) as ND. revert ND. generalize prodns as l. induction l as [|x l IH]; cbn; intros ND I I' E; [destruct I|]. inversion ND as [|? ? NI ND']; subst.
    destruct I as [<-|I], I' as [<-|I']; auto; exfalso; apply NI; [rewrite E|rewrite <- E]; now apply in_map.
  Qed.
  Lemma find_prodn n : (forall p, find (fun p => text_eqb (p_lhs p) n) prodns = Some p -> In p prodns /\ p_lhs p = n) /\ (forall p, In p prodns -> p_lhs p = n -> find (fun p => text_eqb (p_lhs p) n) prodns = Some p).
  Proof.
    assert (F : forall p, find (fun p => text_eqb (p_lhs p) n) prodns = Some p -> In p prodns /\ p_lhs p = n) by (intros p H; apply find_some in H as [I E]; now apply text_eqb_eq in E).
    split; [auto|]. intros p I E. destruct (find _ prodns) as [p'|] eqn:X.
    - destruct (F p' eq_refl) as [I' E']. f_equal. apply one_prodn; congruence.
    - apply (find_none _ _ X) in I. subst n. assert (text_eqb (p_lhs p) (p_lhs p) = true) by now apply text_eqb_eq. congruence.
  Qed.
  Definition go_rhss := fix go (l : list rhs_n) : res (list (list lthing)) := match l with
          | [] => Ok []
          | r :: l' => match guard r, items r with None, [R_sym (S_lit c)] => do tss <- go l' ;; Ok ([L_lit c] :: tss) | _, _ => Err AssertionError end
          end.
  Lemma rhss_spec l : forall tss, go_rhss l = Ok tss <-> exists cs, Forall2 (fun r c => guard r = None /\ items r = [R_sym (S_lit c)]) l cs /\ tss = map (fun c => [L_lit c]) cs.
  Proof.
    induction l as [|r l IH]; intros tss.
    - cbn [go_rhss]. split; [intros H; injection H as <-; exists []; auto|]. intros (cs & F & ->). now inversion F.
    - split.
      + cbn [go_rhss]. destruct (guard r) eqn:G; [discriminate|]. destruct (items r) as [|[| |[| c |]| | | | | | | | |] [|]] eqn:IT; try discriminate. destruct (go_rhss l) as [t|]; cbn [bind]; [|discriminate]. intros H. injection H as <-.
        destruct (proj1 (IH t) eq_refl) as (cs & F & ->). exists (c :: cs). auto.
      + intros (cs & F & ->). inversion F as [|? c ? cs' [G IT] F']; subst. cbn [go_rhss]. rewrite G, IT. rewrite (proj2 (IH _) (ex_intro _ cs' (conj F' eq_refl))). reflexivity.
  Qed.
  Lemma operand_spec o tss : convert_operand prodns o = Ok tss <-> sequences prodns o tss.
  Proof.
    destruct o as [n|seqs]; cbn [convert_operand].
    - destruct (find_prodn n) as [F1 F2]. change (match find (fun p => text_eqb (p_lhs p) n) prodns with None => Err KeyError | Some p => go_rhss (p_rhss p) end = Ok tss <-> sequences prodns (O_NT n) tss).
      split.
      + destruct (find _ prodns) as [p|] eqn:X; [|discriminate]. destruct (F1 p eq_refl) as [I <-]. intros H. apply rhss_spec in H as (cs & F & ->). now constructor.
      + intros H. inversion H as [|p cs I F]; subst. rewrite (F2 p I eq_refl). apply rhss_spec. eauto.
    - split; [intros H; injection H as <-; apply sq_set|]. intros H. inversion H; subst. reflexivity.
  Qed.
  Lemma excluded_spec b : forall b', Forall2 (excluded prodns) b b' <-> b' = map (convert_excludable prodns) b.
  Proof.
    assert (E1 : forall e x, excluded prodns e x <-> x = convert_excludable prodns e).
    { intros [n|c] x; cbn.
      - destruct (is_NT prodns n) eqn:Q; [apply is_NT_defines in Q|apply not_NT in Q]; split; intros H; [inversion H; subst; [auto|contradiction]|subst; now constructor|inversion H; subst; [contradiction|auto]|subst; now constructor].
      - split; intros H; [now inversion H|subst; constructor]. }
    induction b as [|e b IH]; intros b'; cbn.
    - split; intros H; [now inversion H|subst; constructor].
    - split; intros H.
      + inversion H as [|? x ? b2 X F]; subst. apply E1 in X. apply IH in F. congruence.
      + subst. constructor; [now apply E1|now apply IH].
  Qed.
  Lemma run_one R pv i x pv' k : xrun R pv i [x] pv' k <->
    match x with X_NT n => R n i k /\ pv' = Some i | X_lit _ | X_named _ | X_u_p _ | X_u_r _ _ => tok i x /\ pv' = Some i /\ k = S i | _ => chk pv i x /\ pv' = None /\ k = i end.
  Proof.
    split.
    - intros H. inversion H as [|? ? n0 j0 ? ? ? D0 X0|? ? ? ? ? ? T0 K0 X0|? ? ? ? ? ? T0 K0 X0]; subst; inversion X0; subst; [auto| |]; destruct x; cbn in T0; try contradiction; auto.
    - destruct x; intros H; try (destruct H as (H1 & -> & ->); (apply xr_tm; [exact I|exact H1|constructor]) || (apply xr_cn; [exact I|exact H1|constructor])). destruct H as (H1 & ->). eapply xr_nt; [exact H1|constructor].
  Qed.
  Lemma run_lits R c : forall pv i pv' k, xrun R pv i (map (fun x => X_lit [x]) c) pv' k <->
    k = i + length c /\ pv' = (if length c =? 0 then pv else Some (i + length c - 1)) /\ (forall m x, nth_error c m = Some x -> tok (i + m) (X_lit [x])).
  Proof.
    induction c as [|x c IH]; intros pv i pv' k; cbn [map length].
    - split; [intros H; inversion H; subst; split; [lia|]; split; [auto|]; intros [|m] y Q; discriminate|]. intros (-> & -> & _). rewrite Nat.add_0_r. constructor.
    - split.
      + intros H. inversion H as [|? ? n0 j0 ? ? ? D0 X0|? ? ? ? ? ? T0 K0 X0|? ? ? ? ? ? T0 K0 X0]; subst; [|destruct T0]. apply IH in X0 as (-> & -> & T). split; [lia|]. split.
        * destruct (length c =? 0) eqn:L; [apply Nat.eqb_eq in L|apply Nat.eqb_neq in L]; cbn [Nat.eqb]; f_equal; lia.
        * intros [|m] y Q; cbn in Q; [injection Q as <-; now rewrite Nat.add_0_r|]. replace (i + S m) with (S i + m) by lia. now apply T.
      + intros (-> & -> & T). apply xr_tm; [exact I|rewrite <- (Nat.add_0_r i); apply (T 0); reflexivity|]. apply IH. split; [lia|]. split.
        * destruct (length c =? 0) eqn:L; [apply Nat.eqb_eq in L|apply Nat.eqb_neq in L]; cbn [Nat.eqb]; f_equal; lia.
        * intros m y Q. replace (S i + m) with (i + S m) by lia. apply T. exact Q.
  Qed.
  Lemma con_means r p it c : In p prodns -> In r (p_rhss p) -> In it (items r) -> forall σ, (forall s, it <> R_QM s) -> constraint c -> things σ it = Ok [c] -> forall c', means prodns it c' <-> c' = c.
  Proof.
    intros IP IR II σ NQ C T c'. unfold L_ExpandMain.things in T. destruct it as [| |[nm args|w|w]|s| | | |b ts|b o|w| |b]; cbn [M_Expand.expand_item] in T; try discriminate; try (destruct (NQ _ eq_refl)); try (injection T as <-; solve [destruct C]).
    - destruct (expand_nt nm args σ); cbn [bind fst] in T; [|discriminate]. injection T as <-. destruct (is_NT prodns nm), C.
    - destruct (lexical && (1 <? length w))%bool; [|injection T as <-; destruct C]. destruct w as [|? [|]]; try discriminate. injection T as <-. destruct C.
    - injection T as <-. split; [intros M; now inversion M|intros ->; constructor].
    - rewrite (w_set _ _ W p r b o IP IR II) in *. destruct (convert_operand prodns o) as [tss|] eqn:O; cbn [bind fst] in T; [|discriminate]. injection T as <-. split.
      + intros M. inversion M as [|? ? tss' S| | |]; subst. apply operand_spec in S. congruence.
      + intros ->. constructor. now apply operand_spec.
    - injection T as <-. split; [intros M; now inversion M|intros ->; constructor].
    - injection T as <-. split; [intros M; now inversion M|intros ->; constructor].
    - injection T as <-. split; [intros M; inversion M as [| | | |? b' F]; subst; apply excluded_spec in F; congruence|intros ->; constructor; now apply excluded_spec].
  Qed.
  Lemma no_means it c : means prodns it c -> match it with R_LAC_SINGLE _ _ | R_LAC_SET _ _ | R_BUT_ONLY _ | R_NLTH | R_BUT_NOT _ => True | _ => False end.
  Proof. intros M. now inversion M. Qed.
  Lemma item_equiv (R : text -> nat -> nat -> Prop) (Rp : text -> list (bool * text) -> nat -> nat -> Prop) p r σ it xs : In p prodns -> In r (p_rhss p) -> map snd σ = p_params p -> In it (items r) -> things (flat σ) it = Ok xs ->
    ((forall n s' i j, defines n -> clean_signs s' -> R (name_of n s') i j -> Rp n s' i j) -> (forall s base thing i j, it = R_QM s -> opt_of (flat σ) s = Ok (base, thing) -> R (base ++ [63%N]) i j -> i = j \/ exists q, psym Rp σ s i q j) ->
      forall pv i pv' k, xrun R pv i xs pv' k -> pitem Rp σ pv i it pv' k) /\
    ((forall n s' i j, defines n -> clean_signs s' -> Rp n s' i j -> R (name_of n s') i j) -> (forall s base thing i j, it = R_QM s -> opt_of (flat σ) s = Ok (base, thing) -> (i = j \/ exists q, psym Rp σ s i q j) -> R (base ++ [63%N]) i j) ->
      forall pv i pv' k, pitem Rp σ pv i it pv' k -> xrun R pv i xs pv' k).
  Proof.
    intros IP IR E II T. destruct (in_params _ _ W p σ IP E) as [ND CS].
    pose proof (con_means r p it) as CM. assert (T0 := T).
    assert (CON : (forall s, it <> R_QM s) -> forall c, constraint c -> xs = [c] -> (forall q i it' q' j, pitem Rp σ q i it' q' j -> it' = it -> exists c', means prodns it c' /\ chk q i c' /\ q' = None /\ j = i) ->
      (forall pv i pv' k, xrun R pv i xs pv' k -> pitem Rp σ pv i it pv' k) /\ (forall pv i pv' k, pitem Rp σ pv i it pv' k -> xrun R pv i xs pv' k)).
    { intros NQ c C -> X. specialize (CM c IP IR II (flat σ) NQ C T). split; intros pv i pv' k H.
      - apply run_one in H. assert (H' : chk pv i c /\ pv' = None /\ k = i) by (destruct c; cbn in C; try contradiction; auto). destruct H' as (H1 & -> & ->). eapply pi_con; [now apply CM|exact H1].
      - destruct (X _ _ _ _ _ H eq_refl) as (c' & M & K & -> & ->). apply CM in M. subst c'. apply run_one. destruct c; cbn in C; try contradiction; auto. }
    unfold L_ExpandMain.things in T. destruct it as [| |[nm args|w|w]|s|u|lo hi| |b ts|b o|w| |b]; cbn [M_Expand.expand_item] in T.
    - injection T as <-. split; intros _ _ pv i pv' k H; inversion H; subst; try constructor. apply no_means in H0. destruct H0.
    - injection T as <-. split; intros _ _ pv i pv' k H; inversion H; subst; try constructor. apply no_means in H0. destruct H0.
    - destruct (expand_nt nm args (flat σ)) as [e|] eqn:X; cbn [bind fst] in T; [|discriminate]. injection T as <-. apply (expand_spec σ ND) in X as (s' & PA & ->). fold (name_of nm s').
      destruct (w_gnt _ _ W p r nm args IP IR (or_introl II)) as [CN CA]. pose proof (passes_clean _ _ _ PA CA) as CS'. destruct (is_NT prodns nm) eqn:Q; [apply is_NT_defines in Q|apply not_NT in Q].
      + split; intros H1 _ pv i pv' k H.
        * apply run_one in H as [H ->]. apply pi_sym. eapply ps_nt; eauto.
        * inversion H as [| |? ? ? ? ? S| | | | | |? ? ? ? M]; subst; [|apply no_means in M; destruct M]. inversion S as [? ? s2 ? ? D2 P2 H2|? ? ? ? D2| | |]; subst; [|contradiction]. rewrite (passes_det σ args ND _ _ PA P2). apply run_one. split; [|auto].
          apply H1; auto. rewrite <- (passes_det σ args ND _ _ PA P2). auto.
      + split; intros H1 _ pv i pv' k H.
        * apply run_one in H as (H & -> & ->). apply pi_sym. eapply ps_named; eauto.
        * inversion H as [| |? ? ? ? ? S| | | | | |? ? ? ? M]; subst; [|apply no_means in M; destruct M]. inversion S as [? ? s2 ? ? D2 P2 H2|? ? s2 ? D2 P2 H2| | |]; subst; [contradiction|]. rewrite (passes_det σ args ND _ _ PA P2). apply run_one. auto.
    - cbn [bind fst] in T. injection T as <-. destruct (lexical && (1 <? length w))%bool eqn:L.
      + apply andb_true_iff in L as [L1 L2]. apply Nat.ltb_lt in L2. split; intros _ _ pv i pv' k H.
        * apply run_lits in H as (-> & -> & H). apply pi_sym. destruct (length w =? 0) eqn:Z; [apply Nat.eqb_eq in Z; lia|]. now apply ps_chars.
        * inversion H as [| |? ? ? ? ? S| | | | | |? ? ? ? M]; subst; [|apply no_means in M; destruct M]. apply run_lits. inversion S as [| |? ? [D|D]|? ? D1 D2 D3|]; subst; [congruence|lia|]. destruct (length w =? 0) eqn:Z; [apply Nat.eqb_eq in Z; lia|]. auto.
      + assert (L' : lexical = false \/ length w <= 1) by (apply andb_false_iff in L as [L|L]; [auto|apply Nat.ltb_ge in L; auto]). split; intros _ _ pv i pv' k H.
        * apply run_one in H as (H & -> & ->). apply pi_sym. now apply ps_lit.
        * inversion H as [| |? ? ? ? ? S| | | | | |? ? ? ? M]; subst; [|apply no_means in M; destruct M]. apply run_one. inversion S as [| |? ? D1 D2|? ? D1 D2 D3|]; subst; [auto|]. destruct L'; [congruence|lia].
    - cbn [bind fst] in T. injection T as <-. split; intros _ _ pv i pv' k H.
      + apply run_one in H as (H & -> & ->). apply pi_sym. now apply ps_char.
      + inversion H as [| |? ? ? ? ? S| | | | | |? ? ? ? M]; subst; [|apply no_means in M; destruct M]. apply run_one. inversion S; subst. auto.
    - destruct (opt_of (flat σ) s) as [[base thing]|] eqn:O; cbn [bind fst] in T; [|discriminate]. injection T as <-. split; intros _ H2 pv i pv' k H.
      + apply run_one in H as [H ->]. destruct (H2 s base thing i k eq_refl O H) as [<-|(q & S)]; [apply pi_absent|eapply pi_present; exact S].
      + apply run_one. inversion H as [| | |? ? ?|? ? ? q ? S| | | |? ? ? ? M]; subst; [| |apply no_means in M; destruct M]; (split; [|auto]); apply (H2 s base thing); eauto.
    - cbn [bind fst] in T. injection T as <-. split; intros _ _ pv i pv' k H.
      + apply run_one in H as (H & -> & ->). now constructor.
      + inversion H as [| | | | |? ? ? T1| | |? ? ? ? M]; subst; [|apply no_means in M; destruct M]. apply run_one. auto.
    - cbn [bind fst] in T. injection T as <-. split; intros _ _ pv i pv' k H.
      + apply run_one in H as (H & -> & ->). now constructor.
      + inversion H as [| | | | | |? ? ? ? T1| |? ? ? ? M]; subst; [|apply no_means in M; destruct M]. apply run_one. auto.
    - cbn [bind fst] in T. injection T as <-. split; intros _ _ pv i pv' k H.
      + apply run_one in H as (H & -> & ->). now constructor.
      + inversion H as [| | | | | | |? ? T1|? ? ? ? M]; subst; [|apply no_means in M; destruct M]. apply run_one. auto.
    - destruct (CON ltac:(discriminate) (X_lookahead b [convert_seq ts]) I) as [C1 C2]; [cbn in T; congruence| |split; auto].
      intros q i it' q' j H ->. inversion H; subst. eauto.
    - destruct (convert_operand prodns o) as [tss|] eqn:O; cbn [bind fst] in T; [|discriminate]. destruct (CON ltac:(discriminate) (X_lookahead false tss) I) as [C1 C2]; [congruence| |split; auto].
      intros q i it' q' j H ->. inversion H; subst. eauto.
    - destruct (CON ltac:(discriminate) (X_but_only_if w) I) as [C1 C2]; [cbn in T; congruence| |split; auto]. intros q i it' q' j H ->. inversion H; subst. eauto.
    - destruct (CON ltac:(discriminate) X_no_LT_here I) as [C1 C2]; [cbn in T; congruence| |split; auto]. intros q i it' q' j H ->. inversion H; subst. eauto.
    - destruct (CON ltac:(discriminate) (X_but_not (map (convert_excludable prodns) b)) I) as [C1 C2]; [cbn in T; congruence| |split; auto]. intros q i it' q' j H ->. inversion H; subst. eauto.
  Qed.
  Lemma items_equiv (R : text -> nat -> nat -> Prop) (Rp : text -> list (bool * text) -> nat -> nat -> Prop) p r σ : In p prodns -> In r (p_rhss p) -> map snd σ = p_params p -> forall its xs, incl its (items r) -> all_things (flat σ) its = Ok xs ->
    ((forall n s' i j, defines n -> clean_signs s' -> R (name_of n s') i j -> Rp n s' i j) -> (forall s base thing i j, In (R_QM s) (items r) -> opt_of (flat σ) s = Ok (base, thing) -> R (base ++ [63%N]) i j -> i = j \/ exists q, psym Rp σ s i q j) ->
      forall pv i pv' k, xrun R pv i xs pv' k -> prun Rp σ pv i its pv' k) /\
    ((forall n s' i j, defines n -> clean_signs s' -> Rp n s' i j -> R (name_of n s') i j) -> (forall s base thing i j, In (R_QM s) (items r) -> opt_of (flat σ) s = Ok (base, thing) -> (i = j \/ exists q, psym Rp σ s i q j) -> R (base ++ [63%N]) i j) ->
      forall pv i pv' k, prun Rp σ pv i its pv' k -> xrun R pv i xs pv' k).
  Proof.
    intros IP IR E. induction its as [|it its IH]; intros xs IC T; cbn [L_ExpandMain.all_things] in T.
    - injection T as <-. split; intros _ _ pv i pv' k H; inversion H; subst; constructor.
    - destruct (things (flat σ) it) as [a|] eqn:X; cbn [bind] in T; [|discriminate]. destruct (all_things (flat σ) its) as [b|] eqn:Y; cbn [bind] in T; [|discriminate]. injection T as <-.
      assert (II : In it (items r)) by (apply IC; now left). destruct (item_equiv R Rp p r σ it a IP IR E II X) as [A1 A2]. destruct (IH b (fun z Iz => IC z (or_intror Iz)) eq_refl) as [B1 B2]. split; intros H1 H2 pv i pv' k H.
      + apply xrun_app in H as (pm & j & R1 & R2). econstructor; [apply A1; [auto| |exact R1]|apply B1; auto]. intros s base thing i' j' -> O. now apply (H2 s base thing).
      + inversion H as [|? ? ? pm j ? ? ? R1 R2]; subst. apply xrun_app. exists pm, j. split; [apply A2; [auto| |exact R1]|apply B2; auto]. intros s base thing i' j' -> O. now apply (H2 s base thing).
  Qed.

  Variable ps : list exprod.
  Hypothesis G : simplify_grammar lexical prodns = Ok ps.
  Lemma ps_cases q : In q ps -> main lexical prodns q \/ (exists base thing, optional prodns base thing /\ ex_lhs q = base ++ [63%N] /\ (ex_rhs q = [thing] \/ ex_rhs q = [])) \/ (lexical = true /\ ex_lhs q = InputElement_common /\ exists n, In n [WhiteSpace_; LineTerminator_; Comment_; CommonToken_] /\ ex_rhs q = [X_NT n]).
  Proof.
    intros IQ. destruct (grammar_ok _ _ W ps G) as (st & IN & _ & EP). assert (C : In q st \/ lexical = true /\ In q (map (fun n => mkEx InputElement_common [X_NT n] InputElement_common n []) [WhiteSpace_; LineTerminator_; Comment_; CommonToken_])).
    { rewrite EP in IQ. destruct lexical; [|auto]. apply in_app_or in IQ as [?|?]; auto. }
    destruct C as [C|[L C]].
    - destruct (IN q C) as [M|(b & t & O & E & R & _)]; [auto|]. right. left. eauto.
    - right. right. split; [auto|]. apply in_map_iff in C as (n & <- & I). cbn. split; [auto|]. exists n. auto.
  Qed.
  Lemma common_name : InputElement_common = name_of InputElement_common [].
  Proof. unfold name_of. cbn [map concat]. now rewrite app_nil_r. Qed.
  Lemma common_clean : clean InputElement_common.
  Proof. intros c I. cbn in I. repeat (destruct I as [<-|I]; [repeat split; discriminate|]). destruct I. Qed.
  Lemma nil_clean : clean_signs [].
  Proof. intros b []. Qed.
  Theorem expanded_sound n i j : xder ps n i j ->
    (forall a σ, n = name_of a σ -> defines a -> clean_signs σ -> pder a σ i j) /\
    (forall p r σ s base thing, In p prodns -> In r (p_rhss p) -> map snd σ = p_params p -> In (R_QM s) (items r) -> opt_of (flat σ) s = Ok (base, thing) -> n = base ++ [63%N] -> i = j \/ exists q, psym pder σ s i q j).
  Proof.
    revert n i j. apply xder_ind'. intros q i pv j IQ X. destruct (ps_cases q IQ) as [(p & r & σ & IP & IR & E & GO & L & T)|[(base & thing & O & L & T)|(LX & L & m & IM & T)]].
    - destruct (in_params _ _ W p σ IP E) as [ND CS]. assert (CP : clean (p_lhs p)) by (apply defines_clean; exists p; auto). split.
      + intros a σ' EN D C'. rewrite L in EN. destruct (name_inj _ _ _ _ CP (defines_clean _ D) CS C' EN) as [<- <-]. eapply pd; [exact IP|exact E|exact IR| |].
        * apply guard_spec; [|exact GO]. intros gs g EG IG. eapply (w_guard _ _ W); eauto.
        * eapply (proj1 (items_equiv _ _ p r σ IP IR E (items r) _ (incl_refl _) T)); [| |exact X].
          -- intros n s' i' j' D1 C1 [_ [H1 _]]. now apply H1.
          -- intros s base thing i' j' IS O [_ [_ H2]]. eapply H2; eauto.
      + intros p' r' σ' s base thing _ _ _ _ _ EN. rewrite L in EN. destruct (name_no_q _ _ _ CP CS EN).
    - split.
      + intros a σ EN D C. rewrite L in EN. symmetry in EN. destruct (name_no_q _ _ _ (defines_clean _ D) C EN).
      + intros p r σ s base' thing' IP IR E IS O' EN. rewrite L in EN. apply app_last_inj in EN. subst base'. assert (OP : optional prodns base thing') by (exists p, r, σ, s; auto). rewrite (optional_det _ _ W _ _ _ OP O) in *. clear OP.
        destruct T as [T|T]; rewrite T in X; [|inversion X; auto]. right. destruct (in_params _ _ W p σ IP E) as [ND CS]. destruct s as [nm args|c|c]; cbn in O'; [| |discriminate].
        * destruct (expand_nt nm args (flat σ)) as [e|] eqn:Z; cbn [bind] in O'; [|discriminate]. injection O' as <- <-. apply (expand_spec σ ND) in Z as (s' & PA & ->). apply run_one in X as [[_ [H _]] _].
          destruct (w_gnt _ _ W p r nm args IP IR (or_intror IS)) as [CN CA]. pose proof (w_opt_nt _ _ W p r nm args IP IR IS) as D. exists (Some i). eapply ps_nt; [exact D|exact PA|]. apply H; [reflexivity|exact D|]. eapply passes_clean; eauto.
        * injection O' as <- <-. apply run_one in X as (X & -> & ->). exists (Some i). apply ps_lit; [|exact X]. destruct (w_opt_lit _ _ W p r c IP IR IS) as [LL _]. destruct lexical; auto.
    - split.
      + intros a σ EN D C. rewrite L, common_name in EN. destruct (name_inj _ _ _ _ common_clean (defines_clean _ D) nil_clean C EN) as [<- _]. destruct (w_common _ _ W LX D).
      + intros p r σ s base thing _ _ _ _ _ EN. rewrite L, common_name in EN. destruct (name_no_q _ _ _ common_clean nil_clean EN).
  Qed.
  Lemma ps_post p r σ : In p prodns -> In r (p_rhss p) -> map snd σ = p_params p -> post lexical prodns p σ r ps.
  Proof.
    intros IP IR E. destruct (grammar_ok _ _ W ps G) as (st & _ & P & EP). eapply post_incl; [|exact (P p r σ IP IR E)]. rewrite EP. destruct lexical; [apply incl_appl|]; apply incl_refl.
  Qed.
  Theorem expanded_complete a σ i j : pder a σ i j -> xder ps (name_of a σ) i j.
  Proof.
    revert a σ i j. apply pder_ind'. intros p σ r i pv j IP E IR GH X.
    assert (GO : guard_ok r (flat σ) = true) by (apply guard_spec; [|exact GH]; intros gs g EG IG; eapply (w_guard _ _ W); eauto).
    destruct (ps_post p r σ IP IR E GO) as (q & IQ & L & T & O). rewrite <- L. apply (xd tok chk ps q i pv j IQ). destruct (in_params _ _ W p σ IP E) as [ND CS].
    eapply (proj2 (items_equiv (xder ps) (fun n s i j => pder n s i j /\ xder ps (name_of n s) i j) p r σ IP IR E (items r) _ (incl_refl _) T)); [| |exact X].
    - intros n s' i' j' _ _ [_ H]. exact H.
    - intros s base thing i' j' IS O1 H. destruct (O s IS) as (base' & thing' & O2 & (q1 & I1 & L1 & R1) & (q2 & I2 & L2 & R2)). rewrite O1 in O2. injection O2 as <- <-. destruct H as [<-|(q' & S)].
      + rewrite <- L2. eapply xd; [exact I2|]. rewrite R2. constructor.
      + rewrite <- L1. eapply xd; [exact I1|]. rewrite R1. apply run_one. inversion S as [nm args s' i0 j0 D PA H|nm args s' i0 D PA H|c i0 D H|c i0 D1 D2 H|c i0 H]; subst; cbn in O1.
        * rewrite (proj2 (expand_spec σ ND args nm _) (ex_intro _ s' (conj PA eq_refl))) in O1 || (unfold expand_nt in O1; rewrite (proj2 (expand_spec σ ND args nm _) (ex_intro _ s' (conj PA eq_refl))) in O1). cbn [bind] in O1. injection O1 as <- <-. split; [apply H|reflexivity].
        * destruct (D (w_opt_nt _ _ W p r nm args IP IR IS)).
        * injection O1 as <- <-. auto.
        * destruct (w_opt_lit _ _ W p r c IP IR IS) as [LL _]. specialize (LL eq_refl). lia.
        * discriminate.
  Qed.
  Theorem common_exact i j : lexical = true -> xder ps InputElement_common i j <-> exists n, In n [WhiteSpace_; LineTerminator_; Comment_; CommonToken_] /\ xder ps n i j.
  Proof.
    intros LX. split.
    - intros D. remember InputElement_common as c eqn:EN in D. destruct D as [q i pv j IQ X]. destruct (ps_cases q IQ) as [(p & r & σ & IP & IR & E & GO & L & T)|[(base & thing & O & L & T)|(_ & L & m & IM & T)]].
      + exfalso. destruct (in_params _ _ W p σ IP E) as [ND CS]. assert (DP : defines (p_lhs p)) by (exists p; auto). rewrite EN, common_name in L. destruct (name_inj _ _ _ _ common_clean (defines_clean _ DP) nil_clean CS L) as [EQ _]. rewrite <- EQ in DP. exact (w_common _ _ W LX DP).
      + exfalso. rewrite EN, common_name in L. destruct (name_no_q _ _ _ common_clean nil_clean L).
      + exists m. split; [auto|]. rewrite T in X. apply run_one in X as [X _]. exact X.
    - intros (n & I & D). destruct (grammar_ok _ _ W ps G) as (st & _ & _ & EP). rewrite LX in EP. apply (xd tok chk ps (mkEx InputElement_common [X_NT n] InputElement_common n []) i (Some i) j).
      + rewrite EP. apply in_or_app. right. apply in_map_iff. exists n. auto.
      + cbn [ex_rhs]. apply run_one. auto.
  Qed.
End Der.
