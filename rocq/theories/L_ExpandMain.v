(* The productions of the expanded grammar, and derivations with them. *)
From Verif Require Import M_Base L_Base M_GramCheck L_GramCheck M_Expand L_Expand.

Section Main.
  Variable lexical : bool.
  Variable prodns : list prodn.
  Hypothesis W : well_formed lexical prodns.
  Notation expand_item := (expand_item lexical prodns).
  Notation expand_items := (expand_items lexical prodns).
  Notation simplify_prod := (simplify_prod lexical prodns).

  Definition opt_of (setting : list text) (s : symbol) : res (text * xthing) :=
    match s with
    | S_GNT name args => do e <- expand_nt name args setting ;; Ok (e, X_NT e)
    | S_lit c => Ok (c, X_lit c)
    | S_char _ => Err AssertionError
    end.
  Definition things (setting : list text) (item : ritem) : res (list xthing) :=
    match item with
    | R_QM s => do b <- opt_of setting s ;; Ok [X_NT (fst b ++ [63%N])]
    | R_PARAMS | R_LABEL => Ok []
    | _ => do a <- expand_item setting 0 0 item [] ;; Ok (fst a)
    end.
  Fixpoint all_things (setting : list text) (its : list ritem) : res (list xthing) :=
    match its with [] => Ok [] | it :: its' => do a <- things setting it ;; do b <- all_things setting its' ;; Ok (a ++ b) end.
  Definition optional (base : text) (thing : xthing) : Prop := exists p r σ s, In p prodns /\ In r (p_rhss p) /\ map snd σ = p_params p /\ In (R_QM s) (items r) /\ opt_of (flat σ) s = Ok (base, thing).
  Definition pair (st : list exprod) (base : text) (thing : xthing) : Prop :=
    (exists q, In q st /\ ex_lhs q = base ++ [63%N] /\ ex_rhs q = [thing]) /\ (exists q, In q st /\ ex_lhs q = base ++ [63%N] /\ ex_rhs q = []).
  Definition main (q : exprod) : Prop := exists p r σ, In p prodns /\ In r (p_rhss p) /\ map snd σ = p_params p /\ guard_ok r (flat σ) = true /\
    ex_lhs q = name_of (p_lhs p) σ /\ all_things (flat σ) (items r) = Ok (ex_rhs q).
  Definition inv (st : list exprod) : Prop := forall q, In q st -> main q \/ exists base thing, optional base thing /\ ex_lhs q = base ++ [63%N] /\ (ex_rhs q = [thing] \/ ex_rhs q = []) /\ pair st base thing.
  Lemma pair_incl st st' base thing : incl st st' -> pair st base thing -> pair st' base thing.
  Proof. intros I [(q1 & H1 & H2) (q2 & H3 & H4)]. split; [exists q1|exists q2]; auto. Qed.
  Lemma in_params p σ : In p prodns -> map snd σ = p_params p -> NoDup (map snd σ) /\ clean_signs σ.
  Proof. intros IP E. destruct (w_names _ _ W p IP) as (_ & C & ND). rewrite E. split; [auto|]. intros b I. apply C. rewrite <- E. now apply in_map. Qed.
  Lemma main_name q : main q -> exists a σ, ex_lhs q = name_of a σ /\ clean a /\ clean_signs σ.
  Proof. intros (p & r & σ & IP & IR & E & _ & L & _). exists (p_lhs p), σ. split; [auto|]. split; [exact (proj1 (w_names _ _ W p IP))|exact (proj2 (in_params p σ IP E))]. Qed.
  Lemma optional_shape base thing : optional base thing -> (exists c, base = c /\ thing = X_lit c /\ (lexical = true -> length c <= 1) /\ forall n s, defines prodns n -> c <> name_of n s) \/
    (exists n s, base = name_of n s /\ thing = X_NT base /\ defines prodns n /\ clean n /\ clean_signs s).
  Proof.
    intros (p & r & σ & s & IP & IR & E & IS & O). destruct s as [n args|c|c]; cbn in O; [|injection O as <- <-|discriminate].
    - right. destruct (in_params p σ IP E) as [ND _]. destruct (expand_nt n args (flat σ)) as [e|] eqn:X; cbn [bind] in O; [|discriminate]. injection O as <- <-. apply (expand_spec σ ND) in X as (s' & P & ->).
      destruct (w_gnt _ _ W p r n args IP IR (or_intror IS)) as [CN CA]. exists n, s'. split; [reflexivity|]. split; [auto|]. split; [apply (w_opt_nt _ _ W p r n args); auto|]. split; [auto|]. eapply passes_clean; eauto.
    - left. destruct (w_opt_lit _ _ W p r c IP IR IS) as [L D]. exists c. auto.
  Qed.
  Lemma optional_det base t1 t2 : optional base t1 -> optional base t2 -> t1 = t2.
  Proof.
    intros H1 H2. apply optional_shape in H1 as [(c & -> & -> & _ & D)|(n & s & E & -> & D & _)], H2 as [(c' & E' & -> & _ & D')|(n' & s' & E' & -> & D' & _)]; try congruence.
    - destruct (D _ _ D' E').
    - subst c'. destruct (D' _ _ D E).
  Qed.
  Lemma has_lhs_in st n : has_lhs st n = true <-> exists q, In q st /\ ex_lhs q = n.
  Proof. unfold has_lhs. rewrite existsb_exists. split; intros (q & I & E); exists q; (split; [auto|]); now apply text_eqb_eq. Qed.
  Lemma item_step p r σ item i n st xs st' : In p prodns -> In r (p_rhss p) -> map snd σ = p_params p -> In item (items r) -> inv st -> expand_item (flat σ) i n item st = Ok (xs, st') ->
    inv st' /\ incl st st' /\ things (flat σ) item = Ok xs /\ (forall s, item = R_QM s -> exists base thing, opt_of (flat σ) s = Ok (base, thing) /\ pair st' base thing).
  Proof.
    intros IP IR E II IN H.
    assert (SAME : (forall s, item <> R_QM s) -> inv st' /\ incl st st' /\ things (flat σ) item = Ok xs /\ (forall s, item = R_QM s -> exists base thing, opt_of (flat σ) s = Ok (base, thing) /\ pair st' base thing)).
    { intros NQ. assert (Q : st' = st /\ things (flat σ) item = Ok xs).
      { unfold things. destruct item as [| |[nm args|c|c]|s| | | | |b o| | |]; cbn [M_Expand.expand_item] in *; try (injection H as <- <-; auto); try (destruct (NQ _ eq_refl)).
        - destruct (i =? 0); cbn [assert_ bind] in H; [|discriminate]. injection H as <- <-. auto.
        - destruct (i =? n - 1); cbn [assert_ bind] in H; [|discriminate]. injection H as <- <-. auto.
        - destruct (expand_nt nm args (flat σ)); cbn [bind] in *; [|discriminate]. injection H as <- <-. auto.
        - destruct (convert_operand prodns o); cbn [bind] in *; [|discriminate]. injection H as <- <-. auto. }
      destruct Q as [-> T]. split; [auto|]. split; [apply incl_refl|]. split; [auto|]. intros s Q. destruct (NQ _ Q). }
    destruct item as [| |s|s| | | | |b o| | |]; try (apply SAME; discriminate). clear SAME. cbn [M_Expand.expand_item] in H.
    set (name := fun bto : text * xthing * text => fst (fst bto) ++ [qmark]).
    assert (OB : exists base thing ob, opt_of (flat σ) s = Ok (base, thing) /\ xs = [X_NT (base ++ [63%N])] /\
      st' = if has_lhs st (base ++ [63%N]) then st else st ++ [mkEx (base ++ [63%N]) [thing] (ob ++ [63%N]) ob (flat σ)] ++ [mkEx (base ++ [63%N]) [] (ob ++ [63%N]) [] (flat σ)]).
    { destruct s as [nm args|c|c]; cbn [opt_of]; [|cbn [bind] in H|discriminate].
      - destruct (expand_nt nm args (flat σ)) as [e|]; cbn [bind] in H |- *; [|discriminate]. injection H as <- <-. exists e, (X_NT e), nm. split; [auto|]. split; [auto|]. unfold add_prod. change qmark with 63%N. rewrite <- app_assoc. reflexivity.
      - injection H as <- <-. exists c, (X_lit c), c. split; [auto|]. split; [auto|]. unfold add_prod. change qmark with 63%N. rewrite <- app_assoc. reflexivity. }
    destruct OB as (base & thing & ob & O & -> & ST). assert (OP : optional base thing) by (exists p, r, σ, s; auto). assert (T : things (flat σ) (R_QM s) = Ok [X_NT (base ++ [63%N])]) by (cbn [things]; rewrite O; reflexivity).
    destruct (has_lhs st (base ++ [63%N])) eqn:HL; subst st'.
    - split; [auto|]. split; [apply incl_refl|]. split; [auto|]. intros s' Q. injection Q as <-. exists base, thing. split; [auto|]. apply has_lhs_in in HL as (q & IQ & EQ). destruct (IN q IQ) as [M|(b' & t' & O' & E' & _ & PR)].
      + destruct (main_name q M) as (a & s' & EN & CA & CS). rewrite EQ in EN. symmetry in EN. destruct (name_no_q _ _ _ CA CS EN).
      + rewrite EQ in E'. apply app_last_inj in E'. subst b'. rewrite (optional_det _ _ _ OP O'). exact PR.
    - set (q1 := mkEx (base ++ [63%N]) [thing] (ob ++ [63%N]) ob (flat σ)) in *. set (q2 := mkEx (base ++ [63%N]) [] (ob ++ [63%N]) [] (flat σ)) in *.
      assert (IC : incl st (st ++ [q1] ++ [q2])) by (apply incl_appl, incl_refl).
      assert (PR : pair (st ++ [q1] ++ [q2]) base thing) by (split; [exists q1|exists q2]; (split; [apply in_or_app; right; cbn; auto|split; reflexivity])).
      split; [|split; [auto|split; [auto|]]].
      + intros q IQ. apply in_app_or in IQ as [IQ|IQ].
        * destruct (IN q IQ) as [M|(b' & t' & O' & E' & R' & P')]; [now left|]. right. exists b', t'. split; [auto|]. split; [auto|]. split; [auto|]. eapply pair_incl; eauto.
        * right. exists base, thing. cbn in IQ. destruct IQ as [<-|[<-|[]]]; auto.
      + intros s' Q. injection Q as <-. eauto.
  Qed.
  Lemma items_step p r σ : In p prodns -> In r (p_rhss p) -> map snd σ = p_params p -> forall its i n st xs st', incl its (items r) -> inv st -> expand_items (flat σ) i n its st = Ok (xs, st') ->
    inv st' /\ incl st st' /\ all_things (flat σ) its = Ok xs /\ (forall s, In (R_QM s) its -> exists base thing, opt_of (flat σ) s = Ok (base, thing) /\ pair st' base thing).
  Proof.
    intros IP IR E. induction its as [|it its IH]; intros i n st xs st' IC IN H; cbn [M_Expand.expand_items] in H.
    - injection H as <- <-. split; [auto|]. split; [apply incl_refl|]. split; [auto|]. intros s [].
    - destruct (expand_item (flat σ) i n it st) as [[a st1]|] eqn:X; cbn [bind fst snd] in H; [|discriminate]. destruct (expand_items (flat σ) (S i) n its st1) as [[b st2]|] eqn:Y; cbn [bind fst snd] in H; [|discriminate]. injection H as <- <-.
      destruct (item_step p r σ it i n st a st1 IP IR E (IC it (or_introl eq_refl)) IN X) as (I1 & C1 & T1 & O1). destruct (IH (S i) n st1 b st2) as (I2 & C2 & T2 & O2); auto; [intros y Iy; apply IC; now right|].
      split; [auto|]. split; [eapply incl_tran; eauto|]. split; [cbn [all_things]; rewrite T1, T2; reflexivity|]. intros s [->|IS]; [|auto]. destruct (O1 s eq_refl) as (base & thing & O & P). exists base, thing. split; [auto|]. eapply pair_incl; eauto.
  Qed.
  Definition post (p : prodn) (σ : list (bool * text)) (r : rhs_n) (st : list exprod) : Prop := guard_ok r (flat σ) = true ->
    exists q, In q st /\ ex_lhs q = name_of (p_lhs p) σ /\ all_things (flat σ) (items r) = Ok (ex_rhs q) /\ forall s, In (R_QM s) (items r) -> exists base thing, opt_of (flat σ) s = Ok (base, thing) /\ pair st base thing.
  Lemma post_incl p σ r st st' : incl st st' -> post p σ r st -> post p σ r st'.
  Proof. intros I H G. destruct (H G) as (q & IQ & L & T & O). exists q. split; [auto|]. split; [auto|]. split; [auto|]. intros s IS. destruct (O s IS) as (b & t & O1 & O2). exists b, t. split; [auto|]. eapply pair_incl; eauto. Qed.
  Lemma prod_step p r σ st st' : In p prodns -> In r (p_rhss p) -> map snd σ = p_params p -> inv st -> simplify_prod (flat σ) (p_lhs p) r st = Ok st' -> inv st' /\ incl st st' /\ post p σ r st'.
  Proof.
    intros IP IR E IN H. unfold M_Expand.simplify_prod in H. destruct (guard_ok r (flat σ)) eqn:G; cbn [negb] in H.
    - destruct (expand_items (flat σ) 0 _ (items r) st) as [[xs st1]|] eqn:X; cbn [bind fst snd] in H; [|discriminate]. destruct (items_step p r σ IP IR E _ _ _ _ _ _ (incl_refl _) IN X) as (I1 & C1 & T & O).
      set (q := mkEx (p_lhs p ++ concat (flat σ)) xs (p_lhs p) (reduced r) (flat σ)) in *. unfold add_prod in H. injection H as <-. assert (IC : incl st1 (st1 ++ [q])) by apply incl_appl, incl_refl.
      split; [|split].
      + intros x IX. apply in_app_or in IX as [IX|[<-|[]]].
        * destruct (I1 x IX) as [M|(b' & t' & O' & E' & R' & P')]; [now left|]. right. exists b', t'. split; [auto|]. split; [auto|]. split; [auto|]. eapply pair_incl; eauto.
        * left. exists p, r, σ. auto 10.
      + eapply incl_tran; eauto.
      + intros _. exists q. split; [apply in_or_app; right; now left|]. split; [reflexivity|]. split; [auto|]. intros s IS. destruct (O s IS) as (b & t & O1 & O2). exists b, t. split; [auto|]. eapply pair_incl; eauto.
    - injection H as <-. split; [auto|]. split; [apply incl_refl|]. intros Q. congruence.
  Qed.
  Lemma each_step {A} (f : A -> list exprod -> res (list exprod)) (P : A -> list exprod -> Prop) : (forall x st st', incl st st' -> P x st -> P x st') ->
    forall l, (forall x st st', In x l -> inv st -> f x st = Ok st' -> inv st' /\ incl st st' /\ P x st') ->
    forall st st', inv st -> each f l st = Ok st' -> inv st' /\ incl st st' /\ forall x, In x l -> P x st'.
  Proof.
    intros M. induction l as [|x l IH]; intros F st st' IN H; cbn in H.
    - injection H as <-. split; [auto|]. split; [apply incl_refl|]. intros x [].
    - destruct (f x st) as [st1|] eqn:X; cbn [bind] in H; [|discriminate]. destruct (F x st st1 (or_introl eq_refl) IN X) as (I1 & C1 & P1). destruct (IH (fun y s s' I => F y s s' (or_intror I)) st1 st' I1 H) as (I2 & C2 & P2).
      split; [auto|]. split; [eapply incl_tran; eauto|]. intros y [<-|I]; eauto.
  Qed.
  Lemma grammar_ok ps : simplify_grammar lexical prodns = Ok ps -> exists st,
    inv st /\ (forall p r σ, In p prodns -> In r (p_rhss p) -> map snd σ = p_params p -> post p σ r st) /\
    ps = if lexical then st ++ map (fun n => mkEx InputElement_common [X_NT n] InputElement_common n []) [WhiteSpace_; LineTerminator_; Comment_; CommonToken_] else st.
  Proof.
    unfold simplify_grammar. intros H. destruct (each _ _ []) as [st|] eqn:E; cbn [bind] in H; [|discriminate]. injection H as <-. exists st.
    assert (PERM : forall p, In p (isort (fun a b => text_leb (p_lhs a) (p_lhs b)) prodns) <-> In p prodns).
    { intros p. assert (INS : forall x l, In p (insert (fun a b => text_leb (p_lhs a) (p_lhs b)) x l) <-> p = x \/ In p l).
      { intros x l. induction l as [|y l IH]; cbn; [intuition|]. destruct (text_leb _ _); cbn; [intuition|]. rewrite IH. intuition. }
      clear -INS. induction prodns as [|x l IH]; cbn; [tauto|]. rewrite INS, IH. intuition. }
    apply (each_step _ (fun p st => forall r σ, In r (p_rhss p) -> map snd σ = p_params p -> post p σ r st)) in E.
    - destruct E as (IN & _ & P). split; [auto|]. split; [intros p r σ IP; apply (P p); now apply PERM|]. destruct lexical; [|auto]. unfold make_InputElement_common. cbn [fold_left map]. unfold add_prod. rewrite <- !app_assoc. reflexivity.
    - intros p s s' I Q r σ IR EM. eapply post_incl; eauto.
    - intros p s s' IP IN X. apply PERM in IP. destruct (each_setting (p_params p)) as [ss|] eqn:SS; cbn [bind] in X; [|discriminate]. pose proof (setting_spec _ _ SS) as SP.
      apply (each_step _ (fun x s => forall σ, x = flat σ -> map snd σ = p_params p -> forall r, In r (p_rhss p) -> post p σ r s)) in X; auto.
      + destruct X as (I2 & C2 & P2). split; [auto|]. split; [auto|]. intros r σ IR EM. apply (P2 (flat σ)); auto. apply SP. eauto.
      + intros x s1 s2 I Q σ EX EM r IR. eapply post_incl; eauto.
      + intros x s1 s2 IX I1 X1. apply SP in IX as (σ & EM & ->). apply (each_step _ (fun r s => post p σ r s)) in X1; auto.
        * destruct X1 as (I2 & C2 & P2). split; [auto|]. split; [auto|]. intros σ' EX EM' r IR. destruct (in_params p σ IP EM) as [_ C1]. destruct (in_params p σ' IP EM') as [_ C1'].
          assert (σ = σ') as <-; [|auto]. apply flat_inj; auto. now rewrite EX.
        * intros r s3 s4 I3 Q. eapply post_incl; eauto.
        * intros r s3 s4 IR I3 X3. eapply prod_step; eauto.
    - intros q [].
  Qed.
End Main.
