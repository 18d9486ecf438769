(* The productions of each name in the expanded grammar, and success of the expansion. *)
From Verif Require Import M_Base L_Base M_GramCheck L_GramCheck M_Expand L_Expand L_ExpandMain L_ExpandDer.

Notation named n ps := (filter (fun q => text_eqb (ex_lhs q) n) ps).
Lemma text_refl a : text_eqb a a = true.
Proof. now apply text_eqb_eq. Qed.
Lemma text_neq a b : a <> b -> text_eqb a b = false.
Proof. intros N. destruct (text_eqb a b) eqn:E; [apply text_eqb_eq in E; contradiction|auto]. Qed.
(* what is said of the expansion of one nonterminal with one setting *)
Definition counterpart (p : prodn) (σ : list (bool * text)) (r : rhs_n) (q : exprod) : Prop := og_lhs q = p_lhs p /\ og_rhs_reduced q = reduced r /\ og_params_setting q = flat σ.

(* what the expansion of a grammar needs in order to succeed *)
Record expandable (prodns : list prodn) : Prop := {
  x_params : forall p, In p prodns -> length (p_params p) <= 4;
  x_nodup : forall p, In p prodns -> NoDup (p_params p);
  x_args : forall p r n args a, In p prodns -> In r (p_rhss p) -> In (R_sym (S_GNT n args)) (items r) \/ In (R_QM (S_GNT n args)) (items r) -> In a args -> match fst a with AQuestion => In (snd a) (p_params p) | APlus | ATilde => True | AOther => False end;
  x_opt : forall p r c, In p prodns -> In r (p_rhss p) -> ~ In (R_QM (S_char c)) (items r);
  x_set : forall p r b o, In p prodns -> In r (p_rhss p) -> In (R_LAC_SET b o) (items r) -> exists tss, sequences prodns o tss;
  x_place : forall p r i, In p prodns -> In r (p_rhss p) -> (nth_error (items r) i = Some R_PARAMS -> i = 0) /\ (nth_error (items r) i = Some R_LABEL -> i = length (items r) - 1);
  x_lhs : NoDup (map p_lhs prodns) }.

Section More.
  Variable lexical : bool.
  Variable prodns : list prodn.
  Notation expand_item := (expand_item lexical prodns).
  Notation expand_items := (expand_items lexical prodns).
  Notation simplify_prod := (simplify_prod lexical prodns).

  Section Names.
    Hypothesis W : well_formed lexical prodns.
    Lemma item_names n σ i m it st xs st' : (forall base, n <> base ++ [63%N]) -> expand_item σ i m it st = Ok (xs, st') -> named n st' = named n st.
    Proof.
      intros NQ H. destruct it as [| |[nm args|c|c]|s| | | | |b o| | |]; cbn [M_Expand.expand_item] in H; try (injection H as <- <-; reflexivity).
      - destruct (i =? 0); cbn [assert_ bind] in H; [|discriminate]. now injection H as <- <-.
      - destruct (i =? m - 1); cbn [assert_ bind] in H; [|discriminate]. now injection H as <- <-.
      - destruct (expand_nt nm args σ); cbn [bind] in H; [|discriminate]. now injection H as <- <-.
      - destruct (match s with S_GNT _ _ => _ | S_lit c => _ | S_char _ => _ end) as [[[base thing] ob]|]; cbn [bind] in H; [|discriminate]. injection H as <- <-. destruct (has_lhs st (base ++ [qmark])); [auto|].
        unfold add_prod. rewrite !filter_app. cbn [filter ex_lhs]. rewrite (text_neq (base ++ [qmark]) n) by (intros Q; exact (NQ base (eq_sym Q))). cbn [filter]. now rewrite !app_nil_r.
      - destruct (convert_operand prodns o); cbn [bind] in H; [|discriminate]. now injection H as <- <-.
    Qed.
    Lemma items_names n σ : (forall base, n <> base ++ [63%N]) -> forall its i m st xs st', expand_items σ i m its st = Ok (xs, st') -> named n st' = named n st.
    Proof.
      intros NQ. induction its as [|it its IH]; intros i m st xs st' H; cbn [M_Expand.expand_items] in H; [now injection H as <- <-|].
      destruct (expand_item σ i m it st) as [[a st1]|] eqn:X; cbn [bind fst snd] in H; [|discriminate]. destruct (expand_items σ (S i) m its st1) as [[b st2]|] eqn:Y; cbn [bind fst snd] in H; [|discriminate]. injection H as <- <-.
      rewrite (IH _ _ _ _ _ Y). eapply item_names; eauto.
    Qed.
    Lemma each_names {A} n (f : A -> list exprod -> res (list exprod)) (Q : A -> list exprod -> Prop) l : (forall x st st', In x l -> f x st = Ok st' -> exists c, named n st' = named n st ++ c /\ Q x c) ->
      forall st st', each f l st = Ok st' -> exists cs, named n st' = named n st ++ concat cs /\ Forall2 Q l cs.
    Proof.
      induction l as [|x l IH]; intros F st st' H; cbn in H.
      - injection H as <-. exists []. cbn. rewrite app_nil_r. auto.
      - destruct (f x st) as [st1|] eqn:X; cbn [bind] in H; [|discriminate]. destruct (F x st st1 (or_introl eq_refl) X) as (c & E & QX). destruct (IH (fun y s s' I => F y s s' (or_intror I)) st1 st' H) as (cs & E2 & F2).
        exists (c :: cs). split; [|constructor; auto]. cbn. now rewrite E2, E, <- app_assoc.
    Qed.
    (* only one element contributes *)
    Lemma only_one {A} (Q : A -> list exprod -> Prop) (x : A) l cs : NoDup l -> In x l -> Forall2 (fun y c => (y = x /\ Q x c) \/ (y <> x /\ c = [])) l cs -> Q x (concat cs).
    Proof.
      intros ND I F. induction F as [|y c l cs H F IH]; [destruct I|]. inversion ND as [|? ? NI ND']; subst. cbn.
      assert (NONE : ~ In x l -> concat cs = []). { clear -F. intros NI. induction F as [|y c l cs [[-> _]|[_ ->]] F IH]; [auto|destruct NI; now left|]. cbn. apply IH. intros I. apply NI. now right. }
      destruct H as [[-> QX]|[NE ->]].
      - rewrite (NONE NI), app_nil_r. auto.
      - destruct I as [->|I]; [contradiction|]. now apply IH.
    Qed.
    Lemma alt_names p σ : In p prodns -> map snd σ = p_params p -> forall l, incl l (p_rhss p) -> forall st st', each (simplify_prod (flat σ) (p_lhs p)) l st = Ok st' ->
      exists c, named (name_of (p_lhs p) σ) st' = named (name_of (p_lhs p) σ) st ++ c /\ Forall2 (counterpart p σ) (filter (fun r => guard_ok r (flat σ)) l) c.
    Proof.
      intros IP E. destruct (in_params _ _ W p σ IP E) as [_ CS]. pose proof (proj1 (w_names _ _ W p IP)) as CP.
      assert (NQ : forall base, name_of (p_lhs p) σ <> base ++ [63%N]) by (intros base; now apply name_no_q).
      induction l as [|r l IH]; intros IC st st' H; cbn [each] in H.
      - injection H as <-. exists []. rewrite app_nil_r. split; [auto|constructor].
      - destruct (simplify_prod (flat σ) (p_lhs p) r st) as [st1|] eqn:X; cbn [bind] in H; [|discriminate]. destruct (IH (fun y I => IC y (or_intror I)) st1 st' H) as (c & E2 & F2). rewrite E2. clear E2 IH.
        unfold M_Expand.simplify_prod in X. cbn [filter]. destruct (guard_ok r (flat σ)); cbn [negb] in X.
        + destruct (expand_items (flat σ) 0 (length (items r)) (items r) st) as [[xs st2]|] eqn:Y; cbn [bind fst snd] in X; [|discriminate]. injection X as <-. unfold add_prod. rewrite filter_app, (items_names _ _ NQ _ _ _ _ _ _ Y). cbn [filter ex_lhs]. fold (name_of (p_lhs p) σ). rewrite text_refl. eexists (_ :: c). rewrite <- app_assoc. split; [reflexivity|]. constructor; [|auto]. repeat split.
        + injection X as <-. eauto.
    Qed.
    Lemma other_alt_names n p σ : (forall base, n <> base ++ [63%N]) -> name_of (p_lhs p) σ <> n -> forall l st st', each (simplify_prod (flat σ) (p_lhs p)) l st = Ok st' -> named n st' = named n st.
    Proof.
      intros NQ NE. induction l as [|r l IH]; intros st st' H; cbn [each] in H; [now injection H as <-|]. destruct (simplify_prod (flat σ) (p_lhs p) r st) as [st1|] eqn:X; cbn [bind] in H; [|discriminate]. rewrite (IH st1 st' H). clear H IH.
      unfold M_Expand.simplify_prod in X. destruct (guard_ok r (flat σ)); cbn [negb] in X; [|now injection X as <-].
      destruct (expand_items (flat σ) 0 (length (items r)) (items r) st) as [[xs st2]|] eqn:Y; cbn [bind fst snd] in X; [|discriminate]. injection X as <-. unfold add_prod. rewrite filter_app, (items_names _ _ NQ _ _ _ _ _ _ Y). cbn [filter ex_lhs]. fold (name_of (p_lhs p) σ). rewrite (text_neq _ _ NE). now rewrite app_nil_r.
    Qed.
    Lemma settings_nodup params ss : each_setting params = Ok ss -> NoDup ss.
    Proof.
      unfold each_setting. destruct (each_boolean_vector_of_length (length params)) as [vs|] eqn:V; cbn [bind]; [|discriminate]. intros H. injection H as <-. destruct (vec_exact _ _ V) as [ND VE]. clear V.
      assert (INJ : forall ps v w, length v = length ps -> length w = length ps -> flat (combine v ps) = flat (combine w ps) -> v = w).
      { clear. induction ps as [|p ps IH]; intros [|b v] [|c w] L1 L2 E; cbn in *; try discriminate; auto. injection E as E1 E2. f_equal; [destruct b, c; congruence|]. apply IH; auto; lia. }
      assert (IV : forall v, In v vs -> length v = length params) by (intros v I; now apply VE). clear VE. induction ND as [|v vs NI ND IH]; cbn [map]; constructor.
      - intros I. apply in_map_iff in I as (w & Q & I). apply INJ in Q; [subst; auto| |]; apply IV; cbn; auto.
      - apply IH. intros w I. apply IV. now right.
    Qed.
    Lemma sorted_perm l : (forall p, In p (isort (fun a b => text_leb (p_lhs a) (p_lhs b)) l) <-> In p l) /\ (NoDup l -> NoDup (isort (fun a b => text_leb (p_lhs a) (p_lhs b)) l)).
    Proof.
      assert (INS : forall p x l, In p (insert (fun a b => text_leb (p_lhs a) (p_lhs b)) x l) <-> p = x \/ In p l).
      { intros p x k. induction k as [|y k IH]; cbn; [intuition|]. destruct (text_leb _ _); cbn; [intuition|]. rewrite IH. intuition. }
      assert (ND1 : forall x l, ~ In x l -> NoDup l -> NoDup (insert (fun a b => text_leb (p_lhs a) (p_lhs b)) x l)).
      { intros x k. induction k as [|y k IH]; cbn; intros NI ND; [constructor; auto|]. destruct (text_leb _ _); [constructor; auto|]. inversion ND as [|? ? NI' ND']; subst. constructor; [|apply IH; auto]. rewrite INS. intros [->|I]; auto. }
      induction l as [|x l [IH1 IH2]]; cbn [isort fold_right].
      - split; [tauto|auto].
      - split; [intros p; fold (isort (fun a b => text_leb (p_lhs a) (p_lhs b)) l); rewrite INS, IH1; cbn; intuition|]. intros ND. inversion ND as [|? ? NI ND']; subst. apply ND1; [now rewrite IH1|auto].
    Qed.
    Lemma prodns_nodup : NoDup prodns.
    Proof. pose proof (w_nodup _ _ W) as ND. now apply NoDup_map_inv in ND. Qed.
    Lemma common_added n st : (lexical = true -> n <> InputElement_common) -> named n (if lexical then make_InputElement_common st else st) = named n st.
    Proof.
      intros NE. destruct lexical; [|auto]. specialize (NE eq_refl). unfold make_InputElement_common. cbn [fold_left]. unfold add_prod. rewrite !filter_app. cbn [filter ex_lhs]. rewrite (text_neq InputElement_common n) by congruence. now rewrite !app_nil_r.
    Qed.
    Theorem alternatives ps p σ : simplify_grammar lexical prodns = Ok ps -> In p prodns -> map snd σ = p_params p ->
      Forall2 (counterpart p σ) (filter (fun r => guard_ok r (flat σ)) (p_rhss p)) (named (name_of (p_lhs p) σ) ps).
    Proof.
      unfold simplify_grammar. intros H IP E. destruct (each _ _ []) as [st|] eqn:X; cbn [bind] in H; [|discriminate]. injection H as <-. destruct (in_params _ _ W p σ IP E) as [_ CS]. pose proof (proj1 (w_names _ _ W p IP)) as CP.
      assert (NQ : forall base, name_of (p_lhs p) σ <> base ++ [63%N]) by (intros base; now apply name_no_q). assert (DP : defines prodns (p_lhs p)) by (exists p; auto).
      rewrite common_added.
      2:{ intros L Q. rewrite common_name in Q. destruct (name_inj _ _ _ _ CP common_clean CS nil_clean Q) as [Q2 _]. apply (w_common _ _ W L). now rewrite <- Q2. }
      destruct (sorted_perm prodns) as [SP SN]. specialize (SN prodns_nodup).
      apply (each_names (name_of (p_lhs p) σ) _ (fun p' c => (p' = p /\ Forall2 (counterpart p σ) (filter (fun r => guard_ok r (flat σ)) (p_rhss p)) c) \/ (p' <> p /\ c = []))) in X.
      - destruct X as (cs & EQ & F). rewrite EQ. cbn [filter app]. apply (only_one (fun p' c => Forall2 (counterpart p' σ) (filter (fun r => guard_ok r (flat σ)) (p_rhss p')) c) p (isort (fun a b => text_leb (p_lhs a) (p_lhs b)) prodns)); auto. now apply SP.
      - intros p' s s' I Y. apply SP in I. destruct (each_setting (p_params p')) as [ss|] eqn:SS; cbn [bind] in Y; [|discriminate]. pose proof (setting_spec _ _ SS) as SE. pose proof (settings_nodup _ _ SS) as SD.
        assert (DEC : p' = p \/ p' <> p). { destruct (text_eqb (p_lhs p') (p_lhs p)) eqn:TE; [apply text_eqb_eq in TE; left; exact (one_prodn _ _ W _ _ I IP TE)|right; intros ->; rewrite text_refl in TE; discriminate]. }
        destruct DEC as [->|NP].
        + apply (each_names (name_of (p_lhs p) σ) _ (fun x c => (x = flat σ /\ Forall2 (counterpart p σ) (filter (fun r => guard_ok r (flat σ)) (p_rhss p)) c) \/ (x <> flat σ /\ c = []))) in Y.
          * destruct Y as (cs & EQ & F). exists (concat cs). split; [auto|]. left. split; [auto|]. apply (only_one (fun _ c => Forall2 (counterpart p σ) (filter (fun r => guard_ok r (flat σ)) (p_rhss p)) c) (flat σ) ss); auto. apply SE. eauto.
          * intros x s1 s2 IX Z. apply SE in IX as (τ & ET & ->). destruct (in_params _ _ W p τ IP ET) as [_ CT].
            assert (D2 : τ = σ \/ τ <> σ) by (destruct (list_eq_dec (fun a b : bool * text => ltac:(decide equality; [apply (list_eq_dec N.eq_dec)|apply Bool.bool_dec])) τ σ); auto). destruct D2 as [->|NT].
            -- destruct (alt_names p σ IP E (p_rhss p) (incl_refl _) s1 s2 Z) as (c & EC & FC). exists c. split; [auto|]. left. auto.
            -- exists []. rewrite app_nil_r. assert (NN : flat τ <> flat σ) by (intros Q; apply NT; apply flat_inj; auto; now rewrite Q). split; [|right; auto]. eapply other_alt_names; [exact NQ| |exact Z]. intros Q. destruct (name_inj _ _ _ _ CP CP CT CS Q). contradiction.
        + exists []. rewrite app_nil_r. split; [|right; auto]. apply (each_names (name_of (p_lhs p) σ) _ (fun _ c => c = [])) in Y.
          * destruct Y as (cs & EQ & F). rewrite EQ. assert (concat cs = []) as ->; [|now rewrite app_nil_r]. clear -F. induction F as [|x c l cs -> F IH]; auto.
          * intros x s1 s2 IX Z. apply SE in IX as (τ & ET & ->). destruct (in_params _ _ W p' τ I ET) as [_ CT]. exists []. rewrite app_nil_r. split; [|auto]. eapply other_alt_names; [exact NQ| |exact Z]. intros Q.
            destruct (name_inj _ _ _ _ (proj1 (w_names _ _ W p' I)) CP CT CS Q) as [Q2 _]. apply NP. exact (one_prodn _ _ W _ _ I IP Q2).
    Qed.

    (* ---- optional symbols ---- *)
    Definition once (base : text) (thing : xthing) (st : list exprod) : Prop := named (base ++ [63%N]) st = [] \/ exists q1 q2, named (base ++ [63%N]) st = [q1; q2] /\ ex_rhs q1 = [thing] /\ ex_rhs q2 = [].
    Lemma item_once base thing p r σ it i m st xs st' : optional prodns base thing -> In p prodns -> In r (p_rhss p) -> map snd σ = p_params p -> In it (items r) -> once base thing st -> expand_item (flat σ) i m it st = Ok (xs, st') -> once base thing st'.
    Proof.
      intros OP IP IR E II O H. destruct it as [| |[nm args|c|c]|s| | | | |b o| | |]; cbn [M_Expand.expand_item] in H; try (injection H as <- <-; assumption).
      - destruct (i =? 0); cbn [assert_ bind] in H; [|discriminate]. now injection H as <- <-.
      - destruct (i =? m - 1); cbn [assert_ bind] in H; [|discriminate]. now injection H as <- <-.
      - destruct (expand_nt nm args (flat σ)); cbn [bind] in H; [|discriminate]. now injection H as <- <-.
      - assert (OB : exists base' thing' ob, opt_of (flat σ) s = Ok (base', thing') /\ st' = if has_lhs st (base' ++ [63%N]) then st else st ++ [mkEx (base' ++ [63%N]) [thing'] (ob ++ [63%N]) ob (flat σ)] ++ [mkEx (base' ++ [63%N]) [] (ob ++ [63%N]) [] (flat σ)]).
        { destruct s as [nm args|c|c]; cbn [opt_of]; [|cbn [bind] in H|discriminate].
          - destruct (expand_nt nm args (flat σ)) as [e|]; cbn [bind] in H |- *; [|discriminate]. injection H as <- <-. exists e, (X_NT e), nm. split; [auto|]. unfold add_prod. change qmark with 63%N. rewrite <- app_assoc. reflexivity.
          - injection H as <- <-. exists c, (X_lit c), c. split; [auto|]. unfold add_prod. change qmark with 63%N. rewrite <- app_assoc. reflexivity. }
        destruct OB as (base' & thing' & ob & OO & ->). destruct (has_lhs st (base' ++ [63%N])) eqn:HL; [auto|]. assert (OP' : optional prodns base' thing') by (exists p, r, σ, s; auto). unfold once. rewrite filter_app. cbn [filter app ex_lhs]. destruct (text_eqb (base' ++ [63%N]) (base ++ [63%N])) eqn:TE.
        + apply text_eqb_eq, app_last_inj in TE. subst base'. rewrite (optional_det _ _ W _ _ _ OP' OP) in *. right. assert (named (base ++ [63%N]) st = []) as ->.
          { clear -HL. unfold has_lhs in HL. induction st as [|x st IH]; cbn in *; [auto|]. destruct (text_eqb (ex_lhs x) (base ++ [63%N])); cbn in HL; [discriminate|auto]. }
          cbn. eauto.
        + rewrite app_nil_r. exact O.
      - destruct (convert_operand prodns o); cbn [bind] in H; [|discriminate]. now injection H as <- <-.
    Qed.
    Lemma each_inv {A} (P : list exprod -> Prop) (f : A -> list exprod -> res (list exprod)) l : (forall x st st', In x l -> P st -> f x st = Ok st' -> P st') -> forall st st', P st -> each f l st = Ok st' -> P st'.
    Proof.
      induction l as [|x l IH]; intros F st st' PS H; cbn in H; [now injection H as <-|]. destruct (f x st) as [st1|] eqn:X; cbn [bind] in H; [|discriminate]. eapply IH; [|eapply F; [now left|exact PS|exact X]|exact H]. intros y s s' I. apply F. now right.
    Qed.
    Lemma items_once base thing p r σ : optional prodns base thing -> In p prodns -> In r (p_rhss p) -> map snd σ = p_params p -> forall its i m st xs st', incl its (items r) -> once base thing st -> expand_items (flat σ) i m its st = Ok (xs, st') -> once base thing st'.
    Proof.
      intros OP IP IR E. induction its as [|it its IH]; intros i m st xs st' IC O H; cbn [M_Expand.expand_items] in H; [now injection H as <- <-|].
      destruct (expand_item (flat σ) i m it st) as [[a st1]|] eqn:X; cbn [bind fst snd] in H; [|discriminate]. destruct (expand_items (flat σ) (S i) m its st1) as [[b st2]|] eqn:Y; cbn [bind fst snd] in H; [|discriminate]. injection H as <- <-.
      eapply IH; [| |exact Y]; [intros y I; apply IC; now right|]. eapply item_once; eauto. apply IC. now left.
    Qed.
    Theorem option_once ps base thing p r σ s : simplify_grammar lexical prodns = Ok ps -> In p prodns -> In r (p_rhss p) -> map snd σ = p_params p -> guard_ok r (flat σ) = true -> In (R_QM s) (items r) -> opt_of (flat σ) s = Ok (base, thing) ->
      exists q1 q2, named (base ++ [63%N]) ps = [q1; q2] /\ ex_rhs q1 = [thing] /\ ex_rhs q2 = [].
    Proof.
      intros G IP IR E GO IS OO. assert (OP : optional prodns base thing) by (exists p, r, σ, s; auto).
      assert (ON : once base thing ps).
      { clear p r σ s IP IR E GO IS OO. unfold simplify_grammar in G. destruct (each _ _ []) as [st|] eqn:X; cbn [bind] in G; [|discriminate]. injection G as <-. unfold once. rewrite common_added.
        2:{ intros _ Q. rewrite common_name in Q. symmetry in Q. destruct (name_no_q _ _ _ common_clean nil_clean Q). }
        change (once base thing st). revert X. apply each_inv; [|now left]. intros p s1 s2 IP O Y. apply (proj1 (sorted_perm prodns)) in IP. destruct (each_setting (p_params p)) as [ss|] eqn:SS; cbn [bind] in Y; [|discriminate]. pose proof (setting_spec _ _ SS) as SE.
        revert O Y. apply each_inv. intros x s3 s4 IX O Y. apply SE in IX as (σ & E & ->). revert O Y. apply each_inv. intros r s5 s6 IR O Y. unfold M_Expand.simplify_prod in Y. destruct (guard_ok r (flat σ)); cbn [negb] in Y; [|now injection Y as <-].
        destruct (expand_items (flat σ) 0 (length (items r)) (items r) s5) as [[xs s7]|] eqn:Z; cbn [bind fst snd] in Y; [|discriminate]. injection Y as <-. pose proof (items_once base thing p r σ OP IP IR E _ _ _ _ _ _ (incl_refl _) O Z) as O7.
        unfold once, add_prod. rewrite filter_app. cbn [filter ex_lhs]. fold (name_of (p_lhs p) σ). destruct (in_params _ _ W p σ IP E) as [_ CS]. rewrite (text_neq _ _ (name_no_q (p_lhs p) σ base (proj1 (w_names _ _ W p IP)) CS)). rewrite app_nil_r. exact O7. }
      destruct ON as [ON|ON]; [|exact ON]. exfalso. destruct (ps_post _ _ W ps G p r σ IP IR E GO) as (_ & _ & _ & _ & Q). destruct (Q s IS) as (b & t & O2 & (q & IQ & LQ & _) & _). rewrite OO in O2. injection O2 as <- <-.
      assert (IN : In q (named (base ++ [63%N]) ps)) by (apply filter_In; split; [auto|rewrite LQ; apply text_refl]). rewrite ON in IN. destruct IN.
    Qed.
  End Names.

  (* ---- success ---- *)
  Hypothesis X : expandable prodns.
  Lemma args_ok σ : NoDup (map snd σ) -> forall args n, (forall a, In a args -> match fst a with AQuestion => In (snd a) (map snd σ) | APlus | ATilde => True | AOther => False end) -> exists e, expand_nt n args (flat σ) = Ok e.
  Proof.
    intros ND args n A. assert (F : exists s', passes σ args s').
    { induction args as [|[k a] args IH]; [exists []; constructor|]. destruct IH as (s' & F); [intros y I; apply A; now right|]. specialize (A (k, a) (or_introl eq_refl)). cbn in A. destruct k; [|exists ((true, a) :: s')|exists ((false, a) :: s')|destruct A]; try (constructor; [cbn; auto|exact F]).
      apply in_map_iff in A as ([b a'] & Ea & I). cbn in Ea. subst a'. exists ((b, a) :: s'). constructor; auto. }
    destruct F as (s' & F). exists (name_of n s'). apply (expand_spec σ ND). exists s'. auto.
  Qed.
  Lemma operand_ok p r b o : In p prodns -> In r (p_rhss p) -> In (R_LAC_SET b o) (items r) -> exists tss, convert_operand prodns o = Ok tss.
  Proof.
    intros IP IR II. destruct (x_set _ X p r b o IP IR II) as (tss & S). exists tss. destruct S as [seqs|p' cs IP' F]; [reflexivity|]. cbn [convert_operand].
    assert (FP : find (fun p => text_eqb (p_lhs p) (p_lhs p')) prodns = Some p').
    { pose proof (x_lhs _ X) as ND. revert ND IP'. clear. generalize prodns as l. induction l as [|y l IH]; cbn; intros ND I; [destruct I|]. inversion ND as [|? ? NI ND']; subst. destruct I as [->|I]; [now rewrite text_refl|].
      rewrite text_neq; [exact (IH ND' I)|]. intros Q. apply NI. rewrite Q. now apply (in_map p_lhs). }
    rewrite FP. change (go_rhss (p_rhss p') = Ok (map (fun c => [L_lit c]) cs)). apply rhss_spec. eauto.
  Qed.
  Lemma items_ok p r σ : In p prodns -> In r (p_rhss p) -> map snd σ = p_params p -> forall its pre st, items r = pre ++ its -> exists a, expand_items (flat σ) (length pre) (length (items r)) its st = Ok a.
  Proof.
    intros IP IR E. assert (ND : NoDup (map snd σ)) by (rewrite E; apply (x_nodup _ X p IP)). induction its as [|it its IH]; intros pre st EI; cbn [M_Expand.expand_items]; [eauto|].
    assert (II : In it (items r)) by (rewrite EI; apply in_or_app; right; now left). assert (NT : nth_error (items r) (length pre) = Some it) by (rewrite EI, nth_error_app2, Nat.sub_diag by lia; reflexivity). destruct (x_place _ X p r (length pre) IP IR) as [PP PL].
    assert (A : exists a, expand_item (flat σ) (length pre) (length (items r)) it st = Ok a).
    { destruct it as [| |[nm args|c|c]|s| | | | |b o| | |]; cbn [M_Expand.expand_item]; try (eexists; reflexivity).
      - rewrite (PP NT). cbn. eauto.
      - rewrite <- (PL NT), Nat.eqb_refl. cbn. eauto.
      - destruct (args_ok σ ND args nm) as (e & ->); [intros a IA; rewrite E; apply (x_args _ X p r nm args a IP IR (or_introl II) IA)|]. cbn. eauto.
      - destruct s as [nm args|c|c]; cbn [bind]; [|eauto|destruct (x_opt _ X p r c IP IR II)]. destruct (args_ok σ ND args nm) as (e & ->); [intros a IA; rewrite E; apply (x_args _ X p r nm args a IP IR (or_intror II) IA)|]. cbn [bind]. eauto.
      - destruct (operand_ok p r b o IP IR II) as (tss & ->). cbn. eauto. }
    destruct A as (a & ->). cbn [bind]. destruct (IH (pre ++ [it]) (snd a)) as (b & B); [now rewrite <- app_assoc|]. rewrite app_length in B. cbn [length] in B. rewrite Nat.add_1_r in B. rewrite B. cbn. eauto.
  Qed.
  Lemma each_ok {A} (f : A -> list exprod -> res (list exprod)) l : (forall x st, In x l -> exists st', f x st = Ok st') -> forall st, exists st', each f l st = Ok st'.
  Proof. induction l as [|x l IH]; intros F st; cbn; [eauto|]. destruct (F x st (or_introl eq_refl)) as (s1 & ->). cbn. apply IH. intros y s I. apply F. now right. Qed.
  Theorem expansion_ok : exists ps, simplify_grammar lexical prodns = Ok ps.
  Proof.
    unfold simplify_grammar. match goal with |- context [each ?f ?l []] => destruct (each_ok f l) with (st := @nil exprod) as (st & ->) end; [|cbn; eauto].
    intros p st IP. apply (proj1 (sorted_perm prodns)) in IP. assert (SS : exists ss, each_setting (p_params p) = Ok ss).
    { unfold each_setting. pose proof (x_params _ X p IP) as L. destruct (length (p_params p)) as [|[|[|[|[|k]]]]]; cbn; eauto; lia. }
    destruct SS as (ss & SS). rewrite SS. cbn [bind]. pose proof (setting_spec _ _ SS) as SE. apply each_ok. intros x s1 IX. apply SE in IX as (σ & E & ->). apply each_ok. intros r s2 IR. unfold M_Expand.simplify_prod. destruct (guard_ok r (flat σ)); cbn [negb]; [|eauto].
    destruct (items_ok p r σ IP IR E (items r) [] s2 eq_refl) as (a & Ea). cbn [length] in Ea. rewrite Ea. cbn. eauto.
  Qed.
End More.
