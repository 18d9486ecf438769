(* What comes of an element that is not accepted (C67). *)
From Coq Require Import Ascii String.
From Verif Require Import M_Base M_HTML M_Meta L_Base L_Meta L_MetaRx L_MetaFwd L_MetaRead L_MetaRead2 L_MetaRead3 L_MetaRead4 L_MetaDec L_MetaBack L_MetaBack2 L_MetaBack3 L_MetaFull L_MetaTot.
Open Scope string_scope.
Open Scope nat_scope.
Open Scope list_scope.
Notation length := Datatypes.length.

(* -------- after the reading -------- *)

Definition dec_tern (n : gnode) : Prop := decorate n = Ok tt \/ decorate n = Err AssertionError.

Lemma dec_all_tern : forall l, Forall dec_tern l -> dec_all l = Ok tt \/ dec_all l = Err AssertionError.
Proof. induction l as [|c l IH]; intros H; [left; reflexivity|]. inversion H as [|? ? [H1|H1] H2]; subst; cbn; rewrite H1; cbn; [apply IH; exact H2|right; reflexivity]. Qed.

Lemma plain_tern : forall n, plain_kind (g_kind n) = true -> Forall dec_tern (g_children n) -> dec_tern n.
Proof.
  intros [kind s e gs cs] H F. unfold dec_tern. cbn [g_kind g_children] in *. rewrite decorate_eq. unfold plain_kind in H. apply andb_prop in H. destruct H as [H H3]. apply andb_prop in H. destruct H as [H1 H2].
  apply negb_true_iff in H1, H2, H3. rewrite H1, H2, H3. apply dec_all_tern. exact F.
Qed.

Section Doc.
Variable t : text.

Lemma tern_constr : forall n c, is_constr t n c -> dec_tern n.
Proof.
  intros n c H. destruct c as [neg ts|neg name|neg ss| |w|x|x [|y l]]; try (left; eapply dec_constr; [exact H|exact I]); [|left; eapply dec_constr; [exact H|cbn; discriminate]].
  right. destruct H as [_ [K [m [C [Km X]]]]]. destruct n as [kind s e gs cs]. cbn [g_kind g_children] in *. subst. rewrite decorate_eq. cbn [String.eqb Ascii.eqb Bool.eqb one bind]. unfold kind_is. rewrite Km, String.eqb_refl.
  pose proof (Forall2_length _ _ _ X) as Le. rewrite Le. reflexivity.
Qed.

Lemma tern_item : forall n i, is_item t n i -> dec_tern n.
Proof. intros n [s o|c] H; [left; eapply dec_item; [exact H|exact I]|eapply tern_constr; exact H]. Qed.

Lemma tern_body : forall n b, is_body t n b -> dec_tern n.
Proof.
  intros n [lo hi|x| | |l] H; try (left; eapply dec_body; [exact H|exact I]). destruct H as [K F]. apply plain_tern; [rewrite K; reflexivity|]. eapply Forall_of2; [exact F|apply Forall_true|]. intros a b H1 _. eapply tern_item; eauto.
Qed.

Lemma tern_line : forall n r, is_line t n r -> dec_tern n.
Proof.
  intros n r [K [g [b [l [C [G [B L]]]]]]]. apply plain_tern; [rewrite K; reflexivity|]. rewrite C.
  constructor; [left; eapply dec_opt_params; exact G|]. constructor; [eapply tern_body; eauto|]. constructor; [left; eapply dec_opt_label; exact L|constructor].
Qed.

Lemma tern_prod : forall n x, is_prod_node t n x -> dec_tern n.
Proof.
  intros n x H. destruct x as [cm lhs ps m rs|cm lhs ps m ls|lhs ps m b|lhs ps m l]; try (left; eapply dec_prod; [exact H|exact I]);
    destruct H as [g [c [r [C [K [G [L H]]]]]]]; apply plain_tern; try (rewrite K; reflexivity); rewrite C;
    (constructor; [left; eapply dec_gnt; exact G|]); (constructor; [left; eapply leaf_kind; [exact L|reflexivity]|]); (constructor; [|constructor]).
  - destruct H as [Kr F]. apply plain_tern; [rewrite Kr; reflexivity|]. eapply Forall_of2; [exact F|apply Forall_true|]. intros a b H1 _. eapply tern_line; eauto.
  - eapply tern_body; exact H.
Qed.

(* a production on one line that stands for a range of characters *)
Definition chars_on_a_line (x : gprod) : Prop := match x with OneLine _ _ _ (BRange _ _ | BProp _ | BAny) => True | _ => False end.

Lemma full_or_chars : forall n x, is_prod_node t n x -> decorate n = Ok tt -> full_prod x \/ chars_on_a_line x.
Proof.
  intros n x [g [c [r [C H]]]] D.
  assert (P : plain_kind (g_kind n) = true) by (destruct x; destruct H as [K _]; rewrite K; reflexivity).
  apply dec_children in D; [|exact P]. rewrite C in D. inversion D as [|? ? _ D1]; subst. inversion D1 as [|? ? _ D2]; subst. inversion D2 as [|? ? Dr _]; subst.
  destruct x as [cm lhs ps m rs|cm lhs ps m ls|lhs ps m b|lhs ps m l]; try (left; exact I); destruct H as [K [G [L H]]]; cbn [full_prod].
  - left. destruct H as [Kr F]. apply dec_children in Dr; [|rewrite Kr; reflexivity]. eapply Forall_other; [exact F|exact Dr|].
    intros a b [Ka [g' [b' [l' [Ca [_ [B _]]]]]]] Da. apply dec_children in Da; [|rewrite Ka; reflexivity]. rewrite Ca in Da. inversion Da as [|? ? _ Da1]; subst. inversion Da1 as [|? ? Db _]; subst. eapply full_body_inv; eauto.
  - pose proof (full_body_inv t r b H Dr) as Fb. destruct b; try (right; exact I); left; auto.
Qed.

Lemma do_chars : forall n x, is_prod_node t n x -> chars_on_a_line x -> do_production t n = Err AssertionError.
Proof.
  intros n x [g [c [r [C H]]]] Ch. destruct x as [| |lhs ps m b|]; try contradiction. destruct H as [K [G [L H]]].
  destruct G as [_ [_ [nt [pn [Cg [_ Pn]]]]]]. destruct (params_names t pn ps Pn) as [P1 P2].
  unfold do_production. rewrite C. cbn [three]. rewrite bind_Ok. rewrite Cg. cbn [two]. rewrite bind_Ok. rewrite P1. cbn [assert_]. rewrite bind_Ok. rewrite P2, bind_Ok.
  unfold rhss_of, kind_is. rewrite K. destruct b; try contradiction; destruct H as [Kb _]; rewrite Kb; reflexivity.
Qed.

Lemma do_prod_tern : forall n x, is_prod_node t n x -> labels_said x -> clean n -> decorate n = Ok tt -> (exists d, do_production t n = Ok d) \/ do_production t n = Err AssertionError.
Proof.
  intros n x R La Cl D. destruct (full_or_chars n x R D) as [Fu|Ch]; [left|right; eapply do_chars; eauto].
  destruct (do_production_ok t n x R Fu La Cl) as [d [E _]]. eauto.
Qed.
End Doc.

Lemma mapM_tern : forall A B (f : A -> res B) l, Forall (fun a => (exists b, f a = Ok b) \/ f a = Err AssertionError) l -> (exists r, mapM f l = Ok r) \/ mapM f l = Err AssertionError.
Proof.
  induction l as [|a l IH]; intros F; [left; exists []; reflexivity|]. inversion F as [|? ? H1 H2]; subst. cbn. destruct H1 as [[b ->]| ->]; [|right; reflexivity]. rewrite bind_Ok.
  destruct (IH H2) as [[r ->]| ->]; [left; eexists; reflexivity|right; reflexivity].
Qed.

(* -------- the element -------- *)

(* the content and what follows it begin with a grammar that goes on beyond the content *)
Definition runs_over (uniword : N -> bool) (before tag content close after : text) : Prop :=
  exists g w rest, Forall (wf_prod uniword) (ne_list g) /\ Forall clear_prod (ne_list g) /\
    content ++ close ++ after = w ++ rest /\ length content < length w /\
    ((In 10%N (tag ++ content ++ close) /\ exists i, column before i /\ w = w_block i g) \/
     (~ In 10%N (tag ++ content ++ close) /\ exists x, g = (x, []) /\ on_a_line x /\ w = w_line x)).

(* it holds a grammar in which "but not one of" is followed by one thing only, or a range of characters
   is given on the line of the left-hand side *)
Definition not_full (uniword : N -> bool) (before tag content close : text) : Prop :=
  exists g, holds before tag content close g /\ Forall (wf_prod uniword) (ne_list g) /\ Forall clear_prod (ne_list g) /\ ~ Forall full_prod (ne_list g).

Definition odd_column (before tag content close : text) : Prop :=
  In 10%N (tag ++ content ++ close) /\ exists i, column before i /\ ~ In i [2; 4; 6; 8; 10].

Lemma simple_parse_err : forall g uniword t goal p e i x, simple_parse uniword g t goal p e i = Err x ->
  snd (attempt uniword g t e (length g + 2) goal p i) = Err x \/
  exists q j n, snd (attempt uniword g t e (length g + 2) goal p i) = Ok (Some (q, j, n)) /\ (q <> e \/ j <> i) /\ x = AssertionError.
Proof.
  intros g uniword t goal p e i x H. unfold simple_parse in H. destruct (attempt uniword g t e (length g + 2) goal p i) as [l [[[[q j] n]|]|y]]; cbn [bind snd] in *.
  - right. exists q, j, n. destruct (Nat.eqb_spec q e) as [->|N]; cbn in H; [|inversion H; auto].
    destruct (eqb_indent j i) eqn:Ei; cbn in H; inversion H. split; [reflexivity|]. split; [|reflexivity]. right. intros ->. destruct i; cbn in Ei; [rewrite Z.eqb_refl in Ei|]; discriminate Ei.
  - discriminate H.
  - inversion H. left. reflexivity.
Qed.

Lemma simple_parse_msg : forall g uniword t goal p e i m, simple_parse uniword g t goal p e i = Ok (inr m) ->
  exists l, attempt uniword g t e (length g + 2) goal p i = (l, Ok None) /\ m = fold_left log1 l (p, []).
Proof.
  intros g uniword t goal p e i m H. unfold simple_parse in H. destruct (attempt uniword g t e (length g + 2) goal p i) as [l [[[[q j] n]|]|y]]; cbn [bind snd] in *.
  - apply bind_ok in H. destruct H as [[] [_ H]]. apply bind_ok in H. destruct H as [[] [_ H]]. discriminate H.
  - inversion H. eauto.
  - discriminate H.
Qed.

Lemma simple_parse_none : forall g uniword t goal p e i, simple_parse uniword g t goal p e i = Ok (inl None) ->
  exists q j, snd (attempt uniword g t e (length g + 2) goal p i) = Ok (Some (q, j, None)).
Proof.
  intros g uniword t goal p e i H. unfold simple_parse in H. destruct (attempt uniword g t e (length g + 2) goal p i) as [l [[[[q j] n]|]|y]]; cbn [bind snd] in *; try discriminate H.
  apply bind_ok in H. destruct H as [[] [_ H]]. apply bind_ok in H. destruct H as [[] [_ H]]. inversion H; subst. eauto.
Qed.

Lemma fine_of : forall uniword t e goal p i d nul giv, rank metagrammar goal <= d -> mget metagrammar goal <> None -> nullable goal = nul -> gives goal = giv -> p <= length t -> (i = None -> shifts goal = false) ->
  fine uniword t e p (out_ok t p i nul giv) (attempt uniword metagrammar t e d goal p i).
Proof.
  intros uniword t e goal p i d nul giv R M <- <- Hp Hi. apply attempt_fine; try assumption. destruct (mget metagrammar goal); [reflexivity|contradiction].
Qed.

Lemma content_fine : forall uniword t e goal p i, (goal = "EMU_GRAMMAR_CONTENT_1" \/ (goal = "EMU_GRAMMAR_CONTENT_2" /\ i <> None)) -> p <= length t ->
  fine uniword t e p (out_ok t p i false true) (attempt uniword metagrammar t e (length metagrammar + 2) goal p i).
Proof.
  intros uniword t e goal p i H Hp.
  assert (R1 : rank metagrammar "EMU_GRAMMAR_CONTENT_1" <= length metagrammar + 2) by (cbn; lia).
  assert (R2 : rank metagrammar "EMU_GRAMMAR_CONTENT_2" <= length metagrammar + 2) by (cbn; lia).
  assert (M1 : mget metagrammar "EMU_GRAMMAR_CONTENT_1" <> None) by (cbn; discriminate).
  assert (M2 : mget metagrammar "EMU_GRAMMAR_CONTENT_2" <> None) by (cbn; discriminate).
  generalize dependent (length metagrammar + 2). intros d R1 R2.
  destruct H as [->|[-> Hi]]; (apply fine_of; [assumption|assumption|reflexivity|reflexivity|exact Hp|]); [reflexivity|contradiction].
Qed.

Theorem message_true : forall uniword before tag content close after pos exps, read_element uniword before tag content close after = Ok (inl (pos, exps)) ->
  let t := before ++ tag ++ content ++ close ++ after in
  exps <> [] /\ length before + length tag <= pos <= length t /\
  Forall (not_there uniword t (length before + length tag + length content) pos) exps.
Proof.
  intros uniword before tag content close after pos exps H t. unfold read_element, parse_emu_grammar in H. rewrite element_slice in H. pose proof (at_length _ _ _ (element_content before tag content close after)) as Lt. fold t in H, Lt.
  apply bind_ok in H. destruct H as [[goal indent] [Hg H]]. apply bind_ok in H. destruct H as [r [Hs H]].
  assert (G : goal = "EMU_GRAMMAR_CONTENT_1" \/ (goal = "EMU_GRAMMAR_CONTENT_2" /\ indent <> None)).
  { destruct (existsb (N.eqb 10) (tag ++ content ++ close)); [apply bind_ok in Hg; destruct Hg as [[] [_ Hg]]|]; inversion Hg; subst; [right; split; [reflexivity|discriminate]|left; reflexivity]. }
  pose proof (content_fine uniword t (length before + length tag + length content) goal (length before + length tag) indent G ltac:(lia)) as [F1 F2].
  destruct r as [[n|]|m].
  - apply bind_ok in H. destruct H as [[] [_ H]]. apply bind_ok in H. destruct H as [prods [_ H]]. apply bind_ok in H. destruct H as [dss [_ H]]. discriminate H.
  - apply simple_parse_none in Hs. destruct Hs as [q [j E]]. rewrite E in F2. cbn in F2. destruct F2 as [_ [_ [_ F2]]]. discriminate F2.
  - inversion H; subst m; clear H. apply simple_parse_msg in Hs. destruct Hs as [l [E Em]]. rewrite E in F1, F2. cbn [fst snd out_ok] in F1, F2. symmetry in Em.
    destruct (log_fold _ _ _ _ _ Em) as [H1 [H2 [H3 [H4 H5]]]].
    assert (Ne : exps <> []).
    { destruct l as [|[p x] l]; [contradiction|]. clear - Em F1. inversion F1 as [|? ? [Hp _] _]; subst. cbn [fst] in Hp. cbn [fold_left] in Em. unfold log1 in Em at 2.
      destruct (Nat.ltb_spec (length before + length tag) p); [apply log_fold in Em; apply Em; discriminate|]. rewrite (proj2 (Nat.eqb_eq _ _)) in Em by lia. apply log_fold in Em. apply Em. discriminate. }
    assert (In' : forall x, In x exps -> In (pos, x) l) by (intros x Hx; destruct (H3 x Hx) as [K|[_ []]]; exact K).
    split; [exact Ne|]. unfold log_ok in F1. rewrite Forall_forall in F1. split.
    + destruct exps as [|x exps]; [contradiction|]. apply (F1 (pos, x)). apply In'. left. reflexivity.
    + apply Forall_forall. intros x Hx. apply (F1 (pos, x)). apply In'. exact Hx.
Qed.

Theorem why_not : forall uniword before tag content close after x, read_element uniword before tag content close after = Err x ->
  x = AssertionError /\
  (odd_column before tag content close \/
   odd_from (before ++ tag ++ content ++ close ++ after) (length before + length tag) \/
   runs_over uniword before tag content close after \/
   not_full uniword before tag content close).
Proof.
  intros uniword before tag content close after x H. unfold read_element, parse_emu_grammar in H. rewrite element_slice in H.
  pose proof (element_content before tag content close after) as At. pose proof (at_length _ _ _ At) as Lt. set (t := before ++ tag ++ content ++ close ++ after) in *.
  set (e := length before + length tag + length content) in *.
  destruct (existsb (N.eqb 10) (tag ++ content ++ close)) eqn:Nl.
  - apply existsb_in in Nl. destruct (has_column before) as [i Co]. pose proof (column_start _ _ (tag ++ content ++ close ++ after) Co) as Cs. fold t in Cs. cbv zeta in H. rewrite Cs in H.
    destruct (existsb (Nat.eqb i) [2; 4; 6; 8; 10]) eqn:Ha.
    2: { cbn [assert_ bind] in H. inversion H. split; [reflexivity|]. left. split; [exact Nl|]. exists i. split; [exact Co|]. intros I. apply in_existsb in I. congruence. }
    cbn [assert_] in H. rewrite !bind_Ok in H. cbv beta iota in H. apply in_existsb in Ha.
    pose proof (content_fine uniword t e "EMU_GRAMMAR_CONTENT_2" (length before + length tag) (Some (Z.of_nat i)) ltac:(right; split; [reflexivity|discriminate]) ltac:(lia)) as [F1 F2].
    assert (D16 : 16 <= length metagrammar + 2) by (cbn; lia).
    destruct (simple_parse uniword metagrammar t "EMU_GRAMMAR_CONTENT_2" (length before + length tag) e (Some (Z.of_nat i))) as [[[n|]|m]|y] eqn:Hs.
    + clear F1 F2. rewrite bind_Ok in H. apply simple_parse_inv in Hs. destruct (back_content2 _ _ _ _ _ _ _ _ _ _ D16 At Hs) as [_ [_ [m [g [rest [Em [Es [Eq [W [Cl R]]]]]]]]]]. inversion Em; subst m; clear Em.
      assert (C : content = w_block i g) by (eapply app_same_length; [exact Es|unfold e, text in *; lia]). pose proof (attempt_clean _ _ _ _ _ _ _ _ _ _ Hs) as Cn.
      assert (Nf : x = AssertionError /\ ~ Forall full_prod (ne_list g)).
      { destruct R as [K F]. split.
        - assert (Dt : dec_tern n) by (apply plain_tern; [rewrite K; reflexivity|]; eapply Forall_of2; [exact F|apply Forall_true|]; intros a b R1 _; exact (tern_prod _ _ _ R1)).
          destruct Dt as [Dt|Dt]; rewrite Dt in H; [|inversion H; reflexivity]. rewrite bind_Ok in H. unfold kind_is in H. rewrite K in H. cbn [String.eqb Ascii.eqb Bool.eqb] in H. rewrite bind_Ok in H.
          assert (Mt : (exists r, mapM (do_production t) (g_children n) = Ok r) \/ mapM (do_production t) (g_children n) = Err AssertionError).
          { apply mapM_tern. apply dec_children in Dt; [|rewrite K; reflexivity]. apply clean_children in Cn. pose proof (goods _ _ W) as La. clear - F Dt Cn La. revert La. induction F as [|a b l l' R F IH]; intros La; [constructor|].
            inversion Dt; subst. inversion Cn; subst. inversion La; subst. constructor; [eapply do_prod_tern; eauto|auto]. }
          destruct Mt as [[r E]|E]; rewrite E in H; cbn [bind] in H; inversion H; reflexivity.
        - intros Fu. destruct (finish_block uniword t g n W Fu (conj K F) Cn) as [ds [D [K' [M P]]]]. rewrite D, bind_Ok, K', bind_Ok, M, bind_Ok in H. discriminate H. }
      clear Hs. destruct Nf as [-> Nf]. split; [reflexivity|]. right. right. right. exists g. split; [left; split; [exact Nl|exists i; auto]|]. auto.
    + rewrite bind_Ok in H. discriminate H.
    + rewrite bind_Ok in H. discriminate H.
    + cbn [bind] in H. inversion H; subst y; clear H. apply simple_parse_err in Hs. destruct Hs as [E|[q [j [n [E [Q Ex]]]]]].
      * rewrite E in F2. destruct F2 as [-> F2]. auto.
      * clear F1 F2. split; [exact Ex|]. right. right. left. destruct (back_content2 _ _ _ _ _ _ _ _ _ _ D16 At E) as [Ej [Le [m [g [rest [Em [Es [Eq [W [Cl R]]]]]]]]]]. clear E. destruct Q as [Q|Q]; [|contradiction].
        exists g, (w_block i g), rest. split; [exact W|]. split; [exact Cl|]. split; [exact Es|]. split; [unfold e, text in *; lia|]. left. split; [exact Nl|]. exists i. auto.
  - assert (Nl' : ~ In 10%N (tag ++ content ++ close)) by (intros I; apply existsb_in in I; congruence). rewrite bind_Ok in H. cbv beta iota in H.
    pose proof (content_fine uniword t e "EMU_GRAMMAR_CONTENT_1" (length before + length tag) None ltac:(left; reflexivity) ltac:(lia)) as [F1 F2].
    assert (D12 : 12 <= length metagrammar + 2) by (cbn; lia).
    destruct (simple_parse uniword metagrammar t "EMU_GRAMMAR_CONTENT_1" (length before + length tag) e None) as [[[n|]|m]|y] eqn:Hs.
    + clear F1 F2. rewrite bind_Ok in H. apply simple_parse_inv in Hs. destruct (back_content1 _ _ _ _ _ _ _ _ _ _ D12 At Hs) as [_ [_ [m [g [rest [Em [Es [Eq [W [Cl [Ol R]]]]]]]]]]]. inversion Em; subst m; clear Em.
      assert (C : content = w_line g) by (eapply app_same_length; [exact Es|unfold e, text in *; lia]). pose proof (attempt_clean _ _ _ _ _ _ _ _ _ _ Hs) as Cn.
      assert (K : g_kind n = "ONELINE_PRODUCTION") by (destruct R as [g' [c' [r' [_ R]]]]; destruct g; try contradiction; destruct R as [K _]; exact K).
      assert (Nf : x = AssertionError /\ ~ full_prod g).
      { unfold kind_is in H. rewrite K in H. rewrite (eq_refl : ("ONELINE_PRODUCTION" =? "BLOCK_PRODUCTIONS")%string = false), (eq_refl : ("ONELINE_PRODUCTION" =? "ONELINE_PRODUCTION")%string = true), bind_Ok in H. cbn [mapM] in H. split.
        - destruct (tern_prod t n g R) as [Dt|Dt]; rewrite Dt in H; [|inversion H; reflexivity]. rewrite bind_Ok in H.
          destruct (do_prod_tern t n g R (label_said uniword g W) Cn Dt) as [[d E]|E]; rewrite E in H; cbn [bind] in H; inversion H; reflexivity.
        - intros Fu. destruct (do_production_ok t n g R Fu (label_said uniword g W) Cn) as [d [Ed _]]. rewrite (dec_prod t n g R Fu), bind_Ok, Ed in H. discriminate H. }
      clear Hs. destruct Nf as [-> Nf]. split; [reflexivity|]. right. right. right. exists (g, []). split; [right; split; [exact Nl'|exists g; auto]|]. split; [repeat constructor; exact W|]. split; [repeat constructor; exact Cl|].
      intros F. inversion F; contradiction.
    + rewrite bind_Ok in H. discriminate H.
    + rewrite bind_Ok in H. discriminate H.
    + cbn [bind] in H. inversion H; subst y; clear H. apply simple_parse_err in Hs. destruct Hs as [E|[q [j [n [E [Q Ex]]]]]].
      * rewrite E in F2. destruct F2 as [-> F2]. auto.
      * clear F1 F2. split; [exact Ex|]. right. right. left. destruct (back_content1 _ _ _ _ _ _ _ _ _ _ D12 At E) as [Ej [Le [m [g [rest [Em [Es [Eq [W [Cl [Ol R]]]]]]]]]]]. clear E. destruct Q as [Q|Q]; [|contradiction].
        exists (g, []), (w_line g), rest. split; [repeat constructor; exact W|]. split; [repeat constructor; exact Cl|]. split; [exact Es|]. split; [unfold e, text in *; lia|]. right. split; [exact Nl'|]. exists g. auto.
Qed.

Lemma not_ok_block : forall uniword t g n, is_block t n g -> clean n -> Forall (wf_prod uniword) (ne_list g) -> ~ Forall full_prod (ne_list g) ->
  decorate n = Err AssertionError \/ (decorate n = Ok tt /\ mapM (do_production t) (g_children n) = Err AssertionError).
Proof.
  intros uniword t g n [K F] Cn W Nf.
  assert (Dt : dec_tern n) by (apply plain_tern; [rewrite K; reflexivity|]; eapply Forall_of2; [exact F|apply Forall_true|]; intros a b R1 _; eapply tern_prod; eauto).
  destruct Dt as [Dt|Dt]; [right; split; [exact Dt|]|left; exact Dt]. apply dec_children in Dt; [|rewrite K; reflexivity].
  assert (Mt : (exists r, mapM (do_production t) (g_children n) = Ok r) \/ mapM (do_production t) (g_children n) = Err AssertionError).
  { apply mapM_tern. apply clean_children in Cn. pose proof (goods _ _ W) as La. clear - F Dt Cn La. revert La. induction F as [|a b l l' R F IH]; intros La; [constructor|].
    inversion Dt; subst. inversion Cn; subst. inversion La; subst. constructor; [eapply do_prod_tern; eauto|auto]. }
  destruct Mt as [[r E]|E]; [|exact E]. exfalso. apply Nf. pose proof (mapM_Forall _ _ _ _ _ E) as Fd. eapply Forall_other; [exact F|exact (Forall_and Dt Fd)|].
  cbn. intros a b Ra [Da [d Ed]]. eapply full_prod_inv; eauto.
Qed.

Theorem not_full_fails : forall uniword before tag content close after r, close = 60%N :: r ->
  not_full uniword before tag content close -> read_element uniword before tag content close after = Err AssertionError.
Proof.
  intros uniword before tag content close after r Ec [g [H [W [Cl Nf]]]]. unfold read_element, parse_emu_grammar. rewrite element_slice.
  pose proof (element_content before tag content close after) as At. set (t := before ++ tag ++ content ++ close ++ after) in *.
  destruct H as [[Nl [i [Co [I C]]]]|[Nl [x [Eg [Ol C]]]]].
  - rewrite (proj2 (existsb_in _ _) Nl). cbv zeta. pose proof (column_start _ _ (tag ++ content ++ close ++ after) Co) as Cs. fold t in Cs. rewrite Cs. rewrite (proj2 (in_existsb _ _) I). cbn [assert_]. rewrite !bind_Ok. cbv beta iota.
    assert (Ci : 1 <= i /\ Nat.Even i) by (clear - I; assert (E : exists m, i = 2 * m) by (cbn in I; decompose [or] I; subst; try contradiction; [exists 1|exists 2|exists 3|exists 4|exists 5]; reflexivity); split; [cbn in I; lia|exact E]).
    rewrite Ec in At. cbn [app] in At. rewrite C in At at 1.
    assert (Ee : length before + length tag + length (w_block i g) = length before + length tag + length content) by (rewrite C; reflexivity).
    destruct (read_content2 uniword t (length before + length tag + length content) (length metagrammar + 2) _ i g (r ++ after) ltac:(cbn; lia) (proj1 Ci) (proj2 Ci) W Cl At Ee) as [n [E R]]. rewrite Ee in E.
    rewrite (simple_parse_ok _ _ _ _ _ _ _ E), bind_Ok. destruct (not_ok_block uniword t g n R (attempt_clean _ _ _ _ _ _ _ _ _ _ E) W Nf) as [D|[D M]]; rewrite D; [reflexivity|].
    rewrite bind_Ok. destruct R as [K _]. unfold kind_is. rewrite K. cbn [String.eqb Ascii.eqb Bool.eqb]. rewrite bind_Ok, M. reflexivity.
  - assert (Ne : existsb (N.eqb 10) (tag ++ content ++ close) = false) by (destruct (existsb (N.eqb 10) (tag ++ content ++ close)) eqn:E; [apply existsb_in in E; contradiction|reflexivity]).
    rewrite Ne, bind_Ok. cbv beta iota. subst g. cbn [ne_list fst snd] in *. inversion W as [|? ? Wx _]; inversion Cl as [|? ? Cx _]; subst x0 x1 l l0.
    rewrite C in At at 1.
    assert (Ee : length before + length tag + length (w_line x) = length before + length tag + length content) by (rewrite C; reflexivity).
    assert (En : line_end (close ++ after)) by (rewrite Ec; exists (r ++ after); right; reflexivity).
    destruct (read_content1 uniword t (length before + length tag + length content) (length metagrammar + 2) _ None x (close ++ after) ltac:(cbn; lia) Ol Wx Cx En At Ee) as [n [E R]]. rewrite Ee in E.
    rewrite (simple_parse_ok _ _ _ _ _ _ _ E), bind_Ok. pose proof (attempt_clean _ _ _ _ _ _ _ _ _ _ E) as Cn.
    assert (K : g_kind n = "ONELINE_PRODUCTION") by (destruct R as [g' [c' [r' [_ R]]]]; destruct x; try contradiction; destruct R as [K _]; exact K).
    destruct (tern_prod t n x R) as [D|D]; rewrite D; [|reflexivity]. rewrite bind_Ok.
    unfold kind_is. rewrite K. rewrite (eq_refl : ("ONELINE_PRODUCTION" =? "BLOCK_PRODUCTIONS")%string = false), (eq_refl : ("ONELINE_PRODUCTION" =? "ONELINE_PRODUCTION")%string = true), bind_Ok. cbn [mapM].
    destruct (do_prod_tern t n x R (label_said uniword x Wx) Cn D) as [[d Ed]|Ed]; rewrite Ed; [|reflexivity]. exfalso. apply Nf. repeat constructor. eapply full_prod_inv; eauto.
Qed.
