(* The whole of parse_emu_grammar (C66): which elements are accepted. *)
From Coq Require Import Ascii String.
From Verif Require Import M_Base M_HTML M_Meta L_Base L_Meta L_MetaRx L_MetaFwd L_MetaRead L_MetaRead2 L_MetaRead3 L_MetaRead4 L_MetaDec L_MetaBack L_MetaBack2 L_MetaBack3.
Open Scope string_scope.
Open Scope nat_scope.
Open Scope list_scope.
Notation length := Datatypes.length.

(* -------- what has been decorated is full -------- *)

Lemma dec_all_inv : forall l, dec_all l = Ok tt -> Forall (fun n => decorate n = Ok tt) l.
Proof.
  induction l as [|c l IH]; intros H; [constructor|]. cbn in H. apply bind_ok in H. destruct H as [[] [H1 H2]]. constructor; [exact H1|apply IH; exact H2].
Qed.

Lemma dec_children : forall n, plain_kind (g_kind n) = true -> decorate n = Ok tt -> Forall (fun n => decorate n = Ok tt) (g_children n).
Proof.
  intros [kind s e gs cs] H D. cbn [g_kind g_children] in *. rewrite decorate_eq in D. unfold plain_kind in H. apply andb_prop in H. destruct H as [H H3]. apply andb_prop in H. destruct H as [H1 H2].
  apply negb_true_iff in H1, H2, H3. rewrite H1, H2, H3 in D. apply dec_all_inv. exact D.
Qed.

Lemma Forall_other : forall A B (R : A -> B -> Prop) (P : A -> Prop) (Q : B -> Prop) l l',
  Forall2 R l l' -> Forall P l -> (forall a b, R a b -> P a -> Q b) -> Forall Q l'.
Proof. intros A B R P Q l l' F. induction F as [|a b l l' H F IH]; intros Fp K; [constructor|]. inversion Fp; subst. constructor; [eapply K; eauto|auto]. Qed.

Section Doc.
Variable t : text.

Lemma full_constr_inv : forall n c, is_constr t n c -> decorate n = Ok tt -> full_constr c.
Proof.
  intros n c [_ H] D. destruct c as [| | | | | |x l]; try exact I. destruct H as [K [m [C [Km F]]]]. destruct n as [kind s e gs cs]. cbn [g_kind g_children] in *. subst kind cs.
  rewrite decorate_eq in D. cbn [one] in D. rewrite (eq_refl : ("BUT_NOT" =? "GNT")%string = false), (eq_refl : ("BUT_NOT" =? "BUT_NOT")%string = true) in D. rewrite bind_Ok in D.
  unfold kind_is in D. rewrite Km in D. cbn [String.eqb Ascii.eqb Bool.eqb] in D. apply bind_ok in D. destruct D as [[] [D _]]. apply assert_ok in D. apply Nat.ltb_lt in D.
  rewrite (Forall2_length _ _ _ F) in D. cbn [length full_constr] in *. intros ->. cbn in D. lia.
Qed.

Lemma full_item_inv : forall n i, is_item t n i -> decorate n = Ok tt -> full_item i.
Proof. intros n [s o|c] H D; [exact I|]. eapply full_constr_inv; eauto. Qed.

Lemma full_body_inv : forall n b, is_body t n b -> decorate n = Ok tt -> full_body b.
Proof.
  intros n [lo hi|x| | |l] H D; try exact I. destruct H as [K F]. apply dec_children in D; [|rewrite K; reflexivity]. eapply Forall_other; [exact F|exact D|]. apply full_item_inv.
Qed.

Lemma full_prod_inv : forall n x d, is_prod_node t n x -> decorate n = Ok tt -> do_production t n = Ok d -> full_prod x.
Proof.
  intros n x d [g [c [r [C H]]]] D Dp.
  assert (P : plain_kind (g_kind n) = true) by (destruct x; destruct H as [K _]; rewrite K; reflexivity).
  apply dec_children in D; [|exact P]. rewrite C in D. inversion D as [|? ? _ D1]; subst. inversion D1 as [|? ? _ D2]; subst. inversion D2 as [|? ? Dr _]; subst.
  destruct x as [cm lhs ps m rs|cm lhs ps m ls|lhs ps m b|lhs ps m l]; try exact I; destruct H as [K [G [L H]]]; cbn [full_prod].
  - destruct H as [Kr F]. apply dec_children in Dr; [|rewrite Kr; reflexivity]. eapply Forall_other; [exact F|exact Dr|].
    intros a b [Ka [g' [b' [l' [Ca [_ [B _]]]]]]] Da. apply dec_children in Da; [|rewrite Ka; reflexivity]. rewrite Ca in Da. inversion Da as [|? ? _ Da1]; subst. inversion Da1 as [|? ? Db _]; subst. eapply full_body_inv; eauto.
  - split; [eapply full_body_inv; eauto|]. unfold do_production in Dp. rewrite C in Dp. cbn [three] in Dp. rewrite bind_Ok in Dp.
    apply bind_ok in Dp. destruct Dp as [[nt params] [_ Dp]]. apply bind_ok in Dp. destruct Dp as [[] [_ Dp]]. apply bind_ok in Dp. destruct Dp as [names [_ Dp]]. apply bind_ok in Dp. destruct Dp as [rhss [R _]].
    unfold rhss_of, kind_is in R. rewrite K in R. destruct b; try exact I; destruct H as [Kb _]; rewrite Kb in R; discriminate R.
Qed.
End Doc.

(* -------- an element in a document -------- *)

(* the column of the character after [before]: how many characters there are since the last newline *)
Definition column (before : text) (i : nat) : Prop :=
  exists pre ind, before = pre ++ ind /\ length ind = i /\ ~ In 10%N ind /\ (pre = [] \/ exists q, pre = q ++ [10%N]).

(* the element [tag ++ content ++ close] after [before] holds that grammar: on one line, or as a block
   with the indentation of the element *)
Definition holds (before tag content close : text) (g : ne gprod) : Prop :=
  (In 10%N (tag ++ content ++ close) /\ exists i, column before i /\ In i [2; 4; 6; 8; 10] /\ content = w_block i g) \/
  (~ In 10%N (tag ++ content ++ close) /\ exists x, g = (x, []) /\ on_a_line x /\ content = w_line x).

Definition good (uniword : N -> bool) (g : ne gprod) : Prop :=
  Forall (wf_prod uniword) (ne_list g) /\ Forall clear_prod (ne_list g) /\ Forall full_prod (ne_list g).

(* parse_emu_grammar on that element of that document *)
Definition read_element (uniword : N -> bool) (before tag content close after : text) :=
  parse_emu_grammar uniword (before ++ tag ++ content ++ close ++ after)
    (length before) (length before + length tag) (length before + length tag + length content)
    (length before + length tag + length content + length close).

Lemma existsb_in : forall c l, existsb (N.eqb c) l = true <-> In c l.
Proof. intros c l. rewrite existsb_exists. split; [intros [x [I E]]; apply N.eqb_eq in E; subst; exact I|intros I; exists c; split; [exact I|apply N.eqb_refl]]. Qed.

Lemma element_slice : forall before tag content close after : text,
  slice (length before) (length before + length tag + length content + length close) (before ++ tag ++ content ++ close ++ after) = tag ++ content ++ close.
Proof.
  intros. assert (A : at_ (before ++ tag ++ content ++ close ++ after) (length before) ((tag ++ content ++ close) ++ after)).
  { exists before. rewrite <- !app_assoc. auto. }
  apply at_slice in A. rewrite !app_length, !Nat.add_assoc in A. exact A.
Qed.

Lemma element_content : forall before tag content close after : text,
  at_ (before ++ tag ++ content ++ close ++ after) (length before + length tag) (content ++ close ++ after).
Proof. intros. exists (before ++ tag). rewrite <- !app_assoc, app_length. auto. Qed.

Lemma column_start : forall before i rest, column before i -> length before - line_start (before ++ rest) (length before) = i.
Proof.
  intros before i rest [pre [ind [-> [L [Ni Pe]]]]]. rewrite <- app_assoc, app_length, line_start_at by assumption. unfold text in *. lia.
Qed.

Lemma has_column : forall before, exists i, column before i.
Proof.
  intros before.
  assert (K : forall l, exists pre ind, l = pre ++ ind /\ ~ In 10%N ind /\ (pre = [] \/ exists q, pre = q ++ [10%N])).
  { intros l. induction l as [|c l [pre [ind [-> [Ni Pe]]]]] using rev_ind; [exists [], []; repeat split; auto|].
    destruct (N.eq_dec c 10) as [->|Nc].
    - exists ((pre ++ ind) ++ [10%N]), []. rewrite app_nil_r. repeat split; auto. right. eauto.
    - exists pre, (ind ++ [c]). rewrite app_assoc. repeat split; auto. intros I. apply in_app_or in I. destruct I as [I|[I|[]]]; auto. }
  destruct (K before) as [pre [ind [E [Ni Pe]]]]. exists (length ind), pre, ind. auto.
Qed.

Lemma in_existsb : forall i l, existsb (Nat.eqb i) l = true <-> In i l.
Proof. intros i l. rewrite existsb_exists. split; [intros [x [I E]]; apply Nat.eqb_eq in E; subst; exact I|intros I; exists i; split; [exact I|apply Nat.eqb_refl]]. Qed.

Lemma goods : forall uniword l, Forall (wf_prod uniword) l -> Forall labels_said l.
Proof. intros uniword l F. eapply Forall_impl; [|exact F]. intros a W. eapply label_said; exact W. Qed.

Lemma fst_snd_map : forall (ds : list dprod), map fst (map (fun d => (d, @nil pmsg)) ds) = ds /\ flat_map snd (map (fun d => (d, @nil pmsg)) ds) = [].
Proof. induction ds as [|d ds [E1 E2]]; [split; reflexivity|]. cbn. rewrite E1, E2. auto. Qed.

Lemma finish_block : forall uniword t g n, Forall (wf_prod uniword) (ne_list g) -> Forall full_prod (ne_list g) -> is_block t n g -> clean n ->
  exists ds, decorate n = Ok tt /\ kind_is n "BLOCK_PRODUCTIONS" = true /\ mapM (do_production t) (g_children n) = Ok (map (fun d => (d, [])) ds) /\ Forall2 (is_prod t) ds (ne_list g).
Proof.
  intros uniword t g n W Fu [K F] C.
  destruct (do_productions_ok t (g_children n) (ne_list g) F Fu (goods _ _ W) (clean_children _ C)) as [ds [E P]]. exists ds.
  split; [|split; [unfold kind_is; rewrite K; reflexivity|auto]].
  apply dec_plain; [rewrite K; reflexivity|]. eapply Forall_of2; [exact F|exact Fu|]. intros a b R Fb. eapply dec_prod; eauto.
Qed.

Theorem reads_written : forall uniword before tag content close after g r, close = 60%N :: r ->
  holds before tag content close g -> good uniword g ->
  exists ds, read_element uniword before tag content close after = Ok (inr (ds, [])) /\ Forall2 (is_prod (before ++ tag ++ content ++ close ++ after)) ds (ne_list g).
Proof.
  intros uniword before tag content close after g r Ec H [W [Cl Fu]]. unfold read_element, parse_emu_grammar. rewrite element_slice.
  pose proof (element_content before tag content close after) as At. set (t := before ++ tag ++ content ++ close ++ after) in *.
  destruct H as [[Nl [i [Co [I C]]]]|[Nl [x [Eg [Ol C]]]]].
  - rewrite (proj2 (existsb_in _ _) Nl). cbv zeta. pose proof (column_start _ _ (tag ++ content ++ close ++ after) Co) as Cs. fold t in Cs. rewrite Cs. rewrite (proj2 (in_existsb _ _) I). cbn [assert_]. rewrite !bind_Ok. cbv beta iota.
    assert (Ci : 1 <= i /\ Nat.Even i) by (clear - I; assert (E : exists m, i = 2 * m) by (cbn in I; decompose [or] I; subst; try contradiction; [exists 1|exists 2|exists 3|exists 4|exists 5]; reflexivity); split; [cbn in I; lia|exact E]).
    rewrite Ec in At. cbn [app] in At. rewrite C in At at 1.
    assert (Ee : length before + length tag + length (w_block i g) = length before + length tag + length content) by (rewrite C; reflexivity).
    destruct (read_content2 uniword t (length before + length tag + length content) (length metagrammar + 2) _ i g (r ++ after) ltac:(cbn; lia) (proj1 Ci) (proj2 Ci) W Cl At Ee) as [n [E R]]. rewrite Ee in E.
    rewrite (simple_parse_ok _ _ _ _ _ _ _ E), bind_Ok. destruct (finish_block uniword t g n W Fu R (attempt_clean _ _ _ _ _ _ _ _ _ _ E)) as [ds [D [K [M P]]]].
    rewrite D, bind_Ok, K, bind_Ok, M, bind_Ok. destruct (fst_snd_map ds) as [-> ->]. exists ds. auto.
  - assert (Ne : existsb (N.eqb 10) (tag ++ content ++ close) = false) by (destruct (existsb (N.eqb 10) (tag ++ content ++ close)) eqn:E; [apply existsb_in in E; contradiction|reflexivity]).
    rewrite Ne, bind_Ok. cbv beta iota. subst g. cbn [ne_list fst snd] in *. inversion W as [|? ? Wx _]; inversion Cl as [|? ? Cx _]; inversion Fu as [|? ? Fx _]; subst x0 x1 x2 l l0 l1.
    rewrite C in At at 1.
    assert (Ee : length before + length tag + length (w_line x) = length before + length tag + length content) by (rewrite C; reflexivity).
    assert (En : line_end (close ++ after)) by (rewrite Ec; exists (r ++ after); right; reflexivity).
    destruct (read_content1 uniword t (length before + length tag + length content) (length metagrammar + 2) _ None x (close ++ after) ltac:(cbn; lia) Ol Wx Cx En At Ee) as [n [E R]]. rewrite Ee in E.
    rewrite (simple_parse_ok _ _ _ _ _ _ _ E), bind_Ok. pose proof (attempt_clean _ _ _ _ _ _ _ _ _ _ E) as Cn.
    destruct (do_production_ok t n x R Fx (label_said uniword x Wx) Cn) as [d [Ed [P _]]]. rewrite (dec_prod t n x R Fx), bind_Ok.
    assert (K : g_kind n = "ONELINE_PRODUCTION") by (destruct R as [g' [c' [r' [_ R]]]]; destruct x; try contradiction; destruct R as [K _]; exact K).
    unfold kind_is. rewrite K. rewrite (eq_refl : ("ONELINE_PRODUCTION" =? "BLOCK_PRODUCTIONS")%string = false), (eq_refl : ("ONELINE_PRODUCTION" =? "ONELINE_PRODUCTION")%string = true), bind_Ok.
    cbn [mapM]. rewrite Ed, !bind_Ok. exists [d]. split; [reflexivity|]. repeat constructor. exact P.
Qed.

Lemma simple_parse_inv : forall g uniword t goal p e i n, simple_parse uniword g t goal p e i = Ok (inl (Some n)) ->
  snd (attempt uniword g t e (length g + 2) goal p i) = Ok (Some (e, i, Some n)).
Proof.
  intros g uniword t goal p e i n H. unfold simple_parse in H. destruct (attempt uniword g t e (length g + 2) goal p i) as [l r]. cbn [snd].
  apply bind_ok in H. destruct H as [[[[q j] m]|] [-> H]]; [|discriminate H]. apply bind_ok in H. destruct H as [[] [H1 H]]. apply bind_ok in H. destruct H as [[] [H2 H]].
  apply assert_ok in H1, H2. apply Nat.eqb_eq in H1. inversion H; subst. destruct j, i; cbn in H2; try discriminate H2; [|reflexivity]. apply Z.eqb_eq in H2. subst. reflexivity.
Qed.

Lemma mapM_Forall : forall A B (f : A -> res B) l r, mapM f l = Ok r -> Forall (fun a => exists b, f a = Ok b) l.
Proof. induction l as [|a l IH]; intros r H; [constructor|]. cbn in H. apply bind_ok in H. destruct H as [b [H1 H]]. apply bind_ok in H. destruct H as [bs [H2 _]]. constructor; [eauto|eapply IH; exact H2]. Qed.

Lemma app_same_length : forall (a b c d : text), a ++ b = c ++ d -> length a = length c -> a = c.
Proof.
  induction a as [|x a IH]; intros b c d E L; destruct c as [|y c]; cbn in L; try discriminate L; [reflexivity|]. inversion E; subst. f_equal. eapply IH; [eassumption|lia].
Qed.

Theorem reads_only_written : forall uniword before tag content close after ds msgs,
  read_element uniword before tag content close after = Ok (inr (ds, msgs)) ->
  msgs = [] /\ exists g, holds before tag content close g /\ good uniword g /\ Forall2 (is_prod (before ++ tag ++ content ++ close ++ after)) ds (ne_list g).
Proof.
  intros uniword before tag content close after ds msgs H. unfold read_element, parse_emu_grammar in H. rewrite element_slice in H.
  pose proof (element_content before tag content close after) as At. set (t := before ++ tag ++ content ++ close ++ after) in *.
  apply bind_ok in H. destruct H as [[goal indent] [Hg H]]. apply bind_ok in H. destruct H as [[[n|]|m] [Hs H]]; try discriminate H. apply simple_parse_inv in Hs.
  apply bind_ok in H. destruct H as [[] [Dn H]]. apply bind_ok in H. destruct H as [prods [Hp H]]. apply bind_ok in H. destruct H as [dss [Hd H]]. inversion H; subst ds msgs; clear H.
  pose proof (attempt_clean _ _ _ _ _ _ _ _ _ _ Hs) as Cn.
  destruct (existsb (N.eqb 10) (tag ++ content ++ close)) eqn:Nl.
  - apply existsb_in in Nl. apply bind_ok in Hg. destruct Hg as [[] [Ha Hg]]. apply assert_ok in Ha. apply in_existsb in Ha. inversion Hg; subst goal indent; clear Hg.
    destruct (has_column before) as [i Co]. pose proof (column_start _ _ (tag ++ content ++ close ++ after) Co) as Cs. fold t in Cs. rewrite Cs in Ha, Hs.
    assert (D16 : 16 <= length metagrammar + 2) by (cbn; lia).
    destruct (back_content2 _ _ _ _ _ _ _ _ _ _ D16 At Hs) as [_ [_ [m [g [rest [Em [Es [Eq [W [Cl R]]]]]]]]]]. inversion Em; subst m; clear Em.
    assert (C : content = w_block i g) by (eapply app_same_length; [exact Es|unfold text in *; lia]).
    destruct R as [K F]. unfold kind_is in Hp. rewrite K in Hp. cbn [String.eqb Ascii.eqb Bool.eqb] in Hp. inversion Hp; subst prods; clear Hp.
    assert (Fu : Forall full_prod (ne_list g)).
    { pose proof (mapM_Forall _ _ _ _ _ Hd) as Fd. apply dec_children in Dn; [|rewrite K; reflexivity]. eapply Forall_other; [exact F|exact (Forall_and Dn Fd)|].
      cbn. intros a b Ra [Da [d Ed]]. eapply full_prod_inv; eauto. }
    destruct (do_productions_ok t _ _ F Fu (goods _ _ W) (clean_children _ Cn)) as [ds [E P]]. rewrite E in Hd. inversion Hd; subst dss. destruct (fst_snd_map ds) as [-> ->].
    split; [reflexivity|]. exists g. split; [left; split; [exact Nl|exists i; auto]|]. split; [split; [exact W|auto]|exact P].
  - inversion Hg; subst goal indent; clear Hg.
    assert (D12 : 12 <= length metagrammar + 2) by (cbn; lia).
    destruct (back_content1 _ _ _ _ _ _ _ _ _ _ D12 At Hs) as [_ [_ [m [x [rest [Em [Es [Eq [W [Cl [Ol R]]]]]]]]]]]. inversion Em; subst m; clear Em.
    assert (C : content = w_line x) by (eapply app_same_length; [exact Es|unfold text in *; lia]).
    assert (K : g_kind n = "ONELINE_PRODUCTION") by (destruct R as [g' [c' [r' [_ R]]]]; destruct x; try contradiction; destruct R as [K _]; exact K).
    unfold kind_is in Hp. rewrite K in Hp. rewrite (eq_refl : ("ONELINE_PRODUCTION" =? "BLOCK_PRODUCTIONS")%string = false), (eq_refl : ("ONELINE_PRODUCTION" =? "ONELINE_PRODUCTION")%string = true) in Hp. inversion Hp; subst prods; clear Hp.
    cbn [mapM] in Hd. apply bind_ok in Hd. destruct Hd as [d [Ed Hd]]. rewrite bind_Ok in Hd. inversion Hd; subst dss; clear Hd.
    pose proof (full_prod_inv t n x d R Dn Ed) as Fu. destruct (do_production_ok t n x R Fu (label_said uniword x W) Cn) as [d' [Ed' [P _]]]. rewrite Ed' in Ed. inversion Ed; subst d.
    split; [reflexivity|]. exists (x, []). split; [right; split; [intros I; apply existsb_in in I; congruence|exists x; auto]|]. split; [split; [repeat constructor; exact W|split; repeat constructor; assumption]|].
    cbn. repeat constructor. exact P.
Qed.
