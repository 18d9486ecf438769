(* C105: pseudocode is parsed once, its syntax trees are connected with the elements inside, and the coverage checks say just what they look at *)
From Coq Require Import Ascii String Lia List.
From Verif Require Import M_Base L_Base M_HTML M_Shared M_Steps L_StyleDesc L_ValTree M_Parsed.
Open Scope list_scope.
Open Scope nat_scope.
Notation length := List.length.

(* ------------------------------------------------------------------ *)
(* trees *)
Inductive inside : hn -> hn -> Prop :=
| in_self h : inside h h
| in_kid h c d : In c (h_kids h) -> inside c d -> inside h d.
(* the nodes in the order in which they begin *)
Fixpoint doc_order (h : hn) : list hn := h :: match h with HN _ _ _ _ _ c => flat_map doc_order c end.
Fixpoint tree_order (a : an) : list an := a :: match a with AN _ _ c => flat_map tree_order c end.
Lemma h_order : forall h, doc_order h = h :: h_desc h.
Proof. fix IH 1. intros [i n t a k c]. cbn [doc_order h_desc]. f_equal. induction c as [|d c IHc]; [reflexivity|]. cbn [flat_map]. now rewrite (IH d), IHc. Qed.
Lemma a_order : forall a, tree_order a = a :: a_desc a.
Proof. fix IH 1. intros [i n c]. cbn [tree_order a_desc]. f_equal. induction c as [|d c IHc]; [reflexivity|]. cbn [flat_map]. now rewrite (IH d), IHc. Qed.
Lemma order_inside : forall h d, In d (doc_order h) <-> inside h d.
Proof.
  fix IH 1. intros [i n t a k c] d. cbn [doc_order In]. assert (G : In d (flat_map doc_order c) <-> exists e, In e c /\ inside e d).
  { induction c as [|e c IHc]; [cbn; firstorder|]. cbn [flat_map]. rewrite in_app_iff, IHc, (IH e). cbn [In]. split; [intros [H|(e' & I & H)]; eauto|]. intros (e' & [<-|I] & H); eauto. }
  rewrite G. split.
  - intros [<-|(e & I & H)]; [constructor|]. now apply in_kid with e.
  - intros H. inversion H as [h|h e d' I H']; subst; [now left|]. right. eauto.
Qed.
Lemma named_snd x : forall h p, map snd (h_named x p h) = filter (fun d => text_eqb (h_name d) x) (doc_order h).
Proof.
  fix IH 1. intros [i n t a k c] p. cbn [h_named doc_order filter h_name]. rewrite map_app.
  assert (G : forall q, map snd (flat_map (h_named x q) c) = filter (fun d => text_eqb (h_name d) x) (flat_map doc_order c)) by (intros q; induction c as [|e c IHc]; [reflexivity|]; cbn [flat_map]; now rewrite map_app, filter_app, IHc, (IH e)).
  rewrite G. now destruct (text_eqb n x).
Qed.
Lemma named_in x : forall h p q d, In (q, d) (h_named x p h) <-> h_name d = x /\ ((d = h /\ q = p) \/ exists r, q = Some r /\ inside h r /\ In d (h_kids r)).
Proof.
  fix IH 1. intros [i n t a k c] p q d.
  assert (G : forall o, In (q, d) (flat_map (h_named x o) c) <-> exists e, In e c /\ h_name d = x /\ ((d = e /\ q = o) \/ exists r, q = Some r /\ inside e r /\ In d (h_kids r))).
  { intros o. induction c as [|e c IHc]; [cbn; firstorder|]. cbn [flat_map]. rewrite in_app_iff, IHc, (IH e). cbn [In]. clear. split; [intros [H|(e' & I & H)]; [exists e|exists e']; auto|]. intros (e' & [<-|I] & H); [now left|right; eauto]. }
  clear IH. cbn [h_named]. rewrite in_app_iff. set (me := HN i n t a k c).
  rewrite G. split.
  - intros [H|(e & I & N & [(-> & ->)|(r & -> & H1 & H2)])].
    + destruct (text_eqb n x) eqn:E; [|destruct H]. apply text_eqb_eq in E. destruct H as [[= <- <-]|[]]. cbn [h_name]. auto.
    + split; [assumption|]. right. exists me. split; [reflexivity|]. split; [constructor|exact I].
    + split; [assumption|]. right. exists r. split; [reflexivity|]. split; [now apply in_kid with e|assumption].
  - intros (N & [(-> & ->)|(r & -> & H1 & H2)]).
    + left. cbn [me h_name] in N. rewrite (proj2 (text_eqb_eq n x) N). now left.
    + right. inversion H1 as [h|h e d' I H']; subst; [exists d|exists e]; cbn [h_kids me] in *; (split; [assumption|]); (split; [reflexivity|]); [left; auto|right; eauto].
Qed.

(* ------------------------------------------------------------------ *)
(* connections *)
Definition belongs (n l : text) : Prop := In (n, l) [ (tx "emu-grammar", tx "{h_emu_grammar}"); (tx "emu-alg", tx "{h_emu_alg}"); (tx "figure", tx "{h_figure}"); (tx "a", tx "{h_a}"); (tx "pre", tx "{h_pre_code}") ].
(* the elements, and the nodes, that are to be connected: those below, in order *)
Definition elements (h : hn) : list hn := filter (fun d => existsb (text_eqb (h_name d)) [tx "emu-grammar"; tx "emu-alg"; tx "figure"; tx "a"; tx "pre"]) (tl (doc_order h)).
Definition mentions (a : an) : list an := filter (fun d => existsb (text_eqb (a_lhs d)) [tx "{h_emu_grammar}"; tx "{h_emu_alg}"; tx "{h_figure}"; tx "{h_a}"; tx "{h_pre_code}"]) (tl (tree_order a)).
Definition connected (h : hn) (a : an) (ls : list (nat * nat)) : Prop :=
  Forall2 (fun d b => belongs (h_name d) (a_lhs b)) (elements h) (mentions a) /\ ls = combine (map a_id (mentions a)) (map h_id (elements h)).
Lemma teq_sym a b : text_eqb a b = text_eqb b a.
Proof. destruct (text_eqb a b) eqn:E; symmetry; [apply text_eqb_eq in E; subst; now apply text_eqb_eq|]. apply Bool.not_true_iff_false. intros F. apply text_eqb_eq in F. subst. now rewrite (proj2 (text_eqb_eq a a) eq_refl) in E. Qed.
Lemma belongs_iff n l : existsb (fun p => text_eqb (fst p) n && text_eqb (snd p) l) pairs = true <-> belongs n l.
Proof.
  rewrite existsb_exists. unfold belongs. split.
  - intros ((x, y) & I & E). cbn [fst snd] in E. apply Bool.andb_true_iff in E as (E1 & E2). apply text_eqb_eq in E1, E2. now subst.
  - intros I. exists (n, l). split; [exact I|]. cbn [fst snd]. now rewrite !(proj2 (text_eqb_eq _ _) eq_refl).
Qed.
Lemma link_iff : forall hs bs, length bs = length hs -> forall ls, link hs bs = Ok ls <-> Forall2 (fun d b => belongs (h_name d) (a_lhs b)) hs bs /\ ls = combine (map a_id bs) (map h_id hs).
Proof.
  induction hs as [|h hs IH]; intros [|b bs] L ls; try discriminate.
  - cbn. split; [intros E; apply ok_inj in E; subst; split; [constructor|reflexivity]|]. intros (_ & ->). reflexivity.
  - cbn [link map combine]. injection L as L. destruct (existsb _ pairs) eqn:B.
    + apply belongs_iff in B. cbn [assert_ bind]. split.
      * intros E. apply bind_ok in E as (r & E1 & E2). apply ok_inj in E2. subst ls. apply IH in E1 as (F & ->); [|exact L]. split; [now constructor|reflexivity].
      * intros (F & ->). inversion F; subst. rewrite (proj2 (IH bs L _) (conj H4 eq_refl)). reflexivity.
    + cbn [assert_ bind]. split; [discriminate|]. intros (F & _). inversion F; subst. apply belongs_iff in H2. congruence.
Qed.
Lemma filters h a : filter (fun d => existsb (fun p => text_eqb (fst p) (h_name d)) pairs) (h_desc h) = elements h /\ filter (fun b => existsb (fun p => text_eqb (snd p) (a_lhs b)) pairs) (a_desc a) = mentions a.
Proof.
  unfold elements, mentions. rewrite h_order, a_order. cbn [tl]. split; apply filter_ext; intros d; cbn [existsb pairs fst snd]; now rewrite !(teq_sym (h_name d)) || rewrite !(teq_sym (a_lhs d)).
Qed.
(* The nodes are connected with the elements exactly if the two sequences correspond; then the first with the first, and so on. *)
Theorem C105_connect : forall h a ls, connect h a = Ok ls <-> connected h a ls.
Proof.
  intros h a ls. unfold connect, connected. destruct (filters h a) as (-> & ->). destruct (length (mentions a) =? length (elements h)) eqn:L; cbn [assert_ bind].
  - apply Nat.eqb_eq in L. now apply link_iff.
  - apply Nat.eqb_neq in L. split; [discriminate|]. intros (F & _). exfalso. apply L. clear L. induction F; cbn [length]; congruence.
Qed.
Theorem C105_connect_fails : forall h a, (forall ls, ~ connected h a ls) -> connect h a = Err AssertionError.
Proof.
  intros h a NO. destruct (connect h a) as [ls|e] eqn:C; [apply C105_connect in C; now apply NO in C|]. f_equal. revert C. unfold connect. destruct (_ =? _); cbn [assert_ bind]; [|congruence].
  set (hs := filter _ (h_desc h)). set (bs := filter _ (a_desc a)). clearbody hs bs. clear NO. revert bs. induction hs as [|d hs IH]; intros [|b bs]; cbn [link]; try discriminate. destruct (existsb _ pairs); cbn [assert_ bind]; [|congruence]. destruct (link hs bs) as [r|e'] eqn:L; cbn [bind]; [discriminate|]. intros [= ->]. exact (IH bs L).
Qed.
Print Assumptions C105_connect.
Print Assumptions C105_connect_fails.

(* ------------------------------------------------------------------ *)
(* parsing *)
Inductive goal_for : text -> option text -> text -> Prop :=
| g_alg : goal_for (tx "emu-alg") None (tx "EMU_ALG_BODY")
| g_eqn : goal_for (tx "emu-eqn") None (tx "EMU_EQN_DEF")
| g_type : goal_for (tx "td") (Some (tx "field_value_type")) (tx "FIELD_VALUE_TYPE")
| g_sig : goal_for (tx "td") (Some (tx "op_signature")) (tx "OP_SIGNATURE")
| g_for : goal_for (tx "dd") None (tx "FOR_PHRASE")
| g_head w : goal_for (tx "h1") w (tx "OP_SIGNATURE")
| g_early : goal_for (tx "li") (Some (tx "early_error")) (tx "EARLY_ERROR_RULE")
| g_sdo : goal_for (tx "li") (Some (tx "inline_sdo")) (tx "INLINE_SDO_RULE").
Lemma goal_ok name what g : goal_for name what g -> goal_of name what = Ok g.
Proof. intros H. destruct H; reflexivity. Qed.
Lemma goal_inv name what g : goal_of name what = Ok g -> goal_for name what g.
Proof.
  unfold goal_of. cbv zeta.
  destruct (text_eqb name (tx "emu-alg")) eqn:E1; [apply text_eqb_eq in E1; subst name; destruct what; [discriminate|]; intros H; apply ok_inj in H; subst g; constructor|].
  destruct (text_eqb name (tx "emu-eqn")) eqn:E2; [apply text_eqb_eq in E2; subst name; destruct what; [discriminate|]; intros H; apply ok_inj in H; subst g; constructor|].
  destruct (text_eqb name (tx "td")) eqn:E3.
  { apply text_eqb_eq in E3. subst name. destruct what as [w|]; [|discriminate]. destruct (text_eqb w (tx "field_value_type")) eqn:W1; [apply text_eqb_eq in W1; subst w; intros H; apply ok_inj in H; subst g; constructor|].
    destruct (text_eqb w (tx "op_signature")) eqn:W2; [apply text_eqb_eq in W2; subst w; intros H; apply ok_inj in H; subst g; constructor|discriminate]. }
  destruct (text_eqb name (tx "dd")) eqn:E4; [apply text_eqb_eq in E4; subst name; destruct what; [discriminate|]; intros H; apply ok_inj in H; subst g; constructor|].
  destruct (text_eqb name (tx "h1")) eqn:E5; [apply text_eqb_eq in E5; subst name; intros H; apply ok_inj in H; subst g; constructor|].
  destruct (text_eqb name (tx "li")) eqn:E6; [|discriminate].
  apply text_eqb_eq in E6. subst name. destruct what as [w|]; [|discriminate]. destruct (text_eqb w (tx "early_error")) eqn:W1; [apply text_eqb_eq in W1; subst w; intros H; apply ok_inj in H; subst g; constructor|].
  destruct (text_eqb w (tx "inline_sdo")) eqn:W2; [apply text_eqb_eq in W2; subst w; intros H; apply ok_inj in H; subst g; constructor|discriminate].
Qed.
Theorem C105_goal : forall name what g, goal_of name what = Ok g <-> goal_for name what g.
Proof. intros. split; [apply goal_inv|apply goal_ok]. Qed.
Print Assumptions C105_goal.

Section Parsing.
  Variable parser : hn -> text -> option an.
  Variable annotate : an -> res unit.
  Variable identify : hn -> res unit.
  Notation parse := (parse parser annotate identify).
  Notation parse_all := (parse_all parser annotate identify).
  Notation ensure := (ensure parser annotate identify).
  Notation ensure_section := (ensure_section parser annotate identify).
  Notation ensure_sections := (ensure_sections parser annotate identify).
  Definition done (s : pst) (i : nat) : Prop := In i (map fst (s_trees s)).
  Lemma has_iff s h : has_tree s h = true <-> done s (h_id h).
  Proof.
    unfold has_tree, done. rewrite existsb_exists, in_map_iff. split; [intros (e & I & E); apply Nat.eqb_eq in E; eauto|]. intros (e & E & I). exists e. split; [exact I|now apply Nat.eqb_eq].
  Qed.
  Lemma has_not s h : has_tree s h = false <-> ~ done s (h_id h).
  Proof. rewrite <- has_iff. symmetry. apply Bool.not_true_iff_false. Qed.
  (* what becomes of a node for a goal: the connections *)
  Definition outcome (h : hn) (g : text) (ls : list (nat * nat)) : Prop :=
    (parser h g = None /\ identify h = Ok tt /\ ls = []) \/ (exists a, parser h g = Some a /\ connected h a ls /\ annotate a = Ok tt).
  Definition after (s : pst) (h : hn) (g : text) (ls : list (nat * nat)) : pst := mkPst (s_trees s ++ [(h_id h, parser h g)]) (s_links s ++ ls) (s_calls s ++ [(h_id h, g)]).
  (* A node is parsed exactly if it has not been, there is a goal for it, and its tree, if there is one, can be connected. *)
  Theorem C105_parse : forall s h what s', parse s h what = Ok s' <-> ~ done s (h_id h) /\ exists g ls, goal_for (h_name h) what g /\ outcome h g ls /\ s' = after s h g ls.
  Proof.
    intros s h what s'. unfold M_Parsed.parse. destruct (has_tree s h) eqn:D; cbn [negb assert_ bind].
    { apply has_iff in D. split; [discriminate|]. intros (N & _). contradiction. }
    apply has_not in D. split.
    - intros E. split; [exact D|]. apply bind_ok in E as (g & G & E). apply C105_goal in G. unfold outcome, after. destruct (parser h g) as [a|] eqn:P.
      + apply bind_ok in E as (ls & C & E). apply bind_ok in E as ([] & A & E). apply ok_inj in E. apply C105_connect in C. exists g, ls. rewrite P. split; [assumption|]. split; [right; eauto|now symmetry].
      + apply bind_ok in E as ([] & A & E). apply ok_inj in E. exists g, []. rewrite P, app_nil_r. split; [assumption|]. split; [left; auto|now symmetry].
    - intros (_ & g & ls & G & O & ->). apply C105_goal in G. rewrite G. cbn [bind]. unfold after. destruct O as [(P & I & ->)|(a & P & C & A)]; rewrite P.
      + rewrite I, app_nil_r. reflexivity.
      + apply C105_connect in C. rewrite C. cbn [bind]. now rewrite A.
  Qed.
  (* Whatever is parsed one after the other: nothing is parsed twice, the parser is called once for each, in order, and what is there stays. *)
  Theorem C105_once : forall l s s', parse_all s l = Ok s' ->
    NoDup (map (fun e => h_id (fst e)) l) /\ (forall e, In e l -> ~ done s (h_id (fst e)) /\ done s' (h_id (fst e))) /\
    (exists gs, Forall2 (fun e g => goal_for (h_name (fst e)) (snd e) g) l gs /\ s_calls s' = s_calls s ++ combine (map (fun e => h_id (fst e)) l) gs) /\
    (exists ts, s_trees s' = s_trees s ++ ts /\ map fst ts = map (fun e => h_id (fst e)) l) /\ exists ls, s_links s' = s_links s ++ ls.
  Proof.
    induction l as [|(h, w) l IH]; intros s s' E; cbn [M_Parsed.parse_all] in E.
    - apply ok_inj in E. subst s'. split; [constructor|]. split; [intros e []|]. split; [exists []; split; [constructor|now rewrite app_nil_r]|]. split; exists []; rewrite app_nil_r; auto.
    - apply bind_ok in E as (s1 & E1 & E2). apply C105_parse in E1 as (N & g & ls & G & O & ->). destruct (IH _ _ E2) as (ND & IN & (gs & F & C) & (ts & T & TF) & ls' & L). cbn [after s_calls s_trees s_links] in C, T, L.
      assert (D1 : forall i, done (after s h g ls) i <-> done s i \/ i = h_id h) by (intros i; unfold done, after; cbn [s_trees]; rewrite map_app, in_app_iff; cbn [map fst In]; intuition).
      cbn [map fst]. split; [constructor; [|exact ND]; rewrite in_map_iff; intros (e & Q & I); apply (proj1 (IN e I)), D1; now right|]. split.
      + intros e [<-|I]; cbn [fst]; [split; [exact N|]|split; [intros X; apply (proj1 (IN e I)), D1; now left|apply (IN e I)]]. unfold done. rewrite T, <- app_assoc, map_app, in_app_iff. cbn [app map fst In]. auto.
      + split; [exists (g :: gs); split; [now constructor|]; cbn [combine]; now rewrite C, <- app_assoc|]. split; [exists ((h_id h, parser h g) :: ts); split; [now rewrite T, <- app_assoc|cbn [map fst]; now rewrite TF]|]. exists (ls ++ ls'). now rewrite L, app_assoc.
  Qed.

  (* ---- the algorithms of a section ---- *)
  Definition template (h : hn) : Prop := exists t, h_inner h = [10%N] ++ tx "      1. Top-level step" ++ t.
  Lemma template_iff h : shown h = true <-> template h.
  Proof.
    unfold shown, template. split; [intros P; apply begins_iff in P as (t & ->); exists t; now rewrite <- app_assoc|]. intros (t & ->). apply begins_iff. exists t. now rewrite <- app_assoc.
  Qed.
  Definition algs (blocks : list hn) : list hn := filter (fun d => text_eqb (h_name d) (tx "emu-alg")) (flat_map doc_order blocks).
  Lemma algs_eq blocks : map snd (flat_map (h_named (tx "emu-alg") None) blocks) = algs blocks.
  Proof. unfold algs. induction blocks as [|b l IH]; [reflexivity|]. cbn [flat_map]. now rewrite map_app, filter_app, IH, named_snd. Qed.
  Lemma algs_in blocks d : In d (algs blocks) <-> h_name d = tx "emu-alg" /\ exists b, In b blocks /\ inside b d.
  Proof.
    unfold algs. rewrite filter_In, in_flat_map, text_eqb_eq. split; [intros ((b & I & H) & E); apply order_inside in H; eauto|]. intros (E & b & I & H). apply order_inside in H. eauto.
  Qed.
  (* done for one of them: nothing if it was, no tree for what only shows the format, else as for any *)
  Inductive handled (s : pst) (h : hn) : pst -> Prop :=
  | hd_was : done s (h_id h) -> handled s h s
  | hd_shown : ~ done s (h_id h) -> template h -> handled s h (mkPst (s_trees s ++ [(h_id h, None)]) (s_links s) (s_calls s))
  | hd_parsed ls : ~ done s (h_id h) -> ~ template h -> outcome h (tx "EMU_ALG_BODY") ls -> handled s h (after s h (tx "EMU_ALG_BODY") ls).
  Inductive handled_all : pst -> list hn -> pst -> Prop :=
  | ha_nil s : handled_all s [] s
  | ha_cons s h l s1 s2 : handled s h s1 -> handled_all s1 l s2 -> handled_all s (h :: l) s2.
  Lemma ensure_iff : forall l s s', Forall (fun h => h_name h = tx "emu-alg") l -> ensure s l = Ok s' <-> handled_all s l s'.
  Proof.
    induction l as [|h l IH]; intros s s' F; cbn [M_Parsed.ensure].
    - split; [intros E; apply ok_inj in E; subst; constructor|]. intros H. inversion H. reflexivity.
    - inversion F as [|? ? NM F']; subst. destruct (has_tree s h) eqn:D; [|destruct (shown h) eqn:T].
      + apply has_iff in D. rewrite (IH _ _ F'). split; [intros H; apply ha_cons with s; [now constructor|exact H]|]. intros H. inversion H as [|? ? ? s1 s2 K H']; subst. inversion K; subst; [assumption|contradiction|contradiction].
      + apply has_not in D. apply template_iff in T. rewrite (IH _ _ F'). split; [intros H; eapply ha_cons; [now apply hd_shown|exact H]|]. intros H. inversion H as [|? ? ? s1 s2 K H']; subst. inversion K; subst; [contradiction|assumption|contradiction].
      + apply has_not in D. assert (NT : ~ template h) by (rewrite <- template_iff; congruence). split.
        * intros E. apply bind_ok in E as (s1 & E1 & E2). apply IH in E2; [|exact F']. apply C105_parse in E1 as (_ & g & ls & G & O & ->). rewrite NM in G. inversion G; subst. eapply ha_cons; [now apply hd_parsed with (ls := ls)|exact E2].
        * intros H. inversion H as [|? ? ? s1 s2 K H']; subst. inversion K as [X|X Y|ls X Y O]; subst; [contradiction|contradiction|]. rewrite (proj2 (C105_parse s h None _) (conj D (ex_intro _ _ (ex_intro _ ls (conj (eq_ind_r (fun n => goal_for n None (tx "EMU_ALG_BODY")) g_alg NM) (conj O eq_refl)))))). cbn [bind]. now apply IH.
  Qed.
  (* The algorithms in the blocks of a section are handled in the order of the document, whatever they are in. *)
  Theorem C105_section : forall s blocks s', ensure_section s blocks = Ok s' <-> handled_all s (algs blocks) s'.
  Proof.
    intros s blocks s'. unfold M_Parsed.ensure_section. rewrite algs_eq. apply ensure_iff. apply Forall_forall. intros h I. now apply algs_in in I.
  Qed.
  Lemma handled_keeps s h s' : handled s h s' -> done s' (h_id h) /\ (forall i, done s i -> done s' i) /\ exists ts, s_trees s' = s_trees s ++ ts.
  Proof.
    intros H. inversion H as [X|X Y|ls X Y O]; subst; unfold done, after; cbn [s_trees].
    - split; [exact X|]. split; [auto|]. exists []. now rewrite app_nil_r.
    - rewrite map_app. split; [apply in_or_app; right; now left|]. split; [intros; apply in_or_app; now left|eauto].
    - rewrite map_app. split; [apply in_or_app; right; now left|]. split; [intros; apply in_or_app; now left|eauto].
  Qed.
  Lemma handled_all_keeps s l s' : handled_all s l s' -> (forall h, In h l -> done s' (h_id h)) /\ (forall i, done s i -> done s' i) /\ exists ts, s_trees s' = s_trees s ++ ts.
  Proof.
    induction 1 as [s|s h l s1 s2 K H (IH1 & IH2 & ts & IH3)]; [split; [intros h []|]; split; [auto|exists []; now rewrite app_nil_r]|].
    apply handled_keeps in K as (K1 & K2 & ts' & K3). split; [intros h' [<-|I]; auto|]. split; [auto|]. exists (ts' ++ ts). now rewrite IH3, K3, app_assoc.
  Qed.
  (* For different ones, the parser is called for exactly those that had no tree and are not there to show the format. *)
  Theorem C105_calls : forall s blocks s', NoDup (map h_id (algs blocks)) -> ensure_section s blocks = Ok s' ->
    s_calls s' = s_calls s ++ map (fun h => (h_id h, tx "EMU_ALG_BODY")) (filter (fun h => negb (has_tree s h) && negb (shown h)) (algs blocks)).
  Proof.
    intros s blocks s' ND E. apply C105_section in E. revert ND. generalize dependent (algs blocks). intros l H. induction H as [s|s h l s1 s2 K H IH]; intros ND; [now rewrite app_nil_r|]. cbn [map] in ND. inversion ND as [|? ? NI ND']; subst. rewrite (IH ND'). clear IH.
    assert (EX : forall h', In h' l -> has_tree s1 h' = has_tree s h').
    { intros h' I. assert (NE : h_id h' <> h_id h) by (intros Q; apply NI; rewrite <- Q; now apply in_map). inversion K as [X|X Y|ls X Y O]; subst; [reflexivity| |]; unfold has_tree, after; cbn [s_trees]; rewrite existsb_app; cbn [existsb fst]; replace (h_id h =? h_id h') with false by (symmetry; apply Nat.eqb_neq; congruence); now rewrite !Bool.orb_false_r. }
    assert (FE : filter (fun h => negb (has_tree s1 h) && negb (shown h)) l = filter (fun h => negb (has_tree s h) && negb (shown h)) l).
    { clear - EX. induction l as [|x l IH]; [reflexivity|]. cbn [filter]. rewrite (EX x (or_introl eq_refl)), IH; [reflexivity|]. intros h' I. apply EX. now right. }
    rewrite FE. cbn [filter]. inversion K as [X|X Y|ls X Y O]; subst.
    - rewrite (proj2 (has_iff s1 h) X). reflexivity.
    - rewrite (proj2 (has_not s h) X), (proj2 (template_iff h) Y). reflexivity.
    - rewrite (proj2 (has_not s h) X). replace (shown h) with false by (symmetry; apply Bool.not_true_iff_false; now rewrite template_iff). cbn [negb andb map after s_calls]. now rewrite <- app_assoc.
  Qed.
  Lemma sections_keep : forall l s s', ensure_sections s l = Ok s' -> (forall b d, In b l -> In d (algs b) -> done s' (h_id d)) /\ forall i, done s i -> done s' i.
  Proof.
    induction l as [|b l IH]; intros s s' E; cbn [M_Parsed.ensure_sections] in E; [apply ok_inj in E; subst; split; [intros b d []|auto]|]. apply bind_ok in E as (s1 & E1 & E2). apply C105_section in E1. apply handled_all_keeps in E1 as (K1 & K2 & _). destruct (IH _ _ E2) as (J1 & J2). split; [|auto].
    intros b' d [<-|I] D; [apply J2, K1, D|now apply (J1 b')].
  Qed.
  (* ---- the checks of coverage ---- *)
  (* The check of algorithms passes exactly if each is a child of one of five kinds of elements and has a tree (or had one tried). *)
  Theorem C105_algs : forall s doc, check_alg_coverage s doc = Ok tt <->
    (h_name doc <> tx "emu-alg" /\ forall r d, inside doc r -> In d (h_kids r) -> h_name d = tx "emu-alg" -> In (h_name r) [tx "emu-clause"; tx "emu-annex"; tx "emu-note"; tx "td"; tx "li"] /\ done s (h_id d)).
  Proof.
    intros s doc. unfold check_alg_coverage. set (l := h_named (tx "emu-alg") None doc).
    assert (G : alg_coverage s l = Ok tt <-> forall p d, In (p, d) l -> exists q, p = Some q /\ In (h_name q) [tx "emu-clause"; tx "emu-annex"; tx "emu-note"; tx "td"; tx "li"] /\ done s (h_id d)).
    { clearbody l. induction l as [|(p, d) l IH]; cbn [alg_coverage]; [split; [intros _ p d []|reflexivity]|]. destruct p as [q|].
      - split.
        + intros E. apply bind_ok in E as ([] & E1 & E). apply bind_ok in E as ([] & E2 & E). intros p' d' [[= <- <-]|I]; [|now apply IH]. exists q. split; [reflexivity|]. split.
          * destruct (existsb _ _) eqn:X in E1; [|discriminate]. apply existsb_exists in X as (x & I & X). apply text_eqb_eq in X. now subst x.
          * apply has_iff. destruct (has_tree s d); [reflexivity|discriminate].
        + intros H. destruct (H (Some q) d (or_introl eq_refl)) as (q' & [= <-] & I & D). replace (existsb _ _) with true by (symmetry; apply existsb_exists; exists (h_name q); split; [exact I|now apply text_eqb_eq]). apply has_iff in D. rewrite D. cbn [assert_ bind]. apply IH. intros p' d' I'. apply H. now right.
      - split; [discriminate|]. intros H. destruct (H None d (or_introl eq_refl)) as (q' & X & _). discriminate. }
    rewrite G. unfold l. clear G l. split.
    - intros H. split; [intros X; destruct (H None doc) as (q & Y & _); [apply named_in; auto|discriminate]|]. intros r d I K N. destruct (H (Some r) d) as (q & [= <-] & Z); [apply named_in; split; [exact N|]; right; eauto|exact Z].
    - intros (N & H) p d I. apply named_in in I as (E & [(-> & ->)|(r & -> & I1 & I2)]); [contradiction|]. exists r. split; [reflexivity|]. now apply H.
  Qed.
  (* The check of equations passes exactly if those that define something are in a clause of no special kind and have a tree, and the others have none. *)
  Definition defines (d : hn) : Prop := In 61%N (h_inner d) /\ h_aoid d = true.
  Theorem C105_eqns : forall s doc, check_eqn_coverage s doc = Ok tt <->
    (h_name doc = tx "emu-eqn" -> ~ defines doc /\ ~ done s (h_id doc)) /\
    forall r d, inside doc r -> In d (h_kids r) -> h_name d = tx "emu-eqn" ->
      (defines d /\ h_name r = tx "emu-clause" /\ h_kind r = Some (tx "catchall") /\ done s (h_id d)) \/ (~ defines d /\ ~ done s (h_id d)).
  Proof.
    intros s doc. unfold check_eqn_coverage. set (l := h_named (tx "emu-eqn") None doc).
    assert (DF : forall d, (existsb (N.eqb 61) (h_inner d) && h_aoid d)%bool = true <-> defines d).
    { intros d. unfold defines. rewrite Bool.andb_true_iff, existsb_exists. split; [intros ((c & I & E) & A); apply N.eqb_eq in E; now subst|]. intros (I & A). split; [exists 61%N; auto|exact A]. }
    assert (G : eqn_coverage s l = Ok tt <-> forall p d, In (p, d) l -> (defines d /\ (exists q, p = Some q /\ h_name q = tx "emu-clause" /\ h_kind q = Some (tx "catchall")) /\ done s (h_id d)) \/ (~ defines d /\ ~ done s (h_id d))).
    { clearbody l. induction l as [|(p, d) l IH]; cbn [eqn_coverage]; [split; [intros _ p d []|reflexivity]|].
      assert (NOT : ~ defines d -> (do _ <- assert_ (negb (has_tree s d)) ;; eqn_coverage s l) = Ok tt <-> forall p' d', In (p', d') ((p, d) :: l) -> (defines d' /\ (exists q, p' = Some q /\ h_name q = tx "emu-clause" /\ h_kind q = Some (tx "catchall")) /\ done s (h_id d')) \/ (~ defines d' /\ ~ done s (h_id d'))).
      { intros ND. destruct (has_tree s d) eqn:T; cbn [negb assert_ bind].
        - apply has_iff in T. split; [discriminate|]. intros H. destruct (H p d (or_introl eq_refl)) as [(X & _)|(_ & X)]; contradiction.
        - apply has_not in T. rewrite IH. split; [intros H p' d' [[= <- <-]|I]; auto|]. intros H p' d' I. apply H. now right. }
      destruct (existsb (N.eqb 61) (h_inner d)) eqn:E1; cbn [negb]; [|apply NOT; rewrite <- DF, E1; discriminate]. destruct (h_aoid d) eqn:E2; cbn [negb]; [|apply NOT; rewrite <- DF, E1, E2; discriminate].
      assert (Y : defines d) by (apply DF; now rewrite E1, E2). clear NOT. split.
      - destruct p as [q|]; [|discriminate]. intros E. apply bind_ok in E as ([] & A & E). destruct (text_eqb (h_name q) (tx "emu-clause")) eqn:Q; [|discriminate]. apply text_eqb_eq in Q. destruct (h_kind q) as [k|] eqn:K; [|discriminate]. apply bind_ok in E as ([] & B & E). destruct (text_eqb k (tx "catchall")) eqn:KK; [|discriminate]. apply text_eqb_eq in KK. subst k.
        apply bind_ok in E as ([] & C & E). destruct (has_tree s d) eqn:T; [|discriminate]. apply has_iff in T. intros p' d' [[= <- <-]|I]; [left; split; [exact Y|]; split; [exists q; auto|exact T]|now apply IH].
      - intros H. destruct (H p d (or_introl eq_refl)) as [(_ & (q & -> & Q & K) & T)|(X & _)]; [|contradiction]. rewrite (proj2 (text_eqb_eq _ _) Q). cbn [assert_ bind]. rewrite K, (proj2 (text_eqb_eq _ _) eq_refl). cbn [assert_ bind]. apply has_iff in T. rewrite T. cbn [assert_ bind]. apply IH. intros p' d' I. apply H. now right. }
    rewrite G. unfold l. clear G l. split.
    - intros H. split.
      + intros X. destruct (H None doc) as [(_ & (q & Y & _) & _)|Y]; [apply named_in; auto|discriminate|exact Y].
      + intros r d I K N. destruct (H (Some r) d) as [(D & (q & [= <-] & Q & KK) & T)|Y]; [apply named_in; split; [exact N|]; right; eauto| |]; auto.
    - intros (N & H) p d I. apply named_in in I as (E & [(-> & ->)|(r & -> & I1 & I2)]); [right; now apply N|]. destruct (H r d I1 I2 E) as [(D & Q & KK & T)|Y]; [|now right]. left. split; [exact D|]. split; [exists r; auto|exact T].
  Qed.
  (* Once all sections have been gone through, every algorithm in a block of one of them has a tree, so that only its place can be wrong. *)
  Theorem C105_covered : forall s l s' doc, ensure_sections s l = Ok s' -> (forall d, inside doc d -> h_name d = tx "emu-alg" -> exists blocks b, In blocks l /\ In b blocks /\ inside b d) ->
    check_alg_coverage s' doc = Ok tt <-> (h_name doc <> tx "emu-alg" /\ forall r d, inside doc r -> In d (h_kids r) -> h_name d = tx "emu-alg" -> In (h_name r) [tx "emu-clause"; tx "emu-annex"; tx "emu-note"; tx "td"; tx "li"]).
  Proof.
    intros s l s' doc E H. apply sections_keep in E as (K & _). rewrite C105_algs. split; intros (N & J); (split; [exact N|]); intros r d I1 I2 E; [now apply (J r d)|]. split; [now apply (J r d)|].
    assert (ID : inside doc d). { clear - I1 I2. induction I1 as [h|h c d0 I I1 IH]; [apply in_kid with d; [exact I2|constructor]|apply in_kid with c; [exact I|now apply IH]]. }
    destruct (H d ID E) as (blocks & b & B1 & B2 & B3). apply (K blocks d B1). apply algs_in. eauto.
  Qed.
End Parsing.
Print Assumptions C105_parse.
Print Assumptions C105_once.
Print Assumptions C105_section.
Print Assumptions C105_calls.
Print Assumptions C105_algs.
Print Assumptions C105_eqns.
Print Assumptions C105_covered.

(* ------------------------------------------------------------------ *)
(* examples *)
Definition el (i : nat) (n t : string) (c : list hn) : hn := HN i (tx n) (tx t) false None c.
Definition ex_alg := el 3 "emu-alg" "1. Return _x_." [el 4 "emu-xref" "" []; el 5 "figure" "" []; el 6 "pre" "" []].
Definition ex_tree := AN 20 (tx "{EMU_ALG_BODY}") [AN 21 (tx "{COMMAND}") [AN 22 (tx "{h_figure}") []]; AN 23 (tx "{h_pre_code}") []].
Example ex_C105_connect : connect ex_alg ex_tree = Ok [(22, 5); (23, 6)] /\ connect ex_alg (AN 0 (tx "{EMU_ALG_BODY}") [AN 1 (tx "{h_pre_code}") []; AN 2 (tx "{h_figure}") []]) = Err AssertionError /\
  connect ex_alg (AN 0 (tx "{EMU_ALG_BODY}") []) = Err AssertionError.
Proof. vm_compute. auto. Qed.
Definition ex_parser : hn -> text -> option an := fun h g => if h_id h =? 3 then Some ex_tree else None.
Definition fine {A : Type} : A -> res unit := fun _ => Ok tt.
Definition no_st := mkPst [] [] [].
Definition ex_show := HN 8 (tx "emu-alg") ([10%N] ++ tx "      1. Top-level step") false None [].
Definition ex_bad := el 9 "emu-alg" "1. Foo." [].
Definition ex_clause := HN 1 (tx "emu-clause") [] false (Some (tx "catchall")) [el 2 "h1" "A" []; ex_alg; ex_show; el 7 "emu-note" "" [ex_bad]; HN 10 (tx "emu-eqn") (tx "x = 1") true None []; el 11 "emu-eqn" "x + 1" []].
Definition ex_doc := el 0 "#DOC" "" [ex_clause].
Definition ex_after := mkPst [(3, Some ex_tree); (8, None); (9, None)] [(22, 5); (23, 6)] [(3, tx "EMU_ALG_BODY"); (9, tx "EMU_ALG_BODY")].
Example ex_C105_section : ensure_sections ex_parser fine fine no_st [h_kids ex_clause] = Ok ex_after /\ NoDup (map h_id (algs (h_kids ex_clause))).
Proof. split; [vm_compute; reflexivity|]. vm_compute. repeat constructor; cbn; intuition discriminate. Qed.
Example ex_C105_once : exists s', parse_all ex_parser fine fine no_st [(ex_alg, None); (el 12 "td" "a Number" [], Some (tx "field_value_type"))] = Ok s' /\ parse ex_parser fine fine s' ex_alg None = Err AssertionError /\
  parse ex_parser fine fine s' (el 13 "td" "a Number" []) None = Err AssertionError.
Proof. eexists. split; [vm_compute; reflexivity|]. vm_compute. auto. Qed.
Example ex_C105_coverage : check_alg_coverage ex_after ex_doc = Ok tt /\ check_eqn_coverage ex_after ex_doc = Err AssertionError /\
  check_eqn_coverage (mkPst [(10, None)] [] []) ex_doc = Ok tt /\ check_alg_coverage ex_after (el 0 "#DOC" "" [ex_alg]) = Err AssertionError.
Proof. vm_compute. auto. Qed.
(* The check does not see whether parsing has been successful. *)
Theorem C105_unnoticed_refuted : exists s doc d, check_alg_coverage s doc = Ok tt /\ inside doc d /\ h_name d = tx "emu-alg" /\ forall a, ~ In (h_id d, Some a) (s_trees s).
Proof.
  exists ex_after, ex_doc, ex_bad. split; [vm_compute; reflexivity|]. split; [|split; [reflexivity|]].
  - apply order_inside. vm_compute. tauto.
  - intros a I. cbn in I. destruct I as [I|[I|[I|[]]]]; discriminate I.
Qed.
Print Assumptions C105_unnoticed_refuted.
