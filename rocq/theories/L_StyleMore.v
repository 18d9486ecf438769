(* When algorithms are not checked for their variables, and when the check cannot fail. *)
From Coq Require Import Ascii String Sorted Permutation.
From Verif Require Import M_Base M_HTML M_Shared M_Records M_Values M_Style L_Base L_Records L_Defs L_Style L_StyleVars.
From Verif Require L_ValLists L_YamlSpec.
Open Scope list_scope.
Open Scope nat_scope.
Notation length := List.length.

(* a mark is in the 100 characters before a position *)
Definition shortly_before (mark st : text) (s : nat) : Prop :=
  exists a mid rest, st = a ++ mark ++ mid ++ rest /\ length (a ++ mark ++ mid) = s /\ length (mark ++ mid) <= 100.
Definition replaces : text := tx " replaces-step=".
Definition prepares : text := tx "this method performs the following steps to prepare the Strings:".

Definition nl (c : N) : text := if (c =? 10)%N then tx "\n" else [c].
Lemma replace_nl t : str_replace [10%N] (tx "\n") t = flat_map nl t.
Proof.
  unfold str_replace.
  induction t as [|c t IH]; [reflexivity|]. cbn [flat_map]. unfold nl at 1. rewrite <- IH. cbn -[N.eqb tx].
  rewrite (N.eqb_sym 10 c). destruct (c =? 10)%N; reflexivity.
Qed.
Lemma prefix_nl m : (forall c, In c m -> c <> 10%N /\ c <> 92%N) -> forall t, is_prefix m (flat_map nl t) = is_prefix m t.
Proof.
  induction m as [|c m IH]; intros H t; [destruct t; reflexivity|].
  destruct t as [|d t]; [reflexivity|]. cbn [flat_map]. unfold nl at 1. destruct (H c (or_introl eq_refl)) as [H1 H2].
  destruct (N.eqb_spec d 10) as [-> | D].
  - cbn [tx app is_prefix]. change (N_of_ascii "\"%char) with 92%N. rewrite (proj2 (N.eqb_neq c 92) H2), (proj2 (N.eqb_neq c 10) H1). reflexivity.
  - cbn [app is_prefix]. rewrite IH; auto. intros; apply H; now right.
Qed.
Lemma in_nl c m : (forall d, In d (c :: m) -> d <> 10%N /\ d <> 92%N) -> c <> 110%N -> forall t, text_in (c :: m) (flat_map nl t) = text_in (c :: m) t.
Proof.
  intros H K t. induction t as [|d t IH]; [reflexivity|].
  assert (P := prefix_nl (c :: m) H (d :: t)). cbn [text_in]. rewrite <- P, <- IH. clear P. cbn [flat_map]. unfold nl at 1 3.
  destruct (N.eqb_spec d 10) as [-> | D].
  - change (tx "\n") with [92%N; 110%N]. cbn [app text_in is_prefix]. destruct (H c (or_introl eq_refl)) as [H1 H2].
    rewrite (proj2 (N.eqb_neq c 92) H2), (proj2 (N.eqb_neq c 110) K). reflexivity.
  - reflexivity.
Qed.
Lemma nl_mark mark : In mark [replaces; prepares] -> forall t, text_in mark (str_replace [10%N] (tx "\n") t) = text_in mark t.
Proof.
  intros I t. rewrite replace_nl.
  assert (G : forallb (fun d => negb (d =? 10)%N && negb (d =? 92)%N) mark = true) by (destruct I as [<- | [<- | []]]; reflexivity).
  assert (G' : forall d, In d mark -> d <> 10%N /\ d <> 92%N).
  { rewrite forallb_forall in G. intros d D. specialize (G d D). apply andb_true_iff in G. rewrite !negb_true_iff, !N.eqb_neq in G. exact G. }
  destruct mark as [|c m]; [destruct I as [X | [X | []]]; discriminate|]. apply in_nl; auto.
  destruct I as [X | [X | []]]; apply (f_equal (hd 0%N)) in X; cbn in X; subst c; discriminate.
Qed.
Lemma window mark st s : 100 <= s <= length st -> (text_in mark (slice (s - 100) s st) = true <-> shortly_before mark st s).
Proof.
  intros B. rewrite L_ValLists.text_in_iff. unfold slice, shortly_before. split.
  - intros [a [b E]].
    assert (L : length (firstn (s - (s - 100)) (skipn (s - 100) st)) = 100) by (rewrite firstn_length, skipn_length; lia).
    exists (firstn (s - 100) st ++ a), b, (skipn s st). split; [|split].
    + rewrite <- (firstn_skipn (s - 100) st) at 1. rewrite <- app_assoc. f_equal.
      rewrite <- (firstn_skipn (s - (s - 100)) (skipn (s - 100) st)) at 1. rewrite E. rewrite <- !app_assoc. do 3 f_equal.
      rewrite L_Base.skipn_skipn. f_equal. lia.
    + rewrite E in L. rewrite !app_length in *. rewrite firstn_length. lia.
    + rewrite E in L. rewrite !app_length in *. lia.
  - intros [a [mid [rest [E [L1 L2]]]]]. rewrite !app_length in *. exists (skipn (s - 100) a), mid.
    assert (X : firstn (s - (s - 100)) (skipn (s - 100) st) = skipn (s - 100) (firstn s st)).
    { rewrite firstn_skipn_comm. f_equal. f_equal. lia. }
    rewrite X. assert (Y : firstn s st = a ++ mark ++ mid).
    { subst st. rewrite !app_assoc. rewrite firstn_app. rewrite firstn_all2 by (rewrite !app_length; lia).
      replace (s - _) with 0 by (rewrite !app_length; lia). cbn. rewrite app_nil_r. reflexivity. }
    rewrite Y. rewrite skipn_app. replace (s - 100 - length a) with 0 by lia. reflexivity.
Qed.
Lemma incomplete_iff st s : 100 <= s <= length st ->
  (incomplete st s = true <-> shortly_before replaces st s \/ shortly_before prepares st s).
Proof.
  intros B. unfold incomplete, preceding_text.
  assert (F : from_end st (Z.of_nat s - 100) = s - 100). { unfold from_end. destruct (Z.ltb_spec (Z.of_nat s - 100) 0); lia. }
  rewrite F. rewrite (nl_mark replaces) by (left; reflexivity). rewrite (nl_mark prepares) by (right; left; reflexivity).
  rewrite orb_true_iff. rewrite !(window _ _ _ B). reflexivity.
Qed.
Lemma incomplete_early st s : s < 100 -> 100 <= length st -> incomplete st s = false.
Proof.
  intros A B. unfold incomplete, preceding_text.
  assert (F : slice (from_end st (Z.of_nat s - 100)) s st = []).
  { unfold from_end, slice. destruct (Z.ltb_spec (Z.of_nat s - 100) 0); [|lia]. replace (s - _) with 0 by lia. reflexivity. }
  rewrite F. reflexivity.
Qed.

(* ------------------------------------------------------------------ *)
Definition is_node (n : anode) : Prop := exists l r s e ch, n = Node l r s e ch.
(* the forms that the grammar gives to declarations, to 'for' phrases and to the phrase about sorting *)
Definition head_formed (h : header) : Prop :=
  (forall p, In p (h_params h) -> p_decl p = None \/ exists l r s e c ch, p_decl p = Some (Node l r s e (c :: ch)) /\ is_node c) /\
  (h_for h = None \/ exists l r s e ch, h_for h = Some (Node l r s e ch) /\
     ((exists a b, r = a ++ tx "{var}" ++ b) -> exists c0 c ch', ch = c0 :: c :: ch' /\ is_node c)).
Definition body_formed (root : anode) : Prop :=
  is_node root /\ (forall r s e ch, root <> Node (tx "{var}") r s e ch) /\
  forall q l r s e ch, at_path root q (Node l r s e ch) ->
    l ++ tx " : " ++ r = tx "{EXPR} : a List whose elements are the elements of {var} ordered as if an Array of the same values had been sorted using {percent_word} using {LITERAL} as {var}" ->
    4 <= length ch.

Lemma head_list_ok st h : head_formed h -> exists hl, head_list st h = Ok hl /\ Forall (fun x => match snd x with Some n => is_node n | None => True end) hl.
Proof.
  intros [HP HF]. unfold head_list.
  assert (G : exists ps, map_res (fun p => match p_decl p with
                             | Some dn => do ch <- ch_of dn ;; do c <- item ch 0 ;; Ok (p_name p, Some c)
                             | None => Ok (p_name p, None) end) (h_params h) = Ok ps /\ Forall (fun x => match snd x with Some n => is_node n | None => True end) ps).
  { clear HF. induction (h_params h) as [|p ps IH]; cbn [map_res]; [exists []; split; [reflexivity | constructor]|].
    destruct IH as [qs [Q F]]; [intros; apply HP; now right|].
    destruct (HP p (or_introl eq_refl)) as [-> | [l [r [s [e [c [ch [-> N]]]]]]]]; cbn [ch_of item nth_error bind]; rewrite Q; cbn [bind]; eexists; split; try reflexivity; constructor; auto; cbn; auto. }
  destruct G as [ps [-> F]]. cbn [bind]. destruct HF as [-> | [l [r [s [e [ch [-> N]]]]]]]; cbn [bind rhs_of ch_of].
  - eexists. split; [reflexivity|]. rewrite app_nil_r. exact F.
  - destruct (text_in (tx "{var}") r) eqn:T; cbn [bind].
    + destruct N as [c0 [c [ch' [-> [l1 [r1 [s1 [e1 [ch1 ->]]]]]]]]]; [now apply L_ValLists.text_in_iff|].
      cbn [item nth_error bind source_text]. eexists. split; [reflexivity|]. apply Forall_app. split; auto. repeat constructor. cbn. unfold is_node. eauto 8.
    + eexists. split; [reflexivity|]. rewrite app_nil_r. exact F.
Qed.
Lemma body_var_ok st root d q v : body_formed root -> visit_of root [] 0 q v -> exists d', body_var st d v = Ok d'.
Proof.
  intros [_ [NR SP]] [A [[l [r [s [e [ch E]]]]] [I [c [C A0]]]]]. rewrite app_nil_r in A0. unfold body_var. rewrite E. cbn [lhs_of bind].
  destruct (text_eqb l (tx "{var}")) eqn:V; [|eauto]. apply text_eqb_eq in V. cbn [source_text bind]. rewrite A0.
  assert (Q : exists q' i, q = q' ++ [i]).
  { destruct q as [|i0 q0]; [exfalso; rewrite E in A; inversion A; subst; eapply NR; reflexivity|].
    destruct (exists_last (l := i0 :: q0)) as [q' [i X]]; [discriminate|]. eauto. }
  destruct Q as [q' [i ->]]. destruct (chain_parent _ _ _ _ C) as [p [a [-> [P _]]]].
  assert (exists pl pr ps pe pch, p = Node pl pr ps pe pch).
  { destruct (at_split _ _ _ _ A) as [m [B1 B2]]. rewrite (at_fun _ _ _ P _ B1). inversion B2; subst. eauto 8. }
  destruct H as [pl [pr [ps [pe [pch ->]]]]]. cbn [prod_of lhs_of rhs_of bind].
  destruct (text_eqb (prod_str pl pr) defvar_prod); [eauto|].
  destruct (text_eqb (prod_str pl pr) sorted_prod) eqn:S0; cbn [ch_of bind]; [|eauto].
  apply text_eqb_eq in S0. assert (L := SP _ _ _ _ _ _ P S0). unfold item. destruct (nth_error pch 3) eqn:X; [|apply nth_error_None in X; lia].
  cbn [bind]. destruct (v_index v =? 3); eauto.
Qed.
Lemma body_vars_ok st root : body_formed root -> forall vs d, (forall v, In v vs -> exists q, visit_of root [] 0 q v) -> exists d', body_vars st d vs = Ok d'.
Proof.
  intros F. induction vs as [|v vs IH]; intros d H; cbn [body_vars]; [eauto|].
  destruct (H v (or_introl eq_refl)) as [q V]. destruct (body_var_ok st root d q v F V) as [d' ->]. cbn [bind]. apply IH. intros; apply H; now right.
Qed.
Theorem vars_total st root h : head_formed h -> body_formed root -> exists ms, check_vars_in_anode st (Some root) h = Ok ms.
Proof.
  intros HF BF. unfold check_vars_in_anode. pose proof BF as [[rl [rr [rs [re [rch RE]]]]] [NR _]].
  assert (P : posn_of root = Ok rs) by (rewrite RE; reflexivity). rewrite P. cbn [bind]. destruct (incomplete st rs); [eauto|].
  destruct (head_list_ok st h HF) as [hl [HL FA]]. assert (HS := head_steps st h). rewrite HL in HS. cbn [bind] in HS.
  apply bind_ok in HS. destruct HS as [d1 [H1 H2]]. rewrite H1. cbn [bind]. rewrite H2. cbn [bind].
  destruct (walk_all root [] 0) as [ps W].
  destruct (body_vars_ok st root BF (each_desc [] 0 root) (add_heads h [] hl)) as [d H3].
  { intros v I. eapply in_visit; eauto. }
  rewrite H3. cbn [bind].
  assert (TH : forall n, thing_of d n = final st root h hl n).
  { intros n. rewrite (body_vars_things _ _ _ _ H3 n). rewrite heads_things. reflexivity. }
  assert (ND : NoDup (map fst d)). { apply (body_vars_keys _ _ _ _ H3). apply heads_keys. constructor. }
  apply each_msg_ok. intros [n t] I.
  assert (I' : In (n, t) d) by (revert I; apply Permutation_in; apply isort_perm). apply (tget_in _ d n t ND) in I'.
  assert (t = final st root h hl n) by (rewrite <- TH; unfold thing_of; now rewrite I'). subst t. unfold report.
  assert (DN : Forall (fun x => match x with Some n => is_node n | None => True end) (defs (final st root h hl n))).
  { unfold final. cbn [defs]. apply Forall_app. split; apply Forall_forall; intros x X; apply in_map_iff in X; destruct X as [y [<- Y]]; apply filter_In in Y; destruct Y as [Y _].
    - rewrite Forall_forall in FA. exact (FA y Y).
    - destruct (in_visit _ _ _ _ _ _ W Y) as [q [_ [N _]]]. exact N. }
  assert (UN : Forall is_node (uses (final st root h hl n))).
  { unfold final. cbn [uses]. apply Forall_forall; intros x X; apply in_map_iff in X; destruct X as [y [<- Y]]; apply filter_In in Y; destruct Y as [Y _].
    destruct (in_visit _ _ _ _ _ _ W Y) as [q [_ [N _]]]. exact N. }
  destruct (defs (final st root h hl n)) as [|x ds], (uses (final st root h hl n)) as [|u us]; cbn [bind]; eauto.
  - inversion UN as [|? ? [l1 [r1 [s1 [e1 [c1 ->]]]]] _]; subst. cbn. eauto.
  - destruct (okay _); cbn [bind]; eauto. inversion DN as [|? ? X _]; subst. destruct x as [x|].
    + destruct X as [l1 [r1 [s1 [e1 [c1 ->]]]]]. cbn. eauto.
    + unfold msg_at_node. rewrite P. cbn. eauto.
Qed.
