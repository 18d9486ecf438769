(* What the check of variables has to report, and that it does. *)
From Coq Require Import Ascii String Sorted Permutation.
From Verif Require Import M_Base M_HTML M_Shared M_Records M_Values M_Style L_Base L_Records L_Defs L_Style.
From Verif Require L_ValLists L_YamlSpec.
Open Scope list_scope.
Open Scope nat_scope.
Notation length := List.length.

Section Spec.
Variable st : text.
Variable root : anode.
Variable h : header.

(* the production of a node, written out *)
Definition written (n : anode) (t : text) : Prop := exists l r s e ch, n = Node l r s e ch /\ t = l ++ tx " : " ++ r.
(* a variable of the given name at a path, starting at a position *)
Definition occurs (q : list nat) (name : text) (posn : nat) : Prop :=
  exists r e ch, at_path root q (Node (tx "{var}") r posn e ch) /\ name = slice posn e st.
(* its parent says that it is defined there *)
Definition in_defvar (q : list nat) : Prop :=
  exists q' i p, q = q' ++ [i] /\ at_path root q' p /\ written p (tx "{DEFVAR} : {var}").
(* it is the last of the variables of the phrase about sorting *)
Definition in_sorting (q : list nat) : Prop :=
  exists q' p, q = q' ++ [3] /\ at_path root q' p /\
    written p (tx "{EXPR} : a List whose elements are the elements of {var} ordered as if an Array of the same values had been sorted using {percent_word} using {LITERAL} as {var}").
Definition body_def (name : text) (q : list nat) (posn : nat) : Prop := occurs q name posn /\ in_defvar q.
Definition body_use (name : text) (q : list nat) (posn : nat) : Prop := occurs q name posn /\ ~ in_defvar q /\ ~ in_sorting q.

(* the header defines a name: its k-th parameter, with the node that shows where, or the variable of its 'for' phrase *)
Inductive head_defines : nat -> text -> option anode -> Prop :=
| hd_plain k p : nth_error (h_params h) k = Some p -> p_decl p = None -> head_defines k (p_name p) None
| hd_decl k p l r s e c ch : nth_error (h_params h) k = Some p -> p_decl p = Some (Node l r s e (c :: ch)) -> head_defines k (p_name p) (Some c)
| hd_for l r s e c0 l1 r1 s1 e1 ch1 ch a b :
    h_for h = Some (Node l r s e (c0 :: Node l1 r1 s1 e1 ch1 :: ch)) -> r = a ++ tx "{var}" ++ b ->
    head_defines (length (h_params h)) (slice s1 e1 st) (Some (Node l1 r1 s1 e1 ch1)).
(* where a definition of the header is shown: at the start of the algorithm if there is no node *)
Definition shown (d : option anode) (posn : nat) : Prop :=
  exists l r e ch, match d with Some n => n | None => root end = Node l r posn e ch.

Definition defined (name : text) : Prop := (exists k d, head_defines k name d) \/ (exists q s, body_def name q s).
Definition used (name : text) : Prop := exists q s, body_use name q s.
Definition first_def (name : text) (posn : nat) : Prop :=
  (exists k d, head_defines k name d /\ (forall k' d', head_defines k' name d' -> k <= k') /\ shown d posn)
  \/ ((forall k d, ~ head_defines k name d)
      /\ exists q, body_def name q posn /\ forall q' s', body_def name q' s' -> q' = q \/ before q q').
Definition first_use (name : text) (posn : nat) : Prop :=
  exists q, body_use name q posn /\ forall q' s', body_use name q' s' -> q' = q \/ before q q'.
Definition excused (name : text) : Prop :=
  (exists k d, head_defines k name d) /\ exists rest, h_species h = tx "op: discriminated by" ++ rest.

(* what is reported: a name, whether it is unused (or else undefined), and where *)
Definition claim : Set := text * bool * nat.
Definition holds (c : claim) : Prop :=
  match c with
  | (name, true, s) => defined name /\ ~ used name /\ ~ excused name /\ first_def name s
  | (name, false, s) => used name /\ ~ defined name /\ first_use name s
  end.
Definition rendered (c : claim) : msg :=
  match c with
  | (name, true, s) => (s, name ++ tx " is not used in this algorithm")
  | (name, false, s) => (s, name ++ tx " is not defined in this algorithm")
  end.
Definition name_of (c : claim) : text := fst (fst c).
End Spec.
Definition text_lt (a b : text) : Prop := text_leb a b = true /\ a <> b.

(* ------------------------------------------------------------------ *)
(* what the dictionary has for a name *)
Definition def_node (v : visit) : option anode := Some (v_node v).
Inductive kind := KDef | KUse | KNone.
Definition kind_eqb (a b : kind) : bool := match a, b with KDef, KDef => true | KUse, KUse => true | KNone, KNone => true | _, _ => false end.
Lemma kind_eqb_eq a b : kind_eqb a b = true <-> a = b.
Proof. destruct a, b; split; intros; try reflexivity; try discriminate. Qed.

Definition class (st : text) (v : visit) : option (text * kind) :=
  match v_node v, v_anc v with
  | Node l r s e ch, Node pl pr _ _ pch :: _ =>
    if text_eqb l (tx "{var}") then
      Some (slice s e st,
            if text_eqb (prod_str pl pr) defvar_prod then KDef
            else if text_eqb (prod_str pl pr) sorted_prod && (v_index v =? 3) then KNone else KUse)
    else None
  | _, _ => None
  end.
Definition is_class (st name : text) (k : kind) (v : visit) : bool :=
  match class st v with Some (n, k') => text_eqb n name && kind_eqb k' k | None => false end.
Definition apply_kind (k : kind) (v : visit) (t : thing) : thing :=
  match k with
  | KDef => mkThing (defs t ++ [Some (v_node v)]) (uses t) (okay t)
  | KUse => mkThing (defs t) (uses t ++ [v_node v]) (okay t)
  | KNone => t
  end.

Lemma body_var_class st d v d' : body_var st d v = Ok d' ->
  d' = match class st v with None => d | Some (n, k) => tset d n (apply_kind k v (thing_of d n)) end.
Proof.
  unfold body_var, class. destruct (v_node v) as [l r s e ch | t] eqn:E; cbn [lhs_of bind]; [|discriminate].
  destruct (text_eqb l (tx "{var}")) eqn:V.
  2:{ intros H. injection H as <-. destruct (v_anc v) as [|[] ]; reflexivity. }
  cbn [source_text bind]. destruct (v_anc v) as [|p anc]; [discriminate|].
  destruct p as [pl pr ps pe pch | t]; cbn [prod_of lhs_of rhs_of bind]; [|discriminate].
  destruct (text_eqb (prod_str pl pr) defvar_prod) eqn:D.
  - intros H. apply (f_equal (fun r => match r with Ok x => x | Err _ => d end)) in H. subst d'. cbn [apply_kind]. rewrite E. reflexivity.
  - destruct (text_eqb (prod_str pl pr) sorted_prod) eqn:S0; cbn [ch_of bind andb].
    + unfold item. destruct (nth_error pch 3); cbn [bind]; [|discriminate]. destruct (v_index v =? 3);
      intros H; apply (f_equal (fun r => match r with Ok x => x | Err _ => d end)) in H; subst d'; cbn [apply_kind]; [|rewrite E]; reflexivity.
    + intros H. apply (f_equal (fun r => match r with Ok x => x | Err _ => d end)) in H. subst d'. cbn [apply_kind]. rewrite E. reflexivity.
Qed.

Lemma thing_same d n t : thing_of (tset d n t) n = t.
Proof. unfold thing_of. now rewrite tget_tset_same. Qed.
Lemma thing_other d n t m : n <> m -> thing_of (tset d n t) m = thing_of d m.
Proof. intros H. unfold thing_of. now rewrite tget_tset_other. Qed.
Lemma teqb_refl (a : text) : text_eqb a a = true. Proof. now apply text_eqb_eq. Qed.
Lemma teqb_ne (a b : text) : a <> b -> text_eqb a b = false.
Proof. intros H. destruct (text_eqb a b) eqn:E; auto. apply text_eqb_eq in E. contradiction. Qed.
Lemma tdec (a b : text) : a = b \/ a <> b.
Proof. destruct (list_eq_dec N.eq_dec a b); auto. Qed.

Lemma body_vars_things st vs : forall d d', body_vars st d vs = Ok d' -> forall n,
  thing_of d' n = mkThing (defs (thing_of d n) ++ map def_node (filter (is_class st n KDef) vs))
                          (uses (thing_of d n) ++ map v_node (filter (is_class st n KUse) vs)) (okay (thing_of d n)).
Proof.
  induction vs as [|v vs IH]; intros d d' H n; cbn [body_vars] in H.
  - injection H as <-. cbn. rewrite !app_nil_r. now destruct (thing_of d n).
  - apply bind_ok in H. destruct H as [d1 [H1 H2]]. rewrite (IH _ _ H2 n). apply body_var_class in H1.
    cbn [filter]. assert (IC : forall k, is_class st n k v = match class st v with Some (n0, k') => text_eqb n0 n && kind_eqb k' k | None => false end) by reflexivity. rewrite !IC. clear IC. destruct (class st v) as [[m k]|]; subst d1; auto.
    destruct (tdec m n) as [-> | D].
    + rewrite thing_same, teqb_refl. cbn [andb]. destruct k; cbn [apply_kind kind_eqb defs uses okay map]; rewrite <- ?app_assoc; reflexivity.
    + rewrite thing_other by auto. rewrite teqb_ne by auto. reflexivity.
Qed.
Lemma body_vars_keys st vs : forall d d', body_vars st d vs = Ok d' -> NoDup (map fst d) -> NoDup (map fst d').
Proof.
  induction vs as [|v vs IH]; intros d d' H K; cbn [body_vars] in H.
  - now injection H as <-.
  - apply bind_ok in H. destruct H as [d1 [H1 H2]]. apply (IH _ _ H2). apply body_var_class in H1. subst d1.
    destruct (class st v) as [[m k]|]; auto. now apply tset_keys.
Qed.

(* the definitions of the header, in order *)
Definition head_list (st : text) (h : header) : res (list (text * option anode)) :=
  do ps <- map_res (fun p => match p_decl p with
                             | Some dn => do ch <- ch_of dn ;; do c <- item ch 0 ;; Ok (p_name p, Some c)
                             | None => Ok (p_name p, None) end) (h_params h) ;;
  do f <- match h_for h with
          | None => Ok []
          | Some fp => do r <- rhs_of fp ;; if text_in (tx "{var}") r then
                         do ch <- ch_of fp ;; do c <- item ch 1 ;; do n <- source_text st c ;; Ok [(n, Some c)] else Ok []
          end ;;
  Ok (ps ++ f).
Definition add_heads (h : header) (d : things) (l : list (text * option anode)) : things :=
  fold_left (fun d x => head_def h d (fst x) (snd x)) l d.
Lemma head_steps st h : 
  (do d <- each_param h [] (h_params h) ;; for_var st h d) = (do l <- head_list st h ;; Ok (add_heads h [] l)).
Proof.
  unfold head_list.
  assert (G : forall ps d k, (do d <- each_param h d ps ;; k d) =
     (do l <- map_res (fun p => match p_decl p with
                             | Some dn => do ch <- ch_of dn ;; do c <- item ch 0 ;; Ok (p_name p, Some c)
                             | None => Ok (p_name p, None) end) ps ;; (k (add_heads h d l) : res things))).
  { induction ps as [|p ps IH]; intros d k; cbn [each_param map_res bind]; [reflexivity|].
    destruct (p_decl p) as [dn|]; cbn [bind].
    - destruct (ch_of dn) as [ch|]; cbn [bind]; [|reflexivity]. destruct (item ch 0) as [c|]; cbn [bind]; [|reflexivity].
      rewrite IH. destruct (map_res _ ps); reflexivity.
    - rewrite IH. destruct (map_res _ ps); reflexivity. }
  rewrite G. destruct (map_res _ (h_params h)) as [ps|]; cbn [bind]; [|reflexivity].
  unfold for_var. destruct (h_for h) as [fp|]; cbn [bind].
  2:{ now rewrite app_nil_r. }
  destruct (rhs_of fp) as [r|]; cbn [bind]; [|reflexivity]. destruct (text_in _ r); cbn [bind]; [|now rewrite app_nil_r].
  destruct (ch_of fp) as [ch|]; cbn [bind]; [|reflexivity]. destruct (item ch 1) as [c|]; cbn [bind]; [|reflexivity].
  destruct (source_text st c) as [n|]; cbn [bind]; [|reflexivity]. unfold add_heads. rewrite fold_left_app. reflexivity.
Qed.
Definition named (n : text) (x : text * option anode) : bool := text_eqb (fst x) n.
Lemma heads_things h l : forall d n,
  thing_of (add_heads h d l) n =
  mkThing (defs (thing_of d n) ++ map snd (filter (named n) l)) (uses (thing_of d n))
          (match filter (named n) l with [] => okay (thing_of d n) | _ => may_ignore h end).
Proof.
  induction l as [|[m x] l IH]; intros d n; cbn [add_heads fold_left].
  - cbn. rewrite app_nil_r. now destruct (thing_of d n).
  - change (fold_left _ l ?d) with (add_heads h d l). rewrite IH. cbn [fst snd filter]. assert (IC : named n (m, x) = text_eqb m n) by reflexivity. rewrite !IC. clear IC. unfold head_def.
    destruct (tdec m n) as [-> | D].
    + rewrite thing_same, teqb_refl. cbn [defs uses okay map snd]. rewrite <- app_assoc. f_equal. destruct (filter (named n) l); reflexivity.
    + rewrite thing_other by auto. rewrite teqb_ne by auto. reflexivity.
Qed.
Lemma heads_keys h l : forall d, NoDup (map fst d) -> NoDup (map fst (add_heads h d l)).
Proof.
  induction l as [|[m x] l IH]; intros d K; cbn [add_heads fold_left]; auto.
  apply IH. unfold head_def. now apply tset_keys.
Qed.

Lemma map_res_nth {A B} (f : A -> res B) l : forall ys, map_res f l = Ok ys ->
  length ys = length l /\ forall k, (forall x, nth_error l k = Some x -> exists y, f x = Ok y /\ nth_error ys k = Some y).
Proof.
  induction l as [|x l IH]; intros ys H; cbn [map_res] in H.
  - injection H as <-. split; auto. intros [|k] x H; discriminate.
  - apply bind_ok in H. destruct H as [y [Hy H]]. apply bind_ok in H. destruct H as [ys' [H' H]]. injection H as <-.
    destruct (IH _ H') as [L K]. split; [cbn; now rewrite L|]. intros [|k] z Hz; cbn [nth_error] in *; [injection Hz as <-; eauto | eauto].
Qed.

(* the k-th of the list is what the header defines *)
Lemma head_list_spec st h l : head_list st h = Ok l ->
  forall k n d, nth_error l k = Some (n, d) <-> head_defines st h k n d.
Proof.
  unfold head_list. intros H. apply bind_ok in H. destruct H as [ps [Hp H]]. apply bind_ok in H. destruct H as [fs [Hf H]].
  apply (f_equal (fun r => match r with Ok x => x | Err _ => [] end)) in H. subst l.
  destruct (map_res_nth _ _ _ Hp) as [L K]. intros k n d. split.
  - intros X. destruct (Nat.lt_ge_cases k (length ps)) as [Q | Q].
    + rewrite nth_error_app1 in X by auto. destruct (nth_error (h_params h) k) as [p|] eqn:E.
      2:{ apply nth_error_None in E. lia. }
      destruct (K k p E) as [y [Fy Y]]. assert (y = (n, d)) by congruence. subst y.
      destruct (p_decl p) as [dn|] eqn:D.
      * destruct dn as [l r s e ch|]; cbn [ch_of bind] in Fy; [|discriminate]. destruct ch as [|c ch]; cbn [item nth_error bind] in Fy; [discriminate|].
        injection Fy as <- <-. econstructor; eauto.
      * injection Fy as <- <-. constructor; auto.
    + rewrite nth_error_app2 in X by auto. destruct (h_for h) as [fp|] eqn:E.
      2:{ injection Hf as <-. destruct (k - length ps); discriminate. }
      destruct fp as [l r s e ch|]; cbn [rhs_of bind] in Hf; [|discriminate]. destruct (text_in (tx "{var}") r) eqn:T.
      2:{ injection Hf as <-. destruct (k - length ps); discriminate. }
      cbn [ch_of bind] in Hf. destruct ch as [|c0 [|c ch]]; cbn [item nth_error bind] in Hf; try discriminate.
      destruct c as [l1 r1 s1 e1 ch1|]; cbn [source_text bind] in Hf; [|discriminate].
      apply (f_equal (fun r => match r with Ok x => x | Err _ => [] end)) in Hf. subst fs.
      destruct (k - length ps) as [|j] eqn:J; [|destruct j; discriminate].
      apply L_ValLists.text_in_iff in T. destruct T as [a [b T]].
      assert (k = length (h_params h)) by lia. subst k. cbn [nth_error] in X.
      assert (n = slice s1 e1 st) by congruence. assert (d = Some (Node l1 r1 s1 e1 ch1)) by congruence. subst. econstructor; eauto.
  - intros X. destruct X.
    + destruct (K k p H) as [y [Fy Y]]. rewrite H0 in Fy. injection Fy as <-. rewrite nth_error_app1; auto. apply nth_error_Some. congruence.
    + destruct (K k p H) as [y [Fy Y]]. rewrite H0 in Fy. cbn [ch_of item nth_error bind] in Fy. injection Fy as <-. rewrite nth_error_app1; auto. apply nth_error_Some. congruence.
    + rewrite nth_error_app2 by lia. rewrite L, Nat.sub_diag. rewrite H in Hf. cbn [rhs_of bind] in Hf.
      assert (T : text_in (tx "{var}") r = true). { apply L_ValLists.text_in_iff. eauto. }
      rewrite T in Hf. cbn [ch_of item nth_error bind source_text] in Hf.
      apply (f_equal (fun r => match r with Ok x => x | Err _ => [] end)) in Hf. subst fs. reflexivity.
Qed.

(* the class of a visit, in terms of paths *)
Lemma prod_written l r s e ch t : prod_str l r = t <-> written (Node l r s e ch) t.
Proof.
  unfold written, prod_str. split.
  - intros <-. exists l, r, s, e, ch. auto.
  - intros [l' [r' [s' [e' [ch' [E ->]]]]]]. injection E; intros; subst; reflexivity.
Qed.
Definition defvar_text : text := tx "{DEFVAR} : {var}".
Lemma class_kind st root q v n k : (forall r s e ch, root <> Node (tx "{var}") r s e ch) ->
  visit_of root [] 0 q v ->
  (class st v = Some (n, k) <->
   match k with
   | KDef => exists s, occurs st root q n s /\ in_defvar root q
   | KUse => exists s, occurs st root q n s /\ ~ in_defvar root q /\ ~ in_sorting root q
   | KNone => exists s, occurs st root q n s /\ ~ in_defvar root q /\ in_sorting root q
   end).
Proof.
  intros NR [A [[l [r [s [e [ch E]]]]] [I [c [C A0]]]]]. rewrite app_nil_r in A0.
  assert (OC : forall n s', occurs st root q n s' <-> l = tx "{var}" /\ s' = s /\ n = slice s e st).
  { intros n' s'. rewrite E in A. split.
    - intros [r' [e' [ch' [P ->]]]]. pose proof (at_fun _ _ _ A _ P) as X. injection X; intros; subst; auto.
    - intros [-> [-> ->]]. exists r, e, ch. auto. }
  assert (Q : (l = tx "{var}" -> exists q' i, q = q' ++ [i])).
  { intros ->. destruct q as [|i0 q0]; [exfalso; rewrite E in A; inversion A; subst; eapply NR; reflexivity|].
    destruct (exists_last (l := i0 :: q0)) as [q' [i X]]; [discriminate|]. eauto. }
  unfold class. rewrite E. rewrite A0.
  destruct (text_eqb l (tx "{var}")) eqn:V.
  2:{ assert (l <> tx "{var}") by (intros ->; rewrite teqb_refl in V; discriminate). split.
      - destruct c as [|[] ]; discriminate.
      - destruct k; intros [s' [O _]]; apply OC in O; tauto. }
  apply text_eqb_eq in V. destruct (Q V) as [q' [i Eq]]. subst q. destruct (chain_parent _ _ _ _ C) as [p [a [-> [P _]]]].
  assert (exists pl pr ps pe pch, p = Node pl pr ps pe pch).
  { destruct (at_split _ _ _ _ A) as [m [B1 B2]]. rewrite (at_fun _ _ _ P _ B1). inversion B2; subst. eauto 8. }
  destruct H as [pl [pr [ps [pe [pch ->]]]]].
  assert (I' : v_index v = i). { rewrite I. destruct q'; cbn [app]; [reflexivity|]. rewrite last_cons. rewrite (app_comm_cons q' [i] n0). apply last_last. }
  assert (DV : in_defvar root (q' ++ [i]) <-> prod_str pl pr = tx "{DEFVAR} : {var}").
  { split.
    - intros [q1 [i1 [p1 [X [Y Z]]]]]. apply app_inj_tail in X. destruct X as [<- <-]. rewrite <- (at_fun _ _ _ P _ Y) in Z. now apply prod_written in Z.
    - intros X. exists q', i, (Node pl pr ps pe pch). repeat split; auto. now apply prod_written. }
  assert (SV : in_sorting root (q' ++ [i]) <-> i = 3 /\ prod_str pl pr = sorted_prod).
  { split.
    - intros [q1 [p1 [X [Y Z]]]]. apply app_inj_tail in X. destruct X as [<- ->]. rewrite <- (at_fun _ _ _ P _ Y) in Z. apply prod_written in Z. auto.
    - intros [-> X]. exists q', (Node pl pr ps pe pch). repeat split; auto. apply prod_written. exact X. }
  assert (G : forall k', Some (slice s e st, k') = Some (n, k) <-> n = slice s e st /\ k' = k).
  { intros k'. split; [intros X; injection X; intros; subst; auto | intros [-> ->]; reflexivity]. }
  rewrite G. clear G. rewrite I'.
  assert (D1 : text_eqb (prod_str pl pr) defvar_prod = true <-> in_defvar root (q' ++ [i])). { rewrite DV. apply text_eqb_eq. }
  assert (D2 : text_eqb (prod_str pl pr) sorted_prod && (i =? 3) = true <-> in_sorting root (q' ++ [i])).
  { rewrite SV, andb_true_iff, Nat.eqb_eq, text_eqb_eq. tauto. }
  destruct (text_eqb (prod_str pl pr) defvar_prod) eqn:X1, (text_eqb (prod_str pl pr) sorted_prod && (i =? 3)) eqn:X2;
  split.
  all: try (intros [-> <-]; exists s; rewrite OC; repeat split; auto; intuition discriminate).
  all: destruct k; intros [s' [O Y]]; apply OC in O; destruct O as [_ [_ ->]]; split; auto; exfalso; intuition discriminate.
Qed.

(* ------------------------------------------------------------------ *)
Lemma each_msg_all {A} (f : A -> res (list msg)) l : forall ms, each_msg f l = Ok ms ->
  exists mss, Forall2 (fun x m => f x = Ok m) l mss /\ ms = concat mss.
Proof.
  induction l as [|x l IH]; intros ms H; cbn [each_msg] in H.
  - injection H as <-. exists []. split; [constructor | reflexivity].
  - apply bind_ok in H. destruct H as [a [Ha H]]. apply bind_ok in H. destruct H as [b [Hb H]]. injection H as <-.
    destruct (IH _ Hb) as [mss [F ->]]. exists (a :: mss). split; [constructor; auto | reflexivity].
Qed.
Lemma each_msg_ok {A} (f : A -> res (list msg)) l : (forall x, In x l -> exists m, f x = Ok m) -> exists ms, each_msg f l = Ok ms.
Proof.
  induction l as [|x l IH]; intros H; cbn [each_msg]; [eauto|].
  destruct (H x (or_introl eq_refl)) as [a ->]. destruct IH as [b ->]; [intros; apply H; now right|]. cbn [bind]. eauto.
Qed.

Lemma filter_first {A} (f : A -> bool) l : forall x rest, filter f l = x :: rest ->
  exists k, nth_error l k = Some x /\ f x = true /\ forall j y, nth_error l j = Some y -> f y = true -> k <= j.
Proof.
  induction l as [|a l IH]; intros x rest H; cbn [filter] in H; [discriminate|]. destruct (f a) eqn:E.
  - injection H as -> _. exists 0. repeat split; auto. intros; lia.
  - destruct (IH _ _ H) as [k [A1 [A2 A3]]]. exists (S k). repeat split; auto. intros [|j] y Y F; cbn in Y; [congruence|].
    specialize (A3 j y Y F). lia.
Qed.
Lemma filter_none {A} (f : A -> bool) l : filter f l = [] -> forall j y, nth_error l j = Some y -> f y = false.
Proof.
  intros H j y Y. destruct (f y) eqn:E; auto. apply nth_error_In in Y. assert (X : In y (filter f l)) by (apply filter_In; auto). rewrite H in X. destruct X.
Qed.

Section Main.
Variables (st : text) (root : anode) (h : header) (hl : list (text * option anode)).
Hypothesis HL : head_list st h = Ok hl.
Hypothesis NR : forall r s e ch, root <> Node (tx "{var}") r s e ch.
Let vs := each_desc [] 0 root.
Definition final (n : text) : thing :=
  mkThing (map snd (filter (named n) hl) ++ map def_node (filter (is_class st n KDef) vs))
          (map v_node (filter (is_class st n KUse) vs))
          (match filter (named n) hl with [] => false | _ => may_ignore h end).

Lemma is_class_iff q v n k : visit_of root [] 0 q v -> (is_class st n k v = true <-> class st v = Some (n, k)).
Proof.
  intros _. unfold is_class. destruct (class st v) as [[m k']|]; [|split; discriminate].
  rewrite andb_true_iff, text_eqb_eq, kind_eqb_eq. split; [intros [-> ->]; reflexivity | intros X; injection X; auto].
Qed.
Lemma heads_none n : filter (named n) hl = [] <-> forall k d, ~ head_defines st h k n d.
Proof.
  split.
  - intros F k d X. apply (head_list_spec _ _ _ HL) in X. pose proof (filter_none _ _ F _ _ X) as E. unfold named in E. cbn in E. rewrite teqb_refl in E. discriminate.
  - intros X. destruct (filter (named n) hl) as [|[m d] rest] eqn:F; auto. destruct (filter_first _ _ _ _ F) as [k [A [B _]]].
    unfold named in B. cbn in B. apply text_eqb_eq in B. subst m. apply (head_list_spec _ _ _ HL) in A. exfalso. eapply X; eauto.
Qed.
Lemma class_none n k : filter (is_class st n k) vs = [] <-> forall q v, visit_of root [] 0 q v -> class st v <> Some (n, k).
Proof.
  destruct (walk_all root [] 0) as [ps W]. fold vs in W. split.
  - intros F q v V X. apply (is_class_iff _ _ _ _ V) in X. rewrite (none_of _ _ _ _ _ _ W F _ _ V) in X. discriminate.
  - intros X. destruct (filter (is_class st n k) vs) as [|v rest] eqn:F; auto.
    destruct (first_of _ _ _ _ _ _ _ _ W F) as [q [V [E _]]]. apply (is_class_iff _ _ _ _ V) in E. exfalso. eapply X; eauto.
Qed.
Lemma occ_visit q n s : occurs st root q n s -> exists v, visit_of root [] 0 q v.
Proof. intros [r [e [ch [A _]]]]. destruct (visit_ex _ [] 0 _ _ _ _ _ _ A) as [v [V _]]. eauto. Qed.
Lemma defs_none n : filter (is_class st n KDef) vs = [] <-> forall q s, ~ body_def st root n q s.
Proof.
  rewrite class_none. split.
  - intros X q s [O D]. destruct (occ_visit _ _ _ O) as [v V]. apply (X q v V). apply (class_kind st root q v n KDef NR V). eauto.
  - intros X q v V C. apply (class_kind st root q v n KDef NR V) in C. destruct C as [s [O D]]. apply (X q s). split; auto.
Qed.
Lemma uses_none n : filter (is_class st n KUse) vs = [] <-> ~ used st root n.
Proof.
  rewrite class_none. split.
  - intros X [q [s [O D]]]. destruct (occ_visit _ _ _ O) as [v V]. apply (X q v V). apply (class_kind st root q v n KUse NR V). eauto.
  - intros X q v V C. apply (class_kind st root q v n KUse NR V) in C. destruct C as [s [O D]]. apply X. exists q, s. split; auto.
Qed.
Lemma defined_iff n : defs (final n) <> [] <-> defined st root h n.
Proof.
  unfold final, defined. cbn [defs]. split.
  - intros X. destruct (filter (named n) hl) as [|[m d] rest] eqn:F.
    + destruct (filter (is_class st n KDef) vs) as [|v l] eqn:G; [contradiction|]. right.
      destruct (walk_all root [] 0) as [ps W]. fold vs in W. destruct (first_of _ _ _ _ _ _ _ _ W G) as [q [V [E _]]].
      apply (is_class_iff _ _ _ _ V) in E. apply (class_kind st root q v n KDef NR V) in E. destruct E as [s [O D]]. exists q, s. split; auto.
    + left. destruct (filter_first _ _ _ _ F) as [k [A [B _]]]. unfold named in B. cbn in B. apply text_eqb_eq in B. subst m. apply (head_list_spec _ _ _ HL) in A. eauto.
  - intros X E. apply app_eq_nil in E. destruct E as [E1 E2]. apply map_eq_nil in E1, E2. destruct X as [[k [d X]] | [q [s X]]].
    + eapply heads_none; eauto.
    + eapply defs_none; eauto.
Qed.
Lemma used_iff n : uses (final n) <> [] <-> used st root n.
Proof.
  unfold final. cbn [uses]. split.
  - intros X. destruct (filter (is_class st n KUse) vs) as [|v l] eqn:G; [contradiction|].
    destruct (walk_all root [] 0) as [ps W]. fold vs in W. destruct (first_of _ _ _ _ _ _ _ _ W G) as [q [V [E _]]].
    apply (is_class_iff _ _ _ _ V) in E. apply (class_kind st root q v n KUse NR V) in E. destruct E as [s [O D]]. exists q, s. split; auto.
  - intros X E. apply map_eq_nil in E. apply uses_none in E. contradiction.
Qed.
Lemma occ_start q v n s l r s' e ch : visit_of root [] 0 q v -> occurs st root q n s -> v_node v = Node l r s' e ch -> s = s'.
Proof. intros [A _] [r1 [e1 [c1 [B _]]]] E. rewrite E in A. pose proof (at_fun _ _ _ A _ B) as X. now injection X. Qed.
Lemma first_def_iff n x rest s : defs (final n) = x :: rest -> (first_def st root h n s <-> shown root x s).
Proof.
  unfold final. cbn [defs]. intros E. destruct (filter (named n) hl) as [|[m d] l] eqn:F.
  - cbn [map app] in E. destruct (filter (is_class st n KDef) vs) as [|v l] eqn:G; [discriminate|]. cbn [map] in E. injection E as <- _.
    destruct (walk_all root [] 0) as [ps W]. fold vs in W. destruct (first_of _ _ _ _ _ _ _ _ W G) as [q [V [E K]]].
    apply (is_class_iff _ _ _ _ V) in E. apply (class_kind st root q v n KDef NR V) in E. destruct E as [s0 [O D]].
    pose proof V as [_ [[l1 [r1 [s1 [e1 [c1 E1]]]]] _]]. pose proof (occ_start _ _ _ _ _ _ _ _ _ V O E1) as E2. subst s1.
    assert (FB : forall q' s', body_def st root n q' s' -> q' = q \/ before q q').
    { intros q' s' [O' D']. destruct (occ_visit _ _ _ O') as [v' V']. apply (K q' v' V'). apply (is_class_iff _ _ _ _ V').
      apply (class_kind st root q' v' n KDef NR V'). eauto. }
    assert (NH := proj1 (heads_none n) F).
    split.
    + intros [[k [d [X _]]] | [_ [q1 [[O1 D1] K1]]]]; [exfalso; eapply NH; eauto|].
      assert (q1 = q). { destruct (FB q1 s (conj O1 D1)) as [|B1]; auto. destruct (K1 q s0 (conj O D)) as [|B2]; auto. exfalso. eapply before_irrefl, before_trans; eauto. }
      subst q1. pose proof (occ_start _ _ _ _ _ _ _ _ _ V O1 E1) as E2. subst s. unfold shown, def_node. eauto.
    + intros [l2 [r2 [e2 [c2 E2]]]]. cbn in E2. rewrite E1 in E2. injection E2; intros; subst. right. split; auto. exists q. split; [split; auto | auto].
  - cbn [map app snd] in E. injection E as <- _. destruct (filter_first _ _ _ _ F) as [k [A [B C]]].
    unfold named in B. cbn in B. apply text_eqb_eq in B. subst m. apply (head_list_spec _ _ _ HL) in A.
    assert (K : forall k' d', head_defines st h k' n d' -> k <= k').
    { intros k' d' X. apply (head_list_spec _ _ _ HL) in X. apply (C _ _ X). unfold named. cbn. apply teqb_refl. }
    split.
    + intros [[k1 [d1 [X1 [X2 X3]]]] | [X _]]; [|exfalso; eapply X; eauto].
      assert (k1 = k) by (specialize (K _ _ X1); specialize (X2 _ _ A); lia). subst k1.
      apply (head_list_spec _ _ _ HL) in X1, A. assert (d1 = d) by congruence. now subst.
    + intros X. left. eauto.
Qed.
Lemma first_use_iff n x rest : uses (final n) = x :: rest -> exists l r s0 e ch, x = Node l r s0 e ch /\ forall s, first_use st root n s <-> s = s0.
Proof.
  unfold final. cbn [uses]. intros E. 
    destruct (filter (is_class st n KUse) vs) as [|v l] eqn:G; [discriminate|]. cbn [map] in E. injection E as <- _.
    destruct (walk_all root [] 0) as [ps W]. fold vs in W. destruct (first_of _ _ _ _ _ _ _ _ W G) as [q [V [E K]]].
    apply (is_class_iff _ _ _ _ V) in E. apply (class_kind st root q v n KUse NR V) in E. destruct E as [s0 [O D]].
    pose proof V as [_ [[l1 [r1 [s1 [e1 [c1 E1]]]]] _]]. pose proof (occ_start _ _ _ _ _ _ _ _ _ V O E1) as E2. subst s1.
    assert (FB : forall q' s', body_use st root n q' s' -> q' = q \/ before q q').
    { intros q' s' [O' D']. destruct (occ_visit _ _ _ O') as [v' V']. apply (K q' v' V'). apply (is_class_iff _ _ _ _ V').
      apply (class_kind st root q' v' n KUse NR V'). eauto. }
    exists l1, r1, s0, e1, c1. split; auto. intros s. split.
    + intros [q1 [[O1 D1] K1]].
      assert (q1 = q). { destruct (FB q1 s (conj O1 D1)) as [|B1]; auto. destruct (K1 q s0 (conj O D)) as [|B2]; auto. exfalso. eapply before_irrefl, before_trans; eauto. }
      subst q1. now pose proof (occ_start _ _ _ _ _ _ _ _ _ V O1 E1) as E2.
    + intros ->. exists q. split; [split; auto | auto].
Qed.
Lemma okay_iff n : okay (final n) = true <-> excused st h n.
Proof.
  unfold final, excused. cbn [okay]. unfold may_ignore. split.
  - destruct (filter (named n) hl) as [|[m d] l] eqn:F; [discriminate|]. intros P. apply L_YamlSpec.is_prefix_iff in P. split; [|exact P].
    destruct (filter_first _ _ _ _ F) as [k [A [B C]]]. unfold named in B. cbn in B. apply text_eqb_eq in B. subst m. apply (head_list_spec _ _ _ HL) in A. eauto.
  - intros [[k [d X]] P]. destruct (filter (named n) hl) as [|y l] eqn:F; [exfalso; eapply heads_none; eauto|].
    apply L_YamlSpec.is_prefix_iff. exact P.
Qed.

(* what is reported about a name *)
Lemma report_claims n l : report root (n, final n) = Ok l ->
  exists cs, l = map rendered cs /\ (length cs <= 1) /\ forall c, In c cs <-> holds st root h c /\ name_of c = n.
Proof.
  unfold report. intros R.
  assert (D := defined_iff n). assert (U := used_iff n). assert (K := okay_iff n).
  destruct (defs (final n)) as [|x ds] eqn:ED; destruct (uses (final n)) as [|u us] eqn:EU.
  - cbn [bind] in R. injection R as <-. exists []. split; [reflexivity|]. split; [auto|]. intros c. split; [intros []|].
    intros [H E]. destruct c as [[m b] s]. cbn in E. subst m. destruct b; cbn in H; destruct H as [H _]; [apply D in H|apply U in H]; congruence.
  - destruct (first_use_iff n u us EU) as [l1 [r1 [s1 [e1 [c1 [-> F]]]]]].
    cbn [bind msg_at_node posn_of app] in R. injection R as <-. exists [(n, false, s1)]. split; [reflexivity|]. split; [auto|].
    assert (ND : ~ defined st root h n) by (intros X; apply D in X; congruence).
    intros c. split.
    + intros [<- | []]. cbn. repeat split; auto. * apply U. congruence. * now apply F.
    + intros [H E]. destruct c as [[m b] s]. cbn in E. subst m. destruct b; cbn in H; [tauto|]. destruct H as [_ [_ H]]. apply F in H. subst s. now left.
  - assert (NU : ~ used st root n) by (intros X; apply U in X; congruence).
    destruct (okay (final n)) eqn:O.
    + cbn [bind app] in R. injection R as <-. exists []. split; [reflexivity|]. split; [auto|]. intros c. split; [intros []|].
      intros [H E]. destruct c as [[m b] s]. cbn in E. subst m. destruct b; cbn in H; tauto.
    + assert (F := fun s => first_def_iff n x ds s ED).
      destruct (match x with Some d => d | None => root end) as [l1 r1 s1 e1 c1|t] eqn:EX; cbn [msg_at_node posn_of bind app] in R; [|discriminate].
      injection R as <-. exists [(n, true, s1)]. split; [reflexivity|]. split; [auto|]. intros c. split.
      * intros [<- | []]. cbn. repeat split; auto. -- apply D. congruence. -- intros X. apply K in X. congruence.
        -- apply F. unfold shown. rewrite EX. eauto.
      * intros [H E]. destruct c as [[m b] s]. cbn in E. subst m. destruct b; cbn in H; [|tauto]. destruct H as [_ [_ [_ H]]]. apply F in H.
        destruct H as [l2 [r2 [e2 [c2 H]]]]. rewrite EX in H. injection H; intros; subst. now left.
  - cbn [bind app] in R. injection R as <-. exists []. split; [reflexivity|]. split; [auto|]. intros c. split; [intros []|].
    intros [H E]. destruct c as [[m b] s]. cbn in E. subst m. assert (used st root n) by (apply U; congruence). assert (defined st root h n) by (apply D; congruence).
    destruct b; cbn in H; tauto.
Qed.
End Main.

Lemma root_not_var st root d d' : body_vars st d (each_desc [] 0 root) = Ok d' -> forall r s e ch, root <> Node (tx "{var}") r s e ch.
Proof.
  intros H r s e ch ->. cbn [each_desc body_vars] in H. apply bind_ok in H. destruct H as [d1 [H _]]. discriminate.
Qed.
Lemma text_lt_trans a b c : text_lt a b -> text_lt b c -> text_lt a c.
Proof.
  intros [A1 A2] [B1 B2]. split; [eapply text_leb_trans; eauto|]. intros ->. apply A2. now apply text_leb_antisym.
Qed.
Lemma sorted_keys {A} (d : list (text * A)) : NoDup (map fst d) -> StronglySorted text_lt (map fst (sorted_items d)).
Proof.
  intros ND. unfold sorted_items.
  assert (P := isort_perm (fun a b : text * A => text_leb (fst a) (fst b)) d).
  assert (S0 : StronglySorted (fun a b : text * A => text_leb (fst a) (fst b) = true) (isort (fun a b : text * A => text_leb (fst a) (fst b)) d)).
  { apply isort_sorted; [|intros; eapply text_leb_trans; eauto]. intros a b. destruct (text_leb_total (fst a) (fst b)); auto. }
  assert (ND' : NoDup (map fst (isort (fun a b : text * A => text_leb (fst a) (fst b)) d))).
  { eapply Permutation_NoDup; [|exact ND]. apply Permutation_map. symmetry. exact P. }
  revert S0 ND'. generalize (isort (fun a b : text * A => text_leb (fst a) (fst b)) d). intros l.
  induction 1 as [|x l S0 IH F]; intros N; cbn [map]; constructor.
  - inversion N; auto.
  - inversion N as [|? ? N1 N2]; subst. apply Forall_forall. intros y Y. apply in_map_iff in Y. destruct Y as [z [<- Z]].
    rewrite Forall_forall in F. split; [auto|]. intros E. apply N1. rewrite E. now apply in_map.
Qed.

Theorem vars_exact st root h ms : (forall s, posn_of root = Ok s -> incomplete st s = false) ->
  check_vars_in_anode st (Some root) h = Ok ms ->
  exists cs, ms = map rendered cs /\ StronglySorted text_lt (map name_of cs) /\ forall c, In c cs <-> holds st root h c.
Proof.
  intros NI H. unfold check_vars_in_anode in H. apply bind_ok in H. destruct H as [s [Hs H]]. rewrite (NI s Hs) in H.
  apply bind_ok in H. destruct H as [d1 [H1 H]]. apply bind_ok in H. destruct H as [d2 [H2 H]]. apply bind_ok in H. destruct H as [d [H3 H]].
  assert (HS := head_steps st h). rewrite H1 in HS. cbn [bind] in HS. rewrite H2 in HS.
  destruct (head_list st h) as [hl|] eqn:HL; cbn [bind] in HS; [|discriminate].
  apply (f_equal (fun r => match r with Ok x => x | Err _ => [] end)) in HS. subst d2.
  assert (NR := root_not_var _ _ _ _ H3).
  assert (TH : forall n, thing_of d n = final st root h hl n).
  { intros n. rewrite (body_vars_things _ _ _ _ H3 n). rewrite heads_things. reflexivity. }
  assert (ND : NoDup (map fst d)). { apply (body_vars_keys _ _ _ _ H3). apply heads_keys. constructor. }
  assert (IN : forall n t, In (n, t) (sorted_items d) <-> tget d n = Some t).
  { intros n t. rewrite (tget_in _ d n t ND). unfold sorted_items. split; apply Permutation_in; [|symmetry]; apply isort_perm. }
  assert (KS := sorted_keys d ND).
  assert (IT : forall n t, In (n, t) (sorted_items d) -> t = final st root h hl n).
  { intros n t I. apply IN in I. rewrite <- TH. unfold thing_of. now rewrite I. }
  destruct (each_msg_all _ _ _ H) as [mss [F ->]].
  assert (G : exists cs, concat mss = map rendered cs /\ StronglySorted text_lt (map name_of cs) /\
      forall c, In c cs <-> holds st root h c /\ In (name_of c) (map fst (sorted_items d))).
  { clear IN. revert KS IT. clear H. induction F as [|[n t] l items mss R F IH]; intros KS IT.
    - exists []. split; [reflexivity|]. split; [constructor|]. intros c. cbn. tauto.
    - cbn [map fst] in KS. inversion KS as [|? ? KS' FA]; subst. destruct IH as [cs [E [S0 C]]]; auto. { intros; apply IT; now right. }
      assert (t = final st root h hl n) by (apply IT; now left). subst t.
      destruct (report_claims st root h hl HL NR n l R) as [c1 [-> [L1 C1]]].
      exists (c1 ++ cs). split; [cbn [concat]; rewrite E, map_app; reflexivity|]. split.
      + rewrite map_app. apply sorted_app; auto.
        * destruct c1 as [|x [|]]; cbn in *; try lia; repeat constructor.
        * intros a b Ha Hb. apply in_map_iff in Ha, Hb. destruct Ha as [x [<- X]], Hb as [y [<- Y]]. apply C1 in X. apply C in Y.
          destruct X as [_ ->]. rewrite Forall_forall in FA. apply FA. tauto.
      + intros c. rewrite in_app_iff, C1, C. cbn [map fst In]. split; [intros [[X Y]|[X Y]]; auto | intros [X [Y|Y]]; auto]. }
  destruct G as [cs [E [S0 C]]]. exists cs. split; auto. split; auto. intros c. rewrite C. split; [tauto|]. intros X. split; auto.
  destruct c as [[n b] p]. cbn [name_of fst].
  assert (T : final st root h hl n <> no_thing).
  { intros Z. destruct b; cbn in X; destruct X as [X _].
    - apply (defined_iff st root h hl HL NR) in X. rewrite Z in X. apply X. reflexivity.
    - apply (used_iff st root h hl NR) in X. rewrite Z in X. apply X. reflexivity. }
  rewrite <- TH in T. unfold thing_of in T. destruct (tget d n) as [t|] eqn:TG; [|congruence]. apply IN in TG. apply in_map_iff. exists (n, t). auto.
Qed.
