(* What the checks of If-commands and of value descriptions have to report, and that they do. *)
From Coq Require Import Ascii String Sorted.
From Verif Require Import M_Base M_HTML M_Shared M_Indent M_Refs M_Records M_Values M_Meta M_Style L_Base L_Style L_StyleVars.
From Verif Require L_ValLists L_YamlSpec L_Validate.
Open Scope list_scope.
Open Scope nat_scope.
Notation length := List.length.

(* the messages of a check are those for the paths at which there is a fault, in reading order *)
Definition reports (fault : list nat -> list msg -> Prop) (ms : list msg) : Prop :=
  exists qs, StronglySorted before (map fst qs) /\ ms = concat (map snd qs) /\ forall q l, In (q, l) qs <-> fault q l.

Lemma reports_of root f (fault : list nat -> list msg -> Prop) :
  (forall q v, visit_of root [] 0 q v -> exists l, f v = Ok l /\ forall l', fault q l' <-> l' = l /\ l <> []) ->
  (forall q l, fault q l -> exists l r s e ch, at_path root q (Node l r s e ch)) ->
  exists ms, each_msg f (each_desc [] 0 root) = Ok ms /\ reports fault ms.
Proof.
  intros H N. destruct (walk_all root [] 0) as [ps [W [S0 C]]].
  assert (G : exists ms qs, each_msg f (each_desc [] 0 root) = Ok ms /\ StronglySorted before (map fst qs) /\ ms = concat (map snd qs)
     /\ (forall q l, In (q, l) qs <-> In q ps /\ fault q l)).
  { clear C. revert S0. induction W as [|q v ps vs V W IH]; intros S0; cbn [each_msg].
    - exists [], []. split; [reflexivity|]. split; [constructor|]. split; [reflexivity|]. intros q l. cbn. tauto.
    - inversion S0 as [|? ? S1 F]; subst. destruct (IH S1) as [ms [qs [E [S2 [-> K]]]]]. destruct (H q v V) as [l [-> L]]. rewrite E. cbn [bind].
      destruct l as [|m l].
      + exists (concat (map snd qs)), qs. split; [reflexivity|]. split; auto. split; auto. intros q' l'. split.
        * intros X. apply K in X. split; [right|]; tauto.
        * intros [[<- | I] FF]; [apply L in FF; tauto|]. now apply K.
      + exists ((m :: l) ++ concat (map snd qs)), ((q, m :: l) :: qs). split; [reflexivity|]. split; [|split; [reflexivity|]].
        * cbn [map fst]. constructor; auto. apply Forall_forall. intros q' Q. apply in_map_iff in Q. destruct Q as [[q2 l2] [<- Q]]. apply K in Q.
          rewrite Forall_forall in F. apply F. tauto.
        * intros q' l'. split.
          -- intros [X | X].
             ++ pose proof (f_equal fst X) as X1. pose proof (f_equal snd X) as X2. cbn in X1, X2. subst. split; [now left|]. apply L. split; [reflexivity | discriminate].
             ++ apply K in X. split; [right|]; tauto.
          -- intros [[<- | X] FF]; [left; apply L in FF; destruct FF as [-> _]; reflexivity|]. right. now apply K. }
  destruct G as [ms [qs [E [S1 [M K]]]]]. exists ms. split; auto. exists qs. split; auto. split; auto. intros q l. rewrite K. split; [tauto|].
  intros X. split; auto. destruct (N _ _ X) as [l0 [r [s [e [ch A]]]]]. eauto.
Qed.

(* ------------------------------------------------------------------ *)
(* texts that begin alike *)
Definition begins (p x : text) : Prop := exists b, x = p ++ b.
Lemma between p : forall a x b, text_leb (p ++ a) x = true -> text_leb x (p ++ b) = true -> begins p x.
Proof.
  induction p as [|c p IH]; intros a x b H1 H2; [now exists x|]. destruct x as [|d x]; [discriminate|]. cbn [app text_leb] in H1, H2.
  destruct (N.ltb_spec c d); destruct (N.ltb_spec d c); try lia; try discriminate. 
  assert (d = c) by lia. subst d. destruct (IH a x b H1 H2) as [y ->]. now exists y.
Qed.
Lemma least_ok l : forall x, In (fold_left (fun m y => if text_leb m y then m else y) l x) (x :: l) /\
  forall y, In y (x :: l) -> text_leb (fold_left (fun m y => if text_leb m y then m else y) l x) y = true.
Proof.
  induction l as [|a l IH]; intros x; cbn [fold_left].
  - split; [now left|]. intros y [<- | []]. destruct (text_leb_total x x); auto.
  - destruct (IH (if text_leb x a then x else a)) as [A B]. split.
    + destruct A as [A | A]; [|right; now right]. rewrite <- A. destruct (text_leb x a); [now left | right; now left].
    + intros y [<- | [<- | Y]].
      * eapply text_leb_trans; [apply B; now left|]. destruct (text_leb x a) eqn:E; [destruct (text_leb_total x x); auto|]. destruct (text_leb_total x a); congruence.
      * eapply text_leb_trans; [apply B; now left|]. destruct (text_leb x a) eqn:E; auto. destruct (text_leb_total a a); auto.
      * apply B. now right.
Qed.
Lemma greatest_ok l : forall x, In (fold_left (fun m y => if text_leb y m then m else y) l x) (x :: l) /\
  forall y, In y (x :: l) -> text_leb y (fold_left (fun m y => if text_leb y m then m else y) l x) = true.
Proof.
  induction l as [|a l IH]; intros x; cbn [fold_left].
  - split; [now left|]. intros y [<- | []]. destruct (text_leb_total x x); auto.
  - destruct (IH (if text_leb a x then x else a)) as [A B]. split.
    + destruct A as [A | A]; [|right; now right]. rewrite <- A. destruct (text_leb a x); [now left | right; now left].
    + intros y [<- | [<- | Y]].
      * eapply text_leb_trans; [|apply B; now left]. destruct (text_leb a x) eqn:E; [destruct (text_leb_total x x); auto|]. destruct (text_leb_total x a); congruence.
      * eapply text_leb_trans; [|apply B; now left]. destruct (text_leb a x) eqn:E; auto. destruct (text_leb_total a a); auto.
      * apply B. now right.
Qed.
Lemma common_begins p : forall a b, begins p (common a b) <-> begins p a /\ begins p b.
Proof.
  induction p as [|c p IH]; intros a b; [split; [intros _; split; eexists; reflexivity | intros _; eexists; reflexivity]|].
  destruct a as [|x a]; [split; [intros [y Y]; discriminate | intros [[y Y] _]; discriminate]|].
  destruct b as [|z b]; [split; [intros [y Y]; discriminate | intros [_ [y Y]]; discriminate]|].
  cbn [common]. destruct (N.eqb_spec x z) as [-> | D].
  - split.
    + intros [y Y]. cbn [app] in Y. injection Y as -> Y. destruct (proj1 (IH a b)) as [[u U] [w W]]; [now exists y|]. subst. split; eexists; reflexivity.
    + intros [[u U] [w W]]. cbn [app] in U, W. injection U as -> U. injection W as W. destruct (proj2 (IH a b)) as [y Y]; [split; eexists; eauto|]. exists y. rewrite Y. reflexivity.
  - split; [intros [y Y]; discriminate|]. intros [[u U] [w W]]. cbn [app] in U, W. injection U; injection W; intros; subst. congruence.
Qed.
Lemma commonprefix_begins l p : l <> [] -> (begins p (commonprefix l) <-> forall x, In x l -> begins p x).
Proof.
  intros NE. unfold commonprefix. rewrite common_begins. destruct l as [|x l]; [congruence|]. unfold least, greatest.
  destruct (least_ok l x) as [A1 A2]. destruct (greatest_ok l x) as [B1 B2]. split.
  - intros [[a A] [b B]] y Y. apply (between p a y b); [rewrite <- A; now apply A2 | rewrite <- B; now apply B2].
  - intros H. split; auto.
Qed.

Section Words.
Variable uniword : N -> bool.
(* what the branches may have in common *)
Inductive phrase : text -> Prop :=
| ph_return : phrase (tx "return ")
| ph_let w : w <> [] -> Forall (L_Validate.word uniword) w -> phrase (tx "let _" ++ w ++ tx "_ be ")
| ph_set w : w <> [] -> Forall (L_Validate.word uniword) w -> phrase (tx "set _" ++ w ++ tx "_ to ").

Lemma word_run_ok t : Forall (L_Validate.word uniword) (firstn (word_run uniword t) t) /\
  forall w b, t = w ++ b -> Forall (L_Validate.word uniword) w -> length w <= word_run uniword t.
Proof.
  induction t as [|c t [IH1 IH2]]; cbn [word_run firstn].
  - split; [constructor|]. intros [|] b E _; [cbn; lia | discriminate].
  - destruct (wordc uniword c) eqn:E.
    + split; [constructor; auto; now apply L_Validate.word_iff|]. intros [|d w] b X F; cbn; [lia|]. cbn [app] in X. injection X as -> X. inversion F; subst. specialize (IH2 w b eq_refl H2). lia.
    + split; [constructor|]. intros [|d w] b X F; cbn; [lia|]. cbn [app] in X. injection X as -> X. inversion F; subst. apply L_Validate.word_iff in H1. congruence.
Qed.
Lemma take_back_iff after t : forall k, take_back k after t = true <-> exists j, 1 <= j <= k /\ begins after (skipn j t).
Proof.
  induction k as [|k IH]; cbn [take_back].
  - split; [discriminate|]. intros [j [B _]]. lia.
  - rewrite orb_true_iff, IH. split.
    + intros [P | [j [B J]]]; [apply L_YamlSpec.is_prefix_iff in P; exists (S k); split; [lia | exact P] | exists j; split; [lia | exact J]].
    + intros [j [B J]]. destruct (Nat.eq_dec j (S k)) as [-> | D]; [left; apply L_YamlSpec.is_prefix_iff; exact J | right; exists j; split; [lia | exact J]].
Qed.
Lemma skipn_own {A} (w b : list A) : skipn (length w) (w ++ b) = b.
Proof. induction w; auto. Qed.
Lemma var_then_iff before_ after t : var_then uniword before_ after t = true <->
  exists w b, w <> [] /\ Forall (L_Validate.word uniword) w /\ t = before_ ++ w ++ after ++ b.
Proof.
  unfold var_then. rewrite andb_true_iff, take_back_iff, L_YamlSpec.is_prefix_iff. split.
  - intros [[u ->] [j [B [y Y]]]]. rewrite (skipn_own before_ u) in B, Y. destruct (word_run_ok u) as [W1 W2].
    assert (JL : word_run uniword u <= length u). { clear. induction u as [|c u IH]; cbn; [lia|]. destruct (wordc uniword c); lia. }
    exists (firstn j u), y. split.
    + intros X. apply (f_equal (@List.length N)) in X. rewrite firstn_length in X. cbn in X. lia.
    + split.
      * apply Forall_forall. intros c C. rewrite Forall_forall in W1. apply W1. revert C. rewrite <- (firstn_skipn j (firstn (word_run uniword u) u)). rewrite firstn_firstn. replace (Nat.min j (word_run uniword u)) with j by lia. intros C. apply in_or_app. now left.
      * f_equal. rewrite <- Y. symmetry. apply firstn_skipn.
  - intros [w [b [NE [F ->]]]]. split; [eexists; reflexivity|]. rewrite skipn_own. destruct (word_run_ok (w ++ after ++ b)) as [_ W]. exists (length w). split.
    + split; [destruct w; [congruence | cbn; lia]|]. eapply W; eauto.
    + rewrite skipn_own. now exists b.
Qed.

Lemma same_thing_iff t : same_thing uniword t = true <-> exists p, phrase p /\ begins p t.
Proof.
  unfold same_thing. rewrite !orb_true_iff, !var_then_iff, L_YamlSpec.is_prefix_iff. split.
  - intros [[[b ->] | [w [b [N [F ->]]]]] | [w [b [N [F ->]]]]].
    + exists (tx "return "). split; [constructor | eexists; reflexivity].
    + exists (tx "let _" ++ w ++ tx "_ be "). split; [now constructor|]. exists b. now rewrite <- !app_assoc.
    + exists (tx "set _" ++ w ++ tx "_ to "). split; [now constructor|]. exists b. now rewrite <- !app_assoc.
  - intros [p [P [b ->]]]. destruct P as [| w N F | w N F].
    + left. left. eexists; reflexivity.
    + left. right. exists w, b. split; [exact N|]. split; [exact F|]. now rewrite <- !app_assoc.
    + right. exists w, b. split; [exact N|]. split; [exact F|]. now rewrite <- !app_assoc.
Qed.

(* ------------------------------------------------------------------ *)
(* If-commands, as in the grammar: the commands of their arms *)
Definition command (n : anode) : Prop := exists l r s e ch, n = Node l r s e ch /\ (l = tx "{IND_COMMANDS}" \/ l = tx "{SMALL_COMMAND}").
Definition small (n : anode) : Prop := exists r s e ch, n = Node (tx "{SMALL_COMMAND}") r s e ch.
Definition condition (n : anode) : Prop := exists r s e ch, n = Node (tx "{CONDITION}") r s e ch.
Inductive tail_arms : anode -> list anode -> Prop :=
| ta_end s e : tail_arms (Node (tx "{IF_TAIL}") (tx "{EPSILON}") s e []) []
| ta_elseif s e r s1 e1 c b t arms : command b -> tail_arms t arms ->
    tail_arms (Node (tx "{IF_TAIL}") (tx "{_NL_N} {ELSEIF_PART}{IF_TAIL}") s e [Node (tx "{ELSEIF_PART}") r s1 e1 [c; b]; t]) (b :: arms)
| ta_else s e r s1 e1 b : command b ->
    tail_arms (Node (tx "{IF_TAIL}") (tx "{_NL_N} {ELSE_PART}") s e [Node (tx "{ELSE_PART}") r s1 e1 [b]]) [b].
Inductive open_arms : anode -> list anode -> Prop :=
| oa s e r s1 e1 c b t arms : command b -> tail_arms t arms ->
    open_arms (Node (tx "{IF_OTHER}") (tx "{IF_OPEN}{IF_TAIL}") s e [Node (tx "{IF_OPEN}") r s1 e1 [c; b]; t]) (b :: arms).
Inductive closed_arms : anode -> anode -> anode -> Prop :=
| ca r s e c a b : condition c -> small a -> small b -> closed_arms (Node (tx "{IF_CLOSED}") r s e [c; a; b]) a b.

Lemma tail_arms_ok t arms : tail_arms t arms -> forall f, depth t <= f -> each_if_arm f t = Ok arms.
Proof.
  induction 1 as [s e | s e r s1 e1 c b t arms C T IH | s e r s1 e1 b C]; intros f D; cbn [depth fold_right] in D.
  - destruct f as [|f]; [lia|]. vm_compute. reflexivity.
  - destruct f as [|f]; [lia|]. cbn [each_if_arm lhs_of rhs_of ch_of bind].
    change (text_eqb (tx "{IF_TAIL}") (tx "{IF_CLOSED}")) with false. change (text_eqb (tx "{IF_TAIL}") (tx "{IF_OTHER}")) with false.
    change (lhs_in (tx "{IF_TAIL}") [tx "{IF_OPEN}"; tx "{ELSEIF_PART}"]) with false. change (text_eqb (tx "{IF_TAIL}") (tx "{IF_TAIL}")) with true.
    change (text_eqb (tx "{_NL_N} {ELSEIF_PART}{IF_TAIL}") (tx "{EPSILON}")) with false.
    change (text_eqb (tx "{_NL_N} {ELSEIF_PART}{IF_TAIL}") (tx "{_NL_N} {ELSEIF_PART}{IF_TAIL}")) with true. cbn [two_of bind].
    rewrite (IH f) by lia. destruct f as [|f]; [lia|]. cbn [each_if_arm lhs_of rhs_of ch_of bind].
    change (text_eqb (tx "{ELSEIF_PART}") (tx "{IF_CLOSED}")) with false. change (text_eqb (tx "{ELSEIF_PART}") (tx "{IF_OTHER}")) with false.
    change (lhs_in (tx "{ELSEIF_PART}") [tx "{IF_OPEN}"; tx "{ELSEIF_PART}"]) with true. cbn [two_of bind].
    destruct C as [l [r' [s' [e' [ch' [-> [-> | ->]]]]]]]; reflexivity.
  - destruct f as [|[|f]]; [lia | cbn [depth fold_right] in D; lia|]. destruct C as [l [r' [s' [e' [ch' [-> [-> | ->]]]]]]]; vm_compute; reflexivity.
Qed.
Lemma open_arms_ok n arms : open_arms n arms -> each_if_arm (depth n) n = Ok arms.
Proof.
  intros [s e r s1 e1 c b t arms' C T]. cbn [depth fold_right]. remember (Nat.max _ _) as f eqn:F.
  cbn [each_if_arm lhs_of rhs_of ch_of bind].
  change (text_eqb (tx "{IF_OTHER}") (tx "{IF_CLOSED}")) with false. change (text_eqb (tx "{IF_OTHER}") (tx "{IF_OTHER}")) with true.
  change (text_eqb (tx "{IF_OPEN}{IF_TAIL}") (tx "{IF_OPEN}{IF_TAIL}")) with true. cbn [assert_ two_of bind].
  rewrite (tail_arms_ok _ _ T f) by lia. destruct f as [|f]; [lia|]. cbn [each_if_arm lhs_of rhs_of ch_of bind].
  change (text_eqb (tx "{IF_OPEN}") (tx "{IF_CLOSED}")) with false. change (text_eqb (tx "{IF_OPEN}") (tx "{IF_OTHER}")) with false.
  change (lhs_in (tx "{IF_OPEN}") [tx "{IF_OPEN}"; tx "{ELSEIF_PART}"]) with true. cbn [two_of bind].
  destruct C as [l [r' [s' [e' [ch' [-> [-> | ->]]]]]]]; reflexivity.
Qed.
Lemma closed_arms_ok n a b : closed_arms n a b -> each_if_arm (depth n) n = Ok [a; b].
Proof.
  intros [r s e c a' b' [r1 [s1 [e1 [c1 ->]]]] [r2 [s2 [e2 [c2 ->]]]] [r3 [s3 [e3 [c3 ->]]]]]. reflexivity.
Qed.
Lemma open_fun n a : open_arms n a -> forall b, open_arms n b -> a = b.
Proof. intros A b B. apply open_arms_ok in A, B. rewrite A in B. now injection B. Qed.

(* words with a space between each two *)
Definition spaced (l : list text) : text := tl (flat_map (fun x => 32%N :: x) l).
Lemma spaced_joined l : joined [32%N] l = spaced l.
Proof.
  induction l as [|a l IH]; [reflexivity|]. unfold spaced in *. cbn [flat_map app tl joined] in *. destruct l as [|b l]; [now rewrite app_nil_r|].
  rewrite IH. reflexivity.
Qed.
Definition side (n : anode) : text := match n with Node l _ _ _ _ => l | Leaf _ => [] end.

Inductive if_fault (st : text) (root : anode) (q : list nat) : list msg -> Prop :=
| if_open r s e ch arms :
    at_path root q (Node (tx "{IF_OTHER}") r s e ch) -> open_arms (Node (tx "{IF_OTHER}") r s e ch) arms ->
    (exists a b, In a arms /\ In b arms /\ side a <> side b) ->
    if_fault st root q [(s, tx "If-command has 'unbalanced' arms: " ++ spaced (map side arms))]
| if_closed r s e ch l1 r1 s1 e1 c1 l2 r2 s2 e2 c2 :
    at_path root q (Node (tx "{IF_CLOSED}") r s e ch) -> closed_arms (Node (tx "{IF_CLOSED}") r s e ch) (Node l1 r1 s1 e1 c1) (Node l2 r2 s2 e2 c2) ->
    ~ (exists p, phrase p /\ begins p (slice s1 e1 st) /\ begins p (slice s2 e2 st)) ->
    if_fault st root q [(s, tx "If-command branches don't all 'do the same thing'")].

(* the If-commands of a tree are as in the grammar *)
Definition ifs_formed (root : anode) : Prop :=
  forall q r s e ch, (at_path root q (Node (tx "{IF_OTHER}") r s e ch) -> exists arms, open_arms (Node (tx "{IF_OTHER}") r s e ch) arms)
    /\ (at_path root q (Node (tx "{IF_CLOSED}") r s e ch) -> exists a b, closed_arms (Node (tx "{IF_CLOSED}") r s e ch) a b).

Lemma tail_commands t arms : tail_arms t arms -> Forall command arms.
Proof. induction 1; repeat constructor; auto. Qed.
Lemma open_commands t arms : open_arms t arms -> Forall command arms.
Proof. intros []. constructor; auto. eapply tail_commands; eauto. Qed.
Lemma sides arms : Forall command arms -> map_res lhs_of arms = Ok (map side arms).
Proof.
  induction 1 as [|a l [l' [r [s [e [ch [-> _]]]]]] F IH]; cbn [map_res map]; [reflexivity|]. cbn [lhs_of bind]. rewrite IH. reflexivity.
Qed.
Lemma all_same_iff l : l <> [] -> (all_same l = true <-> forall a b, In a l -> In b l -> a = b).
Proof.
  intros NE. destruct l as [|x l]; [congruence|]. cbn [all_same]. rewrite forallb_forall. split.
  - intros H a b A B. assert (K : forall y, In y (x :: l) -> x = y) by (intros y [|Y]; auto; apply H in Y; now apply text_eqb_eq in Y).
    rewrite <- (K a A), <- (K b B). reflexivity.
  - intros H y Y. apply text_eqb_eq. apply H; [now left | now right].
Qed.
Theorem ifs_exact st root : ifs_formed root -> exists ms, check_ifs_in_anode uniword st (Some root) = Ok ms /\ reports (if_fault st root) ms.
Proof.
  intros F. cbn [check_ifs_in_anode]. apply reports_of.
  2:{ intros q l [r s e ch arms A _ _ | r s e ch l1 r1 s1 e1 c1 l2 r2 s2 e2 c2 A _ _]; do 5 eexists; exact A. }
  intros q v [A [[l [r [s [e [ch E]]]]] _]]. rewrite E in A. unfold check_if. rewrite E. cbn [lhs_of bind].
  destruct (text_eqb l (tx "{IF_OTHER}")) eqn:L1.
  - apply text_eqb_eq in L1. subst l. destruct (proj1 (F q r s e ch) A) as [arms O]. rewrite (open_arms_ok _ _ O). cbn [bind].
    assert (NE : arms <> []) by (destruct O; discriminate). assert (C := open_commands _ _ O).
    assert (FF : forall l', if_fault st root q l' <-> l' = [(s, tx "If-command has 'unbalanced' arms: " ++ spaced (map side arms))] /\ exists a b, In a arms /\ In b arms /\ side a <> side b).
    { intros l'. split.
      - intros [r' s' e' ch' arms' A' O' X | r' s' e' ch' l1 r1 s1 e1 c1 l2 r2 s2 e2 c2 A' _ _]; pose proof (at_fun _ _ _ A _ A') as Y.
        + injection Y; intros; subst. rewrite (open_fun _ _ O _ O'). auto.
        + apply (f_equal (fun n => text_eqb (side n) (tx "{IF_OTHER}"))) in Y. vm_compute in Y. discriminate.
      - intros [-> X]. econstructor; eauto. }
    destruct arms as [|a1 arms]; [congruence|]. cbn [length Nat.ltb Nat.leb assert_ bind]. destruct arms as [|a2 arms].
    + cbn [length Nat.eqb]. exists []. split; [reflexivity|]. intros l'. rewrite FF. split; [|tauto]. intros [_ [a [b [[<- | []] [[<- | []] N]]]]]. congruence.
    + cbn [length Nat.eqb]. remember (a1 :: a2 :: arms) as arms'. rewrite (sides _ C). cbn [bind].
      assert (AS := all_same_iff (map side arms')). destruct (all_same (map side arms')).
      * exists []. split; [reflexivity|]. intros l'. rewrite FF. split; [|tauto]. intros [_ [a [b [Ia [Ib N]]]]]. exfalso. apply N.
        apply AS; auto; try (now apply in_map). subst arms'. discriminate.
      * cbn [msg_at_node posn_of bind]. eexists. split; [reflexivity|]. intros l'. rewrite FF, spaced_joined. split.
        -- intros [-> _]. split; [reflexivity | discriminate].
        -- intros [-> _]. split; [reflexivity|].
           destruct (list_eq_dec (list_eq_dec N.eq_dec) (map side arms') (repeat (side a1) (length arms'))) as [R | R].
           ++ exfalso. assert (X : false = true); [|discriminate]. apply AS; [subst arms'; discriminate|]. rewrite R. intros a b Ia Ib. apply repeat_spec in Ia, Ib. congruence.
           ++ assert (G : exists b, In b arms' /\ side b <> side a1).
              { clear - R. induction arms' as [|y l IH]; cbn [map repeat length] in R; [congruence|].
                destruct (list_eq_dec N.eq_dec (side y) (side a1)) as [Y | Y]; [|exists y; split; [now left | exact Y]].
                destruct IH as [b [B1 B2]]; [|exists b; split; [now right | exact B2]]. intros X. apply R. rewrite X, Y. reflexivity. }
              destruct G as [b [B1 B2]]. exists a1, b. split; [subst; now left|]. split; auto.
  - destruct (text_eqb l (tx "{IF_CLOSED}")) eqn:L2.
    + apply text_eqb_eq in L2. subst l. destruct (proj2 (F q r s e ch) A) as [a [b C]]. rewrite (closed_arms_ok _ _ _ C). cbn [bind length Nat.ltb Nat.leb assert_].
      assert (N : exists r1 s1 e1 c1 r2 s2 e2 c2, a = Node (tx "{SMALL_COMMAND}") r1 s1 e1 c1 /\ b = Node (tx "{SMALL_COMMAND}") r2 s2 e2 c2).
      { inversion C as [? ? ? ? ? ? _ [r1 [s1 [e1 [c1 ->]]]] [r2 [s2 [e2 [c2 ->]]]]]; subst. repeat eexists. }
      destruct N as [r1 [s1 [e1 [c1 [r2 [s2 [e2 [c2 [-> ->]]]]]]]]]. cbn [map_res source_text bind].
      assert (ST : same_thing uniword (commonprefix [slice s1 e1 st; slice s2 e2 st]) = true <-> exists p, phrase p /\ begins p (slice s1 e1 st) /\ begins p (slice s2 e2 st)).
      { rewrite same_thing_iff. split; intros [p [P X]]; exists p; split; auto.
        - rewrite commonprefix_begins in X by discriminate. split; apply X; [now left | right; now left].
        - apply commonprefix_begins; [discriminate|]. intros x [<- | [<- | []]]; tauto. }
      assert (FF : forall l', if_fault st root q l' <-> l' = [(s, tx "If-command branches don't all 'do the same thing'")] /\ ~ (exists p, phrase p /\ begins p (slice s1 e1 st) /\ begins p (slice s2 e2 st))).
      { intros l'. split.
        - intros [r' s' e' ch' arms' A' _ _ | r' s' e' ch' l3 r3 s3 e3 c3 l4 r4 s4 e4 c4 A' C' X]; pose proof (at_fun _ _ _ A _ A') as Y.
          + apply (f_equal (fun n => text_eqb (side n) (tx "{IF_OTHER}"))) in Y. vm_compute in Y. discriminate.
          + injection Y; intros; subst. assert (Z := closed_arms_ok _ _ _ C). assert (Z' := closed_arms_ok _ _ _ C'). rewrite Z in Z'. injection Z'; intros; subst. auto.
        - intros [-> X]. econstructor; eauto. }
      match goal with |- context [if same_thing uniword ?x then _ else _] =>
        assert (ST' : same_thing uniword x = true <-> exists p, phrase p /\ begins p (slice s1 e1 st) /\ begins p (slice s2 e2 st)) by exact ST;
        clear ST; destruct (same_thing uniword x) end.
      * exists []. split; [reflexivity|]. intros l'. rewrite FF. split; [|tauto]. intros [_ X]. exfalso. apply X. now apply ST'.
      * cbn [msg_at_node posn_of bind]. eexists. split; [reflexivity|]. intros l'. rewrite FF. split.
        -- intros [-> _]. split; [reflexivity | discriminate].
        -- intros [-> _]. split; [reflexivity|]. intros X. apply ST' in X. discriminate.
    + exists []. split; [reflexivity|]. intros l'. split; [|tauto].
      intros [r' s' e' ch' arms' A' _ _ | r' s' e' ch' l3 r3 s3 e3 c3 l4 r4 s4 e4 c4 A' C' X]; pose proof (at_fun _ _ _ A _ A') as Y; injection Y; intros; subst.
      * rewrite teqb_refl in L1. discriminate.
      * rewrite teqb_refl in L2. discriminate.
Qed.
End Words.
