(* What the check of disjunctions of values has to report, and that it does. *)
From Coq Require Import Ascii String Sorted.
From Verif Require Import M_Base M_HTML M_Shared M_Indent M_Refs M_Records M_Values M_Meta M_Style L_Base L_Style L_StyleVars L_StyleIfs.
From Verif Require L_ValLists L_YamlSpec.
Open Scope list_scope.
Open Scope nat_scope.
Notation length := List.length.

(* descriptions of many values, and of one *)
Definition multi (r : text) : Prop :=
  begins (tx "a ") r \/ begins (tx "an ") r \/ begins (tx "an? ") r \/ begins (tx "any") r \/ begins (tx "some ") r \/
  In r [tx "ECMAScript source text"; tx "source text"; tx "the Environment Record for a |Catch| clause";
        tx "the execution context of a generator"; tx "the single code point {code_point_lit} or {code_point_lit}"; tx "the {nonterminal} of an? {nonterminal}"].
Definition single (r : text) : Prop := In r [tx "-1"; tx "{LITERAL_ISH}"; tx "{LITERAL}"; tx "{nonterminal}"].
(* a term of a disjunction, of many values or of one *)
Definition multi_term (n : anode) : Prop := exists r s e ch, n = Node (tx "{VAL_DESC}") r s e ch /\ multi r.
Definition single_term (n : anode) : Prop := exists r s e ch, n = Node (tx "{VAL_DESC}") r s e ch /\ single r.
Definition letters (ch : list anode) (sm : text) : Prop :=
  Forall2 (fun c x => multi_term c /\ x = 77%N \/ single_term c /\ x = 83%N) ch sm.
Definition out_of_order (ch : list anode) : Prop :=
  exists i j a b, i < j /\ nth_error ch i = Some a /\ single_term a /\ nth_error ch j = Some b /\ multi_term b.
(* the three ways to introduce a disjunction *)
Definition introduced (r w : text) : Prop :=
  r = tx "either {VAL_DESC_DISJUNCTION}" /\ w = tx "either" \/ r = tx "one of {VAL_DESC_DISJUNCTION}" /\ w = tx "one of" \/
  r = tx "{VAL_DESC_DISJUNCTION}" /\ w = [].
(* where a value description is part of prose, and where it is part of a declaration *)
Definition prose (l r : text) : Prop :=
  l = tx "{CONDITION_1}" /\ r = tx "{EX} is {VALUE_DESCRIPTION}" \/ l = tx "{CONDITION_1}" /\ r = tx "{EX} is not {VALUE_DESCRIPTION}" \/
  l = tx "{VAL_DESC}" /\ r = tx "a normal completion containing {VALUE_DESCRIPTION}" \/
  l = tx "{VAL_DESC}" /\ r = tx "an Abstract Closure that takes {VAL_DESC} and {VAL_DESC} and returns {VALUE_DESCRIPTION}".
Definition declaration (l r : text) : Prop :=
  l = tx "{OP_SIGNATURE}" \/ l = tx "{PARAMETER_DECL}" \/ l = tx "{FIELD_VALUE_TYPE}" \/
  l = tx "{VAL_DESC}" /\ begins (tx "a Record with fields") r \/ l = tx "{VALUE_DESCRIPTION}" /\ r = tx "{VAL_DESC}, but not {VALUE_DESCRIPTION}".
Definition completion_first (ch : list anode) : Prop :=
  exists l s e c rest, ch = Node l (tx "a normal completion containing {VALUE_DESCRIPTION}") s e c :: rest.
(* the word that should introduce it *)
Inductive wanted (l r : text) (ch : list anode) : text -> Prop :=
| w_one : prose l r -> 3 <= length ch -> Forall single_term ch -> wanted l r ch (tx "one of")
| w_either : prose l r -> length ch < 3 \/ ~ Forall single_term ch -> wanted l r ch (tx "either")
| w_completion : declaration l r -> completion_first ch -> wanted l r ch (tx "either")
| w_nothing : declaration l r -> ~ completion_first ch -> wanted l r ch [].
Definition order_part (s : nat) (ch : list anode) (l : list msg) : Prop :=
  (out_of_order ch /\ exists sm, letters ch sm /\
     l = [(s, tx "In a VAL_DESC_DISJUNCTION, the multi-valued terms should come before the single-valued terms, but here the terms are '" ++ sm ++ tx "'")])
  \/ (~ out_of_order ch /\ l = []).
Definition word_part (s : nat) (have want : text) (l : list msg) : Prop :=
  (have <> want /\ l = [(s, tx "this VAL_DESC_DISJUNCTION should be preceded by '" ++ want ++ tx "' rather than '" ++ have ++ tx "'")])
  \/ (have = want /\ l = []).
(* a disjunction at a path: its terms, the word that introduces it and what it is part of *)
Inductive disjunction (root : anode) : list nat -> nat -> list anode -> text -> text -> text -> Prop :=
| dj q i j gl gr gs ge gch pr ps pe pch r s e ch w :
    at_path root q (Node gl gr gs ge gch) -> at_path root (q ++ [i]) (Node (tx "{VALUE_DESCRIPTION}") pr ps pe pch) ->
    at_path root ((q ++ [i]) ++ [j]) (Node (tx "{VAL_DESC_DISJUNCTION}") r s e ch) -> introduced pr w ->
    disjunction root ((q ++ [i]) ++ [j]) s ch w gl gr.
Definition desc_fault (root : anode) (q : list nat) (l : list msg) : Prop :=
  exists s ch w gl gr l1 l2 want, disjunction root q s ch w gl gr /\ wanted gl gr ch want /\
    order_part s ch l1 /\ word_part s w want l2 /\ l = l1 ++ l2 /\ l <> [].
(* the disjunctions of a tree are where they are expected, and of terms that are known *)
Definition descs_formed (root : anode) : Prop :=
  forall q r s e ch, at_path root q (Node (tx "{VAL_DESC_DISJUNCTION}") r s e ch) ->
    ch <> [] /\ Forall (fun c => multi_term c \/ single_term c) ch /\
    exists w gl gr, disjunction root q s ch w gl gr /\ (prose gl gr \/ declaration gl gr).

Lemma begins_iff p r : is_prefix p r = true <-> begins p r.
Proof. apply L_YamlSpec.is_prefix_iff. Qed.
Lemma lhs_in_iff l ls : lhs_in l ls = true <-> In l ls.
Proof.
  unfold lhs_in. rewrite existsb_exists. split.
  - intros [x [I E]]. apply text_eqb_eq in E. now subst.
  - intros I. exists l. split; auto. apply teqb_refl.
Qed.
Lemma multi_kind r : multi r -> rhs_kind r = Ok true.
Proof.
  intros M. unfold rhs_kind. destruct (existsb (fun p => is_prefix p r) multi_starts) eqn:X; [reflexivity|].
  assert (N : forall p, In p multi_starts -> ~ begins p r).
  { intros p P B. apply begins_iff in B. assert (Y : existsb (fun p => is_prefix p r) multi_starts = true) by (apply existsb_exists; eauto). congruence. }
  unfold multi in M. destruct M as [M | [M | [M | [M | [M | M]]]]]; try (exfalso; eapply N; [|exact M]; cbn; tauto).
  assert (Y : lhs_in r multi_whole = true) by (apply lhs_in_iff; exact M). rewrite Y. reflexivity.
Qed.
Lemma single_kind r : single r -> rhs_kind r = Ok false.
Proof. intros S0. unfold single in S0. cbn [In] in S0. destruct S0 as [<- | [<- | [<- | [<- | []]]]]; vm_compute; reflexivity. Qed.
Lemma term_kind n : multi_term n \/ single_term n -> exists b, single_or_multi n = Ok b /\ (b = true <-> multi_term n) /\ (b = false <-> single_term n).
Proof.
  intros [[r [s [e [ch [-> M]]]]] | [r [s [e [ch [-> M]]]]]]; unfold single_or_multi; cbn [lhs_of rhs_of bind]; change (text_eqb (tx "{VAL_DESC}") (tx "{VAL_DESC}")) with true; cbn [assert_ bind].
  - exists true. split; [now apply multi_kind|]. split; split; intros X; auto; [unfold multi_term; eauto 8 | discriminate|].
    exfalso. destruct X as [r' [s' [e' [ch' [E S0]]]]]. injection E; intros; subst. apply multi_kind in M. apply single_kind in S0. congruence.
  - exists false. split; [now apply single_kind|]. split; split; intros X; auto; [discriminate| |unfold single_term; eauto 8].
    exfalso. destruct X as [r' [s' [e' [ch' [E S0]]]]]. injection E; intros; subst. apply single_kind in M. apply multi_kind in S0. congruence.
Qed.
Definition kind_of (n : anode) (b : bool) : Prop := (b = true <-> multi_term n) /\ (b = false <-> single_term n).
Lemma terms_kinds ch : Forall (fun c => multi_term c \/ single_term c) ch -> exists ks, map_res single_or_multi ch = Ok ks /\ Forall2 kind_of ch ks.
Proof.
  induction 1 as [|c ch T F [ks [E K]]]; cbn [map_res]; [exists []; split; [reflexivity | constructor]|].
  destruct (term_kind c T) as [b [-> B]]. cbn [bind]. rewrite E. cbn [bind]. exists (b :: ks). split; [reflexivity|]. constructor; auto.
Qed.
Lemma kinds_nth ch ks : Forall2 kind_of ch ks -> forall i c, nth_error ch i = Some c -> exists b, nth_error ks i = Some b /\ kind_of c b.
Proof. induction 1; intros [|i] c C; cbn in C; try discriminate; [injection C as <-; exists y; auto | apply IHForall2; exact C]. Qed.
Lemma kinds_nth' ch ks : Forall2 kind_of ch ks -> forall i b, nth_error ks i = Some b -> exists c, nth_error ch i = Some c /\ kind_of c b.
Proof. induction 1; intros [|i] c C; cbn in C; try discriminate; [injection C as <-; exists x; auto | apply IHForall2; exact C]. Qed.
Lemma multis_first_iff ks : multis_first ks = true <-> ~ exists i j, i < j /\ nth_error ks i = Some false /\ nth_error ks j = Some true.
Proof.
  induction ks as [|[|] ks IH]; cbn [multis_first].
  - split; auto. intros _ [i [j [_ [H _]]]]. destruct i; discriminate.
  - rewrite IH. split; intros H [i [j [L [A B]]]]; apply H.
    + destruct i as [|i]; [discriminate|]. destruct j as [|j]; [lia|]. exists i, j. split; [lia | auto].
    + exists (S i), (S j). split; [lia | auto].
  - rewrite forallb_forall. split.
    + intros H [i [j [L [A B]]]]. destruct j as [|j]; [lia|]. cbn in B. apply nth_error_In in B. apply H in B. discriminate.
    + intros H b B. destruct b; auto. exfalso. apply H. apply In_nth_error in B. destruct B as [j B]. exists 0, (S j). split; [lia | auto].
Qed.
Lemma order_iff ch ks : Forall2 kind_of ch ks -> (multis_first ks = true <-> ~ out_of_order ch).
Proof.
  intros K. rewrite multis_first_iff. split; intros H X; apply H.
  - destruct X as [i [j [a [b [L [A [SA [B MB]]]]]]]]. exists i, j. split; auto.
    destruct (kinds_nth _ _ K _ _ A) as [x [X [X1 X2]]]. destruct (kinds_nth _ _ K _ _ B) as [y [Y [Y1 Y2]]].
    apply X2 in SA. apply Y1 in MB. subst. auto.
  - destruct X as [i [j [L [A B]]]]. destruct (kinds_nth' _ _ K _ _ A) as [a [X [X1 X2]]]. destruct (kinds_nth' _ _ K _ _ B) as [b [Y [Y1 Y2]]].
    exists i, j, a, b. repeat split; auto; [now apply X2 | now apply Y1].
Qed.
Lemma letters_kinds ch ks : Forall2 kind_of ch ks -> forall sm, letters ch sm <-> sm = map kind_char ks.
Proof.
  unfold letters. induction 1 as [|c b ch ks [K1 K2] F IH]; intros sm; cbn [map].
  - split; [intros H; now inversion H | intros ->; constructor].
  - split.
    + intros H. inversion H as [|? x ? sm' X H']; subst. apply IH in H'. subst. f_equal. destruct X as [[M ->] | [S0 ->]]; [apply K1 in M | apply K2 in S0]; subst; reflexivity.
    + intros ->. constructor; [|now apply IH]. destruct b; [left | right]; cbn; split; auto; [now apply K1 | now apply K2].
Qed.
Lemma singles_iff ch ks : Forall2 kind_of ch ks -> (three_singles ks = true <-> 3 <= length ch /\ Forall single_term ch).
Proof.
  intros K. unfold three_singles. rewrite andb_true_iff, Nat.leb_le. assert (L : length ch = length ks) by (eapply Forall2_length; eauto). rewrite L.
  assert (G : forallb negb ks = true <-> Forall single_term ch).
  { clear L. induction K as [|c b ch ks [K1 K2] F IH]; cbn [forallb]; [split; auto|]. rewrite andb_true_iff, IH, negb_true_iff, K2. split; [intros [A B]; constructor; auto | intros H; inversion H; auto]. }
  rewrite G. reflexivity.
Qed.
Lemma prod_inj l r l' r' : prod_str l r = prod_str l' r' -> length l = length l' -> l = l' /\ r = r'.
Proof.
  unfold prod_str. intros E L. revert l' E L. induction l as [|c l IH]; intros [|c' l'] E L; try discriminate.
  - split; auto. cbn [app] in E. apply app_inv_head in E. exact E.
  - cbn [app] in E. injection E as -> E. injection L as L. destruct (IH l' E L) as [-> ->]. auto.
Qed.
Lemma prose_in l r : prose l r -> lhs_in (prod_str l r) prose_prods = true.
Proof. intros [[-> ->] | [[-> ->] | [[-> ->] | [-> ->]]]]; vm_compute; reflexivity. Qed.
Lemma decl_in l r : declaration l r -> is_decl l r = true.
Proof.
  intros [-> | [-> | [-> | [[-> B] | [-> ->]]]]]; unfold is_decl; try (vm_compute; reflexivity).
  assert (P : is_prefix (tx "{VAL_DESC} : a Record with fields") (prod_str (tx "{VAL_DESC}") r) = true).
  { apply begins_iff. destruct B as [b ->]. exists b. reflexivity. }
  rewrite P. now rewrite orb_true_r.
Qed.
Lemma decl_not_prose l r : declaration l r -> lhs_in (prod_str l r) prose_prods = false.
Proof.
  intros D. destruct (lhs_in (prod_str l r) prose_prods) eqn:X; auto. apply lhs_in_iff in X. exfalso.
  assert (Y : exists pl pr, prose pl pr /\ prod_str l r = prod_str pl pr).
  { unfold prose_prods in X. cbn [In] in X. destruct X as [X | [X | [X | [X | []]]]]; symmetry in X.
    - exists (tx "{CONDITION_1}"), (tx "{EX} is {VALUE_DESCRIPTION}"). split; [left; auto | exact X].
    - exists (tx "{CONDITION_1}"), (tx "{EX} is not {VALUE_DESCRIPTION}"). split; [right; left; auto | exact X].
    - exists (tx "{VAL_DESC}"), (tx "a normal completion containing {VALUE_DESCRIPTION}"). split; [right; right; left; auto | exact X].
    - exists (tx "{VAL_DESC}"), (tx "an Abstract Closure that takes {VAL_DESC} and {VAL_DESC} and returns {VALUE_DESCRIPTION}"). split; [right; right; right; auto | exact X]. }
  destruct Y as [pl [pr [P E]]].
  assert (H2 : hd 0%N (tl (prod_str l r)) = hd 0%N (tl (prod_str pl pr))) by (now rewrite E).
  assert (H10 : nth 11 (prod_str l r) 0%N = nth 11 (prod_str pl pr) 0%N) by (now rewrite E).
  assert (H13 : nth 13 (prod_str l r) 0%N = nth 13 (prod_str pl pr) 0%N) by (now rewrite E).
  destruct P as [[-> ->] | [[-> ->] | [[-> ->] | [-> ->]]]]; destruct D as [-> | [-> | [-> | [[-> [b ->]] | [-> ->]]]]]; cbn in H2, H10, H13; discriminate.
Qed.
Lemma introduced_ok r w : introduced r w -> is_suffix disj r = true /\ prefix_of r = w.
Proof. intros [[-> ->] | [[-> ->] | [-> ->]]]; split; vm_compute; reflexivity. Qed.
Lemma wanted_ok l r ch ks : ch <> [] -> Forall (fun c => multi_term c \/ single_term c) ch -> Forall2 kind_of ch ks -> prose l r \/ declaration l r ->
  exists want, preferred_prefix l r ch ks = Ok want /\ forall w, wanted l r ch w <-> w = want.
Proof.
  intros NE TF K PD. unfold preferred_prefix. assert (TS := singles_iff ch ks K).
  assert (CF : completion_first ch <-> exists c rest, ch = c :: rest /\ rhs_of c = Ok (tx "a normal completion containing {VALUE_DESCRIPTION}")).
  { split.
    - intros [l0 [s [e [c [rest ->]]]]]. eauto.
    - intros [c [rest [-> R]]]. destruct c as [l0 r0 s e c|]; [|discriminate]. cbn [rhs_of] in R. assert (r0 = tx "a normal completion containing {VALUE_DESCRIPTION}") by congruence. subst. exists l0, s, e, c, rest. reflexivity. }
  destruct PD as [P | D].
  - rewrite (prose_in _ _ P). assert (ND : ~ declaration l r) by (intros D; apply decl_not_prose in D; rewrite (prose_in _ _ P) in D; discriminate).
    eexists. split; [reflexivity|]. intros w. destruct (three_singles ks).
    + destruct (proj1 TS eq_refl) as [T1 T2]. split; [intros [? ? ? | ? [|] | |]; auto; try lia; try tauto | intros ->; now constructor].
    + assert (N : ~ (3 <= length ch /\ Forall single_term ch)) by (intros X; apply TS in X; discriminate).
      split; [intros [? ? ? | ? [|] | |]; auto; tauto|]. intros ->. constructor; auto.
      destruct (Nat.lt_ge_cases (length ch) 3); [now left | right; tauto].
  - rewrite (decl_not_prose _ _ D), (decl_in _ _ D). assert (NP : ~ prose l r) by (intros P; apply prose_in in P; rewrite (decl_not_prose _ _ D) in P; discriminate).
    destruct ch as [|c ch]; [congruence|]. inversion TF as [|? ? TC _]; subst.
    assert (exists r0, rhs_of c = Ok r0) as [r0 R]. { destruct TC as [[r0 [s [e [ch0 [-> _]]]]] | [r0 [s [e [ch0 [-> _]]]]]]; eexists; reflexivity. }
    cbn [item nth_error bind]. rewrite R. cbn [bind]. eexists. split; [reflexivity|]. intros w.
    destruct (text_eqb r0 (tx "a normal completion containing {VALUE_DESCRIPTION}")) eqn:X.
    + apply text_eqb_eq in X. subst r0. assert (C1 : completion_first (c :: ch)) by (apply CF; eauto). split; [intros [| | |]; tauto | intros ->; now constructor].
    + assert (C1 : ~ completion_first (c :: ch)). { intros C1. apply CF in C1. destruct C1 as [c' [rest [E E2]]]. assert (c' = c) by congruence. subst c'. rewrite R in E2. assert (Y : r0 = tx "a normal completion containing {VALUE_DESCRIPTION}") by congruence. rewrite Y, teqb_refl in X. discriminate. }
      split; [intros [| | |]; tauto | intros ->; now constructor].
Qed.
Lemma disjunction_fun root q s ch w gl gr s' ch' w' gl' gr' :
  disjunction root q s ch w gl gr -> disjunction root q s' ch' w' gl' gr' -> s = s' /\ ch = ch' /\ w = w' /\ gl = gl' /\ gr = gr'.
Proof.
  intros D D'. destruct D as [q0 i j gl gr gs ge gch pr ps pe pch r s e ch w A1 A2 A3 I].
  inversion D' as [q0' i' j' gl2 gr2 gs' ge' gch' pr' ps' pe' pch' r' s2 e' ch2 w2 B1 B2 B3 I' E]; subst.
  apply app_inj_tail in E. destruct E as [E ->]. apply app_inj_tail in E. destruct E as [-> ->].
  pose proof (at_fun _ _ _ A1 _ B1) as X1. pose proof (at_fun _ _ _ A2 _ B2) as X2. pose proof (at_fun _ _ _ A3 _ B3) as X3.
  injection X1; injection X2; injection X3; intros; subst. apply introduced_ok in I, I'. repeat split; auto. exact (eq_trans (eq_sym (proj2 I)) (proj2 I')).
Qed.
Theorem descs_exact root : descs_formed root -> exists ms, check_value_descriptions root = Ok ms /\ reports (desc_fault root) ms.
Proof.
  intros F. unfold check_value_descriptions. apply reports_of.
  2:{ intros q l [s [ch [w [gl [gr [l1 [l2 [want [D _]]]]]]]]]. destruct D. do 5 eexists. eassumption. }
  intros q v [A [[l [r [s [e [ch E]]]]] [I [c [C A0]]]]]. rewrite E in A. rewrite app_nil_r in A0. unfold check_desc. rewrite E. cbn [lhs_of bind].
  destruct (text_eqb l disj) eqn:L.
  - apply text_eqb_eq in L. subst l. destruct (F q r s e ch A) as [NE [T [w [gl [gr [D PD]]]]]].
    assert (DD := D). inversion D as [q0 i j gl0 gr0 gs ge gch pr ps pe pch r' s' e' ch' w0 A1 A2 A3 IN Q0 Q1 Q2 Q3 Q4 Q5]. subst gl0 gr0 w0 s' ch' q.
    unfold check_disjunction. rewrite E. cbn [ch_of bind]. destruct (terms_kinds ch T) as [ks [KE K]]. rewrite KE. cbn [bind].
    rewrite A0. destruct (chain_parent _ _ _ _ C) as [p [a [-> [P1 C1]]]]. destruct (chain_parent _ _ _ _ C1) as [g [a' [-> [P2 _]]]].
    rewrite (at_fun _ _ _ P1 _ A2), (at_fun _ _ _ P2 _ A1).
    destruct (introduced_ok _ _ IN) as [SU PR]. destruct (wanted_ok gl gr ch ks NE T K PD) as [want [WE W]].
    assert (O := order_iff ch ks K). assert (LT := letters_kinds ch ks K).
    set (l1 := if multis_first ks then [] else [(s, tx "In a VAL_DESC_DISJUNCTION, the multi-valued terms should come before the single-valued terms, but here the terms are '" ++ map kind_char ks ++ tx "'")]).
    set (l2 := if text_eqb w want then [] else [(s, tx "this VAL_DESC_DISJUNCTION should be preceded by '" ++ want ++ tx "' rather than '" ++ w ++ tx "'")]).
    assert (OP : forall l, order_part s ch l <-> l = l1).
    { intros l. unfold order_part, l1. destruct (multis_first ks).
      - assert (~ out_of_order ch) by (now apply O). split; [intros [[X _] | [_ X]]; tauto | intros ->; right; auto].
      - assert (OO : out_of_order ch). { clear - O K. destruct (list_eq_dec Bool.bool_dec ks []) as [-> | _].
          - exfalso. inversion K; subst. assert (X : false = true); [|discriminate]. apply O. intros [i [j [a [b [_ [X _]]]]]]. destruct i; discriminate.
          - assert (M : multis_first ks = false). { destruct (multis_first ks) eqn:M; auto. apply (proj1 (order_iff ch ks K)) in M. apply O in M. discriminate. }
            assert (G : exists i j, i < j /\ nth_error ks i = Some false /\ nth_error ks j = Some true).
            { clear - M. induction ks as [|[|] ks IH]; cbn [multis_first] in M; [discriminate| |].
              - destruct (IH M) as [i [j [X Y]]]. exists (S i), (S j). split; [lia | exact Y].
              - assert (B : exists b, In b ks /\ b = true).
                { clear IH. induction ks as [|[|] ks IH]; cbn in M; [discriminate|exists true; split; [now left | reflexivity]|]. destruct (IH M) as [b [B1 B2]]. exists b. split; [now right | exact B2]. }
                destruct B as [b [B ->]]. apply In_nth_error in B. destruct B as [j B]. exists 0, (S j). split; [lia | auto]. }
            destruct G as [i [j [L [A B]]]]. destruct (kinds_nth' _ _ K _ _ A) as [a [X [X1 X2]]]. destruct (kinds_nth' _ _ K _ _ B) as [b [Y [Y1 Y2]]].
            exists i, j, a, b. repeat split; auto; [now apply X2 | now apply Y1]. }
        split.
        + intros [[_ [sm [S0 ->]]] | [X _]]; [|tauto]. apply LT in S0. subst sm. reflexivity.
        + intros ->. left. split; auto. eexists. split; [apply LT; reflexivity | reflexivity]. }
    assert (WP : forall l, word_part s w want l <-> l = l2).
    { intros l. unfold word_part, l2. destruct (text_eqb w want) eqn:X.
      - apply text_eqb_eq in X. split; [intros [[Y _] | [_ Y]]; tauto | intros ->; right; auto].
      - assert (w <> want) by (intros ->; rewrite teqb_refl in X; discriminate). split; [intros [[_ Y] | [Y _]]; tauto | intros ->; left; auto]. }
    exists (l1 ++ l2). split.
    + cbn [lhs_of rhs_of bind]. change (text_eqb (tx "{VALUE_DESCRIPTION}") (tx "{VALUE_DESCRIPTION}")) with true. rewrite SU. cbn [assert_ bind]. rewrite WE, PR. cbn [bind].
      unfold l1, l2. destruct (multis_first ks); cbn [msg_at_node posn_of bind]; destruct (text_eqb w want); reflexivity.
    + intros l'. split.
      * intros [s1 [ch1 [w1 [gl1 [gr1 [m1 [m2 [want1 [D1 [W1 [O1 [WP1 [-> N1]]]]]]]]]]]]].
        destruct (disjunction_fun _ _ _ _ _ _ _ _ _ _ _ _ DD D1) as [<- [<- [<- [<- <-]]]]. apply W in W1. subst want1. apply OP in O1. apply WP in WP1. subst. auto.
      * intros [-> N1]. exists s, ch, w, gl, gr, l1, l2, want. repeat split; auto; [now apply W | now apply OP | now apply WP].
  - exists []. split; [reflexivity|]. intros l'. split; [|tauto]. intros [s1 [ch1 [w1 [gl1 [gr1 [m1 [m2 [want1 [D1 _]]]]]]]]]. destruct D1.
    match goal with B : at_path root _ (Node (tx "{VAL_DESC_DISJUNCTION}") _ _ _ _) |- _ => pose proof (at_fun _ _ _ A _ B) as Y end.
    injection Y; intros; subst. unfold disj in L. rewrite teqb_refl in L. discriminate.
Qed.
