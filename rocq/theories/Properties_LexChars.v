(* C83: which characters a symbol of the lexical grammar matches. *)
From Coq Require Import Ascii String.
From Verif Require Import M_Base L_Base M_HTML M_Shared M_Expand M_Mathnum L_Mathnum M_Values M_LexChars L_LexChars.
Open Scope list_scope.
Open Scope nat_scope.
Notation length := List.length.

(* ---------- the sets that are gathered from the grammar ---------- *)
Theorem C83_char_set prods fuel name s : char_set prods fuel name = Ok s -> forall t, In t s <-> derives prods name t.
Proof. apply char_set_ok. Qed.
Theorem C83_sets prods fuel d : gather_char_sets prods fuel = Ok d ->
  (forall n, (exists s, assoc n d = Some s) <-> In n [tx "LineTerminator"; tx "EscapeCharacter"; tx "HexDigit"; tx "OctalDigit"; tx "SyntaxCharacter"]) /\
  forall n s t, assoc n d = Some s -> (In t s <-> derives prods n t).
Proof.
  intros H. destruct (gather_ok prods fuel set_names d H) as (A & B). split; [exact A|]. intros n s t E. apply B in E. now apply (char_set_ok prods fuel).
Qed.
(* They are found if everything reached is well defined and nothing leads back to itself, however deep it goes, if Python allows that depth. *)
Theorem C83_gathers prods rank fuel : (forall n m, In n [tx "LineTerminator"; tx "EscapeCharacter"; tx "HexDigit"; tx "OctalDigit"; tx "SyntaxCharacter"] -> reach prods n m -> well_defined prods rank m /\ rank m < fuel) ->
  exists d, gather_char_sets prods fuel = Ok d.
Proof.
  unfold gather_char_sets. change [tx "LineTerminator"; tx "EscapeCharacter"; tx "HexDigit"; tx "OctalDigit"; tx "SyntaxCharacter"] with set_names. generalize set_names. induction l as [|n l IH]; intros H; cbn [gather]; [now exists []|].
  destruct (char_set_total prods rank fuel n) as (s & S); [apply (H n n); [now left|constructor]|intros m M; apply (H n m); [now left|assumption]|]. rewrite S. cbn [bind]. destruct IH as (d & D); [intros a b I; apply H; now right|]. rewrite D. cbn [bind]. eexists. reflexivity.
Qed.
Theorem C83_words prods fuel s : gather_ReservedWords prods fuel = Ok s -> forall t, In t s <-> derives_lit prods (tx "ReservedWord") t.
Proof. apply words_ok. Qed.

(* ---------- the characters that a symbol matches ---------- *)
Theorem C83_matches category prods fuel d r c b : ucd category -> gather_char_sets prods fuel = Ok d -> sym_matches category d r c = Ok b ->
  (b = true <-> stands_for category (derives prods) r c).
Proof.
  intros U G. destruct (C83_sets prods fuel d G) as (A & B). now apply (sym_exact category (derives prods) d B).
Qed.
Theorem C83_answers category prods fuel d r c : gather_char_sets prods fuel = Ok d ->
  ((exists b, sym_matches category d r c = Ok b) <-> askable [tx "LineTerminator"; tx "EscapeCharacter"; tx "HexDigit"; tx "OctalDigit"; tx "SyntaxCharacter"] r).
Proof. intros G. destruct (C83_sets prods fuel d G) as (A & B). now apply (sym_total category d _ A). Qed.
(* The parser takes U+2E2F, a letter by its category, for the start of an identifier, though it has neither property. *)
Theorem C83_tilde_refuted category d : letter (category 11823%N) -> sym_matches category d (RProp (tx "ID_Start")) 11823 = Ok true /\ sym_matches category d (RProp (tx "ID_Continue")) 11823 = Ok false /\ ~ ID_Start category 11823 /\ ~ ID_Continue category 11823.
Proof.
  intros L. split; [|split; [|split]].
  - change (Ok (tmem (category 11823%N) letters || cmem 11823 other_id_start) = Ok true). f_equal. apply orb_true_iff. left. now apply letters_iff.
  - change (Ok ((tmem (category 11823%N) (letters ++ marks) || cmem 11823 other_id_start || cmem 11823 other_id_continue) && negb (11823 =? 11823)%N) = Ok false). now rewrite N.eqb_refl, andb_false_r.
  - intros (_ & N & _). apply N, tilde_syntax.
  - intros (_ & N & _). apply N, tilde_syntax.
Qed.

(* ---------- constraints ---------- *)
(* a thing after but not, and one in a lookahead, as a symbol *)
Inductive b_sym : bthing -> rsym -> Prop :=
| bs_nt n : b_sym (B_NT n) (RNT n)
| bs_named n : b_sym (B_named n) (RNamed n)
| bs_lit c : b_sym (B_lit c) (RLit c).
Inductive l_sym : lthing -> rsym -> Prop :=
| ls_lit c : l_sym (L_lit c) (RLit c)
| ls_named n : l_sym (L_named n) (RNamed n).
Lemma b_sym_iff x r : b_sym x r <-> r = of_b x.
Proof. split; [now intros []|intros ->; destruct x; constructor]. Qed.
Lemma l_sym_iff category D l c : stands_for category D (of_l l) c <-> exists r, l_sym l r /\ stands_for category D r c.
Proof.
  split; [|intros (r & [] & S); exact S]. intros S. exists (of_l l). split; [|exact S]. destruct l; try constructor. cbn [of_l] in S. inversion S.
Qed.
Theorem C83_but_not category prods fuel d sym c next bs b : ucd category -> gather_char_sets prods fuel = Ok d ->
  check_constraint category d sym [c] next (X_but_not bs) = Ok b -> (b = true <-> forall x r, In x bs -> b_sym x r -> ~ stands_for category (derives prods) r c).
Proof.
  intros U G. cbn [check_constraint any_sym_matches]. destruct (any_ _ (map of_b bs)) as [m|] eqn:M; cbn [bind]; [|discriminate]. intros H. injection H as <-.
  assert (K : m = true <-> exists r, In r (map of_b bs) /\ stands_for category (derives prods) r c) by (apply (any_iff _ _ _ (fun r b' _ => C83_matches category prods fuel d r c b' U G) m M)).
  rewrite (neg_iff _ _ K). split.
  - intros N x r I B S. apply b_sym_iff in B. subst r. apply N. exists (of_b x). split; [now apply in_map|assumption].
  - intros N (r & I & S). apply in_map_iff in I. destruct I as (x & <- & I). apply (N x (of_b x)); [assumption|now apply b_sym_iff|assumption].
Qed.
Theorem C83_but_not_answers category prods fuel d sym t next bs : gather_char_sets prods fuel = Ok d -> (forall x r, In x bs -> b_sym x r -> askable [tx "LineTerminator"; tx "EscapeCharacter"; tx "HexDigit"; tx "OctalDigit"; tx "SyntaxCharacter"] r) ->
  ((exists b, check_constraint category d sym t next (X_but_not bs) = Ok b) <-> length t = 1).
Proof.
  intros G A. cbn [check_constraint]. destruct t as [|c [|e t]]; cbn [any_sym_matches]; [split; [intros (b & B); discriminate|discriminate]| |split; [intros (b & B); discriminate|discriminate]].
  split; [reflexivity|]. intros _. destruct (any_total (fun r => sym_matches category d r c) (map of_b bs)) as (b & B).
  - intros r I. apply in_map_iff in I. destruct I as (x & <- & I). apply (C83_answers category prods fuel d _ c G). apply (A x); [assumption|now apply b_sym_iff].
  - rewrite B. cbn [bind]. eexists. reflexivity.
Qed.
(* lookahead *)
Theorem C83_lookahead category prods fuel d sym t next matches ls b : ucd category -> gather_char_sets prods fuel = Ok d ->
  check_constraint category d sym t next (X_lookahead matches (map (fun l => [l]) ls)) = Ok b ->
  ((b = matches) <-> exists c l r, next = Some c /\ In l ls /\ l_sym l r /\ stands_for category (derives prods) r c).
Proof.
  intros U G. cbn [check_constraint]. destruct next as [c|]; cbn [bind].
  - destruct (any_ _ (map (fun l => [l]) ls)) as [m|] eqn:M; cbn [bind]; [|discriminate]. intros H. apply ok_inj in H. subst b.
    assert (K : m = true <-> exists ts, In ts (map (fun l => [l]) ls) /\ exists l, ts = [l] /\ stands_for category (derives prods) (of_l l) c).
    { refine (any_iff _ _ _ _ m M). intros ts b' I E. apply in_map_iff in I. destruct I as (l & <- & I). rewrite (C83_matches category prods fuel d _ c b' U G E). split; [intros S; now exists l|]. intros (l' & Q & S). injection Q as <-. assumption. }
    transitivity (m = true).
    + destruct m, matches; cbn [negb]; split; congruence.
    + rewrite K. split.
      * intros (ts & I & l & -> & S). apply in_map_iff in I. destruct I as (l' & Q & I). injection Q as ->. apply l_sym_iff in S. destruct S as (r & L & S). now exists c, l, r.
      * intros (c' & l & r & Q & I & L & S'). injection Q as <-. assert (S : stands_for category (derives prods) (of_l l) c) by (apply l_sym_iff; now exists r). exists [l]. split; [now apply in_map with (f := fun l => [l])|now exists l].
  - intros H. apply ok_inj in H. subst b. split; [destruct matches; discriminate|]. intros (c & l & r & Q & _). discriminate.
Qed.
(* numeric conditions on what the digits before them mean *)
Lemma hex_value_iff t v : hex_value t = Ok v <-> t <> [] /\ notation 16 t v.
Proof.
  unfold hex_value. rewrite <- int_of_iff. destruct t as [|c t]; [split; [discriminate|intros (H & _); congruence]|]. destruct (int_of 16 0 (c :: t)); split; try (intros (_ & H)); intros; split || idtac; congruence.
Qed.
Theorem C83_digits category d t next v b : t <> [] -> notation 16 t v ->
  (check_constraint category d (Some (tx "HexDigits")) t next (X_but_only_if (tx "the MV of |HexDigits| &le; 0x10FFFF")) = Ok b -> (b = true <-> (v <= 1114111)%Z)) /\
  (check_constraint category d (Some (tx "HexDigits")) t next (X_but_only_if (tx "the MV of |HexDigits| > 0x10FFFF")) = Ok b -> (b = true <-> (v > 1114111)%Z)).
Proof.
  intros T N. assert (V : hex_value t = Ok v) by (apply hex_value_iff; now split). split.
  - change (check_constraint category d (Some (tx "HexDigits")) t next (X_but_only_if (tx "the MV of |HexDigits| &le; 0x10FFFF"))) with (bind (hex_value t) (fun v => Ok (v <=? 1114111)%Z)). rewrite V. cbn [bind]. intros H. apply ok_inj in H. subst b. rewrite Z.leb_le. lia.
  - change (check_constraint category d (Some (tx "HexDigits")) t next (X_but_only_if (tx "the MV of |HexDigits| > 0x10FFFF"))) with (bind (hex_value t) (fun v => Ok (1114111 <? v)%Z)). rewrite V. cbn [bind]. intros H. apply ok_inj in H. subst b. rewrite Z.ltb_lt. lia.
Qed.
Theorem C83_surrogates category d t next v : t <> [] -> notation 16 t v -> exists lead trail neither,
  check_constraint category d (Some (tx "Hex4Digits")) t next (X_but_only_if (tx "the MV of |Hex4Digits| is in the inclusive interval from 0xD800 to 0xDBFF")) = Ok lead /\
  check_constraint category d (Some (tx "Hex4Digits")) t next (X_but_only_if (tx "the MV of |Hex4Digits| is in the inclusive interval from 0xDC00 to 0xDFFF")) = Ok trail /\
  check_constraint category d (Some (tx "Hex4Digits")) t next (X_but_only_if (tx "the MV of |Hex4Digits| is not in the inclusive interval from 0xD800 to 0xDFFF")) = Ok neither /\
  (lead = true <-> (55296 <= v <= 56319)%Z) /\ (trail = true <-> (56320 <= v <= 57343)%Z) /\ (neither = true <-> (v < 55296 \/ 57343 < v)%Z) /\
  (* exactly one of them *)
  ((lead = true /\ trail = false /\ neither = false) \/ (lead = false /\ trail = true /\ neither = false) \/ (lead = false /\ trail = false /\ neither = true)).
Proof.
  intros T N. assert (V : hex_value t = Ok v) by (apply hex_value_iff; now split).
  exists ((55296 <=? v) && (v <=? 56319))%Z, ((56320 <=? v) && (v <=? 57343))%Z, (negb ((55296 <=? v) && (v <=? 57343)))%Z.
  split; [change (bind (hex_value t) (fun v => Ok ((55296 <=? v) && (v <=? 56319))%Z) = Ok ((55296 <=? v) && (v <=? 56319))%Z); now rewrite V|].
  split; [change (bind (hex_value t) (fun v => Ok ((56320 <=? v) && (v <=? 57343))%Z) = Ok ((56320 <=? v) && (v <=? 57343))%Z); now rewrite V|].
  split; [change (bind (hex_value t) (fun v => Ok (negb ((55296 <=? v) && (v <=? 57343)))%Z) = Ok (negb ((55296 <=? v) && (v <=? 57343)))%Z); now rewrite V|].
  destruct (Z.leb_spec 55296 v), (Z.leb_spec v 56319), (Z.leb_spec 56320 v), (Z.leb_spec v 57343); cbn [andb negb]; try lia; intuition (try lia; try discriminate).
Qed.

(* ---------- the same question asked by pseudocode ---------- *)
Theorem C83_property category c :
  (exists b, has_property category c (tx "ID_Start") = Ok b /\ (b = true <-> ID_Start category c)) /\
  (exists b, has_property category c (tx "ID_Continue") = Ok b /\ (b = true <-> ID_Continue category c)).
Proof. split; eexists; (split; [reflexivity|]); [apply id_start_iff|apply id_continue_iff]. Qed.
Section Written.
  Variable category : N -> text.
  Variable wprods : list (text * list wrhs).
  (* a character that a nonterminal of the grammar, as the document has it, derives through right-hand sides with one item *)
  Inductive wderives : text -> N -> Prop :=
  | wd_nt name rhss n c : assoc name wprods = Some rhss -> In (WLine [R_sym (S_GNT n [])]) rhss -> wderives n c -> wderives name c
  | wd_lit name rhss c : assoc name wprods = Some rhss -> In (WLine [R_sym (S_lit [c])]) rhss -> wderives name c
  | wd_start name rhss c : assoc name wprods = Some rhss -> In (WLine [R_U_PROP (tx "ID_Start")]) rhss -> ID_Start category c -> wderives name c
  | wd_continue name rhss c : assoc name wprods = Some rhss -> In (WLine [R_U_PROP (tx "ID_Continue")]) rhss -> ID_Continue category c -> wderives name c
  | wd_zwnj name rhss : assoc name wprods = Some rhss -> In (WLine [R_sym (S_char (tx "ZWNJ"))]) rhss -> wderives name 8204
  | wd_zwj name rhss : assoc name wprods = Some rhss -> In (WLine [R_sym (S_char (tx "ZWJ"))]) rhss -> wderives name 8205.
  Lemma matches_nt_iff : forall fuel c name b, char_matches_nt category wprods fuel c name = Ok b -> (b = true <-> wderives name c).
  Proof.
    induction fuel as [|fuel IH]; intros c name b H; [discriminate|]. cbn [char_matches_nt] in H. destruct (assoc name wprods) as [rhss|] eqn:A; [|discriminate].
    transitivity (exists rhs, In rhs rhss /\ ((exists n, rhs = WLine [R_sym (S_GNT n [])] /\ wderives n c) \/ rhs = WLine [R_sym (S_lit [c])] \/ (rhs = WLine [R_U_PROP (tx "ID_Start")] /\ ID_Start category c) \/ (rhs = WLine [R_U_PROP (tx "ID_Continue")] /\ ID_Continue category c) \/ (rhs = WLine [R_sym (S_char (tx "ZWNJ"))] /\ c = 8204%N) \/ (rhs = WLine [R_sym (S_char (tx "ZWJ"))] /\ c = 8205%N))).
    - refine (any_iff _ _ _ _ b H). intros rhs b' I E. clear H I A. destruct rhs as [[|[| |[n [|? ?]|s|n]|?|p|? ?| |? ?|? ?|?| |?] [|y items]]|?]; try discriminate.
      + rewrite (IH _ _ _ E). split; [intros D; left; now exists n|]. intros [(n' & Q & D)|[Q|[(Q & _)|[(Q & _)|[(Q & _)|(Q & _)]]]]]; try discriminate. injection Q as <-. assumption.
      + apply ok_inj in E. subst b'. rewrite text_eqb_eq. split; [intros <-; right; now left|]. intros [(n' & Q & D)|[Q|[(Q & _)|[(Q & _)|[(Q & _)|(Q & _)]]]]]; try discriminate. now injection Q as ->.
      + unfold zw_named in E. destruct (text_eqb n (tx "ZWNJ")) eqn:E1.
        { cbn [bind] in E. apply ok_inj in E. subst b'. apply text_eqb_eq in E1. subst n. rewrite N.eqb_eq. split; [intros ->; do 4 right; left; now split|]. intros [(n' & Q & D)|[Q|[(Q & _)|[(Q & _)|[(Q & C)|(Q & _)]]]]]; try discriminate. assumption. }
        destruct (text_eqb n (tx "ZWJ")) eqn:E2; [|discriminate]. cbn [bind] in E. apply ok_inj in E. subst b'. apply text_eqb_eq in E2. subst n. rewrite N.eqb_eq. split; [intros ->; do 5 right; now split|]. intros [(n' & Q & D)|[Q|[(Q & _)|[(Q & _)|[(Q & C)|(Q & C)]]]]]; try discriminate. assumption.
      + unfold has_property in E. destruct (text_eqb p (tx "ID_Start")) eqn:E1.
        { apply ok_inj in E. subst b'. apply text_eqb_eq in E1. subst p. rewrite id_start_iff. split; [intros S; right; right; left; now split|]. intros [(n' & Q & D)|[Q|[(Q & S)|[(Q & S)|[(Q & C)|(Q & _)]]]]]; try discriminate. assumption. }
        destruct (text_eqb p (tx "ID_Continue")) eqn:E2; [|discriminate]. apply ok_inj in E. subst b'. apply text_eqb_eq in E2. subst p. rewrite id_continue_iff. split; [intros S; do 3 right; left; now split|]. intros [(n' & Q & D)|[Q|[(Q & S)|[(Q & S)|[(Q & C)|(Q & _)]]]]]; try discriminate. assumption.
    - split.
      + intros (rhs & I & [(n & -> & D)|[->|[(-> & S)|[(-> & S)|[(-> & ->)|(-> & ->)]]]]]).
        * now apply wd_nt with rhss n.
        * now apply wd_lit with rhss.
        * now apply wd_start with rhss.
        * now apply wd_continue with rhss.
        * now apply wd_zwnj with rhss.
        * now apply wd_zwj with rhss.
      + intros D. destruct D as [name rhss' n c A' I D|name rhss' c A' I|name rhss' c A' I S|name rhss' c A' I S|name rhss' A' I|name rhss' A' I]; rewrite A in A'; injection A' as <-; (eexists; split; [exact I|]); [left; now exists n|right; now left|right; right; left; now split|do 3 right; left; now split|do 4 right; left; now split|do 5 right; now split].
  Qed.
End Written.
Theorem C83_pseudocode category wprods fuel c name b : not_matched_cond category wprods fuel c name = Ok b -> (b = true <-> ~ wderives category wprods name c).
Proof.
  unfold not_matched_cond. destruct (char_matches_nt category wprods fuel c name) as [m|] eqn:M; cbn [bind]; [|discriminate]. intros H. apply ok_inj in H. subst b. apply neg_iff. now apply matches_nt_iff with fuel.
Qed.
(* A production with one of makes the question fail. *)
Theorem C83_one_of_refuted category wprods fuel c name s rest : assoc name wprods = Some (WLiteral s :: rest) -> not_matched_cond category wprods (S fuel) c name = Err AssertionError.
Proof. intros A. unfold not_matched_cond. cbn [char_matches_nt]. rewrite A. reflexivity. Qed.

(* The parser and the pseudocode agree on the characters of a nonterminal, except on U+2E2F: over grammars that correspond to each other, with productions of one symbol and without named characters. *)
Section Agree.
  Variable category : N -> text.
  Variable char_set_ : list (text * list text).
  Variable wprods : list (text * list wrhs).
  Variable prods : list exprod.
  Definition expands (w : wrhs) (x : xthing) : Prop :=
    (exists n, w = WLine [R_sym (S_GNT n [])] /\ x = X_NT n) \/ (exists c, w = WLine [R_sym (S_lit [c])] /\ x = X_lit [c]) \/ exists p, (p = tx "ID_Start" \/ p = tx "ID_Continue") /\ w = WLine [R_U_PROP p] /\ x = X_u_p p.
  Definition corresponds : Prop :=
    (forall name rhss w, assoc name wprods = Some rhss -> In w rhss -> exists p x, In p prods /\ ex_lhs p = name /\ ex_rhs p = [x] /\ expands w x) /\
    (forall p, In p prods -> exists rhss w x, assoc (ex_lhs p) wprods = Some rhss /\ In w rhss /\ ex_rhs p = [x] /\ expands w x).
  (* what the parser accepts as one character for a nonterminal *)
  Inductive accepts : text -> N -> Prop :=
  | ac_nt p n c : In p prods -> ex_rhs p = [X_NT n] -> accepts n c -> accepts (ex_lhs p) c
  | ac_lit p s c : In p prods -> ex_rhs p = [X_lit s] -> sym_matches category char_set_ (RLit s) c = Ok true -> accepts (ex_lhs p) c
  | ac_prop p u c : In p prods -> ex_rhs p = [X_u_p u] -> sym_matches category char_set_ (RProp u) c = Ok true -> accepts (ex_lhs p) c.
  Lemma prop_agrees p c : ucd category -> p = tx "ID_Start" \/ p = tx "ID_Continue" -> c <> 11823%N -> sym_matches category char_set_ (RProp p) c = has_property category c p.
  Proof.
    intros U P NE. assert (K : forall b b' (Q : Prop), (b = true <-> Q) -> (b' = true <-> Q) -> b = b') by (intros [|] [|] Q B B'; try reflexivity; destruct B as (B1 & B2), B' as (B1' & B2'); [symmetry; auto|auto]).
    destruct P as [->| ->].
    - change (Ok (tmem (category c) letters || cmem c other_id_start) = Ok (id_start category c)). f_equal. apply (K _ _ (ID_Start category c)); [|apply id_start_iff]. rewrite orb_true_iff, letters_iff, start_iff. unfold ID_Start. split; [|tauto]. intros S. split; [assumption|]. destruct S as [S|S]; [|apply others_apart; now left]. split; intros Q; destruct (U c) as (L & _); tauto.
    - change (Ok ((tmem (category c) (letters ++ marks) || cmem c other_id_start || cmem c other_id_continue) && negb (c =? 11823)%N) = Ok (id_continue category c)). f_equal. apply (K _ _ (ID_Continue category c)); [|apply id_continue_iff]. rewrite andb_true_iff, !orb_true_iff, lm_iff, start_iff, continue_iff, negb_true_iff, N.eqb_neq. unfold ID_Continue, ID_Start. split; [|tauto]. intros (S & _). assert (A : ~ Pattern_Syntax c /\ ~ Pattern_White_Space c) by (destruct S as [[[L|M]|S]|S]; try (apply others_apart; tauto); split; intros Q; destruct (U c) as (L' & M'); tauto). tauto.
  Qed.
  Lemma has_true p c : has_property category c p = Ok true -> (p = tx "ID_Start" /\ ID_Start category c) \/ (p = tx "ID_Continue" /\ ID_Continue category c).
  Proof.
    unfold has_property. destruct (text_eqb p (tx "ID_Start")) eqn:E1; [intros H; apply ok_inj in H; left; split; [now apply text_eqb_eq|now apply id_start_iff]|]. destruct (text_eqb p (tx "ID_Continue")) eqn:E2; [|discriminate]. intros H; apply ok_inj in H; right; split; [now apply text_eqb_eq|now apply id_continue_iff].
  Qed.
  Lemma agree name c : ucd category -> corresponds -> c <> 11823%N -> (accepts name c <-> wderives category wprods name c).
  Proof.
    intros U (CW & CP) NE. split.
    - induction 1 as [p n c I R _ IH|p s c I R M|p u c I R M]; destruct (CP p I) as (rhss & w & x & A & IW & RX & E); rewrite R in RX; injection RX as <-; destruct E as [(n' & W & X)|[(d & W & X)|(q & Q & W & X)]]; try discriminate; injection X as ->; subst w.
      + apply wd_nt with rhss n'; try assumption. now apply IH.
      + cbn [sym_matches] in M. apply ok_inj in M. apply N.eqb_eq in M. subst d. now apply wd_lit with rhss.
      + rewrite (prop_agrees q c U Q NE) in M. apply has_true in M. destruct M as [(-> & S)|(-> & S)]; [now apply wd_start with rhss|now apply wd_continue with rhss].
    - induction 1 as [name rhss n c A I _ IH|name rhss c A I|name rhss c A I S|name rhss c A I S|name rhss A I|name rhss A I]; destruct (CW name rhss _ A I) as (p & x & IP & <- & R & E); destruct E as [(n' & W & X)|[(d & W & X)|(q & Q & W & X)]]; try discriminate.
      + injection W as <-. subst x. apply ac_nt with n; try assumption. now apply IH.
      + injection W as <-. subst x. apply ac_lit with [c]; try assumption. cbn [sym_matches]. now rewrite N.eqb_refl.
      + assert (Q' : q = tx "ID_Start") by congruence. subst q x. apply ac_prop with (tx "ID_Start"); try assumption. rewrite prop_agrees by auto. destruct (C83_property category c) as ((b & B & K) & _). rewrite B. f_equal. now apply K.
      + assert (Q' : q = tx "ID_Continue") by congruence. subst q x. apply ac_prop with (tx "ID_Continue"); try assumption. rewrite prop_agrees by auto. destruct (C83_property category c) as (_ & (b & B & K)). rewrite B. f_equal. now apply K.
  Qed.
End Agree.
Theorem C83_agree category char_set_ wprods prods name c fuel b : ucd category -> corresponds wprods prods -> c <> 11823%N ->
  not_matched_cond category wprods fuel c name = Ok b -> (b = true <-> ~ accepts category char_set_ prods name c).
Proof. intros U C NE H. rewrite (C83_pseudocode category wprods fuel c name b H). now rewrite (agree category char_set_ wprods prods name c U C NE). Qed.
Theorem C83_agree_refuted category char_set_ : letter (category 11823%N) -> exists wprods prods name, corresponds wprods prods /\ accepts category char_set_ prods name 11823 /\ not_matched_cond category wprods 1 11823 name = Ok true.
Proof.
  intros L. exists [(tx "UnicodeIDStart", [WLine [R_U_PROP (tx "ID_Start")]])], [mkEx (tx "UnicodeIDStart") [X_u_p (tx "ID_Start")] (tx "UnicodeIDStart") [] []], (tx "UnicodeIDStart"). split; [split|split].
  - intros name rhss w A I. cbn [assoc] in A. destruct (text_eqb name (tx "UnicodeIDStart")) eqn:E; [|discriminate]. injection A as <-. destruct I as [<-|[]]. apply text_eqb_eq in E. subst. do 2 eexists. split; [now left|]. split; [reflexivity|]. split; [reflexivity|]. right. right. eexists. split; [left; reflexivity|]. now split.
  - intros p [<-|[]]. do 3 eexists. split; [reflexivity|]. split; [now left|]. split; [reflexivity|]. right. right. eexists. split; [left; reflexivity|]. now split.
  - apply (ac_prop category char_set_ _ (mkEx (tx "UnicodeIDStart") [X_u_p (tx "ID_Start")] (tx "UnicodeIDStart") [] []) (tx "ID_Start")); [now left|reflexivity|]. now apply C83_tilde_refuted.
  - assert (H : id_start category 11823 = false) by (destruct (id_start category 11823) eqn:E; [apply id_start_iff in E; now destruct (C83_tilde_refuted category char_set_ L) as (_ & _ & N & _)|reflexivity]).
    unfold not_matched_cond. cbn [char_matches_nt assoc]. rewrite text_eqb_refl. cbn [any_]. change (has_property category 11823 (tx "ID_Start")) with (Ok (id_start category 11823)). now rewrite H.
Qed.
Print Assumptions C83_char_set.
Print Assumptions C83_sets.
Print Assumptions C83_gathers.
Print Assumptions C83_words.
Print Assumptions C83_matches.
Print Assumptions C83_answers.
Print Assumptions C83_tilde_refuted.
Print Assumptions C83_but_not.
Print Assumptions C83_but_not_answers.
Print Assumptions C83_lookahead.
Print Assumptions C83_digits.
Print Assumptions C83_surrogates.
Print Assumptions C83_property.
Print Assumptions C83_pseudocode.
Print Assumptions C83_one_of_refuted.
Print Assumptions C83_agree.
Print Assumptions C83_agree_refuted.

(* ---------- examples ---------- *)
Definition ex (l : string) (x : xthing) := mkEx (tx l) [x] (tx l) [] [].
Definition g := [ex "LineTerminator" (X_named (tx "LF")); ex "LineTerminator" (X_named (tx "LS")); ex "EscapeCharacter" (X_lit (tx "b")); ex "EscapeCharacter" (X_NT (tx "OctalDigit")); ex "HexDigit" (X_lit (tx "f")); ex "OctalDigit" (X_lit (tx "7")); ex "SyntaxCharacter" (X_lit (tx "^"));
                 ex "ReservedWord" (X_lit (tx "if"))].
(* all characters up to U+2FFF are letters except for the ones of patterns, U+2E2F being one *)
Definition cat (c : N) : text := if (c =? 11823)%N then tx "Lm" else if in_ranges c pattern_syntax || cmem c pattern_white_space then tx "Po" else if (c =? 160)%N then tx "Zs" else tx "Ll".
Lemma ucd_cat : ucd cat.
Proof.
  intros c S NE. assert (C : cat c = tx "Po").
  { unfold cat. destruct (N.eqb_spec c 11823); [contradiction|]. assert (T : in_ranges c pattern_syntax || cmem c pattern_white_space = true) by (apply orb_true_iff; rewrite (syntax_iff cat), white_iff; exact S). now rewrite T. }
  rewrite C. unfold letter, mark. split; intros H; repeat (destruct H as [H|H]); discriminate.
Qed.
Example C83_sets_ex : exists d, gather_char_sets g 3 = Ok d /\ assoc (tx "EscapeCharacter") d = Some [tx "7"; tx "b"] /\ gather_char_sets g 1 = Err OutOfFuel.
Proof. eexists. split; [vm_compute; reflexivity|]. split; vm_compute; reflexivity. Qed.
Example C83_words_ex : gather_ReservedWords g 2 = Ok [tx "if"].
Proof. vm_compute. reflexivity. Qed.
Example C83_gathers_ex : let rank n := if text_eqb n (tx "EscapeCharacter") then 1 else 0 in well_defined g rank (tx "EscapeCharacter") /\ reach g (tx "EscapeCharacter") (tx "OctalDigit").
Proof.
  intros rank. split.
  - split; [exists (ex "EscapeCharacter" (X_lit (tx "b"))); split; [cbn; tauto|reflexivity]|]. intros p I L. cbn [g In] in I. repeat (destruct I as [<-|I]; [try (vm_compute in L; discriminate)|]); [left; now exists (tx "b")|right; right; exists (tx "OctalDigit"); split; [reflexivity|vm_compute; lia]|destruct I].
  - apply (reach_step g (ex "EscapeCharacter" (X_NT (tx "OctalDigit"))) (tx "OctalDigit")); [cbn; tauto|reflexivity|constructor].
Qed.
Example C83_matches_ex : match gather_char_sets g 3 with
  | Ok d => sym_matches cat d (RNT (tx "LineTerminator")) 8232 = Ok true /\ sym_matches cat d (RNamed (tx "USP")) 160 = Ok true /\ sym_matches cat d (RNamed (tx "ZWNJ")) 8204 = Err KeyError /\ sym_matches cat d (RProp (tx "ID_Start")) 11823 = Ok true /\ sym_matches cat d (RNT (tx "DecimalDigit")) 48 = Err AssertionError
  | Err _ => False end.
Proof. vm_compute. repeat split; reflexivity. Qed.
Example C83_constraints_ex : match gather_char_sets g 3 with
  | Ok d => check_constraint cat d None (tx "x") None (X_but_not [B_NT (tx "HexDigit"); B_lit (tx "n")]) = Ok true /\ check_constraint cat d None (tx "f") None (X_but_not [B_NT (tx "HexDigit"); B_lit (tx "n")]) = Ok false /\
            check_constraint cat d None (tx "f") (Some 10%N) (X_lookahead false [[L_named (tx "LF")]]) = Ok false /\ check_constraint cat d None (tx "f") None (X_lookahead false [[L_named (tx "LF")]]) = Ok true /\
            check_constraint cat d (Some (tx "Hex4Digits")) (tx "DAFF") None (X_but_only_if (tx "the MV of |Hex4Digits| is in the inclusive interval from 0xD800 to 0xDBFF")) = Ok true
  | Err _ => False end.
Proof. vm_compute. repeat split; reflexivity. Qed.
Example C83_digits_ex : notation 16 (tx "10FFFF") 1114111 /\ tx "10FFFF" <> [].
Proof. split; [apply int_of_iff; vm_compute; reflexivity|discriminate]. Qed.
Definition w := [(tx "IdentifierStartChar", [WLine [R_sym (S_GNT (tx "UnicodeIDStart") [])]; WLine [R_sym (S_lit (tx "$"))]]); (tx "UnicodeIDStart", [WLine [R_U_PROP (tx "ID_Start")]]); (tx "Digit", [WLiteral (tx "0")])].
Example C83_pseudocode_ex : not_matched_cond cat w 2 97 (tx "IdentifierStartChar") = Ok false /\ not_matched_cond cat w 2 33 (tx "IdentifierStartChar") = Ok true /\ not_matched_cond cat w 2 11823 (tx "IdentifierStartChar") = Ok true /\ not_matched_cond cat w 2 48 (tx "Digit") = Err AssertionError.
Proof. repeat split; vm_compute; reflexivity. Qed.
