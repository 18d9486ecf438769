(* C101: the tables of well-known intrinsics, and what is checked against them. *)
From Coq Require Import Ascii String Lia List.
From Verif Require Import M_Base L_Base M_HTML M_Shared M_Indent M_Defs M_Records M_Refs L_Refs M_Style L_StyleDesc L_ValTree M_Validate L_Validate L_ValNodes M_PropPath L_PropPath Properties_PropPath M_Tables M_Deps L_DepsReach M_Steps Properties_Steps M_Titles Properties_Titles Properties_Preamble M_Wki.
Open Scope list_scope.
Open Scope nat_scope.
Notation length := List.length.

Definition percent (w : text) : text := tx "%" ++ w ++ tx "%".
Definition starred (w : text) : text := tx "*""" ++ w ++ tx """*".

Section Table.
Variable uw : N -> bool.
(* what the last cell says *)
Definition says_phrase (a ph : text) : Prop :=
  ((exists r, a = tx "A function object that " ++ r) \/ (exists r, a = tx "An object that " ++ r)) /\ ph = [] \/
  exists m h, a = tx "The " ++ m ++ tx " (<emu-xref href=""" ++ h ++ tx """></emu-xref>)" /\ m <> [] /\ ~ In 10%N m /\ h <> [] /\ ~ In 34%N h /\ ph = tx "the " ++ m.
(* an entry: the name, whether it is that of a global, and the last cell *)
Record entry := mkEntry { e_word : text; e_global : bool; e_assoc : text; e_phrase : text }.
Definition good_entry (e : entry) : Prop := wordy uw (e_word e) /\ says_phrase (e_assoc e) (e_phrase e).
Definition cells_of (e : entry) : list text := [percent (e_word e); if e_global e then starred (e_word e) else []; e_assoc e].
Definition row_of (e : entry) : wrow := mkWRow (percent (e_word e)) (if e_global e then starred (e_word e) else []) (e_phrase e).
Definition globals_of (es : list entry) : list text := map e_word (filter e_global es).

Lemma word_between_iff a b t w : word_between uw a b t = Some w <-> t = a ++ w ++ b /\ wordy uw w.
Proof.
  unfold word_between, and_then. destruct (between a b t) as [m|] eqn:B.
  - apply between_iff in B. destruct (words uw m) eqn:W.
    + apply words_iff in W. split; [intros [= <-]; auto|]. intros (E & _). f_equal. rewrite E in B. apply app_inv_head, app_inv_tail in B. congruence.
    + split; [discriminate|]. intros (E & W'). rewrite E in B. apply app_inv_head, app_inv_tail in B. subst m. apply words_iff in W'. congruence.
  - split; [discriminate|]. intros (E & _). apply between_iff in E. congruence.
Qed.
Lemma to_quote_iff r : forall a b, to_quote r = (a, Some b) <-> r = a ++ 34%N :: b /\ ~ In 34%N a.
Proof.
  induction r as [|c r IH]; intros a b; cbn [to_quote]; [split; [discriminate|intros (E & _); destruct a; discriminate]|]. destruct (c =? 34)%N eqn:C.
  - apply N.eqb_eq in C. subst c. split; [intros [= <- <-]; auto|]. intros (E & NI). destruct a as [|d a]; [injection E as <-; reflexivity|]. injection E as <- _. exfalso. apply NI. now left.
  - apply N.eqb_neq in C. destruct (to_quote r) as (a', x) eqn:Q. split.
    + intros [= <- ->]. destruct (proj1 (IH a' b) eq_refl) as (-> & NI). split; [reflexivity|]. intros [E|I]; auto.
    + intros (E & NI). destruct a as [|d a]; [injection E; intros; congruence|]. injection E as <- E. assert (X := proj2 (IH a b) (conj E (fun I => NI (or_intror I)))). injection X as -> ->. reflexivity.
Qed.
Lemma the_phrase_iff t m : the_phrase t = Some m <-> exists h, t = tx "The " ++ m ++ tx " (<emu-xref href=""" ++ h ++ tx """></emu-xref>)" /\ m <> [] /\ ~ In 10%N m /\ h <> [] /\ ~ In 34%N h.
Proof.
  unfold the_phrase, and_then. split.
  - destruct (between (tx "The ") _ t) as [u|] eqn:B; [|discriminate]. apply between_iff in B. destruct (to_quote (rev u)) as (h, [r|]) eqn:Q; [|destruct h; discriminate]. destruct h as [|c h]; [discriminate|]. apply to_quote_iff in Q as (Q & NI). destruct (between [] _ (rev r)) as [m'|] eqn:B2; [|discriminate]. apply between_iff in B2. destruct (negb (text_eqb m' []) && no_newline m') eqn:G; [|discriminate]. intros [= <-]. apply andb_prop in G as (G1 & G2). apply no_newline_iff in G2.
    assert (U : u = rev r ++ [34%N] ++ rev (c :: h)) by (rewrite <- (rev_involutive u), Q, rev_app_distr; cbn [rev]; rewrite <- !app_assoc; reflexivity). exists (rev (c :: h)). split; [rewrite B, U, B2; cbn [app]; rewrite <- !app_assoc; reflexivity|]. split; [intros ->; discriminate|]. split; [exact G2|]. split; [intros E; apply (f_equal (@rev N)) in E; rewrite rev_involutive in E; discriminate|]. intros I. apply NI. now apply in_rev.
  - intros (h & -> & NE & NN & HE & HQ). replace (tx "The " ++ m ++ tx " (<emu-xref href=""" ++ h ++ tx """></emu-xref>)") with (tx "The " ++ (m ++ tx " (<emu-xref href=" ++ [34%N] ++ h) ++ tx """></emu-xref>)") by (rewrite <- !app_assoc; reflexivity). rewrite (proj2 (between_iff _ _ _ _) eq_refl).
    assert (Q : to_quote (rev (m ++ tx " (<emu-xref href=" ++ [34%N] ++ h)) = (rev h, Some (rev (m ++ tx " (<emu-xref href=")))). { apply to_quote_iff. split; [|intros I; apply HQ; now apply in_rev]. rewrite !rev_app_distr, <- !app_assoc. reflexivity. }
    rewrite Q. destruct (rev h) as [|x y] eqn:R; [exfalso; apply HE; rewrite <- (rev_involutive h), R; reflexivity|]. rewrite rev_involutive, (proj2 (between_iff [] (tx " (<emu-xref href=") (m ++ tx " (<emu-xref href=") m) eq_refl). replace (text_eqb m []) with false; [rewrite (proj2 (no_newline_iff m) NN); reflexivity|]. symmetry. apply Bool.not_true_iff_false. rewrite text_eqb_eq. exact NE.
Qed.
Lemma phrase_iff a ph : phrase_of a = Ok ph <-> says_phrase a ph.
Proof.
  unfold phrase_of, says_phrase. destruct (is_prefix (tx "A function object that ") a || is_prefix (tx "An object that ") a) eqn:P.
  - apply Bool.orb_true_iff in P. rewrite !begins_iff in P. split; [intros [= <-]; left; split; [exact P|reflexivity]|]. intros [(_ & ->)|(m & h & -> & _)]; [reflexivity|]. exfalso. destruct P as [(r & E)|(r & E)]; discriminate.
  - apply Bool.orb_false_iff in P as (P1 & P2). rewrite <- Bool.not_true_iff_false, begins_iff in P1, P2. destruct (the_phrase a) as [m|] eqn:T.
    + apply the_phrase_iff in T as (h & E & T). split; [intros H; apply ok_inj in H; subst ph; right; exists m, h; tauto|]. intros [([H|H] & _)|(m' & h' & E' & T' & T2 & T3 & T4 & ->)]; [contradiction|contradiction|]. assert (X := proj2 (the_phrase_iff a m') (ex_intro _ h' (conj E' (conj T' (conj T2 (conj T3 T4)))))). assert (Y := proj2 (the_phrase_iff a m) (ex_intro _ h (conj E T))). rewrite X in Y. injection Y as <-. reflexivity.
    + split; [discriminate|]. intros [([H|H] & _)|(m' & h' & E' & T' & T2 & T3 & T4 & ->)]; [contradiction|contradiction|]. assert (X := proj2 (the_phrase_iff a m') (ex_intro _ h' (conj E' (conj T' (conj T2 (conj T3 T4)))))). congruence.
Qed.
Lemma phrase_err a e : phrase_of a = Err e -> e = AssertionError.
Proof. unfold phrase_of. destruct (_ || _); [discriminate|]. destruct (the_phrase a); [discriminate|congruence]. Qed.
(* names of globals are words, and so never in stars *)
Definition sound (st : wki) : Prop := forall w, In w (w_globals st) -> wordy uw w.
Lemma star_no_word w : ~ wordy uw (starred w).
Proof. intros (_ & W). specialize (W 42%N (or_introl eq_refl)). discriminate. Qed.
Lemma row_iff st cells st' x : sound st -> wki_row uw st cells = Ok (st', x) <-> exists e, cells = cells_of e /\ good_entry e /\ ~ In (percent (e_word e)) (w_names st) /\ x = row_of e /\ st' = mkWki (w_names st ++ [percent (e_word e)]) (w_globals st ++ globals_of [e]).
Proof.
  intros Sd. unfold wki_row. split.
  - destruct cells as [|p [|g [|a [|]]]]; try discriminate. destruct (word_between uw (tx "%") (tx "%") p) as [w|] eqn:P; [|discriminate]. apply word_between_iff in P as (-> & W). destruct (tmem_ _ (w_names st)) eqn:M; [discriminate|]. apply tmem_no in M. cbn [negb assert_ bind]. destruct (text_eqb g []) eqn:G.
    + apply text_eqb_eq in G. subst g. cbn [bind]. destruct (phrase_of a) as [ph|] eqn:Ph; [|discriminate]. apply phrase_iff in Ph. intros H. apply ok_inj in H. injection H as <- <-. exists (mkEntry w false a ph). split; [reflexivity|]. split; [split; assumption|]. split; [exact M|]. split; [reflexivity|]. cbn. now rewrite app_nil_r.
    + destruct (word_between uw (tx "*""") (tx """*") g) as [v|] eqn:V; [|discriminate]. apply word_between_iff in V as (-> & _). destruct (text_eqb v w) eqn:E; [|discriminate]. apply text_eqb_eq in E. subst v. cbn [assert_ bind]. destruct (tmem_ _ (w_globals st)) eqn:M2; [discriminate|]. cbn [negb assert_ bind]. destruct (phrase_of a) as [ph|] eqn:Ph; [|discriminate]. apply phrase_iff in Ph. intros H. apply ok_inj in H. injection H as <- <-. exists (mkEntry w true a ph). split; [reflexivity|]. split; [split; assumption|]. split; [exact M|]. split; reflexivity.
  - intros ([w gl a ph] & -> & (W & Ph) & M & -> & ->). unfold cells_of, row_of, globals_of. cbn [e_word e_global e_assoc e_phrase filter map] in *. rewrite (proj2 (word_between_iff (tx "%") (tx "%") (percent w) w) (conj eq_refl W)). rewrite (proj2 (tmem_no _ _) M). cbn [negb assert_ bind]. apply phrase_iff in Ph. destruct gl; cbn [map].
    + replace (text_eqb (starred w) []) with false by reflexivity. rewrite (proj2 (word_between_iff (tx "*""") (tx """*") (starred w) w) (conj eq_refl W)). rewrite (proj2 (text_eqb_eq w w) eq_refl). cbn [assert_ bind]. replace (tmem_ (starred w) (w_globals st)) with false; [cbn [negb assert_ bind]; rewrite Ph; reflexivity|]. symmetry. apply tmem_no. intros I. apply Sd in I. now apply star_no_word in I.
    + cbn [text_eqb]. rewrite Ph. cbn [bind]. now rewrite app_nil_r.
Qed.
Lemma sound_next st e : sound st -> good_entry e -> sound (mkWki (w_names st ++ [percent (e_word e)]) (w_globals st ++ globals_of [e])).
Proof. intros Sd (W & _) w I. cbn [w_globals] in I. apply in_app_iff in I as [I|I]; [now apply Sd|]. unfold globals_of in I. cbn [filter] in I. destruct (e_global e); [|destruct I]. destruct I as [<-|[]]. exact W. Qed.
Lemma globals_app a b : globals_of (a ++ b) = globals_of a ++ globals_of b.
Proof. unfold globals_of. induction a as [|x a IH]; [reflexivity|]. cbn [filter app]. destruct (e_global x); cbn [map app]; now rewrite IH. Qed.
Lemma percent_inj v w : percent v = percent w -> v = w.
Proof. unfold percent. intros E. apply app_inv_head, app_inv_tail in E. exact E. Qed.
(* new names, all different *)
Definition fresh (names : list text) (es : list entry) : Prop := NoDup (map e_word es) /\ forall e, In e es -> ~ In (percent (e_word e)) names.
Lemma fresh_cons names e es : fresh names (e :: es) <-> ~ In (percent (e_word e)) names /\ fresh (names ++ [percent (e_word e)]) es.
Proof.
  unfold fresh. split.
  - intros (ND & F). inversion ND as [|x l NI ND']; subst. split; [apply F; now left|]. split; [exact ND'|]. intros e' I. rewrite in_app_iff. intros [J|[J|[]]]; [now apply (F e' (or_intror I))|]. apply percent_inj in J. apply NI. rewrite J. now apply in_map.
  - intros (NI & ND & F). split; [cbn [map]; constructor; [|exact ND]; intros I; apply in_map_iff in I as (e' & E & I); apply (F e' I); rewrite E; apply in_app_iff; right; now left|]. intros e' [<-|I]; [exact NI|]. intros J. apply (F e' I). apply in_app_iff. now left.
Qed.
Lemma rows_iff rows : forall st ys st', sound st -> wki_rows uw st rows = (ys, Ok st') <-> exists es, rows = map cells_of es /\ Forall good_entry es /\ fresh (w_names st) es /\ ys = map row_of es /\ st' = mkWki (w_names st ++ map (fun e => percent (e_word e)) es) (w_globals st ++ globals_of es).
Proof.
  induction rows as [|r rows IH]; intros st ys st' Sd; cbn [wki_rows].
  - unfold mret. split.
    + intros [= <- <-]. exists []. split; [reflexivity|]. split; [constructor|]. split; [split; [constructor|intros e []]|]. split; [reflexivity|]. cbn. rewrite !app_nil_r. now destruct st.
    + intros ([|e es] & E & _ & _ & -> & ->); [|discriminate]. cbn. rewrite !app_nil_r. now destruct st.
  - destruct (wki_row uw st r) as [(st1, x)|e] eqn:R.
    + destruct (proj1 (row_iff st r st1 x Sd) R) as (e & -> & G & NI & -> & E1). rewrite mbind_inv. split.
      * intros (m1 & a & m2 & T & K & ->). unfold mtell in T. injection T as <- <-. subst st1. apply IH in K as (es & -> & F & Fr & -> & ->); [|now apply sound_next]. exists (e :: es). split; [reflexivity|]. split; [now constructor|]. split; [apply fresh_cons; split; assumption|]. split; [reflexivity|]. cbn [map w_names w_globals]. change (e :: es) with ([e] ++ es). now rewrite globals_app, <- !app_assoc.
      * intros ([|e' es] & E & F & Fr & -> & ->); [discriminate|]. assert (Ee : cells_of e' = cells_of e) by exact (eq_sym (f_equal (@hd (list text) []) E)). assert (Er : rows = map cells_of es) by exact (f_equal (@tl (list text)) E). subst rows. inversion F as [|? ? G' F']; subst. apply fresh_cons in Fr as (NI' & Fr).
        assert (R' := proj2 (row_iff st (cells_of e') _ _ Sd) (ex_intro _ e' (conj eq_refl (conj G' (conj NI' (conj eq_refl eq_refl)))))). rewrite Ee, R in R'. apply ok_inj in R'. assert (Er : row_of e = row_of e') by exact (f_equal snd R'). apply (f_equal fst) in R'. cbn [fst] in R'. exists [row_of e], tt, (map row_of es). split; [reflexivity|]. split; [|cbn [map app]; now rewrite Er]. rewrite R'. apply IH; [now apply sound_next|]. exists es. split; [reflexivity|]. split; [exact F'|]. cbn [w_names w_globals]. split; [exact Fr|]. split; [reflexivity|]. cbn [map]. change (e' :: es) with ([e'] ++ es). now rewrite globals_app, <- !app_assoc.
    + split; [discriminate|]. intros ([|e' es] & E & F & Fr & _); [discriminate|]. exfalso. assert (Ee : r = cells_of e') by exact (f_equal (@hd (list text) []) E). subst r. inversion F as [|? ? G' F']; subst. apply fresh_cons in Fr as (NI' & Fr). assert (R' := proj2 (row_iff st (cells_of e') _ _ Sd) (ex_intro _ e' (conj eq_refl (conj G' (conj NI' (conj eq_refl eq_refl)))))). congruence.
Qed.
(* A table is read to its end just if it has one of the two captions, the headers, and rows of a name between percent signs, never seen before, nothing or the same name in stars and quotes, and one of the three forms of text; the rows, the names and the names of globals are then those. *)
Theorem C101_table st t ys st' : sound st -> each_row_in_wki_table uw st t = (ys, Ok st') <->
  (wt_caption t = tx "Well-Known Intrinsic Objects" \/ wt_caption t = tx "Additional Well-known Intrinsic Objects") /\
  wt_header t = [tx "Intrinsic Name"; tx "Global Name"; tx "ECMAScript Language Association"] /\
  exists es, wt_rows t = map cells_of es /\ Forall good_entry es /\ fresh (w_names st) es /\ ys = map row_of es /\
    st' = mkWki (w_names st ++ map (fun e => percent (e_word e)) es) (w_globals st ++ globals_of es) /\ sound st'.
Proof.
  intros Sd. unfold each_row_in_wki_table. rewrite !mbind_assert.
  assert (C : existsb (text_eqb (wt_caption t)) [tx "Well-Known Intrinsic Objects"; tx "Additional Well-known Intrinsic Objects"] = true <-> wt_caption t = tx "Well-Known Intrinsic Objects" \/ wt_caption t = tx "Additional Well-known Intrinsic Objects") by (cbn [existsb]; rewrite !Bool.orb_true_iff, !text_eqb_eq; split; [intros [H|[H|H]]; [auto|auto|discriminate]|tauto]).
  destruct (existsb _ _); [|split; [discriminate|intros (H & _); apply C in H; discriminate]]. destruct (list_eq_dec (list_eq_dec N.eq_dec) (wt_header t) _) as [Hd|Hd]; [|split; [discriminate|intros (_ & H & _); contradiction]]. rewrite (rows_iff (wt_rows t) st ys st' Sd). split.
  - intros (es & A & B & D & E & F). split; [now apply C|]. split; [exact Hd|]. exists es. split; [exact A|]. split; [exact B|]. split; [exact D|]. split; [exact E|]. split; [exact F|]. subst st'. intros w I. cbn [w_globals] in I. apply in_app_iff in I as [I|I]; [now apply Sd|]. unfold globals_of in I. apply in_map_iff in I as (e & <- & I). apply filter_In in I as (I & _). rewrite Forall_forall in B. now apply (B e I).
  - intros (_ & _ & es & A & B & D & E & F & _). exists es. auto.
Qed.
(* If a table is not read to its end, the rows before the first bad one have been yielded; a row without three cells is a ValueError, all else the assertion. *)
Lemma rows_err rows : forall st ys e, sound st -> wki_rows uw st rows = (ys, Err e) -> exists es bad rest, rows = map cells_of es ++ bad :: rest /\ Forall good_entry es /\ fresh (w_names st) es /\ ys = map row_of es /\ (e = ValueError /\ length bad <> 3 \/ e = AssertionError /\ length bad = 3).
Proof.
  induction rows as [|r rows IH]; intros st ys e Sd; cbn [wki_rows]; [discriminate|]. destruct (wki_row uw st r) as [(st1, x)|e'] eqn:R.
  - destruct (proj1 (row_iff st r st1 x Sd) R) as (e0 & -> & G & NI & -> & E1). unfold mbind, mtell. cbn [fst snd]. intros H. assert (K : wki_rows uw st1 rows = (fst (wki_rows uw st1 rows), Err e)) by (rewrite (surjective_pairing (wki_rows uw st1 rows)) at 1; congruence). assert (Y : ys = row_of e0 :: fst (wki_rows uw st1 rows)) by (injection H; intros; subst; reflexivity). subst st1 ys. apply IH in K as (es & bad & rest & -> & F & Fr & -> & D); [|now apply sound_next]. exists (e0 :: es), bad, rest. split; [reflexivity|]. split; [now constructor|]. split; [apply fresh_cons; split; assumption|]. split; [reflexivity|exact D].
  - unfold mfail. intros [= <- ->]. exists [], r, rows. split; [reflexivity|]. split; [constructor|]. split; [split; [constructor|intros x []]|]. split; [reflexivity|]. clear - R. unfold wki_row in R. destruct r as [|p [|g [|a [|b r]]]]; try (left; cbn; split; [congruence|lia]). right. split; [|reflexivity].
    destruct (word_between _ _ _ p); [|congruence]. destruct (negb _); cbn [assert_ bind] in R; [|congruence]. destruct (text_eqb g []); cbn [bind] in R; [destruct (phrase_of a) eqn:P; cbn [bind] in R; [discriminate|apply phrase_err in P; congruence]|]. destruct (word_between _ _ _ g); [|cbn [bind] in R; congruence]. destruct (text_eqb _ _); cbn [assert_ bind] in R; [|congruence]. destruct (negb _); cbn [assert_ bind] in R; [|congruence]. destruct (phrase_of a) eqn:P; cbn [bind] in R; [discriminate|apply phrase_err in P; congruence].
Qed.
Theorem C101_table_stops st t ys e : sound st -> each_row_in_wki_table uw st t = (ys, Err e) -> (ys = [] /\ e = AssertionError) \/
  exists es bad rest, wt_rows t = map cells_of es ++ bad :: rest /\ Forall good_entry es /\ fresh (w_names st) es /\ ys = map row_of es /\ (e = ValueError /\ length bad <> 3 \/ e = AssertionError /\ length bad = 3).
Proof.
  intros Sd. unfold each_row_in_wki_table. rewrite !mbind_assert. destruct (existsb _ _); [|intros [= <- <-]; auto]. destruct (list_eq_dec (list_eq_dec N.eq_dec) (wt_header t) _); [|intros [= <- <-]; auto]. intros H. right. now apply (rows_err _ st).
Qed.
End Table.

(* ------------------------------------------------------------------ *)
(* the facts of a row *)
(* the marks for words that are no references are taken off constructor and constructors *)
Definition marked (x : text) : text := tx "<emu-not-ref>" ++ x ++ tx "</emu-not-ref>".
Definition known_mark (x : text) : Prop := x = tx "constructor" \/ x = tx "constructors".
Inductive unmarked : text -> text -> Prop :=
| U_nil : unmarked [] []
| U_mark x t u : known_mark x -> unmarked t u -> unmarked (marked x ++ t) (x ++ u)
| U_char c t u : (forall x r, known_mark x -> c :: t <> marked x ++ r) -> unmarked t u -> unmarked (c :: t) (c :: u).
Lemma not_ref_iff t x r : not_ref t = Some (x, r) <-> known_mark x /\ t = marked x ++ r.
Proof.
  unfold not_ref, and_then, known_mark, marked. split.
  - destruct (eat (tx "<emu-not-ref>constructor") t) as [u|] eqn:A; [|discriminate]. apply eat_inv in A. subst t. destruct (eat (tx "</emu-not-ref>") u) as [v|] eqn:B.
    + apply eat_inv in B. subst u. intros H. assert (E : (tx "constructor", v) = (x, r)) by congruence. injection E as <- <-. split; [now left|reflexivity].
    + destruct (eat (tx "s</emu-not-ref>") u) as [v|] eqn:D; [|discriminate]. apply eat_inv in D. subst u. intros H. assert (E : (tx "constructors", v) = (x, r)) by congruence. injection E as <- <-. split; [now right|reflexivity].
  - intros ([-> | ->] & ->); reflexivity.
Qed.
Lemma sub_skip k : forall t, sub_not_ref k t = sub_not_ref 0 (skipn k t).
Proof. induction k as [|k IH]; intros t; [reflexivity|]. destruct t as [|c t]; [reflexivity|]. cbn [sub_not_ref skipn]. apply IH. Qed.
Lemma sub_marked x r : known_mark x -> sub_not_ref 0 (marked x ++ r) = x ++ sub_not_ref 0 r.
Proof.
  intros K. assert (NR := proj2 (not_ref_iff (marked x ++ r) x r) (conj K eq_refl)). unfold marked in *. destruct K as [-> | ->].
  - change ((tx "<emu-not-ref>" ++ tx "constructor" ++ tx "</emu-not-ref>") ++ r) with (60%N :: ((tx "emu-not-ref>" ++ tx "constructor" ++ tx "</emu-not-ref>") ++ r)) in *. cbn [sub_not_ref]. rewrite NR, sub_skip. f_equal. f_equal. rewrite app_length. replace (length (tx "emu-not-ref>" ++ tx "constructor" ++ tx "</emu-not-ref>") + length r - length r) with (length (tx "emu-not-ref>" ++ tx "constructor" ++ tx "</emu-not-ref>")) by lia. rewrite skipn_app, skipn_all, Nat.sub_diag. reflexivity.
  - change ((tx "<emu-not-ref>" ++ tx "constructors" ++ tx "</emu-not-ref>") ++ r) with (60%N :: ((tx "emu-not-ref>" ++ tx "constructors" ++ tx "</emu-not-ref>") ++ r)) in *. cbn [sub_not_ref]. rewrite NR, sub_skip. f_equal. f_equal. rewrite app_length. replace (length (tx "emu-not-ref>" ++ tx "constructors" ++ tx "</emu-not-ref>") + length r - length r) with (length (tx "emu-not-ref>" ++ tx "constructors" ++ tx "</emu-not-ref>")) by lia. rewrite skipn_app, skipn_all, Nat.sub_diag. reflexivity.
Qed.
Theorem C101_unmarked t u : sub_not_ref 0 t = u <-> unmarked t u.
Proof.
  assert (A : forall t u, unmarked t u -> sub_not_ref 0 t = u).
  { intros t0 u0. induction 1 as [|x t0 u0 K _ IH|c t0 u0 NM _ IH]; [reflexivity|rewrite sub_marked by exact K; now rewrite IH|]. cbn [sub_not_ref]. destruct (not_ref (c :: t0)) as [(x, r)|] eqn:NR; [apply not_ref_iff in NR as (K & E); exfalso; now apply (NM x r K)|]. now rewrite IH. }
  assert (B : forall n t, length t <= n -> exists u, unmarked t u).
  { induction n as [|n IH]; intros t0 L; [destruct t0; [exists []; constructor|cbn in L; lia]|]. destruct (not_ref t0) as [(x, r)|] eqn:NR.
    - apply not_ref_iff in NR as (K & ->). destruct (IH r) as (v & V); [unfold marked in L; rewrite !app_length in L; change (length (tx "<emu-not-ref>")) with 13 in L; lia|]. exists (x ++ v). now constructor.
    - destruct t0 as [|c t0]; [exists []; constructor|]. destruct (IH t0) as (v & V); [cbn in L; lia|]. exists (c :: v). constructor; [|exact V]. intros x r K E. assert (X := proj2 (not_ref_iff (c :: t0) x r) (conj K E)). congruence. }
  split; [|apply A]. intros <-. destruct (B (length t) t (le_n _)) as (v & V). now rewrite (A t v V).
Qed.
(* taking off ticks *)
Theorem C101_ticks t : detick t = filter (fun c => negb (c =? 96)%N) t.
Proof.
  unfold detick, str_replace. induction t as [|c t IH]; [reflexivity|]. cbn [replace_go is_prefix filter length Nat.sub app]. rewrite N.eqb_sym. destruct (c =? 96)%N; cbn [andb negb app]; [exact IH|now rewrite IH].
Qed.
(* The facts put for an entry: it exists; a global is known by its name and is the value of the property of the global object with this key, others are kept; and a phrase is another name, without ticks and marks. *)
Theorem C101_facts uw e : good_entry uw e -> exists fs, row_facts (row_of e) = Ok fs /\
  fs = [Exists (percent (e_word e))] ++
       (if e_global e then [Aka (percent (e_word e)) (e_word e); GlobalProp (starred (e_word e)) (percent (e_word e))] else [NonGlobal (percent (e_word e))]) ++
       match e_phrase e with [] => [] | ph => [Aka (percent (e_word e)) (sub_not_ref 0 (detick ph))] end.
Proof.
  destruct e as [w g a ph]. intros ((NE & W) & _). cbn [e_word e_global e_phrase] in *. unfold row_facts, row_of. cbn [e_word e_global e_phrase wr_percent wr_global wr_phrase]. destruct g; [|eexists; split; reflexivity].
  assert (D : destarquote (starred w) = w). { unfold destarquote, starred. rewrite (proj2 (between_iff _ _ _ w) eq_refl). rewrite (proj2 (no_newline_iff w)); [reflexivity|]. intros I. apply W in I. discriminate. }
  assert (L : pystr_to_spec_String_literal w = Ok (starred w)). { unfold pystr_to_spec_String_literal. replace (existsb (N.eqb 34) w) with false; [reflexivity|]. symmetry. apply Bool.not_true_iff_false. rewrite existsb_exists. intros (c & I & E). apply N.eqb_eq in E. subst c. apply W in I. discriminate. }
  remember (starred w) as g eqn:Eg. destruct g as [|c g]; [discriminate|]. cbv zeta. rewrite D, L. eexists. split; reflexivity.
Qed.

(* ------------------------------------------------------------------ *)
(* references *)
Definition inner (x : text) : Prop := x <> [] /\ ~ In 37%N x /\ ~ In 32%N x.
(* from left to right, each taken as soon as it begins *)
Inductive refs_in : nat -> text -> list (nat * text) -> Prop :=
| R_nil p : refs_in p [] []
| R_ref p x r l : inner x -> refs_in (p + length (percent x)) r l -> refs_in p (percent x ++ r) ((p, percent x) :: l)
| R_skip p c t l : (forall x r, inner x -> c :: t <> percent x ++ r) -> refs_in (S p) t l -> refs_in p (c :: t) l.
Lemma take_ref_iff t : forall x r, take_ref t = Some (x, r) <-> t = x ++ 37%N :: r /\ ~ In 37%N x /\ ~ In 32%N x.
Proof.
  induction t as [|c t IH]; intros x r; cbn [take_ref]; [split; [discriminate|intros (E & _); destruct x; discriminate]|]. destruct (c =? 37)%N eqn:C.
  - apply N.eqb_eq in C. subst c. split; [intros [= <- <-]; repeat split; intros []|]. intros (E & A & _). destruct x as [|d x]; [injection E as <-; reflexivity|]. injection E as <- _. exfalso. apply A. now left.
  - apply N.eqb_neq in C. destruct (c =? 32)%N eqn:D.
    + apply N.eqb_eq in D. subst c. split; [discriminate|]. intros (E & _ & B). destruct x as [|d x]; [discriminate|]. injection E as <- _. exfalso. apply B. now left.
    + apply N.eqb_neq in D. unfold and_then. destruct (take_ref t) as [(a, b)|].
      * cbn [fst snd]. split.
        -- intros [= <- <-]. destruct (proj1 (IH a b) eq_refl) as (-> & A & B). split; [reflexivity|]. split; intros [E|I]; auto.
        -- intros (E & A & B). destruct x as [|d x]; [injection E; intros; congruence|]. injection E as <- E. assert (X := proj2 (IH x r) (conj E (conj (fun I => A (or_intror I)) (fun I => B (or_intror I))))). injection X as <- <-. reflexivity.
      * split; [discriminate|]. intros (E & A & B). destruct x as [|d x]; [injection E; intros; congruence|]. injection E as <- E. assert (X := proj2 (IH x r) (conj E (conj (fun I => A (or_intror I)) (fun I => B (or_intror I))))). discriminate.
Qed.
Lemma ref_here_iff t x r : ref_here t = Some (x, r) <-> inner x /\ t = percent x ++ r.
Proof.
  unfold ref_here, inner, percent. split.
  - destruct t as [|c t]; [discriminate|]. destruct (c =? 37)%N eqn:C; [|discriminate]. apply N.eqb_eq in C. subst c. destruct (take_ref t) as [([|d a], b)|] eqn:T; try discriminate. intros [= <- <-]. apply take_ref_iff in T as (-> & A & B). split; [split; [discriminate|auto]|]. rewrite <- !app_assoc. reflexivity.
  - intros ((NE & A & B) & ->). assert (T := proj2 (take_ref_iff ((x ++ tx "%") ++ r) x r) (conj (eq_sym (app_assoc x (tx "%") r)) (conj A B))). change ((tx "%" ++ x ++ tx "%") ++ r) with (37%N :: ((x ++ tx "%") ++ r)). change ((if (37 =? 37)%N then match take_ref ((x ++ tx "%") ++ r) with Some ((_ :: _) as x0, r0) => Some (x0, r0) | _ => None end else None) = Some (x, r)). rewrite T. destruct x; [congruence|reflexivity].
Qed.
Lemma refs_skip k : forall p t, find_refs p k t = find_refs (p + k) 0 (skipn k t) \/ length t < k /\ find_refs p k t = [].
Proof.
  induction k as [|k IH]; intros p t; [left; now rewrite Nat.add_0_r|]. destruct t as [|c t]; [right; cbn; split; [lia|reflexivity]|]. cbn [find_refs skipn length]. destruct (IH (S p) t) as [-> |(L & ->)]; [left; f_equal; lia|right; split; [lia|reflexivity]].
Qed.
Lemma refs_here p x r : inner x -> find_refs p 0 (percent x ++ r) = (p, percent x) :: find_refs (p + length (percent x)) 0 r.
Proof.
  intros I. assert (H := proj2 (ref_here_iff (percent x ++ r) x r) (conj I eq_refl)). change (percent x ++ r) with (37%N :: ((x ++ tx "%") ++ r)) in *. cbn [find_refs]. rewrite H. f_equal. rewrite app_length. replace (length (x ++ tx "%") + length r - length r) with (length (x ++ tx "%")) by lia. destruct (refs_skip (length (x ++ tx "%")) (S p) ((x ++ tx "%") ++ r)) as [E|(L & _)]; [|rewrite app_length in L; lia]. rewrite E, skipn_app, skipn_all, Nat.sub_diag. cbn [app skipn]. f_equal. unfold percent. change (tx "%" ++ x ++ tx "%") with (37%N :: (x ++ tx "%")). cbn [length]. lia.
Qed.
Theorem C101_found p t l : find_refs p 0 t = l <-> refs_in p t l.
Proof.
  assert (A : forall p t l, refs_in p t l -> find_refs p 0 t = l).
  { intros p0 t0 l0. induction 1 as [p0|p0 x r l0 I _ IH|p0 c t0 l0 NM _ IH]; [reflexivity|rewrite refs_here by exact I; now rewrite IH|]. cbn [find_refs]. destruct (ref_here (c :: t0)) as [(x, r)|] eqn:H; [apply ref_here_iff in H as (I & E); exfalso; now apply (NM x r I)|exact IH]. }
  assert (B : forall n p t, length t <= n -> exists l, refs_in p t l).
  { induction n as [|n IH]; intros p0 t0 L; [destruct t0; [exists []; constructor|cbn in L; lia]|]. destruct (ref_here t0) as [(x, r)|] eqn:H.
    - apply ref_here_iff in H as (I & ->). destruct (IH (p0 + length (percent x)) r) as (v & V); [unfold percent in L; rewrite !app_length in L; change (length (tx "%")) with 1 in L; lia|]. eexists. constructor; eassumption.
    - destruct t0 as [|c t0]; [exists []; constructor|]. destruct (IH (S p0) t0) as (v & V); [cbn in L; lia|]. exists v. constructor; [|exact V]. intros x r I E. assert (X := proj2 (ref_here_iff (c :: t0) x r) (conj I E)). congruence. }
  split; [|apply A]. intros <-. destruct (B (length t) p t (le_n _)) as (v & V). now rewrite (A p t v V).
Qed.
(* the intrinsic meant: what comes before the first full stop, if something comes after it *)
Definition base_of (x b : text) : Prop :=
  (exists d, x = b ++ 46%N :: d /\ ~ In 46%N b /\ d <> []) \/ b = x /\ (~ In 46%N x \/ exists a, x = a ++ [46%N] /\ ~ In 46%N a).
Lemma sub_del t : ~ In 37%N t -> sub_dots true (t ++ tx "%") = tx "%".
Proof. induction t as [|c t IH]; intros NI; [reflexivity|]. cbn [app sub_dots]. replace (c =? 37)%N with false by (symmetry; apply N.eqb_neq; intros ->; apply NI; now left). cbn [negb andb]. apply IH. intros I. apply NI. now right. Qed.
Lemma sub_before b t : ~ In 46%N b -> sub_dots false (b ++ t) = b ++ sub_dots false t.
Proof. induction b as [|c b IH]; intros NI; [reflexivity|]. cbn [app sub_dots andb]. replace (c =? 46)%N with false by (symmetry; apply N.eqb_neq; intros ->; apply NI; now left). cbn [andb]. f_equal. apply IH. intros I. apply NI. now right. Qed.
Lemma first_dot x : In 46%N x -> exists a d, x = a ++ 46%N :: d /\ ~ In 46%N a.
Proof. induction x as [|c x IH]; [intros []|]. intros I. destruct (N.eq_dec c 46) as [-> |NE]; [exists [], x; split; [reflexivity|intros []]|]. destruct IH as (a & d & -> & NI); [destruct I as [E|I]; [congruence|exact I]|]. exists (c :: a), d. split; [reflexivity|]. intros [E|J]; auto. Qed.
Lemma base_iff x b : inner x -> sub_dots false (percent x) = percent b <-> base_of x b.
Proof.
  intros (NE & NP & _).
  assert (A : forall b, base_of x b -> sub_dots false (percent x) = percent b).
  { intros b0 [(d & -> & NI & ND)|(-> & [NI|(a & -> & NI)])]; unfold percent.
    - change (tx "%" ++ (b0 ++ 46%N :: d) ++ tx "%") with ((37%N :: (b0 ++ 46%N :: d)) ++ tx "%"). rewrite <- app_comm_cons, <- app_assoc. change (37%N :: b0 ++ (46%N :: d) ++ tx "%") with ((37%N :: b0) ++ (46%N :: d) ++ tx "%"). rewrite sub_before by (intros [E|I]; [discriminate|auto]). destruct d as [|c d]; [congruence|]. cbn [app sub_dots andb N.eqb Pos.eqb]. assert (C : c <> 37%N) by (intros ->; apply NP; apply in_app_iff; right; right; now left). rewrite (proj2 (N.eqb_neq c 37) C). cbn [negb andb]. rewrite (sub_del d); [reflexivity|]. intros I. apply NP. apply in_app_iff. right. right. now right.
    - change (tx "%" ++ x ++ tx "%") with ((37%N :: x) ++ tx "%"). rewrite sub_before by (intros [E|I]; [discriminate|auto]). reflexivity.
    - change (tx "%" ++ (a ++ [46%N]) ++ tx "%") with ((37%N :: (a ++ [46%N])) ++ tx "%"). rewrite <- app_comm_cons, <- app_assoc. change (37%N :: a ++ [46%N] ++ tx "%") with ((37%N :: a) ++ [46%N] ++ tx "%"). rewrite sub_before by (intros [E|I]; [discriminate|auto]). reflexivity. }
  split; [|apply A]. intros H. assert (B : exists b, base_of x b).
  { destruct (in_dec N.eq_dec 46%N x) as [I|NI]; [|exists x; right; auto]. destruct (first_dot x I) as (a & d & E & NI). destruct d as [|c d]; [exists x; right; split; [reflexivity|right; eauto]|]. exists a. left. exists (c :: d). split; [exact E|]. split; [exact NI|discriminate]. }
  destruct B as (b' & B). rewrite (A b' B) in H. apply percent_inj in H. now subst.
Qed.
Definition placeholder (x : text) : Prop := x = tx "name" \/ x = tx "name.a.b" \/ x = tx "_NativeError_" \/ x = tx "_TypedArray_".
(* what is said about a reference *)
Inductive complaint (names : list text) : nat * text -> list (nat * text) -> Prop :=
| Co_placeholder p x : placeholder x -> complaint names (p, percent x) []
| Co_known p x b : ~ placeholder x -> base_of x b -> In (percent b) names -> complaint names (p, percent x) []
| Co_unknown p x b : ~ placeholder x -> base_of x b -> ~ In (percent b) names -> complaint names (p, percent x) [(p, tx "Intrinsic doesn't exist: " ++ percent b)].
Lemma exempt_iff x : tmem_ (percent x) exempt = true <-> placeholder x.
Proof.
  change exempt with (map percent [tx "name"; tx "name.a.b"; tx "_NativeError_"; tx "_TypedArray_"]). unfold tmem_. rewrite existsb_exists. unfold placeholder. split.
  - intros (y & I & E). apply text_eqb_eq in E. subst y. apply in_map_iff in I as (z & E & I). apply percent_inj in E. subst z. cbn [In] in I. destruct I as [I|[I|[I|[I|[]]]]]; auto.
  - intros H. exists (percent x). split; [|now apply text_eqb_eq]. apply in_map. cbn [In]. destruct H as [H|[H|[H|H]]]; auto.
Qed.
Lemma base_ex x : exists b, base_of x b.
Proof.
  destruct (in_dec N.eq_dec 46%N x) as [I|NI]; [|exists x; right; auto]. destruct (first_dot x I) as (a & d & E & NI). destruct d as [|c d]; [exists x; right; split; [reflexivity|right; eauto]|]. exists a. left. exists (c :: d). split; [exact E|]. split; [exact NI|discriminate].
Qed.
Lemma ref_msgs_iff names p x ms : inner x -> ref_msgs names (p, percent x) = ms <-> complaint names (p, percent x) ms.
Proof.
  intros I. assert (A : forall m ms, complaint names m ms -> forall p x, inner x -> m = (p, percent x) -> ref_msgs names (p, percent x) = ms).
  { intros m ms0 C p0 x0 I0 E. destruct C as [q y P|q y b P B K|q y b P B K]; assert (Ey : y = x0) by (apply percent_inj; exact (f_equal snd E)); assert (Eq : q = p0) by exact (f_equal fst E); subst q y; unfold ref_msgs; cbn [fst snd].
    - now rewrite (proj2 (exempt_iff x0) P).
    - destruct (tmem_ (percent x0) exempt) eqn:T; [now apply exempt_iff in T|]. cbv zeta. rewrite (proj2 (base_iff x0 b I0) B). now rewrite (proj2 (tmem_iff_ _ _) K).
    - destruct (tmem_ (percent x0) exempt) eqn:T; [now apply exempt_iff in T|]. cbv zeta. rewrite (proj2 (base_iff x0 b I0) B). now rewrite (proj2 (tmem_no _ _) K). }
  split; [|intros C; now apply (A _ _ C p x I)]. intros <-. assert (B : exists ms, complaint names (p, percent x) ms).
  { destruct (tmem_ (percent x) exempt) eqn:T; [apply exempt_iff in T; eexists; now constructor|]. assert (NP : ~ placeholder x) by (rewrite <- exempt_iff; congruence). destruct (base_ex x) as (b & B). destruct (tmem_ (percent b) names) eqn:M; [apply tmem_iff_ in M; eexists; eapply Co_known; eassumption|apply tmem_no in M; eexists; eapply Co_unknown; eassumption]. }
  destruct B as (ms & C). now rewrite (A _ _ C p x I eq_refl).
Qed.
Lemma refs_inner p t l : refs_in p t l -> forall m, In m l -> exists x, snd m = percent x /\ inner x.
Proof. induction 1 as [p|p x r l I _ IH|p c t l _ _ IH]; intros m; [intros []| |auto]. intros [<-|J]; [exists x; auto|auto]. Qed.
(* what is said about a literal *)
Definition said (names : list text) (spec : text) (n : nat * nat) (ms : list (nat * text)) : Prop :=
  exists l mss, refs_in (fst n) (slice (fst n) (snd n) spec) l /\ Forall2 (complaint names) l mss /\ ms = concat mss.
(* All the references in the literals, in order, get their messages, at their position. *)
Theorem C101_references spec names lits ms : check_references_to_intrinsics spec names lits = ms <-> exists mss, Forall2 (said names spec) lits mss /\ ms = concat mss.
Proof.
  assert (G : forall l, (forall m, In m l -> exists x, snd m = percent x /\ inner x) -> forall mss, Forall2 (complaint names) l mss <-> mss = map (ref_msgs names) l).
  { induction l as [|(p, t) l IH]; intros H mss; [split; [now inversion 1|intros ->; constructor]|]. destruct (H (p, t) (or_introl eq_refl)) as (x & E & I). cbn [snd] in E. subst t. assert (H' : forall m, In m l -> exists x, snd m = percent x /\ inner x) by (intros m J; apply H; now right). split.
    - inversion 1 as [|? ? ? ? C F]; subst. apply ref_msgs_iff in C; [|exact I]. apply (IH H') in F. cbn [map]. now subst.
    - intros ->. cbn [map]. constructor; [now apply ref_msgs_iff|now apply (IH H')]. }
  assert (S1 : forall n ms, said names spec n ms <-> ms = flat_map (ref_msgs names) (find_refs (fst n) 0 (slice (fst n) (snd n) spec))).
  { intros n ms0. unfold said. split.
    - intros (l & mss & R & F & ->). apply (G l (refs_inner _ _ _ R)) in F. subst mss. apply C101_found in R. rewrite R. symmetry. apply flat_map_concat_map.
    - intros ->. exists (find_refs (fst n) 0 (slice (fst n) (snd n) spec)). assert (R := proj1 (C101_found (fst n) (slice (fst n) (snd n) spec) _) eq_refl). eexists. split; [exact R|]. split; [apply (G _ (refs_inner _ _ _ R)); reflexivity|]. apply flat_map_concat_map. }
  unfold check_references_to_intrinsics. rewrite flat_map_concat_map. split.
  - intros <-. eexists. split; [|reflexivity]. induction lits as [|n lits IH]; constructor; [now apply S1|exact IH].
  - intros (mss & F & ->). f_equal. induction F as [|n ms0 lits mss S0 F IH]; [reflexivity|]. cbn [map]. rewrite IH. f_equal. symmetry. now apply S1.
Qed.
(* nothing is said about names behind the first full stop, nor about a name whose first percent sign ends another one *)
Theorem C101_unseen_refuted : exists names t u, (forall x, In x names -> x <> percent (tx "Nothing")) /\ t = tx "%Array" ++ tx "%Nothing%" ++ u /\ check_references_to_intrinsics t names [(0, length t)] = [].
Proof. exists [percent (tx "Array")], (tx "%Array%Nothing% is"), (tx " is"). split; [intros x [<-|[]]; discriminate|]. split; reflexivity. Qed.

(* ------------------------------------------------------------------ *)
(* globals *)
Definition prop_title (uw : N -> bool) (t w : text) : Prop := wordy uw w /\ (t = w \/ exists m, t = w ++ tx " (" ++ m ++ tx ")" /\ ~ In 10%N m).
Lemma prop_name_iff uw t w : prop_name uw t = Some w <-> prop_title uw t w.
Proof.
  unfold prop_name, prop_title. destruct (take_word_split uw t) as (r & E & W & N0).
  assert (R : skipn (length (take_word uw t)) t = r) by (rewrite E at 2; rewrite skipn_app, skipn_all, Nat.sub_diag; reflexivity).
  assert (U : forall w', wordy uw w' -> (t = w' \/ exists m, t = w' ++ tx " (" ++ m ++ tx ")") -> take_word uw t = w').
  { intros w' (_ & W') [-> |(m & ->)]; [rewrite <- (app_nil_r w') at 1; apply take_word_app; [exact W'|exact I]|apply take_word_app; [exact W'|reflexivity]]. }
  split.
  - remember (take_word uw t) as x eqn:Ex. destruct x as [|c x]; [discriminate|]. rewrite R. destruct (text_eqb r []) eqn:Rn.
    + apply text_eqb_eq in Rn. intros [= <-]. split; [split; [discriminate|exact W]|]. left. now rewrite E, Rn, app_nil_r.
    + destruct (between (tx " (") (tx ")") r) as [m|] eqn:B; [|discriminate]. apply between_iff in B. destruct (no_newline m) eqn:NN; [|discriminate]. apply no_newline_iff in NN. intros [= <-]. split; [split; [discriminate|exact W]|]. right. exists m. split; [now rewrite E, B|exact NN].
  - intros (Wy & H). assert (T : take_word uw t = w) by (apply U; [exact Wy|destruct H as [H|(m & H & _)]; eauto]). rewrite T in *. destruct w as [|c w]; [destruct Wy; congruence|]. rewrite R. destruct H as [H|(m & H & NN)].
    + assert (Hr : r = []) by (rewrite H in E at 1; apply (app_inv_head (c :: w)); now rewrite app_nil_r). rewrite Hr. reflexivity.
    + assert (Er : r = tx " (" ++ m ++ tx ")") by (rewrite H in E at 1; apply app_inv_head in E; now rewrite E). rewrite Er. replace (text_eqb (tx " (" ++ m ++ tx ")") []) with false by reflexivity. rewrite (proj2 (between_iff _ _ _ m) eq_refl), (proj2 (no_newline_iff m) NN). reflexivity.
Qed.
Definition is_prop (s : gsection) : Prop := contains (tx "_property") (gs_kind s).
(* the names of properties given by sections, but for those in the section on value properties *)
Definition declared (uw : N -> bool) (ss : list gsection) (w : text) : Prop := exists s, In s ss /\ is_prop s /\ gs_parent s <> tx "Value Properties of the Global Object" /\ prop_title uw (gs_title s) w.
Lemma names_iff uw ss : (forall l, global_names uw ss = Ok l -> (forall s, In s ss -> is_prop s -> exists w, prop_title uw (gs_title s) w) /\ forall w, In w l <-> declared uw ss w) /\ (forall e, global_names uw ss = Err e -> e = AssertionError /\ exists s, In s ss /\ is_prop s /\ forall w, ~ prop_title uw (gs_title s) w).
Proof.
  induction ss as [|s ss (IHo & IHe)]; cbn [global_names].
  - split; [|discriminate]. intros l [= <-]. split; [intros s []|]. intros w. split; [intros []|intros (s & [] & _)].
  - destruct (has_sub (tx "_property") (gs_kind s)) eqn:H.
    + apply has_sub_iff in H. destruct (prop_name uw (gs_title s)) as [x|] eqn:P.
      * apply prop_name_iff in P. destruct (global_names uw ss) as [l'|e']; cbn [bind].
        -- destruct (IHo l' eq_refl) as (A & B). split; [|discriminate]. intros l Hl. apply ok_inj in Hl. split; [intros s' [<-|I] K; [eauto|now apply A]|]. intros w. destruct (text_eqb (gs_parent s) _) eqn:Q; subst l.
           ++ apply text_eqb_eq in Q. rewrite B. split; [intros (s' & I & D); exists s'; split; [now right|exact D]|]. intros (s' & [<-|I] & K & NQ & D); [contradiction|]. exists s'. auto.
           ++ assert (NQ : gs_parent s <> tx "Value Properties of the Global Object") by (rewrite <- text_eqb_eq; congruence). cbn [In]. rewrite B. split; [intros [<-|(s' & I & D)]; [exists s; split; [now left|auto]|exists s'; split; [now right|exact D]]|]. intros (s' & [<-|I] & K & NQ' & D); [left; apply prop_name_iff in P, D; congruence|right; exists s'; auto].
        -- destruct (IHe e' eq_refl) as (-> & s' & I & D). split; [discriminate|]. intros e [= <-]. split; [reflexivity|]. exists s'. split; [now right|exact D].
      * split; [discriminate|]. intros e [= <-]. split; [reflexivity|]. exists s. split; [now left|]. split; [exact H|]. intros w D. apply prop_name_iff in D. congruence.
    + assert (NP : ~ is_prop s) by (unfold is_prop; rewrite <- has_sub_iff; congruence). split.
      * intros l Hl. destruct (IHo l Hl) as (A & B). split; [intros s' [<-|I] K; [contradiction|now apply A]|]. intros w. rewrite B. split; [intros (s' & I & D); exists s'; split; [now right|exact D]|]. intros (s' & [<-|I] & K & D); [contradiction|]. exists s'. auto.
      * intros e He. destruct (IHe e He) as (-> & s' & I & D). split; [reflexivity|]. exists s'. split; [now right|exact D].
Qed.
(* The check ends well just if all the properties have titles of the form; the lines are then the names on one side only, in alphabetical order, each once. *)
Theorem C101_globals uw ss gl : (forall ls, check_globals uw (Some ss) gl = Ok ls <-> (forall s, In s ss -> is_prop s -> exists w, prop_title uw (gs_title s) w) /\ exists a b, L_Validate.listing a (fun w => declared uw ss w /\ ~ In w gl) /\ L_Validate.listing b (fun w => In w gl /\ ~ declared uw ss w) /\ ls = map (fun n => tx "> In 'The Global Object' but not in WKI: " ++ n) a ++ map (fun n => tx "> In WKI but not in 'The Global Object': " ++ n) b) /\
  (forall e, check_globals uw (Some ss) gl = Err e <-> e = AssertionError /\ exists s, In s ss /\ is_prop s /\ forall w, ~ prop_title uw (gs_title s) w) /\ check_globals uw None gl = Err KeyError.
Proof.
  destruct (names_iff uw ss) as (No & Ne). split; [|split; [|reflexivity]].
  - intros ls. cbn [check_globals]. destruct (global_names uw ss) as [l|e]; cbn [bind].
    + destruct (No l eq_refl) as (A & B).
      assert (M : forall x y w, In w (minus x y) <-> In w x /\ ~ In w y) by (intros x y w; unfold minus; rewrite filter_In, Bool.negb_true_iff, tmem_no; reflexivity).
      assert (L1 : L_Validate.listing (sorted_set (minus l gl)) (fun w => declared uw ss w /\ ~ In w gl)) by (apply (listing_ext _ _ _ (fun w => iff_trans (M l gl w) (and_iff_compat_r _ (B w)))); apply sorted_set_ok).
      assert (L2 : L_Validate.listing (sorted_set (minus gl l)) (fun w => In w gl /\ ~ declared uw ss w)) by (apply (listing_ext _ _ _ (fun w => iff_trans (M gl l w) (and_iff_compat_l _ (not_iff_compat (B w))))); apply sorted_set_ok).
      split; [intros H; apply ok_inj in H; subst ls; split; [exact A|]; eauto|]. intros (_ & a & b & La & Lb & ->). rewrite (listing_unique _ _ L1 _ La), (listing_unique _ _ L2 _ Lb). reflexivity.
    + destruct (Ne e eq_refl) as (-> & s & I & K & D). split; [discriminate|]. intros (A & _). destruct (A s I K) as (w & P). now apply D in P.
  - intros e. cbn [check_globals]. destruct (global_names uw ss) as [l|e']; cbn [bind].
    + destruct (No l eq_refl) as (A & _). split; [discriminate|]. intros (_ & s & I & K & D). destruct (A s I K) as (w & P). now apply D in P.
    + destruct (Ne e' eq_refl) as (-> & X). split; [intros [= <-]; auto|]. now intros (-> & _).
Qed.

(* ------------------------------------------------------------------ *)
(* examples *)
Definition ref_ex (s : string) : text := tx s ++ tx " (<emu-xref href=""#sec-array-constructor""></emu-xref>)".
Definition table_ex (rows : list (list text)) := mkWTable (tx "Well-Known Intrinsic Objects") [tx "Intrinsic Name"; tx "Global Name"; tx "ECMAScript Language Association"] rows.
Definition entries_ex := [mkEntry (tx "Array") true (ref_ex "The `Array` <emu-not-ref>constructor</emu-not-ref>") (tx "the `Array` <emu-not-ref>constructor</emu-not-ref>"); mkEntry (tx "ThrowTypeError") false (tx "A function object that throws") []].
Example C101_good_ex : Forall (good_entry Properties_Steps.uw0) entries_ex /\ fresh [] entries_ex /\ sound Properties_Steps.uw0 (mkWki [] []).
Proof.
  split; [|split; [split; [cbn [map e_word entries_ex]; constructor; [intros [E|[]]; discriminate|constructor; [intros []|constructor]]|intros e _ []]|intros w []]]. constructor; [|constructor; [|constructor]]; (split; [split; [discriminate|intros c I; cbn in I; repeat (destruct I as [<-|I]; [reflexivity|]); destruct I]|]).
  - right. exists (tx "`Array` <emu-not-ref>constructor</emu-not-ref>"), (tx "#sec-array-constructor"). split; [reflexivity|]. split; [discriminate|]. split; [intros I; cbn in I; repeat (destruct I as [E|I]; [discriminate|]); exact I|]. split; [discriminate|]. split; [intros I; cbn in I; repeat (destruct I as [E|I]; [discriminate|]); exact I|reflexivity].
  - left. split; [left; exists (tx "throws"); reflexivity|reflexivity].
Qed.
Example C101_table_ex : each_row_in_wki_table Properties_Steps.uw0 (mkWki [] []) (table_ex (map cells_of entries_ex)) = (map row_of entries_ex, Ok (mkWki [tx "%Array%"; tx "%ThrowTypeError%"] [tx "Array"])).
Proof. reflexivity. Qed.
Example C101_table_stops_ex : each_row_in_wki_table Properties_Steps.uw0 (mkWki [] []) (table_ex (map cells_of (entries_ex ++ entries_ex))) = (map row_of entries_ex, Err AssertionError).
Proof. reflexivity. Qed.
Example C101_facts_ex : row_facts (row_of (hd (mkEntry [] false [] []) entries_ex)) = Ok [Exists (tx "%Array%"); Aka (tx "%Array%") (tx "Array"); GlobalProp (tx "*""Array""*") (tx "%Array%"); Aka (tx "%Array%") (tx "the Array constructor")].
Proof. reflexivity. Qed.
Example C101_references_ex : check_references_to_intrinsics (tx "<p>50% of %Array.prototype%, %name%, %Arry.of% and %X.%</p>") [tx "%Array%"] [(3, 55)] = [(37, tx "Intrinsic doesn't exist: %Arry%"); (51, tx "Intrinsic doesn't exist: %X.%")].
Proof. reflexivity. Qed.
Example C101_globals_ex : check_globals Properties_Steps.uw0 (Some [mkGSection (tx "function_property") (tx "parseInt ( _string_ )") (tx "Function Properties of the Global Object"); mkGSection (tx "other_property") (tx "NaN") (tx "Value Properties of the Global Object"); mkGSection (tx "catchall") (tx "no title (of a property") (tx "x"); mkGSection (tx "other_property") (tx "Atomics") (tx "Other Properties of the Global Object")]) [tx "Atomics"; tx "Map"] =
  Ok [tx "> In 'The Global Object' but not in WKI: parseInt"; tx "> In WKI but not in 'The Global Object': Map"].
Proof. reflexivity. Qed.

Print Assumptions C101_table.
Print Assumptions C101_table_stops.
Print Assumptions C101_unmarked.
Print Assumptions C101_ticks.
Print Assumptions C101_facts.
Print Assumptions C101_found.
Print Assumptions C101_references.
Print Assumptions C101_unseen_refuted.
Print Assumptions C101_globals.
