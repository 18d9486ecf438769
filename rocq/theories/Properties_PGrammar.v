(* C98: a grammar for pseudocode is taken in exactly as it is written, and only if all its nonterminals are defined. *)
From Coq Require Import Ascii String Lia List.
From Verif Require Import M_Base L_Base M_HTML M_Shared M_Indent M_Defs M_Records M_Refs L_Refs M_Meta M_Style L_StyleDesc L_ValTree M_Validate M_PropPath L_PropPath Properties_PropPath M_PGrammar.
Open Scope list_scope.
Open Scope nat_scope.
Notation length := List.length.

(* ------------------------------------------------------------------ *)
(* the forms of pieces, in the order in which they are tried; r is what follows, w whether a word character comes before *)
Section Shapes.
Variable uw : N -> bool.
Definition is_up (c : N) : Prop := (65 <= c <= 90)%N.
Definition is_low (c : N) : Prop := (97 <= c <= 122)%N.
Definition is_dig (c : N) : Prop := (48 <= c <= 57)%N.
Definition all_are (P : N -> Prop) (x : text) : Prop := forall c, In c x -> P c.
Definition next_not (P : N -> Prop) (r : text) : Prop := match r with c :: _ => ~ P c | [] => True end.
Definition is_letter (c : N) : Prop := is_up c \/ is_low c.
Definition is_alnum (c : N) : Prop := is_up c \/ is_low c \/ is_dig c.
Definition is_word (c : N) : Prop := wordc uw c = true.
Inductive shape (w : bool) : nat -> text -> text -> Prop :=
| S_space r : shape w 0 (tx " ") r
| S_upper u c x r : u = [] \/ u = tx "_" -> is_up c -> all_are (fun d => is_up d \/ d = 95%N \/ is_dig d) x -> shape w 1 (tx "{" ++ u ++ [c] ++ x ++ tx "}") r
| S_lower u c x r : u = [] \/ u = tx "_" -> is_low c -> all_are is_word x -> shape w 2 (tx "{" ++ u ++ [c] ++ x ++ tx "}") r
| S_tag u x r : u = [] \/ u = tx "/" -> In x [tx "b"; tx "br"; tx "emu-not-ref"; tx "i"; tx "ins"; tx "li"; tx "p"; tx "span"; tx "sub"; tx "sup"; tx "ul"; tx "var"] -> shape w 3 (tx "<" ++ u ++ x ++ tx ">") r
| S_norm x r : In x [tx "span"; tx "ul"] -> shape w 4 (tx "<" ++ x ++ tx " normative-optional>") r
| S_zero x r : In x [tx "+"; tx "-"] -> shape w 5 (tx "*" ++ x ++ tx "0*") r
| S_star x r : x <> [] -> all_are is_letter x -> shape w 6 (tx "*" ++ x ++ tx "*") r
| S_quote x r : x = [] \/ (exists c, c <> 34%N /\ x = [c]) -> shape w 7 (tx "*""" ++ x ++ tx """*") r
| S_tick x r : x <> [] -> ~ In 96%N x -> shape w 8 (tx "`" ++ x ++ tx "`") r
| S_amp x r : x <> [] -> all_are is_low x -> shape w 9 (tx "&" ++ x ++ tx ";") r
| S_bar c x r : is_letter c -> all_are is_alnum x -> shape w 10 (tx "|" ++ [c] ++ x ++ tx "|") r
| S_captures r : shape w 11 (tx "_captures_") r
| S_end r : shape w 12 (tx "_endIndex_") r
| S_input r : shape w 13 (tx "_input_") r
| S_start r : shape w 14 (tx "_startIndex_") r
| S_digits x r : w = false -> x <> [] -> all_are is_dig x -> next_not is_alnum r -> shape w 15 x r
| S_punct c r : In c (tx "-!()*+,./:;=>?{}") -> shape w 16 [c] r
| S_sign c r : In c [32; 171; 187; 215; 960; 8220; 8221; 8734; 8800; 8804; 8805]%N -> shape w 17 [c] r
| S_open r : shape w 18 (tx "[") r
| S_close r : shape w 19 (tx "]") r
| S_an r : w = false -> shape w 20 (tx "an?") r
| S_short x r : w = false -> In x [tx "doesn't"; tx "We've"] -> next_not is_word r -> shape w 21 x r
| S_20th r : w = false -> next_not is_word r -> shape w 22 (tx "20th") r
| S_word c x r : w = false -> is_letter c -> all_are is_alnum x -> next_not is_word r -> shape w 23 (c :: x) r
| S_category r : w = false -> next_not is_word r -> shape w 24 (tx "General_Category") r
| S_s r : next_not is_word r -> shape w 25 (tx "'s") r.
(* the piece is of the first form that any beginning has *)
Definition first_piece (w : bool) (s r : text) : Prop :=
  exists k, shape w k s r /\ forall k' s' r', s' ++ r' = s ++ r -> shape w k' s' r' -> k <= k'.
Definition ends_in_word (s : text) : Prop := exists a c, s = a ++ [c] /\ is_word c.
Inductive cut : bool -> text -> list text -> Prop :=
| Cut_nil w : cut w [] []
| Cut_cons w w' s r ps : first_piece w s r -> (w' = true <-> ends_in_word s) -> cut w' r ps -> cut w (s ++ r) (s :: ps).

(* ------------------------------------------------------------------ *)
Lemma up_iff c : upper c = true <-> is_up c.
Proof using. unfold upper, is_up. rewrite Bool.andb_true_iff, !N.leb_le. reflexivity. Qed.
Lemma low_iff c : lowerc c = true <-> is_low c.
Proof using. unfold lowerc, is_low. rewrite Bool.andb_true_iff, !N.leb_le. reflexivity. Qed.
Lemma dig_iff c : digit c = true <-> is_dig c.
Proof using. unfold digit, is_dig. rewrite Bool.andb_true_iff, !N.leb_le. reflexivity. Qed.
Lemma letter_iff c : letter c = true <-> is_letter c.
Proof using. unfold letter, is_letter. now rewrite Bool.orb_true_iff, up_iff, low_iff. Qed.
Lemma alnum_iff c : alnum c = true <-> is_alnum c.
Proof using. unfold alnum, is_alnum. rewrite !Bool.orb_true_iff, up_iff, low_iff, dig_iff. clear uw; tauto. Qed.
Lemma upname_iff c : upname c = true <-> (is_up c \/ c = 95%N \/ is_dig c).
Proof using. unfold upname. rewrite !Bool.orb_true_iff, up_iff, dig_iff, N.eqb_eq. clear uw; tauto. Qed.
Lemma one_of_iff l c : one_of l c = true <-> In c l.
Proof using. unfold one_of. rewrite existsb_exists. split; [intros (x & I & E); apply N.eqb_eq in E; now subst|]. intros I. exists c. split; [exact I|apply N.eqb_refl]. Qed.
Definition head_not (p : N -> bool) (r : text) : Prop := match r with c :: _ => p c = false | [] => True end.
Lemma head_not_iff (p : N -> bool) (P : N -> Prop) r : (forall c, p c = true <-> P c) -> head_not p r <-> next_not P r.
Proof. intros H. destruct r as [|c r]; [reflexivity|]. cbn. rewrite <- H. symmetry. apply Bool.not_true_iff_false. Qed.

(* what it means to match *)
Fixpoint mt (es : list elem) (s r : text) : Prop :=
  match es with
  | [] => s = []
  | Lit x :: es' => exists s', s = x ++ s' /\ mt es' s' r
  | One p :: es' => exists c s', s = c :: s' /\ p c = true /\ mt es' s' r
  | Many p :: es' => exists x s', s = x ++ s' /\ (forall c, In c x -> p c = true) /\ head_not p (s' ++ r) /\ mt es' s' r
  end.
Lemma skip_split p t : exists x, t = x ++ skip_while p t /\ (forall c, In c x -> p c = true) /\ head_not p (skip_while p t).
Proof.
  induction t as [|c t (x & E & A & H)]; cbn [skip_while]; [exists []; cbn; intuition|]. destruct (p c) eqn:P.
  - exists (c :: x). split; [cbn [app]; congruence|]. split; [|exact H]. intros d [<-|I]; auto.
  - exists []. cbn. intuition.
Qed.
Lemma skip_app p x r : (forall c, In c x -> p c = true) -> head_not p r -> skip_while p (x ++ r) = r.
Proof.
  induction x as [|c x IH]; intros A H; cbn [app skip_while].
  - destruct r as [|c r]; [reflexivity|]. cbn in H. cbn [skip_while]. now rewrite H.
  - rewrite (A c (or_introl eq_refl)). apply IH; [|exact H]. intros d I. apply A. now right.
Qed.
Lemma run_iff es : forall t r, run es t = Some r <-> exists s, t = s ++ r /\ mt es s r.
Proof.
  induction es as [|[x|p|p] es IH]; intros t r; cbn [run mt].
  - split; [intros E; exists []; cbn [app]; split; [congruence|reflexivity]|]. intros (s & -> & ->). reflexivity.
  - split.
    + destruct (eat x t) as [t'|] eqn:E; [|discriminate]. apply eat_inv in E as ->. intros H. apply IH in H as (s & -> & M). exists (x ++ s). split; [now rewrite app_assoc|]. now exists s.
    + intros (s & -> & s' & -> & M). rewrite <- app_assoc, eat_ok. apply IH. now exists s'.
  - split.
    + destruct t as [|c t]; [discriminate|]. destruct (p c) eqn:P; [|discriminate]. intros H. apply IH in H as (s & -> & M). exists (c :: s). split; [reflexivity|]. now exists c, s.
    + intros (s & -> & c & s' & -> & P & M). cbn [app]. rewrite P. apply IH. now exists s'.
  - split.
    + intros H. apply IH in H as (s & E & M). destruct (skip_split p t) as (x & T & A & H). rewrite E in T, H. exists (x ++ s). split; [now rewrite <- app_assoc|]. now exists x, s.
    + intros (s & -> & x & s' & -> & A & H & M). rewrite <- app_assoc, (skip_app p x _ A H). apply IH. now exists s'.
Qed.
Definition fits (w : bool) (a : alt) (s r : text) : Prop := mt (a_body a) s r /\ (a_lead a = true -> w = false) /\ head_not (a_stop a) r.
Lemma try_iff w t a r : try_alt w t a = Some r <-> exists s, t = s ++ r /\ fits w a s r.
Proof.
  unfold try_alt, fits. destruct (a_lead a && w) eqn:L.
  - split; [discriminate|]. intros (s & _ & _ & H & _). apply Bool.andb_true_iff in L as (L & ->). discriminate (H L).
  - assert (LL : a_lead a = true -> w = false) by (intros X; rewrite X in L; exact L). split.
    + intros H. destruct (run (a_body a) t) as [r'|] eqn:R; [|discriminate]. assert (r' = r /\ head_not (a_stop a) r) as (-> & N0).
      { destruct r' as [|c r']; [split; [congruence|]; assert (r = []) as -> by congruence; exact I|]. destruct (a_stop a c) eqn:Q; [discriminate|]. split; [congruence|]. assert (r = c :: r') as -> by congruence. exact Q. }
      apply run_iff in R as (s & -> & M). now exists s.
    + intros (s & -> & M & _ & N0). rewrite (proj2 (run_iff (a_body a) (s ++ r) r)) by now exists s. destruct r as [|c r]; [reflexivity|]. cbn in N0. now rewrite N0.
Qed.
Lemma lone {w t a r} : first_some (try_alt w t) [a] = Some r <-> exists s, t = s ++ r /\ fits w a s r.
Proof. rewrite <- try_iff. cbn [first_some]. destruct (try_alt w t a); split; congruence. Qed.
Definition good_group (k : nat) (g : list alt) : Prop :=
  (forall w t r, first_some (try_alt w t) g = Some r -> exists s, t = s ++ r /\ shape w k s r) /\
  (forall w s r, shape w k s r -> first_some (try_alt w (s ++ r)) g = Some r).
Lemma group_one k a : (forall w s r, fits w a s r <-> shape w k s r) -> good_group k [a].
Proof.
  intros H. split.
  - intros w t r E. apply lone in E as (s & T & F). apply H in F. now exists s.
  - intros w s r X. apply lone. exists s. split; [reflexivity|]. now apply H.
Qed.
(* several, of which the earlier ones do not fit where a later one does *)
Lemma group_many k (gs : list alt) : (forall w s r, shape w k s r <-> exists a, In a gs /\ fits w a s r) ->
  (forall w a b s r s' r', In a gs -> In b gs -> fits w a s r -> fits w b s' r' -> s ++ r = s' ++ r' -> r = r') -> good_group k gs.
Proof.
  intros H U. assert (FS : forall w t g r, first_some (try_alt w t) g = Some r -> exists a, In a g /\ try_alt w t a = Some r).
  { intros w t g. induction g as [|a g IH]; cbn [first_some]; [discriminate|]. intros r E. destruct (try_alt w t a) eqn:T; [exists a; split; [now left|congruence]|]. destruct (IH r E) as (b & I & X). exists b. split; [now right|exact X]. }
  assert (FN : forall w t g a r, In a g -> try_alt w t a = Some r -> exists r', first_some (try_alt w t) g = Some r').
  { intros w t g. induction g as [|b g IH]; intros a r; [intros []|]. cbn [first_some]. intros [<-|I] E; [rewrite E; eauto|]. destruct (try_alt w t b) eqn:T; [eauto|]. now apply (IH a r). }
  split.
  - intros w t r E. apply FS in E as (a & I & T). apply try_iff in T as (s & -> & F). exists s. split; [reflexivity|]. apply H. now exists a.
  - intros w s r X. apply H in X as (a & I & F). destruct (FN w (s ++ r) gs a r I) as (r' & E); [apply try_iff; now exists s|]. rewrite E. f_equal. apply FS in E as (b & J & T). apply try_iff in T as (s' & T & F'). symmetry. exact (U w a b s r s' r' I J F F' T).
Qed.
Ltac fits_tac := unfold fits; cbn [plain word_alt a_body a_lead a_stop mt].
Lemma never_not r : head_not never r. Proof. now destruct r. Qed.
Lemma fits_plain w es s r : fits w (plain es) s r <-> mt es s r.
Proof. fits_tac. split; [tauto|]. intros H. split; [exact H|]. split; [discriminate|apply never_not]. Qed.
Lemma fits_word w es s r : fits w (word_alt uw es) s r <-> mt es s r /\ w = false /\ next_not is_word r.
Proof. fits_tac. rewrite (head_not_iff (wordc uw) is_word) by reflexivity. intuition. Qed.
Lemma mt_lit x s r : mt [Lit x] s r <-> s = x.
Proof. cbn [mt]. split; [intros (s' & -> & ->); now rewrite app_nil_r|]. intros ->. exists []. now rewrite app_nil_r. Qed.
Lemma mt_run l p q c0 x s r : q c0 = false ->
  (mt [Lit l; One p; Many q; Lit (c0 :: x)] s r <-> exists c y, s = l ++ [c] ++ y ++ c0 :: x /\ p c = true /\ forall d, In d y -> q d = true).
Proof.
  intros Q. cbn [mt]. split.
  - intros (s1 & -> & c & s2 & -> & P & y & s3 & -> & A & _ & s4 & -> & ->). exists c, y. rewrite app_nil_r. auto.
  - intros (c & y & -> & P & A). exists ([c] ++ y ++ c0 :: x). split; [reflexivity|]. exists c, (y ++ c0 :: x). split; [reflexivity|]. split; [exact P|]. exists y, (c0 :: x). split; [reflexivity|]. split; [exact A|]. split; [exact Q|]. exists []. now rewrite app_nil_r.
Qed.
Lemma tail_app {A} (a b x y : list A) (r r' : list A) (c d : A) : a ++ r = b ++ r' -> length a = length b -> r = r'.
Proof. intros E L. apply (f_equal (skipn (length a))) in E. rewrite skipn_app, skipn_all, Nat.sub_diag in E. rewrite L in E. now rewrite skipn_app, skipn_all, Nat.sub_diag in E. Qed.
(* a run before a character that is not in it *)
Lemma run_unique (q : N -> bool) c0 y y' z z' : q c0 = false -> (forall d, In d y -> q d = true) -> (forall d, In d y' -> q d = true) -> y ++ c0 :: z = y' ++ c0 :: z' -> z = z'.
Proof.
  intros Q A A' E. assert (H := skip_app q y (c0 :: z) A Q). assert (H' := skip_app q y' (c0 :: z') A' Q). rewrite E in H. congruence.
Qed.
Lemma g_space : good_group 0 [plain [Lit (tx " ")]].
Proof. apply group_one. intros w s r. rewrite fits_plain, mt_lit. split; [intros ->; constructor|]. now inversion 1. Qed.
Lemma g_lit k x : (forall w s r, shape w k s r <-> s = x) -> good_group k [plain [Lit x]].
Proof. intros H. apply group_one. intros w s r. rewrite fits_plain, mt_lit. symmetry. apply H. Qed.
Lemma g_brace k p q P Q : q 125%N = false -> (forall c, p c = true <-> P c) -> (forall c, q c = true <-> Q c) -> p 95%N = false ->
  (forall w s r, shape w k s r <-> exists u c x, s = tx "{" ++ u ++ [c] ++ x ++ tx "}" /\ (u = [] \/ u = tx "_") /\ P c /\ all_are Q x) ->
  good_group k [plain [Lit (tx "{_"); One p; Many q; Lit (tx "}")]; plain [Lit (tx "{"); One p; Many q; Lit (tx "}")]].
Proof.
  intros Q0 HP HQ P0 H. apply group_many.
  - intros w s r. rewrite H. split.
    + intros (u & c & x & -> & [->| ->] & Pc & A).
      * eexists. split; [right; left; reflexivity|]. apply fits_plain. apply mt_run; [exact Q0|]. exists c, x. split; [reflexivity|]. split; [now apply HP|]. intros d I. apply HQ. now apply A.
      * eexists. split; [left; reflexivity|]. apply fits_plain. apply mt_run; [exact Q0|]. exists c, x. split; [reflexivity|]. split; [now apply HP|]. intros d I. apply HQ. now apply A.
    + intros (a & [<-|[<-|[]]] & F); apply fits_plain in F; apply mt_run in F as (c & y & -> & Pc & A); try exact Q0.
      * exists (tx "_"), c, y. split; [reflexivity|]. split; [now right|]. split; [now apply HP|]. intros d I. apply HQ. now apply A.
      * exists [], c, y. split; [reflexivity|]. split; [now left|]. split; [now apply HP|]. intros d I. apply HQ. now apply A.
  - intros w a b s r s' r' Ia Ib Fa Fb E.
    assert (G : forall a0 s0 r0, In a0 [plain [Lit (tx "{_"); One p; Many q; Lit (tx "}")]; plain [Lit (tx "{"); One p; Many q; Lit (tx "}")]] -> fits w a0 s0 r0 ->
       exists u c y, s0 ++ r0 = 123%N :: u ++ c :: y ++ 125%N :: r0 /\ (u = [] \/ u = [95%N]) /\ p c = true /\ forall d, In d y -> q d = true).
    { intros a0 s0 r0 [<-|[<-|[]]] F; apply fits_plain in F; apply mt_run in F as (c & y & -> & Pc & A); try exact Q0.
      - exists [95%N], c, y. split; [cbn; now rewrite <- app_assoc|auto].
      - exists [], c, y. split; [cbn; now rewrite <- app_assoc|auto]. }
    destruct (G _ _ _ Ia Fa) as (u & c & y & E1 & U1 & Pc & A). destruct (G _ _ _ Ib Fb) as (u' & c' & y' & E2 & U2 & Pc' & A'). rewrite E1, E2 in E.
    assert (X : u = u' /\ c :: y ++ 125%N :: r = c' :: y' ++ 125%N :: r').
    { destruct U1 as [->| ->], U2 as [->| ->]; cbn [app] in E; split; try reflexivity; try congruence; exfalso; assert (c = 95%N \/ c' = 95%N) as [-> | ->] by (first [left; congruence|right; congruence]); congruence. }
    destruct X as (_ & X). apply (run_unique q 125%N y y'); try assumption. congruence.
Qed.
Lemma g_upper : good_group 1 [plain [Lit (tx "{_"); One upper; Many upname; Lit (tx "}")]; plain [Lit (tx "{"); One upper; Many upname; Lit (tx "}")]].
Proof.
  apply (g_brace 1 upper upname is_up (fun d => is_up d \/ d = 95%N \/ is_dig d)); [reflexivity|exact up_iff|exact upname_iff|reflexivity|]. intros w s r. split.
  - inversion 1; subst. now exists u, c, x.
  - intros (u & c & x & -> & U & P & A). now constructor.
Qed.
Lemma g_lower : good_group 2 [plain [Lit (tx "{_"); One lowerc; Many (wordc uw); Lit (tx "}")]; plain [Lit (tx "{"); One lowerc; Many (wordc uw); Lit (tx "}")]].
Proof.
  apply (g_brace 2 lowerc (wordc uw) is_low is_word); [reflexivity|exact low_iff|reflexivity|reflexivity|]. intros w s r. split.
  - inversion 1; subst. now exists u, c, x.
  - intros (u & c & x & -> & U & P & A). now constructor.
Qed.
(* alternatives that are literals, none the beginning of another *)
Lemma g_lits k (xs : list text) : (forall w s r, shape w k s r <-> In s xs) -> (forall x y, In x xs -> In y xs -> is_prefix x y = true -> x = y) -> good_group k (map (fun x => plain [Lit x]) xs).
Proof.
  intros H U. apply group_many.
  - intros w s r. rewrite H. split.
    + intros I. exists (plain [Lit s]). split; [now apply (in_map (fun x => plain [Lit x]))|]. now apply fits_plain, mt_lit.
    + intros (a & I & F). apply in_map_iff in I as (x & <- & I). apply fits_plain, mt_lit in F. now subst.
  - intros w a b s r s' r' Ia Ib Fa Fb E. apply in_map_iff in Ia as (x & <- & Ia). apply in_map_iff in Ib as (y & <- & Ib). apply fits_plain, mt_lit in Fa, Fb. subst s s'.
    apply app_eq_app in E as (z & [(X & Y)|(X & Y)]).
    + assert (Q : y = x) by (apply (U y x Ib Ia); apply begins_iff; now exists z). rewrite Q in X. rewrite <- (app_nil_r x) in X at 1. apply app_inv_head in X. now subst z.
    + assert (Q : x = y) by (apply (U x y Ia Ib); apply begins_iff; now exists z). rewrite Q in X. rewrite <- (app_nil_r y) in X at 1. apply app_inv_head in X. now subst z.
Qed.
Lemma prefix_free (xs : list text) : forallb (fun x => forallb (fun y => negb (is_prefix x y) || text_eqb x y) xs) xs = true -> forall x y, In x xs -> In y xs -> is_prefix x y = true -> x = y.
Proof. intros H x y I J P. assert (H' := proj1 (forallb_forall _ _) H x I). cbv beta in H'. assert (H2 := proj1 (forallb_forall _ _) H' y J). cbv beta in H2. rewrite P in H2. now apply text_eqb_eq. Qed.
Lemma g_tags : good_group 3 (map (fun x => plain [Lit (tx "</" ++ x ++ tx ">")]) tags ++ map (fun x => plain [Lit (tx "<" ++ x ++ tx ">")]) tags).
Proof.
  assert (E : map (fun x => plain [Lit (tx "</" ++ x ++ tx ">")]) tags ++ map (fun x => plain [Lit (tx "<" ++ x ++ tx ">")]) tags = map (fun x => plain [Lit x]) (map (fun x => tx "</" ++ x ++ tx ">") tags ++ map (fun x => tx "<" ++ x ++ tx ">") tags)) by (rewrite map_app, !map_map; reflexivity). rewrite E. apply g_lits; [|apply prefix_free; vm_compute; reflexivity].
  intros w s r. rewrite in_app_iff, !in_map_iff. split.
  - inversion 1 as [| | |u x r' U I| | | | | | | | | | | | | | | | | | | | | |]; subst. destruct U as [->| ->]; [right|left]; now exists x.
  - intros [(x & <- & I)|(x & <- & I)]; [apply (S_tag w (tx "/") x r); [now right|exact I]|apply (S_tag w [] x r); [now left|exact I]].
Qed.
Lemma g_norm : good_group 4 [plain [Lit (tx "<span normative-optional>")]; plain [Lit (tx "<ul normative-optional>")]].
Proof.
  apply (g_lits 4 [tx "<span normative-optional>"; tx "<ul normative-optional>"]); [|apply prefix_free; vm_compute; reflexivity]. intros w s r. split.
  - inversion 1; subst. let h := match goal with H : In _ _ |- _ => H | H : _ \/ _ |- _ => H end in destruct h as [<-|[<-|[]]]; [now left|right; now left].
  - intros [<-|[<-|[]]]; [apply (S_norm w (tx "span")); now left|apply (S_norm w (tx "ul")); right; now left].
Qed.
Lemma g_zero : good_group 5 [plain [Lit (tx "*"); One (one_of [43; 45]%N); Lit (tx "0*")]].
Proof.
  apply group_one. intros w s r. rewrite fits_plain. cbn [mt]. split.
  - intros (s1 & -> & c & s2 & -> & P & s3 & -> & ->). rewrite app_nil_r. apply one_of_iff in P. destruct P as [<-|[<-|[]]]; [apply (S_zero w (tx "+")); now left|apply (S_zero w (tx "-")); right; now left].
  - inversion 1; subst. let h := match goal with H : In _ _ |- _ => H | H : _ \/ _ |- _ => H end in destruct h as [<-|[<-|[]]].
    + exists (tx "+0*"). split; [reflexivity|]. exists 43%N, (tx "0*"). split; [reflexivity|]. split; [reflexivity|]. exists []. split; reflexivity.
    + exists (tx "-0*"). split; [reflexivity|]. exists 45%N, (tx "0*"). split; [reflexivity|]. split; [reflexivity|]. exists []. split; reflexivity.
Qed.
(* one or more between two marks *)
Lemma g_marks k (p : N -> bool) (P : N -> Prop) a c0 : p c0 = false -> (forall c, p c = true <-> P c) -> (forall w s r, shape w k s r <-> exists x, s = a ++ x ++ [c0] /\ x <> [] /\ all_are P x) ->
  good_group k [plain [Lit a; One p; Many p; Lit [c0]]].
Proof.
  intros P0 HP H. apply group_one. intros w s r. rewrite fits_plain, H, mt_run by exact P0. split.
  - intros (c & y & -> & Pc & A). exists (c :: y). split; [reflexivity|]. split; [discriminate|]. intros d [<-|I]; apply HP; auto.
  - intros (x & -> & NE & A). destruct x as [|c y]; [congruence|]. exists c, y. split; [reflexivity|]. split; [apply HP, A; now left|]. intros d I. apply HP, A. now right.
Qed.
Lemma g_star : good_group 6 [plain [Lit (tx "*"); One letter; Many letter; Lit (tx "*")]].
Proof. apply (g_marks 6 letter is_letter (tx "*") 42%N); [reflexivity|exact letter_iff|]. intros w s r. split; [inversion 1; subst; now exists x|]. intros (x & -> & NE & A). now apply (S_star w x r). Qed.
Lemma g_quote : good_group 7 [plain [Lit (tx "*"""); One (fun c => negb (c =? 34)%N); Lit (tx """*")]; plain [Lit (tx "*""""*")]].
Proof.
  assert (F1 : forall s r, mt [Lit (tx "*"""); One (fun c => negb (c =? 34)%N); Lit (tx """*")] s r <-> exists c, c <> 34%N /\ s = [42; 34; c; 34; 42]%N).
  { intros s r. cbn [mt]. split.
    - intros (s1 & -> & c & s2 & -> & P & s3 & -> & ->). apply Bool.negb_true_iff, N.eqb_neq in P. exists c. split; [exact P|reflexivity].
    - intros (c & P & ->). exists [c; 34; 42]%N. split; [reflexivity|]. exists c, [34; 42]%N. split; [reflexivity|]. split; [now apply Bool.negb_true_iff, N.eqb_neq|]. exists []. split; reflexivity. }
  apply group_many.
  - intros w s r. split.
    + inversion 1; subst. let h := match goal with H : In _ _ |- _ => H | H : _ \/ _ |- _ => H end in destruct h as [->|(c & P & ->)].
      * eexists. split; [right; left; reflexivity|]. now apply fits_plain, mt_lit.
      * eexists. split; [left; reflexivity|]. apply fits_plain, F1. now exists c.
    + intros (a & [<-|[<-|[]]] & F); apply fits_plain in F.
      * apply F1 in F as (c & P & ->). apply (S_quote w [c] r). right. now exists c.
      * apply mt_lit in F. subst s. apply (S_quote w [] r). now left.
  - intros w a b s r s' r' Ia Ib Fa Fb E.
    assert (G : forall a0 s0 r0, In a0 [plain [Lit (tx "*"""); One (fun c => negb (c =? 34)%N); Lit (tx """*")]; plain [Lit (tx "*""""*")]] -> fits w a0 s0 r0 -> (exists c, c <> 34%N /\ s0 = [42; 34; c; 34; 42]%N) \/ s0 = [42; 34; 34; 42]%N).
    { intros a0 s0 r0 [<-|[<-|[]]] F; apply fits_plain in F; [left; now apply F1 in F|right; now apply mt_lit in F]. }
    destruct (G _ _ _ Ia Fa) as [(c & P & ->)| ->]; destruct (G _ _ _ Ib Fb) as [(c' & P' & ->)| ->]; cbn [app] in E; congruence.
Qed.
Lemma g_tick : good_group 8 [plain [Lit (tx "`"); One (fun c => negb (c =? 96)%N); Many (fun c => negb (c =? 96)%N); Lit (tx "`")]].
Proof.
  apply (g_marks 8 (fun c => negb (c =? 96)%N) (fun c => c <> 96%N) (tx "`") 96%N); [reflexivity|intros c; now rewrite Bool.negb_true_iff, N.eqb_neq|]. intros w s r. split.
  - inversion 1; subst. exists x. split; [reflexivity|]. split; [assumption|]. intros c I ->. contradiction.
  - intros (x & -> & NE & A). apply (S_tick w x r NE). intros I. now apply (A _ I).
Qed.
Lemma g_amp : good_group 9 [plain [Lit (tx "&"); One lowerc; Many lowerc; Lit (tx ";")]].
Proof. apply (g_marks 9 lowerc is_low (tx "&") 59%N); [reflexivity|exact low_iff|]. intros w s r. split; [inversion 1; subst; now exists x|]. intros (x & -> & NE & A). now apply (S_amp w x r). Qed.
Lemma g_bar : good_group 10 [plain [Lit (tx "|"); One letter; Many alnum; Lit (tx "|")]].
Proof.
  apply group_one. intros w s r. rewrite fits_plain. change (tx "|") with [124%N] at 2. rewrite mt_run by reflexivity. split.
  - intros (c & y & -> & Pc & A). apply (S_bar w c y r); [now apply letter_iff|]. intros d I. now apply alnum_iff, A.
  - inversion 1; subst. exists c, x. split; [reflexivity|]. split; [now apply letter_iff|]. intros d I. apply alnum_iff; match goal with H : all_are _ _ |- _ => now apply H end.
Qed.
Lemma g_digits : good_group 15 [mkAlt true [One digit; Many digit] alnum].
Proof.
  apply group_one. intros w s r. fits_tac. rewrite (head_not_iff alnum is_alnum) by exact alnum_iff. split.
  - intros ((c & s1 & -> & D & x & s2 & -> & A & H & ->) & W & N0). rewrite app_nil_r. apply S_digits; [auto|discriminate| |exact N0]. intros d [<-|I]; apply dig_iff; auto.
  - inversion 1; subst. destruct s as [|c x]; [congruence|]. split; [|auto]. exists c, x. split; [reflexivity|]. split; [apply dig_iff; match goal with H : all_are _ _ |- _ => apply H end; now left|]. exists x, []. split; [now rewrite app_nil_r|]. split; [intros d I; apply dig_iff; match goal with H : all_are _ _ |- _ => apply H end; now right|]. split; [|reflexivity]. cbn [app]. destruct r as [|d r]; [exact I|]. match goal with H : next_not _ _ |- _ => cbn in H; rename H into NX end. cbn. apply Bool.not_true_iff_false. intros X. apply dig_iff in X. apply NX. right. now right.
Qed.
Lemma g_punct : good_group 16 [plain [One (one_of (tx "-!()*+,./:;=>?{}"))]].
Proof.
  apply group_one. intros w s r. rewrite fits_plain. cbn [mt]. split.
  - intros (c & s1 & -> & P & ->). apply S_punct. now apply one_of_iff in P.
  - inversion 1; subst. exists c, []. split; [reflexivity|]. split; [now apply one_of_iff|reflexivity].
Qed.
Lemma g_sign : good_group 17 [plain [One (one_of [32; 171; 187; 215; 960; 8220; 8221; 8734; 8800; 8804; 8805]%N)]].
Proof.
  apply group_one. intros w s r. rewrite fits_plain. cbn [mt]. split.
  - intros (c & s1 & -> & P & ->). apply S_sign. now apply one_of_iff in P.
  - inversion 1; subst. exists c, []. split; [reflexivity|]. split; [now apply one_of_iff|reflexivity].
Qed.
Lemma g_an : good_group 20 [mkAlt true [Lit (tx "an?")] never].
Proof.
  apply group_one. intros w s r. unfold fits; cbn [a_body a_lead a_stop]. rewrite mt_lit. split; [intros (-> & W & _); now constructor; apply W|]. inversion 1; subst. split; [reflexivity|]. split; [auto|apply never_not].
Qed.
Lemma g_short : good_group 21 [word_alt uw [Lit (tx "doesn't")]; word_alt uw [Lit (tx "We've")]].
Proof.
  apply group_many.
  - intros w s r. split.
    + inversion 1; subst. let h := match goal with H : In _ _ |- _ => H | H : _ \/ _ |- _ => H end in destruct h as [<-|[<-|[]]]; eexists; (split; [|apply fits_word; rewrite mt_lit; auto]); cbn; auto.
    + intros (a & [<-|[<-|[]]] & F); apply fits_word in F as (M & W & N0); apply mt_lit in M; subst; constructor; auto; [now left|right; now left].
  - intros w a b s r s' r' Ia Ib Fa Fb E.
    destruct Ia as [<-|[<-|[]]], Ib as [<-|[<-|[]]]; apply fits_word in Fa as (M & _), Fb as (M' & _); apply mt_lit in M, M'; subst; try (cbn [app] in E; congruence); try (now apply app_inv_head in E); discriminate E.
Qed.
Lemma g_20th : good_group 22 [word_alt uw [Lit (tx "20th")]].
Proof. apply group_one. intros w s r. rewrite fits_word, mt_lit. split; [intros (-> & W & N0); now constructor|]. inversion 1; subst. auto. Qed.
Lemma g_word : good_group 23 [word_alt uw [One letter; Many alnum]].
Proof.
  apply group_one. intros w s r. rewrite fits_word. cbn [mt]. split.
  - intros ((c & s1 & -> & D & x & s2 & -> & A & H & ->) & W & N0). rewrite app_nil_r. apply S_word; [auto|now apply letter_iff| |exact N0]. intros d I. apply alnum_iff; auto.
  - inversion 1; subst. split; [|auto]. exists c, x. split; [reflexivity|]. split; [now apply letter_iff|]. exists x, []. split; [now rewrite app_nil_r|]. split; [intros d I; apply alnum_iff; match goal with H : all_are _ _ |- _ => now apply H end|]. split; [|reflexivity]. cbn [app]. destruct r as [|d r]; [exact I|]. match goal with H : next_not _ _ |- _ => cbn in H; rename H into NX end. cbn. apply Bool.not_true_iff_false. intros X. apply NX. unfold is_word, wordc. unfold alnum in X. rewrite !Bool.orb_true_iff in X. rewrite !Bool.orb_true_iff. tauto.
Qed.
Lemma g_category : good_group 24 [word_alt uw [Lit (tx "General_Category")]].
Proof. apply group_one. intros w s r. rewrite fits_word, mt_lit. split; [intros (-> & W & N0); now constructor|]. inversion 1; subst. auto. Qed.
Lemma g_s : good_group 25 [mkAlt false [Lit (tx "'s")] (wordc uw)].
Proof. apply group_one. intros w s r. unfold fits; cbn [a_body a_lead a_stop]. rewrite mt_lit, (head_not_iff (wordc uw) is_word) by reflexivity. split; [intros (-> & W & N0); now constructor|]. inversion 1; subst. split; [reflexivity|]. split; [discriminate|assumption]. Qed.
Lemma groups_good : forall k g, nth_error (groups uw) k = Some g -> good_group k g.
Proof.
  intros k g E. do 26 (destruct k as [|k]; [cbn [groups nth_error] in E; injection E as <-;
    first [exact g_space|exact g_upper|exact g_lower|exact g_tags|exact g_norm|exact g_zero|exact g_star|exact g_quote|exact g_tick|exact g_amp|exact g_bar
      |exact g_digits|exact g_punct|exact g_sign|exact g_an|exact g_short|exact g_20th|exact g_word|exact g_category|exact g_s
      |apply g_lit; intros w s r; split; [now inversion 1|intros ->; constructor]]|]).
  cbn [groups nth_error] in E. destruct k; discriminate.
Qed.
Lemma shape_bound w k s r : shape w k s r -> k < length (groups uw).
Proof. assert (L : length (groups uw) = 26) by reflexivity. rewrite L. inversion 1; lia. Qed.

Lemma first_some_at_iff {A B} (f : A -> option B) l r : first_some f l = Some r <-> exists k g, nth_error l k = Some g /\ f g = Some r /\ forall k' g', k' < k -> nth_error l k' = Some g' -> f g' = None.
Proof.
  induction l as [|a l IH]; cbn [first_some].
  - split; [discriminate|]. intros ([|k] & g & E & _); discriminate.
  - destruct (f a) as [b|] eqn:F.
    + split.
      * intros E. exists 0, a. split; [reflexivity|]. split; [congruence|]. intros k' g' L. lia.
      * intros ([|k] & g & E & G & N0); [cbn in E; congruence|]. rewrite (N0 0 a) in F; [discriminate|lia|reflexivity].
    + rewrite IH. split.
      * intros (k & g & E & G & N0). exists (S k), g. split; [exact E|]. split; [exact G|]. intros [|k'] g' L E'; [cbn in E'; congruence|]. apply (N0 k'); [lia|exact E'].
      * intros ([|k] & g & E & G & N0); [cbn in E; congruence|]. exists k, g. split; [exact E|]. split; [exact G|]. intros k' g' L E'. apply (N0 (S k')); [lia|exact E'].
Qed.
Lemma first_none {A B} (f : A -> option B) l : first_some f l = None -> forall a, In a l -> f a = None.
Proof. induction l as [|b l IH]; cbn [first_some]; intros H a; [intros []|]. destruct (f b) eqn:F; [discriminate|]. intros [<-|I]; auto. Qed.
Lemma piece_iff w t r : piece_at uw w t = Some r <-> exists s, t = s ++ r /\ first_piece w s r.
Proof.
  unfold piece_at. rewrite first_some_at_iff. split.
  - intros (k & g & E & G & N0). destruct (groups_good k g E) as (A & _). destruct (A w t r G) as (s & -> & X). exists s. split; [reflexivity|]. exists k. split; [exact X|]. intros k' s' r' Q X'. destruct (Nat.le_gt_cases k k') as [L|L]; [exact L|exfalso].
    assert (K := shape_bound _ _ _ _ X'). destruct (nth_error (groups uw) k') as [g'|] eqn:E'; [|apply nth_error_None in E'; lia]. destruct (groups_good k' g' E') as (_ & B). specialize (B w s' r' X'). rewrite Q in B. rewrite (N0 k' g' L E') in B. discriminate.
  - intros (s & -> & k & X & M). assert (K := shape_bound _ _ _ _ X). destruct (nth_error (groups uw) k) as [g|] eqn:E; [|apply nth_error_None in E; lia]. exists k, g. split; [exact E|]. destruct (groups_good k g E) as (_ & B). split; [now apply B|]. intros k' g' L E'. destruct (first_some (try_alt w (s ++ r)) g') as [r'|] eqn:F; [exfalso|reflexivity]. destruct (groups_good k' g' E') as (A' & _). destruct (A' _ _ _ F) as (s' & T & X'). specialize (M k' s' r' (eq_sym T) X'). lia.
Qed.
Lemma first_fun w s r s' r' : first_piece w s r -> first_piece w s' r' -> s ++ r = s' ++ r' -> s = s' /\ r = r'.
Proof.
  intros F F' E. assert (P := proj2 (piece_iff w (s ++ r) r) (ex_intro _ s (conj eq_refl F))). assert (P' := proj2 (piece_iff w (s' ++ r') r') (ex_intro _ s' (conj eq_refl F'))). rewrite E in P. assert (r = r') by congruence. subst r'. apply app_inv_tail in E. auto.
Qed.
Lemma first_char w k s r : shape w k s r -> exists c s', s = c :: s' /\ c <> 92%N /\ c <> 35%N.
Proof.
  inversion 1; subst; try (eexists _, _; split; [reflexivity|split; discriminate]).
  - destruct s as [|c x]; [congruence|]. exists c, x. split; [reflexivity|]. match goal with H : all_are _ _ |- _ => assert (D := H c (or_introl eq_refl)) end. unfold is_dig in D. lia.
  - exists c, []. split; [reflexivity|]. split; intros ->; match goal with H : In _ _ |- _ => cbn in H; intuition discriminate end.
  - exists c, []. split; [reflexivity|]. split; intros ->; match goal with H : In _ _ |- _ => cbn in H; intuition discriminate end.
  - match goal with H : In _ _ |- _ => destruct H as [<-|[<-|[]]] end; eexists _, _; (split; [reflexivity|split; discriminate]).
  - exists c, x. split; [reflexivity|]. match goal with H : is_letter _ |- _ => unfold is_letter, is_up, is_low in H end. lia.
Qed.
Lemma last_word_iff s : last_word uw s = true <-> ends_in_word s.
Proof.
  unfold last_word, ends_in_word. destruct (rev s) as [|c x] eqn:R.
  - apply (f_equal (@rev N)) in R. rewrite rev_involutive in R. subst s. split; [discriminate|]. intros (a & c & E & _). now destruct a.
  - apply (f_equal (@rev N)) in R. rewrite rev_involutive in R. cbn [rev] in R. split; [intros W; now exists (rev x), c|]. intros (a & d & E & W). rewrite R in E. apply app_inj_tail in E as (_ & <-). exact W.
Qed.
Lemma read_rhs_spec un f : forall w t, length t <= f -> (exists ps, read_rhs uw un f w t = Ok ps /\ cut w t ps) \/ (read_rhs uw un f w t = Err SystemExit /\ forall ps, ~ cut w t ps).
Proof.
  induction f as [|f IH]; intros w t L.
  - destruct t; [|cbn in L; lia]. left. exists []. split; [reflexivity|constructor].
  - destruct t as [|c t]; [left; exists []; split; [reflexivity|constructor]|]. remember (c :: t) as u eqn:U. assert (EQ : read_rhs uw un (S f) w u = match piece_at uw w u with None => Err SystemExit | Some r => let s := firstn (length u - length r) u in do ps <- read_rhs uw un f (last_word uw s) r ;; Ok ((if is_prefix (tx "\u") s then un s else s) :: ps) end) by (rewrite U; reflexivity). rewrite EQ. clear EQ.
    destruct (piece_at uw w u) as [r|] eqn:P.
    + apply piece_iff in P as (s & E & F). assert (S0 : firstn (length u - length r) u = s). { rewrite E, app_length, Nat.add_sub, firstn_app, Nat.sub_diag, firstn_all. cbn [firstn]. apply app_nil_r. }
      cbv zeta. rewrite S0. destruct F as (k & X & M). destruct (first_char _ _ _ _ X) as (d & s' & ES & ND & _). assert (NP : is_prefix (tx "\u") s = false). { apply Bool.not_true_iff_false. intros B. apply begins_iff in B as (z & B). rewrite ES in B. change (tx "\u") with [92; 117]%N in B. cbn [app] in B. congruence. } rewrite NP.
      destruct (IH (last_word uw s) r) as [(ps & R & C)|(R & NC)].
      * rewrite E, app_length, ES in L. cbn [length] in L. lia.
      * left. exists (s :: ps). rewrite R. split; [reflexivity|]. rewrite E. apply (Cut_cons w (last_word uw s)); [now exists k|apply last_word_iff|exact C].
      * right. rewrite R. split; [reflexivity|]. intros ps C. inversion C as [|w0 w' s0 r0 ps' F0 W0 C0 E1 E2 E3]; [subst; discriminate|]. assert (Q : s0 ++ r0 = s ++ r) by congruence. destruct (first_fun w s0 r0 s r F0 (ex_intro _ k (conj X M)) Q) as (-> & ->). assert (w' = last_word uw s). { assert (LW := last_word_iff s). destruct w', (last_word uw s); try reflexivity; intuition congruence. } subst w'. exact (NC ps' C0).
    + right. split; [reflexivity|]. intros ps C. inversion C as [|w0 w' s0 r0 ps' F0 W0 C0 E1 E2 E3]; [subst; discriminate|]. assert (Q : piece_at uw w u = Some r0) by (apply piece_iff; exists s0; split; [congruence|exact F0]). congruence.
Qed.
Lemma cut_fun w t ps ps' : cut w t ps -> cut w t ps' -> ps = ps'.
Proof.
  intros C. revert ps'. induction C as [w|w w' s r ps F W C IH]; intros ps' C'.
  - inversion C' as [|w0 w1 s0 r0 ps0 F0 W0 C0 E1 E2 E3]; [reflexivity|]. destruct F0 as (k & X & _). destruct (first_char _ _ _ _ X) as (c & s' & -> & _). discriminate.
  - inversion C' as [w0 E1 E2 E3|w0 w1 s0 r0 ps0 F0 W0 C0 E1 E2 E3].
    + destruct F as (k & X & _). destruct (first_char _ _ _ _ X) as (c & s' & -> & _). discriminate.
    + destruct (first_fun _ _ _ _ _ F0 F E2) as (-> & ->). f_equal. apply IH. assert (w1 = w') as -> by (destruct w1, w'; try reflexivity; intuition congruence). exact C0.
Qed.
Lemma cut_concat w t ps : cut w t ps -> concat ps = t /\ forall s, In s ps -> exists w k r, shape w k s r.
Proof.
  induction 1 as [w|w w' s r ps F W C (IH & IA)]; [split; [reflexivity|intros s []]|]. split; [cbn [concat]; congruence|]. intros x [<-|I]; [|auto]. destruct F as (k & X & _). eauto.
Qed.
End Shapes.

(* ------------------------------------------------------------------ *)
(* lines *)
Inductive lk := Skip | Head (nt : text) | Body (rhs : text) (ps : list text).
Definition is_nt (s : text) : Prop := exists c x, s = tx "{" ++ [c] ++ x ++ tx "}" /\ (is_up c \/ c = 95%N) /\ all_are (fun d => is_up d \/ d = 95%N \/ is_dig d) x.
Definition comment (l : text) : Prop := exists k r, l = repeat 32%N k ++ tx "#" ++ r.
Definition body_text (l rhs : text) : Prop :=
  exists z, l = tx " " ++ z ++ rhs /\ all_are (fun c => py_space c = true) z /\ next_not (fun c => py_space c = true) rhs.
Definition reads (uw : N -> bool) (l : text) (k : lk) : Prop :=
  match k with
  | Skip => l = [] \/ comment l
  | Head nt => l = nt ++ tx " :" /\ is_nt nt
  | Body rhs ps => body_text l rhs /\ ((cut uw false rhs ps /\ ~ In (tx "{EPSILON}") ps) \/ (cut uw false rhs [tx "{EPSILON}"] /\ ps = []))
  end.
Definition heads (ks : list lk) : list text := flat_map (fun k => match k with Head nt => [nt] | _ => [] end) ks.
Definition last_head (ks : list lk) : option text := match rev (heads ks) with nt :: _ => Some nt | [] => None end.
(* a production for every line of a right-hand side, with the left-hand side last before it *)
Definition prods_of (ks : list lk) : list pprod :=
  flat_map (fun i => match nth_error ks i with Some (Body rhs ps) => [mkPProd (last_head (firstn i ks)) rhs ps] | _ => [] end) (seq 0 (length ks)).
Definition lines_of (g : text) (ls : list text) : Prop := ls <> [] /\ (forall l, In l ls -> ~ In 10%N l) /\ g = joined [10%N] ls.
Definition defined (ks : list lk) : Prop := forall rhs ps s, In (Body rhs ps) ks -> In s ps -> is_nt s -> In s (heads ks).

Lemma split_nl_go l : ~ In 10%N l -> forall acc, split_go [10%N] 0 acc l = [rev acc ++ l].
Proof.
  induction l as [|c l IH]; intros N0 acc; cbn [split_go]; [now rewrite app_nil_r|]. assert (C : (10 =? c)%N = false) by (apply N.eqb_neq; intros Q; apply N0; left; congruence). cbn [is_prefix]. rewrite C. cbn [andb]. rewrite IH; [cbn [rev]; now rewrite <- app_assoc|]. intros I. apply N0. now right.
Qed.
Lemma split_nl_sep l r : ~ In 10%N l -> forall acc, split_go [10%N] 0 acc (l ++ 10%N :: r) = (rev acc ++ l) :: split_go [10%N] 0 [] r.
Proof.
  induction l as [|c l IH]; intros N0 acc; cbn [split_go app].
  - cbn [is_prefix]. rewrite N.eqb_refl. cbn [andb length Nat.sub]. now rewrite app_nil_r.
  - assert (C : (10 =? c)%N = false) by (apply N.eqb_neq; intros Q; apply N0; left; congruence). cbn [is_prefix]. rewrite C. cbn [andb]. rewrite IH; [cbn [rev]; now rewrite <- app_assoc|]. intros I. apply N0. now right.
Qed.
Lemma lines_split g ls : lines_of g ls -> split_on [10%N] g = ls.
Proof.
  intros (NE & A & ->). unfold split_on. induction ls as [|l ls IH]; [congruence|]. destruct ls as [|m ls].
  - cbn [joined]. apply split_nl_go. apply A. now left.
  - change (joined [10%N] (l :: m :: ls)) with (l ++ [10%N] ++ joined [10%N] (m :: ls)). cbn [app]. rewrite split_nl_sep by (apply A; now left). cbn [rev app]. f_equal. apply IH; [discriminate|]. intros x I. apply A. now right.
Qed.
Lemma lines_exist g : exists ls, lines_of g ls.
Proof.
  induction g as [|c g (ls & NE & A & E)]; [exists [[]]; split; [discriminate|]; split; [intros l [<-|[]] []|reflexivity]|]. destruct (N.eq_dec c 10) as [->|NC].
  - exists ([] :: ls). split; [discriminate|]. split; [intros l [<-|I]; [intros []|auto]|]. destruct ls as [|m ls]; [congruence|]. change (joined [10%N] ([] :: m :: ls)) with ([10%N] ++ joined [10%N] (m :: ls)). cbn [app]. congruence.
  - destruct ls as [|m ls]; [congruence|]. exists ((c :: m) :: ls). split; [discriminate|]. split.
    + intros l [<-|I]; [intros [->|J]; [congruence|now apply (A m (or_introl eq_refl))]|apply A; now right].
    + rewrite E. destruct ls; reflexivity.
Qed.
Lemma lines_fun g ls ls' : lines_of g ls -> lines_of g ls' -> ls = ls'.
Proof. intros H H'. apply lines_split in H, H'. congruence. Qed.
Lemma drop_sp_split t : exists k, t = repeat 32%N k ++ drop_sp t /\ match drop_sp t with c :: _ => c <> 32%N | [] => True end.
Proof.
  induction t as [|c t (k & E & H)]; [now exists 0|]. cbn [drop_sp]. destruct (c =? 32)%N eqn:C; [|apply N.eqb_neq in C; now exists 0]. apply N.eqb_eq in C. subst c. exists (S k). split; [cbn [repeat app]; congruence|exact H].
Qed.
Lemma comment_iff l : is_prefix (tx "#") (drop_sp l) = true <-> comment l.
Proof.
  rewrite begins_iff. split.
  - intros (r & E). destruct (drop_sp_split l) as (k & T & _). rewrite E in T. now exists k, r.
  - intros (k & r & ->). exists r. induction k as [|k IH]; [reflexivity|]. exact IH.
Qed.
Lemma drop_spaces_split t : exists z, t = z ++ drop_spaces t /\ all_are (fun c => py_space c = true) z /\ next_not (fun c => py_space c = true) (drop_spaces t).
Proof.
  induction t as [|c t (z & E & A & H)]; [exists []; repeat split; intros c []|]. cbn [drop_spaces]. destruct (py_space c) eqn:P.
  - exists (c :: z). split; [cbn [app]; congruence|]. split; [|exact H]. intros d [<-|I]; auto.
  - exists []. split; [reflexivity|]. split; [intros d []|]. cbn [next_not]. rewrite P. discriminate.
Qed.
Lemma drop_spaces_app z r : all_are (fun c => py_space c = true) z -> next_not (fun c => py_space c = true) r -> drop_spaces (z ++ r) = r.
Proof.
  induction z as [|c z IH]; intros A H; cbn [app drop_spaces].
  - destruct r as [|c r]; [reflexivity|]. cbn [next_not] in H. cbn [drop_spaces]. destruct (py_space c); [exfalso; now apply H|reflexivity].
  - rewrite (A c (or_introl eq_refl)). apply IH; [|exact H]. intros d I. apply A. now right.
Qed.
Lemma body_iff l rhs : body_text l rhs <-> is_prefix (tx " ") l = true /\ rhs = drop_spaces l.
Proof.
  rewrite begins_iff. unfold body_text. split.
  - intros (z & -> & A & H). split; [now exists (z ++ rhs)|]. change (tx " " ++ z ++ rhs) with ((32%N :: z) ++ rhs). symmetry. apply drop_spaces_app; [|exact H]. intros c [<-|I]; [reflexivity|auto].
  - intros ((r & ->) & ->). destruct (drop_spaces_split r) as (z & E & A & H). exists z. change (drop_spaces (tx " " ++ r)) with (drop_spaces r). split; [congruence|]. auto.
Qed.
Lemma nt_iff a b s : nt_name (between a b s) = true <-> exists c x, s = a ++ ([c] ++ x) ++ b /\ (is_up c \/ c = 95%N) /\ all_are (fun d => is_up d \/ d = 95%N \/ is_dig d) x.
Proof.
  destruct (between a b s) as [m|] eqn:B.
  - apply between_iff in B. subst s. destruct m as [|c x]; cbn [nt_name].
    + split; [discriminate|]. intros (c & x & E & _). apply app_inv_head, (app_inv_tail b []) in E. discriminate.
    + rewrite Bool.andb_true_iff, Bool.orb_true_iff, up_iff, N.eqb_eq, forallb_forall. split.
      * intros (C & X). exists c, x. split; [reflexivity|]. split; [exact C|]. intros d I. apply (proj1 (upname_iff d)). now apply X.
      * intros (c' & x' & E & C & X). apply app_inv_head, app_inv_tail in E. injection E as <- <-. split; [exact C|]. intros d I. apply (proj2 (upname_iff d)). now apply X.
  - split; [discriminate|]. intros (c & x & -> & _). assert (Q := proj2 (between_iff a b (a ++ ([c] ++ x) ++ b) ([c] ++ x)) eq_refl). congruence.
Qed.
Lemma is_nt_iff s : nt_name (between (tx "{") (tx "}") s) = true <-> is_nt s.
Proof. rewrite nt_iff. unfold is_nt. split; intros (c & x & -> & H); exists c, x; (split; [|exact H]); now rewrite <- ?app_assoc. Qed.
Lemma head_iff l nt : nt_name (between (tx "{") (tx "} :") l) = true /\ nt = firstn (length l - 2) l <-> l = nt ++ tx " :" /\ is_nt nt.
Proof.
  rewrite nt_iff. unfold is_nt. split.
  - intros ((c & x & -> & H) & E). assert (Q : tx "{" ++ ([c] ++ x) ++ tx "} :" = (tx "{" ++ ([c] ++ x) ++ tx "}") ++ tx " :") by (rewrite <- !app_assoc; reflexivity). rewrite Q in *. rewrite app_length in E. change (length (tx " :")) with 2 in E. rewrite Nat.add_sub, firstn_app, Nat.sub_diag, firstn_all in E. cbn [firstn] in E. rewrite app_nil_r in E. subst nt. split; [reflexivity|]. exists c, x. split; [now rewrite <- app_assoc|exact H].
  - intros (-> & c & x & -> & H). split.
    + exists c, x. split; [rewrite <- !app_assoc; reflexivity|exact H].
    + rewrite app_length. change (length (tx " :")) with 2. rewrite Nat.add_sub, firstn_app, Nat.sub_diag, firstn_all. cbn [firstn]. now rewrite app_nil_r.
Qed.
(* one line *)
Definition step (st : gstate) (k : lk) : gstate :=
  match k with
  | Skip => st
  | Head nt => mkGState (nt :: g_lhs st) (Some nt) (g_prods st)
  | Body rhs ps => mkGState (g_lhs st) (g_cur st) (g_prods st ++ [mkPProd (g_cur st) rhs ps])
  end.
Definition fresh (st : gstate) (k : lk) : Prop := match k with Head nt => ~ In nt (g_lhs st) | _ => True end.
Definition uncut (uw : N -> bool) (l : text) : Prop := l <> [] /\ ~ comment l /\ exists rhs, body_text l rhs /\ forall ps, ~ cut uw false rhs ps.
Lemma not_comment uw l rhs ps : body_text l rhs -> cut uw false rhs ps -> ~ comment l.
Proof.
  intros B C (k & r & E). apply body_iff in B as (_ & B). assert (D : rhs = tx "#" ++ r). { rewrite B, E. clear. induction k as [|k IH]; [reflexivity|exact IH]. }
  inversion C as [w E1 E2 E3|w w' s r0 ps0 F W C0 E1 E2 E3]; [rewrite D in E2; discriminate|]. destruct F as (j & X & _). destruct (first_char _ _ _ _ _ X) as (c & s' & -> & _ & N0). rewrite D in E2. change (tx "#" ++ r) with (35%N :: r) in E2. cbn [app] in E2. congruence.
Qed.
Lemma line_cases uw un st l : (exists k, reads uw l k /\ fresh st k /\ read_line uw un st l = Ok (step st k)) \/
  (read_line uw un st l = Err AssertionError /\ (forall k, reads uw l k -> ~ fresh st k) /\ ~ uncut uw l) \/ (read_line uw un st l = Err SystemExit /\ (forall k, ~ reads uw l k) /\ uncut uw l).
Proof.
  unfold read_line. destruct (text_eqb l []) eqn:E0; [apply text_eqb_eq in E0; left; exists Skip; repeat split; now left|]. assert (NL : l <> []) by (intros ->; discriminate).
  destruct (is_prefix (tx "#") (drop_sp l)) eqn:C0; [apply comment_iff in C0; left; exists Skip; repeat split; now right|]. assert (NC : ~ comment l) by (intros X; apply comment_iff in X; congruence).
  destruct (is_prefix (tx " ") l) eqn:S0; cbn [negb].
  - assert (B : body_text l (drop_spaces l)) by now apply body_iff. assert (BU : forall rhs, body_text l rhs -> rhs = drop_spaces l) by (intros rhs X; apply body_iff in X; tauto).
    assert (NH : forall nt, ~ reads uw l (Head nt)). { intros nt (-> & c & x & -> & _). apply begins_iff in S0 as (z & E). discriminate E. }
    destruct (read_rhs_spec uw un (length (drop_spaces l)) false (drop_spaces l) (le_n _)) as [(ps & R & C)|(R & N0)]; rewrite R; cbn [bind].
    + destruct (tmem_ (tx "{EPSILON}") ps) eqn:T.
      * apply L_Validate.tmem_iff_ in T. destruct ps as [|p [|q ps]]; [destruct T| |].
        -- destruct T as [->|[]]. cbn [assert_ bind]. left. exists (Body (drop_spaces l) []). split; [split; [exact B|now right]|]. split; [exact I|reflexivity].
        -- cbn [assert_ bind]. right; left. split; [reflexivity|]. split.
           ++ intros [|nt|rhs qs] X _; [destruct X as [X|X]; contradiction|now apply (NH nt)|]. destruct X as (B' & X). apply BU in B'. subst rhs. destruct X as [(C' & N0)|(C' & _)]; assert (Q := cut_fun _ _ _ _ _ C C'); [subst qs; contradiction|discriminate].
           ++ intros (_ & _ & rhs & B' & X). apply BU in B'. subst rhs. exact (X _ C).
      * assert (N0 : ~ In (tx "{EPSILON}") ps) by (intros X; apply L_Validate.tmem_iff_ in X; congruence). cbn [bind]. left. exists (Body (drop_spaces l) ps). split; [split; [exact B|now left]|]. split; [exact I|reflexivity].
    + right; right. split; [reflexivity|]. split.
      * intros [|nt|rhs qs] X; [destruct X as [X|X]; contradiction|now apply (NH nt)|]. destruct X as (B' & X). apply BU in B'. subst rhs. destruct X as [(C' & _)|(C' & _)]; exact (N0 _ C').
      * split; [exact NL|]. split; [exact NC|]. now exists (drop_spaces l).
  - assert (NB : forall rhs, ~ body_text l rhs) by (intros rhs X; apply body_iff in X as (X & _); congruence). assert (NU : ~ uncut uw l) by (intros (_ & _ & rhs & X & _); exact (NB rhs X)).
    destruct (nt_name (between (tx "{") (tx "} :") l)) eqn:H; cbn [assert_ bind].
    + set (nt := firstn (length l - 2) l). assert (HD := proj1 (head_iff l nt) (conj H eq_refl)). destruct (tmem_ nt (g_lhs st)) eqn:T; cbn [negb assert_ bind].
      * right; left. apply L_Validate.tmem_iff_ in T. split; [reflexivity|]. split; [|exact NU]. intros [|nt'|rhs qs] X F; [destruct X as [X|X]; contradiction| |destruct X as (X & _); exact (NB _ X)]. apply head_iff in X as (_ & ->). exact (F T).
      * left. exists (Head nt). split; [exact HD|]. split; [|reflexivity]. intros X. apply L_Validate.tmem_iff_ in X. congruence.
    + right; left. split; [reflexivity|]. split; [|exact NU]. intros [|nt'|rhs qs] X F; [destruct X as [X|X]; contradiction| |destruct X as (X & _); exact (NB _ X)]. apply head_iff in X as (X & _). congruence.
Qed.
Lemma reads_fun uw l k k' : reads uw l k -> reads uw l k' -> k = k'.
Proof.
  intros H H'. destruct k as [|nt|rhs ps], k' as [|nt'|rhs' ps']; try reflexivity.
  - exfalso. destruct H' as (-> & c & x & -> & _). destruct H as [H|([|k] & r & H)]; discriminate.
  - exfalso. destruct H' as (B & C). assert (exists qs, cut uw false rhs' qs) as (qs & C') by (destruct C as [(C & _)|(C & _)]; eauto). destruct H as [->|H]; [destruct B as (z & E & _); discriminate|]. exact (not_comment _ _ _ _ B C' H).
  - exfalso. destruct H as (-> & c & x & -> & _). destruct H' as [H|([|k] & r & H)]; discriminate.
  - apply head_iff in H as (_ & ->). apply head_iff in H' as (_ & ->). reflexivity.
  - exfalso. destruct H as (-> & c & x & -> & _). destruct H' as ((z & E & _) & _). discriminate.
  - exfalso. destruct H as (B & C). assert (exists qs, cut uw false rhs qs) as (qs & C') by (destruct C as [(C & _)|(C & _)]; eauto). destruct H' as [->|H]; [destruct B as (z & E & _); discriminate|]. exact (not_comment _ _ _ _ B C' H).
  - exfalso. destruct H' as (-> & c & x & -> & _). destruct H as ((z & E & _) & _). discriminate.
  - destruct H as (B & C), H' as (B' & C'). apply body_iff in B as (_ & ->). apply body_iff in B' as (_ & ->). f_equal. destruct C as [(C & N0)|(C & ->)], C' as [(C' & N0')|(C' & ->)]; assert (Q := cut_fun _ _ _ _ _ C C'); subst; try reflexivity; exfalso; [apply N0|apply N0']; now left.
Qed.
Fixpoint freshes (st : gstate) (ks : list lk) : Prop := match ks with [] => True | k :: ks' => fresh st k /\ freshes (step st k) ks' end.
Lemma freshes_iff ks : forall st, freshes st ks <-> NoDup (heads ks) /\ forall h, In h (heads ks) -> ~ In h (g_lhs st).
Proof.
  induction ks as [|k ks IH]; intros st; cbn [freshes]; [split; [intros _; split; [constructor|intros h []]|intros _; exact I]|]. rewrite IH. change (heads (k :: ks)) with ((match k with Head nt => [nt] | _ => [] end) ++ heads ks). destruct k as [|nt|rhs ps]; cbn [fresh step g_lhs app]; try tauto. split.
  - intros (F & ND & A). split; [constructor; [|exact ND]; intros I; apply (A nt I); now left|]. intros h [<-|I]; [exact F|]. intros J. apply (A h I). now right.
  - intros (ND & A). inversion ND as [|x l NI ND']; subst. split; [apply A; now left|]. split; [exact ND'|]. intros h I [<-|J]; [contradiction|]. apply (A h); [now right|exact J].
Qed.
Lemma step_lhs ks : forall st, g_lhs (fold_left step ks st) = rev (heads ks) ++ g_lhs st.
Proof.
  induction ks as [|k ks IH]; intros st; [reflexivity|]. cbn [fold_left]. rewrite IH. change (heads (k :: ks)) with ((match k with Head nt => [nt] | _ => [] end) ++ heads ks). destruct k as [|nt|rhs ps]; cbn [step g_lhs app]; try reflexivity. cbn [rev]. now rewrite <- app_assoc.
Qed.
Definition st0 : gstate := mkGState [] None [].
Lemma heads_app a b : heads (a ++ b) = heads a ++ heads b.
Proof. unfold heads. apply flat_map_app. Qed.
Lemma prods_snoc ks k : prods_of (ks ++ [k]) = prods_of ks ++ match k with Body rhs ps => [mkPProd (last_head ks) rhs ps] | _ => [] end.
Proof.
  unfold prods_of. rewrite app_length. cbn [length]. rewrite seq_app, flat_map_app. cbn [Nat.add seq flat_map]. rewrite app_nil_r. f_equal.
  - rewrite !flat_map_concat_map. f_equal. apply map_ext_in. intros i I. apply in_seq in I. rewrite nth_error_app1 by lia. destruct (nth_error ks i) as [[|nt|rhs ps]|]; try reflexivity. rewrite firstn_app. replace (i - length ks) with 0 by lia. cbn [firstn]. now rewrite app_nil_r.
  - rewrite nth_error_app2, Nat.sub_diag by lia. cbn [nth_error]. destruct k as [|nt|rhs ps]; try reflexivity. now rewrite firstn_app, Nat.sub_diag, firstn_all, app_nil_r.
Qed.
Lemma step_state ks : g_cur (fold_left step ks st0) = last_head ks /\ g_prods (fold_left step ks st0) = prods_of ks.
Proof.
  induction ks as [|k ks (IC & IP)] using rev_ind; [now split|]. rewrite fold_left_app, prods_snoc. cbn [fold_left]. unfold last_head. rewrite heads_app. split.
  - destruct k as [|nt|rhs ps]; cbn [step g_cur heads flat_map app]; rewrite ?app_nil_r; try exact IC. now rewrite rev_app_distr.
  - destruct k as [|nt|rhs ps]; cbn [step g_prods]; rewrite ?app_nil_r; try exact IP. now rewrite IP, IC.
Qed.
Lemma lines_cases uw un ls : forall st, (exists ks, Forall2 (reads uw) ls ks /\ freshes st ks /\ read_lines uw un st ls = Ok (fold_left step ks st)) \/
  (exists e a l b ks, ls = a ++ l :: b /\ Forall2 (reads uw) a ks /\ freshes st ks /\ read_line uw un (fold_left step ks st) l = Err e /\ read_lines uw un st ls = Err e).
Proof.
  induction ls as [|l ls IH]; intros st; [left; exists []; repeat split; constructor|]. cbn [read_lines]. destruct (line_cases uw un st l) as [(k & R & F & E)|H].
  - rewrite E. cbn [bind]. destruct (IH (step st k)) as [(ks & A & FF & Q)|(e & a & l' & b & ks & -> & A & FF & Q & Q')].
    + left. exists (k :: ks). split; [now constructor|]. split; [now split|exact Q].
    + right. exists e, (l :: a), l', b, (k :: ks). split; [reflexivity|]. split; [now constructor|]. split; [now split|]. split; [exact Q|exact Q'].
  - right. assert (exists e, read_line uw un st l = Err e) as (e & E) by (destruct H as [(E & _)|(E & _)]; eauto). exists e, [], l, ls, []. rewrite E. repeat split; try reflexivity; [constructor|exact E].
Qed.
Lemma forall2_fun {A B} (R : A -> B -> Prop) l : (forall x y y', R x y -> R x y' -> y = y') -> forall m m', Forall2 R l m -> Forall2 R l m' -> m = m'.
Proof. intros U. induction l as [|x l IH]; intros m m' H H'; inversion H; subst; inversion H'; subst; [reflexivity|]. f_equal; eauto. Qed.
Lemma forall2_cut {A B} (R : A -> B -> Prop) a x b m : Forall2 R (a ++ x :: b) m -> exists m1 y m2, m = m1 ++ y :: m2 /\ Forall2 R a m1 /\ R x y /\ Forall2 R b m2.
Proof. intros H. apply Forall2_app_inv_l in H as (m1 & m2 & H1 & H2 & ->). inversion H2; subst. eauto 8. Qed.
Lemma closed_iff ks : forallb (closed (g_lhs (fold_left step ks st0))) (prods_of ks) = true <-> defined ks.
Proof.
  assert (PI : forall p, In p (prods_of ks) -> exists i rhs, nth_error ks i = Some (Body rhs (pp_pieces p))).
  { intros p I. unfold prods_of in I. apply in_flat_map in I as (i & _ & I). destruct (nth_error ks i) as [[|nt|rhs ps]|] eqn:E; try now destruct I. exists i, rhs. destruct I as [<-|[]]. exact E. }
  assert (IP : forall rhs ps, In (Body rhs ps) ks -> exists p, In p (prods_of ks) /\ pp_pieces p = ps).
  { intros rhs ps I. apply In_nth_error in I as (i & E). eexists. split; [unfold prods_of; apply in_flat_map; exists i; split; [apply in_seq; assert (L : i < length ks) by (apply nth_error_Some; congruence); lia|rewrite E; left; reflexivity]|reflexivity]. }
  rewrite forallb_forall, step_lhs. cbn [st0 g_lhs]. rewrite app_nil_r. unfold closed, defined. split.
  - intros H rhs ps s I J N0. destruct (IP rhs ps I) as (p & P & E). specialize (H p P). rewrite forallb_forall in H. rewrite E in H. specialize (H s J). apply Bool.orb_true_iff in H as [H|H]; [apply is_nt_iff in N0; rewrite N0 in H; discriminate|]. apply L_Validate.tmem_iff_ in H. now apply in_rev.
  - intros H p P. destruct (PI p P) as (i & rhs & E). apply forallb_forall. intros s J. apply Bool.orb_true_iff. destruct (nt_name (between (tx "{") (tx "}") s)) eqn:Q; [right|now left]. apply L_Validate.tmem_iff_. rewrite <- in_rev. apply (H rhs (pp_pieces p) s); [eapply nth_error_In; exact E|exact J|now apply is_nt_iff].
Qed.

(* The grammar is accepted exactly if its lines are blank, comments, left-hand sides (each once) and right-hand sides that can be cut
   into pieces, and all nonterminals used have a left-hand side; the productions are then those written. *)
Theorem C98_grammar uw un g ls : lines_of g ls -> forall ps, convert_grammar_string_to_productions uw un g = Ok ps <->
  exists ks, Forall2 (reads uw) ls ks /\ NoDup (heads ks) /\ defined ks /\ ps = prods_of ks.
Proof.
  intros L ps. unfold convert_grammar_string_to_productions. rewrite (lines_split g ls L). fold st0. split.
  - intros H. destruct (lines_cases uw un ls st0) as [(ks & A & F & E)|(e & a & l & b & ks & _ & _ & _ & _ & E)]; rewrite E in H; [|discriminate]. cbn [bind] in H. destruct (step_state ks) as (_ & P). rewrite P in H. destruct (forallb _ _) eqn:C; [|discriminate]. cbn [assert_ bind] in H. exists ks. split; [exact A|]. split; [now apply (freshes_iff ks st0)|]. split; [now apply closed_iff|congruence].
  - intros (ks & A & ND & D & ->). destruct (lines_cases uw un ls st0) as [(ks' & A' & F & E)|(e & a & l & b & ks' & -> & A' & F & Q & E)]; rewrite E.
    + rewrite (forall2_fun _ ls (reads_fun uw) ks' ks A' A). cbn [bind]. destruct (step_state ks) as (_ & P). rewrite P, (proj2 (closed_iff ks) D). reflexivity.
    + exfalso. apply forall2_cut in A as (k1 & k & k2 & -> & A1 & R & A2). assert (ks' = k1) by exact (forall2_fun _ a (reads_fun uw) ks' k1 A' A1). subst ks'. destruct (line_cases uw un (fold_left step k1 st0) l) as [(k' & R' & F' & X)|[(_ & X & _)|(_ & X & _)]].
      * congruence.
      * apply (X k R). destruct k as [|nt|rhs qs]; cbn [fresh]; try exact I. rewrite step_lhs. cbn [st0 g_lhs]. rewrite app_nil_r, <- in_rev. rewrite heads_app in ND. cbn [heads flat_map app] in ND. apply NoDup_remove_2 in ND. intros J. apply ND. apply in_app_iff. now left.
      * exact (X k R).
Qed.
(* It ends the run by exit exactly if the first line that is not accepted is a right-hand side that cannot be cut into pieces;
   otherwise by the assertion. *)
Theorem C98_errors uw un g ls : lines_of g ls ->
  (forall e, convert_grammar_string_to_productions uw un g = Err e -> e = AssertionError \/ e = SystemExit) /\
  (convert_grammar_string_to_productions uw un g = Err SystemExit <->
   exists a l b ks, ls = a ++ l :: b /\ Forall2 (reads uw) a ks /\ NoDup (heads ks) /\ uncut uw l).
Proof.
  intros L. unfold convert_grammar_string_to_productions. rewrite (lines_split g ls L). fold st0. destruct (lines_cases uw un ls st0) as [(ks & A & F & E)|(e & a & l & b & ks & -> & A & F & Q & E)]; rewrite E; cbn [bind].
  - destruct (step_state ks) as (_ & P). rewrite P. split; [intros e; destruct (forallb _ _); cbn [assert_ bind]; [discriminate|left; congruence]|]. split; [destruct (forallb _ _); cbn [assert_ bind]; discriminate|]. intros (a & l & b & ks' & -> & A' & ND & U). exfalso. apply forall2_cut in A as (k1 & k & k2 & -> & A1 & R & A2). destruct (line_cases uw un (fold_left step ks' st0) l) as [(k' & R' & F' & X)|[(_ & _ & X)|(_ & X & _)]].
    + destruct U as (_ & NC & rhs & B & C). destruct k' as [|nt|rhs' qs]; [destruct R' as [->|R']; [destruct B as (z & Q & _); discriminate|contradiction]| |].
      * destruct R' as (-> & c & x & -> & _). destruct B as (z & Q & _). discriminate.
      * destruct R' as (B' & R'). apply body_iff in B as (_ & ->), B' as (_ & ->). destruct R' as [(R' & _)|(R' & _)]; exact (C _ R').
    + exact (X U).
    + exact (X k R).
  - split.
    + intros e' H. assert (e' = e) by congruence. subst e'. destruct (line_cases uw un (fold_left step ks st0) l) as [(k' & R' & F' & X)|[(X & _)|(X & _)]]; [congruence|left; congruence|right; congruence].
    + split.
      * intros H. assert (e = SystemExit) by congruence. subst e. exists a, l, b, ks. split; [reflexivity|]. split; [exact A|]. split; [now apply (freshes_iff ks st0)|]. destruct (line_cases uw un (fold_left step ks st0) l) as [(k' & R' & F' & X)|[(X & _)|(_ & _ & X)]]; [congruence|congruence|exact X].
      * intros (a' & l' & b' & ks' & EQ & A' & ND & U).
        (* both are the first line that is not accepted *)
        assert (BAD : forall k, ~ reads uw l' k). { destruct U as (NE & NC & rhs & B & C). intros [|nt|rhs' qs] R'; [destruct R' as [->|R']; contradiction| |]. - destruct R' as (-> & c & x & -> & _). destruct B as (z & X & _). discriminate. - destruct R' as (B' & R'). apply body_iff in B as (_ & ->), B' as (_ & ->). destruct R' as [(R' & _)|(R' & _)]; exact (C _ R'). }
        apply app_eq_app in EQ as (z & [(E1 & E2)|(E1 & E2)]).
        -- destruct z as [|y z].
           ++ cbn [app] in E2. assert (l' = l) by congruence. subst l'. destruct (line_cases uw un (fold_left step ks st0) l) as [(k' & R' & _)|[(_ & _ & X)|(X & _)]]; [now destruct (BAD k')|contradiction|congruence].
           ++ assert (y = l') by (cbn [app] in E2; congruence). subst y a. apply forall2_cut in A as (k1 & k & k2 & _ & _ & R & _). now destruct (BAD k).
        -- destruct z as [|y z].
           ++ cbn [app] in E2. assert (l' = l) by congruence. subst l'. destruct (line_cases uw un (fold_left step ks st0) l) as [(k' & R' & _)|[(_ & _ & X)|(X & _)]]; [now destruct (BAD k')|contradiction|congruence].
           ++ assert (y = l) by (cbn [app] in E2; congruence). subst y a'. apply forall2_cut in A' as (k1 & k & k2 & -> & A1 & R & A2). assert (ks = k1) by exact (forall2_fun _ a (reads_fun uw) ks k1 A A1). subst k1. exfalso. destruct (line_cases uw un (fold_left step ks st0) l) as [(k' & R' & F' & X)|[(_ & X & _)|(_ & X & _)]].
              ** congruence.
              ** apply (X k R). destruct k as [|nt|rhs qs]; cbn [fresh]; try exact I. rewrite step_lhs. cbn [st0 g_lhs]. rewrite app_nil_r, <- in_rev. rewrite heads_app in ND. cbn [heads flat_map app] in ND. apply NoDup_remove_2 in ND. intros J. apply ND. apply in_app_iff. now left.
              ** exact (X k R).
Qed.
(* The pieces of a production are its right-hand side, cut; no escape is ever undone. *)
Theorem C98_pieces uw un g ps : convert_grammar_string_to_productions uw un g = Ok ps -> forall p, In p ps ->
  ((concat (pp_pieces p) = pp_rhs p /\ cut uw false (pp_rhs p) (pp_pieces p)) \/ (pp_rhs p = tx "{EPSILON}" /\ pp_pieces p = [])) /\
  forall s, In s (pp_pieces p) -> is_nt s -> exists l, In l (split_on [10%N] g) /\ l = s ++ tx " :".
Proof.
  intros H p I. destruct (lines_exist g) as (ls & L). apply (C98_grammar uw un g ls L) in H as (ks & A & ND & D & ->). rewrite (lines_split g ls L). unfold prods_of in I. apply in_flat_map in I as (i & _ & I). destruct (nth_error ks i) as [k|] eqn:E; [|destruct I]. destruct k as [|nt|rhs qs]; try now destruct I. destruct I as [<-|[]]. cbn [pp_pieces pp_rhs]. apply nth_error_In in E.
  assert (AI : forall k, In k ks -> exists l, In l ls /\ reads uw l k). { clear - A. induction A as [|l k ls ks R A IH]; [intros k []|]. intros k' [<-|I]; [exists l; split; [now left|exact R]|]. destruct (IH k' I) as (l' & J & R'). exists l'. split; [now right|exact R']. }
  split.
  - destruct (AI _ E) as (l & _ & B & R). destruct R as [(C & _)|(C & ->)]; [left; split; [now apply (cut_concat uw) in C|exact C]|right; split; [|reflexivity]]. apply cut_concat in C as (C & _). symmetry. exact C.
  - intros s J NT. assert (X := D rhs qs s E J NT). unfold heads in X. apply in_flat_map in X as (k & K & X). destruct k as [|nt|rhs' qs']; try now destruct X. destruct X as [->|[]]. destruct (AI _ K) as (l & IL & R & _). now exists l.
Qed.
Theorem C98_escape uw un un' g : convert_grammar_string_to_productions uw un g = convert_grammar_string_to_productions uw un' g.
Proof.
  destruct (lines_exist g) as (ls & L). assert (G := C98_grammar uw un g ls L). assert (G' := C98_grammar uw un' g ls L). destruct (C98_errors uw un g ls L) as (E & X), (C98_errors uw un' g ls L) as (E' & X').
  destruct (convert_grammar_string_to_productions uw un g) as [ps|e] eqn:Q.
  - symmetry. apply G'. now apply G.
  - destruct (convert_grammar_string_to_productions uw un' g) as [ps'|e'] eqn:Q'; [assert (Y := proj2 (G ps') (proj1 (G' ps') eq_refl)); discriminate|].
    destruct (E e eq_refl) as [-> | ->], (E' e' eq_refl) as [-> | ->]; try reflexivity.
    + assert (Y := proj2 X (proj1 X' eq_refl)). discriminate.
    + assert (Y := proj2 X' (proj1 X eq_refl)). discriminate.
Qed.
Definition uw0 : N -> bool := fun _ => false.
Definition un0 : text -> text := fun t => t.
Definition nl : text := [10%N].
(* A name in braces that mixes capitals and small letters is not seen to be undefined: it is read as a brace, a word and a brace. *)
Theorem C98_mixed_refuted : exists p, convert_grammar_string_to_productions uw0 un0 (tx "{EX} :" ++ nl ++ tx "    {Ex}") = Ok [p] /\ pp_pieces p = [tx "{"; tx "Ex"; tx "}"].
Proof. eexists. split; [vm_compute; reflexivity|reflexivity]. Qed.
(* A nonterminal that no production defines is accepted if only it has a line of its own. *)
Theorem C98_unproduced_refuted : exists p, convert_grammar_string_to_productions uw0 un0 (tx "{A} :" ++ nl ++ tx "    {B}" ++ nl ++ tx "{B} :") = Ok [p] /\ pp_lhs p = Some (tx "{A}") /\ pp_pieces p = [tx "{B}"].
Proof. eexists. split; [vm_compute; reflexivity|split; reflexivity]. Qed.
(* A right-hand side before any left-hand side is a production of nothing; a line of spaces is one of the empty text. *)
Theorem C98_orphan_refuted : exists p q, convert_grammar_string_to_productions uw0 un0 (tx " x" ++ nl ++ tx "{A} :" ++ nl ++ tx "  ") = Ok [p; q] /\ pp_lhs p = None /\ pp_pieces p = [tx "x"] /\ pp_lhs q = Some (tx "{A}") /\ pp_pieces q = [].
Proof. eexists _, _. split; [vm_compute; reflexivity|repeat split]. Qed.

(* examples *)
Example C98_ex1 : convert_grammar_string_to_productions uw0 un0 (tx "# a comment" ++ nl ++ tx "{EX} :" ++ nl ++ tx "    {EX} + 20th {_indent_}&lt;|Id1|*null*" ++ nl ++ nl ++ tx "   {EPSILON}") =
  Ok [mkPProd (Some (tx "{EX}")) (tx "{EX} + 20th {_indent_}&lt;|Id1|*null*") [tx "{EX}"; tx " "; tx "+"; tx " "; tx "20th"; tx " "; tx "{_indent_}"; tx "&lt;"; tx "|Id1|"; tx "*null*"];
      mkPProd (Some (tx "{EX}")) (tx "{EPSILON}") []].
Proof. vm_compute; reflexivity. Qed.
Example C98_ex2 : lines_of (tx "{A} :" ++ nl ++ tx "  x") [tx "{A} :"; tx "  x"].
Proof. split; [discriminate|]. split; [|reflexivity]. intros l I. cbn in I. intuition (subst; discriminate || (cbn in *; intuition discriminate)). Qed.
Example C98_ex3 : convert_grammar_string_to_productions uw0 un0 (tx "{A} :" ++ nl ++ tx "  x_y") = Err SystemExit /\ convert_grammar_string_to_productions uw0 un0 (tx "{A} :" ++ nl ++ tx "  {B}") = Err AssertionError /\
  convert_grammar_string_to_productions uw0 un0 (tx "{A} :" ++ nl ++ tx "{A} :") = Err AssertionError /\ convert_grammar_string_to_productions uw0 un0 (tx "{A} :" ++ nl ++ tx "  {EPSILON} x") = Err AssertionError /\
  convert_grammar_string_to_productions uw0 un0 (tx "{A}:") = Err AssertionError.
Proof. repeat split; vm_compute; reflexivity. Qed.
Example C98_ex4 : piece_at uw0 false (tx "doesn't x") = Some (tx " x") /\ piece_at uw0 false (tx "12th") = None /\ piece_at uw0 true (tx "th") = None /\ piece_at uw0 false (tx "an? x") = Some (tx " x").
Proof. repeat split; vm_compute; reflexivity. Qed.

Print Assumptions C98_grammar.
Print Assumptions C98_errors.
Print Assumptions C98_pieces.
Print Assumptions C98_escape.
Print Assumptions C98_mixed_refuted.
Print Assumptions C98_unproduced_refuted.
Print Assumptions C98_orphan_refuted.
