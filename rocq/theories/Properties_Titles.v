(* C97: listings of parameters are read as their grammar says; titles are reported exactly for what is odd in them. *)
From Coq Require Import Ascii String Lia List.
From Verif Require Import M_Base L_Base M_HTML M_Shared M_Indent M_Records M_Refs L_Refs M_Meta M_Style L_StyleDesc L_ValTree M_PropPath L_PropPath Properties_PropPath M_Tables M_Titles.
Open Scope list_scope.
Open Scope nat_scope.
Notation length := List.length.

(* ------------------------------------------------------------------ *)
(* listings of parameters *)
(* what may follow a name: closing brackets, or an opening one *)
Inductive tail := Closed (k : nat) | Opened.
Record item := mkItem { i_open : bool; i_dots : bool; i_word : text; i_tail : tail; i_nl : bool }.
Definition if_ (b : bool) (t : text) : text := if b then t else [].
Definition tail_text (t : tail) : text := match t with Closed k => concat (repeat (tx " ]") k) | Opened => tx " [ " end.
Definition name_of (it : item) : text := tx "_" ++ i_word it ++ tx "_".
Definition written (it : item) : text := if_ (i_open it) (tx "[ ") ++ if_ (i_dots it) (tx "...") ++ name_of it ++ tail_text (i_tail it) ++ if_ (i_nl it) [10%N].
(* the parameter with that number comes after an opening bracket *)
Definition optional (its : list item) (i : nat) : Prop :=
  (exists j it, j <= i /\ nth_error its j = Some it /\ i_open it = true) \/ (exists j it, j < i /\ nth_error its j = Some it /\ i_tail it = Opened).
Definition listed (its : list item) (ps : list aparam) : Prop :=
  length ps = length its /\
  forall i it p, nth_error its i = Some it -> nth_error ps i = Some p ->
    ap_name p = name_of it /\ ap_nature p = tx "unknown" /\
    (i_dots it = true -> ~ optional its i /\ ap_punct p = tx "...") /\
    (i_dots it = false -> optional its i -> ap_punct p = tx "[]") /\
    (i_dots it = false -> ~ optional its i -> ap_punct p = tx "").
(* a text without the white space around it *)
Definition spaces (t : text) : Prop := forall c, In c t -> py_space c = true.
Definition no_space_first (t : text) : Prop := match t with [] => True | c :: _ => py_space c = false end.
Definition trimmed (s t : text) : Prop := exists a b, s = a ++ t ++ b /\ spaces a /\ spaces b /\ no_space_first t /\ no_space_first (rev t).

Lemma drop_app a u : spaces a -> no_space_first u -> drop_spaces (a ++ u) = u.
Proof.
  induction a as [|c a IH]; intros A U; cbn [app].
  - destruct u as [|c u]; [reflexivity|]. cbn [no_space_first] in U. cbn [drop_spaces]. now rewrite U.
  - cbn [drop_spaces]. rewrite (A c (or_introl eq_refl)). apply IH; [|exact U]. intros d I. apply A. now right.
Qed.
Lemma drop_split s : exists a, s = a ++ drop_spaces s /\ spaces a /\ no_space_first (drop_spaces s).
Proof.
  induction s as [|c s (a & E & A & N0)]; cbn [drop_spaces]; [exists []; split; [reflexivity|]; split; [intros c []|exact I]|]. destruct (py_space c) eqn:P.
  - exists (c :: a). split; [cbn [app]; now f_equal|]. split; [intros d [<-|I]; auto|exact N0].
  - exists []. split; [reflexivity|]. split; [intros d []|exact P].
Qed.
Lemma spaces_rev a : spaces a -> spaces (rev a). Proof. intros A c I. apply A. now apply in_rev. Qed.
Lemma drop_all a : spaces a -> drop_spaces a = [].
Proof. intros A. rewrite <- (app_nil_r a). now apply drop_app. Qed.
Lemma strip_iff s t : strip s = t <-> trimmed s t.
Proof.
  unfold strip. split.
  - intros <-. destruct (drop_split s) as (a & E & A & N0). destruct (drop_split (rev (drop_spaces s))) as (b & F & B & N1). exists a, (rev b). set (r := drop_spaces (rev (drop_spaces s))) in *.
    assert (G : drop_spaces s = rev r ++ rev b) by (rewrite <- rev_app_distr, <- F; now rewrite rev_involutive). split; [now rewrite <- G|]. split; [exact A|]. split; [now apply spaces_rev|]. split; [|now rewrite rev_involutive].
    rewrite G in N0. destruct (rev r); [exact I|exact N0].
  - intros (a & b & -> & A & B & N0 & N1). destruct t as [|c t].
    + cbn [app]. rewrite (drop_all (a ++ b)); [reflexivity|]. intros c I. apply in_app_iff in I as [I|I]; auto.
    + rewrite (drop_app a ((c :: t) ++ b) A N0), rev_app_distr, (drop_app (rev b) (rev (c :: t)) (spaces_rev b B) N1). apply rev_involutive.
Qed.

Section Params.
Variable uw : N -> bool.
Definition good (it : item) : Prop := wordy uw (i_word it).
Lemma take_word_app w r : (forall c, In c w -> wordc uw c = true) -> ends uw r -> take_word uw (w ++ r) = w.
Proof.
  induction w as [|c w IH]; intros W E; cbn [app].
  - destruct r as [|c r]; [reflexivity|]. cbn [ends] in E. unfold sharp in E. cbn [take_word]. now rewrite E.
  - cbn [take_word]. rewrite (W c (or_introl eq_refl)). f_equal. apply IH; [|exact E]. intros d I. apply W. now right.
Qed.
Lemma take_word_split t : exists r, t = take_word uw t ++ r /\ (forall c, In c (take_word uw t) -> wordc uw c = true) /\ ends uw r.
Proof.
  induction t as [|c t (r & E & W & N0)]; cbn [take_word]; [exists []; cbn; intuition|]. destruct (wordc uw c) eqn:P.
  - exists r. split; [cbn [app]; now f_equal|]. split; [intros d [<-|I]; auto|exact N0].
  - exists (c :: t). split; [reflexivity|]. split; [intros d []|exact P].
Qed.
Lemma drop_to_split c t : exists a, t = a ++ drop_to c t /\ (drop_to c t = [] \/ exists r, drop_to c t = c :: r).
Proof.
  induction t as [|x t (a & E & H)]; cbn [drop_to]; [exists []; auto|]. destruct (x =? c)%N eqn:P.
  - apply N.eqb_eq in P. subst x. exists []. split; [reflexivity|right; now exists t].
  - exists (x :: a). split; [cbn [app]; now f_equal|exact H].
Qed.
Lemma name_at_ok w r : wordy uw w -> ends uw r -> name_at uw (tx "_" ++ w ++ tx "_" ++ r) = Some (tx "_" ++ w ++ tx "_", r).
Proof.
  intros (NE & W) E. change (tx "_" ++ w ++ tx "_" ++ r) with (95%N :: (w ++ [95%N] ++ r)). unfold name_at. rewrite N.eqb_refl, app_assoc. rewrite take_word_app; [|intros c I; apply in_app_iff in I as [I|[<-|[]]]; [now apply W|reflexivity]|exact E].
  unfold up_to_last. rewrite rev_app_distr. cbn [rev app drop_to]. rewrite N.eqb_refl. cbv zeta.
  assert (L : (2 <=? length (95%N :: rev w)) = true) by (apply Nat.leb_le; cbn [length]; rewrite rev_length; destruct w; [congruence|cbn; lia]). rewrite L. cbn [rev]. rewrite rev_involutive. rewrite skipn_app, skipn_all, Nat.sub_diag. reflexivity.
Qed.
Lemma name_at_inv t n r : name_at uw t = Some (n, r) -> exists w, wordy uw w /\ n = tx "_" ++ w ++ tx "_" /\ t = n ++ r.
Proof.
  unfold name_at. destruct t as [|c u]; [discriminate|]. destruct (c =? 95)%N eqn:P; [|discriminate]. apply N.eqb_eq in P. subst c. destruct (up_to_last (take_word uw u)) as [m|] eqn:U; [|discriminate]. intros X. assert (n = 95%N :: m) by congruence. assert (r = skipn (length m) u) by congruence. clear X. subst n r.
  unfold up_to_last in U. destruct (drop_to_split 95 (rev (take_word uw u))) as (a & E & H). destruct (drop_to 95 (rev (take_word uw u))) as [|c d] eqn:D; [discriminate|]. destruct H as [H|(d' & H)]; [discriminate|]. assert (c = 95%N) by congruence. subst c. clear d' H. cbv zeta in U.
  destruct (2 <=? length (95%N :: d)) eqn:L; [|discriminate]. apply Nat.leb_le in L. assert (m = rev d ++ [95%N]) by (cbn [rev] in U; congruence). subst m. clear U. assert (F : take_word uw u = (rev d ++ [95%N]) ++ rev a) by (apply (f_equal (@rev N)) in E; rewrite rev_involutive, rev_app_distr in E; cbn [rev] in E; exact E).
  destruct (take_word_split u) as (r & T & W & _). rewrite F in T, W. exists (rev d). split; [|split].
  - split; [intros Z; apply (f_equal (@length N)) in Z; rewrite rev_length in Z; cbn in L, Z; lia|]. intros c I. apply W. rewrite !in_app_iff. auto.
  - reflexivity.
  - cbn [app]. f_equal. rewrite T at 1. rewrite <- (app_assoc _ (rev a) r). f_equal. rewrite T. rewrite <- (app_assoc _ (rev a) r). now rewrite skipn_app, skipn_all, Nat.sub_diag.
Qed.
Lemma to_end_iff t s : to_end t = Some s <-> ~ In 10%N s /\ (t = s \/ t = s ++ [10%N]).
Proof.
  unfold to_end. destruct (no_newline t) eqn:Q.
  - apply no_newline_iff in Q. split; [intros X; assert (t = s) by congruence; subst s; auto|]. intros (_ & [-> | ->]); [reflexivity|]. exfalso. apply Q, in_app_iff. right. now left.
  - assert (Y : In 10%N t). { destruct (in_dec N.eq_dec 10%N t) as [Z|Z]; [exact Z|]. apply no_newline_iff in Z. congruence. }
    destruct (rev t) as [|c r] eqn:R.
    + apply (f_equal (@rev N)) in R. rewrite rev_involutive in R. subst t. destruct Y.
    + assert (T : t = rev r ++ [c]) by (apply (f_equal (@rev N)) in R; rewrite rev_involutive in R; exact R). split.
      * destruct ((c =? 10)%N && no_newline r) eqn:B; [|discriminate]. apply Bool.andb_true_iff in B as (B1 & B2). apply N.eqb_eq in B1. apply no_newline_iff in B2. intros X. assert (s = rev r) by congruence. subst s c. split; [intros Z; apply B2; now apply in_rev|]. now right.
      * intros (NI & [-> | E]); [contradiction|]. rewrite T in E. apply app_inj_tail in E as (E1 & E2). subst c s. rewrite N.eqb_refl. cbn [andb]. rewrite (proj2 (no_newline_iff r)); [reflexivity|]. intros Z. apply NI. now apply in_rev in Z.
Qed.
Lemma closers_iff t : closers t = true <-> exists k, t = concat (repeat (tx " ]") k).
Proof.
  assert (X : forall n t, length t <= n -> (closers t = true <-> exists k, t = concat (repeat (tx " ]") k))).
  { induction n as [|n IH]; intros u L.
    - destruct u; [|cbn in L; lia]. split; [now exists 0|reflexivity].
    - destruct u as [|c [|d u]]; [split; [now exists 0|reflexivity]|split; [discriminate|intros ([|k] & E); discriminate]|]. cbn [closers]. rewrite !Bool.andb_true_iff, !N.eqb_eq, IH by (cbn [length] in L; lia). split.
      + intros ((-> & ->) & k & ->). now exists (S k).
      + intros ([|k] & E); [discriminate|]. change (concat (repeat (tx " ]") (S k))) with (32%N :: 93%N :: concat (repeat (tx " ]") k)) in E. split; [split; congruence|]. exists k. congruence. }
  apply (X (length t)). lia.
Qed.
Lemma closers_no k : ~ In 10%N (concat (repeat (tx " ]") k)).
Proof. induction k as [|k IH]; [intros []|]. cbn [repeat concat]. intros I. apply in_app_iff in I as [I|I]; [|contradiction]. cbn in I. intuition discriminate. Qed.
Lemma tail_ends it : ends uw (tail_text (i_tail it) ++ if_ (i_nl it) [10%N]).
Proof. destruct (i_tail it) as [[|k]|]; [destruct (i_nl it); [reflexivity|exact I]|reflexivity|reflexivity]. Qed.
Definition punct (opt : bool) (it : item) : text := if i_dots it then tx "..." else if opt then tx "[]" else tx "".
Lemma param_one_iff opt ps s opt' ps' : param_one uw (opt, ps) s = Ok (opt', ps') <->
  exists it, good it /\ s = written it /\ (i_dots it = true -> opt || i_open it = false) /\
    opt' = opt || i_open it || (match i_tail it with Opened => true | Closed _ => false end) /\ ps' = ps ++ [mkAParam (name_of it) (punct (opt || i_open it) it) (tx "unknown")].
Proof.
  split.
  - unfold param_one. set (x := match eat (tx "[ ") s with Some s' => (true, s') | None => (opt, s) end).
    assert (X : exists o s1, x = (opt || o, s1) /\ s = if_ o (tx "[ ") ++ s1).
    { unfold x. destruct (eat (tx "[ ") s) as [s'|] eqn:E; [apply eat_inv in E; exists true, s'; rewrite Bool.orb_true_r; auto|exists false, s; rewrite Bool.orb_false_r; auto]. }
    destruct X as (o & s1 & -> & ->). set (y := match eat (tx "...") s1 with Some s' => (true, s') | None => (false, s1) end).
    assert (Y : exists d s2, y = (d, s2) /\ s1 = if_ d (tx "...") ++ s2).
    { unfold y. destruct (eat (tx "...") s1) as [s'|] eqn:E; [apply eat_inv in E; exists true, s'; auto|exists false, s1; auto]. }
    destruct Y as (d & s2 & -> & ->). destruct (name_at uw s2) as [(n, r)|] eqn:E; [|discriminate]. apply name_at_inv in E as (w & W & -> & ->). destruct (to_end r) as [suf|] eqn:T; [|discriminate]. apply to_end_iff in T as (NL & T).
    assert (TN : exists b, r = suf ++ if_ b [10%N]) by (destruct T as [-> | ->]; [exists false; now rewrite app_nil_r|now exists true]). destruct TN as (b & ->). intros H. apply bind_ok in H as (u & A & H). assert (AD : d = true -> opt || o = false) by (intros ->; destruct (opt || o); [discriminate A|reflexivity]).
    destruct (closers suf) eqn:C; [|destruct (text_eqb suf (tx " [ ")) eqn:Q; [|discriminate]].
    + apply closers_iff in C as (k & ->). exists (mkItem o d w (Closed k) b). split; [exact W|]. split; [unfold written, name_of; cbn [i_open i_dots i_word i_tail i_nl tail_text]; now rewrite <- !app_assoc|]. split; [exact AD|]. cbn [i_open i_tail]. rewrite Bool.orb_false_r. apply ok_inj in H. unfold punct, name_of. cbn [i_dots i_word]. split; congruence.
    + apply text_eqb_eq in Q. subst suf. exists (mkItem o d w Opened b). split; [exact W|]. split; [unfold written, name_of; cbn [i_open i_dots i_word i_tail i_nl tail_text]; now rewrite <- !app_assoc|]. split; [exact AD|]. cbn [i_open i_tail]. rewrite Bool.orb_true_r. apply ok_inj in H. unfold punct, name_of. cbn [i_dots i_word]. split; congruence.
  - intros (it & G & -> & D & -> & ->). unfold param_one, written. cbv beta iota.
    set (rest := name_of it ++ tail_text (i_tail it) ++ if_ (i_nl it) [10%N]).
    assert (X : match eat (tx "[ ") (if_ (i_open it) (tx "[ ") ++ if_ (i_dots it) (tx "...") ++ rest) with Some s' => @pair bool text true s' | None => @pair bool text opt (if_ (i_open it) (tx "[ ") ++ if_ (i_dots it) (tx "...") ++ rest) end = @pair bool text (opt || i_open it) (if_ (i_dots it) (tx "...") ++ rest)).
    { destruct (i_open it); cbn [if_].
      - rewrite eat_ok, Bool.orb_true_r. reflexivity.
      - cbn [app]. rewrite Bool.orb_false_r. destruct (i_dots it); reflexivity. }
    rewrite X. clear X. assert (X : match eat (tx "...") (if_ (i_dots it) (tx "...") ++ rest) with Some s' => @pair bool text true s' | None => @pair bool text false (if_ (i_dots it) (tx "...") ++ rest) end = @pair bool text (i_dots it) rest).
    { destruct (i_dots it); cbn [if_]; [now rewrite eat_ok|reflexivity]. }
    rewrite X. clear X. unfold rest, name_of. rewrite <- !app_assoc. rewrite (name_at_ok _ _ G (tail_ends it)).
    assert (TE : to_end (tail_text (i_tail it) ++ if_ (i_nl it) [10%N]) = Some (tail_text (i_tail it))).
    { apply to_end_iff. split; [destruct (i_tail it); [apply closers_no|cbn; intuition discriminate]|]. destruct (i_nl it); cbn [if_]; [now right|left; apply app_nil_r]. }
    rewrite TE. assert (AD : negb (i_dots it && (opt || i_open it)) = true) by (destruct (i_dots it); [rewrite D by reflexivity; reflexivity|reflexivity]). rewrite AD. cbn [assert_ bind]. destruct (i_tail it) as [k|] eqn:T; cbn [tail_text].
    + rewrite (proj2 (closers_iff _)) by now exists k. rewrite Bool.orb_false_r. reflexivity.
    + rewrite Bool.orb_true_r. reflexivity.
Qed.
Fixpoint reads (opt : bool) (its : list item) (ps : list aparam) : Prop :=
  match its, ps with
  | [], [] => True
  | it :: its', p :: ps' => (i_dots it = true -> opt || i_open it = false) /\ p = mkAParam (name_of it) (punct (opt || i_open it) it) (tx "unknown") /\ reads (opt || i_open it || (match i_tail it with Opened => true | Closed _ => false end)) its' ps'
  | _, _ => False
  end.
Lemma param_all_iff l : forall opt ps0 ps, (exists o, param_all uw (opt, ps0) l = Ok (o, ps)) <-> exists its qs, Forall good its /\ l = map written its /\ reads opt its qs /\ ps = ps0 ++ qs.
Proof.
  induction l as [|s l IH]; intros opt ps0 ps; cbn [param_all].
  - split; [intros (o & E); exists [], []; apply ok_inj in E; assert (ps = ps0) by congruence; subst ps; rewrite app_nil_r; split; [constructor|]; split; [reflexivity|]; split; [exact I|reflexivity]|]. intros ([|it its] & [|q qs] & _ & E & R & ->); try discriminate; try contradiction. exists opt. now rewrite app_nil_r.
  - split.
    + intros (o & H). apply bind_ok in H as ((o1, ps1) & A & B). apply param_one_iff in A as (it & G & -> & D & -> & ->). destruct (proj1 (IH _ _ _) (ex_intro _ o B)) as (its & qs & GS & -> & R & ->).
      exists (it :: its), (mkAParam (name_of it) (punct (opt || i_open it) it) (tx "unknown") :: qs). split; [now constructor|]. split; [reflexivity|]. split; [cbn [reads]; auto|]. now rewrite <- app_assoc.
    + intros ([|it its] & [|q qs] & GS & E & R & ->); try discriminate; try contradiction. inversion GS as [|? ? G GS']; subst. cbn [map] in E. assert (s = written it) by congruence. assert (l = map written its) by congruence. clear E. subst s l. cbn [reads] in R. destruct R as (D & -> & R).
      destruct (proj2 (IH (opt || i_open it || match i_tail it with Opened => true | Closed _ => false end) (ps0 ++ [mkAParam (name_of it) (punct (opt || i_open it) it) (tx "unknown")]) (ps0 ++ mkAParam (name_of it) (punct (opt || i_open it) it) (tx "unknown") :: qs))) as (o & H).
      { exists its, qs. rewrite <- app_assoc. auto. }
      exists o. assert (P := proj2 (param_one_iff opt ps0 (written it) (opt || i_open it || match i_tail it with Opened => true | Closed _ => false end) (ps0 ++ [mkAParam (name_of it) (punct (opt || i_open it) it) (tx "unknown")])) (ex_intro _ it (conj G (conj eq_refl (conj D (conj eq_refl eq_refl)))))). rewrite P. exact H.
Qed.
(* with a flag for what came before *)
Definition optional_from (opt : bool) (its : list item) (i : nat) : Prop := opt = true \/ optional its i.
Definition listed_from (opt : bool) (its : list item) (ps : list aparam) : Prop :=
  length ps = length its /\
  forall i it p, nth_error its i = Some it -> nth_error ps i = Some p ->
    ap_name p = name_of it /\ ap_nature p = tx "unknown" /\
    (i_dots it = true -> ~ optional_from opt its i /\ ap_punct p = tx "...") /\
    (i_dots it = false -> optional_from opt its i -> ap_punct p = tx "[]") /\
    (i_dots it = false -> ~ optional_from opt its i -> ap_punct p = tx "").
Lemma optional_cons opt it its i : optional_from opt (it :: its) (S i) <-> optional_from (opt || i_open it || (match i_tail it with Opened => true | Closed _ => false end)) its i.
Proof.
  unfold optional_from. rewrite !Bool.orb_true_iff. split.
  - intros [H|[([|j] & x & L & E & H)|([|j] & x & L & E & H)]]; auto; cbn [nth_error] in E.
    + replace x with it in H by congruence. tauto.
    + right. left. exists j, x. split; [lia|auto].
    + replace x with it in H by congruence. rewrite H. tauto.
    + right. right. exists j, x. split; [lia|auto].
  - intros [[[H|H]|H]|[(j & x & L & E & H)|(j & x & L & E & H)]]; auto; right.
    + left. exists 0, it. split; [lia|auto].
    + right. exists 0, it. split; [lia|]. split; [reflexivity|]. destruct (i_tail it); [discriminate|reflexivity].
    + left. exists (S j), x. split; [lia|auto].
    + right. exists (S j), x. split; [lia|auto].
Qed.
Lemma optional_first opt it its : optional_from opt (it :: its) 0 <-> opt || i_open it = true.
Proof.
  unfold optional_from. rewrite Bool.orb_true_iff. split.
  - intros [H|[(j & x & L & E & H)|(j & x & L & _)]]; [now left| |lia]. replace j with 0 in E by lia. cbn in E. right. congruence.
  - intros [H|H]; [now left|]. right. left. exists 0, it. auto.
Qed.
Lemma reads_iff its : forall opt ps, reads opt its ps <-> listed_from opt its ps.
Proof.
  induction its as [|it its IH]; intros opt [|p ps]; cbn [reads].
  - split; [|reflexivity]. intros _. split; [reflexivity|]. intros [|i] it p E; discriminate.
  - split; [contradiction|]. intros (L & _). discriminate.
  - split; [contradiction|]. intros (L & _). discriminate.
  - rewrite IH. split.
    + intros (D & -> & L & H). split; [cbn [length]; now f_equal|]. intros [|i] x q E E'; cbn [nth_error] in E, E'.
      * assert (x = it) by congruence. subst x. clear E. assert (Q : q = mkAParam (name_of it) (punct (opt || i_open it) it) (tx "unknown")) by congruence. subst q. clear E'. cbn [ap_name ap_punct ap_nature]. unfold punct. rewrite optional_first. split; [reflexivity|]. split; [reflexivity|]. split; [intros X; rewrite X; split; [rewrite D by exact X; discriminate|reflexivity]|]. split; intros X Y; rewrite X; [now rewrite Y|]. apply Bool.not_true_iff_false in Y. now rewrite Y.
      * rewrite !optional_cons. now apply H.
    + intros (L & H). destruct (H 0 it p eq_refl eq_refl) as (A & B & C & D & E). rewrite optional_first in C, D, E. split; [|split].
      * intros X. destruct (C X) as (Y & _). now apply Bool.not_true_iff_false.
      * destruct p as [a b c]. cbn [ap_name ap_punct ap_nature] in *. subst a c. f_equal. unfold punct. destruct (i_dots it); [now apply C|]. destruct (opt || i_open it); [now apply D|]. apply E; [reflexivity|discriminate].
      * split; [now injection L|]. intros i x q X Y. rewrite <- !optional_cons. exact (H (S i) x q X Y).
Qed.
Lemma listed_iff its ps : listed_from false its ps <-> listed its ps.
Proof.
  assert (O : forall i, optional_from false its i <-> optional its i) by (intros i; unfold optional_from; split; [intros [X|X]; [discriminate|exact X]|now right]).
  unfold listed_from, listed. split; intros (L & H); (split; [exact L|]); intros i it p E E'; specialize (H i it p E E'); rewrite O in *; exact H.
Qed.
Lemma no_comma it : good it -> ~ exists a b, written it = a ++ tx ", " ++ b.
Proof.
  intros G (a & b & E). assert (I : In 44%N (written it)) by (rewrite E; apply in_app_iff; right; now left). clear E. unfold written, name_of in I. rewrite !in_app_iff in I.
  assert (W := wordy_no uw _ 44 G eq_refl). assert (K : ~ In 44%N (tail_text (i_tail it))).
  { clear I. destruct (i_tail it) as [k|]; cbn [tail_text]; [|cbn; intuition discriminate]. induction k as [|k IH]; [intros []|]. cbn [repeat concat]. intros J. apply in_app_iff in J as [J|J]; [cbn in J; intuition discriminate|exact (IH J)]. }
  destruct (i_open it), (i_dots it), (i_nl it); cbn in I; intuition discriminate.
Qed.
Lemma split_joined l : l <> [] -> (forall x, In x l -> ~ exists a b, x = a ++ tx ", " ++ b) -> split_on (tx ", ") (joined (tx ", ") l) = l.
Proof.
  unfold split_on. induction l as [|x l IH]; intros NE H; [congruence|]. destruct l as [|y l]; cbn [joined].
  - rewrite split_go_plain by (apply H; now left). reflexivity.
  - change (joined (tx ", ") (y :: l)) with (joined (tx ", ") (y :: l)) in IH. rewrite split_go_sep by (apply H; now left). cbn [rev app]. f_equal. apply IH; [discriminate|]. intros z I. apply H. now right.
Qed.
Lemma joined_split t : forall skip acc, split_go (tx ", ") skip acc t <> [] /\ joined (tx ", ") (split_go (tx ", ") skip acc t) = rev acc ++ skipn skip t.
Proof.
  induction t as [|c t IH]; intros skip acc; cbn [split_go].
  - split; [discriminate|]. cbn [joined]. rewrite skipn_nil. now rewrite app_nil_r.
  - destruct skip as [|k]; [|destruct (IH k acc) as (A & B); split; [exact A|exact B]]. destruct (is_prefix (tx ", ") (c :: t)) eqn:P.
    + destruct (IH (length (tx ", ") - 1) []) as (A & B). split; [discriminate|]. destruct (split_go (tx ", ") (length (tx ", ") - 1) [] t) as [|y l] eqn:Q; [congruence|]. change (joined (tx ", ") (rev acc :: y :: l)) with (rev acc ++ tx ", " ++ joined (tx ", ") (y :: l)). rewrite B. cbn [rev app skipn]. f_equal. apply begins_iff in P as (r & E). change (tx ", " ++ r) with (44%N :: 32%N :: r) in E. assert (c = 44%N) by congruence. assert (t = 32%N :: r) by congruence. subst c t. reflexivity.
    + destruct (IH 0 (c :: acc)) as (A & B). split; [exact A|]. rewrite B. cbn [rev skipn]. now rewrite <- app_assoc.
Qed.
End Params.

(* A listing is read exactly if, without the white space around it, it is a list of parameters; what is read is then determined. *)
Theorem C97_params uw s ps : convert_parameter_listing_to_params uw s = Ok ps <->
  exists its, trimmed s (joined (tx ", ") (map written its)) /\ Forall (good uw) its /\ listed its ps.
Proof.
  unfold convert_parameter_listing_to_params. set (t := strip s). assert (T : trimmed s t) by now apply strip_iff. assert (U : forall u, trimmed s u -> u = t) by (intros u H; apply strip_iff in H; now symmetry).
  clearbody t. destruct (text_eqb t []) eqn:Z.
  - apply text_eqb_eq in Z. subst t. split.
    + intros E. exists []. split; [exact T|]. split; [constructor|]. assert (ps = []) by (apply ok_inj in E; congruence). subst ps. split; [reflexivity|]. intros [|i] it p X; discriminate.
    + intros (its & H & G & L & _). destruct its as [|it its]; [destruct ps; [reflexivity|discriminate]|]. exfalso. apply U in H. assert (W : written it <> []) by (unfold written, name_of; intros X; apply (f_equal (@length N)) in X; rewrite !app_length in X; cbn in X; lia). cbn [map joined] in H. destruct its; cbn [map] in H; [congruence|]. apply app_eq_nil in H as (H & _). contradiction.
  - split.
    + intros H. apply bind_ok in H as ((o, qs) & A & B). cbn [snd] in B. assert (qs = ps) by (apply ok_inj in B; exact B). subst qs. destruct (proj1 (param_all_iff uw _ _ _ _) (ex_intro _ o A)) as (its & qs & G & E & R & ->). cbn [app] in *. exists its. split; [|split; [exact G|]].
      * rewrite <- E. unfold split_on. rewrite (proj2 (joined_split t 0 [])). exact T.
      * apply listed_iff, reads_iff. exact R.
    + intros (its & H & G & L). apply U in H. destruct its as [|it its]; [exfalso; subst t; discriminate Z|]. destruct (proj2 (param_all_iff uw (split_on (tx ", ") t) false [] ps)) as (o & A).
      * exists (it :: its), ps. split; [exact G|]. split; [|split; [apply reads_iff, listed_iff; exact L|reflexivity]]. rewrite <- H. apply split_joined; [discriminate|]. intros x I. apply in_map_iff in I as (y & <- & I). apply (no_comma uw). rewrite Forall_forall in G. now apply G.
      * rewrite A. reflexivity.
Qed.
(* Nothing but the assertion can fail. *)
Theorem C97_params_error uw s e : convert_parameter_listing_to_params uw s = Err e -> e = AssertionError.
Proof.
  unfold convert_parameter_listing_to_params. destruct (text_eqb (strip s) []); [discriminate|]. intros H. destruct (param_all uw (false, []) (split_on (tx ", ") (strip s))) as [st|x] eqn:E; [discriminate|]. cbn [bind] in H. assert (x = e) by congruence. subst x. clear H. revert E. generalize (false, @nil aparam). induction (split_on (tx ", ") (strip s)) as [|p l IH]; intros st E; cbn [param_all] in E; [discriminate|].
  destruct (param_one uw st p) as [st'|x] eqn:F; cbn [bind] in E; [exact (IH _ E)|]. assert (x = e) by congruence. subst x. unfold param_one in F. destruct st as (opt, ps). destruct (match eat (tx "[ ") p with Some s' => (true, s') | None => (opt, p) end) as (o, p1). destruct (match eat (tx "...") p1 with Some s' => (true, s') | None => (false, p1) end) as (d, p2).
  destruct (name_at uw p2) as [(n, r)|]; [|congruence]. destruct (to_end r) as [sf|]; [|congruence]. destruct (negb (d && o)); cbn [assert_ bind] in F; [|congruence]. destruct (closers sf); [discriminate|]. destruct (text_eqb sf (tx " [ ")); [discriminate|congruence].
Qed.

(* ------------------------------------------------------------------ *)
(* titles *)
Definition least {A} (P : nat -> A -> Prop) (i : nat) (a : A) : Prop := P i a /\ forall j b, P j b -> i <= j.
(* a word of two or more characters after a space, beginning with a small letter but with none of these *)
Definition lower_word (uw : N -> bool) (t : text) (i : nat) (w : text) : Prop :=
  exists u r c w', t = u ++ tx " " ++ w ++ r /\ i = length u + 1 /\ w = c :: w' /\ (97 <= c <= 122)%N /\ wordy uw w' /\ ends uw r /\
    forall s, In s [tx "an"; tx "and"; tx "for"; tx "in"; tx "of"; tx "on"; tx "the"; tx "to"; tx "with"] -> ~ exists z, w = s ++ z.
(* a bracket and an at-sign *)
Definition at_sign_at (t : text) (i : nat) (_ : unit) : Prop := exists u k r, t = u ++ tx "[" ++ repeat 32%N k ++ tx "@" ++ r /\ i = length u.
(* [ %Symbol.name% ] on its own *)
Definition has_symbol (uw : N -> bool) (t : text) : Prop :=
  exists u w r, t = u ++ tx "[ %Symbol." ++ w ++ tx "% ]" ++ r /\ wordy uw w /\ (u = [] \/ exists u', u = u' ++ tx " ") /\ (r = [] \/ r = [10%N] \/ exists r', r = tx " " ++ r').
(* a list of parameters at the end *)
Definition has_params (t : text) : Prop :=
  exists u l x nl, t = u ++ tx " (" ++ l ++ x ++ nl /\ (l = tx " )" \/ exists m, l = tx " " ++ m ++ tx " )" /\ m <> [] /\ ~ In 10%N m) /\ (x = [] \/ x = tx " Concrete Method") /\ (nl = [] \/ nl = [10%N]).
Definition paren_first (t : text) (i : nat) (_ : unit) : Prop := exists u r, t = u ++ tx "(" ++ r /\ i = length u.
(* what is said: nothing, or one thing about the first place *)
Definition says {A} (P : nat -> A -> Prop) (except : Prop) (msg : nat -> A -> nat * text) (ms : list (nat * text)) : Prop :=
  (exists i a, least P i a /\ ~ except /\ ms = [msg i a]) \/ ((except \/ forall i a, ~ P i a) /\ ms = []).
Definition at_most_one (c : N) (t : text) : Prop := forall u v, t = u ++ [c] ++ v -> ~ In c u /\ ~ In c v.

Lemma find_some {A} (f : text -> option A) t : forall i k a, find_at f i t = Some (k, a) -> exists u v, t = u ++ v /\ k = i + length u /\ f v = Some a /\ forall u1 u2, u = u1 ++ u2 -> u2 <> [] -> f (u2 ++ v) = None.
Proof.
  induction t as [|c t IH]; intros i k a; cbn [find_at]; destruct (f _) as [x|] eqn:F.
  - intros X. exists [], []. assert (k = i) by congruence. assert (a = x) by congruence. subst. split; [reflexivity|]. split; [cbn; lia|]. split; [exact F|]. intros u1 u2 E NE. symmetry in E. apply app_eq_nil in E as (_ & E). contradiction.
  - discriminate.
  - intros X. exists [], (c :: t). assert (k = i) by congruence. assert (a = x) by congruence. subst. split; [reflexivity|]. split; [cbn; lia|]. split; [exact F|]. intros u1 u2 E NE. symmetry in E. apply app_eq_nil in E as (_ & E). contradiction.
  - intros H. destruct (IH _ _ _ H) as (u & v & -> & -> & G & N0). exists (c :: u), v. split; [reflexivity|]. split; [cbn [length]; lia|]. split; [exact G|]. intros [|d u1] u2 E NE; cbn [app] in E; [subst u2; exact F|]. apply (N0 u1); [congruence|exact NE].
Qed.
Lemma find_none {A} (f : text -> option A) t : forall i, find_at f i t = None -> forall u v, t = u ++ v -> f v = None.
Proof.
  induction t as [|c t IH]; intros i H u v E; cbn [find_at] in H; destruct (f _) eqn:F; try discriminate.
  - symmetry in E. apply app_eq_nil in E as (-> & ->). exact F.
  - destruct u as [|d u]; cbn [app] in E; [now subst v|]. apply (IH _ H u v). congruence.
Qed.
(* a search finds the first place *)
Lemma search {A} (f : text -> option A) (P : nat -> A -> Prop) t : (forall i a, P i a <-> exists u v, t = u ++ v /\ i = length u /\ f v = Some a) ->
  match find_at f 0 t with Some (i, a) => least P i a | None => forall i a, ~ P i a end.
Proof.
  intros H. destruct (find_at f 0 t) as [(k, a)|] eqn:E.
  - destruct (find_some _ _ _ _ _ E) as (u & v & T & -> & F & N0). split; [apply H; exists u, v; auto|]. intros j b Q. apply H in Q as (u' & v' & T' & -> & F'). cbn [Nat.add]. destruct (Nat.le_gt_cases (length u) (length u')) as [L|L]; [exact L|exfalso].
    rewrite T in T'. apply app_eq_app in T' as (z & [(X & Y)|(X & Y)]); subst.
    + destruct z as [|c z]; [rewrite app_nil_r in L; lia|]. rewrite (N0 u' (c :: z) eq_refl) in F'; discriminate.
    + rewrite app_length in L. lia.
  - intros i a Q. apply H in Q as (u & v & T & _ & F). rewrite (find_none _ _ _ E u v T) in F. discriminate.
Qed.
Lemma small_word uw s w r : (forall c, In c s -> wordc uw c = true) -> ends uw r -> (exists z, w ++ r = s ++ z) -> exists z, w = s ++ z.
Proof.
  intros W E (z & H). revert w H. induction s as [|c s IH]; intros w H; [now exists w|]. destruct w as [|d w]; cbn [app] in H.
  - subst r. cbn [ends] in E. unfold sharp in E. rewrite (W c (or_introl eq_refl)) in E. discriminate.
  - assert (d = c) by congruence. subst d. destruct (IH (fun x I => W x (or_intror I)) w) as (y & ->); [congruence|]. now exists y.
Qed.
Lemma word_at_iff uw v w : word_at uw v = Some w <-> exists r c w', v = tx " " ++ w ++ r /\ w = c :: w' /\ (97 <= c <= 122)%N /\ wordy uw w' /\ ends uw r /\ forall s, In s [tx "an"; tx "and"; tx "for"; tx "in"; tx "of"; tx "on"; tx "the"; tx "to"; tx "with"] -> ~ exists z, w = s ++ z.
Proof.
  fold small. assert (SW : forall s, In s small -> forall c, In c s -> wordc uw c = true).
  { intros s I c J. unfold small in I. cbn [In] in I. repeat (destruct I as [<-|I]; [cbn in J; intuition (subst; reflexivity)|]). destruct I. }
  split.
  - unfold word_at. destruct v as [|s [|c v]]; try discriminate. destruct (s =? 32)%N eqn:S0; [|discriminate]. apply N.eqb_eq in S0. subst s. cbn [andb]. destruct (existsb _ small) eqn:X; [discriminate|]. cbn [negb andb]. destruct ((97 <=? c)%N && (c <=? 122)%N) eqn:L; [|discriminate]. apply Bool.andb_true_iff in L as (L1 & L2). apply N.leb_le in L1, L2.
    destruct (take_word uw v) as [|d w'] eqn:T; [discriminate|]. intros E. assert (w = c :: d :: w') by congruence. clear E. subst w. destruct (take_word_split uw v) as (r & V & W & R). rewrite T in V, W. exists r, c, (d :: w'). split; [cbn [app]; change (tx " " ++ c :: d :: w' ++ r) with (32%N :: c :: (d :: w') ++ r); congruence|]. split; [reflexivity|]. split; [auto|]. split; [split; [discriminate|exact W]|]. split; [exact R|].
    intros s I (z & E). apply Bool.not_true_iff_false in X. apply X, existsb_exists. exists s. split; [exact I|]. apply begins_iff. exists (z ++ r). change (c :: v) with ((c :: []) ++ v). rewrite V. change ((c :: []) ++ (d :: w') ++ r) with ((c :: d :: w') ++ r). rewrite E. now rewrite <- app_assoc.
  - intros (r & c & w' & -> & -> & (L1 & L2) & W & R & NS). change (tx " " ++ (c :: w') ++ r) with (32%N :: c :: w' ++ r). unfold word_at. rewrite N.eqb_refl. assert (X : existsb (fun x => is_prefix x (c :: w' ++ r)) small = false).
    { apply Bool.not_true_iff_false. intros X. apply existsb_exists in X as (s & I & P). apply begins_iff in P. apply (NS s I). exact (small_word uw s (c :: w') r (SW s I) R P). }
    rewrite X. cbn [negb andb]. apply N.leb_le in L1, L2. rewrite L1, L2. cbn [andb]. destruct W as (NE & W). rewrite take_word_app by assumption. destruct w'; [congruence|reflexivity].
Qed.
Lemma drop_sp_iff u d r : d <> 32%N -> (drop_sp u = d :: r <-> exists k, u = repeat 32%N k ++ d :: r).
Proof.
  intros ND. induction u as [|c u IH]; cbn [drop_sp].
  - split; [discriminate|]. intros ([|k] & E); discriminate.
  - destruct (c =? 32)%N eqn:C.
    + apply N.eqb_eq in C. subst c. rewrite IH. split; [intros (k & ->); now exists (S k)|]. intros ([|k] & E); cbn [repeat app] in E; [congruence|]. exists k. congruence.
    + apply N.eqb_neq in C. split; [intros E; exists 0; exact E|]. intros ([|k] & E); cbn [repeat app] in E; congruence.
Qed.
Lemma at_sign_iff v x : at_sign v = Some x <-> exists k r, v = tx "[" ++ repeat 32%N k ++ tx "@" ++ r.
Proof.
  destruct x. unfold at_sign. destruct v as [|c u]; [split; [discriminate|intros (k & r & E); discriminate]|]. destruct (c =? 91)%N eqn:C.
  - apply N.eqb_eq in C. subst c. destruct (drop_sp u) as [|d r] eqn:D.
    + split; [discriminate|]. intros (k & r & E). assert (U : u = repeat 32%N k ++ 64%N :: r) by (change (tx "[" ++ repeat 32%N k ++ tx "@" ++ r) with (91%N :: repeat 32%N k ++ 64%N :: r) in E; congruence). assert (X := proj2 (drop_sp_iff u 64 r ltac:(discriminate)) (ex_intro _ k U)). congruence.
    + destruct (d =? 64)%N eqn:Q.
      * apply N.eqb_eq in Q. subst d. split; [|reflexivity]. intros _. apply drop_sp_iff in D as (k & ->); [|discriminate]. now exists k, r.
      * apply N.eqb_neq in Q. split; [discriminate|]. intros (k & r' & E). assert (U : u = repeat 32%N k ++ 64%N :: r') by (change (tx "[" ++ repeat 32%N k ++ tx "@" ++ r') with (91%N :: repeat 32%N k ++ 64%N :: r') in E; congruence). assert (X := proj2 (drop_sp_iff u 64 r' ltac:(discriminate)) (ex_intro _ k U)). congruence.
  - apply N.eqb_neq in C. split; [discriminate|]. intros (k & r & E). change (tx "[" ++ repeat 32%N k ++ tx "@" ++ r) with (91%N :: repeat 32%N k ++ 64%N :: r) in E. congruence.
Qed.
Lemma sp_or_end_iff r : sp_or_end r = true <-> r = [] \/ r = [10%N] \/ exists r', r = tx " " ++ r'.
Proof.
  destruct r as [|c [|d r]]; cbn [sp_or_end].
  - split; [now left|reflexivity].
  - rewrite Bool.orb_true_iff, !N.eqb_eq. split; [intros [-> | ->]; [right; right; now exists []|right; now left]|]. intros [E|[E|(r' & E)]]; [discriminate|right; congruence|left]. change (tx " " ++ r') with (32%N :: r') in E. congruence.
  - rewrite N.eqb_eq. split; [intros ->; right; right; now exists (d :: r)|]. intros [E|[E|(r' & E)]]; try discriminate. change (tx " " ++ r') with (32%N :: r') in E. congruence.
Qed.
Lemma symbol_ref_iff uw v x : symbol_ref uw v = Some x <-> exists w r, v = tx "[ %Symbol." ++ w ++ tx "% ]" ++ r /\ wordy uw w /\ (r = [] \/ r = [10%N] \/ exists r', r = tx " " ++ r').
Proof.
  destruct x. unfold symbol_ref. split.
  - intros H. destruct (eat (tx "[ %Symbol.") v) as [a|] eqn:E; [|discriminate]. apply eat_inv in E as ->. cbn [and_then] in H. destruct (scan_name uw a) as [b|] eqn:S0; [|discriminate]. apply scan_name_inv in S0 as (w & -> & W & _). cbn [and_then] in H. destruct (eat (tx "% ]") b) as [r|] eqn:E; [|discriminate]. apply eat_inv in E as ->. cbn [and_then] in H. destruct (sp_or_end r) eqn:R; [|discriminate]. apply sp_or_end_iff in R. now exists w, r.
  - intros (w & r & -> & W & R). rewrite eat_ok. cbn [and_then]. rewrite scan_name_ok; [|exact W|reflexivity]. cbn [and_then]. rewrite eat_ok. cbn [and_then]. now rewrite (proj2 (sp_or_end_iff r) R).
Qed.
Lemma some_iff {A} (x : option A) : some x = true <-> exists a, x = Some a.
Proof. destruct x; cbn; split; [eauto|reflexivity|discriminate|intros (a & E); discriminate]. Qed.
Lemma find_iff {A} (f : text -> option A) i t : some (find_at f i t) = true <-> exists u v a, t = u ++ v /\ f v = Some a.
Proof.
  rewrite some_iff. split.
  - intros ((k, a) & E). destruct (find_some _ _ _ _ _ E) as (u & v & T & _ & F & _). now exists u, v, a.
  - intros (u & v & a & T & F). destruct (find_at f i t) as [x|] eqn:E; [now exists x|]. rewrite (find_none _ _ _ E u v T) in F. discriminate.
Qed.
Lemma has_symbol_iff uw t : some (symbol_ref uw t) || some (find_at (spaced_ref uw) 0 t) = true <-> has_symbol uw t.
Proof.
  rewrite Bool.orb_true_iff, some_iff, find_iff. unfold has_symbol. split.
  - intros [(a & E)|(u & v & a & -> & E)].
    + apply symbol_ref_iff in E as (w & r & -> & W & R). exists [], w, r. auto.
    + unfold spaced_ref in E. destruct (eat (tx " ") v) as [v'|] eqn:F; [|discriminate]. apply eat_inv in F as ->. cbn [and_then] in E. apply symbol_ref_iff in E as (w & r & -> & W & R). exists (u ++ tx " "), w, r. split; [now rewrite <- !app_assoc|]. split; [exact W|]. split; [right; now exists u|exact R].
  - intros (u & w & r & -> & W & [->|(u' & ->)] & R).
    + left. exists tt. apply symbol_ref_iff. now exists w, r.
    + right. exists u', (tx " " ++ tx "[ %Symbol." ++ w ++ tx "% ]" ++ r), tt. split; [now rewrite <- !app_assoc|]. unfold spaced_ref. rewrite eat_ok. cbn [and_then]. apply symbol_ref_iff. now exists w, r.
Qed.
Definition listing (l : text) : Prop := l = tx " )" \/ exists m, l = tx " " ++ m ++ tx " )" /\ m <> [] /\ ~ In 10%N m.
Lemma inside_iff l : inside l = true <-> listing l.
Proof.
  unfold inside, listing. rewrite Bool.orb_true_iff, text_eqb_eq. apply or_iff_compat_l. destruct (between (tx " ") (tx " )") l) as [m|] eqn:B.
  - apply between_iff in B. rewrite Bool.andb_true_iff, Bool.negb_true_iff, no_newline_iff. split.
    + intros (A & N0). exists m. split; [exact B|]. split; [|exact N0]. intros ->. discriminate.
    + intros (m' & E & NE & N0). rewrite B in E. apply app_inv_head, app_inv_tail in E. subst m'. split; [destruct m; [congruence|reflexivity]|exact N0].
  - split; [discriminate|]. intros (m & E & _). apply between_iff in E. congruence.
Qed.
Lemma between_end b t (P : text -> bool) (Q : text -> Prop) : (forall m, P m = true <-> Q m) -> match between [] b t with Some m => P m | None => false end = true <-> exists m, t = m ++ b /\ Q m.
Proof.
  intros H. destruct (between [] b t) as [m|] eqn:B.
  - apply between_iff in B. cbn [app] in B. rewrite H. split; [intros X; now exists m|]. intros (m' & E & X). rewrite B in E. apply app_inv_tail in E. now subst m'.
  - split; [discriminate|]. intros (m & E & _). apply (between_iff [] b t m) in E. congruence.
Qed.
Lemma inside_method_iff l : inside_method l = true <-> exists l' x, l = l' ++ x /\ listing l' /\ (x = [] \/ x = tx " Concrete Method").
Proof.
  unfold inside_method. rewrite Bool.orb_true_iff, inside_iff, (between_end _ _ _ _ inside_iff). split.
  - intros [H|(m & -> & H)]; [exists l, []; rewrite app_nil_r; auto|]. exists m, (tx " Concrete Method"). auto.
  - intros (l' & x & -> & H & [->| ->]); [left; now rewrite app_nil_r|right; now exists l'].
Qed.
Lemma after_paren_iff l : after_paren l = true <-> exists l' x nl, l = l' ++ x ++ nl /\ listing l' /\ (x = [] \/ x = tx " Concrete Method") /\ (nl = [] \/ nl = [10%N]).
Proof.
  unfold after_paren. rewrite Bool.orb_true_iff, inside_method_iff, (between_end _ _ _ _ inside_method_iff). split.
  - intros [(l' & x & -> & H & X)|(m & -> & l' & x & -> & H & X)]; [exists l', x, []; rewrite app_nil_r; auto|]. exists l', x, [10%N]. rewrite <- app_assoc. auto.
  - intros (l' & x & nl & -> & H & X & [->| ->]); [left; exists l', x; rewrite app_nil_r; auto|right]. exists (l' ++ x). split; [now rewrite <- app_assoc|]. now exists l', x.
Qed.
Lemma has_params_iff t : some (find_at paren_at 0 t) = true <-> has_params t.
Proof.
  rewrite find_iff. unfold has_params. split.
  - intros (u & v & a & -> & E). unfold paren_at in E. destruct (eat (tx " (") v) as [r|] eqn:F; [|discriminate]. apply eat_inv in F as ->. cbn [and_then] in E. destruct (after_paren r) eqn:P; [|discriminate]. apply after_paren_iff in P as (l & x & nl & -> & H & X & Y). now exists u, l, x, nl.
  - intros (u & l & x & nl & -> & H & X & Y). exists u, (tx " (" ++ l ++ x ++ nl), tt. split; [reflexivity|]. unfold paren_at. rewrite eat_ok. cbn [and_then]. rewrite (proj2 (after_paren_iff (l ++ x ++ nl))); [reflexivity|]. now exists l, x, nl.
Qed.
Lemma count_iff c t : (count c t <=? 1) = true <-> at_most_one c t.
Proof.
  rewrite Nat.leb_le. unfold at_most_one, count.
  assert (Z : forall u, length (filter (N.eqb c) u) = 0 <-> ~ In c u).
  { intros u. split; [intros E I; apply length_zero_iff_nil in E; assert (J : In c (filter (N.eqb c) u)) by (apply filter_In; split; [exact I|apply N.eqb_refl]); now rewrite E in J|]. intros NI. apply length_zero_iff_nil. destruct (filter (N.eqb c) u) as [|x l] eqn:E; [reflexivity|]. exfalso. assert (J : In x (filter (N.eqb c) u)) by (rewrite E; now left). apply filter_In in J as (J & K). apply N.eqb_eq in K. subst x. contradiction. }
  split.
  - intros L u v ->. rewrite !filter_app, !app_length in L. cbn [filter] in L. rewrite N.eqb_refl in L. cbn [length] in L. split; apply Z; lia.
  - intros H. destruct (in_dec N.eq_dec c t) as [I|I]; [|apply Z in I; lia]. apply in_split in I as (u & v & ->). destruct (H u v eq_refl) as (A & B). rewrite filter_app, app_length. cbn [filter]. rewrite N.eqb_refl. cbn [length]. apply Z in A, B. lia.
Qed.
Lemma paren_dec c t : at_most_one c t \/ ~ at_most_one c t.
Proof. destruct (count c t <=? 1) eqn:E; [left; now apply count_iff|right; intros H; apply count_iff in H; congruence]. Qed.

Lemma words_ok uw parent t : snd (check_words uw parent t) = Ok tt.
Proof. unfold check_words. destruct (text_eqb _ _); [reflexivity|]. destruct (find_at _ 0 t) as [(i, w)|]; reflexivity. Qed.
Lemma symbol_ok uw t : snd (check_symbol uw t) = Ok tt.
Proof. unfold check_symbol. destruct (find_at at_sign 0 t) as [(i, w)|]; [|reflexivity]. destruct (_ || _); reflexivity. Qed.
Lemma parens_ok t : snd (check_parens t) = Ok tt.
Proof. unfold check_parens. destruct (find_at (eat _) 0 t) as [(i, w)|]; [|reflexivity]. destruct (some _); [reflexivity|]. destruct (text_eqb _ _); reflexivity. Qed.
Definition word_msg (i : nat) (w : text) : nat * text := (i, tx "title word '" ++ w ++ tx "' should be capitalized?").
Definition symbol_msg (i : nat) (_ : unit) : nat * text := (i, tx "Title's reference to well-known symbol does not conform to expected pattern").
Definition paren_msg (i : nat) (_ : unit) : nat * text := (i, tx "Something odd here wrt parens + spaces").
(* A title is accepted exactly if no parenthesis is repeated. *)
Theorem C97_title_ok uw parent t : (snd (check_section_title uw parent t) = Ok tt <-> at_most_one 40 t /\ at_most_one 41 t) /\
  (forall e, snd (check_section_title uw parent t) = Err e -> e = AssertionError).
Proof.
  unfold check_section_title. assert (M1 := words_ok uw parent t). assert (M2 := symbol_ok uw t). assert (M3 := parens_ok t). split.
  - rewrite <- !count_iff. split.
    + intros H. apply mbind_ok in H as ([] & _ & H). apply mbind_ok in H as ([] & _ & H). rewrite !mbind_assert in H. destruct (count 40 t <=? 1); [|discriminate]. destruct (count 41 t <=? 1); [auto|discriminate].
    + intros (A & B). apply mbind_ok. exists tt. split; [exact M1|]. apply mbind_ok. exists tt. split; [exact M2|]. rewrite !mbind_assert, A, B. exact M3.
  - intros e H. apply mbind_err in H as [H|([] & _ & H)]; [congruence|]. apply mbind_err in H as [H|([] & _ & H)]; [congruence|]. rewrite !mbind_assert in H. destruct (count 40 t <=? 1); [|cbn in H; congruence]. destruct (count 41 t <=? 1); [congruence|cbn in H; congruence].
Qed.
(* What is said of a title: at most one thing each about words, symbols and parentheses, about the first place. *)
Theorem C97_title uw parent t : exists a b c, fst (check_section_title uw parent t) = a ++ b ++ c /\
  says (lower_word uw t) (parent = tx "Terms and Definitions") word_msg a /\
  says (at_sign_at t) (has_symbol uw t) symbol_msg b /\
  says (paren_first t) (~ (at_most_one 40 t /\ at_most_one 41 t) \/ has_params t \/ t = tx "RegExp (Regular Expression) Objects") paren_msg c.
Proof.
  assert (S1 := search (word_at uw) (fun i w => lower_word uw t (i + 1) w) t). assert (S2 := search at_sign (at_sign_at t) t). assert (S3 := search (eat (tx "(")) (fun i r => exists u, t = u ++ tx "(" ++ r /\ i = length u) t).
  assert (L1 : forall i w, lower_word uw t (i + 1) w <-> exists u v, t = u ++ v /\ i = length u /\ word_at uw v = Some w).
  { intros i w. split.
    - intros (u & r & c & w' & T & E & X). exists u, (tx " " ++ w ++ r). split; [exact T|]. split; [lia|]. apply word_at_iff. now exists r, c, w'.
    - intros (u & v & -> & -> & E). apply word_at_iff in E as (r & c & w' & -> & X). exists u, r, c, w'. split; [reflexivity|]. split; [reflexivity|exact X]. }
  assert (L2 : forall i x, at_sign_at t i x <-> exists u v, t = u ++ v /\ i = length u /\ at_sign v = Some x).
  { intros i x. split.
    - intros (u & k & r & T & E). exists u, (tx "[" ++ repeat 32%N k ++ tx "@" ++ r). split; [exact T|]. split; [exact E|]. apply at_sign_iff. now exists k, r.
    - intros (u & v & -> & -> & E). apply at_sign_iff in E as (k & r & ->). now exists u, k, r. }
  assert (L3 : forall i r, (exists u, t = u ++ tx "(" ++ r /\ i = length u) <-> exists u v, t = u ++ v /\ i = length u /\ eat (tx "(") v = Some r).
  { intros i r. split.
    - intros (u & T & E). exists u, (tx "(" ++ r). split; [exact T|]. split; [exact E|]. apply eat_ok.
    - intros (u & v & -> & -> & E). apply eat_inv in E as ->. now exists u. }
  specialize (S1 L1). specialize (S2 L2). specialize (S3 L3). unfold check_section_title.
  assert (M1 := words_ok uw parent t). assert (M2 := symbol_ok uw t).
  rewrite (mbind_msgs _ _ _ _ _ tt M1), (mbind_msgs _ _ _ _ _ tt M2), !mbind_assert. eexists _, _, _. split; [reflexivity|]. split; [|split].
  - unfold check_words, says. destruct (text_eqb parent (tx "Terms and Definitions")) eqn:P; [apply text_eqb_eq in P; right; split; [now left|reflexivity]|]. assert (NP : parent <> tx "Terms and Definitions") by (intros ->; discriminate). destruct (find_at (word_at uw) 0 t) as [(i, w)|].
    + left. exists (i + 1), w. destruct S1 as (A & B). split; [split; [exact A|]|auto]. intros j b X. assert (exists k, j = k + 1) as (k & ->). { destruct X as (u & r & c & w' & _ & -> & _). now exists (length u). } specialize (B k b X). lia.
    + right. split; [right|reflexivity]. intros j b X. assert (exists k, j = k + 1) as (k & ->). { destruct X as (u & r & c & w' & _ & -> & _). now exists (length u). } exact (S1 k b X).
  - unfold check_symbol, says. destruct (find_at at_sign 0 t) as [(i, w)|]; [|right; split; [now right|reflexivity]]. assert (HS := has_symbol_iff uw t). destruct (_ || _); [right; split; [left; now apply HS|reflexivity]|]. left. exists i, w. split; [exact S2|]. split; [intros X; apply HS in X; discriminate|reflexivity].
  - assert (C1 := count_iff 40 t). assert (C2 := count_iff 41 t). unfold says.
    destruct (count 40 t <=? 1); [|right; split; [left; left; intros (X & _); apply C1 in X; discriminate|reflexivity]]. destruct (count 41 t <=? 1); [|right; split; [left; left; intros (_ & X); apply C2 in X; discriminate|reflexivity]].
    assert (AM := conj (proj1 C1 eq_refl) (proj1 C2 eq_refl)). unfold check_parens. destruct (find_at (eat (tx "(")) 0 t) as [(i, r)|].
    + assert (HP := has_params_iff t). destruct (some (find_at paren_at 0 t)); [right; split; [left; right; left; now apply HP|reflexivity]|]. destruct (text_eqb t (tx "RegExp (Regular Expression) Objects")) eqn:Q; [apply text_eqb_eq in Q; right; split; [left; now right; right|reflexivity]|].
      left. exists i, tt. destruct S3 as ((u & T & E) & B). split; [split; [now exists u, r|]|split; [|reflexivity]].
      * intros j [] (u' & r' & T' & ->). apply (B (length u') r'). now exists u'.
      * intros [X|[X|X]]; [now apply X|apply HP in X; discriminate|]. rewrite X in Q. discriminate.
    + right. split; [right|reflexivity]. intros j x (u & r & T & ->). apply (S3 (length u) r). now exists u.
Qed.

(* The capitals are demanded only of words that do not begin like a small one: "information" passes for "in". *)
Theorem C97_word_refuted : exists t w u c w', t = u ++ tx " " ++ w /\ w = c :: w' /\ (97 <= c <= 122)%N /\ wordy (fun _ => false) w' /\
  ~ In w [tx "an"; tx "and"; tx "for"; tx "in"; tx "of"; tx "on"; tx "the"; tx "to"; tx "with"] /\ check_section_title (fun _ => false) (tx "Objects") t = ([], Ok tt).
Proof.
  exists (tx "Some information"), (tx "information"), (tx "Some"), 105%N, (tx "nformation"). split; [reflexivity|]. split; [reflexivity|]. split; [lia|]. split; [split; [discriminate|]; intros c I; cbn in I; intuition (subst; reflexivity)|]. split; [cbn; intuition discriminate|]. vm_compute; reflexivity.
Qed.
(* Brackets that are not balanced are accepted. *)
Theorem C97_unbalanced_refuted : exists a b ps qs, convert_parameter_listing_to_params (fun _ => false) a = Ok ps /\ convert_parameter_listing_to_params (fun _ => false) b = Ok qs /\ length ps = 1 /\ length qs = 1 /\ ~ In 91%N a /\ In 93%N a /\ In 91%N b /\ ~ In 93%N b.
Proof. exists (tx "_a_ ] ]"), (tx "[ _a_"). eexists _, _. split; [vm_compute; reflexivity|]. split; [vm_compute; reflexivity|]. cbn. intuition discriminate. Qed.
(* A parameter after the closing bracket is optional all the same. *)
Theorem C97_after_refuted : exists ps, convert_parameter_listing_to_params (fun _ => false) (tx "[ _a_ ], _b_") = Ok ps /\ map ap_name ps = [tx "_a_"; tx "_b_"] /\ map ap_punct ps = [tx "[]"; tx "[]"].
Proof. eexists. split; [vm_compute; reflexivity|]. split; reflexivity. Qed.

(* examples *)
Definition uw0 : N -> bool := fun _ => false.
Example C97_ex1 : match convert_parameter_listing_to_params uw0 (tx "_a_ [ , _b_ [ , _c_ ] ]") with Ok ps => map (fun p => (ap_name p, ap_punct p)) ps = [(tx "_a_", []); (tx "_b_", tx "[]"); (tx "_c_", tx "[]")] | Err _ => False end.
Proof. vm_compute; reflexivity. Qed.
Example C97_ex2 : convert_parameter_listing_to_params uw0 (tx "_a_, b") = Err AssertionError /\ convert_parameter_listing_to_params uw0 (tx "[ _a_, ..._b_ ]") = Err AssertionError.
Proof. split; vm_compute; reflexivity. Qed.
Example C97_ex2b : match convert_parameter_listing_to_params uw0 (tx " _a_, ..._b_ ") with Ok ps => map (fun p => (ap_name p, ap_punct p)) ps = [(tx "_a_", []); (tx "_b_", tx "...")] | Err _ => False end.
Proof. vm_compute; reflexivity. Qed.
Example C97_ex3 : check_section_title uw0 (tx "Objects") (tx "The ordinary thing [ @@iterator ] (_x_)") =
  ([(4, tx "title word 'ordinary' should be capitalized?"); (19, tx "Title's reference to well-known symbol does not conform to expected pattern"); (34, tx "Something odd here wrt parens + spaces")], Ok tt).
Proof. vm_compute; reflexivity. Qed.
Example C97_ex4 : check_section_title uw0 (tx "Objects") (tx "Array.prototype [ %Symbol.iterator% ] ( )") = ([], Ok tt) /\ check_section_title uw0 (tx "Objects") (tx "Of ( a ) and ( b )") = ([], Err AssertionError) /\
  check_section_title uw0 (tx "Terms and Definitions") (tx "The ordinary Concrete ( _x_ ) Concrete Method") = ([], Ok tt).
Proof. repeat split; vm_compute; reflexivity. Qed.

Print Assumptions C97_params.
Print Assumptions C97_params_error.
Print Assumptions C97_title_ok.
Print Assumptions C97_title.
Print Assumptions C97_word_refuted.
Print Assumptions C97_unbalanced_refuted.
Print Assumptions C97_after_refuted.
