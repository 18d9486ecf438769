(* C100: what is extracted from preambles, and how it is compared with the header. *)
From Coq Require Import Ascii String Lia List.
From Verif Require Import M_Base L_Base M_HTML M_Shared M_Indent M_Defs M_Records M_Refs L_Refs M_Meta M_Style L_StyleDesc L_ValTree M_Validate L_Validate M_PropPath L_PropPath Properties_PropPath Properties_PGrammar M_Tables M_Steps Properties_Steps L_ValNodes M_Preamble.
Open Scope list_scope.
Open Scope nat_scope.
Notation length := List.length.

(* ------------------------------------------------------------------ *)
(* splitting *)
Section Split.
Variable f : option N -> text -> nat.
Lemma last_app prev a b : last_of prev (a ++ b) = last_of (last_of prev a) b.
Proof. unfold last_of. rewrite rev_app_distr. destruct (rev b); reflexivity. Qed.
Lemma split_piece p : forall rest prev acc, (forall a c b, p = a ++ c :: b -> f (last_of prev a) (c :: b ++ rest) = 0) -> re_split f 0 prev acc (p ++ rest) = re_split f 0 (last_of prev p) (rev p ++ acc) rest.
Proof.
  induction p as [|c p IH]; intros rest prev acc H; [reflexivity|]. cbn [app re_split]. rewrite (H [] c p eq_refl : f prev (c :: p ++ rest) = 0). rewrite IH.
  - rewrite last_cons. cbn [rev]. now rewrite <- app_assoc.
  - intros a d b ->. rewrite <- (H (c :: a) d b eq_refl). now rewrite last_cons.
Qed.
Lemma split_skip g : forall rest prev acc, re_split f (length g) prev acc (g ++ rest) = re_split f 0 (last_of prev g) acc rest.
Proof. induction g as [|c g IH]; intros rest prev acc; [reflexivity|]. cbn [length app re_split]. rewrite IH, last_cons. reflexivity. Qed.
Lemma split_gap g rest prev acc : g <> [] -> f prev (g ++ rest) = length g -> re_split f 0 prev acc (g ++ rest) = rev acc :: re_split f 0 (last_of prev g) [] rest.
Proof. destruct g as [|c g]; [congruence|]. intros _ E. cbn [app re_split length] in *. rewrite E, split_skip, last_cons. reflexivity. Qed.
End Split.
Lemma run_of_app x k t : match t with c :: _ => c <> x | [] => True end -> run_of x (repeat x k ++ t) = k.
Proof. intros H. induction k as [|k IH]; cbn [repeat app run_of]; [destruct t as [|c t]; [reflexivity|]; cbn [run_of]; now rewrite (proj2 (N.eqb_neq c x) H)|]. now rewrite N.eqb_refl, IH. Qed.

(* a text cut into sentences: behind periods, at the spaces there *)
Definition clean (p : text) : Prop := forall a b, p <> a ++ [46; 32]%N ++ b.
Definition no_space (t : text) : Prop := match t with c :: _ => c <> 32%N | [] => True end.
Inductive cuts : text -> list text -> Prop :=
| C_last p : clean p -> cuts p [p]
| C_more q k t ss : clean (q ++ [46%N]) -> no_space t -> cuts t ss -> cuts (q ++ [46%N] ++ repeat 32%N (S k) ++ t) ((q ++ [46%N]) :: ss).
Lemma last_snoc prev q c : last_of prev (q ++ [c]) = Some c.
Proof. unfold last_of. now rewrite rev_app_distr. Qed.
Lemma last_inv prev a c : last_of prev a = Some c -> (a = [] /\ prev = Some c) \/ exists q, a = q ++ [c].
Proof.
  unfold last_of. destruct (rev a) as [|d r] eqn:R.
  - intros ->. left. split; [|reflexivity]. rewrite <- (rev_involutive a), R. reflexivity.
  - intros [= ->]. right. exists (rev r). rewrite <- (rev_involutive a), R. reflexivity.
Qed.
Lemma clean_sep p rest prev : clean p -> (forall d, prev = Some d -> d <> 46%N) -> forall a c b, p = a ++ c :: b -> sep_sentence (last_of prev a) (c :: b ++ rest) = 0.
Proof.
  intros C P a c b E. unfold sep_sentence. destruct (last_of prev a) as [d|] eqn:Ld; [|reflexivity]. destruct (d =? 46)%N eqn:D; [|reflexivity]. apply N.eqb_eq in D. subst d. apply last_inv in Ld as [(-> & Ep)|(q & ->)]; [exfalso; now apply (P _ Ep)|].
  cbn [run_of]. destruct (c =? 32)%N eqn:C32; [|reflexivity]. apply N.eqb_eq in C32. subst c. exfalso. apply (C q b). rewrite E. now rewrite <- app_assoc.
Qed.
Lemma last_repeat prev k x : last_of prev (repeat x (S k)) = Some x.
Proof. revert prev. induction k as [|k IH]; intros prev; [reflexivity|]. change (repeat x (S (S k))) with (x :: repeat x (S k)). now rewrite last_cons. Qed.
Lemma cuts_split t ss : cuts t ss -> forall prev, (forall d, prev = Some d -> d <> 46%N) -> re_split sep_sentence 0 prev [] t = ss.
Proof.
  induction 1 as [p C|q k t ss C NS H IH]; intros prev P.
  - rewrite <- (app_nil_r p) at 1. rewrite split_piece by (apply clean_sep; assumption). cbn [re_split]. rewrite rev_app_distr, rev_involutive. reflexivity.
  - rewrite app_assoc. rewrite split_piece by (apply clean_sep; assumption). rewrite last_snoc. rewrite split_gap; [|discriminate|].
    + rewrite rev_app_distr, rev_involutive. cbn [rev app]. f_equal. rewrite last_repeat. apply IH. intros d [= <-]. discriminate.
    + unfold sep_sentence. rewrite N.eqb_refl, repeat_length. apply run_of_app. exact NS.
Qed.
Lemma lead_spaces p : exists k q, p = repeat 32%N k ++ q /\ no_space q.
Proof. induction p as [|c p (k & q & -> & H)]; [exists 0, []; split; [reflexivity|exact I]|]. destruct (N.eq_dec c 32) as [->|NC]; [exists (S k), q; split; [reflexivity|exact H]|]. exists 0, (c :: repeat 32%N k ++ q). split; [reflexivity|exact NC]. Qed.
Lemma clean_cons c p : clean p -> ~ (c = 46%N /\ exists p', p = 32%N :: p') -> clean (c :: p).
Proof. intros C N0 [|x a] b E; cbn [app] in E; [apply N0; assert (c = 46%N) by congruence; split; [assumption|exists b; congruence]|]. apply (C a b). injection E as _ ->. reflexivity. Qed.
Lemma clean_drop a p : clean (a ++ p) -> clean p.
Proof. intros C x y ->. apply (C (a ++ x) y). now rewrite <- app_assoc. Qed.
Lemma cuts_exist t : exists ss, cuts t ss.
Proof.
  induction t as [|c t (ss & H)]; [exists [[]]; constructor; intros [|? a] b; discriminate|]. destruct (N.eq_dec c 46) as [->|NC].
  - assert (K1 : clean [46%N]) by (intros [|? [|? a]] b; discriminate). destruct H as [p C|q k t ss C NS H].
    + destruct (lead_spaces p) as ([|k] & q & -> & NS).
      * eexists. apply C_last. apply clean_cons; [exact C|]. intros (_ & p' & E). cbn [repeat app] in E. subst q. now apply NS.
      * exists ([46%N] :: [q]). apply (C_more [] k q [q] K1 NS). constructor. now apply clean_drop in C.
    + destruct (lead_spaces (q ++ [46%N])) as ([|k'] & q' & E & NS').
      * eexists. apply (C_more (46%N :: q) k t ss); [|exact NS|exact H]. cbn [app]. apply clean_cons; [exact C|]. intros (_ & p' & E'). cbn [repeat app] in E. rewrite <- E, E' in NS'. now apply NS'.
      * assert (Q : exists q'', q' = q'' ++ [46%N]). { destruct q' as [|x q' _] using rev_ind; [exfalso; rewrite app_nil_r in E; assert (I : In 46%N (repeat 32%N (S k'))) by (rewrite <- E; apply in_app_iff; right; now left); apply repeat_spec in I; discriminate|]. rewrite app_assoc in E. apply app_inj_tail in E as (_ & ->). eauto. }
        destruct Q as (q'' & ->). exists ([46%N] :: (q'' ++ [46%N]) :: ss). replace (46%N :: q ++ [46%N] ++ repeat 32%N (S k) ++ t) with ([] ++ [46%N] ++ repeat 32%N (S k') ++ (q'' ++ [46%N] ++ repeat 32%N (S k) ++ t)).
        -- apply (C_more [] k' _ ((q'' ++ [46%N]) :: ss) K1); [destruct q''; [discriminate|exact NS']|]. constructor; [rewrite E in C; now apply clean_drop in C|exact NS|exact H].
        -- cbn [app]. f_equal. change (46%N :: repeat 32%N (S k) ++ t) with ([46%N] ++ (repeat 32%N (S k) ++ t)). rewrite (app_assoc q), E, <- !app_assoc. reflexivity.
  - destruct H as [p C|q k t ss C NS H].
    + eexists. apply C_last. apply clean_cons; [exact C|]. intros (E & _). contradiction.
    + eexists. apply (C_more (c :: q) k t ss); [|exact NS|exact H]. cbn [app]. apply clean_cons; [exact C|]. intros (E & _). contradiction.
Qed.
(* A paragraph is cut into sentences behind every period that spaces follow, and nowhere else; only those spaces are lost. *)
Theorem C100_sentences t ss : re_split sep_sentence 0 None [] t = ss <-> cuts t ss.
Proof.
  split; [|intros H; apply (cuts_split t ss H); intros d; discriminate]. intros <-. destruct (cuts_exist t) as (ss & H). rewrite (cuts_split t ss H); [exact H|intros d; discriminate].
Qed.

(* ------------------------------------------------------------------ *)
(* the rules *)
Section Rules.
Variable uw : N -> bool.
Definition key_char (c : N) : Prop := word_char uw c \/ c = 32%N.
(* a line of a rule *)
Definition plain (l : text) : Prop := l <> [] /\ ~ In 10%N l /\ no_space l.
(* lines with newlines and indentation between them *)
Inductive lines_in : text -> list text -> Prop :=
| L_line l : plain l -> lines_in l [l]
| L_next l k t ls : plain l -> lines_in t ls -> lines_in (l ++ 10%N :: repeat 32%N k ++ t) (l :: ls).
(* chunks with blank lines between them *)
Inductive chunks_in : text -> list (list text) -> Prop :=
| C_one t ls : lines_in t ls -> chunks_in t [ls]
| C_next t ls n k u cs : lines_in t ls -> chunks_in u cs -> chunks_in (t ++ repeat 10%N (S (S n)) ++ repeat 32%N k ++ u) (ls :: cs).
Definition comment_line (l : text) : Prop := exists x, l = 35%N :: x.
Definition template (l : text) (e : text * text) : Prop := l = fst e ++ 61%N :: snd e /\ fst e <> [] /\ all_are key_char (fst e) /\ ~ In 10%N (snd e).
Definition with_v (d : list (text * text)) (d' : list (text * text)) : Prop := (In (tx "v") (map fst d) /\ d' = d) \/ (~ In (tx "v") (map fst d) /\ d' = d ++ [(tx "v", [])]).
(* a rule made of lines that are no comments *)
Definition rule_of (ls : list text) (r : hrule) : Prop :=
  exists pat ts d, ls = pat :: ts /\ Forall2 template ts d /\ NoDup (map fst d) /\ hr_pat r = pat /\ with_v d (hr_tmpl r) /\ hr_count r = 0.
Definition code (ls : list text) : list text := filter (fun l => negb (is_prefix (tx "#") l)) ls.
Fixpoint coded (cs : list (list text)) : list (list text) := match cs with [] => [] | ls :: cs' => match code ls with [] => coded cs' | c => c :: coded cs' end end.

Lemma plain_no_sep l rest : plain l -> forall prev a c b, l = a ++ c :: b -> sep_line (last_of prev a) (c :: b ++ rest) = 0 /\ (forall x y, c <> 10%N -> sep_chunk x (c :: y) = 0).
Proof.
  intros (_ & NL & _) prev a c b E. assert (C : c <> 10%N) by (intros ->; apply NL; rewrite E; apply in_app_iff; right; now left). split.
  - unfold sep_line. now rewrite (proj2 (N.eqb_neq c 10) C).
  - intros x y _. unfold sep_chunk. cbn [run_of]. now rewrite (proj2 (N.eqb_neq c 10) C).
Qed.
Lemma lines_head t ls : lines_in t ls -> exists c t', t = c :: t' /\ c <> 10%N /\ c <> 32%N.
Proof.
  assert (H : forall l, plain l -> exists c t', l = c :: t' /\ c <> 10%N /\ c <> 32%N) by (intros [|c l] (NE & NL & NS); [congruence|]; exists c, l; split; [reflexivity|]; split; [intros ->; apply NL; now left|exact NS]).
  destruct 1 as [l P|l k t ls P _]; destruct (H l P) as (c & t' & -> & A); cbn [app]; eauto.
Qed.
Lemma chunks_head t cs : chunks_in t cs -> exists c t', t = c :: t' /\ c <> 10%N /\ c <> 32%N.
Proof. destruct 1 as [t ls Li|t ls n k u cs Li _]; destruct (lines_head _ _ Li) as (c & t' & -> & A); cbn [app]; eauto. Qed.
Lemma lines_split_in t ls : lines_in t ls -> forall prev, re_split sep_line 0 prev [] t = ls.
Proof.
  induction 1 as [l P|l k t ls P H IH]; intros prev.
  - rewrite <- (app_nil_r l) at 1. rewrite split_piece by (intros; now apply plain_no_sep with (l := l)). cbn [re_split]. rewrite rev_app_distr, rev_involutive. reflexivity.
  - rewrite split_piece by (intros; now apply plain_no_sep with (l := l)). destruct (lines_head _ _ H) as (c & t' & Et & _ & NS). change (10%N :: repeat 32%N k ++ t) with ((10%N :: repeat 32%N k) ++ t). rewrite split_gap; [|discriminate|].
    + rewrite rev_app_distr, rev_involutive. cbn [rev app]. f_equal. apply IH.
    + cbn [app sep_line length]. rewrite N.eqb_refl, repeat_length. f_equal. apply run_of_app. rewrite Et. exact NS.
Qed.
Lemma lines_no_chunk t ls : lines_in t ls -> forall a b, t = a ++ b -> b <> [] -> forall rest prev, sep_chunk prev (b ++ rest) = 0.
Proof.
  induction 1 as [l P|l k t ls P H IH]; intros a b E NE rest prev.
  - destruct b as [|c b]; [congruence|]. apply (proj2 (plain_no_sep l [] P None a c b E)). destruct P as (_ & NL & _). intros ->. apply NL. rewrite E. apply in_app_iff. right. now left.
  - apply app_eq_app in E as (x & [(-> & ->)|(-> & E)]).
    + destruct x as [|c x]; cbn [app].
      * unfold sep_chunk. cbn [run_of]. rewrite N.eqb_refl. destruct k as [|k]; cbn [repeat app run_of]; [|reflexivity]. destruct (lines_head _ _ H) as (c & t' & -> & NC & _). cbn [app run_of]. now rewrite (proj2 (N.eqb_neq c 10) NC).
      * apply (proj2 (plain_no_sep (a ++ c :: x) [] P None a c x eq_refl)). destruct P as (_ & NL & _). intros ->. apply NL. apply in_app_iff. right. now left.
    + destruct x as [|c x]; cbn [app] in E.
      * subst b. unfold sep_chunk. cbn [app run_of]. rewrite N.eqb_refl. destruct k as [|k]; cbn [repeat app run_of]; [|reflexivity]. destruct (lines_head _ _ H) as (c & t' & -> & NC & _). cbn [app run_of]. now rewrite (proj2 (N.eqb_neq c 10) NC).
      * injection E as <- E. symmetry in E. apply app_eq_app in E as (y & [(-> & E')|(E' & ->)]).
        -- destruct y as [|d y]; cbn [app] in E'; [subst t; destruct b as [|d b]; [congruence|]; destruct (lines_head _ _ H) as (c' & t' & Et & NC & _); unfold sep_chunk; cbn [app run_of]; assert (d = c') by congruence; subst d; now rewrite (proj2 (N.eqb_neq c' 10) NC)|]. apply (IH (d :: y) b E' NE).
        -- destruct y as [|d y]; [cbn [app] in *; apply (IH [] t eq_refl NE)|]. assert (D : d = 32%N) by (apply (repeat_spec k 32%N); rewrite E'; apply in_app_iff; right; now left). subst d. reflexivity.
Qed.
Lemma chunks_split_in t cs : chunks_in t cs -> forall prev, Forall2 lines_in (re_split sep_chunk 0 prev [] t) cs.
Proof.
  induction 1 as [t ls Li|t ls n k u cs Li H IH]; intros prev.
  - rewrite <- (app_nil_r t). rewrite split_piece by (intros a c b E; apply (lines_no_chunk t ls Li a (c :: b) E); discriminate). cbn [re_split]. rewrite rev_app_distr, rev_involutive. cbn [rev app]. constructor; [exact Li|constructor].
  - rewrite split_piece by (intros a c b E; apply (lines_no_chunk t ls Li a (c :: b) E); discriminate). destruct (chunks_head _ _ H) as (c & u' & Eu & NC & NS). rewrite app_assoc. rewrite split_gap; [|discriminate|].
    + rewrite rev_app_distr, rev_involutive. cbn [rev app]. constructor; [exact Li|]. apply IH.
    + unfold sep_chunk. rewrite <- app_assoc. assert (R : run_of 10 (repeat 10%N (S (S n)) ++ repeat 32%N k ++ u) = S (S n)) by (apply run_of_app; destruct k; cbn [repeat app]; [rewrite Eu; exact NC|discriminate]). rewrite R. cbn [Nat.leb].
      assert (K : skipn (S (S n)) (repeat 10%N (S (S n)) ++ repeat 32%N k ++ u) = repeat 32%N k ++ u) by (rewrite skipn_app, repeat_length, Nat.sub_diag, skipn_O, skipn_all2; [reflexivity|rewrite repeat_length; lia]). rewrite K. rewrite run_of_app by (rewrite Eu; exact NS). rewrite app_length, !repeat_length. reflexivity.
Qed.
Lemma key_iff c : (wordc uw c || (c =? 32)%N) = true <-> key_char c.
Proof. unfold key_char. rewrite Bool.orb_true_iff, N.eqb_eq, wordc_iff. reflexivity. Qed.
Lemma take_key_iff t a r : take_key uw t = (a, r) <-> t = a ++ r /\ all_are key_char a /\ next_not key_char r.
Proof.
  revert a r. induction t as [|c t IH]; intros a r; cbn [take_key].
  - split; [intros [= <- <-]; repeat split; intros c []|]. intros (E & _). symmetry in E. apply app_eq_nil in E as (-> & ->). reflexivity.
  - destruct (wordc uw c || (c =? 32)%N) eqn:C.
    + destruct (take_key uw t) as (a0, r0) eqn:T. destruct (proj1 (IH a0 r0) eq_refl) as (-> & A & H). apply key_iff in C. split.
      * intros [= <- <-]. split; [reflexivity|]. split; [|exact H]. intros d [<-|I]; auto.
      * intros (Ei & Ai & Hr). destruct a as [|c' a]; cbn [app] in *; [subst r; cbn [next_not] in Hr; contradiction|]. injection Ei as <- E. assert (X : (a0, r0) = (a, r)) by (apply IH; split; [exact E|]; split; [intros d I; apply Ai; now right|exact Hr]). injection X as -> ->. reflexivity.
    + assert (NC : ~ key_char c) by (rewrite <- key_iff; congruence). split.
      * intros [= <- <-]. split; [reflexivity|]. split; [intros d []|exact NC].
      * intros (Ei & Ai & Hr). destruct a as [|c' a]; cbn [app] in *; [now subst r|]. exfalso. apply NC. injection Ei as -> _. apply Ai. now left.
Qed.
Lemma template_iff l e : template_line uw l = Some e <-> template l e.
Proof.
  unfold template_line, template. destruct e as (k, v). cbn [fst snd]. split.
  - destruct (take_key uw l) as (a, r) eqn:T. apply take_key_iff in T as (-> & A & _). destruct a as [|x a]; [discriminate|]. destruct r as [|c r]; [discriminate|]. destruct (c =? 61)%N eqn:C; [|discriminate]. cbn [andb]. destruct (no_newline r) eqn:NL; [|discriminate]. intros [= <- <-]. apply N.eqb_eq in C. subst c. repeat split; [discriminate|exact A|now apply no_newline_iff].
  - intros (-> & NE & A & NL). assert (NK : ~ key_char 61) by (unfold key_char, word_char; lia). rewrite (proj2 (take_key_iff (k ++ 61%N :: v) k (61%N :: v))) by (repeat split; assumption). destruct k as [|x k]; [congruence|]. rewrite N.eqb_refl. cbn [andb]. now rewrite (proj2 (no_newline_iff v) NL).
Qed.
Lemma key_in (d : list (text * text)) k : existsb (fun e => text_eqb (fst e) k) d = true <-> In k (map fst d).
Proof. rewrite existsb_exists, in_map_iff. split; intros (e & A & B); exists e; [apply text_eqb_eq in B; auto|split; [exact B|now apply text_eqb_eq]]. Qed.
Lemma read_templates_iff ls : forall d0 d', NoDup (map fst d0) -> read_templates uw d0 ls = Ok d' <-> exists d, Forall2 template ls d /\ NoDup (map fst (d0 ++ d)) /\ d' = d0 ++ d.
Proof.
  induction ls as [|l ls IH]; intros d0 d' ND; cbn [read_templates].
  - split; [intros E; apply ok_inj in E; exists []; rewrite app_nil_r; repeat split; [constructor|exact ND|congruence]|]. intros (d & F & _ & ->). inversion F. now rewrite app_nil_r.
  - destruct (template_line uw l) as [(k, v)|] eqn:T.
    + apply template_iff in T. destruct (existsb (fun e => text_eqb (fst e) k) d0) eqn:K; cbn [negb assert_ bind].
      * apply key_in in K. split; [discriminate|]. intros (d & F & ND' & _). exfalso. inversion F as [|l' e ls' d1 Te F']; subst. assert (E : template_line uw l = Some e) by now apply template_iff. apply template_iff in T. rewrite T in E. injection E as <-. rewrite map_app in ND'. cbn [map fst] in ND'. apply NoDup_remove_2 in ND'. apply ND'. apply in_app_iff. now left.
      * assert (NK : ~ In k (map fst d0)) by (rewrite <- key_in; congruence). assert (ND1 : NoDup (map fst (d0 ++ [(k, v)]))).
        { rewrite map_app. cbn [map fst]. clear - ND NK. induction (map fst d0) as [|x m IHm]; cbn [app]; [constructor; [intros []|constructor]|]. inversion ND; subst. constructor; [|apply IHm; [assumption|intros I; apply NK; now right]]. rewrite in_app_iff. cbn [In]. intros [I|[<-|[]]]; [contradiction|apply NK; now left]. }
        rewrite (IH _ _ ND1). split.
        -- intros (d & F & ND' & ->). exists ((k, v) :: d). rewrite <- app_assoc in *. repeat split; [now constructor|exact ND'].
        -- intros (d & F & ND' & ->). inversion F as [|l' e ls' d1 Te F']; subst. assert (E : template_line uw l = Some e) by now apply template_iff. apply template_iff in T. rewrite T in E. injection E as <-. exists d1. rewrite <- app_assoc. auto.
    + split; [discriminate|]. intros (d & F & _). inversion F as [|l' e ls' d1 Te F']; subst. apply template_iff in Te. congruence.
Qed.
Lemma make_rule_iff pat ls r : make_rule uw pat ls = Ok r <-> rule_of (pat :: ls) r.
Proof.
  unfold make_rule, rule_of, with_v. split.
  - destruct (read_templates uw [] ls) as [d|e] eqn:R; [|discriminate]. cbn [bind]. intros E. apply ok_inj in E. subst r. apply read_templates_iff in R as (d' & F & ND & ->); [|constructor]. cbn [app] in *. exists pat, ls, d'. split; [reflexivity|]. split; [exact F|]. split; [exact ND|]. cbn [hr_pat hr_tmpl hr_count]. split; [reflexivity|]. split; [|reflexivity].
    destruct (existsb (fun e => text_eqb (fst e) (tx "v")) d') eqn:K; [left; split; [now apply key_in|reflexivity]|right; split; [rewrite <- key_in; congruence|reflexivity]].
  - intros (pat' & ts & d & E & F & ND & Hp & V & Hc). injection E as <- <-. rewrite (proj2 (read_templates_iff ls [] d (NoDup_nil _)) (ex_intro _ d (conj F (conj ND eq_refl)))). cbn [bind]. destruct r as (p, tm, c). cbn [hr_pat hr_tmpl hr_count] in *. subst p c. destruct V as [(I & ->)|(I & ->)].
    + now rewrite (proj2 (key_in d (tx "v")) I).
    + destruct (existsb (fun e => text_eqb (fst e) (tx "v")) d) eqn:K; [apply key_in in K; contradiction|reflexivity].
Qed.
Lemma read_chunks_iff cs lss : Forall2 (fun c ls => re_split sep_line 0 None [] c = ls) cs lss -> forall rs, read_chunks uw cs = Ok rs <-> Forall2 rule_of (coded lss) rs.
Proof.
  induction 1 as [|c ls cs lss E F IH]; intros rs; cbn [read_chunks coded]; [split; [intros H; apply ok_inj in H; subst; constructor|intros H; now inversion H]|]. rewrite E. fold (code ls). destruct (code ls) as [|pat ts]; [apply IH|]. split.
  - destruct (make_rule uw pat ts) as [r|e] eqn:M; [|discriminate]. cbn [bind]. destruct (read_chunks uw cs) as [rs'|e] eqn:R; [|discriminate]. cbn [bind]. intros H. apply ok_inj in H. subst rs. constructor; [now apply make_rule_iff|now apply IH].
  - intros H. inversion H as [|x r y rs' A B]; subst. rewrite (proj2 (make_rule_iff pat ts r) A). cbn [bind]. now rewrite (proj2 (IH rs') B).
Qed.
(* Rules laid out in chunks of lines are read just if every chunk without its comments is a pattern with templates for different keys; then they are these, in order, with an empty v where none is given. *)
Theorem C100_rules s t cs rs : trimmed s t -> chunks_in t cs -> read_rules uw s = Ok rs <-> Forall2 rule_of (coded cs) rs.
Proof.
  intros T H. apply strip_iff in T. unfold read_rules. rewrite T. destruct (chunks_head _ _ H) as (c & t' & E & _). destruct t as [|x t0]; [discriminate|]. apply read_chunks_iff. assert (G := chunks_split_in _ _ H None). clear - G. induction G as [|a b l m A G IH]; constructor; [now apply lines_split_in|exact IH].
Qed.
(* A text of white space gives no rules, not one with an empty pattern. *)
Theorem C100_no_rules s : (forall c, In c s -> In c [9%N; 10%N; 11%N; 12%N; 13%N; 28%N; 29%N; 30%N; 31%N; 32%N]) -> read_rules uw s = Ok [].
Proof.
  intros W. assert (T : strip s = []); [|unfold read_rules; now rewrite T].
  assert (L : forall u, (forall c, In c u -> In c [9%N; 10%N; 11%N; 12%N; 13%N; 28%N; 29%N; 30%N; 31%N; 32%N]) -> drop_spaces u = []).
  { induction u as [|c u IH]; intros H; [reflexivity|]. cbn [drop_spaces]. assert (C := H c (or_introl eq_refl)). cbn [In] in C. repeat (destruct C as [<-|C]; [cbn; apply IH; intros; apply H; now right|]). destruct C. }
  unfold strip. now rewrite (L s W).
Qed.
(* A line that is no template is meant to end the run by an exit; it is a NameError. *)
Theorem C100_bad_line pat ts l ts' d : Forall2 template ts d -> NoDup (map fst d) -> (forall e, ~ template l e) -> make_rule uw pat (ts ++ l :: ts') = Err NameError.
Proof.
  intros F ND N0. unfold make_rule. assert (G : forall d0, NoDup (map fst (d0 ++ d)) -> read_templates uw d0 (ts ++ l :: ts') = Err NameError); [|rewrite (G [] ND); reflexivity]. clear ND. induction F as [|x e ts d Te F IH]; intros d0 ND; cbn [app read_templates].
  - destruct (template_line uw l) as [e|] eqn:T; [apply template_iff in T; now apply N0 in T|reflexivity].
  - apply template_iff in Te. rewrite Te. destruct e as (k, v). destruct (existsb (fun e => text_eqb (fst e) k) d0) eqn:K; [exfalso; apply key_in in K; rewrite map_app in ND; cbn [map fst] in ND; apply NoDup_remove_2 in ND; apply ND; apply in_app_iff; now left|]. cbn [negb assert_ bind]. apply IH. now rewrite <- app_assoc.
Qed.
End Rules.

(* ------------------------------------------------------------------ *)
(* the application of rules *)
Section Apply.
Variable fullmatch : text -> text -> option hmatch.
(* different keys, v among them, as read *)
Definition whole (r : hrule) : Prop := NoDup (map fst (hr_tmpl r)) /\ In (tx "v") (map fst (hr_tmpl r)).
(* what a rule does with a subject *)
Inductive did (r : hrule) (s : text) : hrule -> list (text * text) -> text -> Prop :=
| D_not : s = [] \/ fullmatch (hr_pat r) s = None -> did r s r [] s
| D_hit m l1 x l2 : s <> [] -> fullmatch (hr_pat r) s = Some m -> hr_tmpl r = l1 ++ (tx "v", x) :: l2 ->
    did r s (mkHRule (hr_pat r) (hr_tmpl r) (hr_count r + 1)) (hm_groups m ++ map (fun e => (fst e, hm_expand m (snd e))) (l1 ++ l2)) (hm_expand m x).
(* one rule after the other *)
Inductive chain : list hrule -> text -> list hrule -> list (text * text) -> text -> Prop :=
| Ch_nil s : chain [] s [] [] s
| Ch_cons r rs s r' rs' a b s1 s2 : did r s r' a s1 -> chain rs s1 rs' b s2 -> chain (r :: rs) s (r' :: rs') (a ++ b) s2.

Lemma v_split r : whole r -> exists l1 x l2, hr_tmpl r = l1 ++ (tx "v", x) :: l2 /\ ~ In (tx "v") (map fst l1) /\ ~ In (tx "v") (map fst l2).
Proof.
  intros (ND & I). apply in_map_iff in I as ((k, x) & E & I). cbn [fst] in E. subst k. apply in_split in I as (l1 & l2 & E). exists l1, x, l2. split; [exact E|]. rewrite E, map_app in ND. cbn [map fst] in ND. apply NoDup_remove_2 in ND. rewrite in_app_iff in ND. tauto.
Qed.
Lemma v_fun (l1 : list (text * text)) (x : text) l2 l1' x' l2' : NoDup (map fst (l1 ++ (tx "v", x) :: l2)) -> l1 ++ (tx "v", x) :: l2 = l1' ++ (tx "v", x') :: l2' -> l1 = l1' /\ x = x' /\ l2 = l2'.
Proof.
  intros ND E. revert l1' E. induction l1 as [|e l1 IH]; intros [|e' l1'] E; cbn [app] in E.
  - injection E as <- <-. auto.
  - exfalso. injection E as <- E. subst l2. cbn [app map fst] in ND. inversion ND as [|k m N0 _]. apply N0. rewrite map_app. apply in_app_iff. right. now left.
  - exfalso. injection E as -> E. rewrite <- E in *. cbn [app map fst] in ND. inversion ND as [|k m N0 _]. apply N0. rewrite map_app. apply in_app_iff. right. now left.
  - injection E as <- E. cbn [app map fst] in ND. inversion ND; subst. destruct (IH H2 l1' E) as (-> & -> & ->). auto.
Qed.
Lemma is_v_no (l : list (text * text)) : ~ In (tx "v") (map fst l) -> forall e, In e l -> is_v (fst e) = false.
Proof. intros N0 e I. unfold is_v. destruct (text_eqb (fst e) (tx "v")) eqn:E; [|reflexivity]. apply text_eqb_eq in E. exfalso. apply N0. rewrite <- E. now apply in_map. Qed.
Lemma outs_no (m : hmatch) l : ~ In (tx "v") (map fst l) -> flat_map (fun e => if is_v (fst e) then [] else [(fst e, hm_expand m (snd e))]) l = map (fun e => (fst e, hm_expand m (snd e))) l.
Proof. intros N0. assert (A := is_v_no l N0). clear N0. induction l as [|e l IH]; [reflexivity|]. cbn [flat_map map]. rewrite (A e (or_introl eq_refl)), IH; [reflexivity|]. intros x I. apply A. now right. Qed.
Lemma added_eq r m l1 x l2 : hr_tmpl r = l1 ++ (tx "v", x) :: l2 -> ~ In (tx "v") (map fst l1) -> ~ In (tx "v") (map fst l2) -> added r m = hm_groups m ++ map (fun e => (fst e, hm_expand m (snd e))) (l1 ++ l2).
Proof. intros E A B. unfold added. rewrite E, flat_map_app. cbn [flat_map]. change (is_v (fst (tx "v", x))) with true. cbn [app]. rewrite (outs_no m l1 A), (outs_no m l2 B), map_app. reflexivity. Qed.
Lemma passed_eq r m s l1 x l2 : hr_tmpl r = l1 ++ (tx "v", x) :: l2 -> ~ In (tx "v") (map fst l2) -> passed r m s = hm_expand m x.
Proof.
  intros E B. unfold passed. rewrite E, fold_left_app. cbn [fold_left]. change (is_v (fst (tx "v", x))) with true. cbn [snd]. assert (A := is_v_no l2 B). clear B E. induction l2 as [|e l2 IH]; [reflexivity|]. cbn [fold_left]. rewrite (A e (or_introl eq_refl)). apply IH. intros y I. apply A. now right.
Qed.
Lemma chain_nil rs : chain rs [] rs [] [].
Proof. induction rs as [|r rs IH]; [constructor|]. apply (Ch_cons r rs [] r rs [] []) with (s1 := []); [apply D_not; now left|exact IH]. Qed.
Lemma chain_nil_inv rs rs' a s' : chain rs [] rs' a s' -> rs' = rs /\ a = [] /\ s' = [].
Proof.
  remember [] as s eqn:Es. induction 1 as [|r rs s r' rs' a b s1 s2 D C IH]; [auto|]. subst s. inversion D; subst; [destruct (IH eq_refl) as (-> & -> & ->); auto|congruence].
Qed.
Lemma apply_chain rs : (forall r, In r rs -> whole r) -> forall s rs' a s', s <> [] -> apply_go fullmatch rs s = (rs', a, s') <-> chain rs s rs' a s'.
Proof.
  induction rs as [|r rs IH]; intros W s rs' a s' NE; cbn [apply_go].
  - split; [intros [= <- <- <-]; constructor|]. intros C. inversion C; subst. reflexivity.
  - assert (Wr : forall x, In x rs -> whole x) by (intros x I; apply W; now right). destruct (v_split r (W r (or_introl eq_refl))) as (l1 & x & l2 & Et & N1 & N2). assert (ND := proj1 (W r (or_introl eq_refl))). rewrite Et in ND. specialize (IH Wr). destruct (fullmatch (hr_pat r) s) as [m|] eqn:M.
    + rewrite (passed_eq r m s l1 x l2 Et N2), (added_eq r m l1 x l2 Et N1 N2). assert (D : did r s (counted r) (hm_groups m ++ map (fun e => (fst e, hm_expand m (snd e))) (l1 ++ l2)) (hm_expand m x)).
      { unfold counted. rewrite <- Nat.add_1_r. apply D_hit; assumption. }
      assert (U : forall r' a' s1, did r s r' a' s1 -> r' = counted r /\ a' = hm_groups m ++ map (fun e => (fst e, hm_expand m (snd e))) (l1 ++ l2) /\ s1 = hm_expand m x).
      { intros r' a' s1 D'. inversion D' as [[H|H]|m' l1' x' l2' NE' M' Et']; subst; [congruence|congruence|]. assert (m' = m) by congruence. subst m'. rewrite Et in Et'. destruct (v_fun _ _ _ _ _ _ ND Et') as (<- & <- & <-). unfold counted. rewrite Nat.add_1_r. auto. }
      destruct (hm_expand m x) as [|c y] eqn:X.
      * split.
        -- intros [= <- <- <-]. rewrite <- (app_nil_r (hm_groups m ++ _)). apply (Ch_cons r rs s) with (s1 := []); [exact D|apply chain_nil].
        -- intros C. inversion C as [|r0 rs0 s0 r' rs2 a' b s1 s2 D' C']; subst. destruct (U _ _ _ D') as (-> & -> & ->). apply chain_nil_inv in C' as (-> & -> & ->). now rewrite app_nil_r.
      * assert (NX : c :: y <> []) by discriminate. destruct (apply_go fullmatch rs (c :: y)) as ((rs2, b), s2) eqn:G. split.
        -- intros [= <- <- <-]. apply (Ch_cons r rs s) with (s1 := c :: y); [exact D|]. now apply IH.
        -- intros C. inversion C as [|r0 rs0 s0 r' rs3 a' b' s1 s3 D' C']; subst. destruct (U _ _ _ D') as (-> & -> & ->). apply (IH (c :: y) _ _ _ NX) in C'. rewrite G in C'. injection C' as <- <- <-. reflexivity.
    + destruct (apply_go fullmatch rs s) as ((rs2, b), s2) eqn:G. split.
      * intros [= <- <- <-]. apply (Ch_cons r rs s r rs2 [] b s s2); [apply D_not; now right|]. now apply IH.
      * intros C. inversion C as [|r0 rs0 s0 r' rs3 a' b' s1 s3 D' C']; subst. inversion D' as [H|m' l1' x' l2' NE' M' Et']; subst; [|congruence]. apply IH in C'; [|exact NE]. rewrite G in C'. injection C' as <- <- <-. reflexivity.
Qed.
(* Every rule is tried once, in order, on what the rules before it have left: if it matches it is counted, its groups and templates are added, and its v is what is left; when nothing is left nothing more happens. Nothing else changes, and only an empty subject fails. *)
Theorem C100_apply rs s : (forall r, In r rs -> whole r) -> (forall rs' a s', apply fullmatch rs s = Ok (rs', a, s') <-> s <> [] /\ chain rs s rs' a s') /\ (forall e, apply fullmatch rs s = Err e <-> s = [] /\ e = AssertionError).
Proof.
  intros W. unfold apply. destruct s as [|c s]; cbn [assert_ bind].
  - split; [intros; split; [discriminate|intros (H & _); congruence]|]. intros e. split; [intros [= <-]; auto|now intros (_ & ->)].
  - split; [|intros e; split; [discriminate|intros (H & _); discriminate]]. intros rs' a s'. rewrite <- (apply_chain rs W (c :: s)) by discriminate. split; [intros H; apply ok_inj in H; split; [discriminate|exact H]|]. intros (_ & ->). reflexivity.
Qed.
Lemma chain_whole rs s rs' a s' : chain rs s rs' a s' -> (forall r, In r rs -> whole r) -> forall r, In r rs' -> whole r.
Proof.
  induction 1 as [|r rs s r' rs' a b s1 s2 D C IH]; intros W x; [intros []|]. intros [<-|I]; [|apply IH; [intros y J; apply W; now right|exact I]]. assert (Wr := W r (or_introl eq_refl)). inversion D; subst; [exact Wr|exact Wr].
Qed.

(* ------------------------------------------------------------------ *)
(* the extraction *)
(* sentences one after the other; what is left of them *)
Inductive says : list hrule -> list text -> list hrule -> list (text * text) -> list text -> Prop :=
| S_nil rs : says rs [] rs [] []
| S_cons rs s ss rs1 rs2 a b x xs : s <> [] -> chain rs s rs1 a x -> says rs1 ss rs2 b xs -> says rs (s :: ss) rs2 (a ++ b) (x :: xs).
Definition kept (xs : list text) : list text := filter (fun x => if list_eq_dec N.eq_dec x [] then false else true) xs.
Inductive para (ms ss : list hrule) (n : pnode) : list hrule -> list hrule -> list (text * text) -> Prop :=
| P_note : pn_name n = tx "emu-note" \/ pn_name n = tx "pre" -> para ms ss n ms ss []
| P_whole t ms' a : pn_name n = tx "p" -> trimmed (pn_inner n) t -> t <> [] -> chain ms t ms' a [] -> para ms ss n ms' ss a
| P_text t ms' a u us ss' b xs d : pn_name n = tx "p" -> trimmed (pn_inner n) t -> t <> [] -> chain ms t ms' a u -> u <> [] -> cuts u us -> says ss us ss' b xs ->
    d = joined (tx " ") (kept xs) -> para ms ss n ms' ss' (a ++ b ++ (if list_eq_dec N.eq_dec d [] then [] else [(tx "desc", d)])).
Inductive paras : list hrule -> list hrule -> list pnode -> list hrule -> list hrule -> list (text * text) -> Prop :=
| Pa_nil ms ss : paras ms ss [] ms ss []
| Pa_cons ms ss n ns ms1 ss1 ms2 ss2 a b : para ms ss n ms1 ss1 a -> paras ms1 ss1 ns ms2 ss2 b -> paras ms ss (n :: ns) ms2 ss2 (a ++ b).

Lemma kept_cons x xs : kept (x :: xs) = match x with [] => kept xs | _ => x :: kept xs end.
Proof. unfold kept. cbn [filter]. destruct x as [|c x]; destruct (list_eq_dec N.eq_dec _ []) as [H|H]; try reflexivity; [contradiction H; reflexivity|discriminate]. Qed.
Lemma sentences_iff us : forall ms ss adds rem st' rem', (forall r, In r ss -> whole r) -> sentences fullmatch (mkPst ms ss adds) rem us = Ok (st', rem') <-> exists ss' b xs, says ss us ss' b xs /\ st' = mkPst ms ss' (adds ++ b) /\ rem' = rem ++ kept xs.
Proof.
  induction us as [|u us IH]; intros ms ss adds rem st' rem' W; cbn [sentences ps_multi ps_single ps_adds].
  - split; [intros H; apply ok_inj in H; injection H as <- <-; exists ss, [], []; repeat split; [constructor|now rewrite app_nil_r|cbn; now rewrite app_nil_r]|]. intros (ss' & b & xs & S0 & -> & ->). inversion S0; subst. cbn. now rewrite !app_nil_r.
  - destruct (C100_apply ss u W) as (Aok & Aerr). destruct (apply fullmatch ss u) as [((rs, a), s')|e] eqn:Ap.
    + destruct (proj1 (Aok rs a s') eq_refl) as (NE & C). cbn [bind]. rewrite (IH _ _ _ _ _ _ (chain_whole _ _ _ _ _ C W)). split.
      * intros (ss' & b & xs & S0 & -> & ->). exists ss', (a ++ b), (s' :: xs). split; [econstructor; eassumption|]. split; [now rewrite app_assoc|]. rewrite kept_cons. destruct s'; [reflexivity|]. now rewrite <- app_assoc.
      * intros (ss' & b & xs & S0 & -> & ->). inversion S0 as [|rs0 s0 ss0 rs1 rs2 a0 b0 x xs0 NE0 C0 S1]; subst. assert (X : Ok (rs1, a0, x) = Ok (rs, a, s')) by (symmetry; apply Aok; auto). apply ok_inj in X. injection X as -> -> ->. exists ss', b0, xs0. split; [exact S1|]. split; [now rewrite app_assoc|]. rewrite kept_cons. destruct s'; [reflexivity|]. now rewrite <- app_assoc.
    + cbn [bind]. split; [discriminate|]. intros (ss' & b & xs & S0 & _). exfalso. inversion S0 as [|rs0 s0 ss0 rs1 rs2 a0 b0 x xs0 NE0 C0 S1]; subst. assert (X : Err e = Ok (rs1, a0, x)) by (apply Aok; auto). discriminate.
Qed.
Lemma sentences_err us : forall st rem e, sentences fullmatch st rem us = Err e -> e = AssertionError.
Proof.
  induction us as [|u us IH]; intros st rem e; cbn [sentences]; [discriminate|]. unfold apply. destruct u as [|c u]; cbn [assert_ bind]; [congruence|]. destruct (apply_go fullmatch (ps_single st) (c :: u)) as ((rs, a), s'). apply IH.
Qed.
Lemma says_whole ss us ss' b xs : says ss us ss' b xs -> (forall r, In r ss -> whole r) -> forall r, In r ss' -> whole r.
Proof. induction 1; intros W; [exact W|]. apply IHsays. eapply chain_whole; eassumption. Qed.
Lemma para_whole ms ss n ms' ss' a : para ms ss n ms' ss' a -> (forall r, In r (ms ++ ss) -> whole r) -> forall r, In r (ms' ++ ss') -> whole r.
Proof.
  intros P W. assert (Wm : forall r, In r ms -> whole r) by (intros r I; apply W, in_app_iff; now left). assert (Ws : forall r, In r ss -> whole r) by (intros r I; apply W, in_app_iff; now right). destruct P; intros r I; [now apply W| |]; apply in_app_iff in I as [I|I]; eauto using chain_whole, says_whole.
Qed.
Lemma eq_p n : text_eqb (pn_name n) (tx "p") = true <-> pn_name n = tx "p".
Proof. apply text_eqb_eq. Qed.
Lemma paragraph_iff ms ss adds n st' : (forall r, In r (ms ++ ss) -> whole r) -> paragraph fullmatch (mkPst ms ss adds) n = Ok st' <-> exists ms' ss' a, para ms ss n ms' ss' a /\ st' = mkPst ms' ss' (adds ++ a).
Proof.
  intros W. assert (Wm : forall r, In r ms -> whole r) by (intros r I; apply W, in_app_iff; now left). assert (Ws : forall r, In r ss -> whole r) by (intros r I; apply W, in_app_iff; now right).
  unfold paragraph. cbn [ps_multi ps_single ps_adds existsb]. destruct (text_eqb (pn_name n) (tx "p")) eqn:P.
  - apply text_eqb_eq in P. cbn [orb assert_ bind]. assert (T := proj1 (strip_iff (pn_inner n) _) eq_refl). set (t := strip (pn_inner n)) in *. destruct (C100_apply ms t Wm) as (Aok & Aerr).
    assert (TF : forall t', trimmed (pn_inner n) t' -> t' = t) by (intros t' T'; apply strip_iff in T'; now symmetry). assert (NP : ~ (pn_name n = tx "emu-note" \/ pn_name n = tx "pre")) by (rewrite P; intros [H|H]; discriminate).
    destruct (apply fullmatch ms t) as [((rs, a), u)|e] eqn:Ap; cbn [bind].
    + destruct (proj1 (Aok rs a u) eq_refl) as (NE & C). assert (CF : forall rs' a' u', chain ms t rs' a' u' -> rs' = rs /\ a' = a /\ u' = u) by (intros rs' a' u' C'; assert (X : Ok (rs, a, u) = Ok (rs', a', u')) by (apply Aok; auto); apply ok_inj in X; injection X as <- <- <-; auto). destruct u as [|c u].
      * split.
        -- intros H. apply ok_inj in H. subst st'. exists rs, ss, a. split; [|reflexivity]. apply (P_whole ms ss n t rs a P T NE C).
        -- intros (ms' & ss' & a' & Pa & ->). inversion Pa as [NT|t' ms0 a0 P' T' NE' C'|t' ms0 a0 u us ss0 b xs d P' T' NE' C' NU]; subst; [contradiction| |]; apply TF in T'; subst t'; apply CF in C' as (-> & -> & Eu); [reflexivity|congruence].
      * assert (Cu := proj1 (C100_sentences (c :: u) _) eq_refl). set (us := re_split sep_sentence 0 None [] (c :: u)) in *. destruct (sentences fullmatch (mkPst rs ss (adds ++ a)) [] us) as [(st, rem)|e] eqn:Se; cbn [bind].
        -- apply (sentences_iff us _ _ _ _ _ _ Ws) in Se as (ss' & b & xs & S0 & -> & ->). cbn [app ps_multi ps_single ps_adds]. set (d := joined (tx " ") (kept xs)).
           assert (E : Ok (match d with [] => mkPst rs ss' ((adds ++ a) ++ b) | z :: d0 => mkPst rs ss' (((adds ++ a) ++ b) ++ [(tx "desc", z :: d0)]) end) = Ok (mkPst rs ss' (adds ++ (a ++ b ++ (if list_eq_dec N.eq_dec d [] then [] else [(tx "desc", d)])))))
             by (destruct d as [|z d']; destruct (list_eq_dec N.eq_dec _ []) as [Hd|Hd]; try congruence; f_equal; f_equal; rewrite <- ?app_assoc, ?app_nil_r; reflexivity).
           rewrite E. split.
           ++ intros H. apply ok_inj in H. subst st'. exists rs, ss', (a ++ b ++ (if list_eq_dec N.eq_dec d [] then [] else [(tx "desc", d)])). split; [|reflexivity]. apply (P_text ms ss n t rs a (c :: u) us ss' b xs d P T NE C); [discriminate|exact Cu|exact S0|reflexivity].
           ++ intros (ms' & ss'' & a' & Pa & ->). inversion Pa as [NT|t' ms0 a0 P' T' NE' C'|t' ms0 a0 u0 us0 ss0 b0 xs0 d0 P' T' NE' C' NU Cu0 S1 Ed]; subst; [contradiction| |]; apply TF in T'; subst t'; apply CF in C' as (-> & -> & Eu); [discriminate|]. subst u0. assert (us0 = us) by (apply C100_sentences in Cu0; symmetry; exact Cu0). subst us0.
              assert (X : sentences fullmatch (mkPst rs ss (adds ++ a)) [] us = Ok (mkPst rs ss' ((adds ++ a) ++ b), [] ++ kept xs)) by (apply (sentences_iff us _ _ _ _ _ _ Ws); eauto 6). assert (Y : sentences fullmatch (mkPst rs ss (adds ++ a)) [] us = Ok (mkPst rs ss'' ((adds ++ a) ++ b0), [] ++ kept xs0)) by (apply (sentences_iff us _ _ _ _ _ _ Ws); eauto 6).
              rewrite X in Y. apply ok_inj in Y. injection Y as <- Eb Ek. apply app_inv_head in Eb. subst b0. unfold d. now rewrite Ek.
        -- split; [discriminate|]. intros (ms' & ss'' & a' & Pa & ->). exfalso. inversion Pa as [NT|t' ms0 a0 P' T' NE' C'|t' ms0 a0 u0 us0 ss0 b0 xs0 d0 P' T' NE' C' NU Cu0 S1 Ed]; subst; [contradiction| |]; apply TF in T'; subst t'; apply CF in C' as (-> & -> & Eu); [discriminate|]. subst u0. assert (us0 = us) by (apply C100_sentences in Cu0; symmetry; exact Cu0). subst us0.
           assert (Y : sentences fullmatch (mkPst rs ss (adds ++ a)) [] us = Ok (mkPst rs ss'' ((adds ++ a) ++ b0), [] ++ kept xs0)) by (apply (sentences_iff us _ _ _ _ _ _ Ws); eauto 6). congruence.
    + split; [discriminate|]. intros (ms' & ss'' & a' & Pa & ->). exfalso. inversion Pa as [NT|t' ms0 a0 P' T' NE' C'|t' ms0 a0 u0 us0 ss0 b0 xs0 d0 P' T' NE' C' NU Cu0 S1 Ed]; subst; [contradiction| |]; apply TF in T'; subst t'; (assert (X := proj2 (Aok _ _ _) (conj NE' C')); discriminate).
  - assert (NP : pn_name n <> tx "p") by (intros H; apply text_eqb_eq in H; congruence). destruct (text_eqb (pn_name n) (tx "emu-note")) eqn:P1; [apply text_eqb_eq in P1|destruct (text_eqb (pn_name n) (tx "pre")) eqn:P2; [apply text_eqb_eq in P2|]]; cbn [orb assert_ bind].
    + split; [intros H; apply ok_inj in H; subst st'; exists ms, ss, []; split; [apply P_note; now left|now rewrite app_nil_r]|]. intros (ms' & ss' & a & Pa & ->). inversion Pa; subst; [now rewrite app_nil_r|contradiction|contradiction].
    + split; [intros H; apply ok_inj in H; subst st'; exists ms, ss, []; split; [apply P_note; now right|now rewrite app_nil_r]|]. intros (ms' & ss' & a & Pa & ->). inversion Pa; subst; [now rewrite app_nil_r|contradiction|contradiction].
    + split; [discriminate|]. intros (ms' & ss' & a & Pa & _). exfalso. inversion Pa as [[H|H]| |]; subst; try contradiction; apply text_eqb_eq in H; congruence.
Qed.
Lemma paragraph_err st n e : paragraph fullmatch st n = Err e -> e = AssertionError.
Proof.
  unfold paragraph. destruct (existsb _ _); cbn [assert_ bind]; [|congruence]. destruct (text_eqb _ _); [|discriminate]. unfold apply. destruct (strip (pn_inner n)) as [|c t]; cbn [assert_ bind]; [congruence|]. destruct (apply_go _ _ _) as ((rs, a), s). destruct s as [|d s]; [discriminate|]. destruct (sentences _ _ _ _) as [(st', rem)|e'] eqn:S0; cbn [bind]; [discriminate|]. intros [= <-]. now apply sentences_err in S0.
Qed.
(* The preamble is taken in just if it has only paragraphs, notes and preformatted texts, and no paragraph and no sentence is empty; what is added is what the rules add to paragraphs and sentences, with what they leave as description; anything else is the assertion. *)
Theorem C100_extract ns : forall ms ss adds, (forall r, In r (ms ++ ss) -> whole r) ->
  (forall st', extract fullmatch (mkPst ms ss adds) ns = Ok st' <-> exists ms' ss' a, paras ms ss ns ms' ss' a /\ st' = mkPst ms' ss' (adds ++ a)) /\ (forall e, extract fullmatch (mkPst ms ss adds) ns = Err e -> e = AssertionError).
Proof.
  induction ns as [|n ns IH]; intros ms ss adds W; cbn [extract].
  - split; [|discriminate]. intros st'. split; [intros H; apply ok_inj in H; subst st'; exists ms, ss, []; split; [constructor|now rewrite app_nil_r]|]. intros (ms' & ss' & a & P & ->). inversion P; subst. now rewrite app_nil_r.
  - assert (PI := paragraph_iff ms ss adds n). destruct (paragraph fullmatch (mkPst ms ss adds) n) as [st|e] eqn:Pn; cbn [bind].
    + destruct (proj1 (PI st W) eq_refl) as (ms1 & ss1 & a & Pa & ->). destruct (IH ms1 ss1 (adds ++ a) (para_whole _ _ _ _ _ _ Pa W)) as (IHok & IHerr). split; [|exact IHerr]. intros st'. rewrite IHok. split.
      * intros (ms' & ss' & b & P & ->). exists ms', ss', (a ++ b). split; [econstructor; eassumption|now rewrite app_assoc].
      * intros (ms' & ss' & b & P & ->). inversion P as [|ms0 ss0 n0 ns0 ms2 ss2 ms3 ss3 a0 b0 Pa0 P0]; subst. assert (X : Ok (mkPst ms1 ss1 (adds ++ a)) = Ok (mkPst ms2 ss2 (adds ++ a0))) by (apply (PI _ W); eauto). apply ok_inj in X. injection X as <- <- Ea. apply app_inv_head in Ea. subst a0. exists ms', ss', b0. split; [exact P0|now rewrite app_assoc].
    + split; [|intros e' [= <-]; now apply paragraph_err in Pn]. intros st'. split; [discriminate|]. intros (ms' & ss' & b & P & _). exfalso. inversion P as [|ms0 ss0 n0 ns0 ms2 ss2 ms3 ss3 a0 b0 Pa0 P0]; subst. assert (X : Err e = Ok (mkPst ms2 ss2 (adds ++ a0))) by (apply (PI _ W); eauto). discriminate.
Qed.
End Apply.

Lemma chain_idle fm rs s : (forall r, In r rs -> fm (hr_pat r) s = None) -> chain fm rs s rs [] s.
Proof. induction rs as [|r rs IH]; intros H; [constructor|]. apply (Ch_cons fm r rs s r rs [] [] s s); [apply D_not; right; apply H; now left|]. apply IH. intros x I. apply H. now right. Qed.
Lemma says_idle fm rs us : (forall u, In u us -> u <> []) -> (forall r u, In r rs -> In u us -> fm (hr_pat r) u = None) -> says fm rs us rs [] us.
Proof.
  induction us as [|u us IH]; intros NE H; [constructor|]. apply (S_cons fm rs u us rs rs [] [] u us); [apply NE; now left|apply chain_idle; intros r I; apply H; [exact I|now left]|]. apply IH; [intros x I; apply NE; now right|intros r x I J; apply H; [exact I|now right]].
Qed.
(* Where no rule matches, the description is the paragraph with one space in place of those behind a period. *)
Theorem C100_verbatim fm ms ss inner t us : (forall r, In r (ms ++ ss) -> whole r) -> trimmed inner t -> t <> [] -> cuts t us -> (forall u, In u us -> u <> []) ->
  (forall r, In r ms -> fm (hr_pat r) t = None) -> (forall r u, In r ss -> In u us -> fm (hr_pat r) u = None) ->
  extract fm (mkPst ms ss []) [mkPNode (tx "p") inner] = Ok (mkPst ms ss [(tx "desc", joined (tx " ") us)]).
Proof.
  intros W T NE C NU Hm Hs. apply (C100_extract fm [mkPNode (tx "p") inner] ms ss [] W). exists ms, ss, ([(tx "desc", joined (tx " ") us)] ++ []). split; [|reflexivity].
  apply (Pa_cons fm ms ss _ [] ms ss ms ss); [|constructor]. assert (K : kept us = us) by (unfold kept; clear - NU; induction us as [|u us IH]; [reflexivity|]; cbn [filter]; destruct (list_eq_dec N.eq_dec u []) as [->|_]; [exfalso; now apply (NU [] (or_introl eq_refl))|]; rewrite IH; [reflexivity|]; intros x I; apply NU; now right).
  assert (P := P_text fm ms ss (mkPNode (tx "p") inner) t ms [] t us ss [] us (joined (tx " ") (kept us)) eq_refl T NE (chain_idle fm ms t Hm) NE C (says_idle fm ss us NU Hs) eq_refl). rewrite K in P. cbn [app] in P. destruct (list_eq_dec N.eq_dec (joined (tx " ") us) []) as [E|_]; [|exact P].
  exfalso. destruct us as [|u [|v us]]; [inversion C| |]; cbn [joined] in E; [now apply (NU u (or_introl eq_refl))|]. apply app_eq_nil in E as (E & _). now apply (NU u (or_introl eq_refl)).
Qed.

(* ------------------------------------------------------------------ *)
(* the comparison *)
(* the values of a key, each at its first place *)
Definition values (adds : list (text * text)) (k : text) : list text := rev (nodup (list_eq_dec N.eq_dec) (rev (map snd (filter (fun e => if list_eq_dec N.eq_dec (fst e) k then true else false) adds)))).
Lemma nodup_snoc (l : list text) x : nodup (list_eq_dec N.eq_dec) (l ++ [x]) = nodup (list_eq_dec N.eq_dec) (filter (fun y => negb (text_eqb y x)) l) ++ [x].
Proof.
  induction l as [|y l IH]; [reflexivity|]. cbn [app nodup filter]. destruct (text_eqb y x) eqn:E; cbn [negb].
  - apply text_eqb_eq in E. subst y. destruct (in_dec (list_eq_dec N.eq_dec) x (l ++ [x])) as [_|N0]; [exact IH|exfalso; apply N0, in_app_iff; right; now left].
  - assert (NE : y <> x) by (intros ->; rewrite (proj2 (text_eqb_eq x x) eq_refl) in E; discriminate). cbn [nodup]. assert (Q : In y (l ++ [x]) <-> In y (filter (fun z => negb (text_eqb z x)) l)).
    { rewrite in_app_iff, filter_In, E. cbn [In negb]. split; [intros [I|[H|[]]]; [auto|congruence]|intros (I & _); now left]. }
    destruct (in_dec (list_eq_dec N.eq_dec) y (l ++ [x])) as [I|N0], (in_dec (list_eq_dec N.eq_dec) y (filter _ l)) as [I'|N0']; [exact IH|exfalso; apply N0'; now apply Q|exfalso; apply N0; now apply Q|]. cbn [app]. now rewrite IH.
Qed.
Lemma filter_rev_ {A} (f : A -> bool) l : filter f (rev l) = rev (filter f l).
Proof. induction l as [|x l IH]; [reflexivity|]. cbn [rev filter]. rewrite filter_app, IH. cbn [filter]. destruct (f x); [reflexivity|apply app_nil_r]. Qed.
Lemma dedupe_go vs : forall seen, dedupe seen vs = rev (nodup (list_eq_dec N.eq_dec) (rev (filter (fun v => negb (existsb (text_eqb v) seen)) vs))).
Proof.
  induction vs as [|v vs IH]; intros seen; [reflexivity|]. cbn [dedupe filter]. destruct (existsb (text_eqb v) seen) eqn:E; cbn [negb].
  - rewrite IH. f_equal. f_equal. f_equal. apply filter_ext. intros x. rewrite existsb_app. cbn [existsb]. destruct (text_eqb x v) eqn:X; [|now rewrite !Bool.orb_false_r]. apply text_eqb_eq in X. subst x. now rewrite E.
  - cbn [rev]. rewrite nodup_snoc, rev_app_distr. cbn [rev app]. f_equal. rewrite IH. f_equal. f_equal. rewrite filter_rev_. f_equal. assert (FF : forall (f g : text -> bool) l, filter f (filter g l) = filter (fun x => g x && f x) l) by (clear; intros f g l; induction l as [|x l IHl]; [reflexivity|]; cbn [filter]; destruct (g x); cbn [filter andb]; [destruct (f x); now rewrite IHl|exact IHl]).
    rewrite FF. apply filter_ext. intros x. rewrite existsb_app. cbn [existsb]. rewrite Bool.orb_false_r, Bool.negb_orb. reflexivity.
Qed.
Lemma filter_true {A} (l : list A) : filter (fun _ => negb false) l = l.
Proof. induction l as [|x l IH]; [reflexivity|]. cbn. now f_equal. Qed.
Lemma field_values adds k : field adds k = values adds k.
Proof.
  unfold field, values. rewrite dedupe_go. cbn [existsb]. rewrite filter_true. f_equal. f_equal. f_equal. f_equal. apply filter_ext. intros e. destruct (list_eq_dec N.eq_dec (fst e) k) as [E|E]; [now apply text_eqb_eq|]. destruct (text_eqb (fst e) k) eqn:Q; [apply text_eqb_eq in Q; contradiction|exact Q].
Qed.

Section Compare.
Variable uw : N -> bool.
Variable repr : list text -> text.
Variable quoted lower : text -> text.
Notation compare := (compare_to_header uw repr quoted lower).
Definition kind_fits (ks : list text) (sp : text) : Prop := ks = [] \/ (ks = [tx "accessor property"] /\ sp = tx "bif: intrinsic: accessor function") \/ (ks = [tx "method"] /\ sp = tx "bif: intrinsic").
(* the name of the preamble is that of the header, but for spaces at brackets and capitals *)
Definition name_fits (p n : text) : Prop := p = n \/ p = str_replace (tx " ]") (tx "]") (str_replace (tx " [ ") (tx "[") n) \/ lower p = lower n.
Definition name_lines (ps : list text) (n : text) (ms : list pmsg) : Prop :=
  (ps = [] /\ ms = []) \/ (exists p, ps = [p] /\ name_fits p n /\ ms = []) \/ (exists p, ps = [p] /\ ~ name_fits p n /\ ms = [Warn []; Warn (tx "resolve_oi: name in heading (" ++ n ++ tx ") != name in preamble (" ++ p ++ tx ")")]).
Definition var_name (x : text) : Prop := exists w, x = tx "_" ++ w ++ tx "_" /\ w <> [] /\ all_are (word_char uw) w.
(* what the preamble says of the parameters *)
Inductive stated (n : text) : list text -> list pmsg -> option (list aparam) -> Prop :=
| St_nothing : stated n [] [] None
| St_none : stated n [tx "no arguments"] [] (Some [])
| St_any : stated n [tx "zero or more arguments"] [] None
| St_one w x : w = [] \/ w = tx "an " -> var_name x -> stated n [w ++ tx "argument " ++ x] [] (Some [mkAParam x [] (tx "unknown")])
| St_many a b l : stated n (a :: b :: l) [Warn []; Warn (n ++ tx " has multi-pl: " ++ repr (a :: b :: l))] None.
Definition differ (n what : text) (a p : aparam) (x y : text) : list pmsg :=
  if list_eq_dec N.eq_dec x y then [] else [Warn []; Warn (n ++ tx " parameter " ++ ap_name a ++ tx " has param " ++ what ++ tx " mismatch:"); Warn (tx "h: " ++ x); Warn (tx "p: " ++ y)].
(* header and preamble put together *)
Inductive settled (n : text) : option (list aparam) -> option (list aparam) -> list pmsg -> list aparam -> Prop :=
| Se_new qs : settled n None (Some qs) [] qs
| Se_old ps : settled n (Some ps) None [] ps
| Se_both ps qs : map ap_name ps = map ap_name qs -> settled n (Some ps) (Some qs) (flat_map (fun x => differ n (tx "punct") (fst x) (snd x) (ap_punct (fst x)) (ap_punct (snd x)) ++ differ n (tx "nature") (fst x) (snd x) (ap_nature (fst x)) (ap_nature (snd x))) (combine ps qs)) ps.
(* a variable in a text *)
Definition mentioned (v t : text) : Prop := exists a b w, t = a ++ v ++ b /\ v = 95%N :: w /\ w <> [] /\ all_are (word_char uw) w /\ ~ wordish uw (last_of None a) /\ ~ wordish uw (hd_error b).
Definition known : list (text * text) := [
  (tx "_NativeError_", tx "_NativeError_"); (tx "_TypedArray_", tx "_TypedArray_"); (tx "Math.exp", tx "_e_"); (tx "Math.expm1", tx "_e_");
  (tx "String.prototype.localeCompare", tx "_string_"); (tx "String.prototype.localeCompare", tx "_thatValue_"); (tx "String.prototype.slice", tx "_sourceLength_"); (tx "String.prototype.substr", tx "_sourceLength_");
  (tx "Array.prototype.slice", tx "_length_"); (tx "Array.prototype.sort", tx "_x_"); (tx "Array.prototype.sort", tx "_y_");
  (tx "%TypedArray%.prototype.set", tx "_TypedArray_"); (tx "%TypedArray%.prototype.subarray", tx "_TypedArray_"); (tx "JSON.parse", tx "_key_"); (tx "JSON.parse", tx "_value_")].
Definition strange (n : text) (ps : list aparam) (paras : list text) (v : text) : Prop := (exists t, In t paras /\ mentioned v t) /\ ~ In v (map ap_name ps) /\ ~ In (n, v) known.
Definition var_lines (num title : text) (vs : list text) : list pmsg :=
  match vs with [] => [] | _ => Warn [] :: Warn (tx "In " ++ num ++ tx " " ++ title ++ tx ",") :: Warn (tx "the preamble refers to non-parameter var(s):") :: map (fun v => Warn (tx "    " ++ v)) vs end.

Lemma joined_amp a b l : In 38%N (joined (tx " & ") (a :: b :: l)).
Proof. change (joined (tx " & ") (a :: b :: l)) with (a ++ tx " & " ++ joined (tx " & ") (b :: l)). apply in_app_iff. right. apply in_app_iff. left. right. now left. Qed.
Lemma joined_is ks x : ks <> [] -> ~ In 38%N x -> joined (tx " & ") ks = x <-> ks = [x].
Proof.
  intros NE NX. destruct ks as [|a [|b l]]; [congruence|cbn [joined]; split; [now intros ->|now intros [= ->]]|]. split; [|discriminate]. intros E. exfalso. apply NX. rewrite <- E. apply joined_amp.
Qed.
Lemma kind_ok h adds sp : ah_species h = Some sp -> kind_fits (values adds (tx "kind")) sp -> compare_kind quoted h adds = ([], Ok tt).
Proof.
  intros E F. unfold compare_kind. rewrite E, field_values. destruct F as [->|[(-> & ->)|(-> & ->)]]; reflexivity.
Qed.
Lemma kind_inv h adds ms : compare_kind quoted h adds = (ms, Ok tt) -> ms = [] /\ exists sp, ah_species h = Some sp /\ kind_fits (values adds (tx "kind")) sp.
Proof.
  unfold compare_kind. destruct (ah_species h) as [sp|]; [|discriminate]. rewrite field_values. destruct (values adds (tx "kind")) as [|k ks] eqn:V; [intros [= <-]; split; [reflexivity|exists sp; split; [reflexivity|now left]]|].
  assert (NE : k :: ks <> []) by discriminate. destruct (text_eqb _ (tx "accessor property")) eqn:A.
  - apply text_eqb_eq in A. apply joined_is in A; [|exact NE|vm_compute; intuition discriminate]. rewrite A. destruct (text_eqb _ sp) eqn:S0; [|discriminate]. intros [= <-]. split; [reflexivity|]. exists sp. split; [reflexivity|]. right. left. split; [reflexivity|]. symmetry. now apply text_eqb_eq.
  - destruct (text_eqb _ (tx "method")) eqn:B; [|discriminate]. apply text_eqb_eq in B. apply joined_is in B; [|exact NE|vm_compute; intuition discriminate]. rewrite B. destruct (text_eqb _ sp) eqn:S0; [|discriminate]. intros [= <-]. split; [reflexivity|]. exists sp. split; [reflexivity|]. right. right. split; [reflexivity|]. symmetry. now apply text_eqb_eq.
Qed.
Lemma name_fits_b p n : text_eqb p n || text_eqb p (str_replace (tx " ]") (tx "]") (str_replace (tx " [ ") (tx "[") n)) || text_eqb (lower p) (lower n) = true <-> name_fits p n.
Proof. unfold name_fits. rewrite !Bool.orb_true_iff, !text_eqb_eq. tauto. Qed.
Lemma name_iff h adds ms n : compare_name lower h adds = (ms, Ok n) <-> ah_name h = Some n /\ name_lines (values adds (tx "name")) n ms.
Proof.
  unfold compare_name, name_lines. destruct (ah_name h) as [n0|]; [|split; [discriminate|intros (H & _); discriminate]]. rewrite field_values. destruct (values adds (tx "name")) as [|p [|q l]]; cbn [at_most_one].
  - rewrite !mbind_ret. unfold mret. split; [intros [= <- <-]; auto|]. intros ([= ->] & [(_ & ->)|[(p & E & _)|(p & E & _)]]); [reflexivity|discriminate|discriminate].
  - rewrite mbind_ret. destruct (text_eqb p n0 || _ || _) eqn:F.
    + apply name_fits_b in F. rewrite mbind_ret. unfold mret. split; [intros [= <- <-]; split; [reflexivity|]; right; left; eauto|]. intros ([= ->] & [(E & _)|[(p' & E & _ & ->)|(p' & [= <-] & NF & _)]]); [discriminate|reflexivity|contradiction].
    + assert (NF : ~ name_fits p n0) by (rewrite <- name_fits_b; congruence). unfold warn. rewrite mbind_tell. cbn [fst snd mret app]. split; [intros [= <- <-]; split; [reflexivity|]; right; right; eauto|]. intros ([= ->] & [(E & _)|[(p' & [= <-] & F' & _)|(p' & [= <-] & _ & ->)]]); [discriminate|contradiction|reflexivity].
  - split; [discriminate|]. intros (_ & [(E & _)|[(p' & E & _)|(p' & E & _)]]); discriminate.
Qed.
Lemma under_iff x : under_name uw x = true <-> var_name x.
Proof.
  unfold under_name, var_name. rewrite !Bool.andb_true_iff, Nat.leb_le. split.
  - intros (((L & A) & B) & F). destruct x as [|c x]; [discriminate|]. apply N.eqb_eq in A. subst c. destruct x as [|d w _] using rev_ind; [cbn in L; lia|]. change (95%N :: w ++ [d]) with ((95%N :: w) ++ [d]) in *. rewrite rev_app_distr in B. cbn [rev app] in B. apply N.eqb_eq in B. subst d. exists w. split; [reflexivity|]. split; [intros ->; cbn in L; lia|]. intros c I. apply wordc_iff. rewrite forallb_forall in F. apply F. apply in_app_iff. left. now right.
  - intros (w & -> & NE & A). change (tx "_") with [95%N]. split; [split; [split|]|].
    + rewrite !app_length. cbn [length]. destruct w; [congruence|cbn [length]; lia].
    + reflexivity.
    + rewrite app_assoc, rev_app_distr. reflexivity.
    + apply forallb_forall. intros c I. apply wordc_iff. apply in_app_iff in I as [[<-|[]]|I]; [left; lia|]. apply in_app_iff in I as [I|[<-|[]]]; [now apply A|left; lia].
Qed.
Lemma eat_some p t r : eat p t = Some r <-> t = p ++ r.
Proof. split; [apply eat_inv|intros ->; apply eat_ok]. Qed.
Lemma one_argument_iff t x : one_argument uw t = Some x <-> exists w, (w = [] \/ w = tx "an ") /\ t = w ++ tx "argument " ++ x /\ var_name x.
Proof.
  unfold one_argument. split.
  - destruct (eat (tx "an ") t) as [t'|] eqn:A.
    + apply eat_some in A. destruct (eat (tx "argument ") t') as [y|] eqn:B; [|discriminate]. apply eat_some in B. destruct (under_name uw y) eqn:U; [|discriminate]. intros [= <-]. apply under_iff in U. exists (tx "an "). subst. auto.
    + destruct (eat (tx "argument ") t) as [y|] eqn:B; [|discriminate]. apply eat_some in B. destruct (under_name uw y) eqn:U; [|discriminate]. intros [= <-]. apply under_iff in U. exists []. subst. auto.
  - intros (w & [->| ->] & -> & V); apply under_iff in V.
    + cbn [app]. replace (eat (tx "an ") (tx "argument " ++ x)) with (@None text) by reflexivity. rewrite eat_ok. now rewrite V.
    + rewrite eat_ok, eat_ok. now rewrite V.
Qed.
Lemma stated_iff n adds ms pr : stated_params uw repr n adds = (ms, Ok pr) <-> stated n (values adds (tx "pl")) ms pr.
Proof.
  unfold stated_params. rewrite field_values. destruct (values adds (tx "pl")) as [|pl [|q l]].
  - split; [intros [= <- <-]; constructor|intros H; inversion H; reflexivity].
  - split.
    + destruct (text_eqb pl (tx "no arguments")) eqn:A; [apply text_eqb_eq in A; subst pl; intros [= <- <-]; constructor|]. destruct (text_eqb pl (tx "zero or more arguments")) eqn:B; [apply text_eqb_eq in B; subst pl; intros [= <- <-]; constructor|].
      destruct (one_argument uw pl) as [x|] eqn:O; [|discriminate]. intros [= <- <-]. apply one_argument_iff in O as (w & W & -> & V). now constructor.
    + intros H. remember [pl] as l eqn:El in H. destruct H as [| | |w x W V|a b l]; [discriminate|replace pl with (tx "no arguments") by congruence; reflexivity|replace pl with (tx "zero or more arguments") by congruence; reflexivity| |discriminate]. replace pl with (w ++ tx "argument " ++ x) by congruence. clear El. assert (O : one_argument uw (w ++ tx "argument " ++ x) = Some x) by (apply one_argument_iff; eauto). destruct (text_eqb _ (tx "no arguments")) eqn:A; [apply text_eqb_eq in A; exfalso; destruct W as [-> | ->]; discriminate|]. destruct (text_eqb _ (tx "zero or more arguments")) eqn:B; [apply text_eqb_eq in B; exfalso; destruct W as [-> | ->]; discriminate|]. rewrite O. reflexivity.
  - unfold warn. split; [intros [= <- <-]; constructor|intros H; inversion H; subst; reflexivity].
Qed.
Lemma compare_param_eq n a p : compare_param n a p = differ n (tx "punct") a p (ap_punct a) (ap_punct p) ++ differ n (tx "nature") a p (ap_nature a) (ap_nature p).
Proof.
  unfold compare_param, differ. f_equal; destruct (text_eqb _ _) eqn:E, (list_eq_dec N.eq_dec _ _) as [D|D]; try reflexivity; try (apply text_eqb_eq in E; contradiction); exfalso; rewrite D, (proj2 (text_eqb_eq _ _) eq_refl) in E; discriminate.
Qed.
Lemma params_iff h n pr ms ps : compare_params repr h n pr = (ms, Ok ps) <-> settled n (ah_params h) pr ms ps.
Proof.
  unfold compare_params. destruct (ah_params h) as [ps0|], pr as [qs|].
  - unfold texts_eqb. destruct (list_eq_dec (list_eq_dec N.eq_dec) (map ap_name ps0) (map ap_name qs)) as [E|E].
    + rewrite mbind_tell. cbn [fst snd mret]. rewrite app_nil_r. rewrite (flat_map_ext _ _ (fun x => compare_param_eq n (fst x) (snd x))). split; [intros [= <- <-]; now constructor|]. intros H. inversion H; subst. reflexivity.
    + split; [discriminate|]. intros H. inversion H; subst. contradiction.
  - split; [intros [= <- <-]; constructor|intros H; inversion H; reflexivity].
  - split; [intros [= <- <-]; constructor|intros H; inversion H; reflexivity].
  - split; [discriminate|intros H; inversion H].
Qed.
(* the scan for variables: what has been read of the current word is done with, or begins with an underscore *)
Definition not_word (t : text) : Prop := ~ wordish uw (hd_error t).
Lemma not_word_cons c t : wordc uw c = false -> not_word (c :: t).
Proof. intros C (x & E & W). injection E as <-. apply wordc_iff in W. congruence. Qed.
Lemma last_not prev q c : wordc uw c = false -> ~ wordish uw (last_of prev (q ++ [c])).
Proof. intros C (x & E & W). rewrite last_snoc in E. injection E as <-. apply wordc_iff in W. congruence. Qed.
Lemma word_split t : exists w r, t = w ++ r /\ all_are (word_char uw) w /\ not_word r.
Proof.
  induction t as [|c t (w & r & -> & A & R)]; [exists [], []; split; [reflexivity|]; split; [intros c []|intros (x & E & _); discriminate]|]. destruct (wordc uw c) eqn:C; [exists (c :: w), r; split; [reflexivity|]; split; [intros d [<-|I]; [now apply wordc_iff|auto]|exact R]|]. exists [], (c :: w ++ r). split; [reflexivity|]. split; [intros d []|now apply not_word_cons].
Qed.
Lemma vars_word w r : all_are (word_char uw) w -> not_word r -> forall cur b, vars_in uw b (Some cur) (w ++ r) = (if 2 <=? length (rev w ++ cur) then [rev cur ++ w] else []) ++ vars_in uw false None r.
Proof.
  intros A R. induction w as [|c w IH]; intros cur b.
  - cbn [app rev]. rewrite app_nil_r. destruct r as [|c r].
    + cbn [vars_in]. destruct cur as [|x [|y cur]]; cbn [length Nat.leb app]; reflexivity.
    + assert (C : wordc uw c = false) by (destruct (wordc uw c) eqn:C; [exfalso; apply R; exists c; split; [reflexivity|now apply wordc_iff]|reflexivity]). cbn [vars_in]. rewrite C. destruct cur as [|x [|y cur]]; cbn [length Nat.leb app]; reflexivity.
  - cbn [app vars_in]. rewrite (proj2 (wordc_iff uw c) (A c (or_introl eq_refl))). rewrite IH by (intros d I; apply A; now right). cbn [rev]. rewrite <- !app_assoc. reflexivity.
Qed.
Lemma vars_skip w r : all_are (word_char uw) w -> not_word r -> vars_in uw true None (w ++ r) = vars_in uw false None r.
Proof.
  intros A R. induction w as [|c w IH].
  - destruct r as [|c r]; [reflexivity|]. assert (C : wordc uw c = false) by (destruct (wordc uw c) eqn:C; [exfalso; apply R; exists c; split; [reflexivity|now apply wordc_iff]|reflexivity]). cbn [app vars_in]. now rewrite C.
  - cbn [app vars_in]. rewrite (proj2 (wordc_iff uw c) (A c (or_introl eq_refl))). cbn [negb andb]. apply IH. intros d I. apply A. now right.
Qed.
Lemma align (w v r b a : text) : w ++ r = a ++ v ++ b -> all_are (word_char uw) w -> not_word r -> v <> [] -> all_are (word_char uw) v -> not_word b -> ~ wordish uw (last_of None a) -> (a = [] /\ v = w /\ b = r) \/ exists a', a = w ++ a' /\ r = a' ++ v ++ b /\ (a' = [] -> w = []).
Proof.
  intros E A R NE AV B La. apply app_eq_app in E as (x & [(-> & E)|(-> & E)]).
  - destruct x as [|c x].
    + right. exists []. rewrite app_nil_r in *. split; [now rewrite app_nil_r|]. split; [now cbn [app] in E|]. intros _. destruct a as [|y a _] using rev_ind; [reflexivity|]. exfalso. apply La. exists y. split; [apply last_snoc|]. apply A. apply in_app_iff. right. now left.
    + assert (Ea : a = []). { destruct a as [|y a _] using rev_ind; [reflexivity|]. exfalso. apply La. exists y. split; [apply last_snoc|]. apply A. apply in_app_iff. left. apply in_app_iff. right. now left. }
      subst a. cbn [app] in *. left. split; [reflexivity|]. symmetry in E. change ((c :: x) ++ r = v ++ b) in E. apply app_eq_app in E as (y & [(E1 & E2)|(E1 & E2)]).
      * destruct y as [|d y]; [rewrite app_nil_r in E1; auto|]. exfalso. apply B. exists d. subst b. split; [reflexivity|]. apply A. rewrite E1. apply in_app_iff. right. now left.
      * destruct y as [|d y]; [rewrite app_nil_r in E1; auto|]. exfalso. apply R. exists d. subst r. split; [reflexivity|]. apply AV. rewrite E1. apply in_app_iff. right. now left.
  - right. exists x. split; [reflexivity|]. split; [exact E|]. intros ->. destruct w as [|y w _] using rev_ind; [reflexivity|]. exfalso. apply La. rewrite app_nil_r. exists y. split; [apply last_snoc|]. apply A. apply in_app_iff. right. now left.
Qed.
Lemma vars_iff t : forall v, In v (vars_in uw false None t) <-> mentioned v t.
Proof.
  remember (length t) as n eqn:Hn. assert (L : length t <= n) by lia. clear Hn. revert t L. induction n as [|n IH]; intros t L v.
  - destruct t; [|cbn in L; lia]. split; [intros []|]. intros (a & b & w & E & -> & _). symmetry in E. apply app_eq_nil in E as (_ & E). discriminate.
  - destruct (word_split t) as (w & r & -> & A & R).
    assert (M : mentioned v (w ++ r) <-> (v = w /\ exists w', w = 95%N :: w' /\ w' <> []) \/ (exists c r', r = c :: r' /\ mentioned v r')).
    { split.
      - intros (a & b & x & E & Ev & NX & AX & La & Lb). assert (AV : all_are (word_char uw) v) by (rewrite Ev; intros d [<-|I]; [left; lia|now apply AX]). destruct (align w v r b a E A R) as [(_ & -> & _)|(a' & -> & Er & Ha)]; [rewrite Ev; discriminate|exact AV|exact Lb|exact La|left; split; [reflexivity|exists x; auto]|]. right.
        destruct a' as [|c a']; [exfalso; rewrite (Ha eq_refl) in *; apply R; rewrite Er, Ev; exists 95%N; split; [reflexivity|left; lia]|]. exists c, (a' ++ v ++ b). split; [exact Er|]. exists a', b, x. split; [reflexivity|]. split; [exact Ev|]. split; [exact NX|]. split; [exact AX|]. split; [|exact Lb]. destruct a' as [|y a'' _] using rev_ind; [intros (z & Ez & _); discriminate|]. rewrite last_snoc. change (w ++ c :: a'' ++ [y]) with (w ++ (c :: a'') ++ [y]) in La. now rewrite app_assoc, last_snoc in La.
      - intros [(-> & w' & Ew & NE)|(c & r' & -> & (a & b & x & -> & Ev & NX & AX & La & Lb))].
        + exists [], r, w'. split; [reflexivity|]. split; [exact Ew|]. split; [exact NE|]. split; [intros d I; apply A; rewrite Ew; now right|]. split; [intros (z & Ez & _); discriminate|exact R].
        + exists (w ++ c :: a), b, x. split; [now rewrite <- app_assoc|]. split; [exact Ev|]. split; [exact NX|]. split; [exact AX|]. split; [|exact Lb]. destruct a as [|y a' _] using rev_ind; [rewrite last_snoc; intros (z & Ez & W); injection Ez as <-; apply R; exists c; auto|]. change (w ++ c :: a' ++ [y]) with (w ++ (c :: a') ++ [y]). rewrite app_assoc, last_snoc. now rewrite last_snoc in La. }
    rewrite M. clear M.
    assert (RR : In v (vars_in uw false None r) <-> exists c r', r = c :: r' /\ mentioned v r').
    { destruct r as [|c r]; [split; [intros []|intros (c & r' & E & _); discriminate]|]. assert (C : wordc uw c = false) by (destruct (wordc uw c) eqn:C; [exfalso; apply R; exists c; split; [reflexivity|now apply wordc_iff]|reflexivity]). cbn [vars_in]. rewrite C. cbn [app]. rewrite IH by (rewrite app_length in L; cbn [length] in L; lia). split; [intros M; eauto|intros (c' & r' & [= <- <-] & M); exact M]. }
    destruct w as [|c w]; [cbn [app]; rewrite RR; split; [tauto|intros [(_ & w' & E & _)|H]; [discriminate|exact H]]|]. cbn [app vars_in]. rewrite (proj2 (wordc_iff uw c) (A c (or_introl eq_refl))). cbn [negb andb]. assert (A' : all_are (word_char uw) w) by (intros d I; apply A; now right). destruct (c =? 95)%N eqn:C.
    + apply N.eqb_eq in C. subst c. rewrite (vars_word w r A' R), in_app_iff, RR. rewrite app_length, rev_length. cbn [length rev app]. destruct w as [|d w].
      * cbn [length Nat.add Nat.leb]. split; [intros [[]|H]; now right|intros [(_ & w' & E & NE)|H]; [exfalso; apply NE; congruence|now right]].
      * replace (2 <=? length (d :: w) + 1) with true by (symmetry; apply Nat.leb_le; cbn [length]; lia). cbn [In]. split; [intros [[<-|[]]|H]; [left; split; [reflexivity|exists (d :: w); split; [reflexivity|discriminate]]|now right]|intros [(-> & _)|H]; [left; now left|now right]].
    + rewrite (vars_skip w r A' R), RR. split; [now right|]. intros [(_ & w' & E & _)|H]; [|exact H]. apply N.eqb_neq in C. congruence.
Qed.
Lemma strange_iff n ps paras v : In v (strange_vars uw n ps paras) <-> strange n ps paras v.
Proof.
  unfold strange_vars, strange. rewrite filter_In, Bool.andb_true_iff, !Bool.negb_true_iff, <- !Bool.not_true_iff_false, !existsb_exists, in_flat_map. change known_vars with known.
  assert (X : (exists x, In x ps /\ text_eqb (ap_name x) v = true) <-> In v (map ap_name ps)) by (rewrite in_map_iff; split; intros (x & P & Q); exists x; [apply text_eqb_eq in Q; auto|split; [exact Q|now apply text_eqb_eq]]).
  assert (Y : (exists x, In x known /\ text_eqb (fst x) n && text_eqb (snd x) v = true) <-> In (n, v) known). { split; [intros ((a, b) & I & Q); cbn [fst snd] in Q; apply andb_prop in Q as (Q1 & Q2); apply text_eqb_eq in Q1, Q2; now subst|]. intros I. exists (n, v). split; [exact I|]. cbn [fst snd]. now rewrite !(proj2 (text_eqb_eq _ _) eq_refl). }
  rewrite X, Y. assert (Z : (exists x, In x paras /\ In v (vars_in uw false None x)) <-> exists t, In t paras /\ mentioned v t) by (split; intros (t & I & V); exists t; (split; [exact I|]); now apply vars_iff). rewrite Z. reflexivity.
Qed.
Lemma at_most_iff vs ms o : at_most_one vs = (ms, Ok o) <-> ms = [] /\ ((vs = [] /\ o = None) \/ exists v, vs = [v] /\ o = Some v).
Proof.
  destruct vs as [|v [|w vs]]; cbn [at_most_one]; unfold mret, mfail; split.
  - intros [= <- <-]. auto.
  - intros (-> & [(_ & ->)|(v & E & _)]); [reflexivity|discriminate].
  - intros [= <- <-]. split; [reflexivity|]. right. eauto.
  - intros (-> & [(E & _)|(x & [= <-] & ->)]); [discriminate|reflexivity].
  - discriminate.
  - intros (_ & [(E & _)|(x & E & _)]); discriminate.
Qed.
Lemma mbind_inv {M A B} (o : outm M A) (k : A -> outm M B) ms b : mbind o k = (ms, Ok b) <-> exists m1 a m2, o = (m1, Ok a) /\ k a = (m2, Ok b) /\ ms = m1 ++ m2.
Proof.
  destruct o as (m, [a|e]); unfold mbind; cbn [fst snd]; split; try discriminate.
  - destruct (k a) as (m2, r) eqn:K. cbn [fst snd]. intros [= <- ->]. exists m, a, m2. auto.
  - intros (m1 & a' & m2 & [= <- <-] & K & ->). rewrite K. reflexivity.
  - intros (m1 & a' & m2 & E & _). discriminate.
Qed.
(* The header is accepted just if the kind fits its species, there is at most one name, what is said of the parameters is understood and does not contradict it by names, what is said of abrupt returns is said once, and it has no description yet. The lines are about the name, the parameters and the variables in the description, in this order; the header gets the parameters, if it had none, and the description. *)
Theorem C100_compare h adds ms h' : compare h adds = (ms, Ok h') <->
  exists sp n m1 m2 m3 pr ps vs,
    ah_species h = Some sp /\ kind_fits (values adds (tx "kind")) sp /\
    ah_name h = Some n /\ name_lines (values adds (tx "name")) n m1 /\
    stated n (values adds (tx "pl")) m2 pr /\ settled n (ah_params h) pr m3 ps /\
    length (values adds (tx "reta")) <= 1 /\ ah_desc h = [] /\
    listing vs (strange n ps (values adds (tx "desc"))) /\
    ms = m1 ++ m2 ++ m3 ++ var_lines (ah_num h) (ah_title h) vs /\
    h' = mkAHeader (Some sp) (Some n) (Some ps) (values adds (tx "desc")) (ah_num h) (ah_title h).
Proof.
  assert (LS : forall n ps, listing (sorted_set (strange_vars uw n ps (values adds (tx "desc")))) (strange n ps (values adds (tx "desc")))).
  { intros n ps. destruct (sorted_set_ok (strange_vars uw n ps (values adds (tx "desc")))) as (S1 & S2 & S3). split; [exact S1|]. split; [exact S2|]. intros v. rewrite S3. apply strange_iff. }
  unfold compare_to_header. split.
  - intros H. apply mbind_inv in H as (m0 & [] & mm & K & H & ->). apply kind_inv in K as (-> & sp & Sp & KF). apply mbind_inv in H as (m1 & n & mm1 & Nm & H & ->). apply name_iff in Nm as (Hn & NL). apply mbind_inv in H as (m2 & pr & mm2 & St & H & ->). apply stated_iff in St. apply mbind_inv in H as (m3 & ps & mm3 & Se & H & ->). apply params_iff in Se.
    apply mbind_inv in H as (m4 & o & mm4 & Re & H & ->). apply at_most_iff in Re as (-> & Re). rewrite field_values in *. apply mbind_inv in H as (m5 & [] & mm5 & V & H & ->). rewrite mbind_assert in H. destruct (ah_desc h) as [|d ds] eqn:D; [|discriminate]. injection H as <- <-.
    exists sp, n, m1, m2, m3, pr, ps, (sorted_set (strange_vars uw n ps (values adds (tx "desc")))). split; [exact Sp|]. split; [exact KF|]. split; [exact Hn|]. split; [exact NL|]. split; [exact St|]. split; [exact Se|]. split; [destruct Re as [(-> & _)|(v & -> & _)]; cbn; lia|]. split; [reflexivity|]. split; [apply LS|]. split; [|rewrite Sp, Hn; reflexivity]. cbn [app]. rewrite app_nil_r. f_equal. f_equal. f_equal. destruct (sorted_set _) as [|v vs]; unfold mret, mtell in V; injection V as <-; reflexivity.
  - intros (sp & n & m1 & m2 & m3 & pr & ps & vs & Sp & KF & Hn & NL & St & Se & Re & D & Ls & -> & ->). rewrite (kind_ok h adds sp Sp KF). apply mbind_inv. exists [], tt, (m1 ++ m2 ++ m3 ++ var_lines (ah_num h) (ah_title h) vs). split; [reflexivity|]. split; [|reflexivity].
    apply mbind_inv. exists m1, n, (m2 ++ m3 ++ var_lines (ah_num h) (ah_title h) vs). split; [now apply name_iff|]. split; [|reflexivity]. apply mbind_inv. exists m2, pr, (m3 ++ var_lines (ah_num h) (ah_title h) vs). split; [now apply stated_iff|]. split; [|reflexivity]. apply mbind_inv. exists m3, ps, (var_lines (ah_num h) (ah_title h) vs). split; [now apply params_iff|]. split; [|reflexivity].
    rewrite !field_values. apply mbind_inv. exists [], (hd_error (values adds (tx "reta"))), (var_lines (ah_num h) (ah_title h) vs). split; [apply at_most_iff; split; [reflexivity|]; destruct (values adds (tx "reta")) as [|v [|w l]]; [left; auto|right; eauto|cbn in Re; lia]|]. split; [|reflexivity]. cbn zeta. rewrite (listing_unique _ _ (LS n ps) _ Ls). rewrite D, Sp, Hn.
    apply mbind_inv. exists (var_lines (ah_num h) (ah_title h) vs), tt, []. split; [destruct vs; reflexivity|]. split; [reflexivity|now rewrite app_nil_r].
Qed.
(* If both know the parameters and the names differ, this is a TypeError, and the names of the preamble are never written. *)
Theorem C100_mismatch h adds sp n m1 m2 ps qs : ah_species h = Some sp -> kind_fits (values adds (tx "kind")) sp -> ah_name h = Some n -> name_lines (values adds (tx "name")) n m1 -> stated n (values adds (tx "pl")) m2 (Some qs) -> ah_params h = Some ps -> map ap_name ps <> map ap_name qs ->
  compare h adds = (m1 ++ m2 ++ [Warn []; Warn (n ++ tx " has param name mismatch:"); Warn (repr (map ap_name ps))], Err TypeError).
Proof.
  intros Sp KF Hn NL St Hp NE. assert (U : forall A B (m : list pmsg) (a : A) (k : A -> outm pmsg B), mbind (m, Ok a) k = (m ++ fst (k a), snd (k a))) by reflexivity.
  assert (Cp : compare_params repr h n (Some qs) = ([Warn []; Warn (n ++ tx " has param name mismatch:"); Warn (repr (map ap_name ps))], Err TypeError)).
  { unfold compare_params. rewrite Hp. unfold texts_eqb. destruct (list_eq_dec (list_eq_dec N.eq_dec) (map ap_name ps) (map ap_name qs)) as [E|_]; [contradiction|]. reflexivity. }
  unfold compare_to_header. rewrite (kind_ok h adds sp Sp KF), U, (proj2 (name_iff h adds m1 n) (conj Hn NL)), U, (proj2 (stated_iff n adds m2 (Some qs)) St), U, Cp. reflexivity.
Qed.
(* Other failures are the assertion, and KeyError just for kinds that are not known. *)
Theorem C100_errors h adds ms e : compare h adds = (ms, Err e) -> e = AssertionError \/ e = TypeError \/ (e = KeyError /\ exists sp, ah_species h = Some sp /\ values adds (tx "kind") <> [] /\ values adds (tx "kind") <> [tx "accessor property"] /\ values adds (tx "kind") <> [tx "method"]).
Proof.
  intros H. assert (E : snd (compare h adds) = Err e) by now rewrite H. clear H ms. unfold compare_to_header in E. apply mbind_err in E as [E|([] & _ & E)].
  { unfold compare_kind in E. destruct (ah_species h) as [sp|]; [|cbn in E; left; congruence]. rewrite field_values in E. destruct (values adds (tx "kind")) as [|k ks] eqn:V; [discriminate|]. destruct (text_eqb _ (tx "accessor property")) eqn:A; [destruct (text_eqb _ sp); cbn in E; [discriminate|left; congruence]|]. destruct (text_eqb _ (tx "method")) eqn:B; [destruct (text_eqb _ sp); cbn in E; [discriminate|left; congruence]|].
    cbn in E. right. right. split; [congruence|]. exists sp. split; [reflexivity|]. split; [discriminate|]. split; intros Q; rewrite Q in *; [rewrite (proj2 (text_eqb_eq _ _) eq_refl) in A|rewrite (proj2 (text_eqb_eq _ _) eq_refl) in B]; discriminate. }
  apply mbind_err in E as [E|(n & _ & E)].
  { unfold compare_name in E. destruct (ah_name h) as [n|]; [|cbn in E; left; congruence]. apply mbind_err in E as [E|(pr & _ & E)]; [destruct (field adds (tx "name")) as [|? [|? ?]]; cbn in E; try discriminate; left; congruence|]. apply mbind_err in E as [E|(? & _ & E)]; [|discriminate]. destruct pr; [|discriminate]. destruct (_ || _); discriminate. }
  apply mbind_err in E as [E|(pr & _ & E)].
  { unfold stated_params in E. destruct (field adds (tx "pl")) as [|pl [|q l]]; [discriminate| |discriminate]. destruct (text_eqb _ _); [discriminate|]. destruct (text_eqb _ _); [discriminate|]. destruct (one_argument uw pl); [discriminate|]. cbn in E. left. congruence. }
  apply mbind_err in E as [E|(ps & _ & E)].
  { unfold compare_params in E. destruct (ah_params h), pr; try discriminate; [destruct (texts_eqb _ _); cbn in E; [discriminate|right; left; congruence]|cbn in E; left; congruence]. }
  apply mbind_err in E as [E|(? & _ & E)]; [destruct (field adds (tx "reta")) as [|? [|? ?]]; cbn in E; try discriminate; left; congruence|].
  apply mbind_err in E as [E|([] & _ & E)]; [destruct (sorted_set _); discriminate|]. rewrite mbind_assert in E. destruct (ah_desc h); cbn in E; [discriminate|left; congruence].
Qed.
End Compare.

(* ------------------------------------------------------------------ *)
(* the check of one function, and the report on rules *)
(* The check is made just for built-in functions that have preambles; it begins with nothing extracted, whatever was before. *)
Theorem C100_check uw fm repr quoted lower h ms ss adds ns out h' : (forall r, In r (ms ++ ss) -> whole r) ->
  check_header_against_prose uw fm repr quoted lower h (mkPst ms ss adds) ns = (out, Ok h') <->
  (exists sp, ah_species h = Some (tx "bif:" ++ sp)) /\ ns <> [] /\ exists ms' ss' a, paras fm ms ss ns ms' ss' a /\ compare_to_header uw repr quoted lower h a = (out, Ok h').
Proof.
  intros W. destruct (C100_extract fm ns ms ss [] W) as (Ex & _). unfold check_header_against_prose. cbn [ps_multi ps_single]. destruct (ah_species h) as [sp|]; [|split; [discriminate|intros ((x & E) & _); discriminate]].
  rewrite !mbind_assert. destruct (is_prefix (tx "bif:") sp) eqn:B; [|split; [discriminate|intros ((x & E) & _); exfalso; assert (Q : is_prefix (tx "bif:") sp = true) by (apply begins_iff; exists x; congruence); congruence]]. destruct ns as [|n ns]; [split; [discriminate|intros (_ & H & _); congruence]|].
  destruct (extract fm _ (n :: ns)) as [st'|e].
  - destruct (proj1 (Ex st') eq_refl) as (ms' & ss' & a & P & ->). cbn [ps_adds app]. split.
    + intros H. split; [apply begins_iff in B as (x & ->); eauto|]. split; [discriminate|]. exists ms', ss', a. auto.
    + intros (_ & _ & ms2 & ss2 & a2 & P2 & H). assert (X : Ok (mkPst ms' ss' a) = Ok (mkPst ms2 ss2 a2)) by (apply Ex; exists ms2, ss2, a2; auto). apply ok_inj in X. injection X as _ _ ->. exact H.
  - split; [discriminate|]. intros (_ & _ & ms2 & ss2 & a2 & P2 & _). assert (X : Err e = Ok (mkPst ms2 ss2 a2)) by (apply Ex; exists ms2, ss2, a2; auto). discriminate.
Qed.
(* A rule is reported as unused just if no sentence was matched by it: the count of a rule is the number of its matches. *)
Theorem C100_counts fm rs s rs' a s' : chain fm rs s rs' a s' -> Forall2 (fun r r' => hr_pat r' = hr_pat r /\ hr_tmpl r' = hr_tmpl r /\ (hr_count r' = hr_count r \/ hr_count r' = S (hr_count r) /\ exists u m, fm (hr_pat r) u = Some m)) rs rs'.
Proof.
  induction 1 as [|r rs s r' rs' a b s1 s2 D C IH]; constructor; [|exact IH]. destruct D as [_|m l1 x l2 _ F _]; cbn [hr_pat hr_tmpl hr_count]; [auto|]. split; [reflexivity|]. split; [reflexivity|]. right. split; [lia|eauto].
Qed.
Theorem C100_unused rs l : In l (unused rs) <-> exists r, In r rs /\ hr_count r = 0 /\ l = tx "    " ++ hr_pat r.
Proof.
  unfold unused. rewrite in_flat_map. split.
  - intros (r & I & H). destruct (hr_count r =? 0) eqn:Z; [|destruct H]. destruct H as [<-|[]]. apply Nat.eqb_eq in Z. eauto.
  - intros (r & I & Z & ->). exists r. split; [exact I|]. rewrite Z. now left.
Qed.

(* ------------------------------------------------------------------ *)
(* examples *)
Definition text_of (ls : list string) : text := joined [10%N] (map tx ls).
Example C100_sentences_ex : re_split sep_sentence 0 None [] (tx "It is v1.2.  It returns. Done") = [tx "It is v1.2."; tx "It returns."; tx "Done"].
Proof. reflexivity. Qed.
Definition rules_ex := text_of [""; "    # ====="; "    # Sentences that start with It"; ""; "        It can take three parameters."; ""; "        Given (?P<pl>zero or more arguments), this function (calls .+)"; "        # a comment"; "        v=!FUNC \2"; "        kind=accessor property"; ""]%string.
Definition two_rules := [mkHRule (tx "It can take three parameters.") [(tx "v", [])] 0; mkHRule (tx "Given (?P<pl>zero or more arguments), this function (calls .+)") [(tx "v", tx "!FUNC \2"); (tx "kind", tx "accessor property")] 0].
Example C100_rules_ex : read_rules uw0 rules_ex = Ok two_rules.
Proof. reflexivity. Qed.
Example C100_no_rules_ex : read_rules uw0 (text_of [""; "  "; ""]%string) = Ok [].
Proof. apply C100_no_rules. cbn. intuition. Qed.
Example C100_bad_line_ex : read_rules uw0 (text_of ["It is."; "v: nothing"]%string) = Err NameError.
Proof. reflexivity. Qed.
(* what the expressions of the two rules do *)
Definition fm_ex (pat s : text) : option hmatch :=
  if text_eqb pat (tx "It can take three parameters.") then (if text_eqb s pat then Some (mkHMatch [] (fun t => t)) else None)
  else if is_prefix (tx "Given zero or more arguments, this function calls ") s then
    Some (mkHMatch [(tx "pl", tx "zero or more arguments")] (fun t => if text_eqb t (tx "!FUNC \2") then tx "!FUNC " ++ skipn (length (tx "Given zero or more arguments, this function ")) s else t))
  else None.
Example C100_whole_ex : forall r, In r ([] ++ two_rules) -> whole r.
Proof. intros r [<-|[<-|[]]]; unfold whole; cbn; repeat constructor; cbn; try (intros [E|[]]; discriminate); try (intros []); try (now left); try tauto. Qed.
Definition ps_ex := [mkPNode (tx "p") (tx " It can take three parameters. Given zero or more arguments, this function calls ToNumber on _x_. See _y_ too. "); mkPNode (tx "emu-note") (tx "never read")].
Example C100_extract_ex : match extract fm_ex (mkPst [] two_rules []) ps_ex with
  | Ok st => ps_adds st = [(tx "pl", tx "zero or more arguments"); (tx "kind", tx "accessor property"); (tx "desc", tx "!FUNC calls ToNumber on _x_. See _y_ too.")] /\ map hr_count (ps_single st) = [1; 1]
  | Err _ => False end.
Proof. vm_compute. auto. Qed.
Definition h_ex := mkAHeader (Some (tx "bif: intrinsic: accessor function")) (Some (tx "get f")) (Some [mkAParam (tx "_x_") [] (tx "a Number")]) [] (tx "1.2") (tx "get f").
Example C100_compare_ex : check_header_against_prose uw0 fm_ex (fun _ => []) (fun t => t) (fun t => t) h_ex (mkPst [] two_rules []) ps_ex =
  ([Warn []; Warn (tx "In 1.2 get f,"); Warn (tx "the preamble refers to non-parameter var(s):"); Warn (tx "    _y_")],
   Ok (mkAHeader (ah_species h_ex) (ah_name h_ex) (ah_params h_ex) [tx "!FUNC calls ToNumber on _x_. See _y_ too."] (tx "1.2") (tx "get f"))).
Proof. vm_compute. reflexivity. Qed.
Example C100_mismatch_ex : compare_to_header uw0 (fun l => joined (tx ", ") l) (fun t => t) (fun t => t) h_ex [(tx "pl", tx "an argument _z_")] =
  ([Warn []; Warn (tx "get f has param name mismatch:"); Warn (tx "_x_")], Err TypeError).
Proof. vm_compute. reflexivity. Qed.
Example C100_errors_ex : snd (compare_to_header uw0 (fun l => joined (tx ", ") l) (fun t => t) (fun t => t) h_ex [(tx "kind", tx "function")]) = Err KeyError.
Proof. vm_compute. reflexivity. Qed.
Example C100_unused_ex : unused (two_rules ++ [mkHRule (tx "p") [] 2]) = [tx "    It can take three parameters."; tx "    Given (?P<pl>zero or more arguments), this function (calls .+)"].
Proof. reflexivity. Qed.

Print Assumptions C100_sentences.
Print Assumptions C100_rules.
Print Assumptions C100_no_rules.
Print Assumptions C100_bad_line.
Print Assumptions C100_apply.
Print Assumptions C100_extract.
Print Assumptions C100_verbatim.
Print Assumptions C100_compare.
Print Assumptions C100_mismatch.
Print Assumptions C100_errors.
Print Assumptions C100_check.
Print Assumptions C100_counts.
Print Assumptions C100_unused.
