(* The goals of the metagrammar read what has been written (C66): symbols, constraints, items. *)
From Coq Require Import Ascii String.
From Verif Require Import M_Base M_HTML M_Meta L_Base L_Meta L_MetaRx L_MetaFwd L_MetaRead.
Open Scope string_scope.
Open Scope nat_scope.
Open Scope list_scope.
Notation length := Datatypes.length.

(* the text goes on with a space, the end of the line, or a tag *)
Definition ends (s : text) : Prop := exists c r, s = c :: r /\ (c = 32 \/ c = 10 \/ c = 60)%N.

Definition no_bracket (s : text) : Prop := stops (N.eqb 91) s.

Section Read.
Variable uniword : N -> bool.
Notation first_match := (first_match uniword).
Notation no_match := (no_match uniword).
Notation set_has := (set_has uniword).
Notation wordb := (wordb uniword).
Variables (t : text) (e : nat).
Notation run d goal p i := (snd (attempt uniword metagrammar t e d goal p i)).
Notation reads := (reads uniword t e).

Lemma list_no_left : forall d goal rk el sep ld rd p i,
  mget metagrammar goal = Some (PList, rk, [el; sep; ld; rd]) -> String.eqb ld "" = false ->
  run d ld p i = Ok None -> run (S d) goal p i = Ok None.
Proof.
  intros d goal rk el sep ld rd p i G L H. rewrite (run_list _ _ _ _ _ _ _ _ _ G). unfold attempt_list. rewrite snd_wbind.
  unfold attempt_delim. rewrite L, snd_wbind, H. reflexivity.
Qed.

Lemma list_no_first : forall d goal rk el sep p i,
  mget metagrammar goal = Some (PList, rk, [el; sep]) ->
  run d el p i = Ok None -> run (S d) goal p i = Ok None.
Proof.
  intros d goal rk el sep p i G H. rewrite (run_list _ _ _ _ _ _ _ _ _ G). unfold attempt_list. rewrite snd_wbind.
  cbn [attempt_delim snd wret]. rewrite snd_wbind. cbn [attempt_loop]. rewrite snd_wbind, H. reflexivity.
Qed.

(* after the first delimiter, no element *)
Lemma list_no_elem : forall d goal rk el sep ld rd p i p0 i0 o,
  mget metagrammar goal = Some (PList, rk, [el; sep; ld; rd]) -> String.eqb ld "" = false ->
  run d ld p i = Ok (Some (p0, i0, o)) -> run d el p0 i0 = Ok None -> run (S d) goal p i = Ok None.
Proof.
  intros d goal rk el sep ld rd p i p0 i0 o G L H H'. rewrite (run_list _ _ _ _ _ _ _ _ _ G). unfold attempt_list. rewrite snd_wbind.
  unfold attempt_delim at 1. rewrite L, snd_wbind, H. cbn [snd wret]. rewrite snd_wbind. cbn [attempt_loop]. rewrite snd_wbind, H'. reflexivity.
Qed.

Lemma nm_bracket : forall s, no_bracket s -> no_match (rx_of "\[") s.
Proof.
  intros [|c s] H; [exact eq_refl|]. cbn [no_bracket stops] in H. change (rx_of "\[") with (RSeq (RSet false [CRange 91 91]) REps).
  apply nm_seq. apply nm_set. cbn [stops]. unfold no_bracket, stops in H. nbool.
Qed.

Lemma no_params : forall d p i s, 2 <= d -> no_bracket s -> at_ t p s -> run d "PARAMS" p i = Ok None.
Proof.
  intros d p i s D H A. deeper d. eapply list_no_left; [reflexivity|reflexivity|].
  eapply lit_miss; [reflexivity|reflexivity|vm_compute; reflexivity|lia|exact A|]. apply nm_bracket. exact H.
Qed.

Lemma read_opt_params : forall d p i o rest, 3 <= d -> wf_ps o -> (o = None -> no_bracket rest) ->
  at_ t p (w_opt w_params o ++ rest) -> reads d "OPTIONAL_PARAMS" p i (w_opt w_params o) (is_opt_params t) o.
Proof.
  intros d p i [l|] rest D W Nb A; deeper d.
  - cbn [w_opt] in *. destruct (read_params uniword t e d p i l rest) as [n [E R]]; [lia|apply W; reflexivity|exact A|].
    exists n. split; [|exact R]. eapply opt_up; [reflexivity|]. change [n] with (opt_list (Some n) ++ []). eapply seq_ok; [exact E|apply seq_nil].
  - cbn [w_opt] in *. eexists. split.
    + cbn [length]. rewrite Nat.add_0_r. eapply opt_up_no; [reflexivity|]. apply seq_no. eapply no_params; [lia|apply Nb; reflexivity|exact A].
    + cbn. unfold leaf, says, g_text, slice. cbn. rewrite Nat.sub_diag. repeat split; reflexivity.
Qed.

Lemma read_gnt : forall d p i n o rest, 4 <= d -> wf_nt uniword n -> wf_ps o -> stops wordb rest -> no_bracket rest ->
  at_ t p ((n ++ w_opt w_params o) ++ rest) ->
  exists m, run d "GNT" p i = Ok (Some (p + length (n ++ w_opt w_params o), i, Some m)) /\ is_gnt t m n o.
Proof.
  intros d p i n o rest D Wn Wo St Nb A. deeper d. pose proof A as A0. at_assoc A0. pose proof (at_app _ _ _ _ A0) as A1.
  assert (St' : stops wordb (w_opt w_params o ++ rest)). { destruct o; [exact eq_refl|exact St]. }
  destruct (read_opt_params d (p + length n) i o rest) as [m [E R]]; [lia|exact Wo|intros _; exact Nb|exact A1|].
  eexists. split.
  - rewrite app_length, Nat.add_assoc. eapply cat_node; [reflexivity|].
    eapply seq_ok; [eapply read_nt; [lia|exact Wn|exact St'|exact A0]|]. eapply seq_ok; [exact E|apply seq_nil].
  - cbn [opt_list app]. split; [reflexivity|]. split.
    + unfold says, g_text. cbn [g_start g_end]. rewrite <- Nat.add_assoc, <- app_length. apply (at_slice _ _ _ _ A).
    + eexists. eexists. split; [reflexivity|]. split; [|exact R]. apply (leaf_node t _ _ _ _ _ A0).
Qed.

Lemma no_gnt : forall d p i c s, 2 <= d -> upper c = false -> c <> 117%N -> c <> 64%N -> at_ t p (c :: s) -> run d "GNT" p i = Ok None.
Proof.
  intros d p i c s D U H1 H2 A. deeper d. eapply cat_no; [reflexivity|]. apply seq_no.
  eapply re_miss; [reflexivity|vm_compute; reflexivity|lia|exact A|]. apply nm_nt; assumption.
Qed.

Lemma ends_word : forall s, ends s -> stops wordb s.
Proof. intros s [c [r [-> [ -> |[ -> | -> ]]]]]; reflexivity. Qed.
Lemma ends_bracket : forall s, ends s -> no_bracket s.
Proof. intros s [c [r [-> [ -> |[ -> | -> ]]]]]; reflexivity. Qed.

Lemma read_symbol : forall d p i s rest, 5 <= d -> wf_symbol uniword s -> stops wordb rest -> no_bracket rest ->
  at_ t p (w_symbol s ++ rest) -> reads d "RHS_SYMBOL" p i (w_symbol s) (is_symbol t) s.
Proof.
  intros d p i s rest D W St Nb A. deeper d. destruct s as [n o|w|n]; cbn [w_symbol wf_symbol] in *.
  - destruct W as [Wn Wo]. destruct (read_gnt d p i n o rest) as [m [E R]]; auto; [lia|].
    exists m. split; [|exact R]. rewrite (run_alt _ _ _ _ _ _ _ _ _ (eq_refl : mget metagrammar "RHS_SYMBOL" = _)). apply alts_hit. exact E.
  - destruct (read_tok uniword t e d p i w rest) as [m [E R]]; auto; [lia|].
    exists m. split; [|exact R]. rewrite (run_alt _ _ _ _ _ _ _ _ _ (eq_refl : mget metagrammar "RHS_SYMBOL" = _)).
    apply alts_miss; [eapply no_gnt; [lia| | | |exact A]; [reflexivity|discriminate|discriminate]|]. apply alts_hit. exact E.
  - destruct (read_chr uniword t e d p i n rest) as [m [E R]]; auto; [lia|].
    exists m. split; [|exact R]. rewrite (run_alt _ _ _ _ _ _ _ _ _ (eq_refl : mget metagrammar "RHS_SYMBOL" = _)).
    apply alts_miss; [eapply no_gnt; [lia| | | |exact A]; [reflexivity|discriminate|discriminate]|].
    apply alts_miss; [miss|]. apply alts_hit. exact E.
Qed.

(* -------- excluded things -------- *)

Lemma read_excl : forall d p i x rest, 2 <= d -> wf_excl uniword x -> stops wordb rest -> at_ t p (w_excl x ++ rest) ->
  reads d "EXCLUDABLE" p i (w_excl x) (is_excl t) x.
Proof.
  intros d p i x rest D W St A. deeper d. destruct x as [n|w]; cbn [w_excl wf_excl] in *.
  - eexists. split; [|apply (leaf_node t "NT" _ _ _ [] A)].
    rewrite (run_alt _ _ _ _ _ _ _ _ _ (eq_refl : mget metagrammar "EXCLUDABLE" = _)). apply alts_hit. eapply read_nt; eauto. lia.
  - destruct (read_tok uniword t e d p i w rest) as [m [E R]]; auto; [lia|]. exists m. split; [|exact R].
    rewrite (run_alt _ _ _ _ _ _ _ _ _ (eq_refl : mget metagrammar "EXCLUDABLE" = _)). apply alts_miss; [miss|]. apply alts_hit. exact E.
Qed.

Lemma excl_start : forall x r, wf_excl uniword x -> exists c s, w_excl x ++ r = c :: s /\ (upper c = true \/ c = 117 \/ c = 64 \/ c = 96)%N.
Proof.
  intros [n|w] r W; cbn in W.
  - destruct W as [[c [w [-> [U _]]]]|[[w [-> _]]| ->]]; eexists; eexists; (split; [reflexivity|]); auto.
  - eexists; eexists; (split; [reflexivity|]); auto.
Qed.

Lemma excl_long : forall x, wf_excl uniword x -> 1 <= length (w_excl x).
Proof. intros [n|w] W; cbn in *; [apply (wf_nt_long uniword n W)|apply wf_tok_long]. Qed.

(* nothing that can be excluded comes next *)
Definition no_excl (s : text) : Prop := exists c r, s = c :: r /\ upper c = false /\ c <> 117%N /\ c <> 64%N /\ c <> 96%N.

Lemma no_excludable : forall d p i s, 2 <= d -> no_excl s -> at_ t p s -> run d "EXCLUDABLE" p i = Ok None.
Proof.
  intros d p i s D [c [r [-> [U [H1 [H2 H3]]]]]] A. deeper d.
  rewrite (run_alt _ _ _ _ _ _ _ _ _ (eq_refl : mget metagrammar "EXCLUDABLE" = _)).
  apply alts_miss; [eapply re_miss; [reflexivity|reflexivity|lia|exact A|apply nm_nt; assumption]|].
  apply alts_miss; [|apply alts_nil]. eapply re_miss; [reflexivity|vm_compute; reflexivity|lia|exact A|].
  apply nm_seq. apply nm_set. cbn [stops]. clear - H3. nbool.
Qed.

(* after the last excluded thing: no separator, or nothing after it that could be excluded *)
Definition excl_end (s : text) : Prop := ends s /\ forall r, s = 32%N :: r -> no_excl r /\ (forall q, r <> tx "or " ++ q).

Lemma sep_excl : forall d p i (b : bool) y r, 1 <= d -> wf_excl uniword y ->
  at_ t p ((if b then tx " or " else tx " ") ++ w_excl y ++ r) ->
  run d " or | " p i = Ok (Some (p + length (if b then tx " or " else tx " "), i, None)).
Proof.
  intros d p i [|] y r D W A.
  - lit.
  - eapply lit_hit; [reflexivity|reflexivity|reflexivity|vm_compute; reflexivity|lia|exact A|]. exists [].
    destruct (excl_start y r W) as [c [s [E H]]]. rewrite E. apply fm_alt2; [|exists []; reflexivity].
    change (tx " " ++ c :: s) with (32%N :: c :: s). apply nm_seq_set; [reflexivity|]. apply nm_seq. apply nm_set. cbn [stops].
    destruct H as [U|[ -> |[ -> | -> ]]]; [|reflexivity..]. clear - U. nbool.
Qed.

Lemma excl_end_sep : forall d p i s, 2 <= d -> excl_end s -> at_ t p s ->
  run d " or | " p i = Ok None \/ exists q o, run d " or | " p i = Ok (Some (q, i, o)) /\ run d "EXCLUDABLE" q i = Ok None.
Proof.
  intros d p i s D [[c [r [-> H]]] Hx] A. destruct H as [ -> |[ -> | -> ]]; [|left; miss|left; miss].
  right. destruct (Hx r eq_refl) as [Hn Hor].
  assert (A' : at_ t p (tx " " ++ r)) by exact A.
  exists (p + length (tx " ")), None. split.
  - eapply lit_hit; [reflexivity|reflexivity|reflexivity|vm_compute; reflexivity|lia|exact A'|]. exists [].
    destruct (list_eq_dec N.eq_dec (firstn 3 r) (tx "or ")) as [Eo|No].
    + exfalso. apply (Hor (skipn 3 r)). rewrite <- Eo. symmetry. apply firstn_skipn.
    + apply fm_alt2; [|exists []; reflexivity]. change (tx " " ++ r) with (32%N :: r). apply nm_seq_set; [reflexivity|].
      destruct Hn as [c [r' [-> _]]]. destruct (N.eq_dec c 111) as [-> |Hc].
      2:{ apply nm_seq. apply nm_set. cbn [stops]. clear - Hc. nbool. }
      apply nm_seq_set; [reflexivity|]. destruct r' as [|c2 r']; [exact eq_refl|]. destruct (N.eq_dec c2 114) as [-> |Hc2].
      2:{ apply nm_seq. apply nm_set. cbn [stops]. clear - Hc2. nbool. }
      apply nm_seq_set; [reflexivity|]. destruct r' as [|c3 r']; [exact eq_refl|]. destruct (N.eq_dec c3 32) as [-> |Hc3].
      2:{ apply nm_seq. apply nm_set. cbn [stops]. clear - Hc3. nbool. }
      exfalso. apply No. reflexivity.
  - eapply no_excludable; [lia|exact Hn|]. apply (at_app _ _ _ _ A').
Qed.

Lemma read_exclusion1 : forall d p i x rest, 4 <= d -> wf_excl uniword x -> stops wordb rest -> at_ t p (w_excl x ++ rest) ->
  reads d "EXCLUSION" p i (w_excl x) (is_excl t) x.
Proof.
  intros d p i x rest D W St A. deeper d. destruct (read_excl d p i x rest) as [m [E R]]; auto; [lia|]. exists m. split; [|exact R].
  rewrite (run_alt _ _ _ _ _ _ _ _ _ (eq_refl : mget metagrammar "EXCLUSION" = _)). apply alts_miss; [|apply alts_hit; exact E].
  deeper d. eapply list_no_left; [reflexivity|reflexivity|]. eapply lit_miss; [reflexivity|reflexivity|vm_compute; reflexivity|lia|exact A|].
  destruct (excl_start x rest W) as [c [s [-> H]]]. apply nm_seq. apply nm_set. cbn [stops].
  destruct H as [U|[ -> |[ -> | -> ]]]; [|reflexivity..]. clear - U. nbool.
Qed.

Definition w_excls (x : excl) (l : list (bool * excl)) : text :=
  w_excl x ++ flat_map (fun y : bool * excl => (if fst y then tx " or " else tx " ") ++ w_excl (snd y)) l.

Lemma read_exclusion : forall d p i x l rest, 4 <= d -> wf_excl uniword x -> Forall (fun y : bool * excl => wf_excl uniword (snd y)) l -> excl_end rest ->
  at_ t p ((tx "one of " ++ w_excls x l) ++ rest) ->
  exists m, run d "EXCLUSION" p i = Ok (Some (p + length (tx "one of " ++ w_excls x l), i, Some m)) /\
            g_kind m = "EXCLUDABLES" /\ Forall2 (is_excl t) (g_children m) (x :: map snd l).
Proof.
  intros d p i x l rest D Wx Wl Ex A. deeper d. deeper d. at_assoc A. pose proof (at_app _ _ _ _ A) as A1.
  set (tl := map (fun y : bool * excl => (if fst y then tx " or " else tx " ", snd y)) l).
  assert (Ej : joinr w_excl x tl = w_excls x l).
  { unfold joinr, w_excls, tl. f_equal. clear. induction l as [|y l IH]; [reflexivity|]. cbn [map flat_map fst snd]. f_equal. exact IH. }
  assert (Em : map snd tl = map snd l) by (unfold tl; rewrite map_map; reflexivity).
  rewrite <- Ej in A1.
  assert (Wall : forall y, In y (x :: map snd tl) -> wf_excl uniword y).
  { intros y I. rewrite Em in I. destruct I as [<-|I]; [exact Wx|]. apply in_map_iff in I. destruct I as [z [<- I]]. apply (Forall_in _ _ _ _ Wl I). }
  edestruct (list_delim uniword t e excl w_excl (is_excl t) (fun y r => wf_excl uniword y /\ stops wordb r)
      d "EXCLUDABLES" RNode "EXCLUDABLE" " or | " "one of " "" i i x tl p)
    with (p0 := p + length (tx "one of ")) (rest := rest) (q := p + length (tx "one of ") + length (joinr w_excl x tl)) as [ns [E F]];
    [reflexivity|reflexivity| | | | | | |exact A1| |].
  - exists None. lit.
  - intros y p0 r [Wy St] Ay. eapply read_excl; eauto. lia.
  - intros s y p0 r I Ay. exists None. pose proof (Wall y (or_intror (in_map snd _ _ I))) as Wy.
    unfold tl in I. apply in_map_iff in I. destruct I as [[b z] [Ez _]]. cbn in Ez. inversion Ez; subst. eapply sep_excl; eauto. lia.
  - apply chain_all. intros y r I. pose proof (Wall y I) as Wy. split; [split; [exact Wy|]|].
    + apply ends_word. apply Ex.
    + intros s z I'. split; [exact Wy|]. unfold tl in I'. apply in_map_iff in I'. destruct I' as [[b z'] [Ez _]]. cbn in Ez. inversion Ez; subst. destruct b; exact eq_refl.
  - intros p0 Ay. apply excl_end_sep with (s := rest); auto. lia.
  - intros y I. apply excl_long. apply Wall. exact I.
  - cbn [String.eqb]. split; reflexivity.
  - exists (GNode "EXCLUDABLES" p (p + length (tx "one of ") + length (joinr w_excl x tl)) [] ns).
    split; [|split; [reflexivity|rewrite <- Em; exact F]].
    rewrite (run_alt _ _ _ _ _ _ _ _ _ (eq_refl : mget metagrammar "EXCLUSION" = _)). apply alts_hit.
    rewrite app_length, <- Ej, Nat.add_assoc. exact E.
Qed.

(* -------- terminals in lookahead restrictions -------- *)

Lemma read_term : forall d p i x rest, 2 <= d -> wf_term x -> at_ t p (w_term x ++ rest) ->
  reads d "TERMINAL_ITEM" p i (w_term x) (is_term t) x.
Proof.
  intros d p i x rest D W A. deeper d. destruct x as [w|n|]; cbn [w_term wf_term] in *.
  - destruct (read_tok uniword t e d p i w rest) as [m [E R]]; auto; [lia|]. exists m. split; [|exact R].
    rewrite (run_alt _ _ _ _ _ _ _ _ _ (eq_refl : mget metagrammar "TERMINAL_ITEM" = _)). apply alts_hit. exact E.
  - destruct (read_chr uniword t e d p i n rest) as [m [E R]]; auto; [lia|]. exists m. split; [|exact R].
    rewrite (run_alt _ _ _ _ _ _ _ _ _ (eq_refl : mget metagrammar "TERMINAL_ITEM" = _)). apply alts_miss; [miss|]. apply alts_hit. exact E.
  - eexists. split; [|apply (leaf_node t "NLTH" _ _ _ [] A)].
    rewrite (run_alt _ _ _ _ _ _ _ _ _ (eq_refl : mget metagrammar "TERMINAL_ITEM" = _)). apply alts_miss; [miss|]. apply alts_miss; [miss|].
    apply alts_hit. eapply read_nlth; eauto. lia.
Qed.

Lemma term_long : forall x, 1 <= length (w_term x).
Proof. intros [w|n|]; cbn; try lia. Qed.

(* the terminals are followed by a bracket, a comma, or a space and a brace *)
Definition terms_end (s : text) : Prop := exists r, s = tx "]" ++ r \/ s = tx "," ++ r \/ s = tx " }" ++ r.

Lemma read_terms : forall d p i l rest, 3 <= d -> Forall wf_term (ne_list l) -> terms_end rest -> at_ t p (w_terms l ++ rest) ->
  reads d "TERMINAL_SEQ" p i (w_terms l) (is_terms t) l.
Proof.
  intros d p i l rest D W Te A. deeper d. unfold w_terms in *. rewrite <- joinr_ne in *.
  edestruct (list_plain uniword t e term w_term (is_term t) (fun x _ => wf_term x) d "TERMINAL_SEQ" RNode "TERMINAL_ITEM" " " i
      (fst l) (map (fun x => (tx " ", x)) (snd l)) p rest) as [ns [E F]]; [reflexivity| | | | | |exact A|].
  - intros x p0 r Wx Ax. eapply read_term; eauto. lia.
  - intros s y p0 r I Ax. apply in_map_iff in I. destruct I as [z [Ez _]]. inversion Ez; subst. exists None. lit.
  - apply chain_all. intros y r I. rewrite map_snd_pair in I. pose proof (Forall_in _ _ _ _ W I) as Wy. split; [exact Wy|intros; exact Wy].
  - intros p0 Ax. destruct Te as [r [-> |[ -> | -> ]]]; [left; miss|left; miss|].
    right. assert (Ax' : at_ t p0 (tx " " ++ tx "}" ++ r)) by exact Ax. exists (p0 + length (tx " ")), None. clear Ax. split; [lit|].
    pose proof (at_app _ _ _ _ Ax') as Ay. deeper d.
    rewrite (run_alt _ _ _ _ _ _ _ _ _ (eq_refl : mget metagrammar "TERMINAL_ITEM" = _)).
    apply alts_miss; [miss|]. apply alts_miss; [miss|]. apply alts_miss; [miss|]. apply alts_nil.
  - intros y _. apply term_long.
  - rewrite map_snd_pair in F. eexists. split; [exact E|]. split; [reflexivity|exact F].
Qed.

Lemma terms_long : forall l, 1 <= length (w_terms l).
Proof. intros [x l]. unfold w_terms, sep_by. rewrite app_length. pose proof (term_long x). cbn [fst]. lia. Qed.

Definition is_set (n : gnode) (ss : ne (ne term)) : Prop := g_kind n = "SET_OF_TERMINAL_SEQ" /\ Forall2 (is_terms t) (g_children n) (ne_list ss).
Definition w_set (ss : ne (ne term)) : text := tx "{ " ++ sep_by (tx ", ") w_terms ss ++ tx " }".

Lemma read_set : forall d p i ss rest, 4 <= d -> Forall (fun ts => Forall wf_term (ne_list ts)) (ne_list ss) -> at_ t p (w_set ss ++ rest) ->
  reads d "SET_OF_TERMINAL_SEQ" p i (w_set ss) is_set ss.
Proof.
  intros d p i ss rest D W A. deeper d. pose proof A as A0. unfold w_set in A0. at_assoc A0.
  pose proof (at_app _ _ _ _ A0) as A1. rewrite <- joinr_ne in A1. pose proof (at_app _ _ _ _ A1) as A2.
  edestruct (list_delim uniword t e (ne term) w_terms (is_terms t) (fun x r => Forall wf_term (ne_list x) /\ terms_end r)
      d "SET_OF_TERMINAL_SEQ" RNode "TERMINAL_SEQ" ", " "{ " " }" i i (fst ss) (map (fun x => (tx ", ", x)) (snd ss)) p)
    with (p0 := p + length (tx "{ ")) (rest := tx " }" ++ rest) (q := p + length (w_set ss)) as [ns [E F]];
    [reflexivity|reflexivity| | | | | | |exact A1| |].
  - exists None. lit.
  - intros x p0 r [Wx St] Ax. eapply read_terms; eauto. lia.
  - intros s y p0 r I Ax. apply in_map_iff in I. destruct I as [z [Ez _]]. inversion Ez; subst. exists None. lit.
  - apply chain_all. intros y r I. rewrite map_snd_pair in I. pose proof (Forall_in _ _ _ _ W I) as Wy. split.
    + split; [exact Wy|]. exists rest. auto.
    + intros s z I'. apply in_map_iff in I'. destruct I' as [z' [Ez _]]. inversion Ez; subst. split; [exact Wy|].
      exists (32%N :: r). right. left. reflexivity.
  - intros p0 Ax. left. miss.
  - intros y _. apply terms_long.
  - cbn [String.eqb Ascii.eqb]. exists None.
    replace (p + length (w_set ss)) with (p + length (tx "{ ") + length (joinr w_terms (fst ss) (map (fun x => (tx ", ", x)) (snd ss))) + length (tx " }")).
    2:{ unfold w_set. rewrite !app_length, joinr_ne. lia. }
    lit.
  - eexists. split; [exact E|]. split; [reflexivity|]. rewrite map_snd_pair in F. exact F.
Qed.
End Read.
