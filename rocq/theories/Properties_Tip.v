(* C48-C51: the source of tokens for the syntactic parser. *)
From Coq Require Import Sorted String Ascii.
From Verif Require Import M_Base M_Tip L_Tip L_TipMain L_TipRun.
Open Scope nat_scope.

(* ---- a lexical parser for the examples: blanks, newlines, words, one-character punctuators, and slashes that the common goal does not cover ---- *)
Definition txt (s : string) : text := map (fun c => N_of_ascii c) (list_ascii_of_string s).
Definition is_word (c : N) : bool := ((97 <=? c) && (c <=? 122) || (48 <=? c) && (c <=? 57))%N.
Fixpoint run_of (f : N -> bool) (l : text) : nat := match l with c :: l' => if f c then S (run_of f l') else 0 | [] => 0 end.
Definition toy (source : text) (g : lgoal) (p : nat) : res (ekind * nat * nat) :=
  match skipn p source with
  | [] => Err UserError
  | c :: l =>
    if (c =? 32)%N then Ok (E_non WhiteSpace, p, S p)
    else if (c =? 10)%N then Ok (E_non LineTerminator, p, S p)
    else if is_word c then Ok (E_named 9, p, p + S (run_of is_word l))
    else if (c =? 47)%N then
      match g with
      | InputElement_common => Err UserError
      | InputElementDiv | InputElementTemplateTail => Ok (E_punct, p, S p)
      | _ => let n := run_of (fun d => negb (d =? 47)%N) l in if S n <? Datatypes.length l then Ok (E_named 1, p, p + S (S n)) else Err UserError
      end
    else Ok (E_punct, p, S p)
  end.
Lemma run_of_le f l : run_of f l <= Datatypes.length l.
Proof. induction l as [|c l IH]; cbn; [lia|]. destruct (f c); lia. Qed.
Lemma toy_lawful source : lexer_lawful source (toy source).
Proof.
  assert (X : forall g p k s e, toy source g p = Ok (k, s, e) -> (k <> E_semicolon /\ k <> E_end /\ e <= Datatypes.length source) /\ (s = p /\ p < e /\ k <> E_unknown)).
  { intros g p k s e H. unfold toy in H. assert (LP : Datatypes.length (skipn p source) = Datatypes.length source - p) by apply skipn_length. destruct (skipn p source) as [|c l]; [discriminate|]. cbn in LP.
    assert (Y : forall q, S q <= S (Datatypes.length l) -> p + S q <= Datatypes.length source) by lia. pose proof (run_of_le is_word l). pose proof (run_of_le (fun d => negb (d =? 47)%N) l).
    destruct (c =? 32)%N; [injection H as <- <- <-; repeat split; try discriminate; lia|]. destruct (c =? 10)%N; [injection H as <- <- <-; repeat split; try discriminate; lia|].
    destruct (is_word c); [injection H as <- <- <-; repeat split; try discriminate; lia|]. destruct (c =? 47)%N; [|injection H as <- <- <-; repeat split; try discriminate; lia].
    destruct g; try discriminate; try (injection H as <- <- <-; repeat split; try discriminate; lia); destruct (Nat.ltb_spec (S (run_of (fun d => negb (d =? 47)%N) l)) (Datatypes.length l)); try discriminate; injection H as <- <- <-; repeat split; try discriminate; lia. }
  split; [intros g p k s e H; apply (X _ _ _ _ _ H)|]. split; [intros g p k s e H; apply (X _ _ _ _ _ H)|]. split.
  - intros g p x H. unfold toy in H. destruct (skipn p source) as [|c l]; [congruence|]. destruct (c =? 32)%N; [discriminate|]. destruct (c =? 10)%N; [discriminate|]. destruct (is_word c); [discriminate|]. destruct (c =? 47)%N; [|discriminate]. destruct g; try discriminate; try congruence; destruct (_ <? _); congruence.
  - intros g p n s e H. unfold toy in *. destruct (skipn p source) as [|c l]; [discriminate|]. destruct (c =? 32)%N; [eauto|]. destruct (c =? 10)%N; [eauto|]. destruct (is_word c); [discriminate|]. destruct (c =? 47)%N; [|discriminate]. destruct g; try discriminate; destruct (_ <? _); discriminate.
Qed.
(* a sequence of calls in which each asks at the position returned by the one before *)
Fixpoint calls (source : text) (t : tip) (p : nat) (l : list (list term * asi_kludge)) : res (tip * nat) :=
  match l with
  | [] => Ok (t, p)
  | (exp, kl) :: l' => match gnti source (toy source) t p exp kl with Ok (Some (_, p'), t') => calls source t' p' l' | Ok (None, _) => Err UserError | Err e => Err e end
  end.
Lemma calls_parse source t p l t' p' : parse_calls source (toy source) t p -> calls source t p l = Ok (t', p') -> parse_calls source (toy source) t' p'.
Proof.
  revert t p. induction l as [|[exp kl] l IH]; intros t p P H; cbn in H; [injection H as <- <-; auto|]. destruct (gnti source (toy source) t p exp kl) as [[[[ms q]|] t1]|] eqn:G; try discriminate. apply (IH t1 q); [|auto]. eapply pc_next; eauto.
Qed.
Definition start_state (source : text) : tip := match new_tip source (toy source) with Ok t => t | Err _ => mkTip None [] [] 0 0 false None 0 end.
Lemma start_parse source : parse_calls source (toy source) (start_state source) 0.
Proof. destruct (new_total source (toy source) (toy_lawful source)) as [t E]. unfold start_state. rewrite E. now apply pc_start. Qed.
Definition lits (l : list string) : list (list term * asi_kludge) := map (fun s => ([Lit (txt s)], K_none)) l.

Definition after (source : text) (l : list (list term * asi_kludge)) : tip := match calls source (start_state source) 0 l with Ok (t, _) => t | Err _ => start_state source end.
Lemma after_parse source l p : calls source (start_state source) 0 l = Ok (after source l, p) -> parse_calls source (toy source) (after source l) p.
Proof. apply calls_parse. apply start_parse. Qed.

(* ---- C48 ---- *)

(* Whatever is asked and however often parts are parsed again, the text of the input elements that were not inserted is the text up to the point of scouting. *)
Theorem C48_text : forall source lex t, lexer_ok source lex -> reachable source lex t ->
  scout t <= Datatypes.length source /\
  concat (map (fun e => firstn (eend e - estart e) (skipn (estart e) source)) (filter (fun e => match ek e with E_semicolon => false | _ => true end) (elems t))) = firstn (scout t) source.
Proof.
  intros source lex t Hlex R. destruct (reachable_inv source lex t Hlex R) as [I _]. split; [apply (i_scout _ _ I)|]. pose proof (tiles_text source _ _ _ (i_tiles _ _ I) (i_scout _ _ I)) as T. rewrite Nat.sub_0_r in T. cbn [skipn] in T. rewrite <- T. unfold original, etext. f_equal. f_equal.
  apply filter_ext. intros e. unfold inserted. now destruct (ek e).
Qed.
(* The tokens are those among the input elements, in the same order, each with its place there. *)
Theorem C48_tokens : forall source lex t, lexer_ok source lex -> reachable source lex t ->
  (forall e i, In (e, i) (toks t) <-> nth_error (elems t) i = Some e /\ forall n, ek e <> E_non n) /\ StronglySorted lt (map snd (toks t)).
Proof.
  intros source lex t Hlex R. destruct (reachable_inv source lex t Hlex R) as [I _]. rewrite (i_toks _ _ I). split.
  - intros e i. rewrite toks_from_in, Nat.sub_0_r, is_token_spec. unfold token. intuition lia.
  - generalize 0 as b. induction (elems t) as [|e l IH]; intros b; cbn; [constructor|]. destruct (is_token (ek e)); cbn; [|apply IH]. constructor; [apply IH|]. apply Forall_forall. intros j H. apply in_map_iff in H as ([x k] & <- & H). apply toks_from_ge in H. cbn. lia.
Qed.
(* The end mark is there exactly when lexing is done; then it is the last element, the only such, and the whole text has been consumed. *)
Theorem C48_end : forall source lex t, lexer_ok source lex -> reachable source lex t ->
  (done t = true <-> exists e, In e (elems t) /\ ek e = E_end) /\
  (done t = true -> scout t = Datatypes.length source /\ exists l e, elems t = l ++ [e] /\ ek e = E_end /\ forall x, In x l -> ek x <> E_end).
Proof. intros source lex t Hlex R. destruct (reachable_inv source lex t Hlex R) as [I _]. split; [apply (i_done _ _ I)|apply (i_last _ _ I)]. Qed.
(* Making the source of tokens succeeds on every text, also one that cannot be lexed. *)
Theorem C48_new : forall source lex, lexer_lawful source lex -> exists t, new_tip source lex = Ok t.
Proof. apply new_total. Qed.
Print Assumptions C48_text.
Print Assumptions C48_tokens.
Print Assumptions C48_end.
Print Assumptions C48_new.
(* a newline, an inserted semicolon and a slash that waits for its goal: elements and tokens *)
Definition tA : text := txt "a" ++ [10%N] ++ txt "b / c".
Definition exA : list (list term * asi_kludge) := [([Nam 9], K_none); ([Lit (txt ";"); Lit (txt "+")], K_none); ([Nam 9], K_none)].
Example C48_case :
  map (fun e => (ek e, estart e, eend e)) (elems (start_state tA)) = [(E_named 9, 0, 1); (E_non LineTerminator, 1, 2); (E_named 9, 2, 3); (E_non WhiteSpace, 3, 4)] /\ scout (start_state tA) = 4 /\
  calls tA (start_state tA) 0 exA = Ok (after tA exA, 3) /\ reachable tA (toy tA) (after tA exA) /\ lexer_lawful tA (toy tA) /\
  map (fun e => (ek e, estart e, eend e)) (elems (after tA exA)) = [(E_named 9, 0, 1); (E_non LineTerminator, 1, 2); (E_semicolon, 1, 1); (E_named 9, 2, 3); (E_non WhiteSpace, 3, 4)] /\ map snd (toks (after tA exA)) = [0; 2; 3].
Proof.
  split; [vm_compute; reflexivity|]. split; [vm_compute; reflexivity|]. assert (E : calls tA (start_state tA) 0 exA = Ok (after tA exA, 3)) by (vm_compute; reflexivity).
  split; [exact E|]. split; [eapply parse_calls_reachable, after_parse, E|]. split; [apply toy_lawful|]. split; vm_compute; reflexivity.
Qed.

(* ---- C49 ---- *)

(* [no LineTerminator here] holds exactly if no line terminator, nor a comment with one, stands between the current token and the next. *)
Theorem C49_no_line_terminator : forall source lex t reserved prev, lexer_ok source lex -> reachable source lex t -> (0 <= cur t)%Z ->
  exists mid b, gap t (S (Z.to_nat (cur t))) mid /\ check_constraint source reserved t prev C_no_LT_here = Ok b /\ (b = true <-> forall e, In e mid -> ek e <> E_non LineTerminator /\ ek e <> E_non (Comment true)).
Proof.
  intros source lex t reserved prev Hlex R C. destruct (reachable_inv source lex t Hlex R) as [I J]. pose proof (r_cur _ _ J) as RC.
  destruct (rel_gap_ok source t 1 I) as (mid & b & G & E & B); [lia|destruct (toks t); [cbn in RC; lia|discriminate]|lia|cbn; lia|]. cbn in G. exists mid, (negb b). replace (S (Z.to_nat (cur t))) with (Z.to_nat (cur t + 1)) by lia. split; [auto|]. cbn. rewrite E. cbn [bind]. split; [auto|].
  rewrite negb_true_iff, <- not_true_iff_false, B. unfold breaks_line. split.
  - intros N e IE. split; intros Q; apply N; eauto.
  - intros N (e & IE & [Q|Q]); destruct (N e IE); auto.
Qed.
(* That gap is known in full: what is not yet scouted begins with a token, whatever the goal. *)
Theorem C49_frontier : forall source lex t, lexer_lawful source lex -> reachable source lex t -> done t = false -> forall g n s e, lex g (scout t) <> Ok (E_non n, s, e).
Proof. intros source lex t LW R D g n s e H. destruct (reachable_inv source lex t (proj1 LW) R) as [_ J]. destruct LW as (_ & _ & _ & L3). destruct (L3 _ _ _ _ _ H) as [r E]. rewrite (r_front _ _ J D) in E. discriminate. Qed.
(* the text of the token at the given distance from the current one *)
Definition token_text (source : text) (t : tip) (off : nat) (c : text) : Prop :=
  exists e k, nth_error (toks t) (Z.to_nat (cur t + Z.of_nat off)) = Some (e, k) /\ firstn (eend e - estart e) (skipn (estart e) source) = c.
Definition looks (source : text) (t : tip) (ts : list lterm) : Prop :=
  match ts with
  | [LT_lit a] => token_text source t 1 a
  | [LT_lit a; LT_lit b] => token_text source t 1 a /\ token_text source t 2 b
  | [LT_lit a; LT_nlth; LT_lit b] => token_text source t 1 a /\ token_text source t 2 b /\ exists mid, gap t (Z.to_nat (cur t + 2)) mid /\ forall e, In e mid -> ek e <> E_non LineTerminator /\ ek e <> E_non (Comment true)
  | _ => False
  end.
Definition ts_ok (ts : list lterm) : Prop := (exists a, ts = [LT_lit a]) \/ (exists a b, ts = [LT_lit a; LT_lit b]) \/ exists a b, ts = [LT_lit a; LT_nlth; LT_lit b].
(* A lookahead restriction holds exactly if the tokens after the current one begin (or do not begin) with one of the sequences. *)
Theorem C49_lookahead : forall source lex t reserved prev m tss, lexer_ok source lex -> reachable source lex t -> (forall ts, In ts tss -> ts_ok ts) ->
  exists b, check_constraint source reserved t prev (C_lookahead m tss) = Ok b /\ (b = true <-> if m then exists ts, In ts tss /\ looks source t ts else forall ts, In ts tss -> ~ looks source t ts).
Proof.
  intros source lex t reserved prev m tss Hlex R OK. destruct (reachable_inv source lex t Hlex R) as [I J]. pose proof (r_cur _ _ J) as RC. pose proof (i_cur _ _ I) as IC.
  assert (TT : forall off c, 1 <= off -> rel_token source t (Z.of_nat off) c = true <-> token_text source t off c).
  { intros off c L. unfold rel_token, token_text. assert ((0 <=? cur t + Z.of_nat off)%Z = true) as -> by lia. destruct (nth_error (toks t) _) as [[e k]|].
    - rewrite text_eqb_eq. unfold etext. split; [eauto|]. intros (e' & k' & Q & E). injection Q as <- <-. auto.
    - split; [discriminate|]. intros (e' & k' & Q & _). discriminate. }
  assert (LO : forall ts, ts_ok ts -> exists b, lookahead source t ts = Ok b /\ (b = true <-> looks source t ts)).
  { intros ts [(a & ->)|[(a & b & ->)|(a & b & ->)]]; cbn [lookahead looks].
    - eexists. split; [reflexivity|]. apply (TT 1). lia.
    - eexists. split; [reflexivity|]. rewrite andb_true_iff. rewrite (TT 1), (TT 2) by lia. reflexivity.
    - destruct (rel_token source t 1 a) eqn:E1.
      + pose proof (proj1 (TT 1 a (le_n 1)) E1) as T1. pose proof T1 as (e & k & N & _). assert (LT : Z.to_nat (cur t + 1) < Datatypes.length (toks t)) by (apply nth_error_Some; cbn in N; congruence).
        destruct (rel_gap_ok source t 2 I) as (mid & g & G & EG & BG); [lia|destruct (toks t); [cbn in LT; lia|discriminate]|lia|cbn; lia|]. cbn in G. rewrite EG. cbn [bind].
        assert (NB : g = false <-> forall e, In e mid -> ek e <> E_non LineTerminator /\ ek e <> E_non (Comment true)).
        { rewrite <- not_true_iff_false, BG. unfold breaks_line. split; [intros X e0 IE; split; intros Q; apply X; eauto|]. intros X (e0 & IE & [Q|Q]); destruct (X e0 IE); auto. }
        destruct g.
        * exists false. split; [auto|]. split; [discriminate|]. intros (_ & _ & mid' & G' & Q). rewrite (gap_unique_elems _ _ _ _ G' G) in Q. apply NB in Q. discriminate.
        * eexists. split; [reflexivity|]. rewrite (TT 2) by lia. split; [|tauto]. intros T2. split; [auto|]. split; [auto|]. exists mid. split; [auto|]. now apply NB.
      + exists false. split; [auto|]. split; [discriminate|]. intros [Q _]. apply (TT 1) in Q; [|lia]. cbn in Q. congruence. }
  assert (AL : forall l, (forall ts, In ts l -> ts_ok ts) -> exists b, any_lookahead source t l = Ok b /\ (b = true <-> exists ts, In ts l /\ looks source t ts)).
  { induction l as [|ts l IH]; intros H; cbn.
    - exists false. split; [auto|]. split; [discriminate|]. intros (ts & [] & _).
    - destruct (LO ts) as (b & -> & B); [apply H; now left|]. cbn [bind]. destruct b.
      + exists true. split; [auto|]. split; [|auto]. intros _. exists ts. split; [now left|]. now apply B.
      + destruct IH as (b & -> & B'); [intros x IX; apply H; now right|]. exists b. split; [auto|]. rewrite B'. split; [intros (x & IX & L); eauto|]. intros (x & [<-|IX] & L); [apply B in L; discriminate|eauto]. }
  destruct (AL tss OK) as (b & E & B). exists (if m then b else negb b). cbn. rewrite E. cbn [bind]. split; [auto|]. destruct m; [exact B|]. rewrite negb_true_iff, <- not_true_iff_false, B. split; [intros N ts IT L; apply N; eauto|]. intros N (ts & IT & L). exact (N ts IT L).
Qed.
Print Assumptions C49_no_line_terminator.
Print Assumptions C49_frontier.
Print Assumptions C49_lookahead.
(* after "return" in "return (newline) x"; "let [" ahead; "async [no LineTerminator here] function" is ahead only on one line *)
Definition tB (nl : N) : text := txt "; async" ++ [nl] ++ txt "function".
Example C49_case :
  let t1 := after (txt "return" ++ [10%N] ++ txt "x") (lits ["return"%string]) in
  check_constraint (txt "return" ++ [10%N] ++ txt "x") (fun _ => false) t1 None C_no_LT_here = Ok false /\ cur t1 = 0%Z /\
  let t2 := after (tB 32) (lits [";"%string]) in let t3 := after (tB 10) (lits [";"%string]) in
  let c := C_lookahead false [[LT_lit (txt "let"); LT_lit (txt "[")]; [LT_lit (txt "async"); LT_nlth; LT_lit (txt "function")]] in
  check_constraint (tB 32) (fun _ => false) t2 None c = Ok false /\ check_constraint (tB 10) (fun _ => false) t3 None c = Ok true /\
  reachable (tB 10) (toy (tB 10)) t3 /\ lexer_lawful (tB 10) (toy (tB 10)).
Proof.
  split; [vm_compute; reflexivity|]. split; [vm_compute; reflexivity|]. split; [vm_compute; reflexivity|]. split; [vm_compute; reflexivity|].
  split; [|apply toy_lawful]. eapply parse_calls_reachable, (after_parse _ _ 1). vm_compute. reflexivity.
Qed.
(* The gap before the first token cannot be asked for while there is no token: an IndexError. *)
Theorem C49_no_token_refuted : exists source lex t, lexer_lawful source lex /\ reachable source lex t /\ check_constraint source (fun _ => false) t None C_no_LT_here = Err IndexError.
Proof. exists (txt "/a/"), (toy (txt "/a/")), (start_state (txt "/a/")). split; [apply toy_lawful|]. split; [eapply parse_calls_reachable, start_parse|]. vm_compute. reflexivity. Qed.
Print Assumptions C49_no_token_refuted.

(* ---- C50 ---- *)

(* Each call either reads a token that some expected terminals fit, and returns exactly those; or it reads one that none fits, and inserts
   a semicolon before it, if and only if: the token is the end, or a line terminator precedes it, or it is a right brace, or the semicolon would end a
   do-while statement; a semicolon is expected; it would not be an empty statement; and no semicolon was inserted at this position just before.
   The cursor moves by one, the elements of the text stay. *)
Theorem C50_decision : forall source lex t posn exp kl r t', lexer_ok source lex -> reachable source lex t -> gnti source lex t posn exp kl = Ok (r, t') ->
  let c := Z.to_nat (cur t') in
  let fits x e := match x with Nam n => n = 0 /\ ek e = E_end \/ ek e = E_named n | Lit w => if match ek e with E_semicolon => true | _ => false end then w = [59%N] else w = firstn (eend e - estart e) (skipn (estart e) source) end in
  let allowed e := ek e = E_end \/ (exists mid x, gap t' c mid /\ In x mid /\ (ek x = E_non LineTerminator \/ ek x = E_non (Comment true))) \/ firstn (eend e - estart e) (skipn (estart e) source) = [125%N] \/ kl = K_DoWhileStatement in
  cur t' = (cur t + 1)%Z /\ (exists l, filter (fun e => negb (inserted e)) (elems t') = filter (fun e => negb (inserted e)) (elems t) ++ l) /\
  ((exists ms e, r = Some (ms, eend e) /\ ms <> [] /\ delivered t' c e /\ (forall x m, In (x, m) ms <-> In x exp /\ fits x e /\ m = mkM (estart e) (eend e)) /\
      filter inserted (elems t') = filter inserted (elems t)) \/
   (exists s k e e' k', r = Some ([(Lit [59%N], mkM posn posn)], posn) /\
      nth_error (toks t') c = Some (s, k) /\ ek s = E_semicolon /\ estart s = posn /\ eend s = posn /\
      nth_error (toks t') (S c) = Some (e', k') /\ (end_i t' = Some (cur t') /\ ek e = E_end /\ estart e = estart e' \/ end_i t' <> Some (cur t') /\ e = e') /\
      (forall x, In x exp -> ~ fits x e) /\ allowed e /\ In (Lit [59%N]) exp /\ kl <> K_EmptyStatement /\ asi_posn t <> Some posn /\ asi_posn t' = Some posn /\
      filter inserted (elems t') <> filter inserted (elems t)) \/
   (r = None /\ filter inserted (elems t') = filter inserted (elems t) /\ exists e, delivered t' c e /\ (forall x, In x exp -> ~ fits x e) /\
      (~ allowed e \/ ~ In (Lit [59%N]) exp \/ kl = K_EmptyStatement \/ asi_posn t = Some posn))).
Proof.
  intros source lex t posn exp kl r t' Hlex R H c fits allowed. destruct (reachable_inv source lex t Hlex R) as [I _]. destruct (gnti_decision source lex Hlex _ _ _ _ _ _ I H) as (I' & C & E & O & _ & D).
  split; [auto|]. split; [exact O|].
  destruct D as [(ms & e & ER & NM & DL & M & AP & _ & F)|[(s & k & e & e' & k' & ER & IS & NS & ES & SS & SE & NE & DV & NO & MI & KL & AN & AS & FI & _)|(ER & F & _ & e & DL & NO & WHY)]].
  - left. exists ms, e. auto.
  - right. left. exists s, k, e, e', k'. repeat (split; [solve [auto]|]). split; [tauto|]. repeat (split; [solve [auto]|]). auto.
  - right. right. split; [auto|]. split; [auto|]. exists e. split; [auto|]. split; [auto|]. unfold allowed. unfold may_insert, breaks_line in WHY. tauto.
Qed.
(* The lexical goal depends on which of the three kinds of token are expected. *)
Theorem C50_goal : forall exp g, lexical_goal exp = Ok g <->
  (In (Nam 2) exp <-> In (Nam 3) exp) /\
  (g = InputElementRegExpOrTemplateTail /\ In (Nam 1) exp /\ In (Nam 2) exp \/ g = InputElementRegExp /\ In (Nam 1) exp /\ ~ In (Nam 2) exp \/
   g = InputElementTemplateTail /\ ~ In (Nam 1) exp /\ In (Nam 2) exp \/ g = InputElementDiv /\ ~ In (Nam 1) exp /\ ~ In (Nam 2) exp).
Proof.
  intros exp g. assert (EX : forall n, existsb (Nat.eqb n) (names exp) = true <-> In (Nam n) exp).
  { intros n. rewrite existsb_exists. unfold names. split.
    - intros (x & H & E). apply Nat.eqb_eq in E. subst x. apply in_flat_map in H as ([c|m] & H & E); [destruct E|]. destruct E as [->|[]]. auto.
    - intros H. exists n. split; [|apply Nat.eqb_refl]. apply in_flat_map. exists (Nam n). split; [auto|now left]. }
  unfold lexical_goal. pose proof (EX 1) as E1. pose proof (EX 2) as E2. pose proof (EX 3) as E3.
  destruct (existsb (Nat.eqb 1) (names exp)), (existsb (Nat.eqb 2) (names exp)), (existsb (Nat.eqb 3) (names exp)); cbn [eqb assert_ bind];
    (split; [intros H; try discriminate; injection H as <-; intuition congruence|intros [T H]; intuition congruence]).
Qed.
(* A call fails only if the text cannot be lexed (or the caller reads beyond the end, or expects a terminal twice, or one half of a template): no assertion fails, scouting ends. *)
Theorem C50_total : forall source lex t posn exp kl, lexer_lawful source lex -> reachable source lex t ->
  match end_i t with Some m => (cur t < m)%Z | None => done t = true -> (cur t + 1 < Z.of_nat (Datatypes.length (toks t)))%Z end ->
  NoDup exp -> (In (Nam 2) exp <-> In (Nam 3) exp) ->
  (exists r, gnti source lex t posn exp kl = Ok r) \/ gnti source lex t posn exp kl = Err UserError.
Proof. intros source lex t posn exp kl LW R RD ND TT. destruct (reachable_inv source lex t (proj1 LW) R) as [I J]. now apply gnti_total. Qed.
(* In a parse, no two semicolons are inserted at one position; so there are no more than there are positions. *)
Theorem C50_once : forall source lex t p, lexer_ok source lex -> parse_calls source lex t p ->
  NoDup (map estart (filter inserted (elems t))) /\ Datatypes.length (filter inserted (elems t)) <= S (Datatypes.length source).
Proof.
  intros source lex t p Hlex PC. destruct (parse_calls_posn source lex t p Hlex PC) as (I & EN & PS & _ & ND & IN). split; [auto|].
  rewrite <- (map_length estart). rewrite <- (seq_length (S (Datatypes.length source)) 0). apply NoDup_incl_length; [auto|]. intros x IX. apply in_map_iff in IX as (e & <- & IX). apply filter_In in IX as [IX Q]. destruct (IN e IX Q) as [L _].
  apply in_seq. pose proof (i_scout _ _ I). lia.
Qed.
Print Assumptions C50_decision.
Print Assumptions C50_goal.
Print Assumptions C50_total.
Print Assumptions C50_once.
(* before a brace, at the end and after do-while, but not twice, not as an empty statement, not where none is expected, not on the same line *)
Definition semis : list term := [Lit (txt ";")].
Definition word : list term * asi_kludge := ([Nam 9], K_none).
Example C50_case :
  let r source l exp kl := match calls source (start_state source) 0 l with Ok (t, p) => match gnti source (toy source) t p exp kl with Ok (r, _) => Ok r | Err e => Err e end | Err e => Err e end in
  r (txt "a}") [word] semis K_none = Ok (Some ([(Lit (txt ";"), mkM 1 1)], 1)) /\
  r (txt "a  ") [word] semis K_none = Ok (Some ([(Lit (txt ";"), mkM 1 1)], 1)) /\
  r (txt "while(0)a") (word :: lits ["("%string; "0"%string; ")"%string]) semis K_DoWhileStatement = Ok (Some ([(Lit (txt ";"), mkM 8 8)], 8)) /\
  r (txt "while(0)a") (word :: lits ["("%string; "0"%string; ")"%string]) semis K_none = Ok None /\
  r (txt "a}") [word; (semis, K_none)] semis K_none = Ok None /\
  r (txt "a}") [word; (semis, K_none)] [Lit (txt "}"); Lit (txt ";")] K_none = Ok (Some ([(Lit (txt "}"), mkM 1 2)], 2)) /\
  r (txt "a}") [word] semis K_EmptyStatement = Ok None /\
  r (txt "a}") [word] [Lit (txt "+")] K_none = Ok None /\
  r (txt "a b") [word] semis K_none = Ok None /\
  r (txt "a /b/ c") [word] [Nam 1] K_none = Ok (Some ([(Nam 1, mkM 2 5)], 5)) /\
  r (txt "a /b/ c") [word] [Lit (txt "/")] K_none = Ok (Some ([(Lit (txt "/"), mkM 2 3)], 3)) /\
  r (txt "a /b c") [word] [Nam 1] K_none = Err UserError.
Proof. vm_compute. repeat split. Qed.

(* ---- C51 ---- *)

(* calls that insert nothing *)
Inductive plain_calls (source : text) (lex : lgoal -> nat -> res (ekind * nat * nat)) : tip -> nat -> tip -> Prop :=
| pl_none t : plain_calls source lex t 0 t
| pl_next t n t1 posn exp kl r t2 : plain_calls source lex t n t1 -> gnti source lex t1 posn exp kl = Ok (r, t2) -> filter inserted (elems t2) = filter inserted (elems t1) -> plain_calls source lex t (S n) t2.
(* After set_reparse_bounds for a stretch of the text that has been parsed, the calls read exactly the tokens that start in it, one after the other,
   then an end at the start of the next token, and after that nothing. *)
Theorem C51_reparse : forall source lex t p s e t0, lexer_ok source lex -> parse_calls source lex t p -> set_reparse_bounds t s e = Ok t0 ->
  exists k m, (forall j x, nth_error (toks t) j = Some x -> (s <= estart (fst x) /\ estart (fst x) < e <-> k <= j < m)) /\
  (exists x, nth_error (toks t) k = Some x /\ estart (fst x) = s) /\ m < Datatypes.length (toks t) /\
  forall n t', plain_calls source lex t0 (S n) t' ->
    (exists d, delivered t' (k + n) d /\
       (k + n < m /\ (exists i, nth_error (toks t) (k + n) = Some (d, i)) \/ k + n = m /\ ek d = E_end /\ exists x, nth_error (toks t) m = Some x /\ estart d = estart (fst x) /\ eend d = estart (fst x))) /\
    (k + n = m -> forall posn exp kl, match gnti source lex t' posn exp kl with Ok _ => False | Err x => x = AssertionError end).
Proof.
  intros source lex t p s e t0 Hlex PC H. pose proof (parse_calls_sorted source lex t p Hlex PC) as SS. destruct (parse_calls_posn source lex t p Hlex PC) as [I _]. destruct (reachable_inv source lex t Hlex (parse_calls_reachable _ _ _ _ PC)) as [_ J].
  destruct (reparse_spec _ _ _ _ H) as (k & m & xk & xm & NK & EK & UK & NM & EM & UM & E0).
  assert (LE : forall i j x y, nth_error (toks t) i = Some x -> nth_error (toks t) j = Some y -> i <= j -> estart (fst x) <= estart (fst y)).
  { clear - SS. induction (toks t) as [|z l IH]; intros i j x y NI NJ L; [destruct i; discriminate|]. inversion SS as [|? ? S1 S2]; subst. destruct i as [|i], j as [|j]; cbn in *; try lia.
    - injection NI as <-. injection NJ as <-. lia.
    - injection NI as <-. rewrite Forall_forall in S2. apply S2. apply in_map_iff. exists y. split; [auto|]. eapply nth_error_In; eauto.
    - eapply (IH S1 i j); eauto. lia. }
  assert (LM : m < Datatypes.length (toks t)) by (apply nth_error_Some; congruence).
  exists k, m. split; [|split; [eauto|split; [auto|]]].
  - intros j x N. split.
    + intros [S1 S2]. split.
      * destruct (Nat.le_gt_cases k j); [auto|]. assert (Q : estart (fst x) <= estart (fst xk)) by (eapply LE; eauto; lia). assert (estart (fst x) = s) by lia. specialize (UK j x N H1). lia.
      * destruct (Nat.le_gt_cases m j); [|auto]. assert (Q : estart (fst xm) <= estart (fst x)) by (eapply LE; eauto). lia.
    + intros [L1 L2]. split; [rewrite <- EK; eapply LE; eauto|eapply UM; eauto].
  - assert (IT0 : inv source t0 /\ inv2 lex t0).
    { destruct (reachable_inv source lex t0 Hlex) as [A B]; [eapply r_reparse; eauto; eapply parse_calls_reachable; eauto|auto]. }
    assert (PRE : forall n t', plain_calls source lex t0 n t' -> inv source t' /\ inv2 lex t' /\ cur t' = (Z.of_nat k - 1 + Z.of_nat n)%Z /\ end_i t' = Some (Z.of_nat m) /\ (exists l, toks t' = toks t ++ l) /\ (n = 0 \/ exists d, delivered t' (k + n - 1) d /\ k + n - 1 <= m)).
    { intros n t' PL. remember t0 as u eqn:EU. induction PL as [u|u n t1 posn exp kl r t2 PL IH G F]; subst u.
      - rewrite E0. cbn. destruct IT0. rewrite E0 in *. repeat (split; [solve [auto]|]). split; [lia|]. split; [auto|]. split; [exists []; now rewrite app_nil_r|auto].
      - destruct (IH eq_refl H E0 IT0) as (I1 & J1 & C1 & E1 & (l1 & L1) & _). pose proof (gnti_inv2 _ _ _ _ _ _ _ _ Hlex I1 J1 G) as J2. pose proof G as G'. destruct (gnti_decision source lex Hlex _ _ _ _ _ _ I1 G) as (I2 & C2 & E2 & _ & _ & D).
        assert (LE' : (cur t1 + 1 <= Z.of_nat m)%Z).
        { unfold gnti in G'. destruct (lexical_goal exp); cbn [bind] in G'; [|discriminate]. unfold advance_token_cursor in G'. cbn [end_i] in G'. rewrite E1 in G'. destruct (cur t1 + 1 <=? Z.of_nat m)%Z eqn:Q; [lia|]. cbn [assert_ bind] in G'. discriminate. }
        split; [auto|]. split; [auto|]. split; [lia|]. split; [congruence|].
        assert (DE : (exists l, elems t2 = elems t1 ++ l) /\ exists d, delivered t2 (Z.to_nat (cur t2)) d).
        { destruct D as [(ms & d & _ & _ & DL & _ & _ & L & _)|[(? & ? & ? & ? & ? & _ & _ & _ & _ & _ & _ & _ & _ & _ & _ & _ & _ & _ & FI & _)|(_ & _ & L & d & DL & _)]]; [eauto|tauto|eauto]. }
        destruct DE as [[l L] [d DL]]. split.
        + rewrite (i_toks _ _ I2), L, toks_from_app, <- (i_toks _ _ I1), L1, <- app_assoc. eauto.
        + right. exists d. replace (k + S n - 1) with (Z.to_nat (cur t2)) by lia. split; [auto|]. lia. }
    intros n t' PL. destruct (PRE _ _ PL) as (I1 & J1 & C1 & E1 & (l1 & L1) & [Q|(d & DL & LEM)]); [discriminate|]. replace (k + S n - 1) with (k + n) in * by lia.
    assert (NTH : forall i, i < Datatypes.length (toks t) -> nth_error (toks t') i = nth_error (toks t) i) by (intros i L; rewrite L1; now apply nth_error_app1).
    split.
    + exists d. split; [auto|]. destruct DL as (d' & i & N & DV). rewrite NTH in N by lia. rewrite E1 in DV. destruct (Nat.eq_dec (k + n) m) as [EQ|NE].
      * right. split; [auto|]. destruct DV as [(_ & D1 & D2 & D3)|[Q _]]; [|destruct Q; rewrite EQ; auto]. split; [auto|]. rewrite <- EQ. exists (d', i). auto.
      * left. split; [lia|]. destruct DV as [(Q & _)|[_ ->]]; [injection Q; lia|]. eauto.
    + intros EQ posn exp kl. unfold gnti, lexical_goal. destruct (eqb _ _); cbn [assert_ bind]; [|auto]. unfold advance_token_cursor. cbn [end_i]. rewrite E1. assert (Q : (cur t' + 1 <=? Z.of_nat m)%Z = false) by lia. rewrite Q. cbn [assert_ bind]. auto.
Qed.
(* set_reparse_bounds fails only with ValueError: if not exactly one token starts at the start, or none at or after the end. *)
Theorem C51_fails : forall t s e, match set_reparse_bounds t s e with
  | Ok _ => True
  | Err x => x = ValueError /\ (~ (exists j, forall i, i = j <-> exists y, nth_error (toks t) i = Some y /\ estart (fst y) = s) \/ forall j y, nth_error (toks t) j = Some y -> estart (fst y) < e)
  end.
Proof.
  intros t s e. unfold set_reparse_bounds. assert (K : forall j, In j (indices (fun x => estart (fst x) =? s) (toks t)) <-> exists y, nth_error (toks t) j = Some y /\ estart (fst y) = s).
  { intros j. rewrite indices_spec. split; intros (y & N & Q); exists y; split; auto; now apply Nat.eqb_eq. }
  pose proof (indices_sorted (fun x => estart (fst x) =? s) (toks t)) as SS.
  destruct (indices (fun x => estart (fst x) =? s) (toks t)) as [|k [|k' ks]].
  - split; [auto|]. left. intros (j & Q). destruct (K j) as [_ K']. destruct (K' (proj1 (Q j) eq_refl)).
  - destruct (indices (fun x => e <=? estart (fst x)) (toks t)) as [|m ms] eqn:M; [|auto]. split; [auto|]. right. intros j y N. destruct (Nat.le_gt_cases e (estart (fst y))); [|auto]. exfalso.
    assert (Q : In j (indices (fun x => e <=? estart (fst x)) (toks t))) by (apply indices_spec; exists y; split; [auto|]; now apply Nat.leb_le). rewrite M in Q. destruct Q.
  - split; [auto|]. left. intros (j & Q). assert (Q1 : k = j) by (apply Q, K; now left). assert (Q2 : k' = j) by (apply Q, K; right; now left). inversion SS as [|? ? _ F]; subst. inversion F; subst. lia.
Qed.
Print Assumptions C51_reparse.
Print Assumptions C51_fails.
(* "x = (a, b) / 2": reparsing "(a, b)" reads five tokens and an end *)
Definition tC : text := txt "x=(a,b);".
Definition exC : list (list term * asi_kludge) := word :: lits ["="%string; "("%string] ++ [word] ++ lits [","%string] ++ [word] ++ lits [")"%string; ";"%string].
Example C51_case :
  let t := after tC exC in
  parse_calls tC (toy tC) t 8 /\ lexer_lawful tC (toy tC) /\
  exists t0, set_reparse_bounds t 2 7 = Ok t0 /\
  match calls tC t0 2 (lits ["("%string] ++ [word] ++ lits [","%string] ++ [word] ++ lits [")"%string] ++ [([Nam 0], K_none)]) with Ok (_, p) => p = 7 | Err _ => False end.
Proof. split; [apply after_parse; vm_compute; reflexivity|]. split; [apply toy_lawful|]. eexists. split; [vm_compute; reflexivity|]. vm_compute. reflexivity. Qed.
(* A node of the parse tree cannot always be parsed again: in "do;while(0)(a)" the semicolon that ends the do-while statement is inserted where "(a)" starts,
   so two tokens start there, and set_reparse_bounds fails. *)
Definition tD : text := txt "do;while(0)(a)".
Definition exD : list (list term * asi_kludge) := [word; (semis, K_none); word] ++ lits ["("%string] ++ [word] ++ lits [")"%string] ++ [(semis, K_DoWhileStatement)] ++ lits ["("%string] ++ [word] ++ lits [")"%string] ++ [(semis, K_none); ([Nam 0], K_none)].
Theorem C51_start_refuted : exists source lex t p s e xs xe, lexer_lawful source lex /\ parse_calls source lex t p /\
  In xs (toks t) /\ estart (fst xs) = s /\ etext source (fst xs) = txt "(" /\ In xe (toks t) /\ eend (fst xe) = e /\ etext source (fst xe) = txt ")" /\
  set_reparse_bounds t s e = Err ValueError.
Proof.
  exists tD, (toy tD), (after tD exD), 14, 11, 14, (nth 7 (toks (after tD exD)) (mkE 0 E_punct 0 0, 0)), (nth 9 (toks (after tD exD)) (mkE 0 E_punct 0 0, 0)).
  split; [apply toy_lawful|]. split; [apply after_parse; vm_compute; reflexivity|]. split; [apply nth_In; vm_compute; lia|]. split; [vm_compute; reflexivity|]. split; [vm_compute; reflexivity|]. split; [apply nth_In; vm_compute; lia|]. vm_compute. repeat split.
Qed.
(* A semicolon that is inserted while a stretch is parsed again moves its tokens but not the end: the last token is not read. *)
Definition tE : text := txt "a" ++ [10%N] ++ txt "b c".
Theorem C51_insert_refuted : exists source lex t p s e t0 t1 q, lexer_lawful source lex /\ parse_calls source lex t p /\ set_reparse_bounds t s e = Ok t0 /\
  (exists x, In x (toks t) /\ s <= estart (fst x) < e /\ etext source (fst x) = txt "b") /\
  (exists posn exp ms, gnti source lex t0 posn exp K_none = Ok (Some (ms, q), t1)) /\
  exists t2, gnti source lex t1 q semis K_none = Ok (Some ([(Lit (txt ";"), mkM q q)], q), t2) /\
  exists t3, gnti source lex t2 q [Nam 9; Nam 0] K_none = Ok (Some ([(Nam 0, mkM 2 2)], 2), t3).
Proof.
  exists tE, (toy tE), (after tE [word; word; word; ([Nam 0], K_none)]), 5, 0, 3. eexists _, _, _. split; [apply toy_lawful|]. split; [apply after_parse; vm_compute; reflexivity|]. split; [vm_compute; reflexivity|].
  split; [exists (nth 1 (toks (after tE [word; word; word; ([Nam 0], K_none)])) (mkE 0 E_punct 0 0, 0)); split; [apply nth_In; vm_compute; lia|]; vm_compute; repeat split; lia|].
  split; [exists 0, [Nam 9]; eexists; vm_compute; reflexivity|]. eexists. split; [vm_compute; reflexivity|]. eexists. vm_compute. reflexivity.
Qed.
Print Assumptions C51_start_refuted.
Print Assumptions C51_insert_refuted.
