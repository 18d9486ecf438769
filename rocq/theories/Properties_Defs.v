(* C75: the productions that define the grammar are checked, completed and collected into the four grammars as they stand in the document. *)
From Coq Require Import Ascii String Sorted Permutation.
From Verif Require Import M_Base L_Base M_HTML M_Records L_Records M_Defs L_Defs.
Open Scope list_scope.
Notation length := List.length.

(* Which lists of elements are taken: those of the type 'definition' whose productions are multi-line, stand in clauses or annexes, have good names, agree
   about the number of colons and define no nonterminal twice in one part; guards that choose a sign of a parameter of the production; no reference from one
   part to a nonterminal that only another defines; additions to what is there. *)
Theorem C75_accepts : forall gs, (exists st, snd (process gs) = Ok st) <-> acceptable gs /\ Forall (prod_fine (sites gs)) (sites gs).
Proof.
  intros gs. destruct (process_spec gs) as [(A & F & ms & ds & ds0 & inf & E & _)|[(A & F & ms & e & E & _)|(A & e & E & _)]]; rewrite E; cbn [snd]; split; try tauto; try (intros (st & X); discriminate).
  intros _. eauto.
Qed.
Print Assumptions C75_accepts.

(* How it ends otherwise. *)
Theorem C75_fails : forall gs e, snd (process gs) = Err e ->
  (e = KeyError /\ untyped gs) \/ (e = AssertionError /\ ~ untyped gs) \/ (e = AttributeError /\ acceptable gs).
Proof.
  intros gs e H. assert (U : acceptable gs -> ~ untyped gs).
  { intros (F & _) (g1 & g & g2 & -> & _ & T). apply Forall_app in F as [_ F]. inversion F as [|? ? [X _] _]. congruence. }
  destruct (process_spec gs) as [(A & F & ms & ds & ds0 & inf & E & _)|[(A & F & ms & e' & E & He)|(A & e' & E & He)]]; rewrite E in H; cbn [snd] in H; [discriminate| |]; injection H as ->.
  - destruct He as [->| ->]; [right; left; auto|right; right; auto].
  - destruct He as [[-> X]|[-> X]]; [right; left; auto|left; auto].
Qed.
Print Assumptions C75_fails.

(* What the productions become: the ones of the two sections of annex B that add get the right-hand sides of the main part before their own, wherever in the
   document these are; all others keep theirs. *)
Theorem C75_result : forall gs ms ds inf, process gs = (ms, Ok (ds, inf)) -> length ds = length (sites gs) /\
  forall k q, nth_error (sites gs) k = Some q -> exists d, nth_error ds k = Some d /\ d_prod d = snd q /\ in_arena (fst q) (d_arena d) /\ (d_aug d = true <-> adding (fst q)) /\ full (sites gs) q (d_rhss d).
Proof.
  intros gs ms ds inf H. destruct (process_spec gs) as [(A & F & ms' & ds' & ds0 & inf' & E & I & R & _)|[(A & F & ms' & e' & E & He)|(A & e' & E & He)]]; rewrite E in H; [|discriminate|discriminate]. injection H as -> -> ->.
  split; [apply (ri_len _ _ _ R)|]. intros k q Hq. destruct (ri_nth _ _ _ R k q Hq) as (d & Ed & (K1 & K2 & K3) & _ & Fl). exists d. split; [exact Ed|]. split; [exact K1|]. split; [apply arena_spec; congruence|]. split; [rewrite K3; apply aug_spec|].
  apply Fl. apply nth_error_Some. unfold site in *. congruence.
Qed.
Print Assumptions C75_result.

(* What is reported: exactly the arguments without a sign, the references to what is not defined, the arguments that are not the parameters of what is meant
   (in the part of the production, or else the main part), and the signs that do not suit the parameters of the production. *)
Theorem C75_messages : forall gs ms st, process gs = (ms, Ok st) -> forall m,
  In m ms <-> exists q r, In q (sites gs) /\ In r (p_rhss (snd q)) /\ reported (sites gs) q r m.
Proof.
  intros gs ms st H. destruct (process_spec gs) as [(A & F & ms' & ds' & ds0 & inf' & E & I & R & M)|[(A & F & ms' & e' & E & He)|(A & e' & E & He)]]; rewrite E in H; [|discriminate|discriminate]. injection H as <- _. exact M.
Qed.
Print Assumptions C75_messages.

(* The grammars: never a failure, the names in increasing order, and for each name the production that is meant in that part. *)
Theorem C75_grammars : forall gs ms ds inf level arena, process gs = (ms, Ok (ds, inf)) ->
  exists g, make_grammar ds inf level arena = Ok g /\ StronglySorted text_lt (map fst g) /\
  forall n d, tget g n = Some d <-> exists k q, nth_error (sites gs) k = Some q /\ nth_error ds k = Some d /\ meant (sites gs) arena n q /\ at_level q level.
Proof.
  intros gs ms ds inf level arena H. destruct (process_spec gs) as [(A & F & ms' & ds' & ds0 & inf' & E & I & R & _)|[(A & F & ms' & e' & E & He)|(A & e' & E & He)]]; rewrite E in H; [|discriminate|discriminate]. injection H as -> -> ->.
  exact (grammar_spec _ _ _ _ level arena I R).
Qed.
Print Assumptions C75_grammars.

(* Each nonterminal that is defined in the main part, or in annex B, is in exactly one of the two grammars of annex B. *)
Theorem C75_one_level : forall gs ms ds inf arena n gl gx, process gs = (ms, Ok (ds, inf)) ->
  make_grammar ds inf (tx "lexical") arena = Ok gl -> make_grammar ds inf (tx "syntactic") arena = Ok gx ->
  ((exists q, meant (sites gs) arena n q) <-> (exists d, tget gl n = Some d) \/ (exists d, tget gx n = Some d)) /\
  ~ ((exists d, tget gl n = Some d) /\ (exists d, tget gx n = Some d)).
Proof.
  intros gs ms ds inf arena n gl gx H Hl Hx.
  destruct (C75_grammars gs ms ds inf (tx "lexical") arena H) as (g1 & E1 & _ & G1). destruct (C75_grammars gs ms ds inf (tx "syntactic") arena H) as (g2 & E2 & _ & G2). assert (g1 = gl) by congruence. assert (g2 = gx) by congruence. subst g1 g2.
  destruct (C75_result _ _ _ _ H) as [_ Rs]. split; [split|].
  - intros (q & M). destruct (In_nth_error _ _ (proj1 M)) as (k & Hk). destruct (Rs k q Hk) as (d & Ed & _).
    destruct (Nat.eq_dec (p_colons (snd q)) 1) as [C|C]; [right; exists d; apply G2; exists k, q; repeat split; try apply M; auto; now constructor|].
    destruct (list_eq_dec N.eq_dec (lhs q) (tx "ReservedWord")) as [D1|D1]; [right; exists d; apply G2; exists k, q; split; [exact Hk|]; split; [exact Ed|]; split; [exact M|apply L_three; auto]|].
    destruct (list_eq_dec N.eq_dec (lhs q) (tx "NullLiteral")) as [D2|D2]; [right; exists d; apply G2; exists k, q; split; [exact Hk|]; split; [exact Ed|]; split; [exact M|apply L_three; auto]|].
    destruct (list_eq_dec N.eq_dec (lhs q) (tx "BooleanLiteral")) as [D3|D3]; [right; exists d; apply G2; exists k, q; split; [exact Hk|]; split; [exact Ed|]; split; [exact M|apply L_three; auto]|].
    left. exists d. apply G1. exists k, q. split; [exact Hk|]. split; [exact Ed|]. split; [exact M|apply L_lex; tauto].
  - intros [(d & X)|(d & X)]; [apply G1 in X|apply G2 in X]; destruct X as (k & q & _ & _ & M & _); eauto.
  - intros [(d & X) (d' & Y)]. apply G1 in X as (k & q & Hk & _ & M & Lv). apply G2 in Y as (k' & q' & Hk' & _ & M' & Lv').
    destruct (process_spec gs) as [(A & F & ms' & ds' & ds0 & inf' & E & I & R & _)|[(A & F & ms' & e' & E & He)|(A & e' & E & He)]]; rewrite E in H; [|discriminate|discriminate].
    destruct (meant_unique _ _ _ _ _ _ _ _ _ I Hk Hk' M M') as [_ <-]. inversion Lv as [| |C D]. inversion Lv' as [C'|C' D'|]; contradiction.
Qed.
Print Assumptions C75_one_level.

(* What silence means.  In the grammars of the main part each reference passes exactly the parameters of the production it refers to, in order and with signs, and
   question marks only for parameters of its own production.  In those of annex B too, provided annex B changes no parameters. *)
Definition keeps_params (gs : list gram) : Prop := forall q q', In q (sites gs) -> In q' (sites gs) -> lhs q = lhs q' ->
  in_arena (fst q) (tx "A") -> in_arena (fst q') (tx "B") -> p_params (snd q) = p_params (snd q').
Theorem C75_consistent : forall gs ds inf level arena g n d r guards nt par name args, process gs = ([], Ok (ds, inf)) ->
  arena = tx "A" \/ (arena = tx "B" /\ keeps_params gs) ->
  make_grammar ds inf level arena = Ok g -> tget g n = Some d -> In r (d_rhss d) -> refers r guards nt par name args ->
  (exists level' g' d', (level' = tx "lexical" \/ level' = tx "syntactic") /\ make_grammar ds inf level' arena = Ok g' /\ tget g' name = Some d' /\ map a_name args = p_params (d_prod d')) /\
  forall x, In x args -> a_sign x <> NoSign /\ (a_sign x = Quest -> In (a_name x) (p_params (d_prod d))).
Proof.
  intros gs ds inf level arena g n d r guards nt par name args H Ha Hg Hd Hr Rf.
  destruct (process_spec gs) as [(A & F & ms' & ds' & ds0 & inf' & E & I & R & M)|[(A & F & ms' & e' & E & He)|(A & e' & E & He)]]; rewrite E in H; [|discriminate|discriminate]. injection H as -> -> ->. cbn in M.
  set (L := sites gs) in *.
  assert (Sil : forall q r0 m, In q L -> In r0 (p_rhss (snd q)) -> ~ reported L q r0 m) by (intros q r0 m X Y Z; apply (M m); exists q, r0; auto).
  (* a reference in a production of the document *)
  assert (K : forall q0 a0, In q0 L -> In r (p_rhss (snd q0)) -> in_arena (fst q0) a0 -> (exists q1, meant L a0 name q1 /\ map a_name args = p_params (snd q1)) /\
              forall x, In x args -> a_sign x <> NoSign /\ (a_sign x = Quest -> In (a_name x) (p_params (snd q0)))).
  { intros q0 a0 H0 H1 H2. assert (D : exists q', In q' L /\ lhs q' = name).
    { destruct (Exists_dec (fun q' => lhs q' = name) L (fun q' => list_eq_dec N.eq_dec (lhs q') name)) as [X|X]; [now apply Exists_exists in X|]. exfalso. apply (Sil q0 r (nt, Undefined) H0 H1). eapply R_undefined; [exact Rf|].
      intros q' Hq El. apply X. apply Exists_exists. eauto. }
    rewrite Forall_forall in F. destruct (F q0 H0) as [Fr _]. rewrite Forall_forall in Fr. destruct (Fr r H1) as (_ & _ & Md). destruct (Md guards nt par name args a0 Rf H2 D) as (q1 & M1). split.
    - exists q1. split; [exact M1|]. destruct (Nat.eq_dec (length args) (length (p_params (snd q1)))) as [El|El]; [|destruct (Sil q0 r _ H0 H1 (R_count L q0 r guards nt par name args a0 q1 Rf H2 M1 El))].
      destruct (list_eq_dec (list_eq_dec N.eq_dec) (map a_name args) (p_params (snd q1))) as [X|X]; [exact X|]. destruct (Sil q0 r _ H0 H1 (R_order L q0 r guards nt par name args a0 q1 Rf H2 M1 X El)).
    - intros x Hx. split; [intros X; exact (Sil q0 r _ H0 H1 (R_sign L q0 r guards nt par name args x Rf Hx X))|]. intros X. destruct (in_dec (list_eq_dec N.eq_dec) (a_name x) (p_params (snd q0))) as [Y|Y]; [exact Y|].
      destruct (Sil q0 r _ H0 H1 (R_lhs L q0 r guards nt par name args x Rf D Hx Y X)). }
  (* what is meant, in the grammars *)
  assert (G : forall q1, meant L arena name q1 -> exists level' g' d', (level' = tx "lexical" \/ level' = tx "syntactic") /\ make_grammar ds inf level' arena = Ok g' /\ tget g' name = Some d' /\ d_prod d' = snd q1).
  { intros q1 M1. destruct (grammar_spec L ds ds0 inf (tx "lexical") arena I R) as (gl & El & _ & Gl). destruct (grammar_spec L ds ds0 inf (tx "syntactic") arena I R) as (gx & Ex & _ & Gx).
    destruct (C75_one_level gs [] ds inf arena name gl gx E El Ex) as [[O _] _]. destruct (O (ex_intro _ q1 M1)) as [(d' & X)|(d' & X)].
    - exists (tx "lexical"), gl, d'. repeat (split; [auto|]). apply Gl in X as (k & q2 & Hk & Ed & M2 & _). destruct (ri_nth _ _ _ R k q2 Hk) as (d2 & E2 & (K1 & _) & _). rewrite (meant_fun _ _ _ _ _ _ _ I M1 M2). congruence.
    - exists (tx "syntactic"), gx, d'. repeat (split; [auto|]). apply Gx in X as (k & q2 & Hk & Ed & M2 & _). destruct (ri_nth _ _ _ R k q2 Hk) as (d2 & E2 & (K1 & _) & _). rewrite (meant_fun _ _ _ _ _ _ _ I M1 M2). congruence. }
  destruct (grammar_spec L ds ds0 inf level arena I R) as (g1 & E1 & _ & G1). assert (g1 = g) by congruence. subst g1. apply G1 in Hd as (k & q & Hk & Ed & Mq & _). destruct (ri_nth _ _ _ R k q Hk) as (d2 & E2 & (K1 & K2 & _) & _ & Fl). assert (d2 = d) by congruence. subst d2.
  assert (Kl : k < length L) by (apply nth_error_Some; unfold site in *; congruence). specialize (Fl Kl).
  (* the production that has the right-hand side, with the same parameters *)
  assert (B : exists q0 a0, In q0 L /\ In r (p_rhss (snd q0)) /\ in_arena (fst q0) a0 /\ p_params (snd q0) = p_params (snd q) /\ (a0 = arena \/ a0 = tx "A")).
  { destruct Fl as [(Na & Er)|(Ad & b & Hb & Lb & Ab & Er)]; rewrite Er in Hr.
    - destruct Mq as (Hq & Lq & [X|(X & _)]); [exists q, arena; auto 7|exists q, (tx "A"); auto 7].
    - assert (Aq : arena = tx "B" /\ keeps_params gs).
      { destruct Ha as [->|X]; [|exact X]. exfalso. apply meant_A in Mq as (_ & _ & X). exact (adding_arena _ Ad X). }
      destruct Aq as [-> Kp]. apply in_app_iff in Hr as [Hr|Hr].
      + exists b, (tx "A"). split; [exact Hb|]. split; [exact Hr|]. split; [exact Ab|]. split; [|auto]. apply (Kp b q Hb (nth_error_In _ _ Hk) Lb Ab). apply Ad.
      + exists q, (tx "B"). split; [eapply nth_error_In; eauto|]. split; [exact Hr|]. split; [apply Ad|auto]. }
  destruct B as (q0 & a0 & H0 & H1 & H2 & Hp & H3). destruct (K q0 a0 H0 H1 H2) as [(q1 & M1 & Ea) Sg]. split; [|rewrite K1, <- Hp; exact Sg].
  assert (C : exists q2, meant L arena name q2 /\ p_params (snd q2) = p_params (snd q1)).
  { destruct H3 as [->|Ea0]; [exists q1; auto|]. subst a0. destruct Ha as [->|[-> Kp]]; [exists q1; auto|]. apply meant_A in M1 as (Hq1 & L1 & A1).
    assert (Dc : forall q' : site, {lhs q' = name /\ arena_of (fst q') = tx "B"} + {~ (lhs q' = name /\ arena_of (fst q') = tx "B")}).
    { intros q'. destruct (list_eq_dec N.eq_dec (lhs q') name) as [Y|Y]; [|right; tauto]. destruct (list_eq_dec N.eq_dec (arena_of (fst q')) (tx "B")) as [Z|Z]; [left; tauto|right; tauto]. }
    destruct (Exists_dec _ L Dc) as [X|X].
    - apply Exists_exists in X as (q2 & Hq2 & L2 & A2). apply arena_spec in A2. exists q2. split; [split; [exact Hq2|]; split; [exact L2|now left]|]. symmetry. apply (Kp q1 q2 Hq1 Hq2); [congruence|exact A1|exact A2].
    - exists q1. split; [|reflexivity]. split; [exact Hq1|]. split; [exact L1|]. right. split; [exact A1|]. intros q' Hq' L' A'. apply X. apply Exists_exists. exists q'. split; [exact Hq'|]. split; [exact L'|now apply arena_spec]. }
  destruct C as (q2 & M2 & P2). destruct (G q2 M2) as (lv & g' & d' & X1 & X2 & X3 & X4). exists lv, g', d'. repeat (split; [assumption|]). rewrite X4, P2. exact Ea.
Qed.
Print Assumptions C75_consistent.

(* The goal symbols are the names on the left that are on no right; the named terminals those on the right that are on no left; in increasing order. *)
Definition on_right (g : grammar) (n : text) : Prop := exists l d r, In (l, d) g /\ In r (d_rhss d) /\ mentions r n.
Lemma rights_iff : forall g n, In n (rights g) <-> on_right g n.
Proof.
  intros g n. unfold rights. rewrite dedup_in, in_flat_map. split.
  - intros ([l d] & Hl & X). cbn [snd] in X. apply in_flat_map in X as (r & Hr & X). exists l, d, r. rewrite <- mentions_iff. auto.
  - intros (l & d & r & Hl & Hr & X). exists (l, d). split; [exact Hl|]. cbn [snd]. apply in_flat_map. exists r. rewrite mentions_iff. auto.
Qed.
Lemma keys_nodup : forall g : grammar, StronglySorted text_lt (map fst g) -> NoDup (map fst g).
Proof. intros g. generalize (map fst g). intros l H. induction H as [|x l' S' IH F]; constructor; [|exact IH]. intros X. rewrite Forall_forall in F. destruct (F x X) as [_ Y]. congruence. Qed.
Theorem C75_goals : forall gs ms ds inf level arena g, process gs = (ms, Ok (ds, inf)) -> make_grammar ds inf level arena = Ok g ->
  level = tx "lexical" \/ level = tx "syntactic" -> arena = tx "A" \/ arena = tx "B" ->
  StronglySorted text_lt (goal_symbols (level ++ arena) g) /\ forall n, In n (goal_symbols (level ++ arena) g) <-> (exists d, tget g n = Some d) /\ ~ on_right g n.
Proof.
  intros gs ms ds inf level arena g H Hg Hl Ha. destruct (C75_grammars gs ms ds inf level arena H) as (g1 & E1 & Ss & _). assert (g1 = g) by congruence. subst g1. apply keys_nodup in Ss.
  assert (Nm : text_eqb (level ++ arena) (tx "syntactic") = false) by (destruct Hl as [->| ->], Ha as [->| ->]; reflexivity).
  unfold goal_symbols. rewrite Nm. assert (Nd : NoDup (filter (fun s => negb (tin s (rights g))) (lefts g))) by (apply NoDup_filter; exact Ss).
  destruct (isort_lt _ Nd) as [X Y]. split; [exact X|]. intros n. rewrite Y, filter_In, negb_true_iff, tin_false, rights_iff. unfold lefts. rewrite tget_keys. reflexivity.
Qed.
Print Assumptions C75_goals.
Theorem C75_terminals : forall g, StronglySorted text_lt (named_terminals g) /\ forall n, In n (named_terminals g) <-> on_right g n /\ forall d, tget g n <> Some d.
Proof.
  intros g. unfold named_terminals. assert (Nd : NoDup (filter (fun s => negb (tin s (lefts g))) (rights g))) by (apply NoDup_filter, dedup_nodup).
  destruct (isort_lt _ Nd) as [X Y]. split; [exact X|]. intros n. rewrite Y, filter_In, negb_true_iff, tin_false, rights_iff. unfold lefts. rewrite tget_keys. split; intros [P Q]; (split; [exact P|]).
  - intros d Hd. apply Q. eauto.
  - intros (d & Hd). exact (Q d Hd).
Qed.
Print Assumptions C75_terminals.

(* ---------- a document ---------- *)
Definition sA := mkSect (tx "emu-clause") (tx "Statements") (tx "14").
Definition sE := mkSect (tx "emu-clause") (tx "Grammar Notation") (tx "5.1.5").
Definition sB := mkSect (tx "emu-annex") (tx "FunctionDeclarations in IfStatement Statement Clauses") (tx "B.3.3").
Definition sB2 := mkSect (tx "emu-annex") (tx "Regular Expressions Patterns") (tx "B.1.2").
Definition pl n := mkArg n Plus. Definition qu n := mkArg n Quest.
(* If[Yield] : [+Yield] Expr[+Yield] Stmt[?Yield]opt | `nothing` ;  Stmt[Yield] : Tok ;  Expr[Yield] : Stmt[~Yield] ;  Tok :: one of ;  and in annex B  If[Yield] : Fn Stmt[+Yield, ?In] ;  Fn : ;  and an example Stmt : Tok *)
Definition pIf := mkProd 1 true (tx "If") [tx "Yield"] 1 [Line [mkArg 10 Plus (tx "Yield")] [Gnt 11 12 (tx "Expr") [pl 13 (tx "Yield")]; Qm (Gnt 14 15 (tx "Stmt") [qu 16 (tx "Yield")])]; Backticked].
Definition pStmt := mkProd 2 true (tx "Stmt") [tx "Yield"] 1 [Line [] [Gnt 21 22 (tx "Tok") []; Other [tx "Word"]]].
Definition pExpr := mkProd 3 true (tx "Expr") [tx "Yield"] 1 [Line [] [Gnt 31 32 (tx "Stmt") [mkArg 33 Tilde (tx "Yield")]]].
Definition pTok := mkProd 4 true (tx "Tok") [] 2 [LineOther [] []].
Definition pIfB := mkProd 5 true (tx "If") [tx "Yield"] 1 [Line [] [Gnt 51 52 (tx "Fn") []; Gnt 53 54 (tx "Stmt") [pl 55 (tx "Yield"); qu 56 (tx "In")]; Gnt 57 58 (tx "Nowhere") [mkArg 59 NoSign (tx "Q")]]].
Definition pFn := mkProd 6 true (tx "Fn") [] 1 [Line [] []].
Definition pEx := mkProd 7 true (tx "Stmt") [] 1 [Line [] [Gnt 71 72 (tx "Tok") []]].
Definition doc := [mkGram (Some (tx "definition")) sE true [pEx]; mkGram (Some (tx "definition")) sB true [pIfB]; mkGram (Some (tx "definition")) sB2 true [pFn]; mkGram (Some (tx "definition")) sA true [pIf; pStmt; pExpr; pTok]].
Definition good := [mkGram (Some (tx "definition")) sA true [pIf; pStmt; pTok]; mkGram (Some (tx "definition")) sA true [mkProd 3 true (tx "Expr") [tx "Yield"] 1 [Line [] [Gnt 31 32 (tx "Stmt") [qu 33 (tx "Yield")]]]];
  mkGram (Some (tx "definition")) sB2 true [pFn]; mkGram (Some (tx "definition")) sB true [mkProd 5 true (tx "If") [tx "Yield"] 1 [Line [] [Gnt 51 52 (tx "Fn") []]]]].
Definition names {A} (l : list (text * A)) : list string := map (fun e => string_of_list_ascii (map ascii_of_N (fst e))) l.

Example C75_example_messages : fst (process doc) =
  [(54, ArgsCount (tx "Stmt") [tx "Yield"] [tx "Yield"; tx "In"]); (55, Anomalous (tx "If") (tx "Yield")); (5, NotOnLhs (tx "In")); (59, MissingSign); (57, Undefined); (33, Anomalous (tx "Expr") (tx "Yield"))].
Proof. vm_compute. reflexivity. Qed.
(* annex B comes before the main part here, and gets its right-hand sides before its own *)
Example C75_example_result : exists ds inf, snd (process doc) = Ok (ds, inf) /\ map d_arena ds = [tx "E"; tx "B"; tx "B"; tx "A"; tx "A"; tx "A"; tx "A"] /\
  option_map d_rhss (nth_error ds 1) = Some (p_rhss pIf ++ p_rhss pIfB) /\ option_map d_rhss (nth_error ds 3) = Some (p_rhss pIf).
Proof. eexists _, _. split; [vm_compute; reflexivity|]. repeat split. Qed.
Example C75_example_grammars : exists ds inf, process good = ([], Ok (ds, inf)) /\
  (exists g, make_grammar ds inf (tx "syntactic") (tx "A") = Ok g /\ names g = ["Expr"; "If"; "Stmt"]%string /\ goal_symbols (tx "syntacticA") g = [tx "If"] /\ named_terminals g = [tx "Tok"; tx "Word"]) /\
  (exists g, make_grammar ds inf (tx "syntactic") (tx "B") = Ok g /\ names g = ["Expr"; "Fn"; "If"; "Stmt"]%string /\ option_map (fun d => length (d_rhss d)) (tget g (tx "If")) = Some 3) /\
  (exists g, make_grammar ds inf (tx "lexical") (tx "B") = Ok g /\ names g = ["Tok"]%string).
Proof.
  eexists _, _. split; [vm_compute; reflexivity|]. split; [|split]; (eexists; split; [vm_compute; reflexivity|]); repeat split; vm_compute; reflexivity.
Qed.
Example C75_example_keeps : keeps_params good.
Proof.
  intros q q' Hq Hq' E A B. cbn in Hq, Hq'. destruct Hq as [<-|[<-|[<-|[<-|[<-|[<-|[]]]]]]]; apply arena_spec in A; try discriminate A;
  destruct Hq' as [<-|[<-|[<-|[<-|[<-|[<-|[]]]]]]]; apply arena_spec in B; try discriminate B; try discriminate E; reflexivity.
Qed.
(* no type; a second production in the same part; another number of colons; a bad name; a guard that is no parameter; an addition to nothing; a use outside of the examples *)
Definition one s l := [mkGram (Some (tx "definition")) s true l].
Example C75_example_failures :
  process (mkGram None sA true [] :: doc) = ([], Err KeyError) /\ snd (process (one sA [pTok; pTok])) = Err AssertionError /\
  snd (process (one sA [pTok; mkProd 9 true (tx "Other") [] 1 []] ++ one sB2 [mkProd 8 true (tx "Tok") [] 1 []])) = Err AssertionError /\
  snd (process (one sA [mkProd 8 true (tx "tok") [] 2 []])) = Err AssertionError /\
  snd (process (one sA [mkProd 8 true (tx "Tok") [tx "P"] 2 [LineOther [mkArg 1 Plus (tx "Q")] []]])) = Err AssertionError /\
  snd (process (one sB [pFn])) = Err AttributeError /\
  snd (process (one sE [pTok] ++ one sA [mkProd 8 true (tx "Stmt") [] 1 [Line [] [Gnt 1 2 (tx "Tok") []]]])) = Err AttributeError.
Proof. vm_compute. repeat split. Qed.

(* Without the proviso the grammars of annex B need not be consistent: a production that annex B takes over from the main part may refer to a nonterminal to
   which annex B gives other parameters, and nothing is reported. *)
Theorem C75_annex_refuted : exists gs ds inf g d r guards nt par name args d',
  process gs = ([], Ok (ds, inf)) /\ make_grammar ds inf (tx "syntactic") (tx "B") = Ok g /\ (exists n, tget g n = Some d) /\ In r (d_rhss d) /\ refers r guards nt par name args /\
  tget g name = Some d' /\ length args <> length (p_params (d_prod d')).
Proof.
  set (X := mkProd 1 true (tx "Xx") [] 1 [Line [] [Gnt 11 12 (tx "Yy") [pl 13 (tx "P")]]]).
  exists (one sA [X; mkProd 2 true (tx "Yy") [tx "P"] 1 []] ++ one sB2 [mkProd 3 true (tx "Yy") [] 1 []]).
  eexists _, _, _, _, (Line [] [Gnt 11 12 (tx "Yy") [pl 13 (tx "P")]]), [], 11, 12, (tx "Yy"), [pl 13 (tx "P")], _.
  split; [vm_compute; reflexivity|]. split; [vm_compute; reflexivity|]. split; [exists (tx "Xx"); vm_compute; reflexivity|]. split; [left; reflexivity|]. split; [eexists; split; [reflexivity|left; left; reflexivity]|].
  split; [vm_compute; reflexivity|]. vm_compute. discriminate.
Qed.
Print Assumptions C75_annex_refuted.

(* ArrowFormalParameters, which is on a right-hand side, is meant to be made a goal symbol of the syntactic grammar; but no grammar has the name 'syntactic', so it is not. *)
Theorem C75_arrow_refuted : exists gs ds inf gA gB, process gs = ([], Ok (ds, inf)) /\
  make_grammar ds inf (tx "syntactic") (tx "A") = Ok gA /\ make_grammar ds inf (tx "syntactic") (tx "B") = Ok gB /\
  thas gA (tx "ArrowFormalParameters") = true /\ thas gB (tx "ArrowFormalParameters") = true /\
  ~ In (tx "ArrowFormalParameters") (goal_symbols (tx "syntactic" ++ tx "A") gA) /\ ~ In (tx "ArrowFormalParameters") (goal_symbols (tx "syntactic" ++ tx "B") gB).
Proof.
  exists (one sA [mkProd 1 true (tx "ArrowFormalParameters") [] 1 []; mkProd 2 true (tx "AsyncArrowHead") [] 1 [Line [] [Gnt 11 12 (tx "ArrowFormalParameters") []]]]).
  eexists _, _, _, _. split; [vm_compute; reflexivity|]. split; [vm_compute; reflexivity|]. split; [vm_compute; reflexivity|]. split; [vm_compute; reflexivity|]. split; [vm_compute; reflexivity|].
  split; intros H; vm_compute in H; destruct H as [H|[]]; discriminate.
Qed.
Print Assumptions C75_arrow_refuted.
