(* C76: in a section about a syntax-directed operation, the right-hand sides that are out of the order of the definitions are reported.
   C77: the emu-prodref elements of annex A are checked against the definitions.
   C78: the references to nonterminals in the text are checked against the definitions. *)
From Coq Require Import Ascii String Sorted Permutation.
From Verif Require Import M_Base L_Base M_HTML M_Records L_Records M_Defs L_Defs M_Refs L_Refs L_NtRefs.
Open Scope list_scope.
Notation length := List.length.

(* ---------- C76 ---------- *)
(* the sections about operations, with whether they are in an algorithm *)
Definition operation (root s : node) (alg : bool) : Prop := section_of root false s alg /\ a_section s /\ n_kind s = tx "syntax_directed_operation".
Lemma operations : forall root s alg, operation root s alg <-> In (alg, s) (each_section false root) /\ sdo s.
Proof. intros root s alg. rewrite sections_spec. unfold operation, sdo. tauto. Qed.
Lemma other_section : forall s alg, ~ sdo s -> order_section tt (alg, s) = ([], Ok tt).
Proof. intros s alg H. unfold order_section. destruct (text_eqb _ _) eqn:E; [apply text_eqb_eq in E; contradiction|reflexivity]. Qed.
Lemma sdo_dec : forall s, {sdo s} + {~ sdo s}.
Proof. intros s. unfold sdo. apply (list_eq_dec N.eq_dec). Qed.

(* The check runs to its end exactly when, in each section about an operation, no grammar is in a section within it, each right-hand side is of a production that is
   defined, and no two neighbours use one production such that only one of them is found in it. *)
Theorem C76_accepts : forall root,
  (snd (check_order root) = Ok tt <-> forall s alg, operation root s alg -> ~ inner_grammar s /\ seq_fine (sequence s alg)).
Proof.
  intros root. unfold check_order. rewrite munit_ok, Forall_forall. split.
  - intros H s alg Ho. apply (operations root) in Ho as [Hin Hs]. specialize (H _ Hin). destruct (section_spec s alg Hs) as [(A & B & _)|(e & E & _)]; [auto|congruence].
  - intros H [alg s] Hin. destruct (sdo_dec s) as [Hs|Hs]; [|rewrite (other_section s alg Hs); reflexivity]. destruct (H s alg (proj2 (operations root s alg) (conj Hin Hs))) as [A B].
    destruct (section_spec s alg Hs) as [(_ & _ & R & _)|(e & E & [(-> & X)|[(-> & u & X & Y)|(-> & u & v & X & Y)]])]; [exact R|contradiction| |].
    + destruct B as [B _]. rewrite Forall_forall in B. destruct (B u X Y).
    + destruct B as [_ B]. destruct (B u v X Y).
Qed.
Print Assumptions C76_accepts.

(* How it ends otherwise. *)
Theorem C76_fails : forall root e, snd (check_order root) = Err e -> exists s alg, operation root s alg /\
  ((e = AssertionError /\ inner_grammar s) \/ (e = AttributeError /\ exists u, In u (sequence s alg) /\ u_def u = None) \/ (e = TypeError /\ exists u v, adj (sequence s alg) u v /\ clash u v)).
Proof.
  intros root e H. apply munit_err in H as (l1 & [alg s] & l2 & E & H & _). destruct (sdo_dec s) as [Hs|Hs]; [|rewrite (other_section s alg Hs) in H; discriminate].
  exists s, alg. split; [apply (operations root); split; [rewrite E; apply in_app_iff; right; now left|exact Hs]|]. destruct (section_spec s alg Hs) as [(_ & _ & R & _)|(e' & R & K)]; [congruence|]. assert (e' = e) by congruence. now subst e'.
Qed.
Print Assumptions C76_fails.

(* What is reported: each right-hand side that comes before its neighbour in the definitions, and nothing else. *)
Theorem C76_messages : forall root, snd (check_order root) = Ok tt -> forall m,
  In m (fst (check_order root)) <-> exists s alg u v, operation root s alg /\ adj (sequence s alg) u v /\ descent u v m.
Proof.
  intros root H m. unfold check_order in *. rewrite (munit_msgs _ _ _ _ m H). apply munit_ok in H. rewrite Forall_forall in H. split.
  - intros ([alg s] & Hin & X). destruct (sdo_dec s) as [Hs|Hs]; [|rewrite (other_section s alg Hs) in X; destruct X]. destruct (section_spec s alg Hs) as [(_ & _ & _ & M)|(e' & R & _)]; [|rewrite (H _ Hin) in R; discriminate].
    apply M in X as (u & v & X & D). exists s, alg, u, v. split; [apply (operations root); auto|auto].
  - intros (s & alg & u & v & Ho & X & D). apply (operations root) in Ho as [Hin Hs]. exists (alg, s). split; [exact Hin|]. destruct (section_spec s alg Hs) as [(_ & _ & _ & M)|(e' & R & _)]; [|rewrite (H _ Hin) in R; discriminate]. apply M. eauto.
Qed.
Print Assumptions C76_messages.

(* What silence means: in each of these sections the right-hand sides are in the order of the definitions, any two of them, not only neighbours. *)
Theorem C76_silent : forall root, snd (check_order root) = Ok tt ->
  (fst (check_order root) = [] <-> forall s alg, operation root s alg -> StronglySorted before (sequence s alg)).
Proof.
  intros root H. pose proof (C76_messages root H) as M. pose proof (proj1 (C76_accepts root) H) as A.
  assert (K : forall s alg u v, operation root s alg -> adj (sequence s alg) u v -> ((forall m, ~ descent u v m) <-> before u v)).
  { intros s alg u v Ho X. destruct (A s alg Ho) as [_ [F Nc]]. rewrite Forall_forall in F. destruct X as (l1 & l2 & E). apply not_descent; [apply F; rewrite E; apply in_app_iff; right; now left|apply F; rewrite E; apply in_app_iff; right; right; now left|apply Nc; exists l1, l2; exact E]. }
  split.
  - intros E s alg Ho. apply sorted_adj; [exact before_trans|]. intros u v X. apply (K s alg u v Ho X). intros m D. assert (In m (fst (check_order root))) as Y by (apply M; eauto 8). rewrite E in Y. destruct Y.
  - intros S. destruct (fst (check_order root)) as [|m l] eqn:E; [reflexivity|]. exfalso. destruct (proj1 (M m) ltac:(now left)) as (s & alg & u & v & Ho & X & D). specialize (S s alg Ho). apply (K s alg u v Ho X) with (m := m); [|exact D].
    revert X. apply (proj2 (sorted_adj _ before before_trans (sequence s alg))). exact S.
Qed.
Print Assumptions C76_silent.

(* A document: an operation with two grammars, an algorithm with another grammar in it, and a section of another kind out of order. *)
Definition el name l := Node (tx name) [] [] l.
Definition us id d i := mkUse id (Some (d, tx "Nt")) (Some i).
Definition gr l := Node (tx "emu-grammar") [] l [].
Definition op l := Node (tx "emu-clause") (tx "syntax_directed_operation") [] l.
Definition order_doc := el "#DOC" [op [gr [us 1 3 0; us 2 3 2]; el "emu-alg" [el "li" [gr [us 3 9 9]]]; gr [us 4 3 1; us 5 7 0]; el "p" [gr [us 6 5 4]]]; el "emu-clause" [gr [us 7 2 0; us 8 1 0]; op [gr [us 9 1 1; us 10 1 1]]]].
Example C76_example : check_order order_doc = ([(4, SameLhs (tx "Nt") 1 2); (6, OtherLhs (tx "Nt") 5 7)], Ok tt).
Proof. vm_compute. reflexivity. Qed.
Example C76_example_silent : check_order (el "#DOC" [op [gr [us 1 3 0; us 2 3 0; us 3 3 2]; gr [us 4 4 0]]]) = ([], Ok tt).
Proof. vm_compute. reflexivity. Qed.
Example C76_example_failures :
  snd (check_order (el "#DOC" [op [gr [us 1 3 0]; el "emu-clause" [gr []]]])) = Err AssertionError /\
  snd (check_order (el "#DOC" [op [gr [us 1 3 0; mkUse 2 None None]]])) = Err AttributeError /\
  snd (check_order (el "#DOC" [op [gr [us 1 3 0; mkUse 2 (Some (3, tx "Nt")) None]]])) = Err TypeError.
Proof. vm_compute. repeat split. Qed.

(* ---------- C77 ---------- *)
Lemma processed : forall gs ms ds inf, process gs = (ms, Ok (ds, inf)) -> exists ds0, LInv (sites gs) ds0 inf /\ view (sites gs) ds.
Proof.
  intros gs ms ds inf H. destruct (process_spec gs) as [(A & F & ms' & ds' & ds0 & inf' & E & I & R & _)|[(A & F & ms' & e' & E & He)|(A & e' & E & He)]]; rewrite E in H; [|discriminate|discriminate]. injection H as -> -> ->.
  exists ds0. split; [exact I|]. eapply rinv_view; eauto.
Qed.
(* Which lists of elements are taken: each has a name, of a nonterminal that the main part defines; one with the attribute a comes after one without it for the same name. *)
Theorem C77_accepts : forall gs ms ds inf posn refs, process gs = (ms, Ok (ds, inf)) ->
  (snd (check_prodrefs posn inf refs) = Ok tt <->
   forall l1 r l2, refs = l1 ++ r :: l2 -> exists n, r_name r = Some n /\ in_main (sites gs) n /\ (r_a r = true -> exists r', In r' l1 /\ r_a r' = false /\ r_name r' = Some n)).
Proof.
  intros gs ms ds inf posn refs H. destruct (processed gs ms ds inf H) as (ds0 & I & _). unfold check_prodrefs.
  assert (Q : refs_fine (sites gs) [] refs <-> forall l1 r l2, refs = l1 ++ r :: l2 -> exists n, r_name r = Some n /\ in_main (sites gs) n /\ (r_a r = true -> exists r', In r' l1 /\ r_a r' = false /\ r_name r' = Some n)).
  { unfold refs_fine, ref_fine. cbn [app]. split; intros X l1 r l2 E; destruct (X l1 r l2 E) as (n & A & B & C); exists n; (split; [exact A|]); (split; [exact B|]); intros Y; apply plain_in; auto. }
  rewrite <- Q. destruct (prodref_fold _ _ _ I refs []) as [(F & R & _)|(l1 & r & l2 & E & F & K)].
  - split; [auto|]. intros _. apply mbind_ok. eexists. split; [exact R|reflexivity].
  - split.
    + intros X. apply mbind_ok in X as (a & X & _). destruct K as [[_ K]|(_ & _ & K)]; rewrite K in X; discriminate.
    + intros X. specialize (X l1 r l2 E). destruct K as [[K _]|(_ & K & _)]; [destruct X as (n & Y & _); congruence|contradiction].
Qed.
Print Assumptions C77_accepts.

(* How it ends otherwise: at the first element at fault, with a KeyError if it has no name. *)
Theorem C77_fails : forall gs ms ds inf posn refs e, process gs = (ms, Ok (ds, inf)) -> snd (check_prodrefs posn inf refs) = Err e ->
  exists l1 r l2, refs = l1 ++ r :: l2 /\ snd (check_prodrefs posn inf l1) = Ok tt /\ ((e = KeyError /\ r_name r = None) \/
    (e = AssertionError /\ exists n, r_name r = Some n /\ (~ in_main (sites gs) n \/ (r_a r = true /\ forall r', In r' l1 -> r_a r' = false -> r_name r' <> Some n)))).
Proof.
  intros gs ms ds inf posn refs e H He. destruct (processed gs ms ds inf H) as (ds0 & I & _). unfold check_prodrefs in *. apply mbind_err in He as [He|(a & _ & X)]; [|discriminate].
  destruct (prodref_fold _ _ _ I refs []) as [(F & R & _)|(l1 & r & l2 & E & F & K)]; [rewrite R in He; discriminate|]. exists l1, r, l2. split; [exact E|]. split.
  - destruct (prodref_fold _ _ _ I l1 []) as [(_ & R & _)|(l1' & r' & l2' & E' & F' & K')]; [apply mbind_ok; eexists; split; [exact R|reflexivity]|]. specialize (F _ _ _ E'). destruct K' as [[K' _]|(_ & K' & _)]; [destruct F as (n & Y & _); congruence|contradiction].
  - destruct K as [[K1 K2]|(K1 & K2 & K3)]; [left; split; [congruence|exact K1]|]. right. split; [congruence|]. destruct (r_name r) as [n|] eqn:En; [|congruence]. exists n. split; [reflexivity|].
    assert (Dm : {in_main (sites gs) n} + {~ in_main (sites gs) n}).
    { destruct (tget inf n) as [i|] eqn:Ei; [|right; intros M; apply (main_iff _ _ _ _ I) in M as (i & X & _); congruence]. destruct (thas (i_occs i) (tx "A")) eqn:Et; [left; apply (main_iff _ _ _ _ I); eauto|right; intros M; apply (main_iff _ _ _ _ I) in M as (i' & X & Y); congruence]. }
    destruct Dm as [Dm|Dm]; [|now left]. right. destruct (r_a r) eqn:Ea.
    + split; [reflexivity|]. intros r' Hr' Ha' Hn'. apply K2. exists n. split; [exact En|]. split; [exact Dm|]. intros _. apply plain_in. eauto.
    + exfalso. apply K2. exists n. split; [exact En|]. split; [exact Dm|]. congruence.
Qed.
Print Assumptions C77_fails.

(* What is reported: first the elements that repeat a name, then, in the order of the document, the productions of the main part whose names no element has. *)
Theorem C77_messages : forall gs ms ds inf posn refs, process gs = (ms, Ok (ds, inf)) -> snd (check_prodrefs posn inf refs) = Ok tt ->
  (forall j k, j < length (sites gs) -> k < length (sites gs) -> posn j = posn k -> j = k) ->
  exists twice missing, fst (check_prodrefs posn inf refs) = twice ++ map (fun p => (p, NotReferenced)) missing /\
  (forall m, In m twice <-> exists l1 r l2 r' n, refs = l1 ++ r :: l2 /\ In r' l1 /\ r_a r' = false /\ r_a r = false /\ r_name r' = Some n /\ r_name r = Some n /\ m = (r_id r, DuplicateRef n)) /\
  StronglySorted lt missing /\
  (forall p, In p missing <-> exists k q, nth_error (sites gs) k = Some q /\ in_arena (fst q) (tx "A") /\ p = posn k /\ forall r, In r refs -> r_a r = false -> r_name r <> Some (lhs q)).
Proof.
  intros gs ms ds inf posn refs H Hok Inj. destruct (processed gs ms ds inf H) as (ds0 & I & _). unfold check_prodrefs in *. apply mbind_ok in Hok as (names & Hn & _). rewrite (mbind_msgs _ _ _ _ _ _ Hn). cbn [fst mtell].
  destruct (prodref_fold _ _ _ I refs []) as [(F & R & M)|(l1 & r & l2 & E & F & K)]; [|destruct K as [[_ K]|(_ & _ & K)]; congruence]. assert (names = plain refs) by (cbn [app] in R; congruence). subst names.
  set (E := filter (fun e => negb (tin (snd e) (plain refs))) (isort posn_leb (main_names posn inf))).
  exists (fst (mfold (prodref_step inf) [] refs)), (map fst E). split; [rewrite map_map; reflexivity|].
  assert (Ein : forall p n, In (p, n) E <-> (exists k q, nth_error (sites gs) k = Some q /\ lhs q = n /\ in_arena (fst q) (tx "A") /\ p = posn k) /\ ~ In n (plain refs)).
  { intros p n. unfold E. rewrite filter_In, negb_true_iff, tin_false. cbn [snd]. rewrite <- (main_names_in _ _ _ posn p n I). split; intros [A B]; (split; [|exact B]); [eapply Permutation_in; [apply isort_perm|exact A]|eapply Permutation_in; [apply Permutation_sym, isort_perm|exact A]]. }
  split; [|split].
  - intros m. rewrite M. cbn [app]. split.
    + intros (l1 & r & l2 & n & A & B & C & D & G). apply plain_in in D as (r' & D1 & D2 & D3). exists l1, r, l2, r', n. auto 8.
    + intros (l1 & r & l2 & r' & n & A & B & C & D & G & G' & J). exists l1, r, l2, n. repeat (split; [assumption|]). split; [apply plain_in; eauto|exact J].
  - apply ss_strict.
    + eapply ss_map; [|apply ss_filter; apply (isort_sorted posn_leb posn_total posn_trans)]. intros [a x] [b y] _ _ X. unfold posn_leb in X. cbn [fst snd] in *. destruct (Nat.eqb_spec a b); [lia|]. apply Nat.ltb_lt in X. lia.
    + assert (Nd : NoDup E). { apply NoDup_filter. eapply Permutation_NoDup; [apply Permutation_sym, isort_perm|]. eapply NoDup_map_inv. apply (main_names_nodup _ _ _ posn I). }
      revert Nd Ein. generalize E. clear E. intros E Nd Ein. assert (Ie : forall x y, In x E -> In y E -> fst x = fst y -> x = y).
      { intros [p n] [p' n'] A B C. cbn in C. subst p'. apply Ein in A as [(k & q & A1 & A2 & A3 & A4) _]. apply Ein in B as [(k' & q' & B1 & B2 & B3 & B4) _]. assert (k = k') by (apply Inj; [apply nth_error_Some; unfold site in *; congruence|apply nth_error_Some; unfold site in *; congruence|congruence]). subst k'. assert (q = q') by (unfold site in *; congruence). congruence. }
      clear Ein. induction Nd as [|x l N Nd IH]; cbn [map]; constructor.
      * intros X. apply in_map_iff in X as (y & Y1 & Y2). assert (y = x) by (apply Ie; [now right|now left|exact Y1]). congruence.
      * apply IH. intros a b Ha Hb. apply Ie; now right.
  - intros p. rewrite in_map_iff. split.
    + intros ([p' n] & <- & X). apply Ein in X as [(k & q & A1 & A2 & A3 & A4) B]. exists k, q. repeat (split; [assumption|]). intros r Hr Ha Hn'. apply B. apply plain_in. exists r. rewrite <- A2. auto.
    + intros (k & q & A1 & A2 & A3 & A4). exists (p, lhs q). split; [reflexivity|]. apply Ein. split; [eauto 7|]. intros X. apply plain_in in X as (r & X1 & X2 & X3). exact (A4 r X1 X2 X3).
Qed.
Print Assumptions C77_messages.

(* What silence means: the elements without the attribute a name exactly the nonterminals of the main part, each once. *)
Theorem C77_silent : forall gs ms ds inf posn refs, process gs = (ms, Ok (ds, inf)) -> check_prodrefs posn inf refs = ([], Ok tt) ->
  (forall j k, j < length (sites gs) -> k < length (sites gs) -> posn j = posn k -> j = k) ->
  exists names, NoDup names /\ map r_name (filter (fun r => negb (r_a r)) refs) = map Some names /\ forall n, In n names <-> in_main (sites gs) n.
Proof.
  intros gs ms ds inf posn refs H Hc Inj. assert (Hok : snd (check_prodrefs posn inf refs) = Ok tt) by (rewrite Hc; reflexivity). destruct (C77_messages gs ms ds inf posn refs H Hok Inj) as (tw & mi & E & T & _ & Mi). rewrite Hc in E. cbn [fst] in E.
  destruct tw as [|? ?]; [|discriminate]. destruct mi as [|? ?]; [|discriminate]. pose proof (proj1 (C77_accepts gs ms ds inf posn refs H) Hok) as A. exists (plain refs). split; [|split].
  - assert (T' : forall l1 r l2 r' n, refs = l1 ++ r :: l2 -> In r' l1 -> r_a r' = false -> r_a r = false -> r_name r' = Some n -> r_name r = Some n -> False) by (intros l1 r l2 r' n X1 X2 X3 X4 X5 X6; apply (T (r_id r, DuplicateRef n)); eauto 12).
    clear - T'. rewrite <- (app_nil_l refs) in T'. assert (Nd : NoDup (plain [])) by constructor. change (plain refs) with (plain [] ++ plain refs). revert Nd T'. generalize (@nil prodref) as l0. induction refs as [|r refs IH]; intros l0 Nd T'; [cbn; rewrite app_nil_r; exact Nd|].
    assert (Ea : plain l0 ++ plain (r :: refs) = plain (l0 ++ [r]) ++ plain refs) by (unfold plain; rewrite flat_map_app; cbn [flat_map]; rewrite app_nil_r, app_assoc; reflexivity). rewrite Ea. apply IH.
    + unfold plain. rewrite flat_map_app. cbn [flat_map]. rewrite app_nil_r. destruct (r_a r) eqn:Er; [rewrite app_nil_r; exact Nd|]. destruct (r_name r) as [n|] eqn:En; cbn [opt_list]; [|rewrite app_nil_r; exact Nd].
      apply (Permutation_NoDup (l := n :: plain l0)); [apply Permutation_cons_append|]. constructor; [|exact Nd]. intros X. apply plain_in in X as (r' & X1 & X2 & X3). exact (T' l0 r refs r' n eq_refl X1 X2 Er X3 En).
    + rewrite <- app_assoc. exact T'.
  - assert (A' : forall r, In r refs -> exists n, r_name r = Some n) by (intros r Hr; apply in_split in Hr as (l1 & l2 & Hr); destruct (A l1 r l2 Hr) as (n & X & _); eauto). clear - A'. unfold plain. induction refs as [|r refs IH]; [reflexivity|]. cbn [filter flat_map].
    assert (IH' := IH (fun x Hx => A' x (or_intror Hx))). destruct (r_a r); cbn [negb]; [exact IH'|]. destruct (A' r (or_introl eq_refl)) as (n & En). cbn [map]. rewrite En. cbn [opt_list app map]. now rewrite IH'.
  - intros n. rewrite plain_in. split.
    + intros (r & Hr & _ & En). apply in_split in Hr as (l1 & l2 & Hr). destruct (A l1 r l2 Hr) as (n' & X & Y & _). congruence.
    + intros (q & Hq & El & Ar). destruct (In_nth_error _ _ Hq) as (k & Hk). destruct (Exists_dec (fun r => r_a r = false /\ r_name r = Some n) refs) as [X|X].
      * intros r. destruct (r_a r); [right; intros [? _]; discriminate|]. destruct (r_name r) as [m|]; [|right; intros [_ ?]; discriminate]. destruct (list_eq_dec N.eq_dec m n) as [->|N]; [left; auto|right; intros [_ ?]; congruence].
      * apply Exists_exists in X. exact X.
      * exfalso. apply (Mi (posn k)). exists k, q. repeat (split; [auto|]). intros r Hr Ha Hn. apply X. apply Exists_exists. exists r. rewrite El in Hn. auto.
Qed.
Print Assumptions C77_silent.

(* Aaa[Yield] in the main part; Bbb in both parts, with parameters only in annex B; Ccc only in annex B. *)
Definition sMain := mkSect (tx "emu-clause") (tx "Statements") (tx "14").
Definition sAnnex := mkSect (tx "emu-annex") (tx "Patterns") (tx "B.1.2").
Definition prodn id name params := mkProd id true (tx name) (map tx params) 1 [].
Definition refs_doc := [mkGram (Some (tx "definition")) sMain true [prodn 1 "Aaa" ["Yield"%string; "In"%string]; prodn 2 "Bbb" []; prodn 5 "Ddd" []]; mkGram (Some (tx "definition")) sAnnex true [prodn 3 "Bbb" ["U"%string]; prodn 4 "Ccc" []]].
Definition infos_of (gs : list gram) : infos := match snd (process gs) with Ok (_, inf) => inf | Err _ => [] end.
Definition prods_of (gs : list gram) : list dprod := match snd (process gs) with Ok (ds, _) => ds | Err _ => [] end.
Example C77_example_doc : process refs_doc = ([], Ok (prods_of refs_doc, infos_of refs_doc)).
Proof. vm_compute. reflexivity. Qed.
Definition rf id n a := mkRef id (Some (tx n)) a.
Definition at100 k := 100 + 10 * k.
Example C77_example : check_prodrefs at100 (infos_of refs_doc) [rf 1 "Bbb" false; rf 2 "Bbb" true; rf 3 "Bbb" false] = ([(3, DuplicateRef (tx "Bbb")); (100, NotReferenced); (120, NotReferenced)], Ok tt).
Proof. vm_compute. reflexivity. Qed.
Example C77_example_silent : check_prodrefs at100 (infos_of refs_doc) [rf 1 "Ddd" false; rf 2 "Bbb" false; rf 3 "Ddd" true; rf 4 "Aaa" false] = ([], Ok tt) /\ forall j k, at100 j = at100 k -> j = k.
Proof. split; [vm_compute; reflexivity|]. unfold at100. intros. lia. Qed.
Example C77_example_failures :
  snd (check_prodrefs at100 (infos_of refs_doc) [rf 1 "Bbb" true; rf 2 "Bbb" false]) = Err AssertionError /\
  snd (check_prodrefs at100 (infos_of refs_doc) [rf 1 "Ccc" false]) = Err AssertionError /\ snd (check_prodrefs at100 (infos_of refs_doc) [mkRef 1 None false]) = Err KeyError.
Proof. vm_compute. repeat split. Qed.

(* ---------- C78 ---------- *)
(* Which pieces of the text are taken for references: from the left, two bars with two or more characters between them, the first of which is of a word; the second bar is not the first of another. *)
Theorem C78_found : forall uniword s l, scan uniword 0 s l <-> find_refs uniword 0 0 s = l.
Proof. intros. apply find_scan. Qed.
Print Assumptions C78_found.

(* The check runs to its end exactly when no reference has an empty argument, and each with arguments is to a nonterminal that is defined in its part or the main part. *)
Theorem C78_accepts : forall uniword gs ms ds inf s l, process gs = (ms, Ok (ds, inf)) -> scan uniword 0 s l ->
  (snd (check_refs uniword ds inf s) = Ok tt <-> forall p b, In (p, b) l -> checkable uniword (sites gs) s p b).
Proof.
  intros uniword gs ms ds inf s l H Hl. destruct (processed gs ms ds inf H) as (ds0 & I & V). apply find_scan in Hl. unfold check_refs. rewrite munit_ok, Forall_forall, Hl. split.
  - intros X p b Hin. specialize (X _ Hin). destruct (ref_step_spec uniword _ _ _ _ I V s p b) as [(A & _)|(n & args & ws & _ & _ & _ & [[_ R]|(_ & _ & R)])]; [exact A|congruence|congruence].
  - intros X [p b] Hin. specialize (X p b Hin). destruct (ref_step_spec uniword _ _ _ _ I V s p b) as [(_ & A & _)|(n & args & ws & A & B & C & K)]; [exact A|]. exfalso.
    assert (Pa : exists arena, part s p arena) by (eexists; now apply part_spec). destruct Pa as (ar & Pa). destruct (X n args ws ar A B C Pa) as [Y (q & Z)]. destruct K as [[K _]|(_ & (ar' & K1 & K2) & _)]; [contradiction|]. apply part_spec in Pa, K1. subst ar ar'. exact (K2 q Z).
Qed.
Print Assumptions C78_accepts.

(* How it ends otherwise. *)
Theorem C78_fails : forall uniword gs ms ds inf s l e, process gs = (ms, Ok (ds, inf)) -> scan uniword 0 s l -> snd (check_refs uniword ds inf s) = Err e ->
  exists p b n args ws, In (p, b) l /\ form uniword b n (Some args) /\ is_defined (sites gs) n /\ splits args ws /\
  ((e = IndexError /\ In [] ws) \/ (e = AttributeError /\ ~ In [] ws /\ exists arena, part s p arena /\ forall q, ~ meant (sites gs) arena n q)).
Proof.
  intros uniword gs ms ds inf s l e H Hl He. destruct (processed gs ms ds inf H) as (ds0 & I & V). apply find_scan in Hl. unfold check_refs in He. rewrite Hl in He. apply munit_err in He as (l1 & [p b] & l2 & E & He & _).
  destruct (ref_step_spec uniword _ _ _ _ I V s p b) as [(_ & A & _)|(n & args & ws & A & B & C & K)]; [congruence|]. exists p, b, n, args, ws. split; [rewrite E; apply in_app_iff; right; now left|]. repeat (split; [assumption|]). destruct K as [[K1 K2]|(K1 & K2 & K3)]; [left|right]; (split; [congruence|auto]).
Qed.
Print Assumptions C78_fails.

(* What is reported. *)
Theorem C78_messages : forall uniword gs ms ds inf s l, process gs = (ms, Ok (ds, inf)) -> scan uniword 0 s l -> snd (check_refs uniword ds inf s) = Ok tt -> forall m,
  In m (fst (check_refs uniword ds inf s)) <-> exists p b, In (p, b) l /\ says uniword (sites gs) s p b m.
Proof.
  intros uniword gs ms ds inf s l H Hl Hok m. destruct (processed gs ms ds inf H) as (ds0 & I & V). apply find_scan in Hl. unfold check_refs in *. rewrite (munit_msgs _ _ _ _ m Hok). rewrite Hl in *. apply munit_ok in Hok. rewrite Forall_forall in Hok. split.
  - intros ([p b] & Hin & X). exists p, b. split; [exact Hin|]. specialize (Hok _ Hin). destruct (ref_step_spec uniword _ _ _ _ I V s p b) as [(_ & _ & M)|(n & args & ws & _ & _ & _ & [[_ R]|(_ & _ & R)])]; [now apply M|congruence|congruence].
  - intros (p & b & Hin & X). exists (p, b). split; [exact Hin|]. specialize (Hok _ Hin). destruct (ref_step_spec uniword _ _ _ _ I V s p b) as [(_ & _ & M)|(n & args & ws & _ & _ & _ & [[_ R]|(_ & _ & R)])]; [now apply M|congruence|congruence].
Qed.
Print Assumptions C78_messages.

(* What silence means: each reference is to a nonterminal that is defined; its arguments, if it has any, all have signs and are the parameters of the definition, in order. *)
Theorem C78_silent : forall uniword gs ms ds inf s l p b, process gs = (ms, Ok (ds, inf)) -> scan uniword 0 s l -> check_refs uniword ds inf s = ([], Ok tt) -> In (p, b) l ->
  exists n args, form uniword b n args /\ (exists q, In q (sites gs) /\ lhs q = n) /\
  forall x, args = Some x -> exists arena q ws, part s p arena /\ meant (sites gs) arena n q /\ splits x ws /\ Forall signed ws /\ map (@tl N) ws = p_params (snd q).
Proof.
  intros uniword gs ms ds inf s l p b H Hl Hc Hin. assert (Hok : snd (check_refs uniword ds inf s) = Ok tt) by (rewrite Hc; reflexivity). pose proof (proj1 (C78_accepts _ _ _ _ _ _ _ H Hl) Hok p b Hin) as Ck.
  assert (S : forall m, ~ says uniword (sites gs) s p b m). { intros m X. assert (In m (fst (check_refs uniword ds inf s))) as Y by (apply (C78_messages _ _ _ _ _ _ _ H Hl Hok); eauto). rewrite Hc in Y. destruct Y. }
  destruct (parse_ref uniword b) as [[n args]|] eqn:E; [|destruct (S (p, Malformed)); constructor; now apply parse_ref_none]. apply parse_ref_iff in E. exists n, args. split; [exact E|].
  assert (D : is_defined (sites gs) n).
  { destruct (Exists_dec (fun q => lhs q = n) (sites gs) (fun q => list_eq_dec N.eq_dec (lhs q) n)) as [X|X]; [apply Exists_exists in X; exact X|]. destruct (S (p, Unrecognized n)). eapply Says_unknown; [exact E|]. intros Y. apply X. apply Exists_exists. exact Y. }
  split; [exact D|]. intros x ->. assert (Pa : exists arena, part s p arena) by (eexists; now apply part_spec). destruct Pa as (ar & Pa). assert (Sp : splits x (split_args false x)) by now apply splits_iff.
  destruct (Ck n x _ ar E D Sp Pa) as [Ne (q & Mq)]. exists ar, q, (split_args false x). split; [exact Pa|]. split; [exact Mq|]. split; [exact Sp|].
  assert (Sg : forall a, In a (split_args false x) -> signed a).
  { intros a Ha. assert (Dc : {signed a} + {~ signed a}). { destruct a as [|c r]; [right; intros (c & r & X & _); discriminate|]. destruct (N.eq_dec c 63) as [->|N1]; [left; exists 63%N, r; auto|]. destruct (N.eq_dec c 43) as [->|N2]; [left; exists 43%N, r; auto|]. destruct (N.eq_dec c 126) as [->|N3]; [left; exists 126%N, r; auto|]. right. intros (d & t & X & Y). injection X as <- <-. tauto. }
    destruct Dc as [X|X]; [exact X|]. destruct (S (p, NoPrefix a)). eapply Says_prefix; eauto. }
  split; [now apply Forall_forall|]. destruct (list_eq_dec (list_eq_dec N.eq_dec) (map (@tl N) (split_args false x)) (p_params (snd q))) as [X|X]; [exact X|]. destruct (S (p, BadArgs x (p_params (snd q)))).
  eapply Says_args; [exact E|exact Sp| |exact Pa|exact Mq|exact X]. revert Sg. clear. generalize (split_args false x). intros ws Sg. induction ws as [|a ws IH]; cbn [map]; constructor; [|apply IH; intros b Hb; apply Sg; now right].
  destruct (Sg a (or_introl eq_refl)) as (c & r & -> & X). now constructor.
Qed.
Print Assumptions C78_silent.

Definition uw (c : N) : bool := (c =? 233)%N.
Definition chk s := check_refs uw (prods_of refs_doc) (infos_of refs_doc) (tx s).
Example C78_example : chk "a |Aaa[+Yield, ~In]|, |Aaa[?In]|?; |Nope|; |Aaa [x]|; |Aaa[Yield,In]?|; a|b| |Bbb[]|; <x namespace=""annexB""> |Bbb[+U]| |Ccc|"%string =
  ([(22, BadArgs (tx "?In") [tx "Yield"; tx "In"]); (35, Unrecognized (tx "Nope")); (43, Malformed); (54, NoPrefix (tx "Yield")); (54, NoPrefix (tx "In")); (77, Malformed)], Ok tt).
Proof. vm_compute. reflexivity. Qed.
Example C78_example_found : find_refs uw 0 0 (tx "|Aaa[+Yield, ~In]| |x| |Bbb?| or |y |Ccc|"%string) = [(0, tx "Aaa[+Yield, ~In]"); (23, tx "Bbb?"); (33, tx "y ")].
Proof. vm_compute. reflexivity. Qed.
Example C78_example_silent : chk "|Aaa[+Yield,   ~In]?| |Bbb| |Ddd?| <x namespace=""annexB""> |Bbb[+U]|"%string = ([], Ok tt).
Proof. vm_compute. reflexivity. Qed.
Example C78_example_failures : snd (chk "|Aaa[+Yield,]|"%string) = Err IndexError /\ snd (chk "|Ccc[+Yield]| namespace=""annexB"""%string) = Err AttributeError.
Proof. vm_compute. split; reflexivity. Qed.

(* A reference with one letter is never looked at, though no nonterminal has such a name. *)
Theorem C78_letter_refuted : exists gs ds inf s c, process gs = ([], Ok (ds, inf)) /\ s = [124; c; 124]%N /\ word uw c /\ ~ is_defined (sites gs) [c] /\ check_refs uw ds inf s = ([], Ok tt).
Proof.
  exists refs_doc, (prods_of refs_doc), (infos_of refs_doc), (tx "|x|"), 120%N. split; [exact C77_example_doc|]. split; [reflexivity|]. split; [right; left; unfold is_lower; lia|]. split; [|vm_compute; reflexivity].
  intros (q & Hq & El). cbn in Hq. destruct Hq as [<-|[<-|[<-|[<-|[<-|[]]]]]]; discriminate.
Qed.
Print Assumptions C78_letter_refuted.
(* If the mark of annex B is not in the text, all of it is taken to be in annex B: a reference that has the parameters of the main part is reported, and one that has those of annex B is not. *)
Theorem C78_mark_refuted : exists gs ds inf, process gs = ([], Ok (ds, inf)) /\ (exists q, meant (sites gs) (tx "A") (tx "Bbb") q /\ p_params (snd q) = []) /\
  check_refs uw ds inf (tx "|Bbb[+U]|") = ([], Ok tt) /\ check_refs uw ds inf (tx "|Bbb[+U]| namespace=""annexB""") = ([(0, BadArgs (tx "+U") [])], Ok tt).
Proof.
  exists refs_doc, (prods_of refs_doc), (infos_of refs_doc). split; [exact C77_example_doc|]. split; [|split; vm_compute; reflexivity].
  exists (sMain, prodn 2 "Bbb" []). split; [|reflexivity]. apply meant_A. split; [right; left; reflexivity|]. split; [reflexivity|]. apply arena_spec. reflexivity.
Qed.
Print Assumptions C78_mark_refuted.
