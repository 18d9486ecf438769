(* Specification vocabulary and lemmas for the driver of the static type analysis. *)
From Coq Require Import Sorted Permutation.
From Verif Require Import M_Base M_Dict M_Graph M_STADriver L_Base L_Dict L_Graph L_GraphLevels.

(* ---- specification ---- *)
(* the declared type of name pn of header h *)
Definition declared {T} (st : sta T) (h pn : nat) : option T :=
  match nget (hd T st) h with Some i => if pn =? 0 then Some (hret T i) else nget (hpars T i) pn | None => None end.
(* the messages are a log of the changes from declared types d to d': each change is of a type that was to be determined, and from the type it has then to another one *)
Inductive logged {T B} (started : nat -> list nat) (d : nat -> nat -> option T) : list (msg T B) -> (nat -> nat -> option T) -> Prop :=
| lg_end d' : (forall h pn, d h pn = d' h pn) -> logged started d [] d'
| lg_error L e ms d' : logged started d ms d' -> logged started d (M_error T B L e :: ms) d'
| lg_change L h pn old new ms d' : d h pn = Some old -> old <> new -> In pn (started h) ->
    logged started (fun h' pn' => if (h' =? h) && (pn' =? pn) then Some new else d h' pn') ms d' -> logged started d (M_change T B L h pn old new :: ms) d'.
(* levels, clusters: the clusters in order, each with the number of its level *)
Fixpoint in_order (L : nat) (levels : list (list (list nat))) : list (nat * list nat) :=
  match levels with [] => [] | cs :: ls => map (pair L) cs ++ in_order (S L) ls end.
(* what the analysis of a (that is, of one of its headers) looks at *)
Definition reads_only {T B} (headers : nat -> list nat) (analyse : (nat -> option (summary T)) -> nat -> list (nat * T) -> res (list B * option (list (nat * T)))) (dep : nat -> nat -> Prop) : Prop :=
  forall a h v w e, In h (headers a) -> (forall b, dep a b -> v b = w b) -> analyse v h e = analyse w h e.
Definition is_error {T B} (m : msg T B) : bool := match m with M_error _ _ _ _ => true | _ => false end.
(* what the parameters and the return type of an algorithm are taken to be, by its headers *)
Definition summarized {T} (union : list T -> T) (headers : nat -> list nat) (st : sta T) (a : nat) : Prop :=
  match headers a with
  | [] => True
  | [h] => exists i, nget (hd T st) h = Some i /\ view T headers st a = Some (map (fun p => ([fst p], snd p)) (hpars T i), hret T i)
  | _ => exists is ps r, Forall2 (fun h i => nget (hd T st) h = Some i) (headers a) is /\ view T headers st a = Some (ps, r) /\
      (exists ts, r = union ts /\ NoDup ts /\ forall t, In t ts <-> exists i, In i is /\ t = hret T i) /\
      (forall k, k < length ps <-> exists i, nth_error is 0 = Some i /\ k < length (hpars T i)) /\
      forall k ns t, nth_error ps k = Some (ns, t) ->
        StronglySorted lt ns /\ (forall n, In n ns <-> exists i u, In i is /\ nth_error (hpars T i) k = Some (n, u)) /\
        exists ts, t = union ts /\ NoDup ts /\ forall u, In u ts <-> exists i n, In i is /\ nth_error (hpars T i) k = Some (n, u)
  end.

(* the error is found for header h with the types as they are in st: by the analysis of its definitions; because a variable of the final environment is still open;
   because the return type found is not within the one given (w: whether it would be a widening) *)
Definition reports {T B} (TBD : T) (sub : T -> T -> bool) (headers : nat -> list nat) (for_param : nat -> option (nat * T)) (started : nat -> list nat) (no_defns early : nat -> bool)
    (analyse : (nat -> option (summary T)) -> nat -> list (nat * T) -> res (list B * option (list (nat * T)))) (st : sta T) (h : nat) (er : error T B) : Prop :=
  exists i be fin, no_defns h = false /\ nget (hd T st) h = Some i /\ analyse (view T headers st) h (init_env T for_param h i) = Ok (be, fin) /\
  match er with
  | E_body _ _ h' e => h' = h /\ In e be
  | E_tbd _ _ h' pn => h' = h /\ early h = false /\ exists final, fin = Some final /\ In (pn, TBD) final
  | E_suggests _ _ h' pn w t => h' = h /\ early h = false /\ pn = 0 /\ ~ In 0 (started h) /\ exists final, fin = Some final /\ nget final 0 = Some t /\ t <> hret T i /\ sub t (hret T i) = false /\ w = sub (hret T i) t
  end.
(* all types of the headers of the algorithm were given *)
Definition frozen (headers started : nat -> list nat) (a : nat) : Prop := forall h, In h (headers a) -> started h = [].

Section Proofs.
  Variable T : Type.
  Variable eqb : T -> T -> bool.
  Hypothesis eqb_spec : forall t u, eqb t u = true <-> t = u.
  Variable TBD : T.
  Variable sub : T -> T -> bool.
  Variable union : list T -> T.
  Variable B : Type.
  Variable headers : nat -> list nat.
  Variable builtin discriminated : nat -> bool.
  Variable required : nat -> option nat.
  Variable for_param : nat -> option (nat * T).
  Variable started : nat -> list nat.
  Variable no_defns early : nat -> bool.
  Variable parret : nat -> T -> res unit.
  Variable analyse : (nat -> option (summary T)) -> nat -> list (nat * T) -> res (list B * option (list (nat * T))).
  Notation hd := (hd T). Notation sm := (sm T). Notation sta := (sta T). Notation msg := (msg T B).
  Notation view := (view T headers).
  Notation compare_vars := (compare_vars T eqb sub B started).
  Notation tc_header := (tc_header T eqb TBD sub B headers for_param started no_defns early parret analyse).
  Notation tc_headers := (tc_headers T eqb TBD sub B headers for_param started no_defns early parret analyse).
  Notation tc_alg := (tc_alg T eqb TBD sub union B headers builtin discriminated required for_param started no_defns early parret analyse).
  Notation one_pass := (one_pass T eqb TBD sub union B headers builtin discriminated required for_param started no_defns early parret analyse).
  Notation passes := (passes T eqb TBD sub union B headers builtin discriminated required for_param started no_defns early parret analyse).
  Notation do_clusters := (do_clusters T eqb TBD sub union B headers builtin discriminated required for_param started no_defns early parret analyse).
  Notation do_levels := (do_levels T eqb TBD sub union B headers builtin discriminated required for_param started no_defns early parret analyse).
  Notation summarize_headers := (summarize_headers T eqb union headers discriminated required).
  Notation change := (change_declared_type T eqb B).

  (* ---- nothing changed ---- *)
  Lemma compare_false L h init final pns : forall st st' es ms, compare_vars L h init final pns st = Ok (false, st', es, ms) ->
    st' = st /\ ms = [] /\ forall L2 st2, compare_vars L2 h init final pns st2 = Ok (false, st2, es, []).
  Proof.
    induction pns as [|pn pns IH]; intros st st' es ms H; cbn [M_STADriver.compare_vars] in *; [injection H as <- <- <-; auto|].
    destruct (nidx init pn) as [it|]; cbn [bind] in *; [|discriminate]. destruct (nidx final pn) as [ft|]; cbn [bind] in *; [|discriminate].
    destruct (eqb it ft); [eauto|]. destruct (nmem pn (started h)).
    - destruct (change L st h pn ft) as [cm|]; cbn [bind] in H; [|discriminate]. destruct (compare_vars L h init final pns (fst cm)) as [[[[c s] e] m]|]; cbn [bind] in H; discriminate.
    - destruct (negb (pn =? 0)); [eauto|]. destruct (sub ft it); [eauto|]. destruct (compare_vars L h init final pns st) as [[[[c s] e] m]|] eqn:E; cbn [bind] in H; [|discriminate].
      injection H as -> <- <- <-. destruct (IH _ _ _ _ E) as (-> & -> & G). split; [auto|]. split; [auto|]. intros L2 st2. rewrite G. reflexivity.
  Qed.
  Definition same_for (st st2 : sta) (h : nat) : Prop := nget (hd st2) h = nget (hd st) h /\ forall e, analyse (view st2) h e = analyse (view st) h e.
  Lemma header_false L st h st' es ms : tc_header L st h = Ok (false, st', es, ms) -> st' = st /\ ms = [] /\ forall st2, same_for st st2 h -> tc_header L st2 h = Ok (false, st2, es, []).
  Proof.
    intros H. unfold M_STADriver.tc_header in *. assert (Q : forall st2, same_for st st2 h -> nidx (hd st2) h = nidx (hd st) h) by (intros st2 [E _]; unfold nidx; now rewrite E).
    destruct (nidx (hd st) h) as [i|] eqn:E; cbn [bind] in *; [|discriminate]. destruct (parret h (hret T i)) eqn:P; cbn [bind] in *; [|discriminate].
    destruct (no_defns h) eqn:N.
    { injection H as <- <- <-. split; [auto|]. split; [auto|]. intros st2 S. rewrite (Q _ S). cbn [bind]. rewrite P. reflexivity. }
    destruct (analyse (view st) h (init_env T for_param h i)) as [[be fin]|] eqn:A; cbn [bind fst snd] in *; [|discriminate]. destruct (early h) eqn:EA.
    { destruct fin as [|]; [discriminate|]. injection H as <- <- <-. split; [auto|]. split; [auto|]. intros st2 S. rewrite (Q _ S). cbn [bind]. rewrite P. cbn [bind]. destruct S as [_ S]. rewrite S, A. reflexivity. }
    destruct fin as [final|]; [|discriminate]. destruct (still_tbd T eqb TBD B h (map fst (hpars T i) ++ [0]) final) as [es2|] eqn:ST; cbn [bind] in *; [|discriminate].
    destruct (vars_eqb T eqb (init_env T for_param h i) final) eqn:V.
    { injection H as <- <- <-. split; [auto|]. split; [auto|]. intros st2 S. rewrite (Q _ S). cbn [bind]. rewrite P. cbn [bind]. destruct S as [_ S]. rewrite S, A. cbn [bind fst snd]. rewrite ST. cbn [bind]. rewrite V. reflexivity. }
    destruct (compare_vars L h (init_env T for_param h i) final (isort Nat.leb (map fst (init_env T for_param h i))) st) as [[[[c s] e] m]|] eqn:CV; cbn [bind] in H; [|discriminate].
    injection H as -> <- <- <-. destruct (compare_false _ _ _ _ _ _ _ _ _ CV) as (-> & -> & G). split; [auto|]. split; [auto|].
    intros st2 S. rewrite (Q _ S). cbn [bind]. rewrite P. cbn [bind]. destruct S as [_ S]. rewrite S, A. cbn [bind fst snd]. rewrite ST. cbn [bind]. rewrite V, G. reflexivity.
  Qed.
  Lemma headers_false L hs : forall st st' es ms, tc_headers L hs st = Ok (false, st', es, ms) -> st' = st /\ ms = [] /\ forall st2, (forall h, In h hs -> same_for st st2 h) -> tc_headers L hs st2 = Ok (false, st2, es, []).
  Proof.
    induction hs as [|h hs IH]; intros st st' es ms H; cbn [M_STADriver.tc_headers] in *; [injection H as <- <- <-; auto|].
    destruct (tc_header L st h) as [[[[c s] e] m]|] eqn:E; cbn [bind] in H; [|discriminate]. destruct (tc_headers L hs s) as [[[[c' s'] e'] m']|] eqn:E'; cbn [bind] in H; [|discriminate].
    injection H as C <- <- <-. apply orb_false_iff in C as [-> ->]. destruct (header_false _ _ _ _ _ _ E) as (-> & -> & G). destruct (IH _ _ _ _ E') as (-> & -> & G'). split; [auto|]. split; [auto|].
    intros st2 S. rewrite G by (apply S; now left). cbn [bind]. rewrite G' by (intros; apply S; now right). reflexivity.
  Qed.
  Lemma alg_false L st a st' es ms : tc_alg L st a = Ok (false, st', es, ms) -> st' = st /\ ms = [] /\ forall st2, (forall h, In h (headers a) -> same_for st st2 h) -> tc_alg L st2 a = Ok (false, st2, es, []).
  Proof.
    unfold M_STADriver.tc_alg. intros H. destruct (builtin a); [injection H as <- <- <-; auto|]. destruct (tc_headers L (headers a) st) as [[[[c s] e] m]|] eqn:E; cbn [bind] in H; [|discriminate].
    destruct c; [destruct (summarize_headers s a); cbn [bind] in H; discriminate|]. injection H as <- <- <-. destruct (headers_false _ _ _ _ _ _ E) as (-> & -> & G). split; [auto|]. split; [auto|]. intros st2 S. rewrite G by auto. reflexivity.
  Qed.
  Lemma pass_false L c : forall st st' es ms, one_pass L c st = Ok (false, st', es, ms) -> st' = st /\ ms = [] /\
    forall st2, (forall a h, In a c -> In h (headers a) -> same_for st st2 h) -> one_pass L c st2 = Ok (false, st2, es, []).
  Proof.
    induction c as [|a c IH]; intros st st' es ms H; cbn [M_STADriver.one_pass] in *; [injection H as <- <- <-; auto|].
    destruct (tc_alg L st a) as [[[[b s] e] m]|] eqn:E; cbn [bind] in H; [|discriminate]. destruct (one_pass L c s) as [[[[c' s'] e'] m']|] eqn:E'; cbn [bind] in H; [|discriminate].
    injection H as C <- <- <-. apply orb_false_iff in C as [-> ->]. destruct (alg_false _ _ _ _ _ _ E) as (-> & -> & G). destruct (IH _ _ _ _ E') as (-> & -> & G'). split; [auto|]. split; [auto|].
    intros st2 S. rewrite G by (intros; apply (S a); auto; now left). cbn [bind]. rewrite G' by (intros b h IB; apply (S b); now right). reflexivity.
  Qed.

  (* ---- what changes ---- *)
  Lemma change_spec L st h pn new st' m : change L st h pn new = Ok (st', m) ->
    exists old, m = M_change T B L h pn old new /\ declared st h pn = Some old /\ old <> new /\ sm st' = sm st /\ (forall h', h' <> h -> nget (hd st') h' = nget (hd st) h') /\
      forall h' pn', declared st' h' pn' = if (h' =? h) && (pn' =? pn) then Some new else declared st h' pn'.
  Proof.
    unfold change_declared_type. intros H. unfold nidx in H at 1. destruct (nget (hd st) h) as [i|] eqn:E; cbn [bind] in H; [|discriminate].
    assert (G : forall old j, (if pn =? 0 then Some (hret T i) else nget (hpars T i) pn) = Some old -> (forall q, (if q =? 0 then Some (hret T j) else nget (hpars T j) q) = if q =? pn then Some new else if q =? 0 then Some (hret T i) else nget (hpars T i) q) ->
      (do _ <- assert_ (negb (eqb old new)) ;; Ok (mkSta T (nset (hd st) h j) (sm st), M_change T B L h pn old new)) = Ok (st', m) ->
      exists old, m = M_change T B L h pn old new /\ declared st h pn = Some old /\ old <> new /\ sm st' = sm st /\ (forall h', h' <> h -> nget (hd st') h' = nget (hd st) h') /\
        forall h' pn', declared st' h' pn' = if (h' =? h) && (pn' =? pn) then Some new else declared st h' pn').
    { intros old j O J K. destruct (eqb old new) eqn:EQ; cbn [negb assert_ bind] in K; [discriminate|]. injection K as <- <-. exists old. split; [auto|]. unfold declared at 1. rewrite E. split; [auto|].
      split; [intros Q; apply eqb_spec in Q; congruence|]. split; [auto|]. cbn [M_STADriver.hd]. split; [intros h' NE; apply nget_nset_other; auto|]. intros h' pn'. unfold declared. cbn [M_STADriver.hd].
      destruct (Nat.eqb_spec h' h) as [->|NE]; [rewrite nget_nset_same, E; cbn [andb]; apply J|rewrite nget_nset_other by auto; reflexivity]. }
    destruct (Nat.eqb_spec pn 0) as [->|NZ].
    - cbn [bind fst snd] in H. eapply G; [reflexivity| |exact H]. intros q. cbn. destruct (q =? 0); auto.
    - unfold nidx in H. destruct (nget (hpars T i) pn) as [old|] eqn:EO; cbn [bind fst snd] in H; [|discriminate]. eapply G; [reflexivity| |exact H]. intros q. cbn. destruct (Nat.eqb_spec q 0) as [->|]; [destruct (Nat.eqb_spec 0 pn); [congruence|auto]|].
      rewrite nget_nset. destruct (Nat.eqb_spec pn q), (Nat.eqb_spec q pn); congruence.
  Qed.
  Notation logged := (@logged T B started).
  Lemma logged_ext d1 d2 ms d' : (forall h pn, d1 h pn = d2 h pn) -> logged d1 ms d' -> logged d2 ms d'.
  Proof.
    intros E H. revert d2 E. induction H as [d d' Q|d L e ms d' H IH|d L h pn old new ms d' O N S H IH]; intros d2 E.
    - constructor. intros. rewrite <- E. auto.
    - constructor. auto.
    - econstructor; [rewrite <- E; eauto|auto|auto|]. apply IH. intros h' pn'. now rewrite E.
  Qed.
  Lemma logged_app d ms d' ms' d'' : logged d ms d' -> logged d' ms' d'' -> logged d (ms ++ ms') d''.
  Proof.
    induction 1 as [d d' Q|d L e ms d' H IH|d L h pn old new ms d' O N S H IH]; intros H'; cbn [app].
    - eapply logged_ext; [|exact H']. intros. symmetry. auto.
    - constructor. auto.
    - econstructor; eauto.
  Qed.
  Definition frame (hs : list nat) (st st' : sta) : Prop := forall h, ~ In h hs -> nget (hd st') h = nget (hd st) h.
  Lemma compare_spec L h init final pns : forall st c st' es ms, compare_vars L h init final pns st = Ok (c, st', es, ms) ->
    sm st' = sm st /\ frame [h] st st' /\ logged (declared st) ms (declared st') /\ (started h = [] -> c = false) /\ filter is_error ms = [].
  Proof.
    induction pns as [|pn pns IH]; intros st c st' es ms H; cbn [M_STADriver.compare_vars] in *; [injection H as <- <- <- <-; split; [auto|]; split; [intros h' _; auto|]; split; [constructor; auto|]; split; auto|].
    destruct (nidx init pn) as [it|]; cbn [bind] in *; [|discriminate]. destruct (nidx final pn) as [ft|]; cbn [bind] in *; [|discriminate].
    destruct (eqb it ft); [eauto|]. destruct (nmem pn (started h)) eqn:NM.
    - destruct (change L st h pn ft) as [[st1 m1]|] eqn:CH; cbn [bind fst snd] in H; [|discriminate]. destruct (compare_vars L h init final pns st1) as [[[[c1 s] e] m]|] eqn:E; cbn [bind] in H; [|discriminate].
      injection H as <- <- <- <-. destruct (change_spec _ _ _ _ _ _ _ CH) as (old & -> & D & NE & S1 & F1 & D1). destruct (IH _ _ _ _ _ E) as (S2 & F2 & L2 & Z2 & Y2). apply nmem_in in NM.
      split; [congruence|]. split; [|split; [|split]].
      + intros h' NI. rewrite F2 by auto. apply F1. intros ->. apply NI. now left.
      + econstructor; [exact D|exact NE|exact NM|]. eapply logged_ext; [exact D1|exact L2].
      + intros Q. rewrite Q in NM. destruct NM.
      + exact Y2.
    - destruct (negb (pn =? 0)); [eauto|]. destruct (sub ft it); [eauto|]. destruct (compare_vars L h init final pns st) as [[[[c1 s] e] m]|] eqn:E; cbn [bind] in H; [|discriminate].
      injection H as <- <- <- <-. eauto.
  Qed.
  Lemma header_spec L st h c st' es ms : tc_header L st h = Ok (c, st', es, ms) ->
    sm st' = sm st /\ frame [h] st st' /\ logged (declared st) ms (declared st') /\ (started h = [] -> c = false) /\ filter is_error ms = [].
  Proof.
    intros H. unfold M_STADriver.tc_header in *. assert (NO : sm st = sm st /\ frame [h] st st /\ logged (declared st) [] (declared st) /\ (started h = [] -> false = false) /\ filter (@is_error T B) [] = []) by (split; [auto|]; split; [intros h' _; auto|]; split; [constructor; auto|]; split; auto).
    destruct (nidx (hd st) h) as [i|] eqn:E; cbn [bind] in *; [|discriminate]. destruct (parret h (hret T i)) eqn:P; cbn [bind] in *; [|discriminate].
    destruct (no_defns h) eqn:N; [injection H as <- <- <- <-; auto|].
    destruct (analyse (view st) h (init_env T for_param h i)) as [[be fin]|] eqn:A; cbn [bind fst snd] in *; [|discriminate]. destruct (early h) eqn:EA.
    { destruct fin as [|]; [discriminate|]. injection H as <- <- <- <-. auto. }
    destruct fin as [final|]; [|discriminate]. destruct (still_tbd T eqb TBD B h (map fst (hpars T i) ++ [0]) final) as [es2|] eqn:ST; cbn [bind] in *; [|discriminate].
    destruct (vars_eqb T eqb (init_env T for_param h i) final) eqn:V; [injection H as <- <- <- <-; auto|].
    destruct (compare_vars L h (init_env T for_param h i) final (isort Nat.leb (map fst (init_env T for_param h i))) st) as [[[[c1 s] e] m]|] eqn:CV; cbn [bind] in H; [|discriminate].
    injection H as <- <- <- <-. eapply compare_spec; eauto.
  Qed.
  Lemma headers_spec L hs : forall st c st' es ms, tc_headers L hs st = Ok (c, st', es, ms) ->
    sm st' = sm st /\ frame hs st st' /\ logged (declared st) ms (declared st') /\ ((forall h, In h hs -> started h = []) -> c = false) /\ filter is_error ms = [].
  Proof.
    induction hs as [|h hs IH]; intros st c st' es ms H; cbn [M_STADriver.tc_headers] in *; [injection H as <- <- <- <-; split; [auto|]; split; [intros h' _; auto|]; split; [constructor; auto|]; split; auto|].
    destruct (tc_header L st h) as [[[[c1 s] e] m]|] eqn:E; cbn [bind] in H; [|discriminate]. destruct (tc_headers L hs s) as [[[[c' s'] e'] m']|] eqn:E'; cbn [bind] in H; [|discriminate].
    injection H as <- <- <- <-. destruct (header_spec _ _ _ _ _ _ _ E) as (S1 & F1 & L1 & Z1 & Y1). destruct (IH _ _ _ _ _ E') as (S2 & F2 & L2 & Z2 & Y2). split; [congruence|]. split; [|split; [|split]].
    - intros h' NI. rewrite F2, F1; auto; intros Q; apply NI; [destruct Q as [->|[]]; now left|now right].
    - eapply logged_app; eauto.
    - intros Z. rewrite Z1, Z2; auto; intros; apply Z; [now right|now left].
    - rewrite filter_app, Y1, Y2. reflexivity.
  Qed.
  Lemma summarize_spec st a st' : summarize_headers st a = Ok st' -> hd st' = hd st /\ forall b, b <> a -> nget (sm st') b = nget (sm st) b.
  Proof.
    unfold M_STADriver.summarize_headers. intros H. destruct (headers a) as [|h [|h2 hs]]; [injection H as <-; auto| |].
    - destruct (nidx (hd st) h); cbn [bind] in H; [|discriminate]. injection H as <-. cbn. split; [auto|]. intros. apply nget_nset_other. congruence.
    - destruct (discriminated a); cbn [assert_ bind] in H; [|discriminate]. destruct (nidx (hd st) h); cbn [bind] in H; [|discriminate]. destruct (infos T st (h :: h2 :: hs)); cbn [bind] in H; [|discriminate].
      match type of H with bind ?x _ = _ => destruct x as [[]|] end; cbn [bind] in H; [|discriminate]. injection H as <-. cbn. split; [auto|]. intros. apply nget_nset_other. congruence.
  Qed.
  Notation frozen := (frozen headers started).
  Lemma alg_spec L st a c st' es ms : tc_alg L st a = Ok (c, st', es, ms) ->
    (forall b, b <> a -> nget (sm st') b = nget (sm st) b) /\ frame (headers a) st st' /\ logged (declared st) ms (declared st') /\ (frozen a -> c = false) /\ filter is_error ms = [].
  Proof.
    unfold M_STADriver.tc_alg. intros H. destruct (builtin a).
    { injection H as <- <- <- <-. split; [auto|]; split; [intros h' _; auto|]; split; [constructor; auto|]; split; auto. }
    destruct (tc_headers L (headers a) st) as [[[[c1 s] e] m]|] eqn:E; cbn [bind] in H; [|discriminate]. destruct (headers_spec _ _ _ _ _ _ _ E) as (S1 & F1 & L1 & Z1 & Y1).
    destruct c1.
    - destruct (summarize_headers s a) as [s2|] eqn:SU; cbn [bind] in H; [|discriminate]. injection H as <- <- <- <-. destruct (summarize_spec _ _ _ SU) as [HD SM]. split; [intros b NE; rewrite SM by auto; congruence|].
      split; [intros h NI; rewrite HD; auto|]. split; [|split; auto; intros Z; apply Z1; auto]. rewrite <- (app_nil_r m). eapply logged_app; [exact L1|]. constructor. intros h pn. unfold declared. now rewrite HD.
    - injection H as <- <- <- <-. split; [intros; congruence|]. auto.
  Qed.
  Definition heads (c : list nat) : list nat := flat_map headers c.
  Lemma pass_spec L c : forall st b st' es ms, one_pass L c st = Ok (b, st', es, ms) ->
    (forall a, ~ In a c -> nget (sm st') a = nget (sm st) a) /\ frame (heads c) st st' /\ logged (declared st) ms (declared st') /\ ((forall a, In a c -> frozen a) -> b = false) /\ filter is_error ms = [].
  Proof.
    induction c as [|a c IH]; intros st b st' es ms H; cbn [M_STADriver.one_pass] in *; [injection H as <- <- <- <-; split; [auto|]; split; [intros h' _; auto|]; split; [constructor; auto|]; split; auto|].
    destruct (tc_alg L st a) as [[[[c1 s] e] m]|] eqn:E; cbn [bind] in H; [|discriminate]. destruct (one_pass L c s) as [[[[c' s'] e'] m']|] eqn:E'; cbn [bind] in H; [|discriminate].
    injection H as <- <- <- <-. destruct (alg_spec _ _ _ _ _ _ _ E) as (S1 & F1 & L1 & Z1 & Y1). destruct (IH _ _ _ _ _ E') as (S2 & F2 & L2 & Z2 & Y2). split; [|split; [|split; [|split]]].
    - intros x NI. rewrite S2, S1; auto; intros Q; apply NI; [left; auto|now right].
    - intros h' NI. unfold heads in NI. cbn [flat_map] in NI. rewrite F2, F1; auto; intros Q; apply NI; apply in_or_app; auto.
    - eapply logged_app; eauto.
    - intros Z. rewrite Z1, Z2; auto; intros; apply Z; [now right|now left].
    - rewrite filter_app, Y1, Y2. reflexivity.
  Qed.
  (* the view of an algorithm whose headers are all settled stays, pass or no pass *)
  Hypothesis own : forall a b h, In h (headers a) -> In h (headers b) -> a = b.
  Lemma view_frame st st' a : nget (sm st') a = nget (sm st) a -> (forall h, In h (headers a) -> nget (hd st') h = nget (hd st) h) -> view st' a = view st a.
  Proof. unfold M_STADriver.view. intros -> H. destruct (nget (sm st) a) as [[ps r]|]; [|auto]. destruct (headers a) as [|h [|]]; auto. rewrite H by (now left). reflexivity. Qed.
  Definition kept (st st' : sta) (a : nat) : Prop := nget (sm st') a = nget (sm st) a /\ forall h, In h (headers a) -> nget (hd st') h = nget (hd st) h.
  Lemma kept_refl st a : kept st st a.
  Proof. split; auto. Qed.
  Lemma kept_trans st1 st2 st3 a : kept st1 st2 a -> kept st2 st3 a -> kept st1 st3 a.
  Proof. intros [A1 A2] [B1 B2]. split; [congruence|]. intros h I. rewrite B2, A2; auto. Qed.
  Lemma alg_kept L st a c st' es ms b : tc_alg L st a = Ok (c, st', es, ms) -> b <> a \/ frozen b -> kept st st' b.
  Proof.
    intros H Q. destruct (Nat.eq_dec b a) as [->|NE].
    - destruct Q as [Q|Q]; [congruence|]. destruct (alg_spec _ _ _ _ _ _ _ H) as (_ & _ & _ & Z & _). rewrite (Z Q) in H. apply alg_false in H as (-> & _). apply kept_refl.
    - destruct (alg_spec _ _ _ _ _ _ _ H) as (S & F & _). split; [auto|]. intros h I. apply F. intros I'. apply NE. eapply own; eauto.
  Qed.
  Lemma pass_kept L c : forall st b st' es ms x, one_pass L c st = Ok (b, st', es, ms) -> ~ In x c \/ frozen x -> kept st st' x.
  Proof.
    induction c as [|a c IH]; intros st b st' es ms x H Q; cbn [M_STADriver.one_pass] in *; [injection H as <- <- <- <-; apply kept_refl|].
    destruct (tc_alg L st a) as [[[[c1 s] e] m]|] eqn:E; cbn [bind] in H; [|discriminate]. destruct (one_pass L c s) as [[[[c' s'] e'] m']|] eqn:E'; cbn [bind] in H; [|discriminate].
    injection H as <- <- <- <-. eapply kept_trans; [eapply alg_kept; [exact E|]|eapply IH; [exact E'|]]; destruct Q as [Q|Q]; auto; left; intros K; apply Q; [subst; now left|now right].
  Qed.
  Lemma passes_spec L c n : forall st st' ms, passes L c n st = Ok (st', ms) ->
    (forall x, ~ In x c \/ frozen x -> kept st st' x) /\ logged (declared st) ms (declared st') /\
    exists es, one_pass L c st' = Ok (false, st', es, []) /\ filter is_error ms = map (M_error T B L) es.
  Proof.
    induction n as [|n IH]; intros st st' ms H; cbn [M_STADriver.passes] in *; [discriminate|]. destruct (one_pass L c st) as [[[[b s] e] m]|] eqn:E; cbn [bind] in H; [|discriminate]. destruct b.
    - destruct (passes L c n s) as [[s2 m2]|] eqn:E2; cbn [bind fst snd] in H; [|discriminate]. injection H as <- <-. destruct (IH _ _ _ E2) as (K & LG & es & P & FE). destruct (pass_spec _ _ _ _ _ _ _ E) as (_ & _ & L1 & _ & Y1).
      split; [intros x Q; eapply kept_trans; [eapply pass_kept; eauto|auto]|]. split; [eapply logged_app; eauto|]. exists es. split; [auto|]. rewrite filter_app, Y1. exact FE.
    - injection H as <- <-. destruct (pass_false _ _ _ _ _ _ E) as (-> & -> & _). split; [intros; apply kept_refl|]. cbn [app]. split.
      + clear. induction e; cbn; constructor; auto.
      + exists e. split; [auto|]. clear. induction e as [|x e IH]; cbn; [auto|]. now f_equal.
  Qed.

  (* all clusters, in order *)
  Fixpoint run (cs : list (nat * list nat)) (st : sta) : res (sta * list msg) :=
    match cs with
    | [] => Ok (st, [])
    | (L, c) :: cs' => do r <- passes L c 5 st ;; do r' <- run cs' (fst r) ;; Ok (fst r', snd r ++ snd r')
    end.
  Lemma run_app a b : forall st, run (a ++ b) st = do r <- run a st ;; do r' <- run b (fst r) ;; Ok (fst r', snd r ++ snd r').
  Proof.
    induction a as [|[L c] a IH]; intros st; cbn [app run].
    - cbn [bind fst snd]. destruct (run b st) as [[s m]|]; reflexivity.
    - destruct (passes L c 5 st) as [[s m]|]; cbn [bind fst snd]; [|auto]. rewrite IH. destruct (run a s) as [[s1 m1]|]; cbn [bind fst snd]; [|auto]. destruct (run b s1) as [[s2 m2]|]; cbn [bind fst snd]; [|auto]. now rewrite app_assoc.
  Qed.
  Lemma clusters_run L cs : forall st, do_clusters L cs st = run (map (pair L) cs) st.
  Proof. induction cs as [|c cs IH]; intros st; cbn [M_STADriver.do_clusters map run]; [auto|]. unfold n_passes. destruct (passes L c 5 st) as [[s m]|]; cbn [bind fst]; [|auto]. now rewrite IH. Qed.
  Lemma levels_run ls : forall L st, do_levels L ls st = run (in_order L ls) st.
  Proof. induction ls as [|cs ls IH]; intros L st; cbn [M_STADriver.do_levels in_order]; [auto|]. rewrite run_app, clusters_run. destruct (run (map (pair L) cs) st) as [[s m]|]; cbn [bind fst snd]; [|auto]. now rewrite IH. Qed.
  Lemma run_kept cs : forall st st' ms x, run cs st = Ok (st', ms) -> ~ In x (concat (map snd cs)) \/ frozen x -> kept st st' x.
  Proof.
    induction cs as [|[L c] cs IH]; intros st st' ms x H Q; cbn [run map snd concat] in *; [injection H as <- <-; apply kept_refl|]. destruct (passes L c 5 st) as [[s m]|] eqn:E; cbn [bind fst snd] in H; [|discriminate].
    destruct (run cs s) as [[s2 m2]|] eqn:E2; cbn [bind fst snd] in H; [|discriminate]. injection H as <- <-. destruct (passes_spec _ _ _ _ _ _ E) as (K & _). eapply kept_trans; [apply K|eapply IH; [exact E2|]]; destruct Q as [Q|Q]; auto; left; intros I; apply Q; apply in_or_app; auto.
  Qed.
  Lemma run_logged cs : forall st st' ms, run cs st = Ok (st', ms) -> logged (declared st) ms (declared st').
  Proof.
    induction cs as [|[L c] cs IH]; intros st st' ms H; cbn [run] in *; [injection H as <- <-; constructor; auto|]. destruct (passes L c 5 st) as [[s m]|] eqn:E; cbn [bind fst snd] in H; [|discriminate].
    destruct (run cs s) as [[s2 m2]|] eqn:E2; cbn [bind fst snd] in H; [|discriminate]. injection H as <- <-. destruct (passes_spec _ _ _ _ _ _ E) as (_ & LG & _). eapply logged_app; eauto.
  Qed.
  Variable dep : nat -> nat -> Prop.
  Hypothesis RO : reads_only headers analyse dep.
  Lemma run_settled cs : forall st st' ms, NoDup (concat (map snd cs)) ->
    (forall l1 L c l2 a b, cs = l1 ++ (L, c) :: l2 -> In a c -> dep a b -> ~ In b (concat (map snd l2)) \/ frozen b) ->
    run cs st = Ok (st', ms) -> run cs st' = Ok (st', filter is_error ms) /\
    (forall L c, In (L, c) cs -> exists es, one_pass L c st' = Ok (false, st', es, [])) /\
    forall L e, In (M_error T B L e) ms <-> exists c es, In (L, c) cs /\ one_pass L c st' = Ok (false, st', es, []) /\ In e es.
  Proof.
    induction cs as [|[L c] cs IH]; intros st st' ms ND DP H; cbn [run] in *; [injection H as <- <-; split; [auto|]; split; [intros L c []|]; intros L e; split; [intros []|intros (c & es & [] & _)]|]. destruct (passes L c 5 st) as [[s m]|] eqn:E; cbn [bind fst snd] in H; [|discriminate].
    destruct (run cs s) as [[s2 m2]|] eqn:E2; cbn [bind fst snd] in H; [|discriminate]. injection H as <- <-. cbn [map snd concat] in ND.
    assert (ND2 : NoDup (concat (map snd cs))). { clear - ND. induction c as [|x c IHc]; [auto|]. inversion ND; auto. }
    assert (DP2 : forall l1 L c l2 a b, cs = l1 ++ (L, c) :: l2 -> In a c -> dep a b -> ~ In b (concat (map snd l2)) \/ frozen b) by (intros l1 L' c' l2 a b -> IA D; apply (DP ((L, c) :: l1) L' c' l2 a b); auto).
    destruct (IH _ _ _ ND2 DP2 E2) as (R1 & R2 & R3).
    destruct (passes_spec _ _ _ _ _ _ E) as (_ & _ & es & P & FE). destruct (pass_false _ _ _ _ _ _ P) as (_ & _ & G).
    assert (P2 : one_pass L c s2 = Ok (false, s2, es, [])).
    { apply G. intros a h IA IH'. split.
      - eapply run_kept in E2; [destruct E2 as [_ E2]; apply E2; exact IH'|]. left. clear - ND IA. intros I. induction c as [|x c IHc]; [destruct IA|]. cbn in ND. inversion ND as [|? ? N1 N2]; subst. destruct IA as [->|IA]; [apply N1; apply in_or_app; auto|auto].
      - intros e. eapply RO; [exact IH'|]. intros b D. destruct (run_kept _ _ _ _ b E2) as [Q1 Q2]; [eapply (DP [] L c cs a b); auto|]. apply view_frame; auto. }
    split; [|split].
    - cbn [M_STADriver.passes]. rewrite P2. cbn [bind fst snd app]. rewrite R1. cbn [bind fst snd]. rewrite filter_app, FE. reflexivity.
    - intros L' c' [Q|I]; [injection Q as <- <-; eauto|eauto].
    - intros L' e. rewrite in_app_iff. assert (Q : forall L e, In (M_error T B L e) m <-> In (M_error T B L e) (filter is_error m)) by (intros; rewrite filter_In; cbn; tauto). rewrite Q, FE, R3, in_map_iff. split.
      + intros [(e' & Q1 & I)|(c' & es' & I & P' & N')]; [injection Q1 as <- <-; exists c, es; split; [now left|auto]|exists c', es'; split; [now right|auto]].
      + intros (c' & es' & [I|I] & P' & N'); [|right; eauto]. injection I as <- <-. left. rewrite P2 in P'. injection P' as <-. eauto.
  Qed.
  (* the errors of a pass that changes nothing *)
  Notation reports := (reports TBD sub headers for_param started no_defns early analyse).
  Lemma tbd_in h ns er vars : forall es, still_tbd T eqb TBD B h ns vars = Ok es -> (In er es <-> exists pn, er = E_tbd T B h pn /\ In (pn, TBD) vars).
  Proof.
    induction vars as [|[pn t] vars IH]; intros es H; cbn [M_STADriver.still_tbd] in H; [injection H as <-; split; [intros []|intros (pn & _ & [])]|]. destruct (eqb t TBD) eqn:E.
    - apply eqb_spec in E. subst t. destruct (nmem pn ns); cbn [bind] in H; [|discriminate]. destruct (still_tbd T eqb TBD B h ns vars) as [r|] eqn:E; cbn [bind] in H; [|discriminate]. injection H as <-. cbn [In]. rewrite (IH _ eq_refl). split.
      + intros [<-|(q & -> & I)]; [exists pn; auto|exists q; auto].
      + intros (q & -> & [Q|I]); [injection Q as ->; auto|right; eauto].
    - rewrite (IH _ H). assert (NE : t <> TBD) by (intros Q; apply eqb_spec in Q; congruence). cbn [In]. split; intros (q & -> & I); exists q; [auto|]. split; [auto|]. destruct I as [Q|I]; [congruence|auto].
  Qed.
  Lemma compare_in L h init final er pns : forall st st' es ms, compare_vars L h init final pns st = Ok (false, st', es, ms) ->
    (In er es <-> In 0 pns /\ ~ In 0 (started h) /\ exists it ft, nget init 0 = Some it /\ nget final 0 = Some ft /\ it <> ft /\ sub ft it = false /\ er = E_suggests T B h 0 (sub it ft) ft).
  Proof.
    induction pns as [|pn pns IH]; intros st st' es ms H; cbn [M_STADriver.compare_vars] in H; [injection H as <- <- <-; split; [intros []|intros [[] _]]|]. unfold nidx in H.
    destruct (nget init pn) as [it|] eqn:E1; cbn [bind] in H; [|discriminate]. destruct (nget final pn) as [ft|] eqn:E2; cbn [bind] in H; [|discriminate].
    assert (SK : forall es', (pn = 0 -> it = ft \/ In 0 (started h) \/ sub ft it = true) -> compare_vars L h init final pns st = Ok (false, st', es', ms) ->
      (In er es' <-> In 0 (pn :: pns) /\ ~ In 0 (started h) /\ exists it ft, nget init 0 = Some it /\ nget final 0 = Some ft /\ it <> ft /\ sub ft it = false /\ er = E_suggests T B h 0 (sub it ft) ft)).
    { intros es' Z G. rewrite (IH _ _ _ _ G). cbn [In]. split; [tauto|]. intros ([Q|Q] & R); [|auto]. subst pn. exfalso. destruct R as (R1 & it' & ft' & R2 & R3 & R4 & R5 & _). assert (it' = it) by congruence. assert (ft' = ft) by congruence. subst. destruct Z as [Z|[Z|Z]]; auto; congruence. }
    destruct (eqb it ft) eqn:EQ; [apply eqb_spec in EQ; apply SK; auto|]. destruct (nmem pn (started h)) eqn:NM.
    - destruct (change L st h pn ft) as [cm|]; cbn [bind] in H; [|discriminate]. destruct (compare_vars L h init final pns (fst cm)) as [[[[c1 s] e1] m]|] eqn:E; cbn [bind] in H; discriminate.
    - destruct (Nat.eqb_spec pn 0) as [->|NZ]; cbn [negb] in H; [|apply SK; auto; congruence]. destruct (sub ft it) eqn:SB; [apply SK; auto|].
      destruct (compare_vars L h init final pns st) as [[[[c1 s] e1] m]|] eqn:E; cbn [bind] in H; [|discriminate]. injection H as -> <- <- <-.
      assert (NI : ~ In 0 (started h)) by (intros I; apply nmem_in in I; congruence). cbn [In]. rewrite (IH _ _ _ _ E). split.
      + intros [<-|(Q & R)]; [|tauto]. split; [auto|]. split; [auto|]. exists it, ft. repeat split; auto. intros Q. apply eqb_spec in Q. congruence.
      + intros (_ & R1 & it' & ft' & R2 & R3 & R4 & R5 & ->). left. assert (it' = it) by congruence. assert (ft' = ft) by congruence. subst. auto.
  Qed.
  Lemma pass_in L c : forall st es er, one_pass L c st = Ok (false, st, es, []) -> (In er es <-> exists a h, In a c /\ In h (headers a) /\ builtin a = false /\ reports st h er).
  Proof.
    assert (HI : forall st h es er, tc_header L st h = Ok (false, st, es, []) -> (In er es <-> reports st h er)).
    { intros st h es er H. unfold L_STADriver.reports. unfold M_STADriver.tc_header, nidx in H. destruct (nget (hd st) h) as [i|] eqn:E; cbn [bind] in H; [|discriminate]. destruct (parret h (hret T i)) eqn:P; cbn [bind] in *; [|discriminate].
      destruct (no_defns h) eqn:N; [injection H as <-; split; [intros []|intros (? & ? & ? & Q & _); discriminate]|].
      destruct (analyse (view st) h (init_env T for_param h i)) as [[be fin]|] eqn:A; cbn [bind fst snd] in *; [|discriminate].
      assert (X : forall (P : Prop), (In er es <-> P) -> (P <-> match er with
          | E_body _ _ h' e => h' = h /\ In e be
          | E_tbd _ _ h' pn => h' = h /\ early h = false /\ exists final, fin = Some final /\ In (pn, TBD) final
          | E_suggests _ _ h' pn w t => h' = h /\ early h = false /\ pn = 0 /\ ~ In 0 (started h) /\ exists final, fin = Some final /\ nget final 0 = Some t /\ t <> hret T i /\ sub t (hret T i) = false /\ w = sub (hret T i) t
          end) -> (In er es <-> exists i' be' fin', false = false /\ Some i = Some i' /\ analyse (view st) h (init_env T for_param h i') = Ok (be', fin') /\ match er with
          | E_body _ _ h' e => h' = h /\ In e be'
          | E_tbd _ _ h' pn => h' = h /\ early h = false /\ exists final, fin' = Some final /\ In (pn, TBD) final
          | E_suggests _ _ h' pn w t => h' = h /\ early h = false /\ pn = 0 /\ ~ In 0 (started h) /\ exists final, fin' = Some final /\ nget final 0 = Some t /\ t <> hret T i' /\ sub t (hret T i') = false /\ w = sub (hret T i') t
          end)).
      { intros P0 H1 H2. rewrite H1, H2. split; [intros Q; exists i, be, fin; auto|]. intros (i' & be' & fin' & _ & Q & A' & R). injection Q as <-. rewrite A in A'. injection A' as <- <-. exact R. }
      assert (I0 : nget (init_env T for_param h i) 0 = Some (hret T i)) by (unfold init_env; apply nget_nset_same).
      destruct (early h) eqn:EA.
      { destruct fin; [discriminate|]. injection H as <-. eapply X; [apply iff_refl|]. rewrite in_map_iff. destruct er as [h' e|h' pn|h' pn w t].
        - split; [intros (x & Q & I); injection Q as <- <-; auto|intros [-> I]; eauto].
        - split; [intros (x & Q & I); discriminate|intros (_ & Q & _); discriminate].
        - split; [intros (x & Q & I); discriminate|intros (_ & Q & _); discriminate]. }
      destruct fin as [final|]; [|discriminate]. destruct (still_tbd T eqb TBD B h (map fst (hpars T i) ++ [0]) final) as [es2|] eqn:ST; cbn [bind] in *; [|discriminate]. pose proof (tbd_in _ _ er _ _ ST) as TI.
      assert (FIN : forall es3, (In er es3 <-> ~ In 0 (started h) /\ exists it ft, nget (init_env T for_param h i) 0 = Some it /\ nget final 0 = Some ft /\ it <> ft /\ sub ft it = false /\ er = E_suggests T B h 0 (sub it ft) ft) ->
        es = map (E_body T B h) be ++ es2 ++ es3 -> In er es <-> exists i' be' fin', false = false /\ Some i = Some i' /\ analyse (view st) h (init_env T for_param h i') = Ok (be', fin') /\ match er with
          | E_body _ _ h' e => h' = h /\ In e be'
          | E_tbd _ _ h' pn => h' = h /\ false = false /\ exists final, fin' = Some final /\ In (pn, TBD) final
          | E_suggests _ _ h' pn w t => h' = h /\ false = false /\ pn = 0 /\ ~ In 0 (started h) /\ exists final, fin' = Some final /\ nget final 0 = Some t /\ t <> hret T i' /\ sub t (hret T i') = false /\ w = sub (hret T i') t
          end).
      { intros es3 E3 EE. eapply X; [apply iff_refl|]. rewrite EE, !in_app_iff, in_map_iff, TI, E3. rewrite I0. destruct er as [h' e|h' pn|h' pn w t].
        - split; [intros [(x & Q & I)|[(? & Q & _)|(_ & ? & ? & _ & _ & _ & _ & Q)]]; try discriminate; injection Q as <- <-; auto|intros [-> I]; left; eauto].
        - split; [intros [(x & Q & I)|[(q & Q & I)|(_ & ? & ? & _ & _ & _ & _ & Q)]]; try discriminate; injection Q as -> ->; eauto 6|]. intros (-> & _ & fin' & Q & I). injection Q as <-. right. left. eauto.
        - split; [intros [(x & Q & I)|[(q & Q & I)|(NS & it & ft & Q1 & Q2 & Q3 & Q4 & Q5)]]; try discriminate; injection Q1 as <-; injection Q5 as -> -> -> ->; repeat split; auto; eauto 8|].
          intros (-> & _ & -> & NS & fin' & Q & Q1 & Q2 & Q3 & ->). injection Q as <-. right. right. split; [auto|]. exists (hret T i), t. repeat split; auto. }
      destruct (vars_eqb T eqb (init_env T for_param h i) final) eqn:V.
      { injection H as <-. apply (FIN []); [|now rewrite app_nil_r]. split; [intros []|]. intros (_ & it & ft & Q1 & Q2 & Q3 & _). unfold vars_eqb in V. apply andb_true_iff in V as [_ V]. rewrite forallb_forall in V. apply nget_in in Q1. specialize (V _ Q1). cbn in V. rewrite Q2 in V. apply eqb_spec in V. congruence. }
      destruct (compare_vars L h (init_env T for_param h i) final (isort Nat.leb (map fst (init_env T for_param h i))) st) as [[[[c1 s] e1] m]|] eqn:EC; cbn [bind] in H; [|discriminate].
      injection H as -> -> <- ->. apply (FIN e1); [|auto]. rewrite (compare_in _ _ _ _ _ _ _ _ _ _ EC). split; [tauto|]. intros Q. split; [|auto]. apply (Permutation_in _ (Permutation_sym (isort_perm Nat.leb _))). apply in_map_iff. exists (0, hret T i). split; [auto|]. now apply nget_in. }
    assert (HS : forall hs st es er, tc_headers L hs st = Ok (false, st, es, []) -> (In er es <-> exists h, In h hs /\ reports st h er)).
    { induction hs as [|h hs IH]; intros st es er H; cbn [M_STADriver.tc_headers] in H; [injection H as <-; split; [intros []|intros (h & [] & _)]|].
      destruct (tc_header L st h) as [[[[c1 s] e1] m]|] eqn:E; cbn [bind] in H; [|discriminate]. destruct (tc_headers L hs s) as [[[[c' s'] e'] m']|] eqn:E'; cbn [bind] in H; [|discriminate].
      injection H as C -> <- M. apply orb_false_iff in C as [-> ->]. apply app_eq_nil in M as [-> ->]. pose proof (header_false _ _ _ _ _ _ E) as (-> & _). rewrite in_app_iff, (HI _ _ _ _ E), (IH _ _ _ E'). cbn [In].
      split; [intros [Q|(h' & I & Q)]; eauto|intros (h' & [->|I] & Q); eauto]. }
    induction c as [|a c IH]; intros st es er H; cbn [M_STADriver.one_pass] in H; [injection H as <-; split; [intros []|intros (a & ? & [] & _)]|].
    destruct (tc_alg L st a) as [[[[c1 s] e1] m]|] eqn:E; cbn [bind] in H; [|discriminate]. destruct (one_pass L c s) as [[[[c' s'] e'] m']|] eqn:E'; cbn [bind] in H; [|discriminate].
    injection H as C -> <- M. apply orb_false_iff in C as [-> ->]. apply app_eq_nil in M as [-> ->]. pose proof (alg_false _ _ _ _ _ _ E) as (-> & _). rewrite in_app_iff, (IH _ _ _ E').
    assert (AI : In er e1 <-> builtin a = false /\ exists h, In h (headers a) /\ reports st h er).
    { unfold M_STADriver.tc_alg in E. destruct (builtin a); [injection E as <-; split; [intros []|intros [Q _]; discriminate]|]. destruct (tc_headers L (headers a) st) as [[[[c2 s] e2] m]|] eqn:E2; cbn [bind] in E; [|discriminate].
      destruct c2; [destruct (summarize_headers s a); cbn [bind] in E; discriminate|]. injection E as -> <- ->. rewrite (HS _ _ _ _ E2). tauto. }
    rewrite AI. cbn [In]. split.
    - intros [(Q1 & h & Q2 & Q3)|(a' & h & I & Q)]; [exists a, h; auto|exists a', h; tauto].
    - intros (a' & h & [->|I] & Q1 & Q2 & Q3); [left; eauto|right; exists a', h; auto].
  Qed.

  (* ---- giving up ---- *)
  Lemma passes_exit L c n : forall st, passes L c n st = Err SystemExit ->
    (exists ss, length ss = S n /\ nth_error ss 0 = Some st /\ forall i s s', nth_error ss i = Some s -> nth_error ss (S i) = Some s' -> exists es ms, one_pass L c s = Ok (true, s', es, ms)) \/
    exists s, one_pass L c s = Err SystemExit.
  Proof.
    induction n as [|n IH]; intros st H; cbn [M_STADriver.passes] in H.
    - left. exists [st]. split; [auto|]. split; [auto|]. intros [|i] s s' _ Q; cbn in Q; [discriminate|destruct i; discriminate].
    - destruct (one_pass L c st) as [[[[b s] e] m]|x] eqn:E; cbn [bind] in H; [|right; exists st; congruence]. destruct b; [|discriminate]. destruct (passes L c n s) as [[s2 m2]|x] eqn:E2; cbn [bind] in H; [discriminate|]. injection H as ->.
      destruct (IH _ E2) as [(ss & LS & N0 & ST)|Q]; [left|right; auto]. exists (st :: ss). split; [cbn; lia|]. split; [auto|]. intros [|i] s1 s1' Q Q'; cbn in Q, Q'.
      + injection Q as <-. assert (s1' = s) as -> by (destruct ss; cbn in *; congruence). eauto.
      + eauto.
  Qed.
  Lemma chain_exit L c n : forall st, (exists ss, length ss = S n /\ nth_error ss 0 = Some st /\ forall i s s', nth_error ss i = Some s -> nth_error ss (S i) = Some s' -> exists es ms, one_pass L c s = Ok (true, s', es, ms)) -> passes L c n st = Err SystemExit.
  Proof.
    induction n as [|n IH]; intros st (ss & LS & N0 & ST); cbn [M_STADriver.passes]; [auto|]. destruct ss as [|s0 [|s1 ss]]; cbn in LS; try lia. cbn in N0. injection N0 as ->.
    destruct (ST 0 st s1 eq_refl eq_refl) as (es & ms & ->). cbn [bind]. rewrite (IH s1); [auto|]. exists (s1 :: ss). split; [cbn; lia|]. split; [auto|]. intros i. apply (ST (S i)).
  Qed.
  Hypothesis parret_stays : forall h t, parret h t <> Err SystemExit.
  Hypothesis analyse_stays : forall v h e, analyse v h e <> Err SystemExit.
  Lemma pass_stays L c : forall st, one_pass L c st <> Err SystemExit.
  Proof.
    assert (NI : forall V (d : list (nat * V)) k, nidx d k <> Err SystemExit) by (intros V d k; unfold nidx; destruct (nget d k); discriminate).
    assert (CH : forall L st h pn new, change L st h pn new <> Err SystemExit).
    { intros L' st h pn new. unfold change_declared_type. destruct (nidx (hd st) h) as [i|x] eqn:E; cbn [bind]; [|intros Q; apply (NI _ (hd st) h); congruence]. destruct (pn =? 0).
      - cbn [bind fst snd]. destruct (eqb (hret T i) new); discriminate.
      - destruct (nidx (hpars T i) pn) as [o|x] eqn:E2; cbn [bind fst snd]; [|intros Q; apply (NI _ (hpars T i) pn); congruence]. destruct (eqb o new); discriminate. }
    assert (CV : forall pns L h init final st, compare_vars L h init final pns st <> Err SystemExit).
    { induction pns as [|pn pns IH]; intros L' h init final st; cbn [M_STADriver.compare_vars]; [discriminate|]. destruct (nidx init pn) as [it|x] eqn:E; cbn [bind]; [|intros Q; apply (NI _ init pn); congruence].
      destruct (nidx final pn) as [ft|x] eqn:E2; cbn [bind]; [|intros Q; apply (NI _ final pn); congruence]. destruct (eqb it ft); [auto|]. destruct (nmem pn (started h)).
      - destruct (change L' st h pn ft) as [cm|x] eqn:E3; cbn [bind]; [|intros Q; eapply CH; rewrite E3; congruence]. destruct (compare_vars L' h init final pns (fst cm)) as [[[[c1 s] e] m]|x] eqn:E4; cbn [bind]; [discriminate|]. intros Q. eapply IH. rewrite E4. congruence.
      - destruct (negb (pn =? 0)); [auto|]. destruct (sub ft it); [auto|]. destruct (compare_vars L' h init final pns st) as [[[[c1 s] e] m]|x] eqn:E4; cbn [bind]; [discriminate|]. intros Q. eapply IH. rewrite E4. congruence. }
    assert (TB : forall vars h ns, still_tbd T eqb TBD B h ns vars <> Err SystemExit).
    { induction vars as [|[pn t] vars IH]; intros h ns; cbn; [discriminate|]. destruct (eqb t TBD); [|auto]. destruct (nmem pn ns); cbn [bind]; [|discriminate]. destruct (still_tbd T eqb TBD B h ns vars) as [r|x] eqn:E; cbn [bind]; [discriminate|]. intros Q. eapply IH. rewrite E. congruence. }
    assert (HE : forall L st h, tc_header L st h <> Err SystemExit).
    { intros L' st h. unfold M_STADriver.tc_header. destruct (nidx (hd st) h) as [i|x] eqn:E; cbn [bind]; [|intros Q; apply (NI _ (hd st) h); congruence]. destruct (parret h (hret T i)) eqn:P; cbn [bind]; [|intros Q; eapply parret_stays; rewrite P; congruence].
      destruct (no_defns h); [discriminate|]. destruct (analyse (view st) h (init_env T for_param h i)) as [[be fin]|] eqn:A; cbn [bind fst snd]; [|intros Q; eapply analyse_stays; rewrite A; congruence]. destruct (early h); [destruct fin; discriminate|]. destruct fin as [final|]; [|discriminate].
      destruct (still_tbd T eqb TBD B h (map fst (hpars T i) ++ [0]) final) as [es2|x] eqn:ST; cbn [bind]; [|intros Q; eapply TB; rewrite ST; congruence]. destruct (vars_eqb T eqb (init_env T for_param h i) final); [discriminate|].
      destruct (compare_vars L' h (init_env T for_param h i) final (isort Nat.leb (map fst (init_env T for_param h i))) st) as [[[[c1 s] e] m]|x] eqn:EC; cbn [bind]; [discriminate|]. intros Q. eapply CV. rewrite EC. congruence. }
    assert (HS : forall hs L st, tc_headers L hs st <> Err SystemExit).
    { induction hs as [|h hs IH]; intros L' st; cbn [M_STADriver.tc_headers]; [discriminate|]. destruct (tc_header L' st h) as [[[[c1 s] e] m]|x] eqn:E; cbn [bind]; [|intros Q; eapply HE; rewrite E; congruence]. destruct (tc_headers L' hs s) as [[[[c' s'] e'] m']|x] eqn:E'; cbn [bind]; [discriminate|]. intros Q. eapply IH. rewrite E'. congruence. }
    assert (SU : forall st a, summarize_headers st a <> Err SystemExit).
    { assert (IN : forall st hs, infos T st hs <> Err SystemExit).
      { intros st. induction hs as [|h hs IH]; cbn; [discriminate|]. destruct (nidx (hd st) h) as [i|x] eqn:E; cbn [bind]; [|intros Q; apply (NI _ (hd st) h); congruence]. destruct (infos T st hs) eqn:E2; cbn [bind]; [discriminate|]. intros Q. apply IH. congruence. }
      intros st a. unfold M_STADriver.summarize_headers. destruct (headers a) as [|h [|h2 hs]]; [discriminate| |].
      - destruct (nidx (hd st) h) as [i|x] eqn:E; cbn [bind]; [discriminate|intros Q; apply (NI _ (hd st) h); congruence].
      - destruct (discriminated a); cbn [assert_ bind]; [|discriminate]. destruct (nidx (hd st) h) as [i|x] eqn:E; cbn [bind]; [|intros Q; apply (NI _ (hd st) h); congruence]. destruct (infos T st (h :: h2 :: hs)) as [is|x] eqn:EI; cbn [bind]; [|intros Q; eapply IN; rewrite EI; congruence].
        match goal with |- context [assert_ ?b] => destruct b end; cbn [assert_ bind]; discriminate. }
    induction c as [|a c IH]; intros st; cbn [M_STADriver.one_pass]; [discriminate|]. destruct (tc_alg L st a) as [[[[c1 s] e1] m]|x] eqn:E; cbn [bind].
    - destruct (one_pass L c s) as [[[[c' s'] e'] m']|x] eqn:E'; cbn [bind]; [discriminate|]. intros Q. eapply IH. rewrite E'. congruence.
    - unfold M_STADriver.tc_alg in E. destruct (builtin a); [discriminate|]. destruct (tc_headers L (headers a) st) as [[[[c2 s] e2] m]|x'] eqn:E2; cbn [bind] in E; [|intros Q; eapply HS; rewrite E2; congruence]. destruct c2; [|discriminate]. destruct (summarize_headers s a) as [s3|x'] eqn:E3; cbn [bind] in E; [discriminate|]. intros Q. eapply SU. rewrite E3. congruence.
  Qed.
  Lemma run_exit_iff cs : forall st, run cs st = Err SystemExit <-> exists l1 L c l2 s ms ss, cs = l1 ++ (L, c) :: l2 /\ run l1 st = Ok (s, ms) /\
    length ss = 6 /\ nth_error ss 0 = Some s /\ forall i s s', nth_error ss i = Some s -> nth_error ss (S i) = Some s' -> exists es ms, one_pass L c s = Ok (true, s', es, ms).
  Proof.
    intros st. split.
    - revert st. induction cs as [|[L c] cs IH]; intros st H; cbn [run] in H; [discriminate|]. destruct (passes L c 5 st) as [[s m]|x] eqn:E; cbn [bind fst] in H.
      + destruct (run cs s) as [[s2 m2]|x] eqn:E2; cbn [bind] in H; [discriminate|]. assert (Q : run cs s = Err SystemExit) by congruence. destruct (IH _ Q) as (l1 & L' & c' & l2 & s' & ms & ss & -> & R & C). exists ((L, c) :: l1), L', c', l2, s', (m ++ ms), ss. split; [auto|]. split; [|auto]. cbn [run]. rewrite E. cbn [bind fst snd]. rewrite R. reflexivity.
      + injection H as ->. destruct (passes_exit _ _ _ _ E) as [(ss & C)|(s & C)]; [|destruct (pass_stays _ _ _ C)]. exists [], L, c, cs, st, [], ss. split; [auto|]. split; [auto|]. auto.
    - intros (l1 & L & c & l2 & s & ms & ss & -> & R & C). rewrite run_app, R. cbn [bind fst run]. rewrite chain_exit; [auto|]. exists ss. exact C.
  Qed.
  Lemma run_exit cs : forall st, run cs st = Err SystemExit -> exists L c s, In (L, c) cs /\ passes L c 5 s = Err SystemExit.
  Proof.
    induction cs as [|[L c] cs IH]; intros st H; cbn [run] in H; [discriminate|]. destruct (passes L c 5 st) as [[s m]|x] eqn:E; cbn [bind fst] in H.
    - destruct (run cs s) as [[s2 m2]|] eqn:E2; cbn [bind] in H; [discriminate|]. assert (Q : run cs s = Err SystemExit) by congruence. destruct (IH _ Q) as (L' & c' & s' & I & P). exists L', c', s'. split; [now right|auto].
    - injection H as ->. exists L, c, st. split; [now left|auto].
  Qed.
  Lemma frozen_run cs : (forall a, In a (concat (map snd cs)) -> frozen a) -> forall st st' ms, run cs st = Ok (st', ms) -> st' = st.
  Proof.
    intros FR. induction cs as [|[L c] cs IH]; intros st st' ms H; cbn [run map snd concat] in *; [congruence|]. cbn [M_STADriver.passes] in H. destruct (one_pass L c st) as [[[[b s] e] m]|] eqn:E; cbn [bind] in H; [|discriminate].
    destruct (pass_spec _ _ _ _ _ _ _ E) as (_ & _ & _ & Z & _). rewrite Z in H, E by (intros; apply FR; apply in_or_app; auto). cbn [bind fst snd] in H. destruct (pass_false _ _ _ _ _ _ E) as (-> & _).
    destruct (run cs st) as [[s2 m2]|] eqn:E2; cbn [bind fst] in H; [|discriminate]. injection H as <- <-. eapply IH; [|exact E2]. intros a I. apply FR. apply in_or_app. auto.
  Qed.

  (* ---- summaries ---- *)
  Lemma type_set_in l t : In t (type_set T eqb l) <-> In t l.
  Proof.
    induction l as [|x l IH]; cbn; [tauto|]. destruct (existsb (eqb x) (type_set T eqb l)) eqn:E.
    - rewrite IH. split; [auto|]. intros [<-|H]; [|auto]. apply existsb_exists in E as (y & I & Q). apply eqb_spec in Q. subst y. now apply IH.
    - cbn. rewrite IH. tauto.
  Qed.
  Lemma type_set_nodup l : NoDup (type_set T eqb l).
  Proof.
    induction l as [|x l IH]; cbn; [constructor|]. destruct (existsb (eqb x) (type_set T eqb l)) eqn:E; [auto|]. constructor; [|auto]. intros I. assert (Q : existsb (eqb x) (type_set T eqb l) = true) by (apply existsb_exists; exists x; split; [auto|now apply eqb_spec]). congruence.
  Qed.
  Lemma name_set_spec l : StronglySorted lt (name_set l) /\ forall n, In n (name_set l) <-> In n l.
  Proof.
    unfold name_set. assert (P := isort_perm Nat.leb (nodup Nat.eq_dec l)). split.
    - assert (ND : NoDup (isort Nat.leb (nodup Nat.eq_dec l))) by (eapply Permutation_NoDup; [symmetry; exact P|apply NoDup_nodup]).
      assert (SS : StronglySorted (fun a b => (a <=? b) = true) (isort Nat.leb (nodup Nat.eq_dec l))).
      { apply isort_sorted; [intros x y; destruct (Nat.leb_spec x y); [now left|right; apply Nat.leb_le; lia]|]. intros x y z A1 A2. apply Nat.leb_le in A1, A2. apply Nat.leb_le. lia. }
      clear P. induction SS as [|x m SS IH F]; [constructor|]. inversion ND as [|? ? N1 N2]; subst. constructor; [auto|]. rewrite Forall_forall in *. intros y I. specialize (F y I). apply Nat.leb_le in F. assert (x <> y) by (intros ->; auto). lia.
    - intros n. rewrite <- (nodup_In Nat.eq_dec l n). split; apply Permutation_in; [exact P|symmetry; exact P].
  Qed.
  Lemma infos_spec st hs : forall is, infos T st hs = Ok is -> Forall2 (fun h i => nget (hd st) h = Some i) hs is.
  Proof.
    induction hs as [|h hs IH]; intros is H; cbn in H; [injection H as <-; constructor|]. unfold nidx in H. destruct (nget (hd st) h) as [i|] eqn:E; cbn [bind] in H; [|discriminate]. destruct (infos T st hs) as [r|]; cbn [bind] in H; [|discriminate]. injection H as <-. constructor; auto.
  Qed.
  Lemma nth_params_in (is : list (hinfo T)) k n t : In (n, t) (nth_params T is k) <-> exists i, In i is /\ nth_error (hpars T i) k = Some (n, t).
  Proof.
    unfold nth_params. rewrite in_flat_map. split; intros (i & I & H); exists i; split; auto.
    - destruct (nth_error (hpars T i) k); [destruct H as [->|[]]; auto|destruct H].
    - rewrite H. now left.
  Qed.
  Lemma summarize_summarized st a st' : summarize_headers st a = Ok st' -> summarized union headers st' a.
  Proof.
    unfold M_STADriver.summarize_headers, summarized. intros H. destruct (headers a) as [|h [|h2 hs]] eqn:HA; [auto| |].
    - destruct (nidx (hd st) h) as [i|] eqn:E; cbn [bind] in H; [|discriminate]. unfold nidx in E. destruct (nget (hd st) h) as [i'|] eqn:E'; [|discriminate]. injection E as ->. injection H as <-. exists i. cbn. split; [auto|]. unfold M_STADriver.view. cbn. rewrite nget_nset_same, HA, E'. reflexivity.
    - destruct (discriminated a); cbn [assert_ bind] in H; [|discriminate]. unfold nidx in H. destruct (nget (hd st) h) as [i0|] eqn:E0; cbn [bind] in H; [|discriminate]. destruct (infos T st (h :: h2 :: hs)) as [is|] eqn:EI; cbn [bind] in H; [|discriminate].
      match type of H with bind ?x _ = _ => destruct x as [[]|] end; cbn [bind] in H; [|discriminate]. injection H as <-. pose proof (infos_spec _ _ _ EI) as F. exists is. unfold M_STADriver.view. cbn [M_STADriver.hd M_STADriver.sm]. rewrite nget_nset_same, HA. eexists _, _. split; [exact F|]. split; [reflexivity|]. split; [|split].
      + eexists. split; [reflexivity|]. split; [apply type_set_nodup|]. intros t. rewrite type_set_in, in_map_iff. split; intros (i & Q1 & Q2); exists i; auto.
      + intros k. rewrite map_length, seq_length. inversion F as [|? ? ? ? Q1 Q2]; subst. rewrite E0 in Q1. injection Q1 as <-. cbn. split; [eauto|]. intros (i & Q & L). injection Q as <-. auto.
      + intros k ns t N. rewrite nth_error_map in N. destruct (nth_error (seq 0 (length (hpars T i0))) k) as [k'|] eqn:NK; [|discriminate]. cbn in N. injection N as <- <-.
        assert (k' = k) as -> by (apply nth_error_nth with (d := 0) in NK as NK'; assert (k < length (hpars T i0)) by (rewrite <- (seq_length (length (hpars T i0)) 0); apply nth_error_Some; congruence); rewrite seq_nth in NK' by auto; lia).
        destruct (name_set_spec (map fst (nth_params T is k))) as [N1 N2]. split; [auto|]. split.
        * intros n. rewrite N2, in_map_iff. split.
          -- intros ((n' & u) & Q & I). cbn in Q. subst n'. apply nth_params_in in I as (i & I). eauto.
          -- intros (i & u & I1 & I2). exists (n, u). split; [auto|]. apply nth_params_in. eauto.
        * eexists. split; [reflexivity|]. split; [apply type_set_nodup|]. intros u. rewrite type_set_in, in_map_iff. split.
          -- intros ((n & u') & Q & I). cbn in Q. subst u'. apply nth_params_in in I as (i & I). eauto.
          -- intros (i & n & I1 & I2). exists (n, u). split; [auto|]. apply nth_params_in. eauto.
  Qed.
  Lemma summarized_kept st st' a : kept st st' a -> summarized union headers st a -> summarized union headers st' a.
  Proof.
    intros [K1 K2] S. unfold summarized in *. assert (V := view_frame _ _ _ K1 K2). destruct (headers a) as [|h [|h2 hs]] eqn:HA; [auto| |].
    - destruct S as (i & E & VI). exists i. rewrite K2, V by (now left). auto.
    - destruct S as (is & ps & r & F & VI & R). exists is, ps, r. split; [|split; [congruence|auto]]. clear - F K2. induction F as [|x y l l' Q F IH]; constructor; [rewrite K2; auto; now left|apply IH; intros; apply K2; now right].
  Qed.
  Lemma alg_summarized L st a c st' es ms b : tc_alg L st a = Ok (c, st', es, ms) -> summarized union headers st b -> summarized union headers st' b.
  Proof.
    intros H S. destruct (Nat.eq_dec b a) as [->|NE]; [|eapply summarized_kept; [eapply alg_kept; eauto|auto]]. destruct c; [|apply alg_false in H as (-> & _); auto].
    unfold M_STADriver.tc_alg in H. destruct (builtin a); [discriminate|]. destruct (tc_headers L (headers a) st) as [[[[c1 s] e] m]|] eqn:E; cbn [bind] in H; [|discriminate]. destruct c1; [|discriminate].
    destruct (summarize_headers s a) as [s2|] eqn:SU; cbn [bind] in H; [|discriminate]. injection H as <- <- <-. eapply summarize_summarized; eauto.
  Qed.
  Lemma pass_summarized L c : forall st b st' es ms x, one_pass L c st = Ok (b, st', es, ms) -> summarized union headers st x -> summarized union headers st' x.
  Proof.
    induction c as [|a c IH]; intros st b st' es ms x H S; cbn [M_STADriver.one_pass] in *; [injection H as <- <- <- <-; auto|].
    destruct (tc_alg L st a) as [[[[c1 s] e] m]|] eqn:E; cbn [bind] in H; [|discriminate]. destruct (one_pass L c s) as [[[[c' s'] e'] m']|] eqn:E'; cbn [bind] in H; [|discriminate].
    injection H as <- <- <- <-. eapply IH; [exact E'|]. eapply alg_summarized; eauto.
  Qed.
  Lemma passes_summarized L c n : forall st st' ms x, passes L c n st = Ok (st', ms) -> summarized union headers st x -> summarized union headers st' x.
  Proof.
    induction n as [|n IH]; intros st st' ms x H S; cbn [M_STADriver.passes] in *; [discriminate|]. destruct (one_pass L c st) as [[[[b s] e] m]|] eqn:E; cbn [bind] in H; [|discriminate]. pose proof (pass_summarized _ _ _ _ _ _ _ x E S). destruct b.
    - destruct (passes L c n s) as [[s2 m2]|] eqn:E2; cbn [bind fst] in H; [|discriminate]. injection H as <- <-. eauto.
    - injection H as <- <-. auto.
  Qed.
  Lemma run_summarized cs : forall st st' ms x, run cs st = Ok (st', ms) -> summarized union headers st x -> summarized union headers st' x.
  Proof.
    induction cs as [|[L c] cs IH]; intros st st' ms x H S; cbn [run] in *; [injection H as <- <-; auto|]. destruct (passes L c 5 st) as [[s m]|] eqn:E; cbn [bind fst snd] in H; [|discriminate].
    destruct (run cs s) as [[s2 m2]|] eqn:E2; cbn [bind fst snd] in H; [|discriminate]. injection H as <- <-. eapply IH; [exact E2|]. eapply passes_summarized; eauto.
  Qed.
  Lemma all_summarized algs : forall st st', summarize_all T eqb union headers discriminated required algs st = Ok st' -> forall a, In a algs \/ summarized union headers st a -> summarized union headers st' a.
  Proof.
    induction algs as [|b algs IH]; intros st st' H a Q; cbn [summarize_all] in H; [injection H as <-; destruct Q as [[]|]; auto|].
    destruct (summarize_headers st b) as [s|] eqn:E; cbn [bind] in H; [|discriminate]. eapply IH; [exact H|]. destruct (Nat.eq_dec a b) as [->|NE].
    - right. eapply summarize_summarized; eauto.
    - destruct Q as [[Q|Q]|Q]; [congruence|auto|]. right. eapply summarized_kept; [|exact Q]. destruct (summarize_spec _ _ _ E) as [HD SM]. split; [auto|]. intros. now rewrite HD.
  Qed.
End Proofs.

(* ---- the order of the clusters ---- *)
Lemma in_order_concat ls : forall L, concat (map snd (in_order L ls)) = concat (concat ls).
Proof.
  induction ls as [|cs ls IH]; intros L; cbn [in_order]; [auto|]. rewrite map_app, concat_app, IH. cbn [concat]. rewrite concat_app. f_equal. rewrite map_map. cbn. now rewrite map_id.
Qed.
Lemma in_order_le ls : forall L n c, In (n, c) (in_order L ls) -> L <= n /\ In c (nth (n - L) ls []).
Proof.
  induction ls as [|cs ls IH]; intros L n c H; cbn [in_order] in H; [destruct H|]. apply in_app_iff in H as [H|H].
  - apply in_map_iff in H as (c' & Q & I). injection Q as <- <-. rewrite Nat.sub_diag. auto.
  - apply IH in H as [H1 H2]. split; [lia|]. replace (n - L) with (S (n - S L)) by lia. auto.
Qed.
Lemma in_order_split ls : forall L l1 n c l2 n' c', in_order L ls = l1 ++ (n, c) :: l2 -> In (n', c') l2 -> n <= n'.
Proof.
  induction ls as [|cs ls IH]; intros L l1 n c l2 n' c' E I; cbn [in_order] in E; [destruct l1; discriminate|].
  revert l1 E. induction cs as [|x cs IHc]; intros l1 E; cbn [map app] in E; [eauto|]. destruct l1 as [|y l1]; [|injection E as <- E; eauto].
  injection E as <- <- <-. apply in_app_iff in I as [I|I]; [apply in_map_iff in I as (? & Q & _); injection Q as <- <-; auto|]. apply in_order_le in I as [I _]. lia.
Qed.
Lemma members_in cls lv n c : In c (nth n (members_by_level cls lv) []) -> exists i, In i (nth n lv []) /\ c = match nth_error cls i with Some cl => members cl | None => [] end.
Proof.
  unfold members_by_level. intros H. destruct (Nat.lt_ge_cases n (length lv)) as [L|L].
  - rewrite nth_indep with (d' := map (fun i => match nth_error cls i with Some cl => members cl | None => [] end) []) in H by (now rewrite map_length). rewrite map_nth in H. apply in_map_iff in H as (i & <- & I). eauto.
  - rewrite nth_overflow in H by (rewrite map_length; lia). destruct H.
Qed.
Lemma all_members cls lv : levels_ok cls lv -> Permutation (concat (concat (members_by_level cls lv))) (concat (map members cls)).
Proof.
  intros (_ & _ & _ & P & _). set (mem := fun i => match nth_error cls i with Some cl => members cl | None => [] end).
  assert (Q : concat (members_by_level cls lv) = map mem (concat lv)) by (unfold members_by_level; fold mem; symmetry; apply concat_map). rewrite Q.
  assert (M : map members cls = map mem (seq 0 (length cls))).
  { unfold mem. clear. induction cls as [|cl cls IH] using rev_ind; [auto|]. rewrite map_app, app_length. cbn [length map]. rewrite Nat.add_1_r, seq_S, map_app. cbn [map plus]. f_equal.
    - rewrite IH. apply map_ext_in. intros i I. apply in_seq in I. rewrite nth_error_app1 by lia. auto.
    - rewrite nth_error_app2, Nat.sub_diag by lia. auto. }
  rewrite M. clear - P. induction P; cbn; [auto|now apply Permutation_app_head|rewrite !app_assoc; apply Permutation_app_tail, Permutation_app_comm|etransitivity; eauto].
Qed.
Lemma nodup_app_r {A} (l m : list A) : NoDup (l ++ m) -> NoDup m.
Proof. induction l; cbn; [auto|]. inversion 1; auto. Qed.
Lemma nodup_app_disj {A} (l m : list A) x : NoDup (l ++ m) -> In x l -> In x m -> False.
Proof. induction l as [|y l IH]; cbn; intros ND I J; [auto|]. inversion ND as [|? ? N1 N2]; subst. destruct I as [->|I]; [apply N1, in_or_app; auto|auto]. Qed.
Lemma order_of_levels h cls lv : compute_dependency_levels (build h) [] = Ok (cls, lv) ->
  NoDup (concat (map snd (in_order 0 (members_by_level cls lv)))) /\ (forall a, In a (concat (map snd (in_order 0 (members_by_level cls lv)))) <-> hist_vertex h a) /\
  forall l1 L c l2 a b, in_order 0 (members_by_level cls lv) = l1 ++ (L, c) :: l2 -> In a c -> hist_arc h a b -> ~ In b (concat (map snd l2)).
Proof.
  intros H. pose proof (graph_components _ _ _ H) as (ND & V & _). pose proof (graph_levels _ _ _ H) as LO. pose proof (graph_flags _ _ _ H) as FL. pose proof (all_members _ _ LO) as P. rewrite in_order_concat.
  assert (ND' : NoDup (concat (concat (members_by_level cls lv)))) by (eapply Permutation_NoDup; [symmetry; exact P|exact ND]). split; [auto|]. split.
  { intros a. rewrite <- V. split; apply Permutation_in; [exact P|symmetry; exact P]. }
  intros l1 L c l2 a b E IA AR IB. apply in_concat in IB as (c' & I' & IB). apply in_map_iff in I' as ((L' & c'') & Q & I'). cbn in Q. subst c''.
  pose proof (in_order_split _ _ _ _ _ _ _ _ E I') as LE.
  assert (IC : In (L, c) (in_order 0 (members_by_level cls lv))) by (rewrite E; apply in_or_app; right; now left). assert (IC' : In (L', c') (in_order 0 (members_by_level cls lv))) by (rewrite E; apply in_or_app; right; now right).
  apply in_order_le in IC as [_ IC]. apply in_order_le in IC' as [_ IC']. rewrite Nat.sub_0_r in IC, IC'. apply members_in in IC as (i & Ii & Ec). apply members_in in IC' as (j & Ij & Ec').
  destruct LO as (LV & LN & _). apply LN in Ii. apply LN in Ij. unfold level_of in Ii, Ij. destruct (nth_error cls i) as [cl|] eqn:Ni; [|discriminate]. destruct (nth_error cls j) as [cl'|] eqn:Nj; [|discriminate].
  destruct (Nat.eq_dec j i) as [->|NE].
  - assert (cl' = cl) by congruence. subst cl'. subst c c'. rewrite <- (in_order_concat _ 0), E, map_app, concat_app in ND'. cbn [map snd concat] in ND'. apply nodup_app_r in ND'. apply (nodup_app_disj _ _ a ND' IA). apply in_concat. exists (members cl). split; [|auto]. apply in_map_iff. exists (L', members cl). auto.
  - destruct (FL _ _ Ni) as (_ & _ & DP). assert (J : In j (direct_prereqs cl)) by (apply DP; split; [auto|]; exists a, b, cl'; subst; auto).
    destruct (LV _ _ Ni) as (n & Ln & [[Z _]|(m & -> & _ & M)]); [rewrite Z in J; destruct J|]. destruct (M _ J) as (q & Lq & LQ). unfold level_of in Lq. rewrite Nj in Lq. assert (q = L') by congruence. assert (L = S m) by congruence. lia.
Qed.
