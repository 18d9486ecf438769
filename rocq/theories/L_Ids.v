(* Specification of the check of ids, and lemmas about its model. *)
From Coq Require Import Ascii String Sorted Permutation.
From Verif Require Import M_Base L_Base M_HTML M_Records L_Records M_Ids.
Open Scope list_scope.
Notation length := List.length.

(* ---------- specification ---------- *)

(* the elements of the document, in document order *)
Fixpoint elements (n : node) : list node :=
  match n with Node _ _ _ _ c => n :: flat_map elements c end.

Definition begins (p s : text) : Prop := exists r, s = p ++ r.
Definition attr (n : node) (k : text) (v : text) : Prop := tget (attrs n) k = Some v.

(* what a search for  id="..."  finds in a text, from left to right; the flag says whether a letter precedes *)
Inductive found_in (uniword : N -> bool) : bool -> text -> list text -> Prop :=
| FEnd : forall w, found_in uniword w [] []
| FHit : forall x r l, x <> [] -> ~ In 34%N x -> found_in uniword false r l ->
    found_in uniword false (tx "id=""" ++ x ++ 34%N :: r) (x :: l)
| FSkip : forall w c s l, ~ (w = false /\ exists x r, x <> [] /\ ~ In 34%N x /\ c :: s = tx "id=""" ++ x ++ 34%N :: r) ->
    found_in uniword (word_char uniword c) s l -> found_in uniword w (c :: s) l.

Definition own_ids (n : node) : list text := match tget (attrs n) (tx "id") with Some x => [x] | None => [] end.
Definition step_ids (uniword : N -> bool) (n : node) : list text :=
  if text_eqb (ename n) (tx "emu-alg") then find_ids uniword false 0 (inner n) else [].
(* the occurrences of ids, in document order, each with its element *)
Definition occurrences (uniword : N -> bool) (ns : list node) : list (node * text) :=
  flat_map (fun n => map (pair n) (own_ids n ++ step_ids uniword n)) ns.
Definition ids_of (uniword : N -> bool) (doc : node) : list text := map snd (occurrences uniword (elements doc)).
Definition old_ids (ns : list node) : list text :=
  flat_map (fun n => match tget (attrs n) (tx "oldids") with Some v => split_comma v | None => [] end) ns.

Inductive wants : text -> text -> Prop :=
| WIntro : wants (tx "emu-intro") (tx "sec-") | WClause : wants (tx "emu-clause") (tx "sec-") | WAnnex : wants (tx "emu-annex") (tx "sec-")
| WEqn : wants (tx "emu-eqn") (tx "eqn-") | WFigure : wants (tx "emu-figure") (tx "figure-") | WTable : wants (tx "emu-table") (tx "table-").

(* ---------- lemmas ---------- *)

Lemma node_ind' : forall P : node -> Prop, (forall k e a i c, Forall P c -> P (Node k e a i c)) -> forall n, P n.
Proof.
  intros P H. fix IH 1. intros [k e a i c]. apply H. induction c as [|n c IHc]; constructor; [apply IH|exact IHc].
Qed.

Lemma starts_iff : forall p s, starts p s = true <-> begins p s.
Proof.
  induction p as [|c p IH]; intros s; cbn [starts]. { split; [exists s; reflexivity|reflexivity]. }
  destruct s as [|d s]. { split; [discriminate|intros (r & E); discriminate]. }
  rewrite andb_true_iff, N.eqb_eq, IH. split.
  - intros [-> (r & ->)]. exists r. reflexivity.
  - intros (r & E). injection E as -> ->. split; [reflexivity|exists r; reflexivity].
Qed.
Lemma starts_false : forall p s, starts p s = false <-> ~ begins p s.
Proof. intros p s. rewrite <- starts_iff. destruct (starts p s); intuition congruence. Qed.

Lemma tin_iff : forall l s, tin l s = true <-> In s l.
Proof.
  intros l s. unfold tin. rewrite existsb_exists. split.
  - intros (x & H & E). apply text_eqb_eq in E. subst. exact H.
  - intros H. exists s. split; [exact H|apply teqb_refl].
Qed.
Lemma tin_false : forall l s, tin l s = false <-> ~ In s l.
Proof. intros l s. rewrite <- tin_iff. destruct (tin l s); intuition congruence. Qed.

Lemma teqb_false : forall a b, text_eqb a b = false <-> a <> b.
Proof. intros a b. rewrite <- (text_eqb_eq a b). destruct (text_eqb a b); intuition congruence. Qed.

Lemma prefix_for_iff : forall n p, prefix_for n = Some p <-> wants n p.
Proof.
  intros n p. unfold prefix_for. split.
  - intros H. cbn [tget] in H.
    repeat match type of H with (if text_eqb ?a n then _ else _) = _ =>
      destruct (text_eqb a n) eqn:E; [apply text_eqb_eq in E; subst n; match type of H with Some ?q = Some p => assert (p = q) by congruence; subst p; constructor end|clear E] end.
    discriminate.
  - intros H. destruct H; reflexivity.
Qed.
Lemma prefix_for_none : forall n, prefix_for n = None <-> ~ exists p, wants n p.
Proof.
  intros n. destruct (prefix_for n) as [p|] eqn:E.
  - split; [discriminate|]. intros H. exfalso. apply H. exists p. now apply prefix_for_iff.
  - split; [|reflexivity]. intros _ (p & H). apply prefix_for_iff in H. congruence.
Qed.

(* --- outputs --- *)
Lemma obind_assoc : forall A B C (o : out A) (f : A -> out B) (g : B -> out C), obind (obind o f) g = obind o (fun a => obind (f a) g).
Proof.
  intros A B C [m r] f g. unfold obind. destruct r as [a|e]; cbn [fst snd]; [|reflexivity].
  destruct (f a) as [m2 [b|e2]]; cbn [fst snd]; [|reflexivity]. now rewrite app_assoc.
Qed.
Lemma obind_ext : forall A B (o : out A) (f g : A -> out B), (forall a, f a = g a) -> obind o f = obind o g.
Proof. intros A B [m [a|e]] f g H; unfold obind; cbn [fst snd]; [now rewrite H|reflexivity]. Qed.
Lemma obind_ret : forall A (o : out A), obind o oret = o.
Proof. intros A [m [a|e]]; unfold obind, oret; cbn [fst snd]; [now rewrite app_nil_r|reflexivity]. Qed.
Lemma obind_ok : forall A B (o : out A) (k : A -> out B) b, snd (obind o k) = Ok b <-> exists a, snd o = Ok a /\ snd (k a) = Ok b.
Proof.
  intros A B [m [a|e]] k b; unfold obind; cbn [fst snd].
  - split; [intros H; exists a; auto|]. intros (a' & E & H). congruence.
  - split; [discriminate|]. intros (a' & E & H). congruence.
Qed.
Lemma obind_msgs : forall A B (o : out A) (k : A -> out B) a, snd o = Ok a -> fst (obind o k) = fst o ++ fst (k a).
Proof. intros A B [m r] k a H. cbn in H. subst r. reflexivity. Qed.
Lemma ofold_app : forall A B (f : A -> B -> out A) l1 l2 a, ofold f a (l1 ++ l2) = obind (ofold f a l1) (fun a' => ofold f a' l2).
Proof.
  intros A B f l1 l2. induction l1 as [|x l1 IH]; intros a; cbn [ofold app].
  - unfold obind, oret. cbn [fst snd app]. destruct (ofold f a l2); reflexivity.
  - rewrite obind_assoc. apply obind_ext. exact IH.
Qed.
Lemma ofold_split : forall A B (f : A -> B -> out A) l1 x l2 a b, snd (ofold f a (l1 ++ x :: l2)) = Ok b ->
  exists a1 a2, snd (ofold f a l1) = Ok a1 /\ snd (f a1 x) = Ok a2 /\ snd (ofold f a2 l2) = Ok b.
Proof.
  intros A B f l1 x l2 a b H. rewrite ofold_app in H. apply obind_ok in H as (a1 & H1 & H). cbn [ofold] in H.
  apply obind_ok in H as (a2 & H2 & H). exists a1, a2. auto.
Qed.
Lemma ofold_in : forall A B (f : A -> B -> out A) l a b, snd (ofold f a l) = Ok b -> forall m,
  In m (fst (ofold f a l)) <-> exists l1 x l2 a1, l = l1 ++ x :: l2 /\ snd (ofold f a l1) = Ok a1 /\ In m (fst (f a1 x)).
Proof.
  intros A B f l. induction l as [|x l IH]; intros a b H m; cbn [ofold] in *.
  - cbn. split; [contradiction|]. intros (l1 & y & l2 & a1 & E & _). destruct l1; discriminate.
  - apply obind_ok in H as (a1 & H1 & H). rewrite (obind_msgs _ _ _ _ a1 H1), in_app_iff, (IH a1 b H m). split.
    + intros [Hm|(l1 & y & l2 & a2 & -> & H2 & Hm)].
      * exists [], x, l, a. split; [reflexivity|]. split; [reflexivity|exact Hm].
      * exists (x :: l1), y, l2, a2. split; [reflexivity|]. split; [|exact Hm]. cbn [ofold]. apply obind_ok. exists a1. auto.
    + intros (l1 & y & l2 & a2 & E & H2 & Hm). destruct l1 as [|z l1]; cbn [app] in E; injection E as E1 E2; subst.
      * cbn in H2. injection H2 as ->. left. exact Hm.
      * right. exists l1, y, l2, a2. split; [reflexivity|]. cbn [ofold] in H2. apply obind_ok in H2 as (a3 & H3 & H2).
        rewrite H1 in H3. injection H3 as <-. auto.
Qed.

Lemma walk_flat : forall (S : Type) (one : S -> node -> out S) (walk : S -> node -> out S),
  (forall st n, walk st n = obind (one st n) (fun st => ofold walk st (kids n))) -> forall n st, walk st n = ofold one st (elements n).
Proof.
  intros S one walk H. induction n as [k e a i c IH] using node_ind'. intros st. rewrite H. cbn [elements ofold kids].
  apply obind_ext. clear H st. intros st. revert st. induction IH as [|n c Hn Hc IHc]; intros st; cbn [flat_map ofold]; [reflexivity|].
  rewrite ofold_app, Hn. apply obind_ext. exact IHc.
Qed.
Lemma loop_fold : forall (S : Type) (f : S -> node -> out S) l st,
  (fix loop (st : S) (l : list node) : out S :=
     match l with [] => oret st | c :: l' => obind (f st c) (fun st' => loop st' l') end) st l = ofold f st l.
Proof. intros S f. induction l as [|c l IH]; intros st; [reflexivity|]. cbn [ofold]. apply obind_ext. intros; apply IH. Qed.

Section Ids.
Variable uniword : N -> bool.
Variable lower : text -> text.

Lemma gather_flat : forall n st, gather uniword lower st n = ofold (gather_one uniword lower) st (elements n).
Proof.
  apply walk_flat. intros st [k e a i c]. cbn [gather]. apply obind_ext. intros st'. cbn [kids]. apply loop_fold.
Qed.
Lemma refs_flat : forall d n st, check_refs d st n = ofold (ref_one d) st (elements n).
Proof.
  intros d. apply walk_flat. intros st [k e a i c]. cbn [check_refs]. apply obind_ext. intros st'. cbn [kids]. apply loop_fold.
Qed.

(* --- the search --- *)
Lemma to_quote_iff : forall s x r, to_quote s = Some (x, r) <-> s = x ++ 34%N :: r /\ ~ In 34%N x.
Proof. clear uniword lower.
  induction s as [|c s IH]; intros x r; cbn [to_quote].
  - split; [discriminate|]. intros [E _]. destruct x; discriminate.
  - destruct (c =? 34)%N eqn:Ec.
    + apply N.eqb_eq in Ec. subst c. split.
      * intros E. injection E as <- <-. split; [reflexivity|intros []].
      * intros [E H]. destruct x as [|d x]; cbn [app] in E; [injection E as E2; now subst|]. injection E as E1 E2. subst d. exfalso. apply H. now left.
    + apply N.eqb_neq in Ec. destruct (to_quote s) as [[y q]|] eqn:Eq.
      * split.
        -- intros E. injection E as <- <-. destruct (proj1 (IH y q) eq_refl) as [-> H]. split; [reflexivity|]. intros [E|E]; [congruence|auto].
        -- intros [E H]. destruct x as [|d x]; cbn [app] in E; injection E as E1 E2; [congruence|]. subst d.
           assert (Some (y, q) = Some (x, r)) as E by (apply IH; split; [exact E2|intros Hx; apply H; now right]). now injection E as -> ->.
      * split; [discriminate|]. intros [E H]. destruct x as [|d x]; cbn [app] in E; injection E as E1 E2; [congruence|].
        assert (None = Some (x, r)) as E by (apply IH; split; [exact E2|intros Hx; apply H; now right]). discriminate.
Qed.
Lemma id_at_iff : forall w s x r, id_at w s = Some (x, r) <-> w = false /\ x <> [] /\ ~ In 34%N x /\ s = tx "id=""" ++ x ++ 34%N :: r.
Proof. clear uniword lower.
  intros w s x r. unfold id_at. destruct w; cbn [negb andb]. { split; [discriminate|intros [H _]; discriminate]. }
  destruct (starts (tx "id=""") s) eqn:Es.
  - apply starts_iff in Es as (q & ->). replace (skipn 4 (tx "id=""" ++ q)) with q by reflexivity.
    destruct (to_quote q) as [[[|y ys] p]|] eqn:Eq.
    + split; [discriminate|]. intros (_ & H1 & H2 & E). apply app_inv_head in E.
      assert (to_quote q = Some (x, r)) by (apply to_quote_iff; auto). congruence.
    + apply to_quote_iff in Eq as [-> Hq]. split.
      * intros E. injection E as <- <-. repeat split; auto. discriminate.
      * intros (_ & H1 & H2 & E). apply app_inv_head in E.
        assert (to_quote ((y :: ys) ++ 34%N :: p) = Some (x, r)) as E1 by (apply to_quote_iff; auto).
        assert (to_quote ((y :: ys) ++ 34%N :: p) = Some (y :: ys, p)) as E2 by (apply to_quote_iff; auto). congruence.
    + split; [discriminate|]. intros (_ & H1 & H2 & E). apply app_inv_head in E.
      assert (to_quote q = Some (x, r)) by (apply to_quote_iff; auto). congruence.
  - split; [discriminate|]. intros (_ & _ & _ & ->). apply starts_false in Es. exfalso. apply Es. eexists. reflexivity.
Qed.
Lemma find_skip : forall u s w, u <> [] -> find_ids uniword w (length u) (u ++ s) = find_ids uniword (word_char uniword (last u 0%N)) 0 s.
Proof.
  induction u as [|c u IH]; intros s w H; [congruence|]. cbn [length app find_ids].
  destruct u as [|d u]; [reflexivity|]. rewrite (IH s _) by discriminate. reflexivity.
Qed.
Lemma find_hit : forall x r, x <> [] -> ~ In 34%N x -> find_ids uniword false 0 (tx "id=""" ++ x ++ 34%N :: r) = x :: find_ids uniword false 0 r.
Proof.
  intros x r Hx Hq.
  assert (E : id_at false (tx "id=""" ++ x ++ 34%N :: r) = Some (x, r)) by (apply id_at_iff; auto).
  change (tx "id=""") with (105%N :: [100; 61; 34]%N) in *. set (u := [100; 61; 34]%N ++ x).
  assert (Hs : (105%N :: [100; 61; 34]%N) ++ x ++ 34%N :: r = 105%N :: u ++ 34%N :: r) by (unfold u; rewrite <- app_assoc; reflexivity).
  rewrite Hs in *. cbn [find_ids]. rewrite E. f_equal.
  replace (length (u ++ 34%N :: r) - length r) with (length (u ++ [34%N])) by (rewrite !app_length; cbn [length]; lia).
  replace (u ++ 34%N :: r) with ((u ++ [34%N]) ++ r) by (rewrite <- app_assoc; reflexivity).
  rewrite find_skip by (destruct u; discriminate). rewrite last_last. reflexivity.
Qed.
Lemma find_spec : forall n s w, length s <= n -> found_in uniword w s (find_ids uniword w 0 s).
Proof.
  induction n as [|n IH]; intros s w Hn. { destruct s; [constructor|cbn in Hn; lia]. }
  destruct s as [|c s]; [constructor|]. destruct (id_at w (c :: s)) as [[x r]|] eqn:E.
  - apply id_at_iff in E as (-> & Hx & Hq & E). rewrite E, (find_hit x r Hx Hq). constructor; [exact Hx|exact Hq|]. apply IH.
    rewrite E in Hn. rewrite !app_length in Hn. cbn [length] in Hn. lia.
  - cbn [find_ids]. rewrite E. apply FSkip; [|apply IH; cbn in Hn; lia]. intros (-> & x & r & Hx & Hq & Es).
    assert (id_at false (c :: s) = Some (x, r)) by (apply id_at_iff; auto). congruence.
Qed.
Lemma found_find : forall w s l, found_in uniword w s l -> l = find_ids uniword w 0 s.
Proof.
  induction 1 as [w|x r l Hx Hq H IH|w c s l Hn H IH].
  - reflexivity.
  - rewrite (find_hit x r Hx Hq). congruence.
  - cbn [find_ids]. destruct (id_at w (c :: s)) as [[x r]|] eqn:E; [|exact IH].
    apply id_at_iff in E as (-> & Hx & Hq & E). exfalso. apply Hn. split; [reflexivity|]. exists x, r. auto.
Qed.

(* --- gathering --- *)
Definition record_all (d : list (text * node)) (occ : list (node * text)) : list (text * node) :=
  fold_left (fun d e => tset d (snd e) (fst e)) occ d.
(* the reports of repeated ids *)
Fixpoint repeats (seen : text -> Prop) (l : list (node * text)) (ms : list msg) : Prop :=
  match l with
  | [] => ms = []
  | (n, x) :: l' => exists m1 m2, ms = m1 ++ m2 /\ ((seen x /\ m1 = [(num n, Duplicate x)]) \/ (~ seen x /\ m1 = [])) /\ repeats (fun y => y = x \/ seen y) l' m2
  end.
Definition is_dup (m : msg) : bool := match snd m with Duplicate _ => true | _ => false end.
Definition good (n : node) : Prop :=
  (forall i a, attr n (tx "id") i -> attr n (tx "aoid") a -> ename n = tx "emu-clause" \/ ename n = tx "emu-eqn") /\
  Forall (begins (tx "step-")) (step_ids uniword n).

Lemma repeats_ext : forall l (p q : text -> Prop) ms, (forall x, p x <-> q x) -> repeats p l ms -> repeats q l ms.
Proof. clear uniword lower.
  induction l as [|[n x] l IH]; intros p q ms H R; [exact R|]. cbn [repeats] in *. destruct R as (m1 & m2 & -> & C & R).
  exists m1, m2. split; [reflexivity|]. split; [rewrite <- (H x); exact C|]. apply (IH _ _ _ ) with (2 := R). intros y. now rewrite H.
Qed.
Lemma repeats_app : forall l1 l2 (p : text -> Prop) m1 m2, repeats p l1 m1 -> repeats (fun y => In y (map snd l1) \/ p y) l2 m2 -> repeats p (l1 ++ l2) (m1 ++ m2).
Proof. clear uniword lower.
  induction l1 as [|[n x] l1 IH]; intros l2 p m1 m2 R1 R2.
  - cbn in R1. subst m1. cbn [app]. apply (repeats_ext l2 _ _ m2) with (2 := R2). cbn. tauto.
  - cbn [repeats] in R1. destruct R1 as (a & b & -> & C & R1). cbn [app repeats]. exists a, (b ++ m2). split; [now rewrite app_assoc|].
    split; [exact C|]. apply IH; [exact R1|]. apply (repeats_ext l2 _ _ m2) with (2 := R2). intros y. cbn [map snd In]. intuition congruence.
Qed.
Lemma record_app : forall d a b, record_all d (a ++ b) = record_all (record_all d a) b.
Proof. clear uniword lower. intros. apply fold_left_app. Qed.
Lemma record_keys : forall occ d, NoDup (map fst d) -> NoDup (map fst (record_all d occ)) /\
  forall x, In x (map fst (record_all d occ)) <-> In x (map snd occ) \/ In x (map fst d).
Proof. clear uniword lower.
  induction occ as [|[n x] occ IH]; intros d H; [split; [exact H|cbn; tauto]|]. unfold record_all in *. cbn [fold_left fst snd].
  destruct (tset_keys node d x n H) as [H1 H2]. destruct (IH _ H1) as [A B]. split; [exact A|]. intros y. rewrite (B y), (H2 y). cbn. intuition congruence.
Qed.
Lemma thas_key : forall (d : list (text * node)) k, thas d k = true <-> In k (map fst d).
Proof. clear uniword lower. intros. rewrite thas_true. symmetry. apply tget_keys. Qed.
Lemma record_get : forall occ d x, tget (record_all d occ) x = match find (fun e => text_eqb (snd e) x) (rev occ) with Some e => Some (fst e) | None => tget d x end.
Proof. clear uniword lower.
  induction occ as [|[n y] occ IH] using rev_ind; intros d x; [reflexivity|].
  rewrite record_app, rev_app_distr. cbn [rev app find snd]. unfold record_all at 1. cbn [fold_left fst snd].
  destruct (text_eqb y x) eqn:E.
  - apply text_eqb_eq in E. subst y. apply tget_tset_same.
  - apply teqb_false in E. rewrite tget_tset_other by exact E. apply IH.
Qed.

Lemma own_spec : forall st n, 
  match snd (gather_own lower st n) with
  | Err e => e = AssertionError /\ exists i a, attr n (tx "id") i /\ attr n (tx "aoid") a /\ ~ (ename n = tx "emu-clause" \/ ename n = tx "emu-eqn")
  | Ok st' => (forall i a, attr n (tx "id") i -> attr n (tx "aoid") a -> ename n = tx "emu-clause" \/ ename n = tx "emu-eqn") /\
      st' = mkIds (record_all (with_id st) (map (pair n) (own_ids n))) (oldids st) /\
      repeats (fun x => In x (map fst (with_id st))) (map (pair n) (own_ids n)) (filter is_dup (fst (gather_own lower st n))) /\
      forall k w, is_dup (k, w) = false -> (In (k, w) (fst (gather_own lower st n)) <-> k = num n /\ exists i, attr n (tx "id") i /\
        ((exists p, wants (ename n) p /\ ~ begins p i /\ w = WantPrefix p) \/
         ((~ exists p, wants (ename n) p) /\ (begins (tx "sec-") i \/ begins (tx "eqn-") i \/ begins (tx "figure-") i \/ begins (tx "table-") i) /\ w = BadPrefix) \/
         (exists a p, attr n (tx "aoid") a /\ wants (ename n) p /\ w = WantId (p ++ dash_colons (dash_spaces (lower a))) /\
            ~ In i [p ++ dash_colons (dash_spaces (lower a)); p ++ a; p ++ kebab a; p ++ tx "static-semantics-" ++ lower a; p ++ tx "runtime-semantics-" ++ lower a])))
  end.
Proof.
  intros st n. unfold gather_own, own_ids, attr. destruct (tget (attrs n) (tx "id")) as [i|] eqn:Ei.
  2:{ cbn [oret snd fst map filter]. split; [discriminate|]. split; [destruct st; reflexivity|]. split; [reflexivity|].
      intros k w _. split; [intros []|]. intros (_ & x & H & _). discriminate. }
  set (d := thas (with_id st) i).
  assert (D : forall k w, is_dup (k, w) = false -> In (k, w) (if d then [(num n, Duplicate i)] else []) <-> False).
  { intros k w H. destruct d; cbn; [|tauto]. split; [intros [E|[]]|tauto]. injection E as <- <-. discriminate. }
  assert (F : filter is_dup (if d then [(num n, Duplicate i)] else []) = if d then [(num n, Duplicate i)] else []) by (destruct d; reflexivity).
  assert (Rp : repeats (fun x => In x (map fst (with_id st))) (map (pair n) [i]) (if d then [(num n, Duplicate i)] else [])).
  { cbn [map repeats]. exists (if d then [(num n, Duplicate i)] else []), []. rewrite app_nil_r. split; [reflexivity|]. split; [|reflexivity].
    unfold d. destruct (thas (with_id st) i) eqn:Et; [left|right]; (split; [|reflexivity]).
    - now apply thas_key. - intros H. apply thas_key in H. congruence. }
  clearbody d.
  (* the second report *)
  set (o2 := match prefix_for (ename n) with
             | Some p => say (negb (starts p i)) (num n, WantPrefix p)
             | None => say (starts (tx "sec-") i || starts (tx "eqn-") i || starts (tx "figure-") i || starts (tx "table-") i) (num n, BadPrefix)
             end).
  assert (O2 : snd o2 = Ok tt /\ filter is_dup (fst o2) = [] /\ forall k w, In (k, w) (fst o2) <-> k = num n /\
     ((exists p, wants (ename n) p /\ ~ begins p i /\ w = WantPrefix p) \/
      ((~ exists p, wants (ename n) p) /\ (begins (tx "sec-") i \/ begins (tx "eqn-") i \/ begins (tx "figure-") i \/ begins (tx "table-") i) /\ w = BadPrefix))).
  { unfold o2. destruct (prefix_for (ename n)) as [p|] eqn:Ep.
    - pose proof (proj1 (prefix_for_iff _ _) Ep) as Hw. unfold say. cbn [snd fst].
      split; [reflexivity|]. split; [destruct (starts p i); reflexivity|]. intros k w. destruct (starts p i) eqn:Es; cbn [negb In].
      + apply starts_iff in Es. split; [tauto|]. intros (_ & [(q & Hq & Hn & _)|(H & _)]); [|apply H; eauto].
        apply prefix_for_iff in Hq. congruence.
      + apply starts_false in Es. split.
        * intros [E|[]]. injection E as <- <-. split; [reflexivity|]. left. eauto.
        * intros (-> & [(q & Hq & Hn & ->)|(H & _)]); [|exfalso; apply H; eauto]. apply prefix_for_iff in Hq. left. congruence.
    - apply prefix_for_none in Ep. unfold say. cbn [snd fst].
      set (b := starts (tx "sec-") i || starts (tx "eqn-") i || starts (tx "figure-") i || starts (tx "table-") i).
      assert (B : b = true <-> begins (tx "sec-") i \/ begins (tx "eqn-") i \/ begins (tx "figure-") i \/ begins (tx "table-") i).
      { unfold b. rewrite !orb_true_iff, !starts_iff. tauto. }
      clearbody b. split; [reflexivity|]. split; [destruct b; reflexivity|]. intros k w. split.
      + destruct b; cbn; [|tauto]. intros [E|[]]. injection E as <- <-. split; [reflexivity|]. right. split; [exact Ep|]. split; [now apply B|reflexivity].
      + intros (-> & [(q & Hq & _)|(_ & Hb & ->)]); [exfalso; apply Ep; eauto|]. apply B in Hb. rewrite Hb. now left. }
  clearbody o2. destruct O2 as (O2a & O2b & O2c). destruct o2 as [m2 r2]. cbn [snd] in O2a. subst r2. cbn [fst] in O2b, O2c.
  unfold say, obind. cbn [snd fst].
  destruct (tget (attrs n) (tx "aoid")) as [a|] eqn:Ea.
  2:{ cbn [oret snd fst]. rewrite app_nil_r. split; [discriminate|]. split; [reflexivity|]. split.
      - clear D F. destruct d; cbn [app filter is_dup snd]; rewrite O2b; exact Rp.
      - intros k w Hd. rewrite in_app_iff, (D k w Hd), O2c. split.
        + intros [[]|[-> H]]. split; [reflexivity|]. exists i. split; [reflexivity|]. destruct H; auto.
        + intros (-> & j & Hj & H). assert (j = i) by congruence. subst j. right. split; [reflexivity|].
          destruct H as [H|[H|(a & p & Ha & _)]]; auto. discriminate. }
  unfold oassert, assert_. cbn [snd fst].
  destruct (tin [tx "emu-clause"; tx "emu-eqn"] (ename n)) eqn:Et.
  2:{ cbn [snd]. split; [reflexivity|]. exists i, a. split; [reflexivity|]. split; [reflexivity|]. apply tin_false in Et. cbn [In] in Et. intuition congruence. }
  apply tin_iff in Et.
  assert (Et' : ename n = tx "emu-clause" \/ ename n = tx "emu-eqn") by (cbn [In] in Et; intuition congruence). clear Et.
  assert (exists p, prefix_for (ename n) = Some p) as (p & Ep).
  { destruct Et' as [->| ->]; eexists; apply prefix_for_iff; constructor. }
  rewrite Ep. apply prefix_for_iff in Ep.
  set (first := p ++ dash_colons (dash_spaces (lower a))).
  set (poss := [first; p ++ a; p ++ kebab a; p ++ tx "static-semantics-" ++ lower a; p ++ tx "runtime-semantics-" ++ lower a]).
  cbn [snd fst oret app]. rewrite app_nil_r. split; [auto|]. split; [reflexivity|]. split.
  - clear D F. destruct d, (tin poss i); cbn [app filter is_dup snd negb]; rewrite ?filter_app, ?app_nil_r; rewrite O2b; exact Rp.
  - intros k w Hd. rewrite !in_app_iff, (D k w Hd), O2c. split.
    + intros [[]|[[-> H]|H]].
      * split; [reflexivity|]. exists i. split; [reflexivity|]. destruct H; auto.
      * destruct (tin poss i) eqn:Ep'; cbn in H; [contradiction|]. destruct H as [E|[]]. injection E as <- <-. split; [reflexivity|].
        exists i. split; [reflexivity|]. right. right. exists a, p. apply tin_false in Ep'. auto.
    + intros (-> & j & Hj & H). assert (j = i) by congruence. subst j. right. destruct H as [H|[H|(a' & p' & Ha & Hp & -> & Hn)]]; auto.
      right. assert (a' = a) by congruence. subst a'. apply prefix_for_iff in Hp. apply prefix_for_iff in Ep. assert (p' = p) by congruence. subst p'.
      fold first in Hn. fold first. apply tin_false in Hn. fold poss in Hn. rewrite Hn. now left.
Qed.

Lemma steps_spec : forall n l st, NoDup (map fst (with_id st)) ->
  match snd (ofold (gather_step n) st l) with
  | Err e => e = AssertionError /\ ~ Forall (begins (tx "step-")) l
  | Ok st' => Forall (begins (tx "step-")) l /\ st' = mkIds (record_all (with_id st) (map (pair n) l)) (oldids st) /\
      repeats (fun x => In x (map fst (with_id st))) (map (pair n) l) (fst (ofold (gather_step n) st l)) /\
      Forall (fun m => is_dup m = true) (fst (ofold (gather_step n) st l))
  end.
Proof. clear uniword lower.
  intros n. induction l as [|x l IH]; intros st Hnd; cbn [ofold].
  - cbn. split; [constructor|]. split; [destruct st; reflexivity|]. split; [reflexivity|constructor].
  - assert (Eg : gather_step n st x = ((if thas (with_id st) x then [(num n, Duplicate x)] else []),
      if starts (tx "step-") x then Ok (mkIds (tset (with_id st) x n) (oldids st)) else Err AssertionError)).
    { unfold gather_step, obind, say, oassert, assert_. cbn [snd fst]. destruct (starts (tx "step-") x); cbn [oret snd fst app]; now rewrite ?app_nil_r. }
    unfold obind. rewrite Eg. cbn [snd fst].
    destruct (starts (tx "step-") x) eqn:Es.
    2:{ cbn [snd fst]. split; [reflexivity|]. intros H. inversion H as [|? ? Hb _]. subst. apply starts_iff in Hb. congruence. }
    cbn [snd fst]. apply starts_iff in Es. destruct (tset_keys node (with_id st) x n Hnd) as [Hn2 Hk].
    specialize (IH (mkIds (tset (with_id st) x n) (oldids st)) Hn2). cbn [with_id oldids] in IH.
    destruct (snd (ofold (gather_step n) (mkIds (tset (with_id st) x n) (oldids st)) l)) as [st'|e].
    + destruct IH as (A & B & C & D). split; [constructor; auto|]. split; [exact B|]. cbn [map repeats]. split.
      * exists (if thas (with_id st) x then [(num n, Duplicate x)] else []), (fst (ofold (gather_step n) (mkIds (tset (with_id st) x n) (oldids st)) l)).
        split; [reflexivity|]. split.
        -- destruct (thas (with_id st) x) eqn:Et; [left|right]; (split; [|reflexivity]).
           ++ now apply thas_key. ++ intros H. apply thas_key in H. congruence.
        -- apply (repeats_ext _ _ _ _) with (2 := C). intros y. rewrite Hk. reflexivity.
      * apply Forall_app. split; [|exact D]. destruct (thas (with_id st) x); repeat constructor.
    + destruct IH as [A B]. split; [exact A|]. intros H. apply B. now inversion H.
Qed.

Lemma olds_spec : forall l st, NoDup (oldids st) ->
  match snd (ofold gather_old st l) with
  | Err e => e = AssertionError /\ ~ NoDup (oldids st ++ l)
  | Ok st' => NoDup (oldids st ++ l) /\ st' = mkIds (with_id st) (oldids st ++ l) /\ fst (ofold gather_old st l) = []
  end.
Proof. clear uniword lower.
  induction l as [|x l IH]; intros st Hnd; cbn [ofold].
  - cbn. rewrite app_nil_r. split; [exact Hnd|]. split; [destruct st; reflexivity|reflexivity].
  - assert (Eg : gather_old st x = ([], if tin (oldids st) x then Err AssertionError else Ok (mkIds (with_id st) (oldids st ++ [x])))).
    { unfold gather_old, obind, oassert, assert_. cbn [snd fst]. destruct (tin (oldids st) x); reflexivity. }
    unfold obind. rewrite Eg. cbn [snd fst]. destruct (tin (oldids st) x) eqn:Et; cbn [snd fst].
    + split; [reflexivity|]. apply tin_iff in Et. intros H. apply NoDup_remove_2 in H. apply H. apply in_app_iff. now left.
    + apply tin_false in Et.
      assert (Hn2 : NoDup (oldids st ++ [x])).
      { apply NoDup_app_intro; [exact Hnd|repeat constructor; intros []|]. intros y Hy [<-|[]]. contradiction. }
      specialize (IH (mkIds (with_id st) (oldids st ++ [x])) Hn2). cbn [with_id oldids] in IH. rewrite <- app_assoc in IH. cbn [app] in IH.
      destruct (snd (ofold gather_old (mkIds (with_id st) (oldids st ++ [x])) l)) as [st'|e].
      * destruct IH as (A & B & C). split; [exact A|]. split; [exact B|exact C].
      * exact IH.
Qed.

(* what is reported about the id of an element, apart from repetitions *)
Definition about_id (n : node) (k : nat) (w : what) : Prop :=
  k = num n /\ exists i, attr n (tx "id") i /\
    ((exists p, wants (ename n) p /\ ~ begins p i /\ w = WantPrefix p) \/
     ((~ exists p, wants (ename n) p) /\ (begins (tx "sec-") i \/ begins (tx "eqn-") i \/ begins (tx "figure-") i \/ begins (tx "table-") i) /\ w = BadPrefix) \/
     (exists a p, attr n (tx "aoid") a /\ wants (ename n) p /\ w = WantId (p ++ dash_colons (dash_spaces (lower a))) /\
        ~ In i [p ++ dash_colons (dash_spaces (lower a)); p ++ a; p ++ kebab a; p ++ tx "static-semantics-" ++ lower a; p ++ tx "runtime-semantics-" ++ lower a])).

Lemma filter_all : forall (l : list msg), Forall (fun m => is_dup m = true) l -> filter is_dup l = l.
Proof. clear uniword lower. induction 1 as [|m l H _ IH]; [reflexivity|]. cbn [filter]. rewrite H. now f_equal. Qed.

Lemma one_spec : forall n st, NoDup (map fst (with_id st)) -> NoDup (oldids st) ->
  match snd (gather_one uniword lower st n) with
  | Err e => e = AssertionError /\ ~ (good n /\ NoDup (oldids st ++ old_ids [n]))
  | Ok st' => good n /\ NoDup (oldids st ++ old_ids [n]) /\
      st' = mkIds (record_all (with_id st) (occurrences uniword [n])) (oldids st ++ old_ids [n]) /\
      repeats (fun x => In x (map fst (with_id st))) (occurrences uniword [n]) (filter is_dup (fst (gather_one uniword lower st n))) /\
      forall k w, is_dup (k, w) = false -> (In (k, w) (fst (gather_one uniword lower st n)) <-> about_id n k w)
  end.
Proof.
  intros n st Hk Ho. unfold gather_one. pose proof (own_spec st n) as H1.
  destruct (gather_own lower st n) as [m1 [st1|e1]]; cbn [snd fst] in H1; unfold obind; cbn [snd fst].
  2:{ destruct H1 as (-> & i & a & Hi & Ha & Hn). split; [reflexivity|]. intros ([G _] & _). apply Hn. exact (G i a Hi Ha). }
  destruct H1 as (G1 & E1 & R1 & M1).
  assert (K1 : NoDup (map fst (with_id st1))) by (rewrite E1; apply record_keys; exact Hk).
  assert (O1 : oldids st1 = oldids st) by (rewrite E1; reflexivity).
  set (o2 := if text_eqb (ename n) (tx "emu-alg") then ofold (gather_step n) st1 (find_ids uniword false 0 (inner n)) else oret st1).
  assert (H2 : match snd o2 with
    | Err e => e = AssertionError /\ ~ Forall (begins (tx "step-")) (step_ids uniword n)
    | Ok st' => Forall (begins (tx "step-")) (step_ids uniword n) /\ st' = mkIds (record_all (with_id st1) (map (pair n) (step_ids uniword n))) (oldids st1) /\
        repeats (fun x => In x (map fst (with_id st1))) (map (pair n) (step_ids uniword n)) (fst o2) /\ Forall (fun m => is_dup m = true) (fst o2)
    end).
  { unfold o2, step_ids. destruct (text_eqb (ename n) (tx "emu-alg")); [apply steps_spec; exact K1|].
    cbn. split; [constructor|]. split; [destruct st1; reflexivity|]. split; [reflexivity|constructor]. }
  clearbody o2. destruct o2 as [m2 [st2|e2]]; cbn [snd fst] in H2; cbn [snd fst].
  2:{ destruct H2 as (-> & Hn). split; [reflexivity|]. intros ([_ G] & _). contradiction. }
  destruct H2 as (G2 & E2 & R2 & M2).
  assert (O2 : oldids st2 = oldids st) by (rewrite E2; exact O1).
  set (o3 := match tget (attrs n) (tx "oldids") with Some v => ofold gather_old st2 (split_comma v) | None => oret st2 end).
  assert (H3 : match snd o3 with
    | Err e => e = AssertionError /\ ~ NoDup (oldids st ++ old_ids [n])
    | Ok st' => NoDup (oldids st ++ old_ids [n]) /\ st' = mkIds (with_id st2) (oldids st ++ old_ids [n]) /\ fst o3 = []
    end).
  { unfold o3, old_ids. cbn [flat_map]. rewrite app_nil_r. destruct (tget (attrs n) (tx "oldids")) as [v|].
    - rewrite <- O2. apply olds_spec. rewrite O2. exact Ho.
    - cbn. rewrite app_nil_r. split; [exact Ho|]. split; [rewrite <- O2; destruct st2; reflexivity|reflexivity]. }
  clearbody o3. destruct o3 as [m3 [st3|e3]]; cbn [snd fst] in H3; cbn [snd fst].
  2:{ destruct H3 as (-> & Hn). split; [reflexivity|]. tauto. }
  destruct H3 as (G3 & E3 & ->). rewrite app_nil_r.
  assert (Eo : occurrences uniword [n] = map (pair n) (own_ids n) ++ map (pair n) (step_ids uniword n)).
  { unfold occurrences. cbn [flat_map]. now rewrite app_nil_r, map_app. }
  split; [split; assumption|]. split; [exact G3|]. split; [|split].
  - rewrite E3, E2, E1, Eo, record_app. reflexivity.
  - rewrite Eo, filter_app, (filter_all m2 M2). apply repeats_app; [exact R1|]. apply (repeats_ext _ _ _ _) with (2 := R2).
    intros y. rewrite E1. cbn [with_id]. exact (proj2 (record_keys (map (pair n) (own_ids n)) (with_id st) Hk) y).
  - intros k w Hd. rewrite in_app_iff, (M1 k w Hd). unfold about_id. split; [|auto]. intros [H|H]; [exact H|].
    rewrite Forall_forall in M2. specialize (M2 _ H). congruence.
Qed.

Lemma nodup_app_l : forall A (a b : list A), NoDup (a ++ b) -> NoDup a.
Proof.
  intros A a b. induction a as [|x a IH]; intros H; [constructor|]. cbn [app] in H. inversion H as [|? ? Hn H']. subst.
  constructor; [|auto]. intros Hx. apply Hn. apply in_app_iff. now left.
Qed.
Lemma occ_cons : forall n ns, occurrences uniword (n :: ns) = occurrences uniword [n] ++ occurrences uniword ns.
Proof. intros. unfold occurrences. cbn [flat_map]. now rewrite app_nil_r. Qed.
Lemma old_cons : forall n ns, old_ids (n :: ns) = old_ids [n] ++ old_ids ns.
Proof. intros. unfold old_ids. cbn [flat_map]. now rewrite app_nil_r. Qed.

Lemma all_spec : forall ns st, NoDup (map fst (with_id st)) -> NoDup (oldids st) ->
  match snd (ofold (gather_one uniword lower) st ns) with
  | Err e => e = AssertionError /\ ~ (Forall good ns /\ NoDup (oldids st ++ old_ids ns))
  | Ok st' => Forall good ns /\ NoDup (oldids st ++ old_ids ns) /\
      st' = mkIds (record_all (with_id st) (occurrences uniword ns)) (oldids st ++ old_ids ns) /\
      repeats (fun x => In x (map fst (with_id st))) (occurrences uniword ns) (filter is_dup (fst (ofold (gather_one uniword lower) st ns))) /\
      forall k w, is_dup (k, w) = false -> (In (k, w) (fst (ofold (gather_one uniword lower) st ns)) <-> exists n, In n ns /\ about_id n k w)
  end.
Proof.
  induction ns as [|n ns IH]; intros st Hk Ho; cbn [ofold].
  - cbn. rewrite app_nil_r. split; [constructor|]. split; [exact Ho|]. split; [destruct st; reflexivity|]. split; [reflexivity|].
    intros k w _. split; [intros []|]. intros (n & [] & _).
  - pose proof (one_spec n st Hk Ho) as H1. unfold obind.
    destruct (gather_one uniword lower st n) as [m1 [st1|e1]]; cbn [snd fst] in H1; cbn [snd fst].
    2:{ destruct H1 as (-> & Hn). split; [reflexivity|]. intros (G & N). apply Hn. inversion G. split; [assumption|].
        rewrite (old_cons n ns), app_assoc in N. apply nodup_app_l in N. exact N. }
    destruct H1 as (G1 & N1 & E1 & R1 & M1).
    assert (K1 : NoDup (map fst (with_id st1))) by (rewrite E1; apply record_keys; exact Hk).
    assert (O1 : oldids st1 = oldids st ++ old_ids [n]) by (rewrite E1; reflexivity).
    specialize (IH st1 K1). rewrite O1 in IH. specialize (IH N1).
    rewrite (old_cons n ns), app_assoc.
    destruct (ofold (gather_one uniword lower) st1 ns) as [m2 [st2|e2]]; cbn [snd fst] in IH; cbn [snd fst].
    2:{ destruct IH as (-> & Hn). split; [reflexivity|]. intros (G & N). apply Hn. inversion G. auto. }
    destruct IH as (G2 & N2 & E2 & R2 & M2).
    split; [constructor; assumption|]. split; [exact N2|]. split; [|split].
    + rewrite E2, E1. cbn [with_id]. rewrite (occ_cons n ns), record_app. reflexivity.
    + rewrite (occ_cons n ns), filter_app. apply repeats_app; [exact R1|]. apply (repeats_ext _ _ _ _) with (2 := R2).
      intros y. rewrite E1. cbn [with_id]. exact (proj2 (record_keys _ (with_id st) Hk) y).
    + intros k w Hd. rewrite in_app_iff, (M1 k w Hd), (M2 k w Hd). split.
      * intros [H|(x & Hx & H)]; [exists n; split; [now left|exact H]|exists x; split; [now right|exact H]].
      * intros (x & [<-|Hx] & H); [now left|right; eauto].
Qed.

Lemma repeats_in : forall l (p : text -> Prop) ms, repeats p l ms -> forall m,
  In m ms <-> exists l1 n x l2, l = l1 ++ (n, x) :: l2 /\ m = (num n, Duplicate x) /\ (In x (map snd l1) \/ p x).
Proof. clear uniword lower.
  induction l as [|[n x] l IH]; intros p ms R m; cbn [repeats] in R.
  - subst ms. split; [intros []|]. intros (l1 & n & x & l2 & E & _). destruct l1; discriminate.
  - destruct R as (m1 & m2 & -> & C & R). rewrite in_app_iff, (IH _ _ R m). split.
    + intros [H|(l1 & n' & x' & l2 & -> & -> & H)].
      * destruct C as [[Hp ->]|[_ ->]]; [|destruct H]. destruct H as [<-|[]]. exists [], n, x, l. auto.
      * exists ((n, x) :: l1), n', x', l2. split; [reflexivity|]. split; [reflexivity|]. cbn [map snd In]. intuition congruence.
    + intros (l1 & n' & x' & l2 & E & -> & H). destruct l1 as [|[n1 x1] l1]; cbn [app] in E; injection E as E1 E2 E3.
      * subst. left. destruct C as [[_ ->]|[Hn _]]; [now left|]. destruct H as [[]|H]. contradiction.
      * subst n1 x1 l. right. exists l1, n', x', l2. split; [reflexivity|]. split; [reflexivity|]. cbn [map snd In] in H. intuition congruence.
Qed.
Definition dup_of (x : text) (m : msg) : bool := match snd m with Duplicate y => text_eqb y x | _ => false end.
Definition text_dec : forall a b : text, {a = b} + {a <> b} := list_eq_dec N.eq_dec.
Lemma repeats_count : forall l (p : text -> Prop) ms, repeats p l ms -> forall x,
  (p x -> length (filter (dup_of x) ms) = count_occ text_dec (map snd l) x) /\
  (~ p x -> length (filter (dup_of x) ms) = count_occ text_dec (map snd l) x - 1).
Proof. clear uniword lower.
  induction l as [|[n y] l IH]; intros p ms R x; cbn [repeats] in R.
  - subst ms. cbn. auto.
  - destruct R as (m1 & m2 & -> & C & R). destruct (IH _ _ R x) as [A B]. rewrite filter_app, app_length.
    destruct (text_dec y x) as [E|E].
    + subst y. cbn [map snd count_occ]. destruct (text_dec x x) as [_|Q]; [|congruence]. rewrite (A (or_introl eq_refl)).
      destruct C as [[Hp ->]|[Hp ->]].
      * cbn [filter dup_of snd]. rewrite teqb_refl. cbn [length]. split; [lia|contradiction].
      * cbn [filter length]. split; [contradiction|lia].
    + cbn [map snd]. rewrite count_occ_cons_neq by exact E.
      assert (length (filter (dup_of x) m1) = 0) as ->.
      { destruct C as [[_ ->]|[_ ->]]; [|reflexivity]. cbn [filter dup_of snd]. rewrite (proj2 (teqb_false y x) E). reflexivity. }
      split; [intros Hp; apply A; now right|intros Hp; apply B; intros [Q|Q]; congruence].
Qed.
End Ids.
