(* Specification of what is made of the defining productions, and lemmas about the model. *)
From Coq Require Import Ascii String Sorted Permutation.
From Verif Require Import M_Base L_Base M_HTML M_Records L_Records M_Defs.
Open Scope list_scope.
Notation length := List.length.

(* ---------- specification ---------- *)
Definition site := (sect * prod)%type.
(* the productions of the document, in order, each with its section *)
Definition sites (gs : list gram) : list site := flat_map (fun g => map (pair (g_sect g)) (g_prods g)) gs.
Definition lhs (q : site) : text := p_lhs (snd q).
(* which part of the document a section belongs to: E examples, B annex B, A the rest *)
Inductive in_arena (s : sect) : text -> Prop :=
| InE : s_title s = tx "Grammar Notation" -> in_arena s (tx "E")
| InB r : s_title s <> tx "Grammar Notation" -> s_num s = tx "B" ++ r -> in_arena s (tx "B")
| InA : s_title s <> tx "Grammar Notation" -> (forall r, s_num s <> tx "B" ++ r) -> in_arena s (tx "A").
(* the two sections of annex B whose productions add to those of the main part *)
Definition adding (s : sect) : Prop :=
  in_arena s (tx "B") /\ (s_title s = tx "FunctionDeclarations in IfStatement Statement Clauses" \/ s_title s = tx "Initializers in ForIn Statement Heads").
Definition is_upper (c : N) : Prop := (65 <= c <= 90)%N.
Definition is_lower (c : N) : Prop := (97 <= c <= 122)%N.
Definition is_digit (c : N) : Prop := (48 <= c <= 57)%N.
(* the form of the names of nonterminals; a newline may follow *)
Definition good_name (title name : text) : Prop :=
  exists n, (name = n \/ name = n ++ [10%N]) /\
  ((title = tx "URI Syntax and Semantics" /\ (n = tx "uri" \/ exists c w, n = tx "uri" ++ c :: w /\ is_upper c /\ w <> [] /\ Forall is_lower w)) \/
   (title <> tx "URI Syntax and Semantics" /\ exists c w, n = c :: w /\ is_upper c /\ w <> [] /\ Forall (fun d => is_upper d \/ is_lower d \/ is_digit d) w)).
Definition fine (q : site) : Prop :=
  p_multi (snd q) = true /\ (s_elem (fst q) = tx "emu-clause" \/ s_elem (fst q) = tx "emu-annex") /\ good_name (s_title (fst q)) (lhs q).
(* two productions for the same nonterminal *)
Definition agree (q q' : site) : Prop :=
  lhs q = lhs q' -> p_colons (snd q) = p_colons (snd q') /\ forall a, in_arena (fst q) a -> ~ in_arena (fst q') a.
(* the production for n that holds in part a: the one there, otherwise the one of the main part *)
Definition meant (L : list site) (a n : text) (q : site) : Prop :=
  In q L /\ lhs q = n /\ (in_arena (fst q) a \/ (in_arena (fst q) (tx "A") /\ forall q', In q' L -> lhs q' = n -> ~ in_arena (fst q') a)).

(* ---------- lemmas ---------- *)
Lemma tin_iff : forall s l, tin s l = true <-> In s l.
Proof. intros s l. unfold tin. rewrite existsb_exists. split; [intros (x & Hx & E); apply text_eqb_eq in E; now subst|intros H; exists s; split; [exact H|now apply text_eqb_eq]]. Qed.
Lemma tin_false : forall s l, tin s l = false <-> ~ In s l.
Proof. intros s l. rewrite <- tin_iff. destruct (tin s l); split; congruence. Qed.
Lemma teqb_no : forall a b, text_eqb a b = false <-> a <> b.
Proof. intros a b. split; [intros H ->|intros H]; [rewrite (proj2 (text_eqb_eq b b) eq_refl) in H; discriminate|]. destruct (text_eqb a b) eqn:E; [apply text_eqb_eq in E; contradiction|reflexivity]. Qed.
Lemma starts_iff : forall p s, starts p s = true <-> exists r, s = p ++ r.
Proof.
  induction p as [|c p IH]; intros s; cbn [starts]; [split; [exists s; reflexivity|reflexivity]|]. destruct s as [|d s]; [split; [discriminate|intros (r & E); discriminate]|].
  rewrite andb_true_iff, N.eqb_eq, IH. split; [intros [-> (r & ->)]; exists r; reflexivity|intros (r & E); injection E as -> ->; split; [reflexivity|exists r; reflexivity]].
Qed.
Lemma arena_spec : forall s a, arena_of s = a <-> in_arena s a.
Proof.
  intros s a. unfold arena_of. destruct (text_eqb (s_title s) (tx "Grammar Notation")) eqn:E.
  - apply text_eqb_eq in E. split; [intros <-; now constructor|]. intros H. inversion H; subst; [reflexivity|contradiction|contradiction].
  - apply teqb_no in E. destruct (starts (tx "B") (s_num s)) eqn:E2.
    + apply starts_iff in E2 as (r & E2). split; [intros <-; exact (InB s r E E2)|]. intros H. inversion H as [X|r' X Y|X Y]; subst; [contradiction|reflexivity|]. destruct (Y r E2).
    + assert (N : forall r, s_num s <> tx "B" ++ r). { intros r X. assert (starts (tx "B") (s_num s) = true) by (apply starts_iff; eauto). congruence. }
      split; [intros <-; now apply InA|]. intros H. inversion H as [X|r' X Y|X Y]; subst; [contradiction|destruct (N r' Y)|reflexivity].
Qed.
Lemma aug_spec : forall s, augments_in s = true <-> adding s.
Proof.
  intros s. unfold augments_in, adding. rewrite <- arena_spec. destruct (text_eqb (arena_of s) (tx "B")) eqn:E.
  - apply text_eqb_eq in E. rewrite tin_iff. cbn [In]. split; [intros [X|[X|[]]]; split; auto|intros [_ [X|X]]; auto].
  - apply teqb_no in E. split; [discriminate|]. intros [X _]. contradiction.
Qed.
Lemma drop_spec : forall f s, exists w, s = w ++ drop_while f s /\ forallb f w = true /\ match drop_while f s with c :: _ => f c = false | [] => True end.
Proof.
  intros f. induction s as [|c s (w & E & F & G)]; [exists []; split; [reflexivity|split; [reflexivity|exact I]]|]. cbn [drop_while]. destruct (f c) eqn:Ec.
  - exists (c :: w). split; [cbn; congruence|]. split; [cbn; now rewrite Ec|exact G].
  - exists []. split; [reflexivity|]. split; [reflexivity|exact Ec].
Qed.
Lemma drop_app : forall f w r, forallb f w = true -> match r with c :: _ => f c = false | [] => True end -> drop_while f (w ++ r) = r.
Proof.
  intros f. induction w as [|c w IH]; intros r F G; cbn [app drop_while].
  - destruct r as [|c r]; [reflexivity|]. cbn [drop_while]. now rewrite G.
  - cbn in F. apply andb_true_iff in F as [F1 F2]. rewrite F1. auto.
Qed.
Lemma at_end_iff : forall s, at_end s = true <-> s = [] \/ s = [10%N].
Proof. intros [|c [|d s]]; cbn; [split; auto|rewrite N.eqb_eq; split; [intros ->; auto|intros [X|X]; congruence]|split; [discriminate|intros [X|X]; discriminate]]. Qed.
Lemma plus_end_iff : forall f (P : N -> Prop), (forall c, f c = true <-> P c) -> f 10%N = false -> forall s, plus_end f s = true <-> exists w, w <> [] /\ Forall P w /\ (s = w \/ s = w ++ [10%N]).
Proof.
  intros f P H F10 s. unfold plus_end. split.
  - destruct s as [|c s]; [discriminate|]. intros E. apply andb_true_iff in E as [E1 E2]. destruct (drop_spec f s) as (w & Es & Fw & _). apply at_end_iff in E2. exists (c :: w). split; [discriminate|].
    split; [constructor; [now apply H|]; apply Forall_forall; intros d Hd; apply H; rewrite forallb_forall in Fw; auto|]. destruct E2 as [E2|E2]; rewrite E2 in Es; [left; rewrite app_nil_r in Es; congruence|right; rewrite Es; reflexivity].
  - intros (w & N & F & E). destruct w as [|c w]; [congruence|]. inversion F as [|? ? F1 F2]. subst. assert (Fw : forallb f w = true) by (apply forallb_forall; intros d Hd; apply H; rewrite Forall_forall in F2; auto).
    apply H in F1. destruct E as [->| ->]; cbn [app]; rewrite F1; cbn [andb].
    + rewrite <- (app_nil_r w), (drop_app f w [] Fw I). reflexivity.
    + rewrite (drop_app f w [10%N] Fw F10). reflexivity.
Qed.
Lemma upper_iff : forall c, upper c = true <-> is_upper c.
Proof. intros c. unfold upper, is_upper. rewrite andb_true_iff, !N.leb_le. reflexivity. Qed.
Lemma lower_iff : forall c, lowerc c = true <-> is_lower c.
Proof. intros c. unfold lowerc, is_lower. rewrite andb_true_iff, !N.leb_le. reflexivity. Qed.
Lemma alnum_iff : forall c, upper c || lowerc c || digit c = true <-> is_upper c \/ is_lower c \/ is_digit c.
Proof. intros c. rewrite !orb_true_iff, upper_iff, lower_iff. unfold digit, is_digit. rewrite andb_true_iff, !N.leb_le. tauto. Qed.
Lemma name_spec : forall t n, name_ok t n = true <-> good_name t n.
Proof.
  intros t n. unfold name_ok, good_name. destruct (text_eqb t (tx "URI Syntax and Semantics")) eqn:E.
  - apply text_eqb_eq in E. rewrite andb_true_iff, starts_iff, orb_true_iff, at_end_iff. split.
    + intros ((r & ->) & H). assert (Er : skipn 3 (tx "uri" ++ r) = r) by reflexivity. rewrite Er in H. destruct H as [[->| ->]|H].
      * exists (tx "uri"). split; [left; reflexivity|]. left. split; [exact E|now left].
      * exists (tx "uri"). split; [right; reflexivity|]. left. split; [exact E|now left].
      * destruct r as [|c s]; [discriminate|]. apply andb_true_iff in H as [H1 H2]. apply (plus_end_iff lowerc is_lower lower_iff eq_refl) in H2 as (w & N & F & Es). apply upper_iff in H1.
        exists (tx "uri" ++ c :: w). split; [destruct Es as [->| ->]; [left; reflexivity|right; reflexivity]|]. left. split; [exact E|]. right. exists c, w. auto.
    + intros (m & Em & [(_ & Hm)|(X & _)]); [|contradiction]. destruct Hm as [->|(c & w & -> & Hc & Hw & Fw)].
      * destruct Em as [->| ->]; (split; [eexists; reflexivity|left; cbn; auto]).
      * destruct Em as [->| ->].
        -- split; [eexists; reflexivity|]. right. change (upper c && plus_end lowerc w = true). apply andb_true_iff. split; [now apply upper_iff|]. apply (plus_end_iff lowerc is_lower lower_iff eq_refl). exists w. auto.
        -- split; [rewrite <- app_assoc; eexists; reflexivity|]. right. change (upper c && plus_end lowerc (w ++ [10%N]) = true). apply andb_true_iff. split; [now apply upper_iff|]. apply (plus_end_iff lowerc is_lower lower_iff eq_refl). exists w. auto.
  - apply teqb_no in E. destruct n as [|c s].
    + split; [discriminate|]. intros (m & Em & [(X & _)|(_ & c & w & -> & _)]); [contradiction|]. destruct Em; discriminate.
    + rewrite andb_true_iff, upper_iff, (plus_end_iff _ _ alnum_iff eq_refl). split.
      * intros [Hc (w & N & F & Es)]. exists (c :: w). split; [destruct Es as [->| ->]; [left; reflexivity|right; reflexivity]|]. right. split; [exact E|]. exists c, w. auto.
      * intros (m & Em & [(X & _)|(_ & d & w & -> & Hd & Hw & Fw)]); [contradiction|]. destruct Em as [Em|Em]; injection Em as -> ->; (split; [exact Hd|]); exists w; auto.
Qed.

(* --- monad --- *)
Lemma obind_ok : forall A B (o : out A) (k : A -> out B) b, snd (obind o k) = Ok b <-> exists a, snd o = Ok a /\ snd (k a) = Ok b.
Proof. intros A B [m [a|e]] k b; unfold obind; cbn [fst snd]; split; [eauto|intros (x & E & H); congruence|discriminate|intros (x & E & H); discriminate]. Qed.
Lemma obind_err : forall A B (o : out A) (k : A -> out B) e, snd (obind o k) = Err e <-> snd o = Err e \/ exists a, snd o = Ok a /\ snd (k a) = Err e.
Proof. intros A B [m [a|x]] k e; unfold obind; cbn [fst snd]; split; [eauto|intros [E|(y & E & H)]; congruence|intros E; left; congruence|intros [E|(y & E & H)]; congruence]. Qed.
Lemma obind_msgs : forall A B (o : out A) (k : A -> out B) a, snd o = Ok a -> fst (obind o k) = fst o ++ fst (k a).
Proof. intros A B [m [a|x]] k b E; cbn in E; [injection E as ->; reflexivity|discriminate]. Qed.
Lemma obind_assert : forall A b (k : unit -> out A), obind (oassert b) k = if b then k tt else ([], Err AssertionError).
Proof. intros A [] k; [|reflexivity]. unfold obind, oassert. cbn. destruct (k tt); reflexivity. Qed.
Lemma obind_ret : forall A B (a : A) (k : A -> out B), obind (oret a) k = k a.
Proof. intros. unfold obind, oret. cbn. destruct (k a); reflexivity. Qed.
Lemma ofold_app : forall A B (f : A -> B -> out A) l1 l2 a, ofold f a (l1 ++ l2) = obind (ofold f a l1) (fun a' => ofold f a' l2).
Proof.
  intros A B f. induction l1 as [|x l1 IH]; intros l2 a; cbn [app ofold]; [now rewrite obind_ret|]. destruct (f a x) as [m [b|e]]; unfold obind at 1 3; cbn [fst snd]; [|reflexivity]. rewrite IH. 
  unfold obind. cbn [fst snd]. destruct (ofold f b l1) as [m' [c|e']]; cbn [fst snd]; [now rewrite app_assoc|reflexivity].
Qed.
Lemma oeach_ok : forall B (f : B -> out unit) l, snd (oeach f l) = Ok tt <-> Forall (fun x => snd (f x) = Ok tt) l.
Proof.
  intros B f. induction l as [|x l IH]; [split; [constructor|reflexivity]|]. cbn [oeach]. rewrite obind_ok, Forall_cons_iff, <- IH. split; [intros ([] & A & B'); auto|intros [A B']; exists tt; auto].
Qed.
Lemma oeach_err : forall B (f : B -> out unit) l e, snd (oeach f l) = Err e -> exists x, In x l /\ snd (f x) = Err e.
Proof.
  intros B f. induction l as [|x l IH]; intros e H; [discriminate|]. cbn [oeach] in H. apply obind_err in H as [H|([] & _ & H)]; [exists x; split; [now left|exact H]|].
  destruct (IH e H) as (y & Hy & E). exists y. split; [now right|exact E].
Qed.
Lemma oeach_msgs : forall B (f : B -> out unit) l m, snd (oeach f l) = Ok tt -> (In m (fst (oeach f l)) <-> exists x, In x l /\ In m (fst (f x))).
Proof.
  intros B f. induction l as [|x l IH]; intros m H; [split; [intros []|intros (y & [] & _)]|]. cbn [oeach] in *. apply obind_ok in H as ([] & A & B'). rewrite (obind_msgs _ _ _ _ tt A), in_app_iff, (IH m B').
  split; [intros [X|(y & Hy & X)]; [exists x; split; [now left|exact X]|exists y; split; [now right|exact X]]|]. intros (y & [->|Hy] & X); [now left|right; exists y; auto].
Qed.
Lemma say_ok : forall b m, snd (say b m) = Ok tt. Proof. reflexivity. Qed.

(* --- the first loop --- *)
Record LInv (L : list site) (ds : list dprod) (inf : infos) : Prop := mkLInv {
  li_ds : ds = map (fun q => mkD (snd q) (arena_of (fst q)) (augments_in (fst q)) (p_rhss (snd q))) L;
  li_keys : NoDup (map fst inf);
  li_has : forall n, (exists i, tget inf n = Some i) <-> exists q, In q L /\ lhs q = n;
  li_colons : forall n i q, tget inf n = Some i -> In q L -> lhs q = n -> p_colons (snd q) = i_colons i;
  li_occs : forall n i a k, tget inf n = Some i -> (tget (i_occs i) a = Some k <-> exists q, nth_error L k = Some q /\ lhs q = n /\ in_arena (fst q) a)
}.
Lemma linv_nil : LInv [] [] [].
Proof.
  constructor; [reflexivity|constructor| | |].
  - intros n. split; [intros (i & E); discriminate|intros (q & [] & _)].
  - intros n i q E. discriminate.
  - intros n i a k E. discriminate.
Qed.
Lemma linv_step : forall L ds inf s p, LInv L ds inf ->
  let q := (s, p) in
  (fine q /\ Forall (fun q' => agree q' q) L -> exists ds' inf', check_left s (ds, inf) p = ([], Ok (ds', inf')) /\ LInv (L ++ [q]) ds' inf') /\
  (~ (fine q /\ Forall (fun q' => agree q' q) L) -> check_left s (ds, inf) p = ([], Err AssertionError)).
Proof.
  intros L ds inf s p [I1 I2 I3 I4 I5] q.
  assert (Lds : length ds = length L) by (rewrite I1; apply map_length).
  unfold check_left. cbv beta iota zeta; rewrite ?obind_assert; cbv beta iota zeta.
  destruct (p_multi p) eqn:E1; [|split; [intros [(X & _) _]; cbn in X; congruence|reflexivity]].
  cbv beta iota zeta; rewrite ?obind_assert; cbv beta iota zeta. destruct (tin (s_elem s) [tx "emu-clause"; tx "emu-annex"]) eqn:E2.
  2:{ apply tin_false in E2. split; [|reflexivity]. intros [(_ & X & _) _]. exfalso. apply E2. cbn in X. cbn [In]. destruct X; auto. }
  apply tin_iff in E2. cbv beta iota zeta; rewrite ?obind_assert; cbv beta iota zeta. destruct (name_ok (s_title s) (p_lhs p)) eqn:E3.
  2:{ split; [|reflexivity]. intros [(_ & _ & X) _]. apply name_spec in X. unfold lhs in X. cbn in X. congruence. }
  apply name_spec in E3. assert (Fq : fine q). { split; [exact E1|]. split; [destruct E2 as [X|[X|[]]]; [left|right]; symmetry; exact X|exact E3]. }
  pose proof (proj1 (arena_spec s (arena_of s)) eq_refl) as Ha.
  assert (Last : forall k q0, nth_error (L ++ [q]) k = Some q0 <-> nth_error L k = Some q0 \/ (k = length L /\ q0 = q)).
  { intros k q0. destruct (lt_dec k (length L)) as [Hk|Hk].
    - rewrite nth_error_app1 by exact Hk. split; [auto|]. intros [X|[X _]]; [exact X|lia].
    - rewrite nth_error_app2 by lia. assert (Nn : nth_error L k = None) by (apply nth_error_None; lia). rewrite Nn. destruct (k - length L) as [|j] eqn:Ej.
      + cbn. split; [intros [= <-]; right; split; [lia|reflexivity]|intros [X|[_ ->]]; [discriminate|reflexivity]].
      + cbn. split; [destruct j; discriminate|intros [X|[X _]]; [discriminate|lia]]. }
  (* the new entry *)
  assert (New : forall i0, (forall q', In q' L -> lhs q' = p_lhs p -> p_colons (snd q') = i_colons i0) -> p_colons p = i_colons i0 ->
     (forall a k, tget (i_occs i0) a = Some k <-> exists q', nth_error L k = Some q' /\ lhs q' = p_lhs p /\ in_arena (fst q') a) -> tget (i_occs i0) (arena_of s) = None ->
     LInv (L ++ [q]) (ds ++ [mkD p (arena_of s) (augments_in s) (p_rhss p)]) (tset inf (p_lhs p) (mkInfo (i_colons i0) (tset (i_occs i0) (arena_of s) (length ds))))).
  { intros i0 H1 H2 H3 H4. constructor.
    - rewrite I1, map_app. reflexivity.
    - apply (tset_keys _ inf (p_lhs p) _ I2).
    - intros n. rewrite <- tget_keys. rewrite (proj2 (tset_keys _ inf (p_lhs p) (mkInfo (i_colons i0) (tset (i_occs i0) (arena_of s) (length ds))) I2) n). rewrite tget_keys, I3. split.
      + intros [->|(q' & Hq & El)]; [exists q; split; [apply in_app_iff; right; now left|reflexivity]|exists q'; split; [apply in_app_iff; now left|exact El]].
      + intros (q' & Hq & El). apply in_app_iff in Hq as [Hq|[<-|[]]]; [right; exists q'; auto|left; symmetry; exact El].
    - intros n i q' Hi Hq El. destruct (list_eq_dec N.eq_dec (p_lhs p) n) as [<-|N].
      + rewrite tget_tset_same in Hi. injection Hi as <-. cbn [i_colons]. apply in_app_iff in Hq as [Hq|[<-|[]]]; [exact (H1 q' Hq El)|exact H2].
      + rewrite tget_tset_other in Hi by exact N. apply in_app_iff in Hq as [Hq|[<-|[]]]; [exact (I4 n i q' Hi Hq El)|]. contradiction.
    - intros n i a k Hi. destruct (list_eq_dec N.eq_dec (p_lhs p) n) as [<-|N].
      + rewrite tget_tset_same in Hi. injection Hi as <-. cbn [i_occs]. destruct (list_eq_dec N.eq_dec (arena_of s) a) as [<-|Na].
        * rewrite tget_tset_same. split.
          -- intros [= <-]. exists q. split; [apply Last; right; split; [lia|reflexivity]|]. split; [reflexivity|exact Ha].
          -- intros (q' & Hq & El & Ar). apply Last in Hq as [Hq|[-> ->]]; [|congruence]. exfalso. assert (tget (i_occs i0) (arena_of s) = Some k) by (apply H3; eauto). congruence.
        * rewrite tget_tset_other by exact Na. rewrite H3. split.
          -- intros (q' & Hq & X). exists q'. split; [apply Last; now left|exact X].
          -- intros (q' & Hq & El & Ar). apply Last in Hq as [Hq|[-> ->]]; [eauto|]. apply arena_spec in Ar. contradiction.
      + rewrite tget_tset_other in Hi by exact N. rewrite (I5 n i a k Hi). split.
        * intros (q' & Hq & X). exists q'. split; [apply Last; now left|exact X].
        * intros (q' & Hq & El & Ar). apply Last in Hq as [Hq|[-> ->]]; [eauto|]. contradiction. }
  destruct (tget inf (p_lhs p)) as [i|] eqn:Ei.
  - pose proof (proj1 (I3 (p_lhs p)) (ex_intro _ i Ei)) as (q0 & Hq0 & El0). cbv beta iota zeta; rewrite ?obind_assert; cbv beta iota zeta.
    destruct (p_colons p =? i_colons i) eqn:Ec.
    2:{ apply Nat.eqb_neq in Ec. split; [|intros _; reflexivity]. intros [_ F]. rewrite Forall_forall in F. destruct (F q0 Hq0 El0) as [X _]. cbn in X. rewrite (I4 _ _ _ Ei Hq0 El0) in X. congruence. }
    apply Nat.eqb_eq in Ec. cbv beta iota zeta; rewrite ?obind_assert; cbv beta iota zeta. destruct (thas (i_occs i) (arena_of s)) eqn:Et.
    { apply thas_true in Et as (k & Hk). apply (I5 _ _ _ _ Ei) in Hk as (q' & Hq & El & Ar). split; [|intros _; reflexivity]. intros [_ F]. exfalso. rewrite Forall_forall in F.
      destruct (F q' (nth_error_In _ _ Hq) El) as [_ X]. apply (X _ Ar). exact Ha. }
    assert (Tn : tget (i_occs i) (arena_of s) = None) by (unfold thas in Et; destruct (tget (i_occs i) (arena_of s)); [discriminate|reflexivity]).
    cbn [negb]. rewrite !obind_ret. split.
    + intros _. eexists _, _. split; [reflexivity|]. apply New; [intros q' Hq El; exact (I4 _ _ _ Ei Hq El)|exact Ec|intros a k; apply (I5 _ _ a k Ei)|exact Tn].
    + intros X. exfalso. apply X. split; [exact Fq|]. apply Forall_forall. intros q' Hq El. split; [cbn; rewrite (I4 _ _ _ Ei Hq El); congruence|]. intros a Ar Ar'. apply arena_spec in Ar'. cbn in Ar'. subst a.
      apply In_nth_error in Hq as (k & Hk). assert (tget (i_occs i) (arena_of s) = Some k) by (apply (I5 _ _ _ _ Ei); exists q'; auto). congruence.
  - rewrite !obind_ret. assert (No : forall q', In q' L -> lhs q' <> p_lhs p).
    { intros q' Hq El. destruct (proj2 (I3 (p_lhs p)) (ex_intro _ q' (conj Hq El))) as (i & X). congruence. }
    split.
    + intros _. eexists _, _. split; [reflexivity|]. apply (New (mkInfo (p_colons p) [])); [intros q' Hq El; destruct (No q' Hq El)|reflexivity| |reflexivity].
      intros a k. split; [discriminate|]. intros (q' & Hq & El & _). destruct (No q' (nth_error_In _ _ Hq) El).
    + intros X. exfalso. apply X. split; [exact Fq|]. apply Forall_forall. intros q' Hq El. destruct (No q' Hq El).
Qed.

Lemma arena_dec : forall s s', (forall a, in_arena s a -> ~ in_arena s' a) <-> arena_of s <> arena_of s'.
Proof.
  intros s s'. split.
  - intros H E. apply (H (arena_of s)); apply arena_spec; congruence.
  - intros H a A B. apply arena_spec in A, B. congruence.
Qed.
Lemma fine_dec : forall q, {fine q} + {~ fine q}.
Proof.
  intros q. unfold fine. destruct (bool_dec (p_multi (snd q)) true) as [A|A]; [|right; tauto].
  destruct (list_eq_dec N.eq_dec (s_elem (fst q)) (tx "emu-clause")) as [B|B]; [|destruct (list_eq_dec N.eq_dec (s_elem (fst q)) (tx "emu-annex")) as [C|C]; [|right; tauto]];
  (destruct (name_ok (s_title (fst q)) (lhs q)) eqn:D; [left; apply name_spec in D; tauto|right; intros (_ & _ & X); apply name_spec in X; congruence]).
Qed.
Lemma agree_dec : forall q q', {agree q q'} + {~ agree q q'}.
Proof.
  intros q q'. unfold agree. destruct (list_eq_dec N.eq_dec (lhs q) (lhs q')) as [A|A]; [|left; tauto].
  destruct (Nat.eq_dec (p_colons (snd q)) (p_colons (snd q'))) as [B|B]; [|right; tauto].
  destruct (list_eq_dec N.eq_dec (arena_of (fst q)) (arena_of (fst q'))) as [C|C].
  - right. intros X. apply (proj1 (arena_dec (fst q) (fst q'))); [apply X; exact A|exact C].
  - left. intros _. split; [exact B|apply arena_dec; exact C].
Qed.
Lemma agree_sym : forall q q', agree q q' -> agree q' q.
Proof. intros q q' H E. destruct (H (eq_sym E)) as [A B]. split; [congruence|]. intros a X Y. exact (B a Y X). Qed.

Lemma fop_app_inv : forall A (R : A -> A -> Prop) l1 l2, ForallOrdPairs R (l1 ++ l2) -> ForallOrdPairs R l1 /\ (forall x y, In x l1 -> In y l2 -> R x y).
Proof.
  intros A R. induction l1 as [|x l1 IH]; intros l2 H; [split; [constructor|intros x y []]|]. cbn in H. inversion H as [|? ? F H']. subst. destruct (IH l2 H') as [I1 I2]. apply Forall_app in F as [F1 F2].
  split; [constructor; assumption|]. intros y z [<-|Hy] Hz; [rewrite Forall_forall in F2; auto|auto].
Qed.
Lemma fop_snoc : forall A (R : A -> A -> Prop) l x, ForallOrdPairs R l -> Forall (fun y => R y x) l -> ForallOrdPairs R (l ++ [x]).
Proof.
  intros A R. induction l as [|y l IH]; intros x H F; cbn; [constructor; constructor|]. inversion H as [|? ? F' H']. inversion F as [|? ? F1 F2]. subst. constructor; [|auto]. apply Forall_app. split; [exact F'|constructor; [exact F1|constructor]].
Qed.
Lemma fop_snoc_inv : forall A (R : A -> A -> Prop) l x, ForallOrdPairs R (l ++ [x]) -> Forall (fun y => R y x) l.
Proof. intros A R l x H. apply fop_app_inv in H as [_ H]. apply Forall_forall. intros y Hy. apply H; [exact Hy|now left]. Qed.

Lemma prods_spec : forall s ps L ds inf, LInv L ds inf -> ForallOrdPairs agree L -> let qs := map (pair s) ps in
  (Forall fine qs /\ ForallOrdPairs agree (L ++ qs) /\ exists ds' inf', ofold (check_left s) (ds, inf) ps = ([], Ok (ds', inf')) /\ LInv (L ++ qs) ds' inf') \/
  (~ (Forall fine qs /\ ForallOrdPairs agree (L ++ qs)) /\ ofold (check_left s) (ds, inf) ps = ([], Err AssertionError)).
Proof.
  intros s. induction ps as [|p ps IH]; intros L ds inf I A qs.
  - left. unfold qs. cbn. rewrite app_nil_r. split; [constructor|]. split; [exact A|]. eexists _, _. split; [reflexivity|exact I].
  - destruct (linv_step L ds inf s p I) as [G B]. cbn [ofold].
    assert (D : {fine (s, p) /\ Forall (fun q' => agree q' (s, p)) L} + {~ (fine (s, p) /\ Forall (fun q' => agree q' (s, p)) L)}).
    { destruct (fine_dec (s, p)) as [X|X]; [|right; tauto]. destruct (Forall_dec (fun q' => agree q' (s, p)) (fun q' => agree_dec q' (s, p)) L) as [Y|Y]; [left; tauto|right; tauto]. }
    destruct D as [D|D].
    + destruct (G D) as (ds' & inf' & E & I'). rewrite E. unfold obind. cbn [fst snd app].
      assert (A' : ForallOrdPairs agree (L ++ [(s, p)])) by (apply fop_snoc; [exact A|apply D]).
      specialize (IH _ _ _ I' A'). cbv zeta in IH. rewrite <- app_assoc in IH. cbn [app] in IH. destruct IH as [(F & A2 & ds2 & inf2 & E2 & I2)|(N & E2)].
      * left. split; [constructor; [apply D|exact F]|]. split; [exact A2|]. exists ds2, inf2. split; [|exact I2]. rewrite E2. reflexivity.
      * right. split; [|rewrite E2; reflexivity]. intros [F A2]. apply N. split; [now inversion F|exact A2].
    + right. rewrite (B D). split; [|reflexivity]. intros [F A2]. apply D. split; [now inversion F|]. unfold qs in A2. cbn [map] in A2.
      change ((s, p) :: map (pair s) ps) with ([(s, p)] ++ map (pair s) ps) in A2. rewrite app_assoc in A2. apply fop_app_inv in A2 as [A2 _]. now apply fop_snoc_inv.
Qed.

(* what the reader of definitions demands of the elements *)
Definition defines (g : gram) : Prop := g_type g = Some (tx "definition") /\ g_block g = true.
Definition acceptable (gs : list gram) : Prop := Forall defines gs /\ Forall fine (sites gs) /\ ForallOrdPairs agree (sites gs).
(* which failure: there is no attribute type on the first element that is not acceptable *)
Definition untyped (gs : list gram) : Prop := exists gs1 g gs2, gs = gs1 ++ g :: gs2 /\ acceptable gs1 /\ g_type g = None.

Lemma left_spec : forall gs gs0 ds inf, LInv (sites gs0) ds inf -> acceptable gs0 ->
  (acceptable (gs0 ++ gs) /\ exists ds' inf', ofold left_gram (ds, inf) gs = ([], Ok (ds', inf')) /\ LInv (sites (gs0 ++ gs)) ds' inf') \/
  (~ acceptable (gs0 ++ gs) /\ exists e, ofold left_gram (ds, inf) gs = ([], Err e) /\
     ((e = AssertionError /\ forall gs1 g gs2, gs = gs1 ++ g :: gs2 -> acceptable (gs0 ++ gs1) -> g_type g <> None) \/
      (e = KeyError /\ exists gs1 g gs2, gs = gs1 ++ g :: gs2 /\ acceptable (gs0 ++ gs1) /\ g_type g = None))).
Proof.
  induction gs as [|g gs IH]; intros gs0 ds inf I A.
  - left. rewrite app_nil_r. split; [exact A|]. eexists _, _. split; [reflexivity|exact I].
  - assert (Sg : sites (gs0 ++ [g]) = sites gs0 ++ map (pair (g_sect g)) (g_prods g)) by (unfold sites; rewrite flat_map_app; cbn; now rewrite app_nil_r).
    assert (Step : acceptable (gs0 ++ g :: gs) -> acceptable (gs0 ++ [g])).
    { intros (F & S1 & S2). change (g :: gs) with ([g] ++ gs) in *. rewrite app_assoc in *. split; [apply Forall_app in F; apply F|]. unfold sites in S1, S2. rewrite flat_map_app in S1, S2.
      split; [apply Forall_app in S1; apply S1|]. apply fop_app_inv in S2. apply S2. }
    assert (Fail : ~ acceptable (gs0 ++ [g]) -> g_type g <> None -> forall gs1 g' gs2, g :: gs = gs1 ++ g' :: gs2 -> acceptable (gs0 ++ gs1) -> g_type g' <> None).
    { intros N T gs1 g' gs2 E H. destruct gs1 as [|x gs1]; injection E as <- E; [exact T|]. exfalso. apply N. subst gs.
      destruct H as (F & S1 & S2). change (g :: gs1) with ([g] ++ gs1) in *. rewrite app_assoc in *. split; [apply Forall_app in F; apply F|]. unfold sites in S1, S2. rewrite flat_map_app in S1, S2.
      split; [apply Forall_app in S1; apply S1|]. apply fop_app_inv in S2. apply S2. }
    cbn [ofold].
    assert (Eg : left_gram (ds, inf) g = match g_type g with None => ofail KeyError | Some t => obind (oassert (text_eqb t (tx "definition"))) (fun _ => obind (oassert (g_block g)) (fun _ => ofold (check_left (g_sect g)) (ds, inf) (g_prods g))) end) by reflexivity.
    rewrite Eg. clear Eg. destruct (g_type g) as [t|] eqn:Et.
    2:{ right. split; [intros H; apply Step in H as (F & _); apply Forall_app in F as [_ F]; inversion F as [|? ? [X _] _]; congruence|]. exists KeyError. split; [reflexivity|]. right. split; [reflexivity|]. exists [], g, gs. rewrite app_nil_r. auto. }
    rewrite !obind_assert. cbv beta iota. destruct (text_eqb t (tx "definition")) eqn:Ed.
    2:{ apply teqb_no in Ed. right. assert (N : ~ acceptable (gs0 ++ [g])) by (intros (F & _); apply Forall_app in F as [_ F]; inversion F as [|? ? [X _] _]; congruence).
        split; [tauto|]. exists AssertionError. split; [reflexivity|]. left. split; [reflexivity|]. apply Fail; [exact N|congruence]. }
    apply text_eqb_eq in Ed. subst t. rewrite ?obind_assert. destruct (g_block g) eqn:Eb.
    2:{ right. assert (N : ~ acceptable (gs0 ++ [g])) by (intros (F & _); apply Forall_app in F as [_ F]; inversion F as [|? ? [_ X] _]; congruence).
        split; [tauto|]. exists AssertionError. split; [reflexivity|]. left. split; [reflexivity|]. apply Fail; [exact N|congruence]. }
    destruct (prods_spec (g_sect g) (g_prods g) _ _ _ I (proj2 (proj2 A))) as [(F & A2 & ds' & inf' & E & I')|(N & E)]; rewrite E.
    + unfold obind. cbn [fst snd app]. rewrite <- Sg in I', A2. assert (A' : acceptable (gs0 ++ [g])).
      { split; [apply Forall_app; split; [apply A|constructor; [split; assumption|constructor]]|]. split; [rewrite Sg; apply Forall_app; split; [apply A|exact F]|exact A2]. }
      specialize (IH _ _ _ I' A'). rewrite <- app_assoc in IH. cbn [app] in IH. destruct IH as [(A3 & ds2 & inf2 & E2 & I2)|(N & e & E2 & H)].
      * left. split; [exact A3|]. exists ds2, inf2. split; [rewrite E2; reflexivity|exact I2].
      * right. split; [exact N|]. exists e. split; [rewrite E2; reflexivity|]. destruct H as [[-> H]|[-> (gs1 & g' & gs2 & -> & H1 & H2)]].
        -- left. split; [reflexivity|]. intros gs1 g' gs2 Eg Hg. destruct gs1 as [|x gs1]; injection Eg as <- Eg; [congruence|]. apply (H gs1 g' gs2 Eg). now rewrite <- app_assoc.
        -- right. split; [reflexivity|]. exists (g :: gs1), g', gs2. split; [reflexivity|]. rewrite <- app_assoc in H1. auto.
    + right. assert (N' : ~ acceptable (gs0 ++ [g])).
      { intros (F & S1 & S2). rewrite Sg in S1, S2. apply N. split; [apply Forall_app in S1; apply S1|exact S2]. }
      split; [tauto|]. exists AssertionError. split; [reflexivity|]. left. split; [reflexivity|]. apply Fail; [exact N'|congruence].
Qed.

(* --- lookup --- *)
Lemma lookup_spec : forall L ds inf n i a k, LInv L ds inf -> tget inf n = Some i ->
  (get_def_occ i a = Some k <-> exists q, nth_error L k = Some q /\ meant L a n q).
Proof.
  intros L ds inf n i a k I Hi. unfold get_def_occ. destruct (tget (i_occs i) a) as [j|] eqn:E.
  - pose proof (proj1 (li_occs _ _ _ I n i a j Hi) E) as (q & Hq & El & Ar). split.
    + intros [= <-]. exists q. split; [exact Hq|]. split; [eapply nth_error_In; eauto|]. auto.
    + intros (q' & Hq' & _ & El' & [Ar'|(_ & N)]).
      * assert (tget (i_occs i) a = Some k) by (apply (li_occs _ _ _ I n i a k Hi); eauto). congruence.
      * exfalso. exact (N q (nth_error_In _ _ Hq) El Ar).
  - assert (N : forall q', In q' L -> lhs q' = n -> ~ in_arena (fst q') a).
    { intros q' Hq El Ar. apply In_nth_error in Hq as (j & Hj). assert (tget (i_occs i) a = Some j) by (apply (li_occs _ _ _ I n i a j Hi); eauto). congruence. }
    rewrite (li_occs _ _ _ I n i (tx "A") k Hi). split.
    + intros (q & Hq & El & Ar). exists q. split; [exact Hq|]. split; [eapply nth_error_In; eauto|]. auto.
    + intros (q & Hq & Hin & El & [Ar|(Ar & _)]); [destruct (N q Hin El Ar)|]. exists q. auto.
Qed.
Lemma meant_unique : forall L ds inf a n j k q q', LInv L ds inf -> nth_error L j = Some q -> nth_error L k = Some q' -> meant L a n q -> meant L a n q' -> j = k /\ q = q'.
Proof.
  intros L ds inf a n j k q q' I Hj Hk M M'. destruct (proj2 (li_has _ _ _ I n) (ex_intro _ q (conj (proj1 M) (proj1 (proj2 M))))) as (i & Hi).
  pose proof (proj2 (lookup_spec L ds inf n i a j I Hi) (ex_intro _ q (conj Hj M))) as E1. pose proof (proj2 (lookup_spec L ds inf n i a k I Hi) (ex_intro _ q' (conj Hk M'))) as E2.
  split; congruence.
Qed.
Lemma meant_fun : forall L ds inf a n q q', LInv L ds inf -> meant L a n q -> meant L a n q' -> q = q'.
Proof. intros L ds inf a n q q' I M M'. destruct (In_nth_error _ _ (proj1 M)) as (j & Hj), (In_nth_error _ _ (proj1 M')) as (k & Hk). eapply meant_unique; eauto. Qed.

(* --- the second loop --- *)
(* a right-hand side refers to a nonterminal, perhaps with a question mark *)
Definition refers (r : rhs) (guards : list arg) (nt par : nat) (name : text) (args : list arg) : Prop :=
  exists items, r = Line guards items /\ (In (Gnt nt par name args) items \/ In (Qm (Gnt nt par name args)) items).
Definition guarded (r : rhs) (guards : list arg) : Prop := (exists items, r = Line guards items) \/ (exists names, r = LineOther guards names).
(* what the second loop demands of a right-hand side of the production q *)
Definition rhs_fine (L : list site) (q : site) (r : rhs) : Prop :=
  r <> OtherRhs /\
  (forall guards g, guarded r guards -> In g guards -> (a_sign g = Plus \/ a_sign g = Tilde) /\ In (a_name g) (p_params (snd q))) /\
  (forall guards nt par name args a, refers r guards nt par name args -> in_arena (fst q) a -> (exists q', In q' L /\ lhs q' = name) -> exists q', meant L a name q').
Inductive reported (L : list site) (q : site) (r : rhs) : msg -> Prop :=
| R_sign guards nt par name args x : refers r guards nt par name args -> In x args -> a_sign x = NoSign -> reported L q r (a_id x, MissingSign)
| R_undefined guards nt par name args : refers r guards nt par name args -> (forall q', In q' L -> lhs q' <> name) -> reported L q r (nt, Undefined)
| R_order guards nt par name args a q' : refers r guards nt par name args -> in_arena (fst q) a -> meant L a name q' ->
    map a_name args <> p_params (snd q') -> length args = length (p_params (snd q')) -> reported L q r (par, ArgsOrder (map a_name args) (p_params (snd q')))
| R_count guards nt par name args a q' : refers r guards nt par name args -> in_arena (fst q) a -> meant L a name q' ->
    length args <> length (p_params (snd q')) -> reported L q r (par, ArgsCount name (p_params (snd q')) (map a_name args))
| R_anomalous guards nt par name args x : refers r guards nt par name args -> (exists q', In q' L /\ lhs q' = name) -> In x args ->
    In (a_name x) (p_params (snd q)) -> a_sign x <> Quest -> (forall g, In g guards -> a_sign g = a_sign x -> a_name g <> a_name x) ->
    reported L q r (a_id x, Anomalous (lhs q) (a_name x))
| R_lhs guards nt par name args x : refers r guards nt par name args -> (exists q', In q' L /\ lhs q' = name) -> In x args ->
    ~ In (a_name x) (p_params (snd q)) -> a_sign x = Quest -> reported L q r (p_id (snd q), NotOnLhs (a_name x)).

Lemma sign_eqb_iff : forall a b, sign_eqb a b = true <-> a = b.
Proof. intros [] []; cbn; split; congruence. Qed.
Lemma texts_eqb_iff : forall a b, texts_eqb a b = true <-> a = b.
Proof.
  induction a as [|x a IH]; intros [|y b]; cbn [texts_eqb]; [split; reflexivity|split; discriminate|split; discriminate|]. rewrite andb_true_iff, text_eqb_eq, IH. split; [intros [-> ->]; reflexivity|intros [= -> ->]; auto].
Qed.
Lemma in_say : forall b m m', In m' (fst (say b m)) <-> b = true /\ m' = m.
Proof. intros [] m m'; cbn; [split; [intros [->|[]]; auto|intros [_ ->]; auto]|split; [intros []|intros [X _]; discriminate]]. Qed.
Lemma oeach_say_ok : forall B (f : B -> out unit) l, (forall x, snd (f x) = Ok tt) -> snd (oeach f l) = Ok tt.
Proof. intros B f l H. apply oeach_ok. apply Forall_forall. auto. Qed.
Lemma check_arg_ok : forall p gs x, snd (check_arg p gs x) = Ok tt.
Proof. intros p gs x. unfold check_arg. destruct (tin _ _); reflexivity. Qed.
Lemma check_arg_msgs : forall p gs x m, In m (fst (check_arg p gs x)) <->
  (In (a_name x) (p_params p) /\ a_sign x <> Quest /\ (forall g, In g gs -> a_sign g = a_sign x -> a_name g <> a_name x) /\ m = (a_id x, Anomalous (p_lhs p) (a_name x))) \/
  (~ In (a_name x) (p_params p) /\ a_sign x = Quest /\ m = (p_id p, NotOnLhs (a_name x))).
Proof.
  intros p gs x m. unfold check_arg. destruct (tin (a_name x) (p_params p)) eqn:E; rewrite in_say.
  - apply tin_iff in E. rewrite negb_true_iff, orb_false_iff. split.
    + intros [[A B] ->]. left. split; [exact E|]. split; [intros X; apply sign_eqb_iff in X; congruence|]. split; [|reflexivity]. intros g Hg S1 S2.
      assert (X : existsb (fun g => sign_eqb (a_sign g) (a_sign x) && text_eqb (a_name g) (a_name x)) gs = true).
      { apply existsb_exists. exists g. split; [exact Hg|]. apply andb_true_iff. split; [now apply sign_eqb_iff|now apply text_eqb_eq]. }
      congruence.
    + intros [(_ & A & B & ->)|(A & _)]; [|contradiction]. split; [|reflexivity]. split; [destruct (sign_eqb (a_sign x) Quest) eqn:X; [apply sign_eqb_iff in X; contradiction|reflexivity]|].
      destruct (existsb _ gs) eqn:X; [|reflexivity]. apply existsb_exists in X as (g & Hg & X). apply andb_true_iff in X as [X1 X2]. apply sign_eqb_iff in X1. apply text_eqb_eq in X2. destruct (B g Hg X1 X2).
  - apply tin_false in E. rewrite sign_eqb_iff. split; [intros [A ->]; right; auto|]. intros [(A & _)|(_ & A & ->)]; [contradiction|auto].
Qed.

(* the reference in an item *)
Definition ref_of (i : item) : option (nat * nat * text * list arg) :=
  match i with Gnt a b c d | Qm (Gnt a b c d) => Some (a, b, c, d) | _ => None end.
Lemma refers_iff : forall gs items gs' nt par name args, refers (Line gs items) gs' nt par name args <-> gs' = gs /\ exists i, In i items /\ ref_of i = Some (nt, par, name, args).
Proof.
  intros gs items gs' nt par name args. split.
  - intros (its & E & H). injection E as -> ->. split; [reflexivity|]. destruct H; eexists; split; eauto; reflexivity.
  - intros [-> (i & Hi & E)]. exists items. split; [reflexivity|]. destruct i as [a b c d|[a b c d|j|l]|l]; cbn in E; try discriminate; injection E as -> -> -> ->; auto.
Qed.

Section Loop2.
Variables (L : list site) (ds0 : list dprod) (inf : infos).
Hypothesis I : LInv L ds0 inf.
(* what the second loop keeps of the productions *)
Definition view (ds : list dprod) : Prop := map d_prod ds = map snd L.

Lemma view_nth : forall ds k, view ds -> match nth_error ds k, nth_error L k with Some d, Some q => d_prod d = snd q | None, None => True | _, _ => False end.
Proof.
  intros ds k V. pose proof (f_equal (fun l => nth_error l k) V) as E. cbn beta in E. rewrite !nth_error_map in E. unfold site in *. revert E. destruct (nth_error ds k), (nth_error L k); cbn [option_map]; intros E; [injection E as E; exact E|discriminate|discriminate|exact Logic.I].
Qed.
Lemma look_ds : forall ds n i a, view ds -> tget inf n = Some i ->
  (exists d q, (match get_def_occ i a with Some k => nth_error ds k | None => None end) = Some d /\ meant L a n q /\ d_prod d = snd q) \/
  ((match get_def_occ i a with Some k => nth_error ds k | None => None end) = None /\ forall q, ~ meant L a n q).
Proof.
  intros ds n i a V Hi. destruct (get_def_occ i a) as [k|] eqn:E.
  - left. apply (lookup_spec _ _ _ _ _ _ _ I Hi) in E as (q & Hq & M). pose proof (view_nth ds k V) as X. rewrite Hq in X. destruct (nth_error ds k) as [d|]; [|destruct X]. exists d, q. auto.
  - right. split; [reflexivity|]. intros q M. destruct (In_nth_error _ _ (proj1 M)) as (k & Hk). assert (get_def_occ i a = Some k) by (apply (lookup_spec _ _ _ _ _ _ _ I Hi); eauto). congruence.
Qed.
Lemma undefined : forall n, tget inf n = None <-> forall q, In q L -> lhs q <> n.
Proof.
  intros n. split.
  - intros E q Hq El. destruct (proj2 (li_has _ _ _ I n) (ex_intro _ q (conj Hq El))) as (i & X). congruence.
  - intros H. destruct (tget inf n) as [i|] eqn:E; [|reflexivity]. destruct (proj1 (li_has _ _ _ I n) (ex_intro _ i E)) as (q & Hq & El). destruct (H q Hq El).
Qed.

(* one item *)
Lemma item_spec : forall ds q gs i, view ds -> let p := snd q in let o := check_item ds inf p (arena_of (fst q)) gs i in
  match ref_of i with
  | None => o = ([], Ok tt)
  | Some (nt, par, name, args) =>
      ((exists q', In q' L /\ lhs q' = name) -> exists q', meant L (arena_of (fst q)) name q') /\ snd o = Ok tt \/
      (exists q', In q' L /\ lhs q' = name) /\ (forall q', ~ meant L (arena_of (fst q)) name q') /\ snd o = Err AttributeError
  end.
Proof.
  intros ds q gs i V p o. unfold o, check_item, p. clear o p.
  assert (K : forall nt par name args,
     let o := obind (oeach (fun a => say (sign_eqb (a_sign a) NoSign) (a_id a, MissingSign)) args) (fun _ =>
        match tget inf name with
        | None => say true (nt, Undefined)
        | Some nt_info =>
          match (match get_def_occ nt_info (arena_of (fst q)) with Some k => nth_error ds k | None => None end) with
          | None => ofail AttributeError
          | Some d =>
              let want := p_params (d_prod d) in
              let got := map a_name args in
              obind (if length got =? length want then say (negb (texts_eqb got want)) (par, ArgsOrder got want)
                     else say true (par, ArgsCount name want got)) (fun _ =>
              oeach (check_arg (snd q) gs) args)
          end
        end) in
      ((exists q', In q' L /\ lhs q' = name) -> exists q', meant L (arena_of (fst q)) name q') /\ snd o = Ok tt \/
      (exists q', In q' L /\ lhs q' = name) /\ (forall q', ~ meant L (arena_of (fst q)) name q') /\ snd o = Err AttributeError).
  { intros nt par name args o.
    assert (E1 : snd (oeach (fun a => say (sign_eqb (a_sign a) NoSign) (a_id a, MissingSign)) args) = Ok tt) by (apply oeach_say_ok; reflexivity).
    destruct (tget inf name) as [i0|] eqn:Ei.
    - destruct (look_ds ds name i0 (arena_of (fst q)) V Ei) as [(d & q' & E & M & _)|(E & M)].
      + left. split; [intros _; eauto|]. unfold o. apply obind_ok. exists tt. split; [exact E1|]. rewrite E. cbv zeta. apply obind_ok. exists tt. split; [destruct (_ =? _); reflexivity|]. apply oeach_say_ok. apply check_arg_ok.
      + right. split; [apply (li_has _ _ _ I); eauto|]. split; [exact M|]. unfold o. apply obind_err. right. exists tt. split; [exact E1|]. rewrite E. reflexivity.
    - left. split; [intros (q' & Hq & El); destruct (proj1 (undefined name) Ei q' Hq El)|]. unfold o. apply obind_ok. exists tt. split; [exact E1|reflexivity]. }
  destruct i as [a b c d|[a b c d|j|l]|l]; cbn [ref_of]; try reflexivity; apply K.
Qed.
Lemma item_msgs : forall ds q gs i items m, view ds -> In i items -> let o := check_item ds inf (snd q) (arena_of (fst q)) gs i in
  snd o = Ok tt -> In m (fst o) ->  reported L q (Line gs items) m.
Proof.
  intros ds q gs i items m V Hi o Ho Hm. pose proof (item_spec ds q gs i V) as K. cbv zeta in K. fold o in K. destruct (ref_of i) as [[[[nt par] name] args]|] eqn:R; [|rewrite K in Hm; destruct Hm].
  assert (Rf : refers (Line gs items) gs nt par name args) by (apply refers_iff; split; [reflexivity|exists i; auto]).
  pose proof (proj1 (arena_spec (fst q) _) eq_refl) as Ha.
  assert (Hm' : In m (fst (obind (oeach (fun a => say (sign_eqb (a_sign a) NoSign) (a_id a, MissingSign)) args) (fun _ =>
        match tget inf name with
        | None => say true (nt, Undefined)
        | Some nt_info =>
          match (match get_def_occ nt_info (arena_of (fst q)) with Some k => nth_error ds k | None => None end) with
          | None => ofail AttributeError
          | Some d =>
              let want := p_params (d_prod d) in
              let got := map a_name args in
              obind (if length got =? length want then say (negb (texts_eqb got want)) (par, ArgsOrder got want)
                     else say true (par, ArgsCount name want got)) (fun _ =>
              oeach (check_arg (snd q) gs) args)
          end
        end)))).
  { unfold o, check_item in Hm. destruct i as [a b c d|[a b c d|j|l]|l]; cbn in R; try discriminate; injection R as -> -> -> ->; exact Hm. }
  clear Hm. rename Hm' into Hm. rewrite (obind_msgs _ _ _ _ tt) in Hm by (apply oeach_say_ok; reflexivity). apply in_app_iff in Hm as [Hm|Hm].
  - apply oeach_msgs in Hm as (x & Hx & Hm); [|apply oeach_say_ok; reflexivity]. apply in_say in Hm as [S1 ->]. apply sign_eqb_iff in S1. eapply R_sign; eauto.
  - destruct (tget inf name) as [i0|] eqn:Ei.
    + destruct (look_ds ds name i0 (arena_of (fst q)) V Ei) as [(d & q' & E & M & Ed)|(E & M)]; rewrite E in Hm; [|destruct Hm]. cbv zeta in Hm. rewrite Ed, map_length in Hm.
      rewrite (obind_msgs _ _ _ _ tt) in Hm by (destruct (_ =? _); reflexivity). apply in_app_iff in Hm as [Hm|Hm].
      * destruct (length args =? length (p_params (snd q'))) eqn:El; apply in_say in Hm as [B ->].
        -- apply Nat.eqb_eq in El. apply negb_true_iff in B. eapply R_order; eauto. intros X. apply texts_eqb_iff in X. congruence.
        -- apply Nat.eqb_neq in El. eapply R_count; eauto.
      * apply oeach_msgs in Hm as (x & Hx & Hm); [|apply oeach_say_ok, check_arg_ok]. assert (Df : exists q'', In q'' L /\ lhs q'' = name) by (exists q'; split; apply M).
        apply check_arg_msgs in Hm as [(A & B & C & ->)|(A & B & ->)]; [eapply R_anomalous; eauto|eapply R_lhs; eauto].
    + apply in_say in Hm as [_ ->]. eapply R_undefined; [exact Rf|]. now apply undefined.
Qed.
Lemma item_msgs_conv : forall ds q gs items m, view ds -> reported L q (Line gs items) m ->
  Forall (fun i => snd (check_item ds inf (snd q) (arena_of (fst q)) gs i) = Ok tt) items ->
  exists i, In i items /\ In m (fst (check_item ds inf (snd q) (arena_of (fst q)) gs i)).
Proof.
  intros ds q gs items m V H F.
  assert (K : forall gs' nt par name args, refers (Line gs items) gs' nt par name args -> gs' = gs /\ exists i, In i items /\
     snd (check_item ds inf (snd q) (arena_of (fst q)) gs i) = Ok tt /\
     check_item ds inf (snd q) (arena_of (fst q)) gs i = obind (oeach (fun a => say (sign_eqb (a_sign a) NoSign) (a_id a, MissingSign)) args) (fun _ =>
        match tget inf name with
        | None => say true (nt, Undefined)
        | Some nt_info =>
          match (match get_def_occ nt_info (arena_of (fst q)) with Some k => nth_error ds k | None => None end) with
          | None => ofail AttributeError
          | Some d =>
              let want := p_params (d_prod d) in
              let got := map a_name args in
              obind (if length got =? length want then say (negb (texts_eqb got want)) (par, ArgsOrder got want)
                     else say true (par, ArgsCount name want got)) (fun _ =>
              oeach (check_arg (snd q) gs) args)
          end
        end)).
  { intros gs' nt par name args R. apply refers_iff in R as (-> & i & Hi & R). split; [reflexivity|]. exists i. split; [exact Hi|]. rewrite Forall_forall in F. split; [apply F; exact Hi|].
    unfold check_item. destruct i as [a b c d|[a b c d|j|l]|l]; cbn in R; try discriminate; injection R as -> -> -> ->; reflexivity. }
  assert (E1 : forall args, snd (oeach (fun a => say (sign_eqb (a_sign a) NoSign) (a_id a, MissingSign)) args) = Ok tt) by (intros; apply oeach_say_ok; reflexivity).
  assert (Df : forall name nt par args gs', refers (Line gs items) gs' nt par name args -> (exists q', In q' L /\ lhs q' = name) -> exists i0 d q', tget inf name = Some i0 /\ (match get_def_occ i0 (arena_of (fst q)) with Some k => nth_error ds k | None => None end) = Some d /\ meant L (arena_of (fst q)) name q' /\ d_prod d = snd q').
  { intros name nt par args gs' R D. apply (li_has _ _ _ I) in D as (i0 & Hi). destruct (look_ds ds name i0 (arena_of (fst q)) V Hi) as [(d & q' & X)|(X & _)]; [exists i0, d, q'; tauto|]. exfalso.
    apply K in R as (_ & i & _ & Hok & E). rewrite E in Hok. apply obind_ok in Hok as (u & _ & Hok). rewrite Hi, X in Hok. discriminate. }
  inversion H as [gs' nt par name args x R Hx Hs|gs' nt par name args R Hu|gs' nt par name args a q' R Ha M N E|gs' nt par name args a q' R Ha M N|gs' nt par name args x R D Hx Hp Hs Hg|gs' nt par name args x R D Hx Hp Hs]; subst m;
  destruct (K _ _ _ _ _ R) as (-> & i & Hi & Hok & E'); exists i; (split; [exact Hi|]); rewrite E', (obind_msgs _ _ _ _ tt (E1 args)); apply in_app_iff.
  - left. apply oeach_msgs; [apply E1|]. exists x. split; [exact Hx|]. apply in_say. split; [now apply sign_eqb_iff|reflexivity].
  - right. rewrite (proj2 (undefined name) Hu). now left.
  - right. apply arena_spec in Ha. subst a. destruct (Df _ _ _ _ _ R (ex_intro _ q' (conj (proj1 M) (proj1 (proj2 M))))) as (i0 & d & q2 & T & X & M2 & Ed). rewrite (meant_fun _ _ _ _ _ _ _ I M2 M) in Ed. rewrite T, X. cbv zeta. rewrite Ed, map_length, E, Nat.eqb_refl.
    rewrite (obind_msgs _ _ _ _ tt) by reflexivity. apply in_app_iff. left. apply in_say. split; [|reflexivity]. apply negb_true_iff. destruct (texts_eqb _ _) eqn:Y; [apply texts_eqb_iff in Y; contradiction|reflexivity].
  - right. apply arena_spec in Ha. subst a. destruct (Df _ _ _ _ _ R (ex_intro _ q' (conj (proj1 M) (proj1 (proj2 M))))) as (i0 & d & q2 & T & X & M2 & Ed). rewrite (meant_fun _ _ _ _ _ _ _ I M2 M) in Ed. rewrite T, X. cbv zeta. rewrite Ed, map_length.
    apply Nat.eqb_neq in N. rewrite N. rewrite (obind_msgs _ _ _ _ tt) by reflexivity. apply in_app_iff. left. apply in_say. auto.
  - right. destruct (Df _ _ _ _ _ R D) as (i0 & d & q2 & T & X & M2 & Ed). rewrite T, X. cbv zeta. rewrite (obind_msgs _ _ _ _ tt) by (destruct (_ =? _); reflexivity). apply in_app_iff. right.
    apply oeach_msgs; [apply oeach_say_ok, check_arg_ok|]. exists x. split; [exact Hx|]. apply check_arg_msgs. left. auto.
  - right. destruct (Df _ _ _ _ _ R D) as (i0 & d & q2 & T & X & M2 & Ed). rewrite T, X. cbv zeta. rewrite (obind_msgs _ _ _ _ tt) by (destruct (_ =? _); reflexivity). apply in_app_iff. right.
    apply oeach_msgs; [apply oeach_say_ok, check_arg_ok|]. exists x. split; [exact Hx|]. apply check_arg_msgs. right. auto.
Qed.
Lemma guard_spec : forall p g, check_guard p g = ([], if (sign_eqb (a_sign g) Plus || sign_eqb (a_sign g) Tilde) && tin (a_name g) (p_params p) then Ok tt else Err AssertionError).
Proof. intros p g. unfold check_guard. rewrite obind_assert. destruct (sign_eqb (a_sign g) Plus || sign_eqb (a_sign g) Tilde); [|reflexivity]. unfold oassert, assert_. destruct (tin _ _); reflexivity. Qed.
Lemma guard_ok : forall p g, snd (check_guard p g) = Ok tt <-> (a_sign g = Plus \/ a_sign g = Tilde) /\ In (a_name g) (p_params p).
Proof.
  intros p g. rewrite guard_spec. cbn [snd]. rewrite <- tin_iff, <- !sign_eqb_iff, <- orb_true_iff. destruct (sign_eqb (a_sign g) Plus || sign_eqb (a_sign g) Tilde), (tin (a_name g) (p_params p)); cbn; split; try discriminate; try tauto; intros [X Y]; discriminate.
Qed.
Lemma guards_silent : forall p l, fst (oeach (check_guard p) l) = [].
Proof. intros p. induction l as [|g l IH]; [reflexivity|]. cbn [oeach]. rewrite guard_spec. unfold obind. cbn [fst snd app]. destruct (_ && _); [exact IH|reflexivity]. Qed.

Lemma rhs_spec : forall ds q r, view ds -> let o := check_rhs ds inf (snd q) (arena_of (fst q)) r in
  (snd o = Ok tt <-> rhs_fine L q r) /\ (snd o = Ok tt -> forall m, In m (fst o) <-> reported L q r m) /\
  (forall e, snd o = Err e -> e = AssertionError \/ e = AttributeError).
Proof.
  intros ds q r V o. pose proof (proj1 (arena_spec (fst q) _) eq_refl) as Ha.
  assert (Norep : forall r', (forall gs items, r' <> Line gs items) -> forall m, ~ reported L q r' m).
  { intros r' N m H. inversion H as [gs' nt par name args x R|gs' nt par name args R|gs' nt par name args a q' R|gs' nt par name args a q' R|gs' nt par name args x R|gs' nt par name args x R]; destruct R as (its & -> & _); eapply N; reflexivity. }
  destruct r as [gs items|gs names| |]; unfold o; cbn [check_rhs].
  - assert (Err' : forall e, snd (obind (oeach (check_guard (snd q)) gs) (fun _ => oeach (check_item ds inf (snd q) (arena_of (fst q)) gs) items)) = Err e -> e = AssertionError \/ e = AttributeError).
    { intros e H. apply obind_err in H as [H|([] & _ & H)]; apply oeach_err in H as (x & _ & H).
      - rewrite guard_spec in H. cbn in H. destruct (_ && _); [discriminate|]. injection H as <-. now left.
      - right. pose proof (item_spec ds q gs x V) as K. cbv zeta in K. destruct (ref_of x) as [[[[nt par] name] args]|]; [destruct K as [[_ K]|(_ & _ & K)]; rewrite K in H; congruence|rewrite K in H; discriminate]. }
    assert (Ok' : snd (obind (oeach (check_guard (snd q)) gs) (fun _ => oeach (check_item ds inf (snd q) (arena_of (fst q)) gs) items)) = Ok tt <->
       Forall (fun g => snd (check_guard (snd q) g) = Ok tt) gs /\ Forall (fun i => snd (check_item ds inf (snd q) (arena_of (fst q)) gs i) = Ok tt) items).
    { rewrite obind_ok, <- !oeach_ok. split; [intros ([] & A & B); auto|intros [A B]; exists tt; auto]. }
    split; [|split; [|exact Err']].
    + rewrite Ok'. split.
      * intros [G F]. split; [discriminate|]. split.
        -- intros gs' g [(its & E)|(nm & E)] Hg; [|discriminate]. injection E as -> ->. rewrite Forall_forall in G. apply guard_ok. auto.
        -- intros gs' nt par name args a R Ar D. apply arena_spec in Ar. subst a. apply refers_iff in R as (-> & i & Hi & R). rewrite Forall_forall in F. pose proof (F i Hi) as E.
           pose proof (item_spec ds q gs i V) as K. cbv zeta in K. rewrite R in K. destruct K as [[K _]|(_ & _ & K)]; [exact (K D)|congruence].
      * intros (_ & G & D). split.
        -- apply Forall_forall. intros g Hg. apply guard_ok. apply (G gs g); [left; eauto|exact Hg].
        -- apply Forall_forall. intros i Hi. pose proof (item_spec ds q gs i V) as K. cbv zeta in K. destruct (ref_of i) as [[[[nt par] name] args]|] eqn:R; [|rewrite K; reflexivity]. destruct K as [[_ K]|(K1 & K2 & _)]; [exact K|]. exfalso.
           destruct (D gs nt par name args _ (proj2 (refers_iff _ _ _ _ _ _ _) (conj eq_refl (ex_intro _ i (conj Hi R)))) Ha K1) as (q' & M). exact (K2 q' M).
    + intros H m. apply Ok' in H as [G F]. rewrite (obind_msgs _ _ _ _ tt) by (now apply oeach_ok). rewrite guards_silent. cbn [app]. rewrite oeach_msgs by (now apply oeach_ok). split.
      * intros (i & Hi & Hm). rewrite Forall_forall in F. eapply item_msgs; eauto.
      * intros H. eapply item_msgs_conv; eauto.
  - split; [|split].
    + rewrite oeach_ok. split.
      * intros G. split; [discriminate|]. split.
        -- intros gs' g [(its & E)|(nm & E)] Hg; [discriminate|]. injection E as -> ->. rewrite Forall_forall in G. apply guard_ok. auto.
        -- intros gs' nt par name args a (its & E & _). discriminate.
      * intros (_ & G & _). apply Forall_forall. intros g Hg. apply guard_ok. apply (G gs g); [right; eauto|exact Hg].
    + intros _ m. rewrite guards_silent. split; [intros []|]. intros H. destruct (Norep (LineOther gs names) ltac:(discriminate) m H).
    + intros e H. apply oeach_err in H as (x & _ & H). rewrite guard_spec in H. cbn in H. destruct (_ && _); [discriminate|]. injection H as <-. now left.
  - split; [|split].
    + split; [|reflexivity]. intros _. split; [discriminate|]. split; [intros gs g [(x & E)|(x & E)]; discriminate|intros gs nt par name args a (x & E & _); discriminate].
    + intros _ m. split; [intros []|]. intros H. destruct (Norep Backticked ltac:(discriminate) m H).
    + discriminate.
  - split; [|split].
    + split; [discriminate|]. intros (N & _). destruct (N eq_refl).
    + discriminate.
    + intros e [= <-]. now left.
Qed.
End Loop2.

(* the right-hand sides that a production ends up with *)
Definition full (L : list site) (q : site) (rs : list rhs) : Prop :=
  (~ adding (fst q) /\ rs = p_rhss (snd q)) \/
  (adding (fst q) /\ exists b, In b L /\ lhs b = lhs q /\ in_arena (fst b) (tx "A") /\ rs = p_rhss (snd b) ++ p_rhss (snd q)).
Definition prod_fine (L : list site) (q : site) : Prop :=
  Forall (rhs_fine L q) (p_rhss (snd q)) /\ (adding (fst q) -> exists b, In b L /\ lhs b = lhs q /\ in_arena (fst b) (tx "A")).
Definition known (L : list site) (d : dprod) (q : site) : Prop := d_prod d = snd q /\ d_arena d = arena_of (fst q) /\ d_aug d = augments_in (fst q).
Record RInv (L : list site) (ds : list dprod) (k : nat) : Prop := mkRInv {
  ri_len : length ds = length L;
  ri_nth : forall j q, nth_error L j = Some q -> exists d, nth_error ds j = Some d /\ known L d q /\
     (k <= j \/ ~ adding (fst q) -> d_rhss d = p_rhss (snd q)) /\ (j < k -> full L q (d_rhss d)) }.
Lemma nth_error_ext' : forall A (l l' : list A), (forall j, nth_error l j = nth_error l' j) -> l = l'.
Proof.
  intros A. induction l as [|x l IH]; intros [|y l'] H; [reflexivity|discriminate (H 0)|discriminate (H 0)|]. f_equal; [pose proof (H 0) as X; cbn in X; congruence|]. apply IH. intros j. exact (H (S j)).
Qed.
Lemma rinv_view : forall L ds k, RInv L ds k -> view L ds.
Proof.
  intros L ds k R. unfold view. apply nth_error_ext'. intros j. rewrite !nth_error_map. destruct (nth_error L j) as [q|] eqn:E.
  - destruct (ri_nth _ _ _ R j q E) as (d & Ed & (K & _) & _). unfold site in *. rewrite Ed, E. cbn. now rewrite K.
  - assert (N : nth_error ds j = None) by (apply nth_error_None; rewrite (ri_len _ _ _ R); now apply nth_error_None). unfold site in *. now rewrite N, E.
Qed.
Lemma set_rhss_len : forall ds k r, length (set_rhss ds k r) = length ds.
Proof. induction ds as [|d ds IH]; intros [|k] r; cbn; auto. Qed.
Lemma set_rhss_nth : forall ds k r j, nth_error (set_rhss ds k r) j = if j =? k then option_map (fun d => mkD (d_prod d) (d_arena d) (d_aug d) r) (nth_error ds j) else nth_error ds j.
Proof.
  induction ds as [|d ds IH]; intros k r j; [destruct k, j; cbn; try reflexivity; destruct (_ =? _); reflexivity|]. destruct k as [|k], j as [|j]; cbn [set_rhss nth_error Nat.eqb option_map]; try reflexivity. apply IH.
Qed.
Lemma adding_arena : forall s, adding s -> ~ in_arena s (tx "A").
Proof. intros s [A _] B. apply arena_spec in A, B. rewrite A in B. discriminate. Qed.
Lemma meant_A : forall L n q, meant L (tx "A") n q <-> In q L /\ lhs q = n /\ in_arena (fst q) (tx "A").
Proof. intros L n q. unfold meant. tauto. Qed.

Lemma right_step : forall L ds0 inf ds k q, LInv L ds0 inf -> RInv L ds k -> nth_error L k = Some q -> let o := right_prod inf ds k in
  (exists ds', snd o = Ok ds' /\ RInv L ds' (S k) /\ prod_fine L q /\ forall m, In m (fst o) <-> exists r, In r (p_rhss (snd q)) /\ reported L q r m) \/
  (~ prod_fine L q /\ exists e, snd o = Err e /\ (e = AssertionError \/ e = AttributeError)).
Proof.
  intros L ds0 inf ds k q I R Hq o. pose proof (rinv_view _ _ _ R) as V. destruct (ri_nth _ _ _ R k q Hq) as (d & Ed & (K1 & K2 & K3) & Dr & _).
  specialize (Dr (or_introl (le_n k))). unfold o, right_prod. rewrite Ed, K1, K2, Dr. clear o.
  destruct (oeach (check_rhs ds inf (snd q) (arena_of (fst q))) (p_rhss (snd q))) as [ms [[]|e]] eqn:Eo.
  - assert (Oo : snd (oeach (check_rhs ds inf (snd q) (arena_of (fst q))) (p_rhss (snd q))) = Ok tt) by (rewrite Eo; reflexivity).
    assert (F : Forall (rhs_fine L q) (p_rhss (snd q))).
    { apply oeach_ok in Oo. rewrite Forall_forall in *. intros r Hr. apply (rhs_spec L ds0 inf I ds q r V). auto. }
    assert (Ms : forall m, In m ms <-> exists r, In r (p_rhss (snd q)) /\ reported L q r m).
    { intros m. pose proof (oeach_msgs _ _ _ m Oo) as X. rewrite Eo in X. cbn [fst] in X. rewrite X. apply oeach_ok in Oo. rewrite Forall_forall in Oo.
      split; intros (r & Hr & Y); exists r; (split; [exact Hr|]); apply (rhs_spec L ds0 inf I ds q r V); auto. }
    unfold obind. cbn [fst snd]. rewrite K3. pose proof K3 as K4. destruct (augments_in (fst q)) eqn:Eg.
    + pose proof Eg as Eg'. apply aug_spec in Eg. destruct (proj2 (li_has _ _ _ I (lhs q)) (ex_intro _ q (conj (nth_error_In _ _ Hq) eq_refl))) as (i & Hi). unfold lhs in Hi. rewrite Hi.
      destruct (get_def_occ i (tx "A")) as [j|] eqn:Ej.
      * apply (lookup_spec _ _ _ _ _ _ _ I Hi) in Ej as (b & Hb & M). apply meant_A in M as (Hin & El & Ar). destruct (ri_nth _ _ _ R j b Hb) as (db & Edb & _ & Db & _).
        assert (Nb : ~ adding (fst b)) by (intros X; exact (adding_arena _ X Ar)). specialize (Db (or_intror Nb)). rewrite Edb. left. exists (set_rhss ds k (d_rhss db ++ p_rhss (snd q))). cbn [oret fst snd]. rewrite app_nil_r.
        split; [reflexivity|]. split.
        -- constructor; [rewrite set_rhss_len; apply (ri_len _ _ _ R)|]. intros j' q' Hq'. rewrite set_rhss_nth. destruct (Nat.eqb_spec j' k) as [->|Nk].
           ++ assert (q' = q) by congruence. subst q'. rewrite Ed. cbn [option_map]. eexists. split; [reflexivity|]. split; [unfold known; cbn; rewrite Eg'; auto|]. cbn [d_rhss]. split; [intros [X|X]; [lia|contradiction]|].
              intros _. right. split; [exact Eg|]. exists b. rewrite Db. auto.
           ++ destruct (ri_nth _ _ _ R j' q' Hq') as (d' & E' & K' & A' & B'). exists d'. split; [exact E'|]. split; [exact K'|]. split; [intros [X|X]; [apply A'; left; lia|auto]|intros X; apply B'; lia].
        -- split; [split; [exact F|intros _; exists b; auto]|exact Ms].
      * right. split; [|exists AttributeError; auto]. intros [_ X]. destruct (X Eg) as (b & Hin & El & Ar). destruct (In_nth_error _ _ Hin) as (j & Hj).
        assert (get_def_occ i (tx "A") = Some j) by (apply (lookup_spec _ _ _ _ _ _ _ I Hi); exists b; split; [exact Hj|apply meant_A; auto]). congruence.
    + assert (Na : ~ adding (fst q)) by (intros X; apply aug_spec in X; congruence). left. exists ds. cbn [oret fst snd]. rewrite app_nil_r. split; [reflexivity|]. split.
      * constructor; [apply (ri_len _ _ _ R)|]. intros j' q' Hq'. destruct (ri_nth _ _ _ R j' q' Hq') as (d' & E' & K' & A' & B'). exists d'. split; [exact E'|]. split; [exact K'|]. split; [intros [X|X]; [apply A'; left; lia|auto]|].
        intros X. destruct (Nat.eq_dec j' k) as [->|]; [|apply B'; lia]. assert (q' = q) by congruence. subst q'. left. auto.
      * split; [split; [exact F|intros X; contradiction]|exact Ms].
  - right. unfold obind. cbn [fst snd]. assert (Oo : snd (oeach (check_rhs ds inf (snd q) (arena_of (fst q))) (p_rhss (snd q))) = Err e) by (rewrite Eo; reflexivity). apply oeach_err in Oo as (r & Hr & Oo).
    split; [|exists e; split; [reflexivity|]; exact (proj2 (proj2 (rhs_spec L ds0 inf I ds q r V)) e Oo)]. intros [F _]. rewrite Forall_forall in F. apply (rhs_spec L ds0 inf I ds q r V) in F; [|exact Hr]. congruence.
Qed.
Lemma right_loop : forall L ds0 inf n k ds, LInv L ds0 inf -> RInv L ds k -> k + n = length L -> let o := ofold (right_prod inf) ds (seq k n) in
  (exists ds', snd o = Ok ds' /\ RInv L ds' (length L) /\ Forall (prod_fine L) (skipn k L) /\
     forall m, In m (fst o) <-> exists q r, In q (skipn k L) /\ In r (p_rhss (snd q)) /\ reported L q r m) \/
  (~ Forall (prod_fine L) (skipn k L) /\ exists e, snd o = Err e /\ (e = AssertionError \/ e = AttributeError)).
Proof.
  intros L ds0 inf. induction n as [|n IH]; intros k ds I R Hk o.
  - left. exists ds. split; [reflexivity|]. split; [replace (length L) with k by lia; exact R|]. rewrite skipn_all2 by lia. split; [constructor|]. intros m. split; [intros []|intros (q & r & [] & _)].
  - destruct (nth_error L k) as [q|] eqn:Eq; [|apply nth_error_None in Eq; lia]. assert (Sk : skipn k L = q :: skipn (S k) L).
    { revert Eq. clear. revert k. induction L as [|x L IH]; intros [|k] E; try discriminate; [injection E as ->; reflexivity|]. exact (IH k E). }
    rewrite Sk. unfold o. cbn [seq ofold]. destruct (right_step L ds0 inf ds k q I R Eq) as [(ds1 & E1 & R1 & F1 & M1)|(N & e & E1 & He)].
    + destruct (IH (S k) ds1 I R1 ltac:(lia)) as [(ds2 & E2 & R2 & F2 & M2)|(N & e & E2 & He)].
      * left. exists ds2. split; [apply obind_ok; exists ds1; auto|]. split; [exact R2|]. split; [constructor; assumption|]. intros m. rewrite (obind_msgs _ _ _ _ ds1 E1), in_app_iff, M1, M2. split.
        -- intros [(r & Hr & H)|(q' & r & Hq & Hr & H)]; [exists q, r; split; [now left|auto]|exists q', r; split; [now right|auto]].
        -- intros (q' & r & [<-|Hq] & Hr & H); [left; eauto|right; exists q', r; auto].
      * right. split; [intros X; apply N; now inversion X|]. exists e. split; [apply obind_err; right; exists ds1; auto|exact He].
    + right. split; [intros X; apply N; now inversion X|]. exists e. split; [apply obind_err; left; exact E1|exact He].
Qed.
Lemma rinv_0 : forall L ds inf, LInv L ds inf -> RInv L ds 0.
Proof.
  intros L ds inf I. pose proof (li_ds _ _ _ I) as E. constructor; [rewrite E; apply map_length|]. intros j q Hq. exists (mkD (snd q) (arena_of (fst q)) (augments_in (fst q)) (p_rhss (snd q))).
  split; [rewrite E, nth_error_map; unfold site in *; rewrite Hq; reflexivity|]. split; [unfold known; cbn; auto|]. cbn. split; [auto|lia].
Qed.
Lemma process_spec : forall gs,
  (acceptable gs /\ Forall (prod_fine (sites gs)) (sites gs) /\
   exists ms ds ds0 inf, process gs = (ms, Ok (ds, inf)) /\ LInv (sites gs) ds0 inf /\ RInv (sites gs) ds (length (sites gs)) /\
     forall m, In m ms <-> exists q r, In q (sites gs) /\ In r (p_rhss (snd q)) /\ reported (sites gs) q r m) \/
  (acceptable gs /\ ~ Forall (prod_fine (sites gs)) (sites gs) /\ exists ms e, process gs = (ms, Err e) /\ (e = AssertionError \/ e = AttributeError)) \/
  (~ acceptable gs /\ exists e, process gs = ([], Err e) /\ ((e = AssertionError /\ ~ untyped gs) \/ (e = KeyError /\ untyped gs))).
Proof.
  intros gs. unfold process. destruct (left_spec gs [] [] [] linv_nil ltac:(repeat split; constructor)) as [(A & ds & inf & E & I)|(N & e & E & H)]; unfold infos in *; rewrite E; unfold obind at 1; cbn [fst snd app] in *.
  - assert (Len : length ds = length (sites gs)) by (rewrite (li_ds _ _ _ I); apply map_length). pose proof (right_loop (sites gs) ds inf (length ds) 0 ds I (rinv_0 _ _ _ I) Len) as K. cbv zeta in K.
    change (skipn 0 (sites gs)) with (sites gs) in K.
    destruct K as [(ds' & E2 & R & F & M)|(N & e & E2 & He)].
    + left. split; [exact A|]. split; [exact F|]. exists (fst (ofold (right_prod inf) ds (seq 0 (length ds)))), ds', ds, inf. split; [|split; [exact I|split; [exact R|exact M]]].
      unfold obind. cbn [fst snd app]. rewrite E2. cbn [fst snd oret]. now rewrite app_nil_r.
    + right. left. split; [exact A|]. split; [exact N|]. exists (fst (ofold (right_prod inf) ds (seq 0 (length ds)))), e. split; [|exact He]. unfold obind. cbn [fst snd app]. rewrite E2. reflexivity.
  - right. right. split; [exact N|]. exists e. split; [reflexivity|]. unfold untyped. destruct H as [[-> H]|[-> H]]; [left; split; [reflexivity|]|right; split; [reflexivity|exact H]].
    intros (gs1 & g & gs2 & Eg & Ag & Tg). exact (H gs1 g gs2 Eg Ag Tg).
Qed.

(* --- the grammars --- *)
Definition text_lt (a b : text) : Prop := text_leb a b = true /\ a <> b.
Lemma tget_in : forall A (d : list (text * A)) k v, NoDup (map fst d) -> (tget d k = Some v <-> In (k, v) d).
Proof.
  intros A. induction d as [|[k' v'] d IH]; intros k v H; cbn [tget]; [split; [discriminate|intros []]|]. cbn [map fst] in H. inversion H as [|? ? N H']. subst. destruct (text_eqb k' k) eqn:E.
  - apply text_eqb_eq in E. subst k'. split; [intros [= ->]; now left|]. intros [X|X]; [congruence|]. exfalso. apply N. apply (in_map fst) in X. exact X.
  - apply teqb_no in E. rewrite (IH k v H'). split; [intros X; now right|intros [X|X]; [congruence|exact X]].
Qed.
Lemma tset_new : forall A (d : list (text * A)) k v, ~ In k (map fst d) -> tset d k v = d ++ [(k, v)].
Proof.
  intros A. induction d as [|[k' v'] d IH]; intros k v H; cbn [tset app]; [reflexivity|]. cbn [map fst In] in H. assert (E : text_eqb k' k = false) by (apply teqb_no; tauto). rewrite E, IH; [reflexivity|tauto].
Qed.
Definition entries (ds : list dprod) (level arena : text) (l : infos) : grammar :=
  flat_map (fun e => if text_eqb (level_of (fst e) (snd e)) level
                     then match get_def_occ (snd e) arena with Some k => match nth_error ds k with Some d => [(fst e, d)] | None => [] end | None => [] end
                     else []) l.
Lemma fill_spec : forall ds level arena l g,
  (forall n i k, In (n, i) l -> get_def_occ i arena = Some k -> exists d, nth_error ds k = Some d /\ p_lhs (d_prod d) = n) ->
  NoDup (map fst g ++ map fst l) -> fill ds level arena l g = Ok (g ++ entries ds level arena l).
Proof.
  intros ds level arena. induction l as [|[n i] l IH]; intros g H N; cbn [fill entries flat_map fst snd]; [now rewrite app_nil_r|].
  cbn [map fst] in N. pose proof (NoDup_remove_1 _ _ _ N) as N1. pose proof (NoDup_remove_2 _ _ _ N) as N2. assert (H' : forall n i k, In (n, i) l -> get_def_occ i arena = Some k -> exists d, nth_error ds k = Some d /\ p_lhs (d_prod d) = n) by (intros; eapply H; [right; eauto|eauto]).
  fold (entries ds level arena l). destruct (text_eqb (level_of n i) level); [|apply IH; assumption]. destruct (get_def_occ i arena) as [k|] eqn:Ek; [|apply IH; assumption].
  destruct (H n i k (or_introl eq_refl) Ek) as (d & Ed & El). rewrite Ed. unfold add_prodn. rewrite El. assert (Ng : ~ In n (map fst g)) by (intros X; apply N2; apply in_app_iff; now left).
  assert (T : thas g n = false). { destruct (thas g n) eqn:T; [|reflexivity]. exfalso. apply Ng. apply thas_true in T. now apply tget_keys. }
  rewrite T. cbn [negb assert_ bind]. rewrite tset_new by exact Ng. rewrite IH; [now rewrite <- app_assoc|exact H'|]. rewrite map_app. cbn [map fst]. rewrite <- app_assoc. exact N.
Qed.
Lemma entries_keys : forall ds level arena l, exists b, map fst (entries ds level arena l) = map fst (filter b l).
Proof.
  intros ds level arena l. exists (fun e => text_eqb (level_of (fst e) (snd e)) level && match get_def_occ (snd e) arena with Some k => match nth_error ds k with Some _ => true | None => false end | None => false end).
  induction l as [|[n i] l IH]; [reflexivity|]. cbn [entries flat_map filter fst snd]. fold (entries ds level arena l). destruct (text_eqb (level_of n i) level); [|exact IH]. cbn [andb].
  destruct (get_def_occ i arena) as [k|]; [|exact IH]. destruct (nth_error ds k); [|exact IH]. cbn [app map fst]. now rewrite IH.
Qed.
Lemma ss_filter_map : forall A B (R : B -> B -> Prop) (f : A -> B) b l, StronglySorted R (map f l) -> StronglySorted R (map f (filter b l)).
Proof.
  intros A B R f b. induction l as [|x l IH]; intros H; [constructor|]. cbn [map] in H. inversion H as [|? ? H' F]. subst. cbn [filter]. destruct (b x); [|auto]. cbn [map]. constructor; [auto|].
  rewrite Forall_forall in *. intros y Hy. apply F. apply in_map_iff in Hy as (z & <- & Hz). apply filter_In in Hz as [Hz _]. now apply in_map.
Qed.
Lemma sorted_keys : forall A (l : list (text * A)), NoDup (map fst l) -> StronglySorted text_lt (map fst (isort (fun a b => text_leb (fst a) (fst b)) l)).
Proof.
  intros A l N. assert (P : Permutation (isort (fun a b : text * A => text_leb (fst a) (fst b)) l) l) by apply isort_perm.
  assert (S1 : StronglySorted (fun a b : text * A => text_leb (fst a) (fst b) = true) (isort (fun a b => text_leb (fst a) (fst b)) l)).
  { apply isort_sorted; [intros x y; apply text_leb_total|intros x y z; apply text_leb_trans]. }
  assert (N' : NoDup (map fst (isort (fun a b : text * A => text_leb (fst a) (fst b)) l))) by (apply (Permutation_NoDup (Permutation_sym (Permutation_map fst P))); exact N).
  revert S1 N'. generalize (isort (fun a b : text * A => text_leb (fst a) (fst b)) l). clear. induction l as [|x l IH]; intros S1 N; [constructor|]. inversion S1 as [|? ? S2 F]. inversion N as [|? ? X N']. subst.
  cbn [map]. constructor; [auto|]. rewrite Forall_forall in *. intros y Hy. apply in_map_iff in Hy as (z & <- & Hz). split; [exact (F z Hz)|]. intros E. apply X. rewrite E. now apply in_map.
Qed.
(* the level of the grammar that a production belongs to *)
Inductive at_level (q : site) : text -> Prop :=
| L_one : p_colons (snd q) = 1 -> at_level q (tx "syntactic")
| L_three : p_colons (snd q) <> 1 -> lhs q = tx "ReservedWord" \/ lhs q = tx "NullLiteral" \/ lhs q = tx "BooleanLiteral" -> at_level q (tx "syntactic")
| L_lex : p_colons (snd q) <> 1 -> ~ (lhs q = tx "ReservedWord" \/ lhs q = tx "NullLiteral" \/ lhs q = tx "BooleanLiteral") -> at_level q (tx "lexical").
Lemma level_spec : forall q i level, p_colons (snd q) = i_colons i -> (level_of (lhs q) i = level <-> at_level q level).
Proof.
  intros q i level E. unfold level_of. rewrite <- E. destruct (p_colons (snd q) =? 1) eqn:E1.
  - apply Nat.eqb_eq in E1. split; [intros <-; now constructor|]. intros H. inversion H; [reflexivity|reflexivity|contradiction].
  - apply Nat.eqb_neq in E1. destruct (tin (lhs q) _) eqn:T.
    + apply tin_iff in T. assert (T' : lhs q = tx "ReservedWord" \/ lhs q = tx "NullLiteral" \/ lhs q = tx "BooleanLiteral") by (destruct T as [T|[T|[T|[]]]]; auto).
      split; [intros <-; now constructor|]. intros H. inversion H; [reflexivity|reflexivity|contradiction].
    + apply tin_false in T. assert (T' : ~ (lhs q = tx "ReservedWord" \/ lhs q = tx "NullLiteral" \/ lhs q = tx "BooleanLiteral")) by (intros X; apply T; cbn [In]; destruct X as [X|[X|X]]; auto).
      split; [intros <-; now constructor|]. intros H. inversion H; [contradiction|contradiction|reflexivity].
Qed.
Lemma grammar_spec : forall L ds ds0 inf level arena, LInv L ds0 inf -> RInv L ds (length L) ->
  exists g, make_grammar ds inf level arena = Ok g /\ StronglySorted text_lt (map fst g) /\
  forall n d, tget g n = Some d <-> exists k q, nth_error L k = Some q /\ nth_error ds k = Some d /\ meant L arena n q /\ at_level q level.
Proof.
  intros L ds ds0 inf level arena I R. set (l := isort (fun a b : text * info => text_leb (fst a) (fst b)) inf). pose proof (isort_perm (fun a b : text * info => text_leb (fst a) (fst b)) inf) as P. fold l in P.
  assert (Nl : NoDup (map fst l)) by (apply (Permutation_NoDup (Permutation_sym (Permutation_map fst P))); apply (li_keys _ _ _ I)).
  assert (Il : forall n i, In (n, i) l <-> tget inf n = Some i).
  { intros n i. rewrite (tget_in _ inf n i (li_keys _ _ _ I)). split; [apply (Permutation_in _ P)|apply (Permutation_in _ (Permutation_sym P))]. }
  assert (Pl : forall d q, known L d q -> p_lhs (d_prod d) = lhs q) by (intros d q (K & _); rewrite K; reflexivity).
  assert (H : forall n i k, In (n, i) l -> get_def_occ i arena = Some k -> exists d, nth_error ds k = Some d /\ p_lhs (d_prod d) = n).
  { intros n i k Hi Hk. apply Il in Hi. apply (lookup_spec _ _ _ _ _ _ _ I Hi) in Hk as (q & Hq & M). destruct (ri_nth _ _ _ R k q Hq) as (d & Ed & K & _). exists d. split; [exact Ed|]. rewrite (Pl d q K). apply M. }
  exists (entries ds level arena l). split; [unfold make_grammar; fold l; rewrite (fill_spec ds level arena l [] H); [reflexivity|exact Nl]|].
  assert (Ss : StronglySorted text_lt (map fst (entries ds level arena l))).
  { destruct (entries_keys ds level arena l) as (b & ->). apply ss_filter_map. apply sorted_keys. apply (li_keys _ _ _ I). }
  split; [exact Ss|]. intros n d. assert (Ne : NoDup (map fst (entries ds level arena l))).
  { clear - Ss. induction Ss as [|x l' S' IH F]; constructor; [|exact IH]. intros X. rewrite Forall_forall in F. destruct (F x X) as [_ Y]. congruence. }
  rewrite (tget_in _ _ n d Ne). unfold entries. rewrite in_flat_map. split.
  - intros ([n' i] & Hi & X). cbn [fst snd] in X. destruct (text_eqb (level_of n' i) level) eqn:El; [|destruct X]. destruct (get_def_occ i arena) as [k|] eqn:Ek; [|destruct X]. destruct (nth_error ds k) as [d'|] eqn:Ed; [|destruct X].
    destruct X as [X|[]]. injection X as -> ->. apply Il in Hi. apply (lookup_spec _ _ _ _ _ _ _ I Hi) in Ek as (q & Hq & M). exists k, q. split; [exact Hq|]. split; [exact Ed|]. split; [exact M|].
    apply text_eqb_eq in El. destruct M as (Hin & Lq & _). rewrite <- Lq in El. apply (level_spec q i); [|exact El]. eapply (li_colons _ _ _ I); eauto.
  - intros (k & q & Hq & Ed & M & Lv). pose proof M as (Hin & Lq & _). destruct (proj2 (li_has _ _ _ I n) (ex_intro _ q (conj Hin Lq))) as (i & Hi). exists (n, i). split; [now apply Il|]. cbn [fst snd].
    apply (level_spec q i level (li_colons _ _ _ I n i q Hi Hin Lq)) in Lv. rewrite Lq in Lv. apply text_eqb_eq in Lv. rewrite Lv. assert (Ek : get_def_occ i arena = Some k) by (apply (lookup_spec _ _ _ _ _ _ _ I Hi); eauto). rewrite Ek, Ed. now left.
Qed.
(* names in right-hand sides *)
Inductive below : item -> text -> Prop :=
| B_gnt a b n args : below (Gnt a b n args) n
| B_qm i n : below i n -> below (Qm i) n
| B_other l n : In n l -> below (Other l) n.
Definition mentions (r : rhs) (n : text) : Prop :=
  (exists guards items i, r = Line guards items /\ In i items /\ below i n) \/ (exists guards names, r = LineOther guards names /\ In n names).
Lemma below_iff : forall i n, In n (item_names i) <-> below i n.
Proof.
  induction i as [a b c d|i IH|l]; intros n; cbn [item_names]; [split; [intros [->|[]]; constructor|intros H; inversion H; now left]|rewrite IH; split; [now constructor|intros H; now inversion H]|split; [now constructor|intros H; now inversion H]].
Qed.
Lemma mentions_iff : forall r n, In n (rhs_names r) <-> mentions r n.
Proof.
  intros r n. unfold mentions. destruct r as [gs its|gs l| |]; cbn [rhs_names].
  - rewrite in_flat_map. split; [intros (i & Hi & X); left; exists gs, its, i; rewrite <- below_iff; auto|]. intros [(g & it & i & E & Hi & X)|(g & l & E & _)]; [|discriminate]. injection E as -> ->. exists i. rewrite below_iff. auto.
  - split; [intros X; right; eauto|]. intros [(g & it & i & E & _)|(g & l' & E & X)]; [discriminate|]. injection E as -> ->. exact X.
  - split; [intros []|intros [(g & it & i & E & _)|(g & l' & E & _)]; discriminate].
  - split; [intros []|intros [(g & it & i & E & _)|(g & l' & E & _)]; discriminate].
Qed.
Lemma dedup_in : forall l x, In x (dedup l) <-> In x l.
Proof.
  induction l as [|y l IH]; intros x; [reflexivity|]. cbn [dedup]. destruct (tin y l) eqn:T; cbn [In]; rewrite IH; [|reflexivity]. apply tin_iff in T. split; [auto|]. intros [->|X]; auto.
Qed.
Lemma dedup_nodup : forall l, NoDup (dedup l).
Proof. induction l as [|y l IH]; [constructor|]. cbn [dedup]. destruct (tin y l) eqn:T; [exact IH|]. constructor; [|exact IH]. rewrite dedup_in. now apply tin_false. Qed.
Lemma isort_lt : forall l, NoDup l -> StronglySorted text_lt (isort text_leb l) /\ forall x, In x (isort text_leb l) <-> In x l.
Proof.
  intros l N. pose proof (isort_perm text_leb l) as P. split; [|intros x; split; [apply (Permutation_in _ P)|apply (Permutation_in _ (Permutation_sym P))]].
  pose proof (isort_sorted text_leb text_leb_total text_leb_trans l) as S1. pose proof (Permutation_NoDup (Permutation_sym P) N) as N1. revert S1 N1. generalize (isort text_leb l). clear.
  induction l as [|x l IH]; intros S1 N; [constructor|]. inversion S1 as [|? ? S2 F]. inversion N as [|? ? X N']. subst. constructor; [auto|]. rewrite Forall_forall in *. intros y Hy. split; [exact (F y Hy)|intros ->; contradiction].
Qed.
