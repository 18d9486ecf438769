(* The checks of one node of the document report exactly what they should. *)
From Coq Require Import Ascii String Sorting.Sorted.
From Verif Require Import M_Base L_Base M_HTML M_Shared L_Entities M_Layout L_Layout M_Indent M_Defs M_Refs M_Validate L_Validate L_ValRegex L_ValTree.
Open Scope list_scope.
Open Scope nat_scope.
Notation length := List.length.

Lemma listing_unique l P : listing l P -> forall l', listing l' P -> l = l'.
Proof.
  intros (S & N & I) l' (S' & N' & I'). apply (sorted_perm_eq text_leb (fun x y => text_leb_antisym x y)); [assumption|assumption|]. apply Permutation.NoDup_Permutation; try assumption. intros x. now rewrite I, I'.
Qed.
Lemma listing_ext l P Q : (forall x, P x <-> Q x) -> listing l P -> listing l Q.
Proof. intros E (S & N & I). split; [assumption|]. split; [assumption|]. intros x. now rewrite I, E. Qed.
Lemma sorted_set_iff l s P : (forall x, In x s <-> P x) -> (l = sorted_set s <-> listing l P).
Proof.
  intros E. assert (K : listing (sorted_set s) P) by (eapply listing_ext; [exact E|apply sorted_set_ok]). split; [now intros ->|]. intros L. now apply (listing_unique l P).
Qed.
Lemma listing_nil P : listing [] P <-> forall x, ~ P x.
Proof. split; [intros (_ & _ & I) x H; now apply I in H|]. intros H. split; [constructor|]. split; [constructor|]. intros x. split; [intros []|intros X; now apply H in X]. Qed.

Lemma allowed_iff parent e : tmem_ e (map fst (pairs parent)) = true <-> allowed parent e.
Proof.
  rewrite tmem_iff_. unfold pairs, allowed. rewrite !map_app, !in_app_iff.
  assert (A : In e (map fst (if text_eqb parent (tx "script") then [] else always_pairs)) <-> (parent <> tx "script" /\ In e [tx "&amp;"; tx "&lt;"; tx "&nbsp;"; tx "&reg;"])).
  { destruct (text_eqb parent (tx "script")) eqn:E; [apply text_eqb_eq in E; split; [intros []|tauto]|]. assert (parent <> tx "script") by (intros Q; apply text_eqb_eq in Q; congruence). change (map fst always_pairs) with [tx "&amp;"; tx "&lt;"; tx "&nbsp;"; tx "&reg;"]. tauto. }
  assert (B : forall (x : text) (l : list (text * option N)) l', map fst l = l' -> (In e (map fst (if text_eqb parent x then l else [])) <-> parent = x /\ In e l')).
  { intros x l l' <-. destruct (text_eqb parent x) eqn:E; [apply text_eqb_eq in E; tauto|]. split; [intros []|]. intros (Q & _). apply text_eqb_eq in Q. congruence. }
  rewrite A, (B (tx "emu-grammar") grammar_pairs _ eq_refl), (B (tx "h1") h1_pairs _ eq_refl).
  assert (C : In e (map fst (if tmem_ parent [tx "code"; tx "td"] then code_pairs else [])) <-> (parent = tx "code" \/ parent = tx "td") /\ In e (map fst code_pairs)).
  { destruct (tmem_ parent [tx "code"; tx "td"]) eqn:E; [apply tmem_iff_ in E; cbn [In] in E; intuition|]. split; [intros []|]. intros (Q & _). assert (tmem_ parent [tx "code"; tx "td"] = true) by (apply tmem_iff_; cbn [In]; intuition). congruence. }
  rewrite C. reflexivity.
Qed.
Lemma forbidden_iff parent c : existsb (fun p : text * option N => match snd p with Some d => (c =? d)%N | None => false end) (pairs parent) = true <-> forbidden parent c.
Proof.
  set (f := fun p : text * option N => match snd p with Some d => (c =? d)%N | None => false end).
  assert (F : forall l, existsb f l = true <-> In (Some c) (map snd l)).
  { intros l. rewrite existsb_exists, in_map_iff. split; intros ((x & d) & A).
    - destruct A as (I & E). unfold f in E. cbn [snd] in E. destruct d as [d|]; [|discriminate]. apply N.eqb_eq in E. subst d. exists (x, Some c). now split.
    - destruct A as (E & I). cbn [snd] in E. subst d. exists (x, Some c). split; [assumption|]. unfold f. cbn [snd]. apply N.eqb_refl. }
  assert (G : forall l, In (Some c) l <-> In c (flat_map (fun o => match o with Some d => [d] | None => [] end) l)).
  { intros l. rewrite in_flat_map. split; [intros I; exists (Some c); split; [assumption|now left]|]. intros ([d|] & I & H); [destruct H as [E|[]]; now subst|destruct H]. }
  unfold pairs, forbidden. rewrite F, !map_app, !in_app_iff.
  assert (A : In (Some c) (map snd (if text_eqb parent (tx "script") then [] else always_pairs)) <-> (parent <> tx "script" /\ In c [38; 60; 160; 174]%N)).
  { destruct (text_eqb parent (tx "script")) eqn:E; [apply text_eqb_eq in E; split; [intros []|tauto]|]. assert (parent <> tx "script") by (intros Q; apply text_eqb_eq in Q; congruence). rewrite G. change (flat_map _ _) with [38; 60; 160; 174]%N. tauto. }
  assert (B : forall (x : text) (l : list (text * option N)) l', flat_map (fun o => match o with Some d => [d] | None => [] end) (map snd l) = l' -> (In (Some c) (map snd (if text_eqb parent x then l else [])) <-> parent = x /\ In c l')).
  { intros x l l' <-. rewrite <- G. destruct (text_eqb parent x) eqn:E; [apply text_eqb_eq in E; tauto|]. split; [intros []|]. intros (Q & _). apply text_eqb_eq in Q. congruence. }
  rewrite A, (B (tx "emu-grammar") grammar_pairs _ eq_refl), (B (tx "h1") h1_pairs _ eq_refl).
  assert (C : In (Some c) (map snd (if tmem_ parent [tx "code"; tx "td"] then code_pairs else [])) <-> (parent = tx "code" \/ parent = tx "td") /\ In c (flat_map (fun o => match o with Some d => [d] | None => [] end) (map snd code_pairs))).
  { rewrite <- G. destruct (tmem_ parent [tx "code"; tx "td"]) eqn:E; [apply tmem_iff_ in E; cbn [In] in E; intuition|]. split; [intros []|]. intros (Q & _). assert (tmem_ parent [tx "code"; tx "td"] = true) by (apply tmem_iff_; cbn [In]; intuition). congruence. }
  rewrite C. change (flat_map _ (map snd h1_pairs)) with [8734%N]. change (flat_map _ (map snd grammar_pairs)) with [8220; 8221; 8712; 8713; 8804]%N. change (flat_map _ (map snd code_pairs)) with [8230; 775; 778; 803; 937; 4352; 4449; 7691; 7693; 7785; 8486; 8491; 44032]%N.
  assert (H1 : In c [8734%N] <-> c = 8734%N) by (cbn [In]; intuition). rewrite H1. reflexivity.
Qed.
Lemma forbidden_10 parent : ~ forbidden parent 10%N.
Proof. unfold forbidden. cbn [In]. intuition discriminate. Qed.

Lemma or_iff_compat_both A B C D : (A <-> C) -> (B <-> D) -> (A \/ B <-> C \/ D). Proof. tauto. Qed.

Section Nodes.
  Variable uniword : N -> bool.
  Variable valfull : text -> text -> bool.
  Variable einfo : list (text * info).
  Variable ainfo : list (text * option text).
  Variable t : text.
  Notation complaint := (complaint uniword valfull einfo ainfo t).

  Lemma slice_one s e q c : has (slice s e t) q c -> slice q (q + 1) (slice s e t) = [c].
  Proof using. clear uniword valfull einfo ainfo.
    intros H. set (l := slice s e t) in *. unfold slice. replace (q + 1 - q) with 1 by lia. pose proof (proj2 (has_skipn l q 0 c) ltac:(now rewrite Nat.add_0_r)) as X. destruct (skipn q l) as [|d r]; [discriminate|]. injection X as ->. reflexivity.
  Qed.
  Lemma slice_slice s e q n : s + q + n <= e -> slice q (q + n) (slice s e t) = slice (s + q) (s + q + n) t.
  Proof using. clear uniword valfull einfo ainfo.
    intros L. unfold slice. rewrite skipn_firstn_comm, firstn_firstn, skipn_skipn. f_equal; [lia|]. f_equal. lia.
  Qed.
  Lemma slice_len s e : e <= length t -> length (slice s e t) = e - s. Proof using. intros L. now apply slice_length. Qed.
  Lemma entity_length_of p n : is_entity uniword t p n -> length (slice p (p + n) t) = n.
  Proof using. intros H. pose proof (entity_3 _ _ _ _ H). destruct H as (_ & B & _). apply has_lt in B. rewrite slice_length by lia. lia. Qed.
  Lemma piece_iff s e parent p m : In (p, m) (piece_msgs uniword s parent (slice s e t)) <->
    (exists c, m = ShouldBeEntity c /\ s <= p < e /\ has t p c /\ forbidden parent c /\ ~ exists q k, is_entity uniword t q k /\ s <= q /\ q + k <= e /\ q <= p < q + k) \/
    (exists k, m = ShouldBeLiteral (slice p (p + k) t) /\ s <= p /\ p + k <= e /\ is_entity uniword t p k /\ ~ allowed parent (slice p (p + k) t)).
  Proof using. clear valfull einfo ainfo.
    unfold piece_msgs. rewrite in_flat_map. split.
    - intros ((q & n) & I & H). apply find_pieces in I. destruct I as [(E & L)|(-> & (c & C & NE) & L & NO)].
      + rewrite slice_slice in H by assumption. pose proof (entity_length_of _ _ E) as LEN. pose proof (entity_3 _ _ _ _ E) as E3. destruct (slice (s + q) (s + q + n) t) as [|a [|b r]] eqn:S; cbn [length] in LEN; try lia.
        rewrite <- S in H. destruct (tmem_ _ _) eqn:T; [destruct H|]. destruct H as [H|[]]. injection H as <- <-. right. exists n. split; [reflexivity|]. split; [lia|]. split; [assumption|]. split; [assumption|]. intros A. apply allowed_iff in A. congruence.
      + rewrite (slice_one s e q c) in H by (apply has_slice; now split). destruct (existsb _ _) eqn:F; [|destruct H]. destruct H as [H|[]]. injection H as <- <-. left. exists c. split; [reflexivity|]. split; [lia|]. split; [assumption|]. split; [now apply forbidden_iff|assumption].
    - intros [(c & -> & L & C & F & NO)|(k & -> & L1 & L2 & E & NA)].
      + exists (p - s, 1). split.
        * apply find_pieces. right. replace (s + (p - s)) with p by lia. split; [reflexivity|]. split; [exists c; split; [assumption|]; intros ->; now apply forbidden_10 in F|]. split; [lia|assumption].
        * rewrite (slice_one s e (p - s) c) by (apply has_slice; replace (s + (p - s)) with p by lia; split; [assumption|lia]). apply forbidden_iff in F. rewrite F. left. f_equal. lia.
      + exists (p - s, k). split; [apply find_pieces; left; replace (s + (p - s)) with p by lia; now split|]. rewrite slice_slice by lia. replace (s + (p - s)) with p by lia.
        pose proof (entity_length_of _ _ E) as LEN. pose proof (entity_3 _ _ _ _ E) as E3. destruct (slice p (p + k) t) as [|a [|b r]] eqn:S; cbn [length] in LEN; try lia. rewrite <- S in *. destruct (tmem_ _ _) eqn:T; [apply allowed_iff in T; contradiction|]. now left.
  Qed.
  Lemma literal_ok n parent up ms : literal n -> literal_msgs uniword t n (parent :: up) = Ok ms -> forall p m, In (p, m) ms <-> complaint (parent :: up) n p m.
  Proof using.
    intros LN H p m. unfold literal_msgs in H. apply bind_ok in H. destruct H as (a & A & H). apply ok_inj in H. subst ms. rewrite in_app_iff, (space_msgs_ok _ _ _ _ _ _ A), piece_iff. split.
    - intros [(q & k & I & -> & -> & N1 & N2)|[(c & -> & L & C & F & NO)|(k & -> & L1 & L2 & E & NA)]].
      + apply find_spaces in I. now apply c_spaces.
      + now apply c_char.
      + now apply c_entity.
    - intros C. inversion C; subst; try contradiction.
      + left. exists (p - v_start n), k. match goal with H : run_of_spaces _ _ _ _ _ |- _ => pose proof H as (R1 & R2 & R3) end. split; [apply find_spaces; now replace (v_start n + (p - v_start n)) with p by lia|]. split; [lia|]. auto.
      + right. left. exists c. auto.
      + right. right. exists k. auto.
  Qed.
  Lemma literal_err n parent up e : literal_msgs uniword t n (parent :: up) = Err e <-> e = AttributeError /\ stray (parent :: up) /\ exists p k, run_of_spaces t (v_start n) (v_end n) p k /\ ~ after_newline t p.
  Proof using. clear valfull einfo ainfo.
    unfold literal_msgs. destruct (space_msgs t (v_start n) (parent :: up) _) as [a|e'] eqn:A; cbn [bind].
    - split; [discriminate|]. intros (-> & S & p & k & R & NA). exfalso. pose proof R as (R1 & R2 & R3).
      assert (X : space_msgs t (v_start n) (parent :: up) (finditer try_spaces 0 0 (slice (v_start n) (v_end n) t)) = Err AttributeError).
      { apply space_msgs_err. split; [reflexivity|]. split; [assumption|]. exists (p - v_start n), k. split; [apply find_spaces|]; replace (v_start n + (p - v_start n)) with p by lia; assumption. }
      congruence.
    - pose proof (proj1 (space_msgs_err _ _ _ _ _ _) A) as (-> & S & q & k & I & NA). apply find_spaces in I. split; [intros H; injection H as <-; split; [reflexivity|]; split; [assumption|]; now exists (v_start n + q), k|]. now intros (-> & _).
  Qed.

  (* ---------- the edges of the content ---------- *)
  Lemma ends_iff u : ends_with_space u = true <-> exists v, u = v ++ [32%N].
  Proof using.
    unfold ends_with_space. destruct u as [|c v] using rev_ind; [split; [discriminate|intros (v & E); destruct v; discriminate]|]. rewrite rev_app_distr. cbn [rev app]. unfold is_space. rewrite N.eqb_eq. split; [intros ->; now exists v|]. intros (w & E). now apply app_inj_tail in E.
  Qed.
  Lemma rev_repeat {A} (x : A) k : rev (repeat x k) = repeat x k.
  Proof using. induction k as [|k IH]; [reflexivity|]. cbn [repeat rev]. rewrite IH. clear IH. induction k as [|k IH]; [reflexivity|]. cbn [repeat app]. now rewrite IH. Qed.
  Lemma count_app r : exists r', r = repeat 32%N (count_while is_space r) ++ r' /\ skipn (count_while is_space r) r = r' /\ match r' with c :: _ => c <> 32%N | [] => True end.
  Proof using.
    induction r as [|c r (r' & E & S & H)]; [now exists []|]. cbn [count_while]. destruct (is_space c) eqn:SP; unfold is_space in SP; [apply N.eqb_eq in SP; subst c|apply N.eqb_neq in SP].
    - exists r'. split; [cbn [repeat app]; now rewrite <- E|]. split; [exact S|assumption].
    - exists (c :: r). split; [reflexivity|]. now split.
  Qed.
  Lemma count_repeat k r : match r with c :: _ => c <> 32%N | [] => True end -> count_while is_space (repeat 32%N k ++ r) = k /\ skipn k (repeat 32%N k ++ r) = r.
  Proof using.
    intros H. induction k as [|k (IH & IS)].
    - destruct r as [|c r]; [now split|]. split; [|reflexivity]. cbn [repeat app count_while]. unfold is_space. now destruct (N.eqb_spec c 32).
    - cbn [repeat app count_while skipn]. unfold is_space at 1. rewrite N.eqb_refl. now rewrite IH, IS.
  Qed.
  (* when the content ends with a space *)
  Lemma indented_iff v : indented_end (v ++ [32%N]) = true <-> exists u k, v ++ [32%N] = u ++ 10%N :: repeat 32%N k.
  Proof using.
    unfold indented_end. rewrite rev_app_distr. cbn [rev app]. set (r := 32%N :: rev v). change (((32 =? 10)%N && _)) with false. rewrite orb_false_r.
    assert (RV : rev r = v ++ [32%N]) by (unfold r; cbn [rev]; now rewrite rev_involutive). split.
    - intros H. destruct (count_app r) as (r' & E & SK & N). destruct (count_while is_space r) as [|k] eqn:C; [discriminate|]. rewrite SK in H. destruct r' as [|c r']; [discriminate|]. apply N.eqb_eq in H. subst c. exists (rev r'), (S k). rewrite <- RV. rewrite E. rewrite rev_app_distr, rev_repeat. cbn [rev]. now rewrite <- app_assoc.
    - intros (u & k & E). rewrite <- RV in E. apply (f_equal (@rev N)) in E. rewrite rev_involutive, rev_app_distr in E. cbn [rev] in E. rewrite rev_repeat, <- app_assoc in E. cbn [app] in E. destruct (count_repeat k (10%N :: rev u)) as (C & SK); [discriminate|]. rewrite <- E in C, SK. rewrite C.
      destruct k as [|k]; [cbn [repeat app] in E; unfold r in E; discriminate|]. rewrite SK. reflexivity.
  Qed.
  Lemma edge_ok n up ms : ~ literal n -> edge_msgs t n up = Ok ms -> forall p m, In (p, m) ms <->
    (exists a b, v_inner n = Some (a, b) /\ ~ lenient (n :: up) /\ a < b /\ has t a 32%N /\ p = a /\ m = StartsWithSpace (v_name n)) \/
    (exists a b u, v_inner n = Some (a, b) /\ ~ lenient (n :: up) /\ slice a b t = u ++ [32%N] /\ (~ exists u' k, slice a b t = u' ++ 10%N :: repeat 32%N k) /\ p = b /\ m = EndsWithSpace (v_name n)).
  Proof using. clear uniword valfull einfo ainfo.
    intros NL H p m. unfold edge_msgs in H. destruct (v_inner n) as [(a & b)|] eqn:IN.
    - apply bind_ok in H. destruct H as (l & L & H). pose proof (loose_ok _ _ _ L) as LL. destruct l.
      + apply ok_inj in H. subst ms. split; [intros []|]. intros [(a' & b' & Q & N & _)|(a' & b' & u & Q & N & _)]; exfalso; apply N; now apply LL.
      + assert (NS : ~ lenient (n :: up)) by (intros X; apply LL in X; discriminate). apply ok_inj in H. subst ms. rewrite in_app_iff. apply or_iff_compat_both.
        * split.
          -- destruct (slice a b t) as [|c r] eqn:S; [intros []|]. unfold is_space. destruct (N.eqb_spec c 32) as [->|]; [|intros []]. intros [E|[]]. injection E as <- <-. exists a, b.
             assert (X : has (slice a b t) 0 32%N) by (rewrite S; reflexivity). apply (proj1 (has_slice _ _ _ _ _)) in X. rewrite Nat.add_0_r in X. split; [reflexivity|]. tauto.
          -- intros (a' & b' & Q & _ & LT & X & -> & ->). injection Q as <- <-. assert (Y : has (slice a b t) 0 32%N) by (apply has_slice; rewrite Nat.add_0_r; now split). destruct (slice a b t) as [|c r]; [discriminate|]. injection Y as ->. now left.
        * split.
          -- destruct (indented_end (slice a b t)) eqn:I; [intros []|]. destruct (ends_with_space (slice a b t)) eqn:E; [|intros []]. intros [Q|[]]. injection Q as <- <-. apply ends_iff in E. destruct E as (u & E). exists a, b, u. split; [reflexivity|]. split; [assumption|]. split; [assumption|]. split; [|now split]. intros X. rewrite E in I, X. apply indented_iff in X. congruence.
          -- intros (a' & b' & u & Q & _ & E & NI & -> & ->). injection Q as <- <-. destruct (indented_end (slice a b t)) eqn:I; [exfalso; apply NI; rewrite E in I |- *; now apply indented_iff|]. assert (ES : ends_with_space (slice a b t) = true) by (apply ends_iff; now exists u). rewrite ES. now left.
    - apply ok_inj in H. subst ms. split; [intros []|]. intros [(a' & b' & Q & _)|(a' & b' & u & Q & _)]; discriminate.
  Qed.
  Lemma edge_err n up e : edge_msgs t n up = Err e <-> e = AttributeError /\ stray (n :: up) /\ v_inner n <> None.
  Proof using. clear uniword valfull einfo ainfo.
    unfold edge_msgs. destruct (v_inner n) as [(a & b)|]; [|split; [discriminate|tauto]]. destruct (is_loose (n :: up)) as [l|e'] eqn:L; cbn [bind].
    - split; [destruct l; discriminate|]. intros (-> & S & _). assert (is_loose (n :: up) = Err AttributeError) by (now apply loose_err). congruence.
    - pose proof (proj1 (loose_err _ _ _) L) as (-> & S). split; [intros H; injection H as <-; split; [reflexivity|]; split; [assumption|discriminate]|]. now intros (-> & _).
  Qed.
End Nodes.
