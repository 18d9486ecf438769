(* The checks of the front matter and of the file: specification and lemmas. *)
From Coq Require Import Ascii String.
From Verif Require Import M_Base L_Base M_HTML M_Shared L_Entities M_Layout L_Layout M_Indent M_Refs M_Values L_ValLists M_Validate L_Validate L_ValTree L_ValNodes L_ValRest M_Test262 L_Test262 L_YamlColl L_YamlSpec.
Open Scope list_scope.
Open Scope nat_scope.
Notation length := List.length.

Section Checks.
  Variable uniword : N -> bool.
  (* if it is there, it is a text *)
  Definition text_if_any (m : list (text * data)) (k : text) : Prop := forall v, maps m k v -> exists t, v = DStr t.
  Definition sound_negative (m : list (text * data)) : Prop := forall v, maps m (tx "negative") v ->
    exists n ty ph, v = DMap n /\ (forall k, In k (map fst n) <-> k = tx "type" \/ k = tx "phase") /\ maps n (tx "type") (DStr ty) /\ maps n (tx "phase") (DStr ph) /\
      In ty [tx "RangeError"; tx "ReferenceError"; tx "SyntaxError"; tx "Test262Error"; tx "TypeError"] /\ In ph [tx "parse"; tx "resolution"; tx "runtime"].
  Definition js_file (t : text) : Prop := exists w, t = w ++ tx ".js" /\ w <> [] /\ Forall (fun c => word uniword c \/ c = 45%N) w.
  Definition sound_includes (m : list (text * data)) : Prop := forall v, maps m (tx "includes") v -> exists l, v = DList l /\ l <> [] /\ Forall js_file l.
  Definition once_flags : list text := [tx "onlyStrict"; tx "noStrict"; tx "raw"].
  Definition sound_flags (m : list (text * data)) : Prop := forall v, maps m (tx "flags") v -> exists l, v = DList l /\ NoDup l /\ forall a b, In a once_flags -> In b once_flags -> In a l -> In b l -> a = b.
  Definition sound_features (m : list (text * data)) : Prop := forall v, maps m (tx "features") v -> exists l, v = DList l /\ l <> [] /\ NoDup l.
  Definition acceptable (m : list (text * data)) : Prop :=
    In (tx "description") (map fst m) /\ (forall k, In k [tx "description"; tx "esid"; tx "info"; tx "author"; tx "es5id"; tx "es6id"] -> text_if_any m k) /\
    sound_negative m /\ sound_includes m /\ sound_flags m /\ sound_features m.
  Definition flag (m : list (text * data)) (f : text) : Prop := exists l, maps m (tx "flags") (DList l) /\ In f l.
  Definition known_key (k : text) : Prop := In k [tx "description"; tx "esid"; tx "info"; tx "negative"; tx "includes"; tx "author"; tx "flags"; tx "features"; tx "es5id"; tx "es6id"; tx "locale"].
  Definition known_flag (f : text) : Prop := In f [tx "onlyStrict"; tx "noStrict"; tx "module"; tx "raw"; tx "async"; tx "generated"; tx "CanBlockIsFalse"; tx "CanBlockIsTrue"; tx "non-deterministic"].
  Definition once (m : list (text * data)) : Prop := exists f, In f once_flags /\ flag m f.
  (* the messages and the number of runs for an acceptable front matter *)
  Definition counted (m : list (text * data)) (ms : list tmsg) (n : nat) : Prop :=
    acceptable m /\ (once m /\ n = 1 \/ ~ once m /\ n = 2) /\
    exists ks fs, ms = map UnexpectedKey ks ++ map InvalidFlag fs /\ listing ks (fun k => In k (map fst m) /\ ~ known_key k) /\ listing fs (fun f => flag m f /\ ~ known_flag f).

  (* an action with no result, and what it demands *)
  Definition demands (r : res unit) (P : Prop) : Prop := (r = Ok tt /\ P) \/ (r = Err AssertionError /\ ~ P).
  Lemma demands_assert b P : (b = true <-> P) -> demands (assert_ b) P.
  Proof. intros H. destruct b; [left|right]; (split; [reflexivity|]); [now apply H|]. intros X. apply H in X. discriminate. Qed.
  Lemma demands_bind r P q Q : demands r P -> (P -> demands q Q) -> demands (do _ <- r ;; q) (P /\ Q).
  Proof. intros [(-> & p)|(-> & p)] H; cbn [bind]; [|right; split; [reflexivity|tauto]]. destruct (H p) as [(-> & X)|(-> & X)]; [left|right]; (split; [reflexivity|tauto]). Qed.
  Lemma demands_iff r P Q : (P <-> Q) -> demands r P -> demands r Q.
  Proof. intros E [(-> & X)|(-> & X)]; [left|right]; (split; [reflexivity|tauto]). Qed.
  Lemma then_ {A} r P (q : res A) : demands r P -> (do _ <- r ;; q) = q /\ P \/ (do _ <- r ;; q) = Err AssertionError /\ ~ P.
  Proof. intros [(-> & X)|(-> & X)]; [left|right]; (split; [reflexivity|assumption]). Qed.
  Lemma one_value {A} m k (v : A) (P : A -> Prop) : tget_ k m = Some v -> (P v <-> forall w, maps m k w -> P w).
  Proof. intros T. apply tget_iff in T. split; [|auto]. intros X w W. now rewrite (maps_fun _ _ _ _ W T). Qed.
  Lemma no_value {A} m k (P : A -> Prop) : tget_ k m = None -> forall w, maps m k w -> P w.
  Proof. intros T w W. apply tget_none in T. apply maps_in in W. contradiction. Qed.

  Lemma str_demands m k : demands (check_str m k) (text_if_any m k).
  Proof.
    unfold check_str, text_if_any. destruct (tget_ k m) as [v|] eqn:T; [|left; split; [reflexivity|]; now apply no_value]. assert (E := one_value m k v (fun v => exists t, v = DStr t) T).
    destruct v as [t|l|n]; [left|right|right]; (split; [reflexivity|]); [apply E; now exists t| |]; intros X; apply E in X; destruct X; discriminate.
  Qed.
  Lemma tmem_map k l : tmem_ k l = true <-> In k l. Proof. apply tmem_iff_. Qed.
  Lemma one_of_iff n k l : one_of (tget_ k n) l = true <-> exists t, maps n k (DStr t) /\ In t l.
  Proof.
    unfold one_of. destruct (tget_ k n) as [v|] eqn:T.
    - pose proof (proj1 (tget_iff _ _ _) T) as M. destruct v as [t|x|x]; [rewrite tmem_iff_; split; [intros I; now exists t|]; intros (t' & M' & I); pose proof (maps_fun _ _ _ _ M M') as E; now injection E as <-| |]; (split; [discriminate|]; intros (t' & M' & I); pose proof (maps_fun _ _ _ _ M M') as E; discriminate).
    - split; [discriminate|]. intros (t & M & _). apply tget_iff in M. congruence.
  Qed.
  Lemma negative_demands m : demands (check_negative m) (sound_negative m).
  Proof.
    unfold check_negative, sound_negative. destruct (tget_ (tx "negative") m) as [v|] eqn:T; [|left; split; [reflexivity|]; intros v V; apply tget_iff in V; congruence].
    set (P := fun v => exists n ty ph, v = DMap n /\ (forall k, In k (map fst n) <-> k = tx "type" \/ k = tx "phase") /\ maps n (tx "type") (DStr ty) /\ maps n (tx "phase") (DStr ph) /\
      In ty [tx "RangeError"; tx "ReferenceError"; tx "SyntaxError"; tx "Test262Error"; tx "TypeError"] /\ In ph [tx "parse"; tx "resolution"; tx "runtime"]).
    apply (demands_iff _ (P v) _ (one_value m _ v P T)). destruct v as [t|l|n]; [right; split; [reflexivity|]; intros (? & ? & ? & X & _); discriminate|right; split; [reflexivity|]; intros (? & ? & ? & X & _); discriminate|].
    eapply demands_iff; [|apply demands_bind; [apply demands_assert; reflexivity|intros _; apply demands_bind; [apply demands_assert; apply one_of_iff|intros _; apply demands_assert; apply one_of_iff]]].
    rewrite !andb_true_iff, !tmem_iff_, forallb_forall. unfold P. split.
    - intros (((A & B) & C) & (ty & T1 & T2) & (ph & P1 & P2)). exists n, ty, ph. split; [reflexivity|]. split; [|tauto]. intros k. split; [|intros [->| ->]; assumption]. intros I. apply A, tmem_iff_ in I. destruct I as [<-|[<-|[]]]; tauto.
    - intros (n' & ty & ph & E & K & T1 & P1 & T2 & P2). injection E as <-. split; [|split; [now exists ty|now exists ph]]. split; [split; [|apply K; now left]|apply K; now right]. intros k I. apply tmem_iff_. apply K in I. destruct I as [->| ->]; [left|right; left]; reflexivity.
  Qed.
  Lemma js_iff t : js_name uniword t = true <-> js_file t.
  Proof.
    unfold js_name, js_file. set (f := fun c => wordc uniword c || (c =? 45)%N). assert (F : forall c, f c = true <-> word uniword c \/ c = 45%N) by (intros c; unfold f; now rewrite orb_true_iff, word_iff, N.eqb_eq).
    cbv zeta. rewrite andb_true_iff, Nat.leb_le, text_eqb_eq. split.
    - intros (L & E). exists (firstn (count_while f t) t). split; [rewrite <- E; symmetry; apply firstn_skipn|]. split.
      + intros X. apply (f_equal (@List.length N)) in X. rewrite firstn_length in X. destruct (count_spec f t) as (_ & _ & _ & Y). cbn in X. lia.
      + clear L E. induction t as [|c t IH]; [constructor|]. cbn [count_while]. destruct (f c) eqn:W; [|constructor]. cbn [firstn]. constructor; [now apply F|assumption].
    - intros (w & -> & N & W). assert (C : count_while f (w ++ tx ".js") = length w).
      { clear N. induction W as [|c w X _ IH]; [|cbn [app count_while length]; apply F in X; now rewrite X, IH]. cbn [app length]. change (tx ".js") with (46%N :: tx "js"). cbn [count_while]. destruct (f 46%N) eqn:X; [|reflexivity]. apply F in X. unfold word in X. lia. }
      rewrite C, skip_all. split; [destruct w; [congruence|cbn; lia]|reflexivity].
  Qed.
  Lemma nonempty_iff {A} (l : list A) : (0 <? length l) = true <-> l <> [].
  Proof. rewrite Nat.ltb_lt. destruct l; cbn; split; intros H; try congruence; try lia. Qed.
  Lemma includes_demands m : demands (check_includes uniword m) (sound_includes m).
  Proof.
    unfold check_includes, sound_includes. destruct (tget_ (tx "includes") m) as [v|] eqn:T; [|left; split; [reflexivity|]; intros v V; apply tget_iff in V; congruence].
    set (P := fun v => exists l, v = DList l /\ l <> [] /\ Forall js_file l). apply (demands_iff _ (P v) _ (one_value m _ v P T)). destruct v as [t|l|n]; [right; split; [reflexivity|]; intros (? & X & _); discriminate| |right; split; [reflexivity|]; intros (? & X & _); discriminate].
    eapply demands_iff; [|apply demands_bind; [apply demands_assert; apply nonempty_iff|intros _; apply demands_assert; reflexivity]]. unfold P. rewrite forallb_forall. split.
    - intros (A & B). exists l. split; [reflexivity|]. split; [assumption|]. apply Forall_forall. intros x I. apply js_iff. now apply B.
    - intros (l' & E & N & F). injection E as <-. split; [assumption|]. intros x I. apply js_iff. rewrite Forall_forall in F. now apply F.
  Qed.
  Lemma no_dup_iff l : no_dup l = true <-> NoDup l.
  Proof.
    unfold no_dup. rewrite Nat.eqb_eq. split.
    - intros E. apply (NoDup_incl_NoDup (l := nodup (list_eq_dec N.eq_dec) l)); [apply NoDup_nodup|exact (Nat.eq_le_incl _ _ (eq_sym E))|]. intros x I. now apply nodup_In in I.
    - intros N. now rewrite nodup_fixed_point.
  Qed.
  Lemma features_demands m : demands (check_features m) (sound_features m).
  Proof.
    unfold check_features, sound_features. destruct (tget_ (tx "features") m) as [v|] eqn:T; [|left; split; [reflexivity|]; intros v V; apply tget_iff in V; congruence].
    set (P := fun v => exists l, v = DList l /\ l <> [] /\ NoDup l). apply (demands_iff _ (P v) _ (one_value m _ v P T)). destruct v as [t|l|n]; [right; split; [reflexivity|]; intros (? & X & _); discriminate| |right; split; [reflexivity|]; intros (? & X & _); discriminate].
    eapply demands_iff; [|apply demands_bind; [apply demands_assert; apply nonempty_iff|intros _; apply demands_assert; apply no_dup_iff]]. unfold P. split; [intros (A & B); now exists l|]. intros (l' & E & X). now injection E as <-.
  Qed.
  Lemma flags_cases m : (exists fs l, check_flags m = Ok (l, map InvalidFlag fs) /\ sound_flags m /\ (forall f, In f l <-> flag m f) /\ listing fs (fun f => flag m f /\ ~ known_flag f)) \/ (check_flags m = Err AssertionError /\ ~ sound_flags m).
  Proof.
    unfold check_flags, sound_flags. destruct (tget_ (tx "flags") m) as [v|] eqn:T.
    - set (P := fun v => exists l, v = DList l /\ NoDup l /\ forall a b, In a once_flags -> In b once_flags -> In a l -> In b l -> a = b). pose proof (one_value m _ v P T) as OV. destruct v as [t|l|n]; [right; split; [reflexivity|]; intros X; apply OV in X; destruct X as (? & X & _); discriminate| |right; split; [reflexivity|]; intros X; apply OV in X; destruct X as (? & X & _); discriminate].
      destruct (no_dup l) eqn:ND; cbn [assert_ bind]; [|right; split; [reflexivity|]; intros X; apply OV in X; destruct X as (l' & X & N & _); injection X as <-; apply no_dup_iff in N; congruence]. apply no_dup_iff in ND. pose proof (proj1 (tget_iff _ _ _) T) as MP.
      assert (FL : forall f, In f l <-> flag m f) by (intros f; split; [intros I; now exists l|]; intros (l' & M & I); pose proof (maps_fun _ _ _ _ MP M) as E; now injection E as <-).
      assert (ONE : ((if tmem_ (tx "onlyStrict") l then 1 else 0) + (if tmem_ (tx "noStrict") l then 1 else 0) + (if tmem_ (tx "raw") l then 1 else 0) <=? 1) = true <-> forall a b, In a once_flags -> In b once_flags -> In a l -> In b l -> a = b).
      { rewrite Nat.leb_le. pose proof (tmem_iff_ (tx "onlyStrict") l) as M1. pose proof (tmem_iff_ (tx "noStrict") l) as M2. pose proof (tmem_iff_ (tx "raw") l) as M3. split.
        - intros H a b A B IA IB. destruct A as [<-|[<-|[<-|[]]]], B as [<-|[<-|[<-|[]]]]; try reflexivity; exfalso; try apply M1 in IA; try apply M2 in IA; try apply M3 in IA; try apply M1 in IB; try apply M2 in IB; try apply M3 in IB; rewrite IA, IB in H; lia.
        - intros H. destruct (tmem_ (tx "onlyStrict") l), (tmem_ (tx "noStrict") l), (tmem_ (tx "raw") l); try lia; exfalso.
          + enough (tx "onlyStrict" = tx "noStrict") by discriminate. apply H; [now left|right; now left|now apply M1|now apply M2].
          + enough (tx "onlyStrict" = tx "noStrict") by discriminate. apply H; [now left|right; now left|now apply M1|now apply M2].
          + enough (tx "onlyStrict" = tx "raw") by discriminate. apply H; [now left|right; right; now left|now apply M1|now apply M3].
          + enough (tx "noStrict" = tx "raw") by discriminate. apply H; [right; now left|right; right; now left|now apply M2|now apply M3]. }
      destruct ((if tmem_ (tx "onlyStrict") l then 1 else 0) + (if tmem_ (tx "noStrict") l then 1 else 0) + (if tmem_ (tx "raw") l then 1 else 0) <=? 1); cbn [assert_ bind].
      + left. eexists. exists l. split; [reflexivity|]. split; [apply OV; exists l; split; [reflexivity|]; split; [assumption|now apply ONE]|]. split; [assumption|]. eapply listing_ext; [|apply sorted_set_ok]. intros f. cbv beta. rewrite filter_In, negb_true_iff. rewrite FL. assert (K : tmem_ f valid_flags = false <-> ~ known_flag f); [|now rewrite K]. pose proof (tmem_iff_ f valid_flags) as V. change (In f valid_flags) with (known_flag f) in V. destruct (tmem_ f valid_flags); split; intros X; try discriminate; try reflexivity; [exfalso; now apply X, V|]. intros Y. apply V in Y. discriminate.
      + right. split; [reflexivity|]. intros X. apply OV in X. destruct X as (l' & X & _ & N). injection X as <-. apply ONE in N. discriminate.
    - left. exists [], []. split; [reflexivity|]. split; [intros v V; apply tget_iff in V; congruence|]. assert (NF : forall f, ~ flag m f) by (intros f (l & M & _); apply tget_iff in M; congruence). split; [intros f; split; [intros []|intros X; now apply NF in X]|]. split; [constructor|]. split; [constructor|]. intros f. split; [intros []|]. intros (X & _). now apply NF in X.
  Qed.
  Lemma check_iff m : (forall ms n, check_data uniword (DMap m) = Ok (ms, n) <-> counted m ms n) /\ (forall e, check_data uniword (DMap m) = Err e <-> e = AssertionError /\ ~ acceptable m).
  Proof.
    assert (ERR : forall r : res (list tmsg * nat), r = Err AssertionError -> ~ acceptable m -> (forall ms n, r = Ok (ms, n) <-> counted m ms n) /\ (forall e, r = Err e <-> e = AssertionError /\ ~ acceptable m)).
    { intros r -> N. split; [intros ms n; split; [discriminate|]; intros (A & _); contradiction|]. intros e. split; [intros H; injection H as <-; now split|]. now intros (-> & _). }
    unfold check_data. destruct (then_ _ _ (bind (check_str m (tx "description")) (fun _ => bind (check_str m (tx "esid")) (fun _ => bind (check_str m (tx "info")) (fun _ => bind (check_negative m) (fun _ => bind (check_includes uniword m) (fun _ => bind (check_str m (tx "author")) (fun _ => bind (check_flags m) (fun fm2 => bind (check_features m) (fun _ => bind (check_str m (tx "es5id")) (fun _ => bind (check_str m (tx "es6id")) (fun _ => let (flags, m2) := fm2 in Ok (map UnexpectedKey (sorted_set (filter (fun k => negb (tmem_ k valid_keys)) (map fst m))) ++ m2, if tmem_ (tx "onlyStrict") flags || tmem_ (tx "noStrict") flags || tmem_ (tx "raw") flags then 1 else 2)))))))))))) (demands_assert _ _ (tmem_iff_ (tx "description") (map fst m)))) as [(-> & D0)|(-> & D0)]; [|apply ERR; [reflexivity|unfold acceptable; tauto]].
    assert (TXT : forall k, In k [tx "description"; tx "esid"; tx "info"; tx "author"; tx "es5id"; tx "es6id"] -> ~ text_if_any m k -> ~ acceptable m) by (intros k I N (_ & A & _); now apply N, A).
    destruct (str_demands m (tx "description")) as [(-> & D1)|(-> & D1)]; cbn [bind]; [|apply ERR; [reflexivity|refine (TXT _ _ D1); cbn [In]; tauto]].
    destruct (str_demands m (tx "esid")) as [(-> & D2)|(-> & D2)]; cbn [bind]; [|apply ERR; [reflexivity|refine (TXT _ _ D2); cbn [In]; tauto]].
    destruct (str_demands m (tx "info")) as [(-> & D3)|(-> & D3)]; cbn [bind]; [|apply ERR; [reflexivity|refine (TXT _ _ D3); cbn [In]; tauto]].
    destruct (negative_demands m) as [(-> & D4)|(-> & D4)]; cbn [bind]; [|apply ERR; [reflexivity|unfold acceptable; tauto]].
    destruct (includes_demands m) as [(-> & D5)|(-> & D5)]; cbn [bind]; [|apply ERR; [reflexivity|unfold acceptable; tauto]].
    destruct (str_demands m (tx "author")) as [(-> & D6)|(-> & D6)]; cbn [bind]; [|apply ERR; [reflexivity|refine (TXT _ _ D6); cbn [In]; tauto]].
    destruct (flags_cases m) as [(fs & l & -> & D7 & FL & LS)|(-> & D7)]; cbn [bind]; [|apply ERR; [reflexivity|unfold acceptable; tauto]].
    destruct (features_demands m) as [(-> & D8)|(-> & D8)]; cbn [bind]; [|apply ERR; [reflexivity|unfold acceptable; tauto]].
    destruct (str_demands m (tx "es5id")) as [(-> & D9)|(-> & D9)]; cbn [bind]; [|apply ERR; [reflexivity|refine (TXT _ _ D9); cbn [In]; tauto]].
    destruct (str_demands m (tx "es6id")) as [(-> & D10)|(-> & D10)]; cbn [bind]; [|apply ERR; [reflexivity|refine (TXT _ _ D10); cbn [In]; tauto]].
    assert (ACC : acceptable m).
    { unfold acceptable. split; [assumption|]. split; [|tauto]. intros k I. cbn [In] in I. destruct I as [<-|[<-|[<-|[<-|[<-|[<-|[]]]]]]]; assumption. }
    assert (ONCE : tmem_ (tx "onlyStrict") l || tmem_ (tx "noStrict") l || tmem_ (tx "raw") l = true <-> once m).
    { rewrite !orb_true_iff, !tmem_iff_, !FL. unfold once, once_flags. cbn [In]. split.
      - intros [[X|X]|X]; eexists; (split; [|exact X]); tauto.
      - intros (f & [<-|[<-|[<-|[]]]] & X); tauto. }
    assert (KS : listing (sorted_set (filter (fun k => negb (tmem_ k valid_keys)) (map fst m))) (fun k => In k (map fst m) /\ ~ known_key k)).
    { eapply listing_ext; [|apply sorted_set_ok]. intros k. cbv beta. rewrite filter_In, negb_true_iff. assert (K : tmem_ k valid_keys = false <-> ~ known_key k); [|now rewrite K]. pose proof (tmem_iff_ k valid_keys) as V. change (In k valid_keys) with (known_key k) in V. destruct (tmem_ k valid_keys); split; intros X; try discriminate; try reflexivity; [exfalso; now apply X, V|]. intros Y. apply V in Y. discriminate. }
    split.
    - intros ms n. split.
      + intros H. apply ok_inj in H. assert (H1 := f_equal fst H). assert (H2 := f_equal snd H). cbn [fst snd] in H1, H2. subst ms n. clear H. split; [assumption|]. split; [|now exists (sorted_set (filter (fun k => negb (tmem_ k valid_keys)) (map fst m))), fs]. destruct (tmem_ (tx "onlyStrict") l || tmem_ (tx "noStrict") l || tmem_ (tx "raw") l); [left; split; [now apply ONCE|reflexivity]|right; split; [|reflexivity]; intros X; apply ONCE in X; discriminate].
      + intros (_ & N & ks & fs' & -> & K' & F'). rewrite (listing_unique _ _ KS _ K'), (listing_unique _ _ LS _ F'). do 2 f_equal. destruct (tmem_ (tx "onlyStrict") l || tmem_ (tx "noStrict") l || tmem_ (tx "raw") l).
        * destruct N as [(_ & ->)|(X & _)]; [reflexivity|]. exfalso. now apply X, ONCE.
        * destruct N as [(X & _)|(_ & ->)]; [|reflexivity]. apply ONCE in X. discriminate.
    - intros e. split; [discriminate|]. intros (_ & X). contradiction.
  Qed.
End Checks.

(* ---------- the parts of the file ---------- *)
Definition occurs (m file : text) (p : nat) : Prop := exists r, skipn p file = m ++ r.
(* the only place, apart from places that overlap with it *)
Definition sole (m file : text) (p : nat) : Prop := occurs m file p /\ (forall q, q < p -> ~ occurs m file q) /\ (forall q, p + length m <= q -> ~ occurs m file q).
Lemma marker_iff m s n : marker m s = Some n <-> n = length m /\ exists r, s = m ++ r.
Proof. unfold marker. pose proof (is_prefix_iff m s) as P. destruct (is_prefix m s); split; [intros H; injection H as <-; split; [reflexivity|now apply P]|now intros (-> & _)|discriminate|]. intros (_ & X). apply P in X. discriminate. Qed.
Lemma marker_good m : m <> [] -> good_try (marker m).
Proof. intros N s n H. apply marker_iff in H. destruct H as (-> & _). destruct m; [congruence|cbn; lia]. Qed.
Lemma occurs_lt m file p : m <> [] -> occurs m file p -> p < length file.
Proof. intros NE (r & R). apply (f_equal (@List.length N)) in R. rewrite skipn_length, app_length in R. destruct m; [congruence|cbn in R; lia]. Qed.
Lemma sole_iff m file p n : m <> [] -> (finditer (marker m) 0 0 file = [(p, n)] <-> n = length m /\ sole m file p).
Proof.
  intros NE. pose proof (marker_good m NE) as G. assert (OCC : forall q, occurs m file q -> marker m (skipn q file) = Some (length m)) by (intros q (r & R); apply marker_iff; split; [reflexivity|now exists r]).
  assert (SND : forall q k, In (q, k) (finditer (marker m) 0 0 file) -> k = length m /\ occurs m file q) by (intros q k I; apply find_sound in I; [|assumption]; destruct I as (_ & I); now apply marker_iff in I). split.
  - intros E. destruct (SND p n) as (-> & O); [rewrite E; now left|]. split; [reflexivity|]. split; [assumption|]. split; intros q L O2.
    + destruct (find_complete _ _ _ _ G (OCC q O2) (occurs_lt _ _ _ NE O2)) as [I|(q' & n' & I & X)]; rewrite E in I; destruct I as [I|[]]; injection I as; lia.
    + destruct (find_complete _ _ _ _ G (OCC q O2) (occurs_lt _ _ _ NE O2)) as [I|(q' & n' & I & X)]; rewrite E in I; destruct I as [I|[]]; injection I as; destruct m; [congruence|cbn [length] in *; lia|congruence|cbn [length] in *; lia].
  - intros (-> & O & B & A). assert (IN : In (p, length m) (finditer (marker m) 0 0 file)).
    { destruct (find_complete _ _ _ _ G (OCC p O) (occurs_lt _ _ _ NE O)) as [I|(q' & n' & I & X)]; [assumption|]. exfalso. apply (B q'); [lia|]. now apply SND in I. }
    assert (ALL : forall x, In x (finditer (marker m) 0 0 file) -> x = (p, length m)).
    { intros (q, k) I. destruct (SND q k I) as (-> & O2). f_equal. destruct (lt_eq_lt_dec q p) as [[L|E]|L]; [exfalso; now apply (B q)|assumption|]. exfalso. pose proof (find_apart _ _ _ _ _ _ G IN I L) as X. now apply (A q). }
    destruct (finditer (marker m) 0 0 file) as [|x [|y l]] eqn:E; [destruct IN|rewrite (ALL x) by (now left); reflexivity|]. exfalso. pose proof (find_increasing (marker m) file [] x [] y l G E) as (L & _). rewrite (ALL x), (ALL y) in L by (cbn; tauto). cbn in L. lia.
Qed.
(* a line is empty or begins with the sign of a comment *)
Definition comment_or_empty (s : text) : Prop := s = [] \/ has s 0 10%N \/ exists r, s = tx "// " ++ r.
Definition comments_only (s : text) : Prop := comment_or_empty s /\ forall p, has s p 10%N -> comment_or_empty (skipn (S p) s).
Lemma nl_nonnil s : nl_split s <> []. Proof. induction s as [|c s IH]; [discriminate|]. cbn [nl_split]. destruct (c =? 10)%N; [discriminate|]. destruct (nl_split s); [congruence|discriminate]. Qed.
Lemma copyright_iff s : forallb (fun l => is_prefix (tx "// ") l || match l with [] => true | _ => false end) (nl_split s) = true <-> comments_only s.
Proof.
  set (f := fun l => is_prefix (tx "// ") l || match l with [] => true | _ => false end).
  assert (PRE : forall m, ~ In 10%N m -> forall s x xs, nl_split s = x :: xs -> (is_prefix m x = true <-> is_prefix m s = true)).
  { induction m as [|d m IH]; intros N s0 x xs E; [reflexivity|]. destruct s0 as [|c s0]; [injection E as <- <-; reflexivity|]. cbn [nl_split] in E. destruct (N.eqb_spec c 10) as [->|NE].
    - injection E as <- <-. cbn [is_prefix]. split; [discriminate|]. rewrite andb_true_iff, N.eqb_eq. intros (-> & _). exfalso. apply N. now left.
    - destruct (nl_split s0) as [|y ys] eqn:E0; [discriminate|]. injection E as <- <-. cbn [is_prefix]. rewrite !andb_true_iff. rewrite (IH ltac:(intros I; apply N; now right) s0 y ys E0). reflexivity. }
  assert (HD : forall s x xs, nl_split s = x :: xs -> (f x = true <-> comment_or_empty s)).
  { intros s0 x xs E. unfold f, comment_or_empty. rewrite orb_true_iff. rewrite (PRE (tx "// ") ltac:(vm_compute; intuition discriminate) s0 x xs E), is_prefix_iff. assert (X : match x with [] => true | _ => false end = true <-> s0 = [] \/ has s0 0 10%N); [|rewrite X; tauto].
    destruct s0 as [|c s0]; [injection E as <- <-; split; [now left|reflexivity]|]. cbn [nl_split] in E. unfold has. cbn [nth_error]. destruct (N.eqb_spec c 10) as [->|NE]; [injection E as <- <-; split; [now right|reflexivity]|]. destruct (nl_split s0) as [|y ys]; [discriminate|]. injection E as <- <-. split; [discriminate|]. intros [?|H]; [discriminate|]. injection H as ->. congruence. }
  assert (TL : forall s x xs, nl_split s = x :: xs -> (forallb f xs = true <-> forall p, has s p 10%N -> comment_or_empty (skipn (S p) s))).
  { induction s0 as [|c s0 IH]; intros x xs E; [injection E as <- <-; split; [|reflexivity]; intros _ [|p] H; discriminate|]. cbn [nl_split] in E. destruct (N.eqb_spec c 10) as [->|NE].
    - injection E as <- <-. destruct (nl_split s0) as [|y ys] eqn:E0; [now apply nl_nonnil in E0|]. cbn [forallb]. rewrite andb_true_iff, (HD s0 y ys E0), (IH y ys eq_refl). split.
      + intros (A & B) [|p] H; [exact A|]. exact (B p H).
      + intros H. split; [exact (H 0 eq_refl)|]. intros p P. exact (H (S p) P).
    - destruct (nl_split s0) as [|y ys] eqn:E0; [discriminate|]. injection E as <- <-. rewrite (IH y ys eq_refl). split.
      + intros H [|p] P; [injection P as ->; congruence|]. exact (H p P).
      + intros H p P. exact (H (S p) P). }
  destruct (nl_split s) as [|x xs] eqn:E; [now apply nl_nonnil in E|]. cbn [forallb]. rewrite andb_true_iff, (HD s x xs E), (TL s x xs E). reflexivity.
Qed.
Definition begins (m s : text) : Prop := exists r, s = m ++ r.
Definition allowed_start (path copyright : text) : Prop :=
  comments_only copyright \/ begins (tx "./language/comments/hashbang/") path \/ begins (tx "language/comments/hashbang/") path \/ begins (tx "./annexB/language/comments/single-line-html-close-first-line-") path.
Lemma good_iff path c : good_copyright path c = true <-> allowed_start path c.
Proof. unfold good_copyright, allowed_start, begins. rewrite !orb_true_iff, copyright_iff, !is_prefix_iff. tauto. Qed.

(* what the front matter says *)
Definition says (uniword : N -> bool) (fm : text) (d : data) : Prop := exists ls, ls <> [] /\ Forall written ls /\ fm = text_of ls /\ block uniword ls d.
Lemma says_iff uniword fm : (forall d, parse_frontmatter uniword fm = Ok d <-> says uniword fm d) /\ (forall e, parse_frontmatter uniword fm = Err e <-> e = AssertionError /\ ~ exists d, says uniword fm d).
Proof.
  destruct (lines_exist fm) as (ls & N & W & ->). destruct (frontmatter_lines uniword ls N W) as (A & B). assert (S : forall d, says uniword (text_of ls) d <-> block uniword ls d).
  { intros d. split; [|intros X; now exists ls]. intros (ls' & N' & W' & E & X). now rewrite (lines_unique _ _ N N' W W' E). }
  split; [intros d; now rewrite S|]. intros e. split.
  - intros H. split; [now apply B|]. intros (d & D). apply S, A in D. congruence.
  - intros (-> & D). destruct (parse_frontmatter uniword (text_of ls)) as [d|e'] eqn:P; [exfalso; apply D; exists d; apply S; now apply A|]. now rewrite (B e' eq_refl).
Qed.
Definition opening : text := [10; 47; 42; 45; 45; 45; 10]%N.
Definition closing : text := [10; 45; 45; 45; 42; 47; 10]%N.
Inductive verdict (uniword : N -> bool) (path file : text) : res (list tmsg * option nat) -> Prop :=
| v_markers : (~ exists p q, sole opening file p /\ sole closing file q) -> verdict uniword path file (Err ValueError)
| v_copyright p q : sole opening file p -> sole closing file q -> ~ allowed_start path (slice 0 p file) -> verdict uniword path file (Ok ([BadCopyright], None))
| v_frontmatter p q : sole opening file p -> sole closing file q -> allowed_start path (slice 0 p file) -> (~ exists d, says uniword (slice (p + 7) q file) d) -> verdict uniword path file (Ok ([BadFrontmatter], None))
| v_counted p q m ms n : sole opening file p -> sole closing file q -> allowed_start path (slice 0 p file) -> says uniword (slice (p + 7) q file) (DMap m) -> counted uniword m ms n -> verdict uniword path file (Ok (ms, Some n))
| v_crash p q d : sole opening file p -> sole closing file q -> allowed_start path (slice 0 p file) -> says uniword (slice (p + 7) q file) d -> (~ exists m, d = DMap m /\ acceptable uniword m) -> verdict uniword path file (Err AssertionError).
Lemma sole_fun m file p q : m <> [] -> sole m file p -> sole m file q -> p = q.
Proof. intros N (A & B & C) (A' & B' & C'). destruct (lt_eq_lt_dec p q) as [[L|E]|L]; [exfalso; now apply (B' p)|assumption|exfalso; now apply (B q)]. Qed.
Lemma test_verdict uniword path file r : test_one uniword path file = r <-> verdict uniword path file r.
Proof.
  assert (NO : opening <> []) by discriminate. assert (NC : closing <> []) by discriminate.
  assert (S1 := sole_iff opening file). assert (S2 := sole_iff closing file). unfold test_one. change open_marker with opening. change close_marker with closing.
  destruct (finditer (marker opening) 0 0 file) as [|(p, n1) [|z zs]] eqn:F1.
  - assert (X : ~ exists p q, sole opening file p /\ sole closing file q) by (intros (p & q & P & _); destruct (S1 p 7 NO) as (_ & Y); specialize (Y (conj eq_refl P)); discriminate).
    split; [intros <-; now constructor|]. intros V. inversion V; subst; try reflexivity; exfalso; apply X; eauto.
  - destruct (proj1 (S1 p n1 NO) eq_refl) as (-> & P). change (length opening) with 7. destruct (finditer (marker closing) 0 0 file) as [|(q, n2) [|z zs]] eqn:F2.
    + assert (X : ~ exists p q, sole opening file p /\ sole closing file q) by (intros (p' & q & _ & Q); destruct (S2 q 7 NC) as (_ & Y); specialize (Y (conj eq_refl Q)); discriminate).
      split; [intros <-; now constructor|]. intros V. inversion V; subst; try reflexivity; exfalso; apply X; eauto.
    + destruct (proj1 (S2 q n2 NC) eq_refl) as (-> & Q). pose proof (good_iff path (slice 0 p file)) as GC. destruct (says_iff uniword (slice (p + 7) q file)) as (SO & SE).
      assert (DET : forall r1 r2, verdict uniword path file r1 -> verdict uniword path file r2 -> r1 = r2).
      { assert (PU : forall p', sole opening file p' -> p' = p) by (intros p' X; now apply (sole_fun opening file)). assert (QU : forall q', sole closing file q' -> q' = q) by (intros q' X; now apply (sole_fun closing file)).
        assert (DU : forall d d', says uniword (slice (p + 7) q file) d -> says uniword (slice (p + 7) q file) d' -> d = d') by (intros d d' X Y; apply SO in X, Y; congruence).
        intros r1 r2 V1 V2. destruct V1 as [X1|p1 q1 P1 Q1 C1|p1 q1 P1 Q1 C1 X1|p1 q1 m1 ms1 k1 P1 Q1 C1 D1 K1|p1 q1 d1 P1 Q1 C1 D1 K1]; [exfalso; apply X1; eauto| | | | ]; apply PU in P1; apply QU in Q1; subst p1 q1;
        (destruct V2 as [X2|p2 q2 P2 Q2 C2|p2 q2 P2 Q2 C2 X2|p2 q2 m2 ms2 k2 P2 Q2 C2 D2 K2|p2 q2 d2 P2 Q2 C2 D2 K2]; [exfalso; apply X2; eauto| | | | ]; apply PU in P2; apply QU in Q2; subst p2 q2); try reflexivity; try contradiction; try (exfalso; eauto; fail).
        - pose proof (DU _ _ D1 D2) as E. injection E as <-. destruct (check_iff uniword m1) as (A & _). apply A in K1, K2. congruence.
        - pose proof (DU _ _ D1 D2) as E. subst d2. exfalso. apply K2. exists m1. split; [reflexivity|]. now destruct K1.
        - pose proof (DU _ _ D1 D2) as E. subst d1. exfalso. apply K1. exists m2. split; [reflexivity|]. now destruct K2. }
      match goal with |- ?t = r <-> _ => assert (V : verdict uniword path file t) end.
      { destruct (good_copyright path (slice 0 p file)); cbn [negb]; [|apply (v_copyright _ _ _ p q P Q); intros X; apply GC in X; discriminate]. assert (C : allowed_start path (slice 0 p file)) by now apply GC.
        destruct (parse_frontmatter uniword (slice (p + 7) q file)) as [d|e].
        - pose proof (proj1 (SO d) eq_refl) as D. destruct d as [t|l|m]; [apply (v_crash _ _ _ p q _ P Q C D); intros (m & X & _); discriminate|apply (v_crash _ _ _ p q _ P Q C D); intros (m & X & _); discriminate|].
          destruct (check_iff uniword m) as (A & B). destruct (check_data uniword (DMap m)) as [(ms, n)|e]; cbn [bind].
          + apply (v_counted _ _ _ p q m); try assumption. now apply A.
          + destruct (proj1 (B e) eq_refl) as (-> & N). apply (v_crash _ _ _ p q _ P Q C D). intros (m' & X & Y). injection X as <-. contradiction.
        - destruct (proj1 (SE e) eq_refl) as (-> & N). now apply (v_frontmatter _ _ _ p q). }
      split; [intros <-; exact V|]. intros V2. exact (DET _ _ V V2).
    + assert (X : ~ exists p q, sole opening file p /\ sole closing file q) by (intros (p' & q' & _ & Q); destruct (S2 q' 7 NC) as (_ & Y); specialize (Y (conj eq_refl Q)); discriminate).
      destruct (q, n2) as (q0, n0). split; [intros <-; now constructor|]. intros V. inversion V; subst; try reflexivity; exfalso; apply X; eauto.
  - assert (X : ~ exists p q, sole opening file p /\ sole closing file q) by (intros (p' & q & P & _); destruct (S1 p' 7 NO) as (_ & Y); specialize (Y (conj eq_refl P)); discriminate).
    split; [intros <-; now constructor|]. intros V. inversion V; subst; try reflexivity; exfalso; apply X; eauto.
Qed.
