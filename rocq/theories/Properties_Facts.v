(* C104: the names of intrinsic objects, and the facts that are recorded about them *)
From Coq Require Import Ascii String Lia List.
From Verif Require Import M_Base L_Base M_HTML M_Shared M_Records M_Refs M_Style L_StyleDesc L_ValTree L_Entities M_PropPath L_PropPath Properties_PropPath M_PGrammar M_Steps Properties_Steps M_Validate L_Validate L_ValNodes M_SecId L_SecId M_Facts.
Open Scope list_scope.
Open Scope nat_scope.
Notation length := List.length.

Section Names.
  Variable uw : N -> bool.
  Variable up : N -> text.
  Notation wordy := (wordy uw).
  Definition line (m : text) : Prop := m <> [] /\ ~ In 10%N m.
  (* t is the pieces ws with single characters of a kind between them, which are not in the pieces *)
  Inductive cut (S : N -> Prop) : text -> list text -> Prop :=
  | cut_last w : (forall c, In c w -> ~ S c) -> cut S w [w]
  | cut_more w s t ws : (forall c, In c w -> ~ S c) -> S s -> cut S t ws -> cut S (w ++ s :: t) (w :: ws).
  Inductive capital : list text -> text -> Prop :=
  | cap_nil : capital [] []
  | cap_cons c w ws r : capital ws r -> capital ((c :: w) :: ws) (up c ++ w ++ r).
  (* what a path of properties is called *)
  Definition path_name (p x : text) : Prop :=
    exists b cs, nbase_ok uw b /\ Forall (spaced uw) cs /\ p = phrase b ++ concat (map render_comp cs) /\ x = name_of b ++ concat (map short cs).
  Definition percent (x : text) : text := [37%N] ++ x ++ [37%N].
  (* the forms that a phrase can have, and what it stands for *)
  Inductive form : nat -> text -> res text -> Prop :=
  | f_name m : m <> [] -> ~ In 37%N m -> m <> tx "GeneratorFunction.prototype.prototype" -> m <> tx "AsyncGeneratorFunction.prototype.prototype" -> form 0 (percent m) (Ok (percent m))
  | f_gen : form 0 (tx "%GeneratorFunction.prototype.prototype%") (Ok (tx "%GeneratorPrototype%"))
  | f_agen : form 0 (tx "%AsyncGeneratorFunction.prototype.prototype%") (Ok (tx "%AsyncGeneratorPrototype%"))
  | f_global p : In p [tx "the global object"; tx "global object"] -> form 1 p (Ok (tx "%(global)%"))
  | f_fixed p q : In (p, q) [ (tx "the constructor of async function objects", tx "%AsyncFunction%"); (tx "the constructor of async generator function objects", tx "%AsyncGeneratorFunction%");
      (tx "the constructor of generator function objects", tx "%GeneratorFunction%"); (tx "the super class of all typed Array constructors", tx "%TypedArray%");
      (tx "the prototype of Iterator Helper objects", tx "%IteratorHelperPrototype%"); (tx "the prototype of wrapped iterator objects returned by Iterator.from", tx "%WrapForValidIteratorPrototype%") ] ->
      form 2 p (Ok q)
  | f_iterator i m ws x : In i [tx "I"; tx "i"] -> line m -> cut (fun c => c = 45%N \/ c = 32%N) m ws -> capital ws x -> form 3 (tx "the prototype of " ++ m ++ tx " " ++ i ++ tx "terator objects") (Ok (percent (x ++ tx "IteratorPrototype")))
  | f_iterator_gap i m ws : In i [tx "I"; tx "i"] -> line m -> cut (fun c => c = 45%N \/ c = 32%N) m ws -> In [] ws -> form 3 (tx "the prototype of " ++ m ++ tx " " ++ i ++ tx "terator objects") (Err IndexError)
  | f_proto_pct t w : In t [tx "the "; []] -> wordy w -> form 4 (t ++ tx "%" ++ w ++ tx "% prototype object") (Ok (percent (w ++ tx ".prototype")))
  | f_proto t w e : In t [tx "the "; []] -> wordy w -> In e [tx " object"; []] -> form 5 (t ++ w ++ tx " prototype" ++ e) (Ok (percent (w ++ tx ".prototype")))
  | f_object w e : wordy w -> In e [tx " constructor"; tx " object"] -> form 6 (tx "the " ++ w ++ e) (Ok (percent w))
  | f_object_pct m ws e : cut (fun c => c = 46%N) m ws -> Forall wordy ws -> In e [tx "% object"; tx "% intrinsic object"] -> form 7 (tx "the %" ++ m ++ e) (Ok (percent m))
  | f_function w : wordy w -> form 8 (tx "the " ++ w ++ tx " function") (Ok (percent w))
  | f_accessor g p x : In g [tx "get"; tx "set"] -> line p -> path_name p x -> form 9 (g ++ tx " " ++ p) (Ok (percent (x ++ tx ":" ++ g)))
  | f_accessor_bad g p : In g [tx "get"; tx "set"] -> line p -> (forall x, ~ path_name p x) -> form 9 (g ++ tx " " ++ p) (Err AssertionError)
  | f_path p x : path_name p x -> form 10 p (Ok (percent x))
  | f_nothing p : (forall x, ~ path_name p x) -> form 10 p (Err AssertionError).

  (* ---- the stages, one by one ---- *)
  Definition stage0 (p : text) : option (res text) := if delimited p then Some (if text_eqb p (tx "%GeneratorFunction.prototype.prototype%") then Ok (tx "%GeneratorPrototype%")
    else if text_eqb p (tx "%AsyncGeneratorFunction.prototype.prototype%") then Ok (tx "%AsyncGeneratorPrototype%") else Ok p) else None.
  Definition stage1 (p : text) : option (res text) := if text_eqb p (tx "the global object") || text_eqb p (tx "global object") then Some (Ok (tx "%(global)%")) else None.
  Definition stage2 (p : text) : option (res text) := match tget_ p fixed_phrases with Some r => Some (Ok r) | None => None end.
  Definition smap {A} (f : text -> A) (o : option text) : option A := match o with Some x => Some (f x) | None => None end.
  Definition stage3 (p : text) : option (res text) := smap (fun what => do x <- camel up (pieces hyphen_or_space [] what) ;; Ok (pc (x ++ tx "IteratorPrototype")))
    (either (some_line (between (tx "the prototype of ") (tx " Iterator objects") p)) (some_line (between (tx "the prototype of ") (tx " iterator objects") p))).
  Definition stage4 (p : text) : option (res text) := smap (fun w => Ok (pc (w ++ tx ".prototype"))) (opt_the (fun q => some_word uw (between (tx "%") (tx "% prototype object") q)) p).
  Definition stage5 (p : text) : option (res text) := smap (fun w => do x <- normalize_property_path uw (w ++ tx ".prototype") ;; Ok (pc x))
    (opt_the (fun q => either (some_word uw (between [] (tx " prototype object") q)) (some_word uw (between [] (tx " prototype") q))) p).
  Definition stage6 (p : text) : option (res text) := smap (fun w => Ok (pc w)) (either (some_word uw (between (tx "the ") (tx " constructor") p)) (some_word uw (between (tx "the ") (tx " object") p))).
  Definition stage7 (p : text) : option (res text) := smap (fun w => Ok (pc w)) (either (some_dotted uw (between (tx "the %") (tx "% object") p)) (some_dotted uw (between (tx "the %") (tx "% intrinsic object") p))).
  Definition stage8 (p : text) : option (res text) := smap (fun w => Ok (pc w)) (some_word uw (between (tx "the ") (tx " function") p)).
  Definition stage9 (p : text) : option (res text) := either (smap (fun path => do x <- normalize_property_path uw path ;; Ok (pc (x ++ tx ":get"))) (some_line (between (tx "get ") [] p)))
    (smap (fun path => do x <- normalize_property_path uw path ;; Ok (pc (x ++ tx ":set"))) (some_line (between (tx "set ") [] p))).
  Definition stage10 (p : text) : option (res text) := Some (do x <- normalize_property_path uw p ;; Ok (pc x)).
  Definition stages := [stage0; stage1; stage2; stage3; stage4; stage5; stage6; stage7; stage8; stage9; stage10].
  Lemma pdn_stages p : Some (get_pdn uw up p) = first_some (fun f => f p) stages.
  Proof.
    unfold get_pdn. cbn [stages first_some]. unfold stage0, stage1, stage2, stage3, stage4, stage5, stage6, stage7, stage8, stage9, stage10.
    destruct (delimited p); [repeat match goal with |- context [if ?b then _ else _] => destruct b end; reflexivity|].
    destruct (text_eqb p (tx "the global object") || text_eqb p (tx "global object")); [reflexivity|]. destruct (tget_ p fixed_phrases); [reflexivity|].
    repeat match goal with |- Some (match ?x with _ => _ end) = _ => destruct x; cbn [smap either]; [reflexivity|] end. reflexivity.
  Qed.

  Lemma line_some o m : some_line o = Some m <-> o = Some m /\ line m.
  Proof.
    unfold some_line, line. destruct o as [[|c m']|]; [split; [discriminate|]; intros ([= <-] & X & _); congruence| |split; [discriminate|]; now intros ([=] & _)].
    destruct (no_newline (c :: m')) eqn:E.
    - apply no_newline_iff in E. split; [intros [= <-]; repeat split; [discriminate|assumption]|now intros ([= <-] & _)].
    - split; [discriminate|]. intros ([= <-] & _ & X). apply no_newline_iff in X. congruence.
  Qed.
  Lemma word_some o m : some_word uw o = Some m <-> o = Some m /\ wordy m.
  Proof.
    unfold some_word. destruct o as [m'|]; [|split; [discriminate|]; now intros ([=] & _)]. destruct (words uw m') eqn:E.
    - apply words_iff in E. split; [intros [= <-]; auto|now intros ([= <-] & _)].
    - split; [discriminate|]. intros ([= <-] & X). apply words_iff in X. congruence.
  Qed.
  Lemma pieces_cut (S : N -> Prop) sep : (forall c, sep c = true <-> S c) -> forall t cur, (forall c, In c cur -> ~ S c) -> cut S (rev cur ++ t) (pieces sep cur t).
  Proof.
    intros HS. induction t as [|c t IH]; intros cur H; cbn [pieces].
    - rewrite app_nil_r. constructor. intros x I. apply H. now apply in_rev.
    - destruct (sep c) eqn:E.
      + constructor; [intros x I; apply H; now apply in_rev|now apply HS|]. exact (IH [] (fun c0 (X : In c0 []) => match X with end)).
      + replace (rev cur ++ c :: t) with (rev (c :: cur) ++ t) by (cbn [rev]; now rewrite <- app_assoc). apply IH. intros x [<-|I]; [intros X; apply HS in X; congruence|now apply H].
  Qed.
  Lemma clean_split (S : N -> Prop) : forall a b s t u, (forall c, In c a -> ~ S c) -> (forall c, In c b -> ~ S c) -> S s -> S t -> forall v, a ++ s :: u = b ++ t :: v -> a = b /\ s = t /\ u = v.
  Proof.
    induction a as [|x a IH]; intros [|y b] s t u A B Hs Ht v E; cbn [app] in E.
    - split; [reflexivity|]. split; congruence.
    - exfalso. apply (B y (or_introl eq_refl)). congruence.
    - exfalso. apply (A x (or_introl eq_refl)). congruence.
    - destruct (IH b s t u (fun c I => A c (or_intror I)) (fun c I => B c (or_intror I)) Hs Ht v ltac:(congruence)) as (-> & -> & ->). split; [congruence|auto].
  Qed.
  Lemma cut_once S t ws : cut S t ws -> forall ws', cut S t ws' -> ws = ws'.
  Proof.
    induction 1 as [w H|w s t ws H Hs K IH]; intros ws' K'; inversion K' as [w' H' E1 E2|w' s' t' ws2 H' Hs' K2 E1 E2]; subst; try reflexivity.
    - exfalso. apply (H s'); [apply in_or_app; right; now left|assumption].
    - exfalso. apply (H' s); [apply in_or_app; right; now left|assumption].
    - destruct (clean_split S w' w s' s t' H' H Hs' Hs t E1) as (-> & -> & ->). f_equal. now apply IH.
  Qed.
  Lemma cut_iff S sep t ws : (forall c, sep c = true <-> S c) -> cut S t ws <-> ws = pieces sep [] t.
  Proof.
    intros HS. pose proof (pieces_cut S sep HS t [] (fun c (X : In c []) => match X with end)) as P. cbn [rev app] in P. split; [intros K; now apply (cut_once S t)|now intros ->].
  Qed.
  Lemma dotted_some o m : some_dotted uw o = Some m <-> o = Some m /\ exists ws, cut (fun c => c = 46%N) m ws /\ Forall wordy ws.
  Proof.
    unfold some_dotted, dotted_words. destruct o as [m'|]; [|split; [discriminate|]; now intros ([=] & _)].
    pose proof (fun ws => cut_iff (fun c => c = 46%N) (fun c => (c =? 46)%N) m' ws (fun c => N.eqb_eq c 46)) as C.
    assert (F : forallb (words uw) (pieces (fun c => (c =? 46)%N) [] m') = true <-> exists ws, cut (fun c => c = 46%N) m' ws /\ Forall wordy ws).
    { rewrite forallb_forall. split.
      - intros H. eexists. split; [now apply C|]. apply Forall_forall. intros x I. now apply words_iff, H.
      - intros (ws & K & H) x I. apply C in K. subst ws. rewrite Forall_forall in H. now apply words_iff, H. }
    destruct (forallb (words uw) (pieces (fun c => (c =? 46)%N) [] m')).
    - split; [intros [= <-]; split; [reflexivity|now apply F]|now intros ([= <-] & _)].
    - split; [discriminate|]. intros ([= <-] & X). apply F in X. discriminate.
  Qed.
  Lemma camel_ok ws x : camel up ws = Ok x <-> capital ws x.
  Proof.
    revert x. induction ws as [|[|c w] ws IH]; intros x; cbn [camel].
    - split; [intros E; apply ok_inj in E; subst; constructor|]. intros K. inversion K. reflexivity.
    - split; [discriminate|]. intros K. inversion K.
    - split.
      + intros E. apply bind_ok in E as (r & E & E'). apply ok_inj in E'. subst x. constructor. now apply IH.
      + intros K. inversion K as [|c' w' ws' r K']; subst. apply IH in K'. now rewrite K'.
  Qed.
  Lemma camel_err ws e : camel up ws = Err e <-> e = IndexError /\ In [] ws.
  Proof.
    induction ws as [|[|c w] ws IH]; cbn [camel].
    - split; [discriminate|]. now intros (_ & []).
    - split; [intros [= <-]; split; [reflexivity|now left]|now intros (-> & _)].
    - destruct (camel up ws) as [r|e']; cbn [bind].
      + split; [discriminate|]. intros (A & [B|B]); [discriminate|]. assert (X : Ok r = Err e) by (apply IH; auto). discriminate X.
      + split; [intros X; apply IH in X as (A & B); split; [assumption|now right]|]. intros (A & [B|B]); [discriminate|]. apply IH. auto.
  Qed.
  Lemma percent_pc x : pc x = percent x. Proof. reflexivity. Qed.
  Lemma path_ok p x : normalize_property_path uw p = Ok x <-> path_name p x.
  Proof. apply C93_normalize. Qed.
  Lemma path_err p e : normalize_property_path uw p = Err e <-> e = AssertionError /\ forall x, ~ path_name p x.
  Proof.
    split.
    - intros E. split; [exact (C93_normalize_fails uw p e E)|]. intros x K. apply path_ok in K. congruence.
    - intros (-> & H). destruct (normalize_property_path uw p) as [x|e] eqn:E; [apply path_ok in E; now apply H in E|]. f_equal. exact (C93_normalize_fails uw p e E).
  Qed.
  Lemma either_iff {A} (a b : option A) x : either a b = Some x <-> a = Some x \/ (a = None /\ b = Some x).
  Proof. destruct a as [y|]; cbn [either]; [split; [auto|]; intros [H|(H & _)]; [assumption|discriminate]|]. split; [auto|]. intros [H|(_ & H)]; [discriminate|assumption]. Qed.
  Lemma either_excl {A} (a b : option A) x : (forall y z, a = Some y -> b = Some z -> False) -> either a b = Some x <-> a = Some x \/ b = Some x.
  Proof. intros H. rewrite either_iff. split; [tauto|]. intros [E|E]; [auto|]. right. split; [|assumption]. destruct a as [y|]; [exfalso; eauto|reflexivity]. Qed.
  Lemma smap_iff {A} (f : text -> A) o r : smap f o = Some r <-> exists x, o = Some x /\ r = f x.
  Proof. destruct o as [x|]; cbn [smap]; [split; [intros [= <-]; eauto|intros (y & [= <-] & ->); reflexivity]|]. split; [discriminate|now intros (x & [=] & _)]. Qed.
  Lemma opt_the_iff f p w : (forall q y z, p = tx "the " ++ q -> f q = Some y -> f p = Some z -> False) -> opt_the f p = Some w <-> exists t q, In t [tx "the "; []] /\ p = t ++ q /\ f q = Some w.
  Proof.
    intros H. unfold opt_the. rewrite either_excl.
    - destruct (eat (tx "the ") p) as [q|] eqn:E; cbn [and_then].
      + apply eat_inv in E. split.
        * intros [X|X]; [exists (tx "the "), q; split; [now left|auto]|exists [], p; split; [right; now left|auto]].
        * intros (t & q' & [<-|[<-|[]]] & E' & X); [left|right; cbn [app] in E'; now subst q']. rewrite E in E'. apply app_inv_head in E'. now subst q'.
      + split.
        * intros [X|X]; [discriminate|]. exists [], p. split; [right; now left|auto].
        * intros (t & q' & [<-|[<-|[]]] & E' & X); [rewrite E', eat_ok in E; discriminate|]. right. cbn [app] in E'. now subst q'.
    - intros y z. destruct (eat (tx "the ") p) as [q|] eqn:E; cbn [and_then]; [|discriminate]. apply eat_inv in E. eauto.
  Qed.
  Lemma last_app_ne (a e : text) : e <> [] -> last (a ++ e) 0%N = last e 0%N.
  Proof. intros NE. induction a as [|x a IH]; [reflexivity|]. cbn [app]. destruct (a ++ e) as [|y l] eqn:Q; [destruct a; [cbn in Q; congruence|discriminate]|]. exact IH. Qed.
  Lemma ends_apart (a b e f : text) : a ++ e = b ++ f -> e <> [] -> f <> [] -> last e 0%N <> last f 0%N -> False.
  Proof. intros E Ne Nf L. apply L. rewrite <- (last_app_ne a e Ne), <- (last_app_ne b f Nf). now rewrite E. Qed.
  Lemma stage0_iff p r : stage0 p = Some r <-> form 0 p r.
  Proof.
    unfold stage0, delimited. assert (P : forall m, percent m = tx "%" ++ m ++ tx "%") by reflexivity. split.
    - destruct (between (tx "%") (tx "%") p) as [[|c m]|] eqn:E; try discriminate. apply between_iff in E. destruct (forallb (fun x => negb (x =? 37)%N) (c :: m)) eqn:F; [|discriminate].
      assert (NI : ~ In 37%N (c :: m)) by (intros I; rewrite forallb_forall in F; specialize (F _ I); discriminate).
      destruct (text_eqb p (tx "%GeneratorFunction.prototype.prototype%")) eqn:G1; [intros [= <-]; apply text_eqb_eq in G1; rewrite G1; constructor|].
      destruct (text_eqb p (tx "%AsyncGeneratorFunction.prototype.prototype%")) eqn:G2; [intros [= <-]; apply text_eqb_eq in G2; rewrite G2; constructor|]. intros [= <-]. rewrite E. apply (f_name (c :: m)); [discriminate|assumption| |].
      + intros X. rewrite E, X in G1. vm_compute in G1. discriminate.
      + intros X. rewrite E, X in G2. vm_compute in G2. discriminate.
    - intros K. inversion K as [m H1 H2 H3 H4| | | | | | | | | | | | | | | ]; subst; try (vm_compute; reflexivity). rewrite P, (proj2 (between_iff (tx "%") (tx "%") _ m) eq_refl). destruct m as [|c m]; [congruence|].
      replace (forallb (fun x => negb (x =? 37)%N) (c :: m)) with true by (symmetry; apply forallb_forall; intros x I; apply Bool.negb_true_iff, N.eqb_neq; intros ->; contradiction).
      rewrite <- P. replace (text_eqb (percent (c :: m)) (tx "%GeneratorFunction.prototype.prototype%")) with false; [replace (text_eqb (percent (c :: m)) (tx "%AsyncGeneratorFunction.prototype.prototype%")) with false; [reflexivity|]|].
      + symmetry. apply Bool.not_true_iff_false. intros X. apply text_eqb_eq in X. apply H4. apply (app_inv_tail [37%N]). unfold percent in X. cbn [app] in X. apply (f_equal (@tl N)) in X. exact X.
      + symmetry. apply Bool.not_true_iff_false. intros X. apply text_eqb_eq in X. apply H3. apply (app_inv_tail [37%N]). unfold percent in X. cbn [app] in X. apply (f_equal (@tl N)) in X. exact X.
  Qed.
  Lemma stage1_iff p r : stage1 p = Some r <-> form 1 p r.
  Proof.
    unfold stage1. destruct (text_eqb p (tx "the global object") || text_eqb p (tx "global object")) eqn:E.
    - apply Bool.orb_true_iff in E. rewrite !text_eqb_eq in E. split; [intros [= <-]; apply f_global; cbn [In]; intuition congruence|]. intros K. inversion K; subst. reflexivity.
    - split; [discriminate|]. intros K. inversion K as [| | |p' I| | | | | | | | | | | | ]; subst. exfalso. apply Bool.orb_false_iff in E as (E1 & E2). destruct I as [<-|[<-|[]]]; [vm_compute in E1; discriminate|vm_compute in E2; discriminate].
  Qed.
  Lemma stage2_iff p r : stage2 p = Some r <-> form 2 p r.
  Proof.
    unfold stage2. split.
    - destruct (tget_ p fixed_phrases) as [q|] eqn:E; [|discriminate]. intros [= <-]. apply tget_iff in E as (l1 & l2 & E & _). apply f_fixed. change (In (p, q) fixed_phrases). rewrite E. apply in_or_app. right. now left.
    - intros K. inversion K as [| | | |p' q I| | | | | | | | | | | ]; subst. cbn [In] in I. repeat (destruct I as [[= <- <-]|I]; [vm_compute; reflexivity|]). destruct I.
  Qed.
  Lemma hs_iff c : hyphen_or_space c = true <-> c = 45%N \/ c = 32%N.
  Proof. unfold hyphen_or_space. rewrite Bool.orb_true_iff, !N.eqb_eq. reflexivity. Qed.
  Lemma stage3_iff p r : stage3 p = Some r <-> form 3 p r.
  Proof.
    unfold stage3. rewrite smap_iff.
    assert (W : forall m, either (some_line (between (tx "the prototype of ") (tx " Iterator objects") p)) (some_line (between (tx "the prototype of ") (tx " iterator objects") p)) = Some m <->
      exists i, In i [tx "I"; tx "i"] /\ line m /\ p = tx "the prototype of " ++ m ++ tx " " ++ i ++ tx "terator objects").
    { intros m. rewrite either_excl, !line_some, !between_iff.
      - split; [intros [(E & L)|(E & L)]; [exists (tx "I")|exists (tx "i")]; (split; [cbn [In]; auto|]); auto|]. intros (i & [<-|[<-|[]]] & L & E); [left|right]; auto.
      - intros y z Y Z. apply line_some in Y as (Y & _), Z as (Z & _). apply between_iff in Y, Z. rewrite Y in Z. apply app_inv_head in Z.
        change (tx " Iterator objects") with (tx " I" ++ tx "terator objects") in Z. change (tx " iterator objects") with (tx " i" ++ tx "terator objects") in Z. rewrite !app_assoc in Z. apply app_inv_tail in Z. eapply ends_apart; [exact Z|discriminate|discriminate|discriminate]. }
    split.
    - intros (m & E & ->). apply W in E as (i & I & L & ->). destruct (camel up (pieces hyphen_or_space [] m)) as [x|e] eqn:C; cbn [bind].
      + apply camel_ok in C. eapply f_iterator; eauto. apply (cut_iff _ hyphen_or_space); [apply hs_iff|reflexivity].
      + apply camel_err in C as (-> & C). eapply f_iterator_gap; eauto. apply (cut_iff _ hyphen_or_space); [apply hs_iff|reflexivity].
    - intros K. inversion K as [| | | | |i m ws x I L C X E1 E2|i m ws I L C X E1 E2| | | | | | | | | ]; subst; exists m; (split; [apply W; eauto|]); apply (cut_iff _ hyphen_or_space _ _ hs_iff) in C; subst ws.
      + apply camel_ok in X. now rewrite X.
      + assert (Y := proj2 (camel_err _ IndexError) (conj eq_refl X)). now rewrite Y.
  Qed.
  Lemma stage4_iff p r : stage4 p = Some r <-> form 4 p r.
  Proof.
    unfold stage4. rewrite smap_iff. assert (W := opt_the_iff (fun q => some_word uw (between (tx "%") (tx "% prototype object") q)) p). cbv beta in W.
    assert (X : forall q y z, p = tx "the " ++ q -> some_word uw (between (tx "%") (tx "% prototype object") q) = Some y -> some_word uw (between (tx "%") (tx "% prototype object") p) = Some z -> False).
    { intros q y z E _ Z. apply word_some in Z as (Z & _). apply between_iff in Z. rewrite E in Z. discriminate. }
    split.
    - intros (w & E & ->). apply (W w X) in E as (t & q & I & -> & E). apply word_some in E as (E & K). apply between_iff in E. rewrite E. now apply f_proto_pct.
    - intros K. inversion K as [| | | | | | |t w I L E1 E2| | | | | | | | ]; subst. exists w. split; [|reflexivity]. apply (W w X). exists t, (tx "%" ++ w ++ tx "% prototype object"). split; [assumption|]. split; [reflexivity|]. apply word_some. split; [now apply between_iff|assumption].
  Qed.
  Lemma proto_path w : wordy w -> normalize_property_path uw (w ++ tx ".prototype") = Ok (w ++ tx ".prototype").
  Proof.
    intros W. apply path_ok. exists (Plain (Name w)), [Dot (tx "prototype")]. split; [exact W|]. split; [|split; cbn [phrase name_of render_base map concat render_comp short]; now rewrite ?app_nil_r].
    constructor; [|constructor]. split; [|exact Logic.I]. split; [discriminate|]. intros c I. cbn in I. repeat (destruct I as [<-|I]; [reflexivity|]). destruct I.
  Qed.
  Definition proto_of (q : text) : option text := either (some_word uw (between [] (tx " prototype object") q)) (some_word uw (between [] (tx " prototype") q)).
  Lemma proto_of_iff q w : proto_of q = Some w <-> wordy w /\ exists e, In e [tx " object"; []] /\ q = w ++ tx " prototype" ++ e.
  Proof.
    unfold proto_of. rewrite either_excl, !word_some, !between_iff.
    - cbn [app]. split.
      + intros [(E & K)|(E & K)]; (split; [assumption|]); [exists (tx " object")|exists []]; (split; [cbn [In]; auto|exact E]).
      + intros (K & e & [<-|[<-|[]]] & E); [left|right]; auto.
    - intros y z Y Z. apply word_some in Y as (Y & _), Z as (Z & _). apply between_iff in Y, Z. rewrite Y in Z. change (y ++ tx " prototype object" = z ++ tx " prototype") in Z. eapply ends_apart; [exact Z|discriminate|discriminate|discriminate].
  Qed.
  Lemma word_space a b u v : wordy a -> wordy b -> a ++ 32%N :: u = b ++ 32%N :: v -> a = b /\ u = v.
  Proof.
    intros A B E. assert (NS : forall w, wordy w -> forall c, In c w -> ~ c = 32%N) by (intros w W c I ->; exact (wordy_no uw w 32 W eq_refl I)).
    destruct (clean_split (fun c => c = 32%N) a b 32%N 32%N u (NS a A) (NS b B) eq_refl eq_refl v E) as (X & _ & Y). auto.
  Qed.
  Lemma lit_word s : forallb (wordc uw) s = true -> s <> [] -> wordy s.
  Proof. intros F NE. split; [assumption|]. intros c I. rewrite forallb_forall in F. now apply F. Qed.
  Lemma stage5_iff p r : stage5 p = Some r <-> form 5 p r.
  Proof.
    unfold stage5. rewrite smap_iff. fold proto_of. change (opt_the _ p) with (opt_the proto_of p).
    assert (X : forall q y z, p = tx "the " ++ q -> proto_of q = Some y -> proto_of p = Some z -> False).
    { intros q y z E Y Z. apply proto_of_iff in Y as (WY & e & IE & Y), Z as (WZ & f & IF & Z). rewrite E, Y in Z.
      change (tx "the " ++ y ++ tx " prototype" ++ e) with (tx "the" ++ 32%N :: (y ++ 32%N :: (tx "prototype" ++ e))) in Z. change (z ++ tx " prototype" ++ f) with (z ++ 32%N :: (tx "prototype" ++ f)) in Z.
      apply word_space in Z as (_ & Z); [|apply lit_word; [reflexivity|discriminate]|assumption]. destruct IF as [<-|[<-|[]]].
      - change (tx "prototype" ++ tx " object") with (tx "prototype" ++ 32%N :: tx "object") in Z. apply word_space in Z as (_ & Z); [discriminate|assumption|apply lit_word; [reflexivity|discriminate]].
      - assert (I : In 32%N (tx "prototype" ++ [])) by (rewrite <- Z; apply in_or_app; right; now left). cbn in I. repeat (destruct I as [I|I]; [discriminate I|]). destruct I. }
    assert (W := fun w => opt_the_iff proto_of p w X). split.
    - intros (w & E & ->). apply W in E as (t & q & I & -> & E). apply proto_of_iff in E as (K & e & IE & ->). rewrite (proto_path w K). cbn [bind]. now apply f_proto.
    - intros K. inversion K as [| | | | | | | |t w e I L IE E1 E2| | | | | | | ]; subst. exists w. split; [|now rewrite (proto_path w L)]. apply W. exists t, (w ++ tx " prototype" ++ e). split; [assumption|]. split; [reflexivity|]. apply proto_of_iff. split; [assumption|]. exists e. auto.
  Qed.
  Lemma stage6_iff p r : stage6 p = Some r <-> form 6 p r.
  Proof.
    unfold stage6. rewrite smap_iff. setoid_rewrite either_excl.
    - split.
      + intros (w & E & ->). rewrite !word_some, !between_iff in E. destruct E as [(-> & K)|(-> & K)]; apply f_object; cbn [In]; auto.
      + intros K. inversion K as [| | | | | | | | |w e L IE E1 E2| | | | | | ]; subst. exists w. split; [|reflexivity]. rewrite !word_some, !between_iff. destruct IE as [<-|[<-|[]]]; auto.
    - intros y z Y Z. apply word_some in Y as (Y & _), Z as (Z & _). apply between_iff in Y, Z. rewrite Y in Z. apply app_inv_head in Z. eapply ends_apart; [exact Z|discriminate|discriminate|discriminate].
  Qed.
  Lemma dotted_no m ws c : cut (fun c => c = 46%N) m ws -> Forall wordy ws -> wordc uw c = false -> c <> 46%N -> ~ In c m.
  Proof.
    induction 1 as [w H|w s t ws H Hs K IH]; intros F S0 NE I; inversion F as [|? ? W F']; subst.
    - exact (wordy_no uw w c W S0 I). - apply in_app_iff in I as [I|[I|I]]; [exact (wordy_no uw w c W S0 I)|congruence|exact (IH F' S0 NE I)].
  Qed.
  Lemma stage7_iff p r : stage7 p = Some r <-> form 7 p r.
  Proof.
    unfold stage7. rewrite smap_iff. setoid_rewrite either_excl.
    - split.
      + intros (w & E & ->). rewrite !dotted_some, !between_iff in E. destruct E as [(-> & ws & K & F)|(-> & ws & K & F)]; eapply f_object_pct; eauto; cbn [In]; auto.
      + intros K. inversion K as [| | | | | | | | | |m ws e C F IE E1 E2| | | | | ]; subst. exists m. split; [|reflexivity]. rewrite !dotted_some, !between_iff. destruct IE as [<-|[<-|[]]]; eauto.
    - intros y z Y Z. apply dotted_some in Y as (Y & ws & C & F), Z as (Z & _). apply between_iff in Y, Z. rewrite Y in Z. apply app_inv_head in Z.
      change (tx "% intrinsic object") with (tx "% intrinsi" ++ tx "c object") in Z. change (tx "% object") with (tx "%" ++ tx " object") in Z. change (tx "% intrinsi" ++ tx "c object") with (tx "% intrinsic" ++ tx " object") in Z. rewrite !app_assoc in Z. apply app_inv_tail in Z.
      eapply ends_apart; [exact Z|discriminate|discriminate|discriminate].
  Qed.
  Lemma stage8_iff p r : stage8 p = Some r <-> form 8 p r.
  Proof.
    unfold stage8. rewrite smap_iff. split.
    - intros (w & E & ->). rewrite word_some, between_iff in E. destruct E as (-> & K). now apply f_function.
    - intros K. inversion K as [| | | | | | | | | | |w L E1 E2| | | | ]; subst. exists w. split; [|reflexivity]. rewrite word_some, between_iff. auto.
  Qed.
  Lemma stage9_iff p r : stage9 p = Some r <-> form 9 p r.
  Proof.
    unfold stage9. rewrite either_excl, !smap_iff.
    - split.
      + intros [(m & E & ->)|(m & E & ->)]; rewrite line_some, between_iff, app_nil_r in E; destruct E as (-> & L).
        * change (tx "get " ++ m) with (tx "get" ++ tx " " ++ m). destruct (normalize_property_path uw m) as [x|e] eqn:Q; cbn [bind]; [apply path_ok in Q; apply (f_accessor (tx "get") m x); [now left|assumption|assumption]|apply path_err in Q as (-> & Q); apply f_accessor_bad; [now left|assumption|assumption]].
        * change (tx "set " ++ m) with (tx "set" ++ tx " " ++ m). destruct (normalize_property_path uw m) as [x|e] eqn:Q; cbn [bind]; [apply path_ok in Q; apply (f_accessor (tx "set") m x); [right; now left|assumption|assumption]|apply path_err in Q as (-> & Q); apply f_accessor_bad; [right; now left|assumption|assumption]].
      + intros K. inversion K as [| | | | | | | | | | | |g q x IG L Q E1 E2|g q IG L Q E1 E2| | ]; subst; destruct IG as [<-|[<-|[]]]; [left|right|left|right]; exists q; (split; [rewrite line_some, between_iff, app_nil_r; split; [reflexivity|assumption]|]).
        * apply path_ok in Q. now rewrite Q. * apply path_ok in Q. now rewrite Q.
        * assert (Y := proj2 (path_err q AssertionError) (conj eq_refl Q)). now rewrite Y. * assert (Y := proj2 (path_err q AssertionError) (conj eq_refl Q)). now rewrite Y.
    - intros y z Y Z. apply smap_iff in Y as (a & Y & _), Z as (b & Z & _). apply line_some in Y as (Y & _), Z as (Z & _). apply between_iff in Y, Z. rewrite Y in Z. discriminate.
  Qed.
  Lemma stage10_iff p r : stage10 p = Some r <-> form 10 p r.
  Proof.
    unfold stage10. destruct (normalize_property_path uw p) as [x|e] eqn:Q; cbn [bind].
    - split; [intros [= <-]; apply f_path; now apply path_ok|]. intros K. inversion K as [| | | | | | | | | | | | | |p' x' Q' E1 E2|p' Q' E1 E2]; subst; apply path_ok in Q; [|now apply Q' in Q]. apply path_ok in Q, Q'. rewrite Q in Q'. apply ok_inj in Q'. now subst x'.
    - apply path_err in Q as (-> & Q). split; [intros [= <-]; now apply f_nothing|]. intros K. inversion K as [| | | | | | | | | | | | | |p' x' Q' E1 E2|p' Q' E1 E2]; subst; [now apply Q in Q'|reflexivity].
  Qed.
  Lemma first_nth {A} (fs : list (text -> option A)) p r : first_some (fun f => f p) fs = Some r <-> exists k f, nth_error fs k = Some f /\ f p = Some r /\ forall j g, j < k -> nth_error fs j = Some g -> g p = None.
  Proof.
    induction fs as [|f fs IH]; cbn [first_some].
    - split; [discriminate|]. intros ([|k] & f & E & _); discriminate.
    - destruct (f p) as [y|] eqn:E.
      + split; [intros [= <-]; exists 0, f; split; [reflexivity|]; split; [assumption|]; intros j g L; lia|]. intros ([|k] & g & E1 & E2 & H); [cbn in E1; congruence|]. specialize (H 0 f ltac:(lia) eq_refl). congruence.
      + rewrite IH. split.
        * intros (k & g & E1 & E2 & H). exists (S k), g. split; [exact E1|]. split; [assumption|]. intros [|j] g' L Q; [cbn in Q; congruence|]. apply (H j); [lia|exact Q].
        * intros ([|k] & g & E1 & E2 & H); [cbn in E1; congruence|]. exists k, g. split; [exact E1|]. split; [assumption|]. intros j g' L Q. apply (H (S j)); [lia|exact Q].
  Qed.
  Lemma stage_form k f p r : nth_error stages k = Some f -> (f p = Some r <-> form k p r).
  Proof.
    do 11 (destruct k as [|k]; [cbn; intros [= <-]; first [apply stage0_iff|apply stage1_iff|apply stage2_iff|apply stage3_iff|apply stage4_iff|apply stage5_iff|apply stage6_iff|apply stage7_iff|apply stage8_iff|apply stage9_iff|apply stage10_iff]|]).
    cbn. destruct k; discriminate.
  Qed.
  Lemma form_stage k p r : form k p r -> exists f, nth_error stages k = Some f.
  Proof. intros K. inversion K; cbn; eauto. Qed.
  (* The name of an object is given by the first form, in the order of their numbers, that the phrase has. *)
  Theorem C104_name : forall p r, get_pdn uw up p = r <-> exists k, form k p r /\ forall j r', j < k -> ~ form j p r'.
  Proof.
    intros p r. assert (E := pdn_stages p). split.
    - intros <-. symmetry in E. apply first_nth in E as (k & f & E1 & E2 & H). exists k. split; [now apply (stage_form k f)|]. intros j r' L K. destruct (form_stage j p r' K) as (g & G). specialize (H j g L G). apply (stage_form j g p r' G) in K. congruence.
    - intros (k & K & H). destruct (form_stage k p r K) as (f & F). assert (X : first_some (fun f => f p) stages = Some r); [|congruence].
      apply first_nth. exists k, f. split; [assumption|]. split; [now apply (stage_form k f p r F)|]. intros j g L G. destruct (g p) as [r'|] eqn:Q; [|reflexivity]. apply (stage_form j g p r' G) in Q. exfalso. exact (H j r' L Q).
  Qed.
End Names.
Print Assumptions C104_name.
(* Whatever is returned is delimited by percent signs; naming it again gives the same, but for names with a percent sign inside and two names that have another name. *)
Theorem C104_delimited : forall uw up p q, get_pdn uw up p = Ok q -> exists x, x <> [] /\ q = [37%N] ++ x ++ [37%N] /\
  (~ In 37%N x -> x <> tx "GeneratorFunction.prototype.prototype" -> x <> tx "AsyncGeneratorFunction.prototype.prototype" -> get_pdn uw up q = Ok q).
Proof.
  intros uw up p q E. assert (G : exists x, x <> [] /\ q = percent x).
  { apply C104_name in E as (k & K & _). remember (Ok q) as r eqn:R. revert R.
    assert (PN : forall y x, path_name uw y x -> x <> []) by (intros y x (b & cs & B & _ & _ & ->); destruct b as [[w|w]| |]; cbn [name_of nbase_ok base_ok] in *; try discriminate; destruct B as (B & _); destruct w; [congruence|discriminate|congruence|discriminate]).
    assert (NE : forall (a b : text), b <> [] -> a ++ b <> []) by (intros a b B X; apply app_eq_nil in X as (_ & X); contradiction).
    destruct K as [m A B C D| | |p I|p r I|i m ws x I L C X|i m ws I L C X|t w I W|t w e I W IE|w e W IE|m ws e C F IE|w W|g p x IG L P|g p IG L P|p x P|p P]; intros R; try discriminate R; apply ok_inj in R; subst q.
    - now exists m. - now exists (tx "GeneratorPrototype"). - now exists (tx "AsyncGeneratorPrototype"). - now exists (tx "(global)").
    - cbn [In] in I. repeat (destruct I as [I|I]; [apply (f_equal snd) in I; cbn [snd] in I; rewrite <- I; eexists; split; [|unfold percent; cbn [app tx]; first [instantiate (1 := tx "AsyncFunction"); reflexivity|instantiate (1 := tx "AsyncGeneratorFunction"); reflexivity|instantiate (1 := tx "GeneratorFunction"); reflexivity|instantiate (1 := tx "TypedArray"); reflexivity|instantiate (1 := tx "IteratorHelperPrototype"); reflexivity|instantiate (1 := tx "WrapForValidIteratorPrototype"); reflexivity]]; discriminate|]). destruct I.
    - eexists. split; [|reflexivity]. now apply NE. - eexists. split; [|reflexivity]. now apply NE. - eexists. split; [|reflexivity]. now apply NE.
    - exists w. split; [apply W|reflexivity].
    - exists m. split; [|reflexivity]. intros ->. inversion C as [w H E1 E2|w s t ws0 H Hs K E1 E2]; subst; [inversion F as [|? ? (X & _)]; subst; congruence|destruct w; discriminate].
    - exists w. split; [apply W|reflexivity]. - eexists. split; [|reflexivity]. apply NE. discriminate. - eexists. split; [|reflexivity]. now apply (PN p). }
  destruct G as (x & NE & ->). exists x. split; [assumption|]. split; [reflexivity|]. intros NI N1 N2. apply C104_name. exists 0. split; [now apply f_name|]. intros j r L. lia.
Qed.
Print Assumptions C104_delimited.
Theorem C104_twice_refuted : exists p q, forall uw up, get_pdn uw up p = Ok q /\ exists q', get_pdn uw up q = Ok q' /\ q' <> q.
Proof. exists (tx "the %GeneratorFunction.prototype.prototype% object"), (tx "%GeneratorFunction.prototype.prototype%"). intros uw up. split; [vm_compute; reflexivity|]. exists (tx "%GeneratorPrototype%"). split; [vm_compute; reflexivity|discriminate]. Qed.
Print Assumptions C104_twice_refuted.
Theorem C104_symbol_refuted : exists p q, forall uw up, get_pdn uw up p = Ok q /\ get_pdn uw up q = Err AssertionError.
Proof. exists (tx "Array [ %Symbol.species% ]"), (tx "%Array[%Symbol.species%]%"). intros uw up. split; vm_compute; reflexivity. Qed.
Print Assumptions C104_symbol_refuted.
(* different phrases for the same object have the same name, and so have an intrinsic and a property that is called the same *)
Example ex_C104_name : forall uw up, up 97%N = tx "A" -> up 102%N = tx "F" ->
  get_pdn uw up (tx "the prototype of async-from iterator objects") = Ok (tx "%AsyncFromIteratorPrototype%") /\ get_pdn uw up (tx "the Array prototype object") = Ok (tx "%Array.prototype%") /\
  get_pdn uw up (tx "%Array% prototype object") = Ok (tx "%Array.prototype%") /\ get_pdn uw up (tx "the Array constructor") = Ok (tx "%Array%") /\ get_pdn uw up (tx "get RegExp.prototype.flags") = Ok (tx "%RegExp.prototype.flags:get%") /\
  get_pdn uw up (tx "the prototype of a  b iterator objects") = Err IndexError /\ get_pdn uw up (tx "a thing") = Err AssertionError /\ get_pdn uw up (tx "the prototype") = Ok (tx "%the.prototype%").
Proof. intros uw up Ha Hf. repeat split; vm_compute; rewrite ?Ha, ?Hf; reflexivity. Qed.

(* ------------------------------------------------------------------ *)
(* expansion *)
Definition has_text (p t : text) : Prop := exists a b, t = a ++ p ++ b.
(* the replacements, one after the other; swapped replaces each occurrence from the left *)
Definition named_for (name e s s8 : text) : Prop := exists s1 s2 s3 s4 s5 s6 s7,
  swapped (tx "the corresponding _" ++ name ++ tx "_ prototype intrinsic object (<emu-xref href=""#sec-properties-of-typedarray-prototype-objects""></emu-xref>)") (tx "the " ++ e ++ tx " prototype object") s s1 /\
  swapped (tx "the constructor itself") (tx "the " ++ e ++ tx " constructor") s1 s2 /\
  swapped (tx "the String value consisting of the name of the constructor (the name used instead of _NativeError_)") (tx "*""" ++ e ++ tx """*") s2 s3 /\
  swapped (tx "each _" ++ name ++ tx "_") (tx "the " ++ e) s3 s4 /\
  swapped (tx "a _" ++ name ++ tx "_") (tx "the " ++ e) s4 s5 /\
  swapped (tx "_" ++ name ++ tx "_") e s5 s6 /\
  swapped (tx "the String value <emu-val>""<var>" ++ name ++ tx "</var>""</emu-val>") (tx "*""" ++ e ++ tx """*") s6 s7 /\
  swapped (tx "the String value of the constructor name specified for it in <emu-xref href=""#table-the-typedarray-constructors""></emu-xref>") (tx "*""" ++ e ++ tx """*") s7 s8.
Lemma corresponding name x y : x = tx "_" ++ y -> tx "the corresponding " ++ (tx "_" ++ name ++ tx "_") ++ y = tx "the corresponding _" ++ name ++ x.
Proof. intros ->. rewrite <- !app_assoc. reflexivity. Qed.
Theorem C104_expand : forall name e s s', expand_str name e s = s' <-> named_for name e s s'.
Proof.
  intros name e s s'. unfold named_for. split.
  - intros <-. unfold expand_str. cbv zeta. rewrite (corresponding name (tx "_ prototype intrinsic object (<emu-xref href=""#sec-properties-of-typedarray-prototype-objects""></emu-xref>)") (tx " prototype intrinsic object (<emu-xref href=""#sec-properties-of-typedarray-prototype-objects""></emu-xref>)") eq_refl). do 7 eexists. repeat match goal with |- _ /\ _ => split end; refine (proj2 (swapped_iff _ _ _ _ _) _); try reflexivity; discriminate.
  - intros (s1 & s2 & s3 & s4 & s5 & s6 & s7 & E1 & E2 & E3 & E4 & E5 & E6 & E7 & E8). apply swapped_iff in E1, E2, E3, E4, E5, E6, E7, E8; try discriminate. unfold expand_str. cbv zeta. rewrite (corresponding name (tx "_ prototype intrinsic object (<emu-xref href=""#sec-properties-of-typedarray-prototype-objects""></emu-xref>)") (tx " prototype intrinsic object (<emu-xref href=""#sec-properties-of-typedarray-prototype-objects""></emu-xref>)") eq_refl). subst. reflexivity.
Qed.
Print Assumptions C104_expand.
Lemma begins_text q t : is_prefix q t = true -> has_text q t.
Proof. intros P. apply begins_iff in P as (w & ->). now exists [], w. Qed.
(* an occurrence of a name with marks at its ends does not come about by replacing something *)
Lemma prefix_kept p r q : p <> [] -> (forall x u, q = x ++ u -> u <> [] -> forall v w, ~ (u = v /\ v ++ w = r)) -> (forall x u w, q = x ++ u -> u = r ++ w -> False) ->
  forall n t u x, length t <= n -> q = x ++ u -> is_prefix u (str_replace p r t) = true -> is_prefix u t = true.
Proof.
  intros NE H1 H2. induction n as [|n IH]; intros [|c t] u x L Q P; cbn [length] in L; try lia; try exact P. destruct u as [|d u]; [reflexivity|]. destruct (is_prefix p (c :: t)) eqn:B.
  - apply begins_iff in B as (v & E). rewrite E, replace_match in P by exact NE. apply begins_iff in P as (w & P). exfalso. destruct (le_lt_dec (length (d :: u)) (length r)) as [LE|LT].
    + apply (H1 x (d :: u) Q ltac:(discriminate) (d :: u) (skipn (length (d :: u)) r)). split; [reflexivity|]. assert (F := f_equal (firstn (length (d :: u))) P). rewrite !firstn_app, Nat.sub_diag, firstn_all, firstn_O, app_nil_r in F.
      replace (length (d :: u) - length r) with 0 in F by lia. rewrite firstn_O, app_nil_r in F. rewrite <- F at 1. apply firstn_skipn.
    + apply (H2 x (d :: u) (skipn (length r) (d :: u)) Q). assert (F := f_equal (firstn (length r)) P). rewrite !firstn_app, Nat.sub_diag, firstn_all, firstn_O, app_nil_r in F.
      replace (length r - length (d :: u)) with 0 in F by lia. rewrite firstn_O, app_nil_r in F. rewrite F at 1. symmetry. apply firstn_skipn.
  - rewrite (replace_nomatch _ _ _ _ B) in P. cbn [is_prefix] in *. apply Bool.andb_true_iff in P as (P1 & P2). rewrite P1. cbn [andb]. apply (IH t u (x ++ [d])); [lia|now rewrite <- app_assoc|exact P2].
Qed.
(* the name begins and ends with an underscore, what is put in has none and is not a part of the name *)
Lemma swap_keeps p r q : p <> [] -> r <> [] -> ~ In 95%N r -> hd_error q = Some 95%N -> last q 0%N = 95%N -> ~ has_text r q ->
  forall t, has_text q (str_replace p r t) -> has_text q t.
Proof.
  intros NE NR NU HD LA NH t. assert (PK : forall n t u x, length t <= n -> q = x ++ u -> is_prefix u (str_replace p r t) = true -> is_prefix u t = true).
  { apply prefix_kept; [assumption| |].
    - intros x u Q NU' v w (<- & R). apply NU. rewrite <- R. apply in_or_app. left. assert (LU : last u 0%N = 95%N) by (rewrite <- LA, Q; symmetry; now apply last_app_ne). rewrite <- LU. destruct u as [|a u]; [congruence|]. clear. revert a. induction u as [|b u IH]; intros a; [now left|]. right. apply IH.
    - intros x u w Q R. apply NH. exists x, w. congruence. }
  assert (G : forall n t, length t <= n -> has_text q (str_replace p r t) -> has_text q t); [|now apply (G (length t))].
  induction n as [|n IH]; intros [|c t'] L H; cbn [length] in L; try lia; try exact H. destruct (is_prefix p (c :: t')) eqn:B.
  - apply begins_iff in B as (v & E). rewrite E, replace_match in H by exact NE. assert (LV : length v <= n). { assert (LL := f_equal (@length _) E). rewrite app_length in LL. cbn [length] in LL. destruct p; [congruence|cbn [length] in LL; lia]. }
    destruct H as (a & b & H). destruct (le_lt_dec (length r) (length a)) as [LE|LT].
    + assert (H' : str_replace p r v = skipn (length r) a ++ q ++ b). { assert (F := f_equal (skipn (length r)) H). rewrite !skipn_app, skipn_all, Nat.sub_diag in F. cbn [app skipn] in F. replace (length r - length a) with 0 in F by lia. exact F. }
      destruct (IH v LV) as (a' & b' & ->); [eexists; eexists; exact H'|]. exists (p ++ a'), b'. now rewrite E, <- app_assoc.
    + exfalso. apply NU. destruct q as [|y q']; [discriminate|]. cbn in HD. injection HD as ->. assert (F := f_equal (fun l => nth_error l (length a)) H). cbn beta in F. rewrite (nth_error_app1 r _ LT), nth_error_app2, Nat.sub_diag in F by lia. cbn in F. now apply nth_error_In in F.
  - rewrite (replace_nomatch _ _ _ _ B) in H. destruct H as (a & b & H). destruct a as [|d a]; cbn [app] in H.
    + apply (begins_text q (c :: t')). apply (PK (S (length t')) (c :: t') q []); [cbn; lia|reflexivity|]. rewrite (replace_nomatch _ _ _ _ B), H. apply begins_iff. now exists b.
    + destruct (IH t') as (a' & b' & ->); [lia|exists a, b; congruence|]. now exists (c :: a'), b'.
Qed.
Lemma swap_gone r q : r <> [] -> ~ In 95%N r -> hd_error q = Some 95%N -> last q 0%N = 95%N -> ~ has_text r q -> forall t, ~ has_text q (str_replace q r t).
Proof.
  intros NR NU HD LA NH. assert (NE : q <> []) by (intros ->; discriminate).
  assert (PK : forall n t u x, length t <= n -> q = x ++ u -> is_prefix u (str_replace q r t) = true -> is_prefix u t = true).
  { apply prefix_kept; [assumption| |].
    - intros x u Q NU' v w (<- & R). apply NU. rewrite <- R. apply in_or_app. left. assert (LU : last u 0%N = 95%N) by (rewrite <- LA, Q; symmetry; now apply last_app_ne). rewrite <- LU. destruct u as [|a u]; [congruence|]. clear. revert a. induction u as [|b u IH]; intros a; [now left|]. right. apply IH.
    - intros x u w Q R. apply NH. exists x, w. congruence. }
  intros t. assert (G : forall n t, length t <= n -> ~ has_text q (str_replace q r t)); [|now apply (G (length t))]. clear t.
  induction n as [|n IH]; intros [|c t'] L H; cbn [length] in L; try lia; try (destruct H as ([|] & b & H); [destruct q; [congruence|discriminate]|discriminate]). destruct (is_prefix q (c :: t')) eqn:B.
  - apply begins_iff in B as (v & E). rewrite E, replace_match in H by exact NE. assert (LV : length v <= n). { assert (LL := f_equal (@length _) E). rewrite app_length in LL. cbn [length] in LL. destruct q; [congruence|cbn [length] in LL; lia]. }
    destruct H as (a & b & H). destruct (le_lt_dec (length r) (length a)) as [LE|LT].
    + apply (IH v LV). exists (skipn (length r) a), b. assert (F := f_equal (skipn (length r)) H). rewrite !skipn_app, skipn_all, Nat.sub_diag in F. cbn [app skipn] in F. replace (length r - length a) with 0 in F by lia. exact F.
    + apply NU. destruct q as [|y q']; [discriminate|]. cbn in HD. injection HD as ->. assert (F := f_equal (fun l => nth_error l (length a)) H). cbn beta in F. rewrite (nth_error_app1 r _ LT), nth_error_app2, Nat.sub_diag in F by lia. cbn in F. now apply nth_error_In in F.
  - rewrite (replace_nomatch _ _ _ _ B) in H. destruct H as (a & b & H). destruct a as [|d a]; cbn [app] in H.
    + assert (X : is_prefix q (c :: t') = true); [|congruence]. apply (PK (S (length t')) (c :: t') q []); [cbn; lia|reflexivity|]. rewrite (replace_nomatch _ _ _ _ B), H. apply begins_iff. now exists b.
    + apply (IH t'); [lia|]. exists a, b. congruence.
Qed.
(* Nothing is left of the variable, provided that what stands for it has no underscore and is not a part of the variable's name. *)
Theorem C104_no_variable : forall name e s, In name [tx "NativeError"; tx "TypedArray"] -> e <> [] -> ~ In 95%N e -> ~ has_text e (tx "_" ++ name ++ tx "_") ->
  ~ has_text (tx "_" ++ name ++ tx "_") (expand_str name e s).
Proof.
  intros name e s IN NE NU NH. unfold expand_str. cbv zeta. set (u := tx "_" ++ name ++ tx "_") in *.
  assert (HD : hd_error u = Some 95%N) by reflexivity. assert (LA : last u 0%N = 95%N) by (destruct IN as [<-|[<-|[]]]; reflexivity).
  assert (NS : ~ In 42%N u) by (destruct IN as [<-|[<-|[]]]; cbn; intros I; repeat (destruct I as [I|I]; [discriminate I|]); destruct I).
  assert (QU : ~ In 95%N (tx "*""" ++ e ++ tx """*")) by (intros I; apply in_app_iff in I as [I|I]; [cbn in I; intuition discriminate|apply in_app_iff in I as [I|I]; [contradiction|cbn in I; intuition discriminate]]).
  assert (QH : ~ has_text (tx "*""" ++ e ++ tx """*") u) by (intros (a & b & E); apply NS; rewrite E; apply in_or_app; right; now left).
  intros H. apply swap_keeps in H; try assumption; try discriminate. apply swap_keeps in H; try assumption; try discriminate. exact (swap_gone e u NE NU HD LA NH _ H).
Qed.
Print Assumptions C104_no_variable.
Example ex_C104_no_variable : expand_str (tx "TypedArray") (tx "Int8Array") (tx "each _TypedArray_ constructor") = tx "the Int8Array constructor" /\ ~ In 95%N (tx "Int8Array") /\
  expand_str (tx "NativeError") (tx "RangeError") (tx "the String value consisting of the name of the constructor (the name used instead of _NativeError_)") = tx "*""RangeError""*".
Proof. split; [vm_compute; reflexivity|split; [cbn; intuition discriminate|vm_compute; reflexivity]]. Qed.
(* the proviso is needed *)
Theorem C104_part_refuted : exists name e s, In name [tx "NativeError"; tx "TypedArray"] /\ e <> [] /\ ~ In 95%N e /\ has_text (tx "_" ++ name ++ tx "_") (expand_str name e s).
Proof. exists (tx "NativeError"), (tx "Error"), (tx "_Native_NativeError__"). split; [now left|]. split; [discriminate|]. split; [cbn; intuition discriminate|]. exists [], []. vm_compute. reflexivity. Qed.
Print Assumptions C104_part_refuted.
(* and the article is put in also where only the end of a word looks like one *)
Theorem C104_article_refuted : exists s, expand_str (tx "TypedArray") (tx "Int8Array") s = tx "datthe Int8Array" /\ s = tx "data _TypedArray_".
Proof. eexists. split; [|reflexivity]. vm_compute. reflexivity. Qed.
Print Assumptions C104_article_refuted.

(* ------------------------------------------------------------------ *)
(* facts *)
Section Put.
  Variable uw : N -> bool.
  Variable up : N -> text.
  Variables natives typeds : list text.
  Notation get_pdn := (get_pdn uw up).
  Inductive side_for (name e : text) : rside -> rside -> Prop :=
  | sf_str s s' : named_for name e s s' -> side_for name e (RStr s) (RStr s')
  | sf_slot n v v' : named_for name e v v' -> side_for name e (RSlot n v) (RSlot n v')
  | sf_prop k k' a a' : named_for name e k k' -> Forall2 (fun x y => fst x = fst y /\ named_for name e (snd x) (snd y)) a a' -> side_for name e (RProp k a) (RProp k' a').
  (* the variable that a section is about *)
  Definition about (title name : text) (es : list text) : Prop :=
    (has_text (tx "_NativeError_") title /\ name = tx "NativeError" /\ es = natives) \/ (~ has_text (tx "_NativeError_") title /\ has_text (tx "_TypedArray_") title /\ name = tx "TypedArray" /\ es = typeds).
  (* the facts that one stands for *)
  Definition stands_for (title l : text) (r : rside) (xs : list (text * rside)) : Prop :=
    (exists name es, about title name es /\ Forall2 (fun e x => named_for name e l (fst x) /\ side_for name e r (snd x)) es xs) \/
    (~ has_text (tx "_NativeError_") title /\ ~ has_text (tx "_TypedArray_") title /\ xs = [(l, r)]).
  (* texts for values that are not objects *)
  Definition kept (s : text) : Prop := exists p t, s = p ++ t /\ In p [tx "*"; tx "the largest"; tx "the smallest"; tx "the Number value"; tx "The Number value"; tx "the Element Size"; tx "the empty String"; tx "the String value";
    tx "the well-known symbol"; tx "1"; tx "host-defined"; tx "emu-alg in"; tx "prose in"].
  Definition value_of (s x : text) : Prop := (kept s /\ x = s) \/ (~ kept s /\ get_pdn s = Ok x).
  Inductive side_of (verb : text) : rside -> rside -> Prop :=
  | so_same r : In verb [tx "exists"; tx "is"] -> side_of verb r r
  | so_str s x : ~ In verb [tx "exists"; tx "is"] -> value_of s x -> side_of verb (RStr s) (RStr x)
  | so_slot n v x : ~ In verb [tx "exists"; tx "is"] -> value_of v x -> side_of verb (RSlot n v) (RSlot n x)
  | so_prop k a b : ~ In verb [tx "exists"; tx "is"] -> Forall2 (fun x y => fst x = fst y /\ value_of (snd x) (snd y)) a b -> side_of verb (RProp k a) (RProp k b).
  Inductive recorded (verb : text) : text * rside -> list (text * text * rside) -> Prop :=
  | rc_fact l r q x : verb <> tx "is-aka" -> get_pdn l = Ok q -> side_of verb r x -> recorded verb (l, r) [(q, verb, x)]
  | rc_aka l s q : verb = tx "is-aka" -> get_pdn l = Ok q -> value_of s q -> recorded verb (l, RStr s) [].

  Lemma expand_side_iff name e r r' : expand_side (expand_str name e) r = Ok r' <-> side_for name e r r'.
  Proof.
    assert (AT : forall a a', Forall2 (fun x y : text * text => fst x = fst y /\ named_for name e (snd x) (snd y)) a a' <-> a' = map (fun x => (fst x, expand_str name e (snd x))) a).
    { induction a as [|(n, v) a IH]; intros a'; cbn [map]; split.
      - intros F. inversion F. reflexivity. - intros ->. constructor.
      - intros F. inversion F as [|x y l l' (A & B) F']; subst. destruct y as (n', v'). cbn [fst snd] in *. subst n'. apply C104_expand in B. subst v'. f_equal. now apply IH.
      - intros ->. constructor; [cbn [fst snd]; split; [reflexivity|now apply C104_expand]|now apply IH]. }
    destruct r as [s|n v|k a|]; cbn [expand_side]; split.
    - intros E. apply ok_inj in E. subst r'. constructor. now apply C104_expand. - intros K. inversion K as [s0 s' K'| |]; subst. apply C104_expand in K'. now subst.
    - intros E. apply ok_inj in E. subst r'. constructor. now apply C104_expand. - intros K. inversion K as [|n0 v0 v' K'|]; subst. apply C104_expand in K'. now subst.
    - intros E. apply ok_inj in E. subst r'. constructor; [now apply C104_expand|now apply AT]. - intros K. inversion K as [| |k0 k' a0 a' K1 K2]; subst. apply C104_expand in K1. apply AT in K2. now subst.
    - discriminate. - intros K. inversion K.
  Qed.
  Lemma expand_all_iff name l r es : forall xs, expand_all name (Some l) r es = Ok xs <-> exists ys, xs = map (fun y => (Some (fst y), snd y)) ys /\ Forall2 (fun e x => named_for name e l (fst x) /\ side_for name e r (snd x)) es ys.
  Proof.
    induction es as [|e es IH]; intros xs; cbn [expand_all].
    - split; [intros E; apply ok_inj in E; subst; exists []; split; [reflexivity|constructor]|]. intros (ys & -> & F). inversion F. reflexivity.
    - split.
      + intros E. apply bind_ok in E as (r' & E1 & E). apply bind_ok in E as (rest & E2 & E). apply ok_inj in E. subst xs. apply IH in E2 as (ys & -> & F). exists ((expand_str name e l, r') :: ys). split; [reflexivity|]. constructor; [|assumption]. cbn [fst snd]. split; [now apply C104_expand|now apply expand_side_iff].
      + intros (ys & -> & F). inversion F as [|e' y es' ys' (A & B) F']; subst. apply expand_side_iff in B. rewrite B. cbn [bind]. rewrite (proj2 (IH _) (ex_intro _ ys' (conj eq_refl F'))). cbn [bind map]. apply C104_expand in A. now rewrite A.
  Qed.
  Lemma text_has p t : has_sub p t = true <-> has_text p t.
  Proof. apply has_sub_iff. Qed.
  Lemma expanded_iff title l r xs : expanded_facts natives typeds title (Some l) r = Ok xs <-> exists ys, xs = map (fun y => (Some (fst y), snd y)) ys /\ stands_for title l r ys.
  Proof.
    unfold expanded_facts, stands_for, about. destruct (has_sub (tx "_NativeError_") title) eqn:H1; [|destruct (has_sub (tx "_TypedArray_") title) eqn:H2].
    - apply text_has in H1. rewrite expand_all_iff. split.
      + intros (ys & -> & F). exists ys. split; [reflexivity|]. left. exists (tx "NativeError"), natives. split; [left; auto|exact F].
      + intros (ys & -> & [(name & es & [(A & -> & ->)|(A & _)] & F)|(A & _)]); [eauto|contradiction|contradiction].
    - assert (N1 : ~ has_text (tx "_NativeError_") title) by (rewrite <- text_has; congruence). apply text_has in H2. rewrite expand_all_iff. split.
      + intros (ys & -> & F). exists ys. split; [reflexivity|]. left. exists (tx "TypedArray"), typeds. split; [right; auto|exact F].
      + intros (ys & -> & [(name & es & [(A & _)|(_ & A & -> & ->)] & F)|(_ & A & _)]); [contradiction|eauto|contradiction].
    - assert (N1 : ~ has_text (tx "_NativeError_") title) by (rewrite <- text_has; congruence). assert (N2 : ~ has_text (tx "_TypedArray_") title) by (rewrite <- text_has; congruence). split.
      + intros E. apply ok_inj in E. subst xs. exists [(l, r)]. auto.
      + intros (ys & -> & [(name & es & [(A & _)|(_ & A & _)] & F)|(_ & _ & ->)]); [contradiction|contradiction|reflexivity].
  Qed.
  Lemma kept_iff s : existsb (fun p => is_prefix p s) as_is = true <-> kept s.
  Proof.
    rewrite existsb_exists. unfold kept. split.
    - intros (p & I & P). apply begins_iff in P as (t & ->). now exists p, t.
    - intros (p & t & -> & I). exists p. split; [exact I|]. apply begins_iff. now exists t.
  Qed.
  Lemma value_iff s x : normalize_str uw up s = Ok x <-> value_of s x.
  Proof.
    unfold normalize_str, value_of. destruct (existsb (fun p => is_prefix p s) as_is) eqn:E.
    - apply kept_iff in E. split; [intros X; apply ok_inj in X; auto|]. intros [(_ & ->)|(X & _)]; [reflexivity|contradiction].
    - assert (NK : ~ kept s) by (rewrite <- kept_iff; congruence). split; [auto|]. intros [(X & _)|(_ & X)]; [contradiction|assumption].
  Qed.
  Lemma attrs_iff a : forall b, normalize_attrs uw up a = Ok b <-> Forall2 (fun x y => fst x = fst y /\ value_of (snd x) (snd y)) a b.
  Proof.
    induction a as [|(n, v) a IH]; intros b; cbn [normalize_attrs].
    - split; [intros E; apply ok_inj in E; subst; constructor|]. intros F. inversion F. reflexivity.
    - split.
      + intros E. apply bind_ok in E as (v' & E1 & E). apply bind_ok in E as (r & E2 & E). apply ok_inj in E. subst b. constructor; [cbn [fst snd]; split; [reflexivity|now apply value_iff]|now apply IH].
      + intros F. inversion F as [|x y l l' (A & B) F']; subst. destruct y as (n', v'). cbn [fst snd] in *. subst n'. apply value_iff in B. rewrite B. apply IH in F'. rewrite F'. reflexivity.
  Qed.
  Lemma side_iff verb r x : normalize_side uw up verb r = Ok x <-> side_of verb r x.
  Proof.
    unfold normalize_side. destruct (text_eqb verb (tx "exists") || text_eqb verb (tx "is")) eqn:V.
    - apply Bool.orb_true_iff in V. rewrite !text_eqb_eq in V. assert (I : In verb [tx "exists"; tx "is"]) by (cbn [In]; intuition congruence). split; [intros E; apply ok_inj in E; subst; now constructor|]. intros K. inversion K; subst; first [reflexivity|contradiction].
    - assert (I : ~ In verb [tx "exists"; tx "is"]). { apply Bool.orb_false_iff in V as (V1 & V2). intros [X|[X|[]]]; subst verb; [vm_compute in V1|vm_compute in V2]; discriminate. }
      destruct r as [s|n v|k a|]; split.
      + intros E. apply bind_ok in E as (y & E & E'). apply ok_inj in E'. subst x. apply so_str; [assumption|now apply value_iff].
      + intros K. inversion K as [r0 J|s0 y J W| |]; subst; [contradiction|]. apply value_iff in W. now rewrite W.
      + intros E. apply bind_ok in E as (y & E & E'). apply ok_inj in E'. subst x. apply so_slot; [assumption|now apply value_iff].
      + intros K. inversion K as [r0 J| |n0 s0 y J W|]; subst; [contradiction|]. apply value_iff in W. now rewrite W.
      + intros E. apply bind_ok in E as (y & E & E'). apply ok_inj in E'. subst x. apply so_prop; [assumption|now apply attrs_iff].
      + intros K. inversion K as [r0 J| | |k0 a0 y J W]; subst; [contradiction|]. apply attrs_iff in W. now rewrite W.
      + discriminate. + intros K. inversion K. contradiction.
  Qed.
  Lemma cook_iff verb y fs : cook uw up verb (Some (fst y), snd y) = (fs, Ok tt) <-> recorded verb y fs.
  Proof.
    destruct y as (l, r). unfold cook. cbn [fst snd]. destruct (get_pdn l) as [q|e] eqn:G.
    2: { split; [discriminate|]. intros K. inversion K; subst; congruence. }
    assert (AKA : ~ In (tx "is-aka") [tx "exists"; tx "is"]) by (intros [X|[X|[]]]; discriminate X).
    destruct (normalize_side uw up verb r) as [x|e] eqn:X.
    - apply side_iff in X. destruct (text_eqb verb (tx "is-aka")) eqn:V.
      + apply text_eqb_eq in V. subst verb. unfold massert. split.
        * destruct x as [s|n v|k a|]; try discriminate. destruct (text_eqb q s) eqn:Q; [|discriminate]. apply text_eqb_eq in Q. subst s. cbn [assert_]. intros [= <-]. inversion X as [r0 J|s0 y J W| |]; subst; [contradiction|]. now apply rc_aka with (q := q).
        * intros K. inversion K as [l0 r0 q0 x0 NV G' S0|l0 s q0 V G' W]; subst; [congruence|]. rewrite G in G'. apply ok_inj in G'. subst q0. inversion X as [r0 J|s0 y J W'| |]; subst; [contradiction|]. apply value_iff in W, W'. rewrite W in W'. apply ok_inj in W'. subst y. now rewrite (proj2 (text_eqb_eq q q) eq_refl).
      + assert (NV : verb <> tx "is-aka") by (intros Y; apply text_eqb_eq in Y; congruence). unfold mtell. split.
        * intros [= <-]. now constructor.
        * intros K. inversion K as [l0 r0 q0 x0 NV' G' S0|l0 s q0 V' G' W]; subst; [|congruence]. rewrite G in G'. apply ok_inj in G'. subst q0. apply side_iff in X, S0. rewrite X in S0. apply ok_inj in S0. now subst x0.
    - split; [discriminate|]. intros K. exfalso. inversion K as [l0 r0 q0 x0 NV' G' S0|l0 s q0 V' G' W]; subst; [apply side_iff in S0; congruence|]. assert (S0 : side_of (tx "is-aka") (RStr s) (RStr q0)) by (now apply so_str). apply side_iff in S0. congruence.
  Qed.
  Lemma cook_fails verb f fs e : cook uw up verb f = (fs, Err e) -> fs = [].
  Proof.
    unfold cook. destruct (fst f) as [l|]; [|intros [= <- _]; reflexivity]. destruct (get_pdn l) as [q|e']; [|intros [= <- _]; reflexivity]. destruct (normalize_side uw up verb (snd f)) as [x|e']; [|intros [= <- _]; reflexivity].
    destruct (text_eqb verb (tx "is-aka")); [|discriminate]. unfold massert. intros [= <- _]. reflexivity.
  Qed.
  Lemma cook_all_iff verb ys : forall fs, cook_all uw up verb (map (fun y => (Some (fst y), snd y)) ys) = (fs, Ok tt) <-> exists fss, Forall2 (recorded verb) ys fss /\ fs = concat fss.
  Proof.
    induction ys as [|y ys IH]; intros fs; cbn [map cook_all].
    - split; [intros [= <-]; exists []; split; [constructor|reflexivity]|]. intros (fss & F & ->). inversion F. reflexivity.
    - unfold mbind. destruct (cook uw up verb (Some (fst y), snd y)) as (f1, [[]|e]) eqn:C.
      + apply cook_iff in C. destruct (cook_all uw up verb (map (fun y => (Some (fst y), snd y)) ys)) as (f2, r2) eqn:D. split.
        * intros [= <- ->]. destruct (proj1 (IH f2) eq_refl) as (fss & F & ->). exists (f1 :: fss). split; [now constructor|reflexivity].
        * intros (fss & F & ->). inversion F as [|y' g ys' fss' R F']; subst. assert (X := proj2 (IH (concat fss')) (ex_intro _ fss' (conj F' eq_refl))). apply cook_iff in R, C. rewrite R in C. injection C as ->. injection X as -> ->. reflexivity.
      + split; [discriminate|]. intros (fss & F & ->). inversion F as [|y' g ys' fss' R F']; subst. apply cook_iff in R. congruence.
  Qed.
  (* A fact is taken in exactly if everything it stands for can be named; what is recorded is one fact for each, in order, and none for another name, which must be the same. *)
  Theorem C104_put : forall title l verb r fs, put_fact uw up natives typeds title (Some l) verb r = (fs, Ok tt) <->
    exists ys fss, stands_for title l r ys /\ Forall2 (recorded verb) ys fss /\ fs = concat fss.
  Proof.
    intros title l verb r fs. unfold put_fact. split.
    - destruct (expanded_facts natives typeds title (Some l) r) as [xs|e] eqn:E; [|discriminate]. apply expanded_iff in E as (ys & -> & S0). intros C. apply cook_all_iff in C as (fss & F & ->). eauto.
    - intros (ys & fss & S0 & F & ->). assert (E : expanded_facts natives typeds title (Some l) r = Ok (map (fun y => (Some (fst y), snd y)) ys)) by (apply expanded_iff; eauto). rewrite E. apply cook_all_iff. eauto.
  Qed.
  Lemma F2_length {A B : Type} (R : A -> B -> Prop) a b : Forall2 R a b -> length a = length b.
  Proof. induction 1; cbn [length]; congruence. Qed.
  (* How many facts there are. *)
  Theorem C104_count : forall title l verb r fs, put_fact uw up natives typeds title (Some l) verb r = (fs, Ok tt) ->
    length fs = if text_eqb verb (tx "is-aka") then 0 else if has_sub (tx "_NativeError_") title then length natives else if has_sub (tx "_TypedArray_") title then length typeds else 1.
  Proof.
    intros title l verb r fs H. apply C104_put in H as (ys & fss & S0 & F & ->).
    assert (LC : length (concat fss) = if text_eqb verb (tx "is-aka") then 0 else length ys).
    { clear S0. destruct (text_eqb verb (tx "is-aka")) eqn:V.
      - apply text_eqb_eq in V. induction F as [|y g ys fss R F IH]; [reflexivity|]. cbn [concat]. rewrite app_length, IH. inversion R; subst; [congruence|reflexivity].
      - assert (NV : verb <> tx "is-aka") by (intros Y; apply text_eqb_eq in Y; congruence). induction F as [|y g ys fss R F IH]; [reflexivity|]. cbn [concat length]. rewrite app_length, IH. inversion R; subst; [reflexivity|congruence]. }
    rewrite LC. destruct (text_eqb verb (tx "is-aka")); [reflexivity|]. destruct S0 as [(name & es & [(A & _ & ->)|(NA & A & _ & ->)] & G)|(NA & NB & ->)].
    - rewrite (proj2 (text_has _ _) A). symmetry. exact (F2_length _ _ _ G).
    - rewrite (proj2 (text_has _ _) A). replace (has_sub (tx "_NativeError_") title) with false by (symmetry; apply Bool.not_true_iff_false; now rewrite text_has). symmetry. exact (F2_length _ _ _ G).
    - replace (has_sub (tx "_NativeError_") title) with false by (symmetry; apply Bool.not_true_iff_false; now rewrite text_has). replace (has_sub (tx "_TypedArray_") title) with false by (symmetry; apply Bool.not_true_iff_false; now rewrite text_has). reflexivity.
  Qed.
  (* If it fails, what came before the failing one has been recorded, and nothing else. *)
  Theorem C104_put_fails : forall title l verb r fs e, put_fact uw up natives typeds title (Some l) verb r = (fs, Err e) ->
    (fs = [] /\ forall ys, ~ stands_for title l r ys) \/
    exists a y b fss, stands_for title l r (a ++ y :: b) /\ Forall2 (recorded verb) a fss /\ fs = concat fss /\ forall g, ~ recorded verb y g.
  Proof.
    intros title l verb r fs e. unfold put_fact. destruct (expanded_facts natives typeds title (Some l) r) as [xs|e'] eqn:E.
    - apply expanded_iff in E as (ys & -> & S0). intros C. right. assert (G : exists a y b fss, ys = a ++ y :: b /\ Forall2 (recorded verb) a fss /\ fs = concat fss /\ forall g, ~ recorded verb y g).
      { clear S0. revert fs C. induction ys as [|y ys IH]; intros fs C; cbn [map cook_all] in C; [discriminate|]. unfold mbind in C. destruct (cook uw up verb (Some (fst y), snd y)) as (f1, [[]|e1]) eqn:K.
        - apply cook_iff in K. destruct (cook_all uw up verb (map (fun y => (Some (fst y), snd y)) ys)) as (f2, r2) eqn:D. injection C as <- ->. destruct (IH f2 eq_refl) as (a & z & b & fss & -> & F & -> & N0). exists (y :: a), z, b, (f1 :: fss). split; [reflexivity|]. split; [now constructor|]. auto.
        - injection C as <- _. exists [], y, ys, []. split; [reflexivity|]. split; [constructor|]. split; [exact (cook_fails _ _ _ _ K)|]. intros g R. apply cook_iff in R. congruence. }
      destruct G as (a & y & b & fss & -> & F & -> & N0). exists a, y, b, fss. auto.
    - intros [= <- _]. left. split; [reflexivity|]. intros ys S0. assert (X : expanded_facts natives typeds title (Some l) r = Ok (map (fun y => (Some (fst y), snd y)) ys)) by (apply expanded_iff; eauto). congruence.
  Qed.
End Put.
Print Assumptions C104_put.
Print Assumptions C104_count.
Print Assumptions C104_put_fails.
Definition no_uni : N -> bool := fun _ => false.
Definition an_up : N -> text := fun c => [if ((97 <=? c) && (c <=? 122))%N then (c - 32)%N else c].
Example ex_C104_put : let put := put_fact no_uni an_up [tx "EvalError"; tx "RangeError"] [tx "Int8Array"] in
  put (tx "Properties of the _NativeError_ Constructors") (Some (tx "each _NativeError_ constructor")) (tx "has-slot") (RSlot (tx "[[Prototype]]") (tx "%Error%"))
    = ([(tx "%EvalError%", tx "has-slot", RSlot (tx "[[Prototype]]") (tx "%Error%")); (tx "%RangeError%", tx "has-slot", RSlot (tx "[[Prototype]]") (tx "%Error%"))], Ok tt) /\
  put (tx "Array.prototype") (Some (tx "the Array constructor")) (tx "has-prop") (RProp (tx "*""prototype""*") [(tx "[[Value]]", tx "the Array prototype object"); (tx "[[Writable]]", tx "*false*")])
    = ([(tx "%Array%", tx "has-prop", RProp (tx "*""prototype""*") [(tx "[[Value]]", tx "%Array.prototype%"); (tx "[[Writable]]", tx "*false*")])], Ok tt) /\
  put (tx "x") (Some (tx "the Array constructor")) (tx "is-aka") (RStr (tx "%Array%")) = ([], Ok tt) /\ put (tx "x") (Some (tx "the Array constructor")) (tx "is-aka") (RStr (tx "%Map%")) = ([], Err AssertionError) /\
  put (tx "x") None (tx "is") (RStr (tx "a constructor")) = ([], Err TypeError).
Proof. vm_compute. auto. Qed.
Example ex_C104_put_fails : exists fs, put_fact no_uni an_up [tx "EvalError"; tx "a thing"] [] (tx "_NativeError_ Objects") (Some (tx "_NativeError_.prototype")) (tx "exists") (RStr []) = (fs, Err AssertionError) /\ length fs = 1.
Proof. eexists. split; [vm_compute; reflexivity|reflexivity]. Qed.
(* a section that is about both variables is expanded for one only *)
Theorem C104_both_refuted : exists title fs x, has_text (tx "_NativeError_") title /\ has_text (tx "_TypedArray_") title /\
  put_fact no_uni an_up [tx "EvalError"] [tx "Int8Array"] title (Some (tx "_NativeError_")) (tx "is") (RStr (tx "a _TypedArray_")) = (fs, Ok tt) /\ In x fs /\ snd x = RStr (tx "a _TypedArray_").
Proof.
  exists (tx "_NativeError_ and _TypedArray_"). do 2 eexists. split; [exists [], (tx " and _TypedArray_"); reflexivity|]. split; [exists (tx "_NativeError_ and "), []; reflexivity|]. split; [vm_compute; reflexivity|]. split; [now left|reflexivity].
Qed.
Print Assumptions C104_both_refuted.

(* ------------------------------------------------------------------ *)
(* how a preamble refers to its own function *)
Section This.
  Variable uw : N -> bool.
  Definition without_ticks (t : text) : text := filter (fun c => negb (c =? 96)%N) t.
  (* a name that is no path of properties is not looked at; otherwise the key must be that of the section's property, and so must the container if there is one *)
  Definition agrees (this : option (option text * text)) (n : text) : Prop :=
    forall c k, splits uw (without_ticks n) c k -> match this with Some (c', k') => k = k' /\ (c = None \/ (c <> None /\ c = c')) | None => c = None end.
  Definition expects_method (title : text) (obj : option text) : Prop :=
    ((has_text (tx ".prototype") title \/ has_text (tx "Prototype%") title) /\ ~ exists t, title = tx "get " ++ t) \/ (exists o, obj = Some o /\ In o [tx "Array.from"; tx "Array.of"; tx "%TypedArray%.from"; tx "%TypedArray%.of"]).
  Inductive name_said (this : option (option text * text)) (f : funcref) : list pmsg -> Prop :=
  | ns_none : fn_name f = None -> name_said this f []
  | ns_it : fn_name f = Some (tx "It") -> name_said this f []
  | ns_each n : fn_name f = Some n -> n <> tx "It" -> agrees this n -> fn_group2 f = Some (tx "Each") -> name_said this f []
  | ns_name n : fn_name f = Some n -> n <> tx "It" -> agrees this n -> fn_group2 f <> Some (tx "Each") -> name_said this f [ByName].
  Inductive what_said (title : text) (obj : option text) (f : funcref) : list pmsg -> Prop :=
  | ws_none : fn_what f = None -> what_said title obj f []
  | ws_good w : fn_what f = Some w -> (expects_method title obj <-> w = tx "method") -> what_said title obj f []
  | ws_want w : fn_what f = Some w -> expects_method title obj -> w <> tx "method" -> what_said title obj f [ExpectedMethod w]
  | ws_not : fn_what f = Some (tx "method") -> ~ expects_method title obj -> what_said title obj f [UnexpectedMethod].

  Lemma confirm_iff this n : confirm_this_property uw this n = Ok tt <-> agrees this n.
  Proof.
    assert (DT : detick n = without_ticks n). { unfold detick, str_replace, without_ticks. induction n as [|c t IH]; [reflexivity|]. cbn [replace_go is_prefix filter length Nat.sub app]. rewrite N.eqb_sym. destruct (c =? 96)%N; cbn [andb negb app]; [exact IH|now rewrite IH]. }
    unfold confirm_this_property, agrees. rewrite DT. destruct (split_prop_path uw (without_ticks n)) as [(c, k)|e] eqn:E.
    - assert (E' := proj1 (C93_split _ _ _ _) E). assert (U : forall c1 k1, splits uw (without_ticks n) c1 k1 -> c1 = c /\ k1 = k) by (intros c1 k1 S1; apply C93_split in S1; rewrite E in S1; injection S1 as <- <-; auto).
      split.
      + intros H c1 k1 S1. destruct (U _ _ S1) as (-> & ->). destruct this as [(c', k')|].
        * apply bind_ok in H as ([] & H1 & H2). unfold assert_ in *. destruct (text_eqb k k') eqn:K; [|discriminate]. apply text_eqb_eq in K. split; [exact K|]. destruct c as [x|]; [right; split; [discriminate|]|now left]. destruct c' as [y|]; [|discriminate]. destruct (text_eqb x y) eqn:X; [|discriminate]. apply text_eqb_eq in X. now subst.
        * destruct c; [discriminate|reflexivity].
      + intros H. specialize (H c k E'). destruct this as [(c', k')|].
        * destruct H as (-> & H). rewrite (proj2 (text_eqb_eq k' k') eq_refl). destruct H as [-> | (NC & ->)]; [reflexivity|]. destruct c' as [y|]; [|congruence]. now rewrite (proj2 (text_eqb_eq y y) eq_refl).
        * now rewrite H.
    - assert (X : e = AssertionError /\ forall c k, ~ splits uw (without_ticks n) c k).
      { destruct (split_spec uw (without_ticks n)) as [(c0 & k0 & E0 & _)|(E0 & NO)]; rewrite E in E0; [discriminate|]. injection E0 as ->. auto. }
      destruct X as (-> & NO). split; [intros _ c k S1; now apply NO in S1|reflexivity].
  Qed.
  Lemma wants_iff title obj : wants_method title obj = true <-> expects_method title obj.
  Proof.
    unfold wants_method, expects_method. rewrite Bool.orb_true_iff, Bool.andb_true_iff, Bool.orb_true_iff, Bool.negb_true_iff, !text_has.
    assert (G : is_prefix (tx "get ") title = false <-> ~ exists t, title = tx "get " ++ t) by (split; [intros F (t & E); assert (is_prefix (tx "get ") title = true) by (apply begins_iff; now exists t); congruence|intros NG; apply Bool.not_true_iff_false; intros P; apply begins_iff in P as (t & E); apply NG; eauto]). rewrite G. apply or_iff_compat_l.
    destruct obj as [o|]; split; [|intros (o' & [= <-] & I)|discriminate|intros (o' & X & _); discriminate].
    - intros X. apply existsb_exists in X as (y & I & E). apply text_eqb_eq in E. subst y. now exists o.
    - apply existsb_exists. exists o. split; [exact I|now apply text_eqb_eq].
  Qed.
  (* The messages about the way in which a sentence of a preamble refers to its function are exactly these; it fails exactly if the name is that of another property. *)
  Theorem C104_this : forall title this obj f ms, check_this_function uw title this obj f = (ms, Ok tt) <-> exists a b, name_said this f a /\ what_said title obj f b /\ ms = a ++ b.
  Proof.
    intros title this obj f ms. unfold check_this_function.
    set (A := match fn_name f with Some n => _ | None => _ end). set (B := match fn_what f with Some w => _ | None => _ end).
    assert (HA : forall a, A = (a, Ok tt) <-> name_said this f a).
    { intros a. unfold A. destruct (fn_name f) as [n|] eqn:F.
      - destruct (text_eqb n (tx "It")) eqn:I.
        + apply text_eqb_eq in I. subst n. unfold mret. split; [intros [= <-]; now apply ns_it|]. intros K. inversion K as [X|X|n X Y _ _|n X Y _ _]; try reflexivity; exfalso; rewrite F in X; apply Y; congruence.
        + assert (NI : n <> tx "It") by (intros Y; apply text_eqb_eq in Y; congruence). destruct (confirm_this_property uw this n) as [[]|e] eqn:C.
          * apply confirm_iff in C. destruct (fn_group2 f) as [g|] eqn:G; [destruct (text_eqb g (tx "Each")) eqn:GE|].
            -- apply text_eqb_eq in GE. subst g. unfold mret. split; [intros [= <-]; now apply ns_each with n|]. intros K. inversion K as [X|X|n' X Y _ _|n' X Y _ Z]; try reflexivity. congruence.
            -- assert (NG : fn_group2 f <> Some (tx "Each")) by (rewrite G; intros [= Y]; subst g; vm_compute in GE; discriminate). unfold mtell. split; [intros [= <-]; now apply ns_name with n|]. intros K. inversion K as [X|X|n' X Y _ Z|n' X Y _ Z]; try reflexivity; congruence.
            -- unfold mtell. split; [intros [= <-]; apply ns_name with n; try assumption; congruence|]. intros K. inversion K as [X|X|n' X Y _ Z|n' X Y _ Z]; try reflexivity; congruence.
          * split; [discriminate|]. intros K. exfalso. inversion K as [X|X|n' X Y Z _|n' X Y Z _]; try congruence; (assert (n' = n) by congruence; subst n'; apply confirm_iff in Z; congruence).
      - unfold mret. split; [intros [= <-]; now apply ns_none|]. intros K. inversion K as [X|X|n' X Y Z _|n' X Y Z _]; try reflexivity; congruence. }
    assert (HB : exists b, B = (b, Ok tt) /\ forall b', b = b' <-> what_said title obj f b').
    { unfold B. destruct (fn_what f) as [w|] eqn:F.
      - destruct (text_eqb w (tx "method")) eqn:M.
        + apply text_eqb_eq in M. destruct (wants_method title obj) eqn:W.
          * apply wants_iff in W. eexists. split; [reflexivity|]. intros b'. split; [intros <-; apply ws_good with w; [assumption|tauto]|]. intros K. inversion K as [X|w' X Y|w' X Y Z|X Y]; try reflexivity; [congruence|contradiction].
          * assert (NW : ~ expects_method title obj) by (rewrite <- wants_iff; congruence). eexists. split; [reflexivity|]. intros b'. split; [intros <-; apply ws_not; congruence|]. intros K. inversion K as [X|w' X Y|w' X Y Z|X Y]; try reflexivity; [congruence|exfalso; apply NW, Y; congruence|contradiction].
        + assert (NM : w <> tx "method") by (intros Y; apply text_eqb_eq in Y; congruence). destruct (wants_method title obj) eqn:W.
          * apply wants_iff in W. eexists. split; [reflexivity|]. intros b'. split; [intros <-; now apply ws_want|]. intros K. inversion K as [X|w' X Y|w' X Y Z|X Y]; try congruence. exfalso. apply NM. assert (w' = w) by congruence. subst. now apply Y.
          * assert (NW : ~ expects_method title obj) by (rewrite <- wants_iff; congruence). eexists. split; [reflexivity|]. intros b'. split; [intros <-; apply ws_good with w; [assumption|tauto]|]. intros K. inversion K as [X|w' X Y|w' X Y Z|X Y]; try reflexivity; [contradiction|congruence].
      - eexists. split; [reflexivity|]. intros b'. split; [intros <-; now apply ws_none|]. intros K. inversion K as [X|w' X Y|w' X Y Z|X Y]; try reflexivity; congruence. }
    destruct HB as (b & EB & HB). clearbody A B. subst B. unfold mbind. destruct A as (a, [[]|e]).
    - split.
      + intros [= <-]. exists a, b. split; [now apply HA|]. split; [now apply HB|reflexivity].
      + intros (a' & b' & N1 & W1 & ->). apply HA in N1. injection N1 as ->. apply HB in W1. now subst.
    - split; [discriminate|]. intros (a' & b' & N1 & _). apply HA in N1. discriminate.
  Qed.
End This.
Print Assumptions C104_this.
Example ex_C104_this : check_this_function no_uni (tx "Array.prototype.at ( _index_ )") (Some (Some (tx "Array.prototype"), tx "*""at""*")) None (mkFunc (Some (tx "`Array.prototype.at`")) (Some (tx "The")) (Some (tx "function")))
    = ([ByName; ExpectedMethod (tx "function")], Ok tt) /\
  check_this_function no_uni (tx "Math.abs ( _x_ )") (Some (Some (tx "Math"), tx "*""abs""*")) None (mkFunc None None (Some (tx "method"))) = ([UnexpectedMethod], Ok tt) /\
  check_this_function no_uni (tx "Array.from ( _items_ )") None (Some (tx "Array.from")) (mkFunc (Some (tx "It")) None (Some (tx "method"))) = ([], Ok tt) /\
  check_this_function no_uni (tx "Math.abs ( _x_ )") (Some (Some (tx "Math"), tx "*""abs""*")) None (mkFunc (Some (tx "Math.sign")) None None) = ([], Err AssertionError).
Proof. vm_compute. auto. Qed.
