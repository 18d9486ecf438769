(* C93: paths of properties, lists of attributes, literals *)
From Coq Require Import Ascii String Lia List.
From Verif Require Import M_Base L_Base M_HTML M_Shared M_Records L_Records M_Refs L_ValTree L_StyleIfs L_StyleDesc M_PropPath L_PropPath.
Open Scope list_scope.
Open Scope nat_scope.
Notation length := List.length.

(* ------------------------------------------------------------------ *)
(* split_prop_path *)
(* a path: a first name and components; well-known symbols and quoted names stand for themselves *)
Definition splits (uw : N -> bool) (path : text) (container : option text) (key : text) : Prop :=
  (exists w, wordy uw w /\ path = symbol w /\ container = None /\ key = path)
  \/ (exists w, wordy uw w /\ path = tx "*""" ++ w ++ tx """*" /\ container = None /\ key = path)
  \/ (wordy uw path /\ container = None /\ key = tx "*""" ++ path ++ tx """*")
  \/ (exists b cs c, base_ok uw b /\ Forall (comp_ok uw) cs /\ comp_ok uw c /\ path = render b (cs ++ [c]) /\ container = Some (render b cs) /\ key = key_of c).

Lemma literal_ok uw w : wordy uw w -> pystr_to_spec_String_literal w = Ok (tx "*""" ++ w ++ tx """*").
Proof.
  intros W. unfold pystr_to_spec_String_literal. replace (existsb (N.eqb 34) w) with false; [reflexivity|]. symmetry. apply Bool.not_true_iff_false. intros E. apply existsb_exists in E as (c & I & C). apply N.eqb_eq in C. subst c.
  exact (wordy_no uw w 34 W eq_refl I).
Qed.
Lemma first_char uw b cs : base_ok uw b -> forall t, render b cs = 42%N :: t -> False.
Proof.
  intros B t H. unfold render in H. destruct b as [w|w]; cbn [base_ok render_base] in *; [|discriminate]. destruct B as (NE & W). destruct w as [|c w]; [congruence|]. injection H as -> _. specialize (W 42%N (or_introl eq_refl)). discriminate W.
Qed.
Lemma not_symbol uw b cs w : base_ok uw b -> Forall (comp_ok uw) cs -> wordy uw w -> render b cs = symbol w -> False.
Proof.
  intros B F W H. unfold render, symbol in H. destruct b as [v|v]; cbn [base_ok render_base] in *.
  - destruct B as (NE & V). destruct v as [|c v]; [congruence|]. injection H as -> _. specialize (V 37%N (or_introl eq_refl)). discriminate V.
  - rewrite <- !app_assoc in H. change (tx "%Symbol." ++ w ++ tx "%") with (tx "%" ++ (tx "Symbol" ++ (tx "." ++ w ++ tx "%"))) in H. apply app_inv_head in H. apply (word_app uw) in H as (_ & H); [|apply B| |reflexivity|reflexivity].
    + discriminate.
    + intros c I. cbn in I. repeat (destruct I as [<-|I]; [reflexivity|]). destruct I.
Qed.
Lemma split_spec uw path : (exists c k, split_prop_path uw path = Ok (c, k) /\ splits uw path c k) \/ (split_prop_path uw path = Err AssertionError /\ forall c k, ~ splits uw path c k).
Proof.
  unfold split_prop_path. destruct (sym_key uw path) eqn:S0.
  { apply sym_key_iff in S0 as (w & W & ->). left. exists None, (symbol w). split; [reflexivity|]. left. now exists w. }
  assert (NS : ~ exists w, wordy uw w /\ path = symbol w) by (intros X; apply sym_key_iff in X; congruence).
  destruct (match between (tx "*""") (tx """*") path with Some m => words uw m | None => false end) eqn:Q.
  { destruct (between _ _ path) as [m|] eqn:E; [|discriminate]. apply between_iff in E. apply words_iff in Q. left. exists None, path. split; [reflexivity|]. right; left. now exists m. }
  assert (NQ : ~ exists w, wordy uw w /\ path = tx "*""" ++ w ++ tx """*").
  { intros (w & W & E). apply (between_iff (tx "*""") (tx """*")) in E. rewrite E in Q. apply words_iff in W. congruence. }
  destruct (scan_path uw path) as [[|n]|] eqn:SP.
  - apply scan_path_inv in SP as (b & cs & B & _ & -> & L). destruct cs; [|discriminate]. unfold render in *. cbn [map concat] in *. rewrite app_nil_r in *. destruct b as [w|w]; cbn [base_ok render_base] in *.
    + rewrite (proj2 (words_iff uw w) B). cbn [assert_ bind]. rewrite (literal_ok uw w B). cbn [bind]. left. exists None, (tx "*""" ++ w ++ tx """*"). split; [reflexivity|]. right; right; left. auto.
    + assert (NW : words uw (tx "%" ++ w ++ tx "%") = false) by reflexivity. rewrite NW. right. split; [reflexivity|]. intros c k [X|[X|[X|X]]].
      * apply NS. destruct X as (v & V & E & _). now exists v.
      * apply NQ. destruct X as (v & V & E & _). now exists v.
      * destruct X as (X & _). apply words_iff in X. congruence.
      * destruct X as (b & cs & d & B' & F & D & E & _). assert (SP := scan_path_ok uw b (cs ++ [d]) B' ltac:(apply Forall_app; auto)). rewrite <- E in SP. assert (SP' := scan_path_ok uw (Pct w) [] B ltac:(constructor)). unfold render in SP'. cbn [render_base map concat] in SP'. rewrite app_nil_r in SP'. rewrite SP in SP'. rewrite app_length in SP'. cbn in SP'. injection SP'. lia.
  - apply scan_path_inv in SP as (b & cs & B & F & -> & L). destruct cs as [|c cs _] using rev_ind; [discriminate|]. apply Forall_app in F as (F & FC). inversion FC as [|? ? K _]; subst. rewrite split_last_ok by assumption. left.
    exists (Some (render b cs)), (key_of c). split; [|right; right; right; exists b, cs, c; auto 10]. destruct c as [w|x y z w]; cbn [g_of key_of comp_ok] in *; [|reflexivity]. now rewrite (literal_ok uw w K).
  - right. split; [reflexivity|]. intros c k [X|[X|[X|X]]].
    + apply NS. destruct X as (v & V & E & _). now exists v.
    + apply NQ. destruct X as (v & V & E & _). now exists v.
    + destruct X as (X & _). assert (SP' := scan_path_ok uw (Name path) [] X ltac:(constructor)). unfold render in SP'. cbn [render_base map concat] in SP'. rewrite app_nil_r in SP'. congruence.
    + destruct X as (b & cs & d & B' & F & D & E & _). assert (SP' := scan_path_ok uw b (cs ++ [d]) B' ltac:(apply Forall_app; auto)). congruence.
Qed.
(* a path has one reading only *)
Lemma splits_fun uw path c k c' k' : splits uw path c k -> splits uw path c' k' -> c = c' /\ k = k'.
Proof.
  assert (P4 : forall path, (exists b cs c, base_ok uw b /\ Forall (comp_ok uw) cs /\ comp_ok uw c /\ path = render b (cs ++ [c])) -> (forall w, wordy uw w -> path <> symbol w) /\ (forall w, path <> tx "*""" ++ w ++ tx """*") /\ ~ wordy uw path).
  { intros p (b & cs & d & B & F & D & ->). split; [|split].
    - intros w W E. apply (not_symbol uw b (cs ++ [d]) w B); auto. apply Forall_app; auto.
    - intros w E. eapply (first_char uw b (cs ++ [d]) B); exact E.
    - intros W. assert (H := scan_path_ok uw (Name (render b (cs ++ [d]))) [] W ltac:(constructor)). unfold render at 1 in H. cbn [render_base map concat] in H. rewrite app_nil_r in H. rewrite scan_path_ok in H; auto; [|apply Forall_app; auto]. rewrite app_length in H. cbn in H. injection H. lia. }
  assert (NW1 : forall w, ~ wordy uw (symbol w)) by (intros w (_ & W); specialize (W 37%N (or_introl eq_refl)); discriminate W).
  assert (NW2 : forall w, ~ wordy uw (tx "*""" ++ w ++ tx """*")) by (intros w (_ & W); specialize (W 42%N (or_introl eq_refl)); discriminate W).
  intros [X|[X|[X|X]]] [Y|[Y|[Y|Y]]].
  all: try (destruct X as (w & W & -> & -> & ->)); try (destruct X as (W & -> & ->)); try (destruct X as (b & cs & d & B & F & D & E & -> & ->)).
  all: try (destruct Y as (w' & W' & E' & -> & ->)); try (destruct Y as (W' & -> & ->)); try (destruct Y as (b' & cs' & d' & B' & F' & D' & E' & -> & ->)).
  all: try (split; reflexivity); try discriminate E'; try (exfalso; eapply NW1; eassumption); try (exfalso; eapply NW2; eassumption).
  all: try (subst path; exfalso; first [eapply NW1; eassumption | eapply NW2; eassumption]).
  all: try (exfalso; match type of E' with ?p = _ => destruct (P4 p) as (Z1 & Z2 & Z3); [exists b', cs', d'; auto|]; first [eapply Z1; [exact W|reflexivity] | eapply Z2; reflexivity | apply Z3; assumption] end; fail).
  all: try (exfalso; match type of E with ?p = _ => destruct (P4 p) as (Z1 & Z2 & Z3); [exists b, cs, d; auto|]; first [eapply Z1; [exact W'|assumption] | eapply Z2; eassumption | apply Z3; assumption] end; fail).
  assert (S1 := split_last_ok uw b cs d B F D). assert (S2 := split_last_ok uw b' cs' d' B' F' D'). rewrite <- E in S1. rewrite <- E' in S2. rewrite S1 in S2. injection S2 as -> G. split; [reflexivity|].
  destruct d as [w|x y z w], d' as [w'|x' y' z' w']; cbn [g_of key_of] in *; congruence.
Qed.
Theorem C93_split : forall uw path c k, split_prop_path uw path = Ok (c, k) <-> splits uw path c k.
Proof.
  intros uw path c k. destruct (split_spec uw path) as [(c0 & k0 & E & S0)|(E & NO)]; rewrite E.
  - split; [intros [= <- <-]; assumption|]. intros S1. destruct (splits_fun _ _ _ _ _ _ S0 S1) as (-> & ->). reflexivity.
  - split; [discriminate|]. intros S1. now apply NO in S1.
Qed.
Print Assumptions C93_split.
(* nothing but the assertion can fail *)
Theorem C93_split_fails : forall uw path, (forall c k, ~ splits uw path c k) <-> split_prop_path uw path = Err AssertionError.
Proof.
  intros uw path. destruct (split_spec uw path) as [(c0 & k0 & E & S0)|(E & NO)].
  - split; [intros H; now apply H in S0|congruence].
  - split; auto.
Qed.
Print Assumptions C93_split_fails.

(* ------------------------------------------------------------------ *)
(* normalize_property_path *)
Inductive nbase : Type := Plain (b : base) | Generators | AsyncGenerators.
Definition phrase (b : nbase) : text :=
  match b with Plain b => render_base b | Generators => tx "the prototype of generator objects" | AsyncGenerators => tx "the prototype of async generator objects" end.
Definition name_of (b : nbase) : text :=
  match b with Plain (Name w) => w | Plain (Pct w) => w | Generators => tx "GeneratorPrototype" | AsyncGenerators => tx "AsyncGeneratorPrototype" end.
Definition nbase_ok (uw : N -> bool) (b : nbase) : Prop := match b with Plain b => base_ok uw b | _ => True end.
(* components with a space on both sides of the brackets' contents and before the first bracket *)
Definition spaced (uw : N -> bool) (c : comp) : Prop := comp_ok uw c /\ match c with Dot _ => True | Sym a b d _ => a = true /\ b = true /\ d = true end.
Definition short (c : comp) : text := match c with Dot w => tx "." ++ w | Sym _ _ _ w => tx "[" ++ symbol w ++ tx "]" end.

Lemma first_some_rev {A} (f : nat -> option A) i n y : 1 <= i <= n -> (forall m, i < m <= n -> f m = None) -> f i = Some y -> first_some f (rev (seq 1 n)) = Some y.
Proof.
  intros I H E. rewrite (seq_at i n I), rev_app_distr. cbn [rev]. rewrite <- app_assoc. cbn [app]. apply first_some_at; [|assumption]. intros m M. apply in_rev in M. apply in_seq in M. apply H. lia.
Qed.
Lemma first_some_none {A B} (f : A -> option B) l : (forall x, In x l -> f x = None) -> first_some f l = None.
Proof. induction l as [|x l IH]; intros H; cbn [first_some]; [reflexivity|]. rewrite (H x) by now left. apply IH. intros; apply H; now right. Qed.
Section Norm.
  Variable uw : N -> bool.
  Lemma nphrase_ne b : nbase_ok uw b -> 1 <= length (phrase b).
  Proof. destruct b as [b| |]; cbn [nbase_ok phrase]; [apply base_nonempty|intros _; cbn; lia|intros _; cbn; lia]. Qed.
  Lemma nphrase_nl b : nbase_ok uw b -> ~ In 10%N (phrase b).
  Proof.
    destruct b as [b| |]; cbn [nbase_ok phrase]; intros B I; [|cbn in I; intuition discriminate|cbn in I; intuition discriminate].
    apply (render_newline uw b [] B); [constructor|]. unfold render. cbn [map concat]. now rewrite app_nil_r.
  Qed.
  Definition npath (b : nbase) (cs : list comp) : text := phrase b ++ concat (map render_comp cs).
  Definition nname (b : nbase) (cs : list comp) : text := name_of b ++ concat (map short cs).
  Lemma npath_nl b cs : nbase_ok uw b -> Forall (spaced uw) cs -> ~ In 10%N (npath b cs).
  Proof.
    intros B F I. unfold npath in I. apply in_app_or in I as [I|I]; [now apply (nphrase_nl b B)|]. apply in_concat in I as (t & T & I). apply in_map_iff in T as (c & <- & T). rewrite Forall_forall in F. now apply (comp_newline uw c (proj1 (F _ T))).
  Qed.
  Lemma npath_ne b cs : nbase_ok uw b -> 1 <= length (npath b cs).
  Proof. intros B. unfold npath. rewrite app_length. assert (X := nphrase_ne b B). lia. Qed.
  Lemma npath_snoc b cs c : npath b (cs ++ [c]) = npath b cs ++ render_comp c.
  Proof. unfold npath. rewrite map_app, concat_app. cbn [map concat]. now rewrite app_nil_r, app_assoc. Qed.
  Lemma nname_snoc b cs c : nname b (cs ++ [c]) = nname b cs ++ short c.
  Proof. unfold nname. rewrite map_app, concat_app. cbn [map concat]. now rewrite app_nil_r, app_assoc. Qed.
  (* what ends in a component is neither a phrase nor a name *)
  Lemma comp_not q c : comp_ok uw c ->
    text_eqb (q ++ render_comp c) (tx "the prototype of generator objects") = false /\ text_eqb (q ++ render_comp c) (tx "the prototype of async generator objects") = false
    /\ words uw (q ++ render_comp c) = false /\ between (tx "%") (tx "%") (q ++ render_comp c) = None.
  Proof.
    intros K.
    assert (X : exists x, In x (render_comp c) /\ (x = 46%N \/ x = 91%N)).
    { destruct c as [w|a b d w]; [exists 46%N; split; [now left|auto]|exists 91%N; split; [|auto]]. cbn [render_comp]. apply in_or_app. right. now left. }
    destruct X as (x & I & X). assert (J : In x (q ++ render_comp c)) by (apply in_or_app; auto). split; [|split; [|split]].
    - apply Bool.not_true_iff_false. intros E. apply text_eqb_eq in E. rewrite E in J. destruct X as [-> | ->]; cbn in J; intuition discriminate.
    - apply Bool.not_true_iff_false. intros E. apply text_eqb_eq in E. rewrite E in J. destruct X as [-> | ->]; cbn in J; intuition discriminate.
    - apply words_no. intros (_ & W). specialize (W _ J). destruct X as [-> | ->]; discriminate W.
    - destruct (between _ _ _) as [m|] eqn:E; [|reflexivity]. exfalso. apply between_iff in E. rewrite app_assoc in E. destruct c as [w|a b d w]; cbn [render_comp comp_ok] in *.
      + destruct K as (NE & W). destruct w as [|y w _] using rev_ind; [congruence|]. rewrite !app_assoc in E. apply app_inj_tail in E as (_ & ->). assert (Y : wordc uw 37 = true) by (apply W, in_or_app; right; now left). discriminate Y.
      + rewrite !app_assoc in E. apply app_inj_tail in E as (_ & E). discriminate.
  Qed.
  Lemma split_dot_ok q w : wordy uw w -> 1 <= length q -> ~ In 10%N q -> split_dot uw (q ++ render_comp (Dot w)) = Some (q, render_comp (Dot w)).
  Proof.
    intros W L NL. unfold split_dot. apply first_some_rev with (i := length q).
    - rewrite app_length. lia.
    - intros m M. destruct (no_newline _); [|reflexivity]. cbn [andb]. destruct (between _ _ _) as [x|] eqn:E; [|reflexivity]. exfalso. apply between_iff in E. rewrite app_nil_r in E. rewrite skipn_app in E. rewrite (skipn_all2 q) in E by lia. cbn [app] in E.
      destruct (m - length q) as [|j] eqn:J; [lia|]. cbn [render_comp tx] in E. assert (E' : skipn j w = 46%N :: x) by exact E. assert (I : In 46%N w) by (rewrite <- (firstn_skipn j w), E'; apply in_or_app; right; now left). exact (wordy_no uw w 46 W eq_refl I).
    - rewrite firstn_app, Nat.sub_diag, firstn_all. cbn [firstn]. rewrite app_nil_r. rewrite (proj2 (no_newline_iff q) NL). rewrite skipn_app, Nat.sub_diag, skipn_all. cbn [app skipn andb].
      cbn [render_comp]. rewrite (proj2 (between_iff (tx ".") [] (tx "." ++ w) w)) by now rewrite app_nil_r. now rewrite (proj2 (words_iff uw w) W).
  Qed.
  Lemma split_dot_inv t h tl : split_dot uw t = Some (h, tl) -> exists w, wordy uw w /\ tl = render_comp (Dot w) /\ t = h ++ tl /\ 1 <= length h.
  Proof.
    intros H. apply first_some_inv in H as (i & I & H). destruct (no_newline _); [|discriminate]. cbn [andb] in H. destruct (between _ _ _) as [m|] eqn:E; [|discriminate]. destruct (words uw m) eqn:W; [|discriminate]. injection H as <- <-. apply between_iff in E. rewrite app_nil_r in E.
    exists m. split; [now apply words_iff|]. split; [exact E|]. split; [symmetry; apply firstn_skipn|]. apply in_rev, in_seq in I. rewrite firstn_length_le; lia.
  Qed.
  Lemma split_dot_no q a b d w : split_dot uw (q ++ render_comp (Sym a b d w)) = None.
  Proof.
    apply first_some_none. intros i _. destruct (no_newline _); [|reflexivity]. cbn [andb]. destruct (between _ _ _) as [m|] eqn:E; [|reflexivity]. apply between_iff in E. rewrite app_nil_r in E. destruct (words uw m) eqn:W; [|reflexivity]. exfalso. apply words_iff in W.
    assert (H := firstn_skipn i (q ++ render_comp (Sym a b d w))). rewrite E in H. exact (dot_sym uw _ _ _ _ _ _ _ W H).
  Qed.
  Definition full (w : text) : comp := Sym true true true w.
  Lemma split_sym_ok q w : wordy uw w -> 1 <= length q -> ~ In 10%N q -> split_sym uw (q ++ render_comp (full w)) = Some (q, symbol w).
  Proof.
    intros W L NL. assert (BT : forall k t, between (tx " [ ") (tx " ]") t = Some k -> sym_key uw k = true -> exists v, wordy uw v /\ k = symbol v /\ t = render_comp (full v)).
    { intros k t E S0. apply between_iff in E. apply sym_key_iff in S0 as (v & V & ->). exists v. split; [assumption|]. split; [reflexivity|]. rewrite E. reflexivity. }
    unfold split_sym. apply first_some_rev with (i := length q).
    - rewrite app_length. lia.
    - intros m M. destruct (no_newline _); [|reflexivity]. destruct (between _ _ _) as [x|] eqn:E; [|reflexivity]. cbn [and_then]. destruct (sym_key uw x) eqn:S0; [|reflexivity]. exfalso. destruct (BT _ _ E S0) as (v & V & _ & T).
      assert (H := firstn_skipn m (q ++ render_comp (full w))). rewrite T in H. assert (LM : length (firstn m (q ++ render_comp (full w))) = m) by (apply firstn_length_le; lia). unfold full in H, LM.
      apply (comp_tail uw) in H as [(H & _)|[(y & z & u & X1 & X2 & _)|(y & z & u & X1 & X2 & _)]]; [|discriminate|discriminate|assumption|assumption]. rewrite H in LM. lia.
    - rewrite firstn_app, Nat.sub_diag, firstn_all. cbn [firstn]. rewrite app_nil_r. rewrite (proj2 (no_newline_iff q) NL). rewrite skipn_app, Nat.sub_diag, skipn_all. cbn [app skipn].
      rewrite (proj2 (between_iff (tx " [ ") (tx " ]") (render_comp (full w)) (symbol w))) by reflexivity. cbn [and_then]. now rewrite (proj2 (sym_key_iff uw (symbol w))) by now exists w.
  Qed.
  Lemma split_sym_inv t h k : split_sym uw t = Some (h, k) -> exists w, wordy uw w /\ k = symbol w /\ t = h ++ render_comp (full w) /\ 1 <= length h.
  Proof.
    intros H. apply first_some_inv in H as (i & I & H). destruct (no_newline _); [|discriminate]. destruct (between _ _ _) as [m|] eqn:E; cbn [and_then] in H; [|discriminate]. destruct (sym_key uw m) eqn:S0; [|discriminate]. injection H as <- <-. apply between_iff in E.
    apply sym_key_iff in S0 as (w & W & ->). exists w. split; [assumption|]. split; [reflexivity|]. split; [|apply in_rev, in_seq in I; rewrite firstn_length_le; lia]. rewrite <- (firstn_skipn i t) at 1. f_equal. rewrite E. reflexivity.
  Qed.
  Lemma norm_ok b cs : nbase_ok uw b -> Forall (spaced uw) cs -> forall f, length (npath b cs) < f -> normalize uw f (npath b cs) = Ok (nname b cs).
  Proof.
    intros B. induction cs as [|c cs IH] using rev_ind; intros F f L.
    - destruct f as [|f]; [lia|]. unfold npath, nname. cbn [map concat]. rewrite !app_nil_r. cbn [normalize]. destruct b as [[w|w]| |]; cbn [phrase nbase_ok base_ok render_base name_of] in *; [| |reflexivity|reflexivity].
      + assert (W := B). assert (NSP : ~ In 32%N w) by (apply (wordy_no uw w 32 B); reflexivity).
        destruct (text_eqb w (tx "the prototype of generator objects")) eqn:E1; [exfalso; apply NSP; apply text_eqb_eq in E1; subst w; cbn; auto 10|].
        destruct (text_eqb w (tx "the prototype of async generator objects")) eqn:E2; [exfalso; apply NSP; apply text_eqb_eq in E2; subst w; cbn; auto 10|]. now rewrite (proj2 (words_iff uw w) W).
      + change (text_eqb (tx "%" ++ w ++ tx "%") (tx "the prototype of generator objects")) with false. change (text_eqb (tx "%" ++ w ++ tx "%") (tx "the prototype of async generator objects")) with false. change (words uw (tx "%" ++ w ++ tx "%")) with false. cbv iota.
        rewrite (proj2 (between_iff (tx "%") (tx "%") (tx "%" ++ w ++ tx "%") w) eq_refl). now rewrite (proj2 (words_iff uw w) B).
    - apply Forall_app in F as (F & FC). inversion FC as [|? ? (K & SP) _]; subst. rewrite npath_snoc in *. rewrite nname_snoc. destruct (comp_not (npath b cs) c K) as (N1 & N2 & N3 & N4). destruct f as [|f]; [lia|]. cbn [normalize]. rewrite N1, N2, N3, N4.
      rewrite app_length in L. assert (CN := comp_nonempty c). destruct c as [w|x y z w]; cbn [comp_ok] in K.
      + rewrite split_dot_ok; [|assumption|now apply npath_ne|now apply npath_nl]. rewrite IH by (auto; lia). reflexivity.
      + destruct SP as (-> & -> & ->). rewrite split_dot_no. change (Sym true true true w) with (full w). rewrite split_sym_ok; [|assumption|now apply npath_ne|now apply npath_nl]. rewrite IH by (auto; lia). reflexivity.
  Qed.
  Lemma norm_or f : forall path, length path < f -> (exists b cs, nbase_ok uw b /\ Forall (spaced uw) cs /\ path = npath b cs) \/ normalize uw f path = Err AssertionError.
  Proof.
    induction f as [|f IH]; intros path L; [lia|]. cbn [normalize].
    destruct (text_eqb path (tx "the prototype of generator objects")) eqn:E1; [left; exists Generators, []; apply text_eqb_eq in E1; subst; repeat split; constructor|].
    destruct (text_eqb path (tx "the prototype of async generator objects")) eqn:E2; [left; exists AsyncGenerators, []; apply text_eqb_eq in E2; subst; repeat split; constructor|].
    destruct (words uw path) eqn:W; [left; apply words_iff in W; exists (Plain (Name path)), []; split; [assumption|split; [constructor|]]; unfold npath; cbn; now rewrite app_nil_r|].
    destruct (match between (tx "%") (tx "%") path with Some m => if words uw m then Some m else None | None => None end) as [m|] eqn:P.
    { destruct (between _ _ path) as [m'|] eqn:E; [|discriminate]. destruct (words uw m') eqn:W'; [|discriminate]. injection P as ->. apply between_iff in E. apply words_iff in W'. left. exists (Plain (Pct m)), []. split; [assumption|split; [constructor|]]. unfold npath. cbn [map concat phrase render_base]. now rewrite app_nil_r. }
    destruct (split_dot uw path) as [[h tl]|] eqn:D.
    { apply split_dot_inv in D as (w & V & -> & -> & LH). rewrite app_length in L. assert (CN := comp_nonempty (Dot w)). destruct (IH h) as [(b & cs & B & F & ->)|E]; [lia| |right; now rewrite E]. left. exists b, (cs ++ [Dot w]). split; [assumption|]. split; [apply Forall_app; split; [assumption|repeat constructor; apply V]|now rewrite npath_snoc]. }
    destruct (split_sym uw path) as [[h k]|] eqn:S0; [|now right].
    apply split_sym_inv in S0 as (w & V & -> & -> & LH). rewrite app_length in L. assert (CN := comp_nonempty (full w)). destruct (IH h) as [(b & cs & B & F & ->)|E]; [lia| |right; now rewrite E]. left. exists b, (cs ++ [full w]). split; [assumption|]. split; [apply Forall_app; split; [assumption|repeat constructor; apply V]|now rewrite npath_snoc].
  Qed.
End Norm.
(* the normal form: the name, and the components as they are, symbols without spaces *)
Theorem C93_normalize : forall uw path t, normalize_property_path uw path = Ok t <->
  exists b cs, nbase_ok uw b /\ Forall (spaced uw) cs /\ path = phrase b ++ concat (map render_comp cs) /\ t = name_of b ++ concat (map short cs).
Proof.
  intros uw path t. unfold normalize_property_path. split.
  - intros H. destruct (norm_or uw (S (length path)) path (Nat.lt_succ_diag_r _)) as [(b & cs & B & F & E)|E]; [|congruence]. exists b, cs. split; [assumption|]. split; [assumption|]. split; [exact E|]. subst path. rewrite norm_ok in H; auto. now apply ok_inj in H.
  - intros (b & cs & B & F & -> & ->). apply (norm_ok uw b cs B F). apply Nat.lt_succ_diag_r.
Qed.
Print Assumptions C93_normalize.
Theorem C93_normalize_fails : forall uw path e, normalize_property_path uw path = Err e -> e = AssertionError.
Proof.
  intros uw path e H. unfold normalize_property_path in H. destruct (norm_or uw (S (length path)) path (Nat.lt_succ_diag_r _)) as [(b & cs & B & F & ->)|E]; [|congruence]. rewrite norm_ok in H; auto. discriminate.
Qed.
Print Assumptions C93_normalize_fails.
(* a normal form with a symbol is not a path: normalizing twice fails *)
Theorem C93_twice_refuted : exists path t, forall uw, normalize_property_path uw path = Ok t /\ normalize_property_path uw t = Err AssertionError.
Proof. exists (tx "Array [ %Symbol.species% ]"), (tx "Array[%Symbol.species%]"). intros uw. split; vm_compute; reflexivity. Qed.
Print Assumptions C93_twice_refuted.
(* and it is not one-to-one: an intrinsic and a global of the same name *)
Theorem C93_collision_refuted : exists p q t, p <> q /\ forall uw, normalize_property_path uw p = Ok t /\ normalize_property_path uw q = Ok t.
Proof. exists (tx "%ThrowTypeError%.name"), (tx "ThrowTypeError.name"), (tx "ThrowTypeError.name"). split; [discriminate|]. intros uw. split; vm_compute; reflexivity. Qed.
Print Assumptions C93_collision_refuted.
(* where both work, the container of the one is the beginning of the path for the other *)
Theorem C93_agree : forall uw path h k t, split_prop_path uw path = Ok (Some h, k) -> normalize_property_path uw path = Ok t ->
  exists t' s, normalize_property_path uw h = Ok t' /\ t = t' ++ s /\ s <> [].
Proof.
  intros uw path h k t HS HN. apply C93_split in HS as [(w & _ & _ & E & _)|[(w & _ & _ & E & _)|[(_ & E & _)|(b & cs & c & B & F & K & -> & E & _)]]]; try discriminate. injection E as ->.
  apply C93_normalize in HN as (nb & ncs & NB & NF & E & ->). destruct ncs as [|nc ncs _] using rev_ind.
  - exfalso. cbn [map concat] in E. rewrite app_nil_r, render_snoc in E. destruct nb as [[w|w]| |]; cbn [phrase render_base nbase_ok base_ok] in *.
    + destruct (comp_not uw (render b cs) c K) as (_ & _ & X & _). rewrite E in X. apply words_iff in NB. congruence.
    + destruct (comp_not uw (render b cs) c K) as (_ & _ & _ & X). rewrite E in X. rewrite (proj2 (between_iff (tx "%") (tx "%") _ w) eq_refl) in X. discriminate.
    + destruct (comp_not uw (render b cs) c K) as (X & _). rewrite E in X. discriminate.
    + destruct (comp_not uw (render b cs) c K) as (_ & X & _). rewrite E in X. discriminate.
  - apply Forall_app in NF as (NF & FC). inversion FC as [|? ? (NK & SP) _]; subst. rewrite render_snoc in E. rewrite map_app, concat_app, app_assoc in E. cbn [map concat] in E. rewrite app_nil_r in E.
    assert (H : render b cs = npath nb ncs).
    { destruct (comp_tail uw _ _ _ _ K NK E) as [(H & _)|[(x & y & w & _ & -> & _)|(x & y & w & _ & _ & H)]]; [exact H|destruct SP; discriminate|exfalso; now apply (render_last uw b cs B F) in H]. }
    exists (name_of nb ++ concat (map short ncs)), (short nc). split; [rewrite H; apply (norm_ok uw nb ncs NB NF); apply Nat.lt_succ_diag_r|]. split; [rewrite map_app, concat_app; cbn [map concat]; now rewrite app_nil_r, app_assoc|]. destruct nc; discriminate.
Qed.
Print Assumptions C93_agree.

(* ------------------------------------------------------------------ *)
(* lists of attributes *)
Definition field (p : text * text) : text := fst p ++ tx ": " ++ snd p.
Fixpoint list_of (ps : list (text * text)) : text :=
  match ps with [] => [] | [p] => field p | p :: ps' => field p ++ tx ", " ++ list_of ps' end.
(* [[Name]] and a value of one line without comma-space *)
Definition field_ok (uw : N -> bool) (p : text * text) : Prop :=
  (exists w, wordy uw w /\ fst p = tx "[[" ++ w ++ tx "]]") /\ snd p <> [] /\ ~ In 10%N (snd p) /\ ~ exists a b, snd p = a ++ tx ", " ++ b.

Lemma split_go_plain t : (~ exists a b, t = a ++ tx ", " ++ b) -> forall acc, split_go (tx ", ") 0 acc t = [rev acc ++ t].
Proof.
  induction t as [|c t IH]; intros H acc; cbn [split_go]; [now rewrite app_nil_r|]. destruct (is_prefix (tx ", ") (c :: t)) eqn:P.
  - exfalso. apply begins_iff in P as (b & E). apply H. exists [], b. exact E.
  - rewrite IH; [cbn [rev]; now rewrite <- app_assoc|]. intros (a & b & ->). apply H. exists (c :: a), b. reflexivity.
Qed.
Lemma split_go_sep t r : (~ exists a b, t = a ++ tx ", " ++ b) -> forall acc, split_go (tx ", ") 0 acc (t ++ tx ", " ++ r) = (rev acc ++ t) :: split_go (tx ", ") 0 [] r.
Proof.
  induction t as [|c t IH]; intros H acc.
  - cbn [app]. rewrite app_nil_r. change (tx ", " ++ r) with (44%N :: 32%N :: r). cbn [split_go]. change (is_prefix (tx ", ") (44%N :: 32%N :: r)) with true. cbv iota. change (length (tx ", ") - 1) with 1. reflexivity.
  - cbn [app split_go]. destruct (is_prefix (tx ", ") (c :: t ++ tx ", " ++ r)) eqn:P.
    + exfalso. apply begins_iff in P as (b & E). apply H. destruct t as [|d t]; [injection E as _ E; discriminate E|]. injection E as -> -> _. exists [], t. reflexivity.
    + change (t ++ 44%N :: 32%N :: r) with (t ++ tx ", " ++ r). rewrite IH; [cbn [rev]; now rewrite <- app_assoc|]. intros (a & b & ->). apply H. exists (c :: a), b. reflexivity.
Qed.
Lemma no_sep_field uw p : field_ok uw p -> ~ exists a b, field p = a ++ tx ", " ++ b.
Proof.
  intros ((w & W & E) & NE & _ & NC) (a & b & H). unfold field in H. rewrite E in H.
  assert (NC2 : ~ In 44%N ((tx "[[" ++ w ++ tx "]]") ++ tx ": ")). { intros I. assert (X := wordy_no uw w 44 W eq_refl). rewrite !in_app_iff in I. cbn in I. intuition discriminate. }
  rewrite app_assoc in H. revert H NC2 NC. generalize ((tx "[[" ++ w ++ tx "]]") ++ tx ": ") as h. intros h. revert a. induction h as [|c h IH]; intros a H N1 N2; [apply N2; now exists a, b|].
  destruct a as [|d a]; [injection H as -> _; apply N1; now left|]. injection H as <- H. apply (IH a H); [|assumption]. intros I. apply N1. now right.
Qed.
Lemma field_of_ok uw p : field_ok uw p -> field_of uw (field p) = Ok p.
Proof.
  destruct p as [n v]. intros ((w & W & E) & NE & NL & _). cbn [fst snd] in *. subst n. unfold field_of, field. cbn [fst snd]. rewrite <- !app_assoc. rewrite eat_ok. rewrite (scan_name_ok uw w (tx "]]" ++ tx ": " ++ v) W) by reflexivity.
  change (tx "]]" ++ tx ": " ++ v) with (tx "]]: " ++ v). rewrite eat_ok. replace (length v =? 0) with false by (destruct v; [congruence|reflexivity]). rewrite (proj2 (no_newline_iff v) NL). cbn [negb andb]. f_equal. f_equal.
  replace (length (tx "[[" ++ w ++ tx "]]: " ++ v) - length v - 2) with (length (tx "[[" ++ w ++ tx "]]")) by (rewrite !app_length; cbn [length tx]; change (length (tx "]]: ")) with 4; change (length (tx "[[")) with 2; change (length (tx "]]")) with 2; lia).
  replace (tx "[[" ++ w ++ tx "]]: " ++ v) with ((tx "[[" ++ w ++ tx "]]") ++ tx ": " ++ v) by (rewrite <- !app_assoc; reflexivity). rewrite firstn_app, Nat.sub_diag, firstn_all. cbn [firstn]. apply app_nil_r.
Qed.
Lemma fields_ok uw ps : ps <> [] -> Forall (field_ok uw) ps -> fields_of uw (split_on (tx ", ") (list_of ps)) = Ok ps.
Proof.
  intros NE F. unfold split_on. induction F as [|p ps K F IH]; [congruence|]. destruct ps as [|q ps].
  - cbn [list_of]. rewrite split_go_plain by now apply (no_sep_field uw). cbn [rev app fields_of]. now rewrite (field_of_ok uw p K).
  - change (list_of (p :: q :: ps)) with (field p ++ tx ", " ++ list_of (q :: ps)). rewrite split_go_sep by now apply (no_sep_field uw). cbn [rev app fields_of]. rewrite (field_of_ok uw p K). cbn [bind]. rewrite IH by discriminate. reflexivity.
Qed.
Lemma list_of_ok uw ps : ps <> [] -> Forall (field_ok uw) ps -> list_of ps <> [] /\ ~ In 10%N (list_of ps).
Proof.
  assert (FN : forall p, field_ok uw p -> field p <> [] /\ ~ In 10%N (field p)).
  { intros p ((w & W & E) & _ & NL & _). unfold field. rewrite E. split; [discriminate|]. intros I. assert (X := wordy_no uw w 10 W eq_refl). rewrite !in_app_iff in I. cbn in I. intuition discriminate. }
  intros NE F. induction F as [|p ps K F IH]; [congruence|]. destruct (FN p K) as (A & B). destruct ps as [|q ps]; [auto|]. change (list_of (p :: q :: ps)) with (field p ++ tx ", " ++ list_of (q :: ps)). destruct (IH ltac:(discriminate)) as (C & D). split.
  - intros E. apply app_eq_nil in E as (E & _). contradiction.
  - rewrite !in_app_iff. cbn. intuition discriminate.
Qed.
Lemma tset_new {A} (d : list (text * A)) k v : ~ In k (map fst d) -> tset d k v = d ++ [(k, v)].
Proof. induction d as [|[k' v'] d IH]; intros N; cbn [tset map fst app In] in *; [reflexivity|]. destruct (text_eqb k' k) eqn:E; [apply text_eqb_eq in E; tauto|]. now rewrite IH by tauto. Qed.
Lemma fold_tset (ps : list (text * text)) : forall d, NoDup (map fst d ++ map fst ps) -> fold_left (fun d p => tset d (fst p) (snd p)) ps d = d ++ ps.
Proof.
  induction ps as [|[k v] ps IH]; intros d N; cbn [fold_left map fst snd] in *; [now rewrite app_nil_r|]. rewrite tset_new.
  - rewrite IH; [now rewrite <- app_assoc|]. rewrite map_app. cbn [map fst]. now rewrite <- app_assoc.
  - apply NoDup_remove_2 in N. intros I. apply N. apply in_or_app. now left.
Qed.
Lemma fold_last (ps : list (text * text)) k : forall d, tget (fold_left (fun d p => tset d (fst p) (snd p)) ps d) k = match find (fun p => text_eqb (fst p) k) (rev ps) with Some p => Some (snd p) | None => tget d k end.
Proof.
  induction ps as [|[k' v] ps IH] using rev_ind; intros d; [reflexivity|]. rewrite fold_left_app, rev_app_distr. cbn [fold_left rev app find fst snd]. destruct (text_eqb k' k) eqn:E.
  - apply text_eqb_eq in E. subst k'. now rewrite tget_tset_same.
  - rewrite tget_tset_other; [apply IH|]. intros ->. rewrite (proj2 (text_eqb_eq k k) eq_refl) in E. discriminate.
Qed.
(* a list of fields with different names is read back as it was written; of a repeated name, the last value *)
Theorem C93_attributes : forall uw ps, ps <> [] -> Forall (field_ok uw) ps -> exists d, attr_string_to_dict uw (tx "{ " ++ list_of ps ++ tx " }") = Ok d /\
  (NoDup (map fst ps) -> d = ps) /\
  forall n v, tget d n = Some v <-> exists a b, ps = a ++ (n, v) :: b /\ ~ In n (map fst b).
Proof.
  intros uw ps NE F. destruct (list_of_ok uw ps NE F) as (L1 & L2). unfold attr_string_to_dict. rewrite (proj2 (between_iff (tx "{ ") (tx " }") _ (list_of ps)) eq_refl). replace (length (list_of ps) =? 0) with false by (destruct (list_of ps); [congruence|reflexivity]).
  rewrite (proj2 (no_newline_iff _) L2). cbn [negb andb]. rewrite fields_ok by assumption. cbn [bind]. eexists. split; [reflexivity|]. split; [intros ND; now apply fold_tset|].
  intros n v. rewrite fold_last. cbn [tget]. clear. induction ps as [|[k w] ps IH] using rev_ind; cbn [rev find].
  - split; [discriminate|]. intros (a & b & E & _). now destruct a.
  - rewrite rev_app_distr. cbn [rev app find fst snd]. destruct (text_eqb k n) eqn:E.
    + apply text_eqb_eq in E. subst k. split.
      * intros [= ->]. exists ps, []. split; [reflexivity|intros []].
      * intros (a & b & E & N). destruct b as [|y b _] using rev_ind; [apply app_inj_tail in E as (_ & E); now injection E as ->|]. exfalso. apply N. rewrite app_comm_cons, app_assoc in E. apply app_inj_tail in E as (_ & <-). rewrite map_app. apply in_or_app. right. now left.
    + rewrite IH. split.
      * intros (a & b & -> & N). exists a, (b ++ [(k, w)]). split; [now rewrite <- app_assoc|]. rewrite map_app. intros I. apply in_app_or in I as [I|[I|[]]]; [contradiction|]. cbn [fst] in I. subst k. rewrite (proj2 (text_eqb_eq n n) eq_refl) in E. discriminate.
      * intros (a & b & H & N). destruct b as [|y b _] using rev_ind; [exfalso; apply app_inj_tail in H as (_ & H); injection H as -> _; rewrite (proj2 (text_eqb_eq n n) eq_refl) in E; discriminate|]. rewrite app_comm_cons, app_assoc in H. apply app_inj_tail in H as (-> & <-). exists a, b. split; [reflexivity|]. intros I. apply N. rewrite map_app. apply in_or_app. now left.
Qed.
Print Assumptions C93_attributes.
(* nothing else is accepted *)
Lemma first_sep (t : text) : (~ exists a b, t = a ++ tx ", " ++ b) \/ exists a r, t = a ++ tx ", " ++ r /\ ~ exists x y, a = x ++ tx ", " ++ y.
Proof.
  induction t as [|c t [N|(a & r & -> & N)]].
  - left. intros (a & b & E). destruct a; discriminate.
  - destruct (is_prefix (tx ", ") (c :: t)) eqn:P.
    + right. apply begins_iff in P as (b & E). exists [], b. split; [exact E|]. intros (x & y & E'). destruct x; discriminate.
    + left. intros (a & b & E). destruct a as [|d a]; [|injection E as _ E; apply N; now exists a, b]. assert (Q : is_prefix (tx ", ") (c :: t) = true) by (apply begins_iff; now exists b). congruence.
  - destruct (is_prefix (tx ", ") (c :: a ++ tx ", " ++ r)) eqn:P.
    + right. apply begins_iff in P as (b & E). exists [], b. split; [exact E|]. intros (x & y & E'). destruct x; discriminate.
    + right. exists (c :: a), r. split; [reflexivity|]. intros (x & y & E). destruct x as [|d x]; [|injection E as _ E; apply N; now exists x, y].
      assert (Q : is_prefix (tx ", ") (c :: a ++ tx ", " ++ r) = true); [|congruence]. apply begins_iff. exists (y ++ tx ", " ++ r). change (c :: a ++ tx ", " ++ r) with ((c :: a) ++ tx ", " ++ r). rewrite E, <- !app_assoc. reflexivity.
Qed.
Lemma field_of_inv uw f p : field_of uw f = Ok p -> (~ exists a b, f = a ++ tx ", " ++ b) -> f = field p /\ field_ok uw p.
Proof.
  unfold field_of. destruct (eat (tx "[[") f) as [r|] eqn:E1; [|discriminate]. destruct (scan_name uw r) as [r'|] eqn:E2; [|discriminate]. destruct (eat (tx "]]: ") r') as [v|] eqn:E3; [|discriminate].
  destruct (negb (length v =? 0) && no_newline v) eqn:E4; [|discriminate]. apply eat_inv in E1, E3. apply scan_name_inv in E2 as (w & -> & W & _). subst r' f. apply Bool.andb_true_iff in E4 as (E4 & E5). apply no_newline_iff in E5.
  intros E NS. apply ok_inj in E. subst p.
  replace (length (tx "[[" ++ w ++ tx "]]: " ++ v) - length v - 2) with (length (tx "[[" ++ w ++ tx "]]")) by (rewrite !app_length; change (length (tx "]]: ")) with 4; change (length (tx "[[")) with 2; change (length (tx "]]")) with 2; lia).
  replace (tx "[[" ++ w ++ tx "]]: " ++ v) with ((tx "[[" ++ w ++ tx "]]") ++ tx ": " ++ v) in * by (rewrite <- !app_assoc; reflexivity). rewrite firstn_app, Nat.sub_diag, firstn_all. cbn [firstn]. rewrite app_nil_r.
  split; [reflexivity|]. split; [now exists w|]. cbn [snd]. split; [intros ->; discriminate E4|]. split; [assumption|]. intros (a & b & ->). apply NS. exists ((tx "[[" ++ w ++ tx "]]") ++ tx ": " ++ a), b. now rewrite <- !app_assoc.
Qed.
Lemma fields_inv uw n : forall t ps, length t <= n -> fields_of uw (split_on (tx ", ") t) = Ok ps -> ps <> [] /\ Forall (field_ok uw) ps /\ t = list_of ps.
Proof.
  induction n as [n IH] using lt_wf_ind. intros t ps L. unfold split_on. destruct (first_sep t) as [N|(a & r & -> & N)].
  - rewrite split_go_plain by assumption. cbn [rev app fields_of]. destruct (field_of uw t) as [p|e] eqn:E; cbn [bind]; [|discriminate]. intros X. apply ok_inj in X. subst ps. destruct (field_of_inv uw t p E N) as (A & B). split; [discriminate|]. split; [now constructor|]. exact A.
  - rewrite split_go_sep by assumption. cbn [rev app fields_of]. destruct (field_of uw a) as [p|e] eqn:E; cbn [bind]; [|discriminate]. destruct (fields_of uw (split_go (tx ", ") 0 [] r)) as [qs|e] eqn:F; cbn [bind]; [|discriminate]. intros X. apply ok_inj in X. subst ps.
    destruct (field_of_inv uw a p E N) as (A & B). rewrite !app_length in L. change (length (tx ", ")) with 2 in L. destruct (IH (length r) ltac:(lia) r qs ltac:(lia) F) as (C & D & G). split; [discriminate|]. split; [now constructor|]. destruct qs as [|q qs]; [congruence|]. change (list_of (p :: q :: qs)) with (field p ++ tx ", " ++ list_of (q :: qs)). now rewrite <- A, <- G.
Qed.
Theorem C93_attributes_only : forall uw t d, attr_string_to_dict uw t = Ok d -> exists ps, ps <> [] /\ Forall (field_ok uw) ps /\ t = tx "{ " ++ list_of ps ++ tx " }".
Proof.
  intros uw t d. unfold attr_string_to_dict. destruct (between (tx "{ ") (tx " }") t) as [m|] eqn:E; [|discriminate]. apply between_iff in E. destruct (negb (length m =? 0) && no_newline m); [|discriminate].
  destruct (fields_of uw (split_on (tx ", ") m)) as [ps|e] eqn:F; cbn [bind]; [|discriminate]. intros _. destruct (fields_inv uw (length m) m ps ltac:(lia) F) as (A & B & C). exists ps. rewrite <- C. auto.
Qed.
Print Assumptions C93_attributes_only.
(* a value with a comma ends the run *)
Theorem C93_comma_refuted : exists n v, forall uw, attr_string_to_dict uw (tx "{ " ++ n ++ tx ": " ++ v ++ tx " }") = Err AttributeError.
Proof. exists (tx "[[Value]]"), (tx "a, b"). intros uw. vm_compute. reflexivity. Qed.
Print Assumptions C93_comma_refuted.
(* literals are undone by destarquote *)
Theorem C93_literal : forall p, ~ In 34%N p -> ~ In 10%N p -> exists t, pystr_to_spec_String_literal p = Ok t /\ destarquote t = p.
Proof.
  intros p Q NL. unfold pystr_to_spec_String_literal. replace (existsb (N.eqb 34) p) with false; [|symmetry; apply Bool.not_true_iff_false; intros E; apply existsb_exists in E as (c & I & C); apply N.eqb_eq in C; now subst c].
  eexists. split; [reflexivity|]. unfold destarquote. rewrite (proj2 (between_iff _ _ _ p) eq_refl). now rewrite (proj2 (no_newline_iff p) NL).
Qed.
Print Assumptions C93_literal.
(* what stands between *" and "* in one line is taken out; a newline at the very end stays; everything else stays as it is *)
Theorem C93_destarquote : forall t,
  (exists m z, ~ In 10%N m /\ (z = [] \/ z = [10%N]) /\ t = tx "*""" ++ m ++ tx """*" ++ z /\ destarquote t = m ++ z) \/
  ((forall m z, ~ In 10%N m -> (z = [] \/ z = [10%N]) -> t <> tx "*""" ++ m ++ tx """*" ++ z) /\ destarquote t = t).
Proof.
  intros t. unfold destarquote. destruct (between (tx "*""") (tx """*") t) as [m|] eqn:E.
  - apply between_iff in E. destruct (no_newline m) eqn:NN.
    + apply no_newline_iff in NN. left. exists m, []. rewrite !app_nil_r. auto.
    + right. split; [|reflexivity]. intros m' z P [-> | ->] X; rewrite E in X.
      * rewrite app_nil_r in X. apply app_inv_head, app_inv_tail in X. subst m'. apply no_newline_iff in P. congruence.
      * apply app_inv_head in X. change (tx """*") with ([34%N] ++ [42%N]) in X. rewrite !app_assoc in X. apply app_inj_tail in X as (_ & X). discriminate X.
  - assert (N0 : forall m, t <> tx "*""" ++ m ++ tx """*") by (intros m X; apply between_iff in X; congruence).
    destruct (between (tx "*""") (tx """*" ++ [10%N]) t) as [m|] eqn:E2.
    + apply between_iff in E2. destruct (no_newline m) eqn:NN.
      * apply no_newline_iff in NN. left. exists m, [10%N]. auto.
      * right. split; [|reflexivity]. intros m' z P [-> | ->] X; [rewrite app_nil_r in X; exact (N0 m' X)|]. rewrite E2 in X. apply app_inv_head, app_inv_tail in X. subst m'. apply no_newline_iff in P. congruence.
    + right. split; [|reflexivity]. intros m' z P [-> | ->] X; [rewrite app_nil_r in X; exact (N0 m' X)|]. apply between_iff in X. congruence.
Qed.
Print Assumptions C93_destarquote.

(* ------------------------------------------------------------------ *)
(* Examples *)
Definition ascii : N -> bool := fun _ => false.
Example ex_split_1 : split_prop_path ascii (tx "Array.prototype [ %Symbol.iterator% ]") = Ok (Some (tx "Array.prototype"), tx "%Symbol.iterator%").
Proof. vm_compute. reflexivity. Qed.
Example ex_split_2 : split_prop_path ascii (tx "%TypedArray%.prototype.at") = Ok (Some (tx "%TypedArray%.prototype"), tx "*""at""*").
Proof. vm_compute. reflexivity. Qed.
Example ex_split_3 : split_prop_path ascii (tx "parseInt") = Ok (None, tx "*""parseInt""*").
Proof. vm_compute. reflexivity. Qed.
Example ex_split_4 : split_prop_path ascii (tx "%Array%") = Err AssertionError.
Proof. vm_compute. reflexivity. Qed.
Example ex_split_path : splits ascii (tx "%TypedArray%.prototype.at") (Some (tx "%TypedArray%.prototype")) (tx "*""at""*").
Proof. apply C93_split. exact ex_split_2. Qed.
Example ex_norm_1 : normalize_property_path ascii (tx "%Array%.prototype [ %Symbol.iterator% ]") = Ok (tx "Array.prototype[%Symbol.iterator%]").
Proof. vm_compute. reflexivity. Qed.
Example ex_norm_2 : normalize_property_path ascii (tx "the prototype of generator objects.next") = Ok (tx "GeneratorPrototype.next").
Proof. vm_compute. reflexivity. Qed.
Example ex_norm_3 : normalize_property_path ascii (tx "a function.call") = Err AssertionError.
Proof. vm_compute. reflexivity. Qed.
Example ex_attrs : attr_string_to_dict ascii (tx "{ [[Writable]]: *false*, [[Enumerable]]: *false* }") = Ok [(tx "[[Writable]]", tx "*false*"); (tx "[[Enumerable]]", tx "*false*")].
Proof. vm_compute. reflexivity. Qed.
Example ex_field_ok : field_ok ascii (tx "[[Writable]]", tx "*false*").
Proof.
  split; [exists (tx "Writable"); split; [split; [discriminate|]|reflexivity]; intros c I; cbn in I; repeat (destruct I as [<-|I]; [reflexivity|]); destruct I|]. cbn [snd]. split; [discriminate|]. split; [cbn; intuition discriminate|].
  intros (a & b & E). assert (I : In 44%N (tx "*false*")) by (rewrite E; apply in_or_app; right; now left). cbn in I. intuition discriminate.
Qed.
Example ex_attributes_only : attr_string_to_dict ascii (tx "{ [[A]]: x, [[B]]: y }") = Ok [(tx "[[A]]", tx "x"); (tx "[[B]]", tx "y")] /\ attr_string_to_dict ascii (tx "{ [[A]]:  }") = Err AttributeError.
Proof. vm_compute. auto. Qed.
Example ex_destarquote : destarquote (tx "*""at""*" ++ [10%N]) = tx "at" ++ [10%N] /\ destarquote (tx "*""a" ++ [10%N] ++ tx "t""*") = tx "*""a" ++ [10%N] ++ tx "t""*".
Proof. vm_compute. auto. Qed.
Example ex_literal : destarquote (tx "*""at""*") = tx "at" /\ destarquote (tx "plain") = tx "plain".
Proof. split; vm_compute; reflexivity. Qed.
