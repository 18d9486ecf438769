(* Paths of properties, as a name followed by components, and how they are taken apart. *)
From Coq Require Import Ascii String Lia List.
From Verif Require Import M_Base L_Base M_HTML M_Shared M_Records L_Records M_Refs L_ValTree L_StyleIfs L_StyleDesc M_PropPath.
Open Scope list_scope.
Open Scope nat_scope.
Notation length := List.length.

Lemma between_iff a b t m : between a b t = Some m <-> t = a ++ m ++ b.
Proof.
  assert (MID : forall m, slice (length a) (length (a ++ m ++ b) - length b) (a ++ m ++ b) = m).
  { intros m'. unfold slice. rewrite !app_length. replace (length a + (length m' + length b) - length b - length a) with (length m') by lia. rewrite skipn_app, skipn_all, Nat.sub_diag. cbn [app skipn]. rewrite firstn_app, firstn_all, Nat.sub_diag. cbn [firstn]. apply app_nil_r. }
  unfold between. split.
  - destruct (is_prefix a t && is_prefix (rev b) (rev t) && (length a + length b <=? length t)) eqn:E; [|discriminate]. rewrite !Bool.andb_true_iff, Nat.leb_le, !begins_iff in E. destruct E as (((t' & ->) & (u & U)) & L).
    assert (U' : a ++ t' = rev u ++ b) by (rewrite <- (rev_involutive (a ++ t')), U, rev_app_distr, rev_involutive; reflexivity).
    assert (T : exists m, t' = m ++ b).
    { rewrite app_length in L. assert (LU := f_equal (@length _) U'). rewrite !app_length in LU. clear - U' L LU. revert U' LU. generalize (rev u) as w. induction a as [|c a IH]; intros w U' LU; cbn [app length] in *; [now exists w|].
      destruct w as [|d w]; cbn [app length] in *; [lia|]. injection U' as <- U'. destruct (IH ltac:(lia) w U' ltac:(lia)) as (m' & ->). now exists m'. }
    destruct T as (m' & ->). intros [= <-]. now rewrite MID.
  - intros ->. replace (is_prefix a (a ++ m ++ b) && is_prefix (rev b) (rev (a ++ m ++ b)) && (length a + length b <=? length (a ++ m ++ b))) with true; [now rewrite MID|].
    symmetry. rewrite !Bool.andb_true_iff, Nat.leb_le, !begins_iff. split; [split|].
    + now exists (m ++ b).
    + exists (rev (a ++ m)). now rewrite app_assoc, rev_app_distr.
    + rewrite !app_length. lia.
Qed.
Lemma no_newline_iff t : no_newline t = true <-> ~ In 10%N t.
Proof. unfold no_newline. rewrite forallb_forall. split; [intros H I; specialize (H _ I); discriminate|]. intros H x I. apply Bool.negb_true_iff, N.eqb_neq. intros ->. contradiction. Qed.

Section Words.
  Variable uniword : N -> bool.
  (* a word: one or more letters, digits and underscores *)
  Definition wordy (w : text) : Prop := w <> [] /\ forall c, In c w -> wordc uniword c = true.
  Lemma words_iff w : words uniword w = true <-> wordy w.
  Proof. unfold words, wordy. rewrite Bool.andb_true_iff, Bool.negb_true_iff, Nat.eqb_neq, forallb_forall. split; intros (A & B); (split; [|assumption]); destruct w; cbn in *; congruence. Qed.
  Lemma words_no w : ~ wordy w -> words uniword w = false.
  Proof. intros H. apply Bool.not_true_iff_false. intros E. now apply H, words_iff. Qed.
  (* the first name of a path, and the components that follow *)
  Inductive base : Type := Name (w : text) | Pct (w : text).
  Inductive comp : Type := Dot (w : text) | Sym (before after_open before_close : bool) (w : text).
  Definition sp (b : bool) : text := if b then [32%N] else [].
  Definition render_base (b : base) : text := match b with Name w => w | Pct w => tx "%" ++ w ++ tx "%" end.
  Definition symbol (w : text) : text := tx "%Symbol." ++ w ++ tx "%".
  Definition render_comp (c : comp) : text :=
    match c with Dot w => tx "." ++ w | Sym a b c w => sp a ++ tx "[" ++ sp b ++ symbol w ++ sp c ++ tx "]" end.
  Definition render (b : base) (cs : list comp) : text := render_base b ++ concat (map render_comp cs).
  Definition base_ok (b : base) : Prop := match b with Name w => wordy w | Pct w => wordy w end.
  Definition comp_ok (c : comp) : Prop := match c with Dot w => wordy w | Sym _ _ _ w => wordy w end.
  Definition key_of (c : comp) : text := match c with Dot w => tx "*""" ++ w ++ tx """*" | Sym _ _ _ w => symbol w end.

  Definition sharp (c : N) : Prop := wordc uniword c = false.
  Lemma sharp_46 : sharp 46. Proof. reflexivity. Qed.
  Lemma sharp_37 : sharp 37. Proof. reflexivity. Qed.
  Lemma sharp_32 : sharp 32. Proof. reflexivity. Qed.
  Lemma sharp_91 : sharp 91. Proof. reflexivity. Qed.
  Lemma sharp_93 : sharp 93. Proof. reflexivity. Qed.
  Lemma sharp_10 : sharp 10. Proof. reflexivity. Qed.
  Lemma sharp_34 : sharp 34. Proof. reflexivity. Qed.
  Lemma sharp_42 : sharp 42. Proof. reflexivity. Qed.
  Lemma wordy_no w c : wordy w -> sharp c -> ~ In c w.
  Proof. intros (_ & W) S0 I. specialize (W _ I). unfold sharp in S0. congruence. Qed.
  (* a word ends where another character is *)
  Definition ends (t : text) : Prop := match t with [] => True | c :: _ => sharp c end.
  Lemma word_app w w' t t' : (forall c, In c w -> wordc uniword c = true) -> (forall c, In c w' -> wordc uniword c = true) -> ends t -> ends t' -> w ++ t = w' ++ t' -> w = w' /\ t = t'.
  Proof.
    revert w'. induction w as [|c w IH]; intros [|c' w'] W W' E E' H; cbn [app] in H; auto.
    - subst t. exfalso. assert (X := W' c' (or_introl eq_refl)). cbn [ends] in E. unfold sharp in E. congruence.
    - subst t'. exfalso. assert (X := W c (or_introl eq_refl)). cbn [ends] in E'. unfold sharp in E'. congruence.
    - injection H as <- H. destruct (IH w') as (-> & ->); auto; intros; [apply W|apply W']; now right.
  Qed.
  Lemma after_word_app w t : (forall c, In c w -> wordc uniword c = true) -> ends t -> after_word uniword (w ++ t) = t.
  Proof. induction w as [|c w IH]; intros W E; cbn [app after_word]; [destruct t as [|c t]; [reflexivity|]; cbn [after_word]; cbn [ends] in E; unfold sharp in E; now rewrite E|]. rewrite (W c (or_introl eq_refl)). apply IH; [|assumption]. intros; apply W; now right. Qed.
  Lemma after_word_split t : exists w, t = w ++ after_word uniword t /\ (forall c, In c w -> wordc uniword c = true) /\ ends (after_word uniword t).
  Proof. induction t as [|c t IH]; cbn [after_word]; [exists []; cbn; intuition|]. destruct (wordc uniword c) eqn:W; [|exists []; cbn; auto]. destruct IH as (w & E & F & N). exists (c :: w). split; [cbn [app]; now f_equal|]. split; [intros d [<-|I]; auto|assumption]. Qed.
  Lemma scan_name_ok w t : wordy w -> ends t -> scan_name uniword (w ++ t) = Some t.
  Proof. intros (NE & W) E. destruct w as [|c w]; [congruence|]. cbn [app scan_name]. rewrite (W c (or_introl eq_refl)). f_equal. apply after_word_app; [|assumption]. intros; apply W; now right. Qed.
  Lemma scan_name_inv t r : scan_name uniword t = Some r -> exists w, t = w ++ r /\ wordy w /\ ends r.
  Proof.
    destruct t as [|c t]; cbn [scan_name]; [discriminate|]. destruct (wordc uniword c) eqn:W; [|discriminate]. intros [= <-]. destruct (after_word_split t) as (w & E & F & N). exists (c :: w). split; [cbn [app]; now f_equal|]. split; [|assumption]. split; [discriminate|]. intros d [<-|I]; auto.
  Qed.
  Lemma eat_ok p t : eat p (p ++ t) = Some t.
  Proof. unfold eat. rewrite (proj2 (begins_iff _ _)) by now exists t. now rewrite skipn_app, skipn_all, Nat.sub_diag. Qed.
  Lemma eat_inv p t r : eat p t = Some r -> t = p ++ r.
  Proof. unfold eat. destruct (is_prefix p t) eqn:E; [|discriminate]. apply begins_iff in E as (b & ->). intros [= <-]. now rewrite skipn_app, skipn_all, Nat.sub_diag. Qed.
  Lemma opt_space_sp b c t : c <> 32%N -> opt_space (sp b ++ c :: t) = c :: t.
  Proof. intros N. destruct b; cbn [sp app opt_space]; [reflexivity|]. now rewrite (proj2 (N.eqb_neq _ _) N). Qed.
  Lemma opt_space_inv t : exists b, t = sp b ++ opt_space t.
  Proof. destruct t as [|c t]; cbn [opt_space]; [now exists false|]. destruct (c =? 32)%N eqn:E; [apply N.eqb_eq in E; subst c; now exists true|now exists false]. Qed.
  Definition starts_ok (t : text) : Prop := ends t.
  Lemma comp_ends c t : ends (render_comp c ++ t).
  Proof. destruct c as [w|[] b c w]; reflexivity. Qed.
  Lemma comps_end cs : ends (concat (map render_comp cs)).
  Proof. destruct cs as [|c cs]; [exact I|]. apply comp_ends. Qed.
  Lemma scan_comp_ok c t : comp_ok c -> ends t -> scan_comp uniword (render_comp c ++ t) = Some t.
  Proof.
    intros K E. destruct c as [w|a b d w]; cbn [render_comp comp_ok] in *; unfold scan_comp.
    - rewrite <- app_assoc, eat_ok. now apply scan_name_ok.
    - assert (X : eat (tx ".") ((sp a ++ tx "[" ++ sp b ++ symbol w ++ sp d ++ tx "]") ++ t) = None) by (destruct a; reflexivity). rewrite X. clear X.
      rewrite <- !app_assoc. change (tx "[" ++ sp b ++ symbol w ++ sp d ++ tx "]" ++ t) with (91%N :: (sp b ++ symbol w ++ sp d ++ tx "]" ++ t)). rewrite opt_space_sp by discriminate.
      change (91%N :: (sp b ++ symbol w ++ sp d ++ tx "]" ++ t)) with (tx "[" ++ (sp b ++ symbol w ++ sp d ++ tx "]" ++ t)). rewrite eat_ok. cbn [and_then]. unfold symbol. rewrite <- !app_assoc.
      change (tx "%Symbol." ++ w ++ tx "%" ++ sp d ++ tx "]" ++ t) with (37%N :: (tx "Symbol." ++ w ++ tx "%" ++ sp d ++ tx "]" ++ t)). rewrite opt_space_sp by discriminate.
      change (37%N :: (tx "Symbol." ++ w ++ tx "%" ++ sp d ++ tx "]" ++ t)) with (tx "%Symbol." ++ w ++ tx "%" ++ sp d ++ tx "]" ++ t). rewrite eat_ok. cbn [and_then].
      rewrite scan_name_ok; [|assumption|reflexivity]. cbn [and_then]. rewrite eat_ok. cbn [and_then]. change (tx "]" ++ t) with (93%N :: t). rewrite opt_space_sp by discriminate. change (93%N :: t) with (tx "]" ++ t). apply eat_ok.
  Qed.
  Lemma scan_comp_inv t r : scan_comp uniword t = Some r -> exists c, comp_ok c /\ t = render_comp c ++ r.
  Proof.
    unfold scan_comp. destruct (eat (tx ".") t) as [r1|] eqn:E.
    - apply eat_inv in E. intros H. apply scan_name_inv in H as (w & -> & W & _). exists (Dot w). split; [assumption|]. cbn [render_comp]. now rewrite <- app_assoc.
    - unfold and_then. destruct (eat (tx "[") (opt_space t)) as [r1|] eqn:E1; [|discriminate]. destruct (eat (tx "%Symbol.") (opt_space r1)) as [r2|] eqn:E2; [|discriminate]. destruct (scan_name uniword r2) as [r3|] eqn:E3; [|discriminate].
      destruct (eat (tx "%") r3) as [r4|] eqn:E4; [|discriminate]. intros E5. apply eat_inv in E1, E2, E4, E5. apply scan_name_inv in E3 as (w & -> & W & _).
      destruct (opt_space_inv t) as (a & Ea). rewrite E1 in Ea. destruct (opt_space_inv r1) as (b & Eb). rewrite E2 in Eb. destruct (opt_space_inv r4) as (d & Ed). rewrite E5 in Ed. exists (Sym a b d w). rewrite Ea, Eb, E4, Ed. split; [assumption|]. cbn [render_comp]. unfold symbol. now rewrite <- !app_assoc.
  Qed.
  Lemma comp_nonempty c : 1 <= length (render_comp c).
  Proof. destruct c as [w|a b d w]; cbn [render_comp]; rewrite !app_length; cbn; lia. Qed.
  Lemma scan_comps_ok cs : Forall comp_ok cs -> forall f, length (concat (map render_comp cs)) <= f -> scan_comps uniword f (concat (map render_comp cs)) = Some (length cs).
  Proof.
    induction 1 as [|c cs K F IH]; intros f L; cbn [map concat] in *; [destruct f; reflexivity|]. rewrite app_length in L. assert (CN := comp_nonempty c).
    destruct (render_comp c ++ concat (map render_comp cs)) as [|x t] eqn:E; [apply (f_equal (@length _)) in E; rewrite app_length in E; cbn in E; lia|].
    destruct f as [|f]; [lia|]. cbn [scan_comps]. rewrite <- E. rewrite scan_comp_ok; [|assumption|apply comps_end]. cbn [and_then]. rewrite IH by lia. reflexivity.
  Qed.
  Lemma scan_comps_inv f : forall t n, scan_comps uniword f t = Some n -> exists cs, Forall comp_ok cs /\ t = concat (map render_comp cs) /\ length cs = n.
  Proof.
    induction f as [|f IH]; intros [|x t] n; cbn [scan_comps]; try discriminate; try (intros [= <-]; exists []; now repeat split).
    destruct (scan_comp uniword (x :: t)) as [r|] eqn:E; cbn [and_then]; [|discriminate]. destruct (scan_comps uniword f r) as [m|] eqn:E2; cbn [and_then]; [|discriminate]. intros [= <-].
    apply scan_comp_inv in E as (c & K & ->). apply IH in E2 as (cs & F & -> & <-). exists (c :: cs). split; [now constructor|]. split; reflexivity.
  Qed.
  Lemma scan_path_ok b cs : base_ok b -> Forall comp_ok cs -> scan_path uniword (render b cs) = Some (length cs).
  Proof.
    intros B F. unfold scan_path, render. destruct b as [w|w]; cbn [base_ok render_base] in *.
    - assert (X : eat (tx "%") (w ++ concat (map render_comp cs)) = None).
      { unfold eat. destruct (is_prefix _ _) eqn:E; [|reflexivity]. exfalso. apply begins_iff in E as (t & E). destruct B as (NE & W). destruct w as [|c w]; [congruence|]. injection E as -> _. specialize (W 37%N (or_introl eq_refl)). discriminate W. }
      rewrite X. rewrite scan_name_ok; [|assumption|apply comps_end]. cbn [and_then]. now apply scan_comps_ok.
    - rewrite <- !app_assoc. rewrite eat_ok. rewrite scan_name_ok; [|assumption|reflexivity]. cbn [and_then]. rewrite eat_ok. cbn [and_then]. now apply scan_comps_ok.
  Qed.
  Lemma scan_path_inv t n : scan_path uniword t = Some n -> exists b cs, base_ok b /\ Forall comp_ok cs /\ t = render b cs /\ length cs = n.
  Proof.
    unfold scan_path. destruct (eat (tx "%") t) as [r|] eqn:E.
    - apply eat_inv in E. destruct (scan_name uniword r) as [r1|] eqn:E1; cbn [and_then]; [|discriminate]. destruct (eat (tx "%") r1) as [r2|] eqn:E2; cbn [and_then]; [|discriminate]. intros H. apply scan_comps_inv in H as (cs & F & -> & L).
      apply eat_inv in E2. apply scan_name_inv in E1 as (w & -> & W & _). exists (Pct w), cs. split; [assumption|]. split; [assumption|]. split; [|assumption]. unfold render. cbn [render_base]. rewrite E, E2. now rewrite <- !app_assoc.
    - destruct (scan_name uniword t) as [r|] eqn:E1; cbn [and_then]; [|discriminate]. intros H. apply scan_comps_inv in H as (cs & F & -> & L). apply scan_name_inv in E1 as (w & -> & W & _). exists (Name w), cs. split; [assumption|]. split; [assumption|]. split; [reflexivity|assumption].
  Qed.

  (* the last component *)
  Definition g_of (c : comp) : last_g := match c with Dot w => G3 w | Sym _ _ _ w => G4 (symbol w) end.
  Lemma sym_key_iff t : sym_key uniword t = true <-> exists w, wordy w /\ t = symbol w.
  Proof.
    unfold sym_key. destruct (between _ _ t) as [m|] eqn:E.
    - apply between_iff in E. rewrite words_iff. split; [intros W; now exists m|]. intros (w & W & E'). replace m with w; [assumption|]. rewrite E in E'. unfold symbol in E'. apply app_inv_head in E'. now apply app_inv_tail in E'.
    - split; [discriminate|]. intros (w & _ & ->). assert (X := proj2 (between_iff (tx "%Symbol.") (tx "%") (symbol w) w) eq_refl). congruence.
  Qed.
  Lemma drop_end_sp t b c : c <> 32%N -> drop_end ((t ++ [c]) ++ sp b) = t ++ [c].
  Proof. intros N. unfold drop_end. rewrite rev_app_distr. rewrite rev_app_distr. cbn [rev app]. replace (rev (sp b)) with (sp b) by now destruct b. rewrite opt_space_sp by assumption. cbn [rev]. now rewrite rev_involutive. Qed.
  Lemma drop_end_inv t : exists b, t = drop_end t ++ sp b.
  Proof. unfold drop_end. destruct (opt_space_inv (rev t)) as (b & E). exists b. rewrite <- (rev_involutive t) at 1. rewrite E at 1. rewrite rev_app_distr. now destruct b. Qed.
  Lemma last_comp_ok c : comp_ok c -> last_comp uniword (render_comp c) = Some (g_of c).
  Proof.
    intros K. unfold last_comp. destruct c as [w|a b d w]; cbn [render_comp comp_ok g_of] in *.
    - rewrite (proj2 (between_iff (tx ".") [] (tx "." ++ w) w)) by now rewrite app_nil_r. now rewrite (proj2 (words_iff w) K).
    - destruct (between (tx ".") [] _) as [m|] eqn:E; [exfalso; apply between_iff in E; destruct a; discriminate|].
      change (tx "[" ++ sp b ++ symbol w ++ sp d ++ tx "]") with (91%N :: (sp b ++ symbol w ++ sp d ++ tx "]")). rewrite opt_space_sp by discriminate.
      change (91%N :: (sp b ++ symbol w ++ sp d ++ tx "]")) with (tx "[" ++ (sp b ++ symbol w ++ sp d ++ tx "]")).
      rewrite (proj2 (between_iff (tx "[") (tx "]") _ (sp b ++ symbol w ++ sp d))) by (now rewrite <- !app_assoc). cbv zeta.
      assert (X : drop_end (opt_space (sp b ++ symbol w ++ sp d)) = symbol w).
      { unfold symbol at 1. rewrite <- !app_assoc. change (tx "%Symbol." ++ w ++ tx "%" ++ sp d) with (37%N :: (tx "Symbol." ++ w ++ tx "%" ++ sp d)). rewrite opt_space_sp by discriminate.
        change (37%N :: (tx "Symbol." ++ w ++ tx "%" ++ sp d)) with (tx "%Symbol." ++ w ++ [37%N] ++ sp d). rewrite !app_assoc. rewrite drop_end_sp by discriminate. unfold symbol. now rewrite <- app_assoc. }
      rewrite X. now rewrite (proj2 (sym_key_iff (symbol w))) by now exists w.
  Qed.
  Lemma last_comp_inv t g : last_comp uniword t = Some g -> exists c, comp_ok c /\ t = render_comp c /\ g = g_of c.
  Proof.
    unfold last_comp. destruct (between (tx ".") [] t) as [m|] eqn:E.
    - apply between_iff in E. rewrite app_nil_r in E. destruct (words uniword m) eqn:W; [|discriminate]. intros [= <-]. exists (Dot m). split; [now apply words_iff|]. auto.
    - destruct (between (tx "[") (tx "]") (opt_space t)) as [m|] eqn:E2; [|discriminate]. cbv zeta. destruct (sym_key uniword (drop_end (opt_space m))) eqn:S0; [|discriminate]. intros [= <-].
      apply between_iff in E2. apply sym_key_iff in S0 as (w & W & S0). destruct (opt_space_inv t) as (a & Ea). rewrite E2 in Ea. destruct (opt_space_inv m) as (b & Eb). destruct (drop_end_inv (opt_space m)) as (d & D). rewrite S0 in *. rewrite D in Eb. rewrite Ea, Eb. exists (Sym a b d w). split; [assumption|]. split; [|reflexivity]. cbn [render_comp]. now rewrite <- !app_assoc.
  Qed.
  (* two ways of taking off the last component differ by a space at most *)
  Lemma sym_tail p q a b d w a' b' d' w' : wordy w -> wordy w' ->
    p ++ sp a ++ tx "[" ++ sp b ++ symbol w ++ sp d ++ tx "]" = q ++ sp a' ++ tx "[" ++ sp b' ++ symbol w' ++ sp d' ++ tx "]" -> b = b' /\ d = d' /\ w = w' /\ p ++ sp a = q ++ sp a'.
  Proof.
    intros W W' H. apply (f_equal (@rev _)) in H. unfold symbol in H. rewrite !rev_app_distr in H. cbn [rev app] in H.
    assert (RS : forall x, rev (sp x) = sp x) by now intros [].
    rewrite !RS in H. rewrite <- !app_assoc in H. cbn [app] in H. injection H as H.
    assert (D : d = d' /\ rev w ++ rev (tx "%Symbol.") ++ sp b ++ 91%N :: sp a ++ rev p = rev w' ++ rev (tx "%Symbol.") ++ sp b' ++ 91%N :: sp a' ++ rev q).
    { destruct d, d'; cbn [sp app] in H; try discriminate; (split; [reflexivity|]); injection H as H; cbn [tx rev app] in *; exact H. }
    destruct D as (-> & H1). clear H.
    assert (IN : forall v, wordy v -> forall c, In c (rev v) -> wordc uniword c = true) by (intros v (_ & V) c C; apply V; now apply in_rev).
    apply word_app in H1 as (R & H1); [|now apply IN|now apply IN|reflexivity|reflexivity]. apply (f_equal (@rev _)) in R. rewrite !rev_involutive in R. subst w'. apply app_inv_head in H1.
    assert (Bq : b = b' /\ sp a ++ rev p = sp a' ++ rev q) by (destruct b, b'; cbn [sp app] in H1; try discriminate; (split; [reflexivity|]); now injection H1). destruct Bq as (-> & H2). split; [reflexivity|]. split; [reflexivity|]. split; [reflexivity|].
    apply (f_equal (@rev _)) in H2. rewrite !rev_app_distr, !rev_involutive, !RS in H2. exact H2.
  Qed.
  Lemma dot_tail p q w w' : wordy w -> wordy w' -> p ++ tx "." ++ w = q ++ tx "." ++ w' -> w = w' /\ p = q.
  Proof.
    intros W W' H. apply (f_equal (@rev _)) in H. rewrite !rev_app_distr, <- !app_assoc in H.
    assert (IN : forall v, wordy v -> forall c, In c (rev v) -> wordc uniword c = true) by (intros v (_ & V) c C; apply V; now apply in_rev).
    apply word_app in H as (R & H); [|now apply IN|now apply IN|reflexivity|reflexivity]. apply (f_equal (@rev _)) in R. rewrite !rev_involutive in R. split; [assumption|]. apply app_inv_head in H. apply (f_equal (@rev _)) in H. now rewrite !rev_involutive in H.
  Qed.
  Lemma dot_sym p q w a b d w' : wordy w -> p ++ tx "." ++ w = q ++ sp a ++ tx "[" ++ sp b ++ symbol w' ++ sp d ++ tx "]" -> False.
  Proof.
    intros (NE & W) H. apply (f_equal (@rev _)) in H. rewrite !rev_app_distr in H. cbn [rev app] in H. destruct (rev w) as [|c r] eqn:E; [apply (f_equal (@rev _)) in E; rewrite rev_involutive in E; contradiction|]. cbn [app] in H. injection H as -> _.
    assert (I : In 93%N w) by (apply in_rev; rewrite E; now left). specialize (W _ I). discriminate W.
  Qed.
  Lemma comp_tail p q c d : comp_ok c -> comp_ok d -> p ++ render_comp c = q ++ render_comp d ->
    (p = q /\ c = d) \/ (exists b e w, c = Sym true b e w /\ d = Sym false b e w /\ q = p ++ [32%N]) \/ (exists b e w, c = Sym false b e w /\ d = Sym true b e w /\ p = q ++ [32%N]).
  Proof.
    destruct c as [w|a b e w], d as [w'|a' b' e' w']; cbn [comp_ok render_comp]; intros W W' H.
    - destruct (dot_tail _ _ _ _ W W' H) as (-> & ->). auto.
    - exfalso. exact (dot_sym _ _ _ _ _ _ _ W H).
    - exfalso. symmetry in H. exact (dot_sym _ _ _ _ _ _ _ W' H).
    - destruct (sym_tail _ _ _ _ _ _ _ _ _ _ W W' H) as (-> & -> & -> & H'). clear H. rename H' into H. destruct a, a'; cbn [sp] in H; rewrite ?app_nil_r in H.
      + apply app_inv_tail in H as ->. auto.
      + subst q. right; left. exists b', e', w'. auto.
      + subst p. right; right. exists b', e', w'. auto.
      + subst q. auto.
  Qed.
  Lemma render_last b cs : base_ok b -> Forall comp_ok cs -> forall p, render b cs <> p ++ [32%N].
  Proof.
    intros B F p H. unfold render in H. destruct cs as [|c cs] using rev_ind.
    - cbn [map concat] in H. rewrite app_nil_r in H. destruct b as [w|w]; cbn [render_base base_ok] in *.
      + subst w. apply (wordy_no _ 32 B); [reflexivity|]. apply in_or_app. right. now left.
      + rewrite app_assoc in H. apply app_inj_tail in H as (_ & H). discriminate.
    - clear IHcs. rewrite map_app, concat_app in H. cbn [map concat] in H. rewrite app_nil_r in H. apply Forall_app in F as (_ & F). inversion F as [|? ? K _]; subst. destruct c as [w|x y z w]; cbn [render_comp comp_ok] in *.
      + destruct K as (NE & W). destruct w as [|c w _] using rev_ind; [congruence|]. rewrite !app_assoc in H. apply app_inj_tail in H as (_ & ->). assert (X : wordc uniword 32 = true) by (apply W, in_or_app; right; now left). discriminate X.
      + rewrite !app_assoc in H. apply app_inj_tail in H as (_ & H). discriminate.
  Qed.
  Lemma render_snoc b cs c : render b (cs ++ [c]) = render b cs ++ render_comp c.
  Proof. unfold render. rewrite map_app, concat_app. cbn [map concat]. now rewrite app_nil_r, app_assoc. Qed.
  Lemma base_nonempty b : base_ok b -> 1 <= length (render_base b).
  Proof. destruct b as [w|w]; cbn [base_ok render_base]; intros (NE & _); [destruct w; [congruence|cbn; lia]|cbn; lia]. Qed.
  Lemma comp_newline c : comp_ok c -> ~ In 10%N (render_comp c).
  Proof.
    destruct c as [w|a b d w]; cbn [comp_ok render_comp]; intros W I.
    - destruct I as [I|I]; [discriminate|]. eapply wordy_no; eauto. reflexivity.
    - unfold symbol in I. assert (NW := wordy_no _ 10 W eq_refl). rewrite !in_app_iff in I. destruct a, b, d; cbn [sp tx In] in I; cbn in I; intuition discriminate.
  Qed.
  Lemma render_newline b cs : base_ok b -> Forall comp_ok cs -> ~ In 10%N (render b cs).
  Proof.
    intros B F I. unfold render in I. apply in_app_or in I as [I|I].
    - destruct b as [w|w]; cbn [base_ok render_base] in *; [eapply wordy_no; eauto; reflexivity|]. assert (NW := wordy_no _ 10 B eq_refl). rewrite !in_app_iff in I. cbn in I. intuition discriminate.
    - apply in_concat in I as (t & T & I). apply in_map_iff in T as (c & <- & T). rewrite Forall_forall in F. now apply (comp_newline c (F _ T)).
  Qed.
  Lemma first_some_at {A} (f : nat -> option A) l1 n l2 y : (forall m, In m l1 -> f m = None) -> f n = Some y -> first_some f (l1 ++ n :: l2) = Some y.
  Proof. induction l1 as [|x l1 IH]; intros H E; cbn [app first_some]; [now rewrite E|]. rewrite (H x) by now left. apply IH; [|assumption]. intros; apply H; now right. Qed.
  Lemma first_some_inv {A B} (f : A -> option B) l y : first_some f l = Some y -> exists x, In x l /\ f x = Some y.
  Proof. induction l as [|x l IH]; cbn [first_some]; [discriminate|]. destruct (f x) eqn:E; [intros [= <-]; exists x; split; [now left|assumption]|]. intros H. destruct (IH H) as (z & I & Z). exists z. split; [now right|assumption]. Qed.
  Lemma seq_at i n : 1 <= i <= n -> seq 1 n = seq 1 (i - 1) ++ i :: seq (S i) (n - i).
  Proof. intros H. replace n with ((i - 1) + (1 + (n - i))) at 1 by lia. rewrite seq_app. f_equal. replace (1 + (i - 1)) with i by lia. reflexivity. Qed.
  Lemma split_last_ok b cs c : base_ok b -> Forall comp_ok cs -> comp_ok c -> split_last uniword (render b (cs ++ [c])) = Some (render b cs, g_of c).
  Proof.
    intros B F K. unfold split_last. rewrite render_snoc. set (q := render b cs). assert (LQ : 1 <= length q) by (unfold q, render; rewrite app_length; assert (X := base_nonempty b B); lia).
    rewrite (seq_at (length q) (length (q ++ render_comp c))) by (rewrite app_length; lia). apply first_some_at.
    - intros j J. apply in_seq in J. destruct (no_newline _); [|reflexivity]. destruct (last_comp uniword (skipn j (q ++ render_comp c))) as [g|] eqn:E; [|reflexivity]. exfalso.
      apply last_comp_inv in E as (c' & K' & E & _). assert (H := firstn_skipn j (q ++ render_comp c)). rewrite E in H. assert (LJ : length (firstn j (q ++ render_comp c)) = j) by (apply firstn_length_le; rewrite app_length; lia).
      apply comp_tail in H as [(H & _)|[(x & y & w & _ & _ & H)|(x & y & w & _ & _ & H)]]; auto.
      + rewrite H in LJ. lia.
      + unfold q in H. now apply render_last in H.
      + rewrite H, app_length in LJ. cbn in LJ. lia.
    - rewrite firstn_app, Nat.sub_diag, firstn_all. cbn [firstn]. rewrite app_nil_r. rewrite (proj2 (no_newline_iff q)) by (now apply render_newline). rewrite skipn_app, Nat.sub_diag, skipn_all. cbn [app skipn]. now rewrite last_comp_ok.
  Qed.
End Words.
