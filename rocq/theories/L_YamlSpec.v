(* The front matter and the blocks of lines: the two agree. *)
From Coq Require Import Ascii String.
From Verif Require Import M_Base L_Base M_HTML M_Shared L_Entities M_Layout L_Layout M_Indent M_Refs M_Values L_ValLists M_Validate L_Validate L_ValTree L_ValRest M_Test262 L_Test262 L_YamlColl.
Open Scope list_scope.
Open Scope nat_scope.
Notation length := List.length.

Lemma is_prefix_iff s t : is_prefix s t = true <-> exists b, t = s ++ b.
Proof.
  revert t. induction s as [|c s IH]; intros t; [split; [now exists t|reflexivity]|]. destruct t as [|d t]; [split; [discriminate|intros (b & B); discriminate]|]. cbn [is_prefix]. rewrite andb_true_iff, N.eqb_eq, IH. split.
  - intros (-> & b & ->). now exists b.
  - intros (b & B). injection B as -> ->. split; [reflexivity|now exists b].
Qed.
Lemma spaces_iff u : forallb is_space u = true <-> exists k, u = repeat 32%N k.
Proof.
  induction u as [|c u IH]; [split; [now exists 0|reflexivity]|]. cbn [forallb]. rewrite andb_true_iff, IH. unfold is_space. rewrite N.eqb_eq. split.
  - intros (-> & k & ->). now exists (S k).
  - intros ([|k] & K); [discriminate|]. injection K as -> ->. split; [reflexivity|now exists k].
Qed.
Lemma ends_iff c s : ends_with c s = true <-> exists u, s = u ++ [c].
Proof.
  unfold ends_with. split.
  - destruct (rev s) as [|d r] eqn:R; [discriminate|]. intros E. apply N.eqb_eq in E. subst d. exists (rev r). rewrite <- (rev_involutive s), R. reflexivity.
  - intros (u & ->). rewrite rev_app_distr. cbn [rev app]. apply N.eqb_refl.
Qed.
(* ---------- the list between the brackets ---------- *)
Lemma split_nonnil : forall s b, split_list b s <> [].
Proof. induction s as [|c s IH]; intros b; [discriminate|]. cbn [split_list]. destruct (b && _)%bool; [apply IH|]. destruct (c =? 44)%N; [discriminate|]. specialize (IH false). destruct (split_list false s); [congruence|discriminate]. Qed.
Lemma split_spaces : forall k u, split_list true (repeat 32%N k ++ u) = split_list true u.
Proof. induction k as [|k IH]; intros u; [reflexivity|]. exact (IH u). Qed.
Lemma split_flag u : match u with c :: _ => c <> 32%N | [] => True end -> split_list true u = split_list false u.
Proof. destruct u as [|c u]; [reflexivity|]. intros N. cbn [split_list]. now destruct (N.eqb_spec c 32). Qed.
Lemma split_word : forall x r, ~ In 44%N x -> split_list false (x ++ r) = match split_list false r with y :: ys => (x ++ y) :: ys | [] => [] end.
Proof.
  induction x as [|c x IH]; intros r N; [cbn [app]; pose proof (split_nonnil r false); now destruct (split_list false r)|]. cbn [app split_list andb]. destruct (N.eqb_spec c 44) as [->|]; [exfalso; apply N; now left|]. rewrite IH by (intros I; apply N; now right). now destruct (split_list false r).
Qed.
Lemma split_of u xs : listed u xs -> split_list false u = xs.
Proof.
  induction 1 as [x N|x k u xs N H L IH].
  - rewrite <- (app_nil_r x) at 1. rewrite split_word by assumption. cbn [split_list]. now rewrite app_nil_r.
  - rewrite split_word by assumption. change (tx "," ++ repeat 32%N k ++ u) with (44%N :: repeat 32%N k ++ u). cbn [split_list andb]. change (44 =? 44)%N with true. cbv iota. rewrite split_spaces, split_flag by assumption. now rewrite IH, app_nil_r.
Qed.
Lemma listed_exists : forall n u, length u <= n -> exists xs, listed u xs.
Proof.
  induction n as [|n IH]; intros u L; [destruct u; [|cbn in L; lia]; exists [[]]; constructor; intros []|].
  assert (G : ~ In 44%N u \/ exists x r, u = x ++ 44%N :: r /\ ~ In 44%N x).
  { clear. induction u as [|c u IH]; [left; intros []|]. destruct (N.eq_dec c 44) as [->|NE]; [right; exists [], u; split; [reflexivity|intros []]|]. destruct IH as [IH|(x & r & -> & N)]; [left; intros [E|I]; [congruence|contradiction]|]. right. exists (c :: x), r. split; [reflexivity|]. intros [E|I]; [congruence|contradiction]. }
  destruct G as [N|(x & r & -> & N)]; [exists [u]; now constructor|].
  assert (G : exists k r', r = repeat 32%N k ++ r' /\ match r' with c :: _ => c <> 32%N | [] => True end).
  { clear. induction r as [|c r (k & r' & -> & IH)]; [exists 0, []; now split|]. destruct (N.eq_dec c 32) as [->|NE]; [now exists (S k), r'|]. exists 0, (c :: repeat 32%N k ++ r'). now split. }
  destruct G as (k & r' & -> & H). rewrite app_length in L. cbn [length] in L. rewrite app_length in L. destruct (IH r') as (xs & X); [lia|]. exists (x :: xs). change (x ++ 44%N :: repeat 32%N k ++ r') with (x ++ tx "," ++ repeat 32%N k ++ r'). now constructor.
Qed.
Lemma listed_iff u xs : listed u xs <-> split_list false u = xs.
Proof. split; [apply split_of|]. intros <-. destruct (listed_exists (length u) u (le_n _)) as (xs & X). now rewrite (split_of _ _ X). Qed.

(* ---------- values on the line of the key ---------- *)
Lemma between u : slice 2 (length (tx " [" ++ u ++ tx "]") - 1) (tx " [" ++ u ++ tx "]") = u.
Proof.
  replace (length (tx " [" ++ u ++ tx "]") - 1) with (length (tx " [") + length u) by (rewrite !app_length; cbn [length tx]; cbn; lia). change 2 with (length (tx " [")) at 1. apply L_Test262.slice_mid.
Qed.
Lemma bracket_end b : ends_with 93 (tx " [" ++ b) = true <-> exists u, b = u ++ tx "]".
Proof.
  rewrite ends_iff. split.
  - intros (u & E). destruct (exists_last (l := b)) as (u' & x & ->); [intros ->; destruct u as [|? [|? [|? ?]]]; discriminate|]. rewrite app_assoc in E. apply app_inj_tail in E. destruct E as (_ & ->). now exists u'.
  - intros (u & ->). exists (tx " [" ++ u). now rewrite app_assoc.
Qed.
Lemma flow_ok rest v : flow rest v -> flow_value rest = Ok v.
Proof.
  intros H. destruct H as [k|u xs N L|v H]; unfold flow_value.
  - change (is_prefix (tx " {") _) with false. cbv iota. rewrite (proj2 (is_prefix_iff (tx " [") _)) by (eexists; reflexivity). rewrite (proj2 (bracket_end _)) by (eexists; reflexivity). cbn [assert_ bind]. rewrite between. rewrite (proj2 (spaces_iff _)) by (eexists; reflexivity). reflexivity.
  - change (is_prefix (tx " {") _) with false. cbv iota. rewrite (proj2 (is_prefix_iff (tx " [") _)) by (eexists; reflexivity). rewrite (proj2 (bracket_end _)) by (eexists; reflexivity). cbn [assert_ bind]. rewrite between. destruct (forallb is_space u) eqn:S; [apply spaces_iff in S; contradiction|]. now rewrite (split_of _ _ L).
  - change (tx " " ++ v) with (32%N :: v). destruct v as [|c v]; [reflexivity|]. destruct H as (N1 & N2). cbn [is_prefix tx]. cbn.
    destruct (N.eqb_spec c 123) as [|_]; [congruence|]. destruct (N.eqb_spec c 91) as [|_]; [congruence|]. 
    destruct c; [reflexivity|]. repeat (destruct p; try reflexivity; try congruence).
Qed.
Lemma flow_sound rest : (forall v, flow_value rest = Ok v -> flow rest v) /\ (forall e, flow_value rest = Err e -> e = AssertionError).
Proof.
  unfold flow_value. destruct (is_prefix (tx " {") rest) eqn:P1; [split; [discriminate|intros e [= <-]; reflexivity]|]. destruct (is_prefix (tx " [") rest) eqn:P2.
  - apply (proj1 (is_prefix_iff _ _)) in P2. destruct P2 as (b & ->). destruct (ends_with 93 (tx " [" ++ b)) eqn:E; cbn [assert_ bind]; [|split; [discriminate|intros e [= <-]; reflexivity]]. apply (proj1 (bracket_end _)) in E. destruct E as (u & ->). rewrite between. destruct (forallb is_space u) eqn:S.
    + apply (proj1 (spaces_iff _)) in S. destruct S as (k & ->). split; [|discriminate]. intros v H. apply ok_inj in H. subst v. constructor.
    + split; [|discriminate]. intros v H. apply ok_inj in H. subst v. constructor; [|now apply listed_iff]. intros K. apply spaces_iff in K. congruence.
  - destruct rest as [|c v]; [split; [discriminate|intros e [= <-]; reflexivity]|]. destruct (N.eqb_spec c 32) as [->|NE]; [|split; [discriminate|intros e [= <-]; reflexivity]]. split; [|discriminate]. intros w H. apply ok_inj in H. subst w. change (32%N :: v) with (tx " " ++ v). constructor. destruct v as [|d v]; [exact I|]. split; intros ->.
    + enough (is_prefix (tx " [") (32%N :: 91%N :: v) = true) by congruence. apply is_prefix_iff. now exists v.
    + enough (is_prefix (tx " {") (32%N :: 123%N :: v) = true) by congruence. apply is_prefix_iff. now exists v.
Qed.
Lemma head_ok v : match v with c :: _ => c <> 32%N /\ c <> 91%N /\ c <> 123%N | [] => False end -> head_value (tx "- " ++ v) = Ok v.
Proof.
  intros H. change (tx "- " ++ v) with (45%N :: 32%N :: v). unfold head_value. change ((45 =? 45)%N && (32 =? 32)%N) with true. cbn [assert_ bind]. destruct v as [|d v]; [contradiction|]. destruct H as (A & B & C). apply N.eqb_neq in A, B, C. rewrite A, B, C. reflexivity.
Qed.
Lemma head_sound t : (forall v, head_value t = Ok v -> t = tx "- " ++ v /\ match v with c :: _ => c <> 32%N /\ c <> 91%N /\ c <> 123%N | [] => False end) /\ (forall e, head_value t = Err e -> e = AssertionError).
Proof.
  unfold head_value. destruct t as [|x1 [|x2 v]]; try (split; [discriminate|intros e [= <-]; reflexivity]). destruct (N.eqb_spec x1 45) as [->|]; [|split; [discriminate|intros e [= <-]; reflexivity]]. destruct (N.eqb_spec x2 32) as [->|]; [|split; [discriminate|intros e [= <-]; reflexivity]]. cbn [andb assert_ bind].
  destruct v as [|d v]; [split; [discriminate|intros e [= <-]; reflexivity]|]. destruct ((d =? 32)%N || (d =? 91)%N || (d =? 123)%N) eqn:D; cbn [negb assert_ bind]; [split; [discriminate|intros e [= <-]; reflexivity]|]. rewrite !orb_false_iff, !N.eqb_neq in D. split; [|discriminate]. intros w H. apply ok_inj in H. subst w. split; [reflexivity|tauto].
Qed.
Section Spec.
  Variable uniword : N -> bool.
  Lemma key_ok k rest : a_key uniword k -> key_line uniword (k ++ tx ":" ++ rest) = Ok (k, rest).
  Proof.
    intros (N & W). unfold key_line. cbv zeta. assert (C : count_while (wordc uniword) (k ++ tx ":" ++ rest) = length k).
    { clear N. induction W as [|c k W _ IH]; [|cbn [app count_while length]; apply word_iff in W; now rewrite W, IH]. change (tx ":" ++ rest) with (58%N :: rest). cbn [app count_while length]. destruct (wordc uniword 58) eqn:E; [|reflexivity]. apply word_iff in E. unfold word in E. lia. }
    rewrite C. destruct (length k) eqn:LK; [destruct k; [congruence|discriminate]|]. rewrite <- LK, skip_all. change (tx ":" ++ rest) with (58%N :: rest). change (58 =? 58)%N with true. cbv iota. rewrite firstn_app, Nat.sub_diag, firstn_all. cbn [firstn]. now rewrite app_nil_r.
  Qed.
  Lemma key_sound t : (forall k rest, key_line uniword t = Ok (k, rest) -> t = k ++ tx ":" ++ rest /\ a_key uniword k) /\ (forall e, key_line uniword t = Err e -> e = AssertionError).
  Proof.
    unfold key_line. cbv zeta. set (n := count_while (wordc uniword) t). destruct n as [|n'] eqn:EN; [split; [discriminate|intros e [= <-]; reflexivity]|]. rewrite <- EN. destruct (skipn n t) as [|d rest] eqn:S; [split; [discriminate|intros e [= <-]; reflexivity]|]. destruct (N.eqb_spec d 58) as [->|]; [|split; [discriminate|intros e [= <-]; reflexivity]].
    split; [|discriminate]. intros k r H. apply ok_inj in H. injection H as <- <-. split; [rewrite <- (firstn_skipn n t) at 1; rewrite S; reflexivity|]. split.
    - intros F. apply (f_equal (@List.length N)) in F. rewrite firstn_length in F. assert (n <= length t) by (unfold n; apply count_spec). cbn in F. lia.
    - unfold n. clear. induction t as [|c t IH]; [constructor|]. cbn [count_while]. destruct (wordc uniword c) eqn:W; [|constructor]. cbn [firstn]. constructor; [now apply word_iff|assumption].
  Qed.
  Lemma seq2_sound ind : forall cs acc, Forall (chunk ind) cs -> (forall d, seq2 cs acc = Ok d -> exists vs, d = DList (acc ++ vs) /\ seq_entries uniword ind (flat cs) vs) /\ (forall e, seq2 cs acc = Err e -> e = AssertionError).
  Proof.
    induction cs as [|(h, t) cs IH]; intros acc C; cbn [seq2]; [split; [|discriminate]; intros d H; apply ok_inj in H; subst d; exists []; split; [now rewrite app_nil_r|constructor]|]. inversion C as [|? ? (F & N & D) C']; subst. cbn [fst snd] in *. destruct (trimmed_spec t) as (bs & T & B & _). destruct (trimmed t) as [|x u]; [|split; [discriminate|intros e [= <-]; reflexivity]].
    cbn [app] in T. subst t. destruct (head_sound (snd h)) as (A1 & A2). destruct (head_value (snd h)) as [v|e0]; cbn [bind]; [|split; [discriminate|]; intros e H; injection H as <-; now apply A2]. destruct (A1 v eq_refl) as (E & V). destruct (IH (acc ++ [v]) C') as (I1 & I2). split; [|exact I2].
    intros d H. destruct (I1 d H) as (vs & -> & S). exists (v :: vs). split; [now rewrite <- app_assoc|]. unfold flat. cbn [flat_map fst snd]. destruct h as (i, s). cbn [fst snd] in *. subst s. cbn [app]. now constructor.
  Qed.
  Lemma seq2_complete ind ls vs : seq_entries uniword ind ls vs -> exists cs, ls = flat cs /\ Forall (chunk ind) cs /\ forall acc, seq2 cs acc = Ok (DList (acc ++ vs)).
  Proof.
    induction 1 as [ind|ind v blanks ls vs V B S (cs & -> & C & E)]; [exists []; repeat split; [constructor|]; intros acc; cbn; now rewrite app_nil_r|]. exists (((ind, tx "- " ++ v), blanks) :: cs). split; [reflexivity|]. split.
    - constructor; [|assumption]. split; [reflexivity|]. split; [discriminate|]. cbn [snd]. eapply Forall_impl; [|exact B]. intros l X. now left.
    - intros acc. cbn [seq2 snd]. rewrite trimmed_blanks by assumption. rewrite head_ok by assumption. cbn [bind]. rewrite E, <- app_assoc. reflexivity.
  Qed.
  Lemma has_key_iff k m : has_key k m = true <-> In k (map fst m). Proof. apply tmem_iff_. Qed.
  Definition agree (coll : list line -> res data) (n : nat) : Prop :=
    forall sub, sub <> [] -> length sub <= n -> (forall d, coll sub = Ok d <-> block uniword sub d) /\ (forall e, coll sub = Err e -> e = AssertionError).
  Lemma value_agree coll n rest body : agree coll n -> length body <= n -> (forall v, value2 coll rest body = Ok v <-> entry uniword rest body v) /\ (forall e, value2 coll rest body = Err e -> e = AssertionError).
  Proof.
    intros A L. unfold value2. destruct body as [|x body].
    - destruct (flow_sound rest) as (F1 & F2). split; [|exact F2]. intros v. split; [intros H; apply e_flow; now apply F1|]. intros H. inversion H; subst; [now apply flow_ok|congruence|congruence].
    - destruct (A (x :: body) ltac:(discriminate) L) as (B1 & B2). destruct (text_eqb rest (tx " |")) eqn:E1; [|destruct (text_eqb rest (tx " >")) eqn:E2; [|destruct (forallb py_space rest) eqn:E3]].
      + apply text_eqb_eq in E1. subst rest. split; [|discriminate]. intros v. split; [intros H; apply ok_inj in H; subst v; apply e_text; [now left|discriminate]|]. intros H. inversion H as [|? ? _ _|? ? ? S _ _]; subst; [reflexivity|]. inversion S as [|? ? _ S2]; subst. inversion S2 as [|? ? X _]; subst. exfalso. apply (proj2 (py_space_iff _)) in X. discriminate.
      + apply text_eqb_eq in E2. subst rest. split; [|discriminate]. intros v. split; [intros H; apply ok_inj in H; subst v; apply e_text; [now right|discriminate]|]. intros H. inversion H as [|? ? _ _|? ? ? S _ _]; subst; [reflexivity|]. inversion S as [|? ? _ S2]; subst. inversion S2 as [|? ? X _]; subst. exfalso. apply (proj2 (py_space_iff _)) in X. discriminate.
      + split; [|exact B2]. intros v. rewrite B1. split; [intros H; apply e_block; [|discriminate|assumption]|].
        * apply Forall_forall. intros c I. rewrite forallb_forall in E3. apply py_space_iff. now apply E3.
        * intros H. inversion H as [|? ? [->| ->] _|]; subst; [discriminate|discriminate|assumption].
      + split; [|intros e [= <-]; reflexivity]. intros v. split; [discriminate|]. intros H. inversion H as [|? ? [->| ->] _|? ? ? S _ _]; subst; [discriminate|discriminate|]. exfalso. assert (X : forallb py_space rest = true); [|congruence]. apply forallb_forall. intros c I. apply py_space_iff. rewrite Forall_forall in S. now apply S.
  Qed.
  Lemma map2_sound coll n ind : agree coll n -> forall cs acc, Forall (chunk ind) cs -> (forall h t, In (h, t) cs -> length t <= n) -> NoDup (map fst acc) ->
    (forall d, map2 uniword coll cs acc = Ok d -> exists m, d = DMap (acc ++ m) /\ map_entries uniword ind (flat cs) m /\ NoDup (map fst (acc ++ m))) /\ (forall e, map2 uniword coll cs acc = Err e -> e = AssertionError).
  Proof.
    intros A. induction cs as [|(h, t) cs IH]; intros acc C LT ND; cbn [map2]; [split; [|discriminate]; intros d H; apply ok_inj in H; subst d; exists []; rewrite app_nil_r; repeat split; [constructor|assumption]|]. inversion C as [|? ? (F & N & D) C']; subst. cbn [fst snd] in *. destruct (trimmed_spec t) as (bs & T & B & TI).
    destruct (key_sound (snd h)) as (K1 & K2). destruct (key_line uniword (snd h)) as [(k, rest)|e0]; cbn [bind fst snd]; [|split; [discriminate|]; intros e H; injection H as <-; now apply K2]. destruct (K1 k rest eq_refl) as (E & K). destruct (has_key k acc) eqn:HK; cbn [negb assert_ bind]; [split; [discriminate|intros e [= <-]; reflexivity]|].
    assert (NK : ~ In k (map fst acc)) by (intros X; apply has_key_iff in X; congruence).
    assert (LB : length (trimmed t) <= n) by (specialize (LT h t (or_introl eq_refl)); rewrite T, app_length in LT; lia). destruct (value_agree coll n rest (trimmed t) A LB) as (V1 & V2). destruct (value2 coll rest (trimmed t)) as [v|e0]; cbn [bind]; [|split; [discriminate|]; intros e H; injection H as <-; now apply V2].
    destruct (IH (acc ++ [(k, v)]) C') as (I1 & I2); [intros h' t' I; apply (LT h' t'); now right| |].
    { rewrite map_app. cbn [map fst]. apply NoDup_app_snoc_ || (apply (Permutation.Permutation_NoDup (l := k :: map fst acc)); [apply Permutation.Permutation_cons_append|now constructor]). }
    split; [|exact I2]. intros d H. destruct (I1 d H) as (m & -> & M & ND2). exists ((k, v) :: m). rewrite <- app_assoc in *. split; [reflexivity|]. split; [|exact ND2]. unfold flat. cbn [flat_map fst snd]. destruct h as (i, s). cbn [fst snd] in *. subst s. rewrite T. cbn [app]. rewrite <- app_assoc. apply me_cons; try assumption; [|now apply V1]. rewrite T in D. now apply Forall_app in D.
  Qed.
  Lemma map2_complete coll n ind ls m : map_entries uniword ind ls m -> agree coll n -> length ls <= S n -> exists cs, ls = flat cs /\ Forall (chunk ind) cs /\ forall acc, NoDup (map fst (acc ++ m)) -> map2 uniword coll cs acc = Ok (DMap (acc ++ m)).
  Proof.
    intros M A. induction M as [ind|ind k rest body blanks ls v m K D T B E M IH]; intros L; [exists []; repeat split; [constructor|]; intros acc _; cbn; now rewrite app_nil_r|]. cbn [length] in L. rewrite !app_length in L. destruct IH as (cs & -> & C & IH); [lia|]. exists (((ind, k ++ tx ":" ++ rest), body ++ blanks) :: cs). split; [unfold flat; cbn [flat_map fst snd app]; now rewrite <- app_assoc|]. split.
    - constructor; [|assumption]. split; [reflexivity|]. split; [unfold blank; cbn [fst snd]; destruct k; [now destruct K|discriminate]|]. cbn [snd]. apply Forall_app. split; [assumption|]. eapply Forall_impl; [|exact B]. intros l X. now left.
    - intros acc ND. cbn [map2 snd]. rewrite key_ok by assumption. cbn [bind fst snd]. destruct (has_key k acc) eqn:HK.
      { exfalso. apply has_key_iff in HK. rewrite map_app in ND. cbn [map fst] in ND. apply NoDup_remove_2 in ND. apply ND. apply in_app_iff. now left. }
      cbn [negb assert_ bind]. rewrite trimmed_eq by assumption. destruct (value_agree coll n rest body A) as (V1 & _); [lia|]. apply V1 in E. rewrite E. cbn [bind]. rewrite IH; rewrite <- app_assoc; [reflexivity|exact ND].
  Qed.
  Lemma coll2_agree : forall f, agree (coll2 uniword f) f.
  Proof.
    induction f as [|f IH]; intros sub N L; [destruct sub; [congruence|cbn in L; lia]|]. destruct sub as [|h sub]; [congruence|]. cbn [coll2].
    assert (K : (forall d, block uniword (h :: sub) d -> exists sq, kind2 (snd h) = Ok sq /\ (sq = true <-> exists v, snd h = tx "-" ++ v)) /\ (forall sq, kind2 (snd h) = Ok sq -> snd h <> [] /\ ((sq = true /\ exists v, snd h = tx "-" ++ v) \/ (sq = false /\ (~ exists v, snd h = tx "-" ++ v) /\ exists u w, snd h = u ++ tx ": " ++ w))) /\ (forall e, kind2 (snd h) = Err e -> e = AssertionError)).
    { unfold kind2. destruct (snd h) as [|d r] eqn:SH.
      - split; [|split; [discriminate|intros e [= <-]; reflexivity]]. intros d B. inversion B as [? ? ? (v & V)|? ? ? NV0 (u & w & V) M0 ND0]; subst; apply (eq_trans (eq_sym SH)) in V; [discriminate|]. exfalso. now destruct u.
      - destruct (N.eqb_spec d 45) as [->|NE].
        + split; [intros; exists true; split; [reflexivity|]; split; [now exists r|reflexivity]|]. split; [|discriminate]. intros sq H. apply ok_inj in H. subst sq. split; [discriminate|]. left. split; [reflexivity|]. now exists r.
        + assert (NO : ~ exists v, d :: r = tx "-" ++ v) by (intros (v & V); injection V as -> _; congruence). destruct (text_in (tx ": ") (d :: r)) eqn:TI.
          * split; [intros; exists false; split; [reflexivity|]; split; [discriminate|contradiction]|]. split; [|discriminate]. intros sq H. apply ok_inj in H. subst sq. split; [discriminate|]. right. split; [reflexivity|]. split; [assumption|]. now apply text_in_iff.
          * split; [|split; [discriminate|intros e [= <-]; reflexivity]]. intros d0 B. exfalso. inversion B as [? ? ? V S0|? ? ? NV0 V M0 ND0]; subst; [destruct V as (v & V); apply (eq_trans (eq_sym SH)) in V; apply NO; now exists v|]. destruct V as (u & w & V). apply (eq_trans (eq_sym SH)) in V. assert (X : text_in (tx ": ") (d :: r) = true) by (apply text_in_iff; now exists u, w). congruence. }
    destruct K as (K1 & K2 & K3). destruct (kind2 (snd h)) as [sq|e0]; cbn [bind]; [|split; [|intros e H; injection H as <-; now apply K3]; intros d; split; [discriminate|]; intros B; destruct (K1 d B) as (? & ? & _); discriminate]. destruct (K2 sq eq_refl) as (NB & KK).
    assert (P : fst (cut (fst h) (h :: sub)) = []).
    { cbn [cut]. destruct (cut (fst h) sub) as (p, cs). assert (X : nonblank h = true) by (apply nonblank_iff; exact NB). rewrite X, Nat.eqb_refl. reflexivity. }
    assert (BACK : forall d, block uniword (h :: sub) d -> exists cs, h :: sub = flat cs /\ Forall (chunk (fst h)) cs /\ (if sq then seq2 cs [] else map2 uniword (coll2 uniword f) cs []) = Ok d).
    { intros d B. destruct (K1 d B) as (sq' & Q & SQ). injection Q as <-. inversion B as [? ? vs V S|? ? m V V2 M ND]; subst.
      - rewrite (proj2 SQ V). destruct (seq2_complete _ _ _ S) as (cs & F & C & E). exists cs. split; [assumption|]. split; [assumption|]. apply (E []).
      - assert (sq = false) by (destruct sq; [exfalso; apply V; now apply SQ|reflexivity]). subst sq. destruct (map2_complete _ f _ _ _ M IH L) as (cs & F & C & E). exists cs. split; [assumption|]. split; [assumption|]. apply (E []). exact ND. }
    destruct (forallb (okl (fst h)) (h :: sub)) eqn:OK.
    - destruct (cut_spec _ _ OK) as (FL & _ & CH). rewrite P in FL. cbn [app] in FL. remember (snd (cut (fst h) (h :: sub))) as cs eqn:CS.
      assert (BACK2 : forall d, block uniword (h :: sub) d -> (if sq then seq2 cs [] else map2 uniword (coll2 uniword f) cs []) = Ok d).
      { intros d B. destruct (BACK d B) as (cs' & F & C & E). destruct (cut_eq _ _ C) as (CE & _). rewrite <- F in CE. rewrite CE in CS. cbn [snd] in CS. now subst cs. }
      destruct KK as [(-> & V)|(-> & NV & V)].
      + destruct (seq2_sound _ cs [] CH) as (S1 & S2). split; [|exact S2]. intros d. split; [|apply BACK2]. intros H. destruct (S1 d H) as (vs & -> & S). rewrite <- FL in S. now apply b_seq.
      + destruct (map2_sound _ f (fst h) IH cs [] CH) as (S1 & S2); [intros h' t' I; apply in_flat in I; rewrite <- FL in I; cbn [length] in *; lia|constructor|]. split; [|exact S2]. intros d. split; [|apply BACK2]. intros H. destruct (S1 d H) as (m & -> & M & ND). rewrite <- FL in M. now apply b_map.
    - split; [|intros e [= <-]; reflexivity]. intros d. split; [discriminate|]. intros B. destruct (BACK d B) as (cs' & F & C & E). destruct (cut_eq _ _ C) as (_ & O). rewrite <- F in O. congruence.
  Qed.
  Theorem frontmatter_lines ls : ls <> [] -> Forall written ls ->
    (forall d, parse_frontmatter uniword (text_of ls) = Ok d <-> block uniword ls d) /\ (forall e, parse_frontmatter uniword (text_of ls) = Err e -> e = AssertionError).
  Proof.
    intros N W. unfold parse_frontmatter, line_posns. rewrite (line_posns_of ls 0 _ N W) by lia. rewrite posns_length. pose proof (coll_eq uniword ls (length ls) ls [] []) as C. cbn [app length plus] in C. rewrite C; [|now rewrite app_nil_r|assumption|lia]. apply coll2_agree; [assumption|lia].
  Qed.
End Spec.
