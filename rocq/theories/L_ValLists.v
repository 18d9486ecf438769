(* Lists, Strings and sequences of code points: lemmas. *)
From Coq Require Import Ascii String QArith.
From Verif Require Import M_Base L_Base M_HTML M_Shared M_Mathnum M_Values L_Values.
Open Scope list_scope.
Open Scope nat_scope.
Notation length := List.length.

(* at two different places of l there are elements with P *)
Definition two_of {A} (P : A -> Prop) (l : list A) : Prop :=
  exists i j a b, i < j /\ nth_error l i = Some a /\ nth_error l j = Some b /\ P a /\ P b.
(* two different places of l have the same value *)
Definition repeated (l : list val) : Prop :=
  exists i j a b, i < j /\ nth_error l i = Some a /\ nth_error l j = Some b /\ same a b.

Lemma filter_two {A} (f : A -> bool) l : 1 < length (filter f l) <-> two_of (fun a => f a = true) l.
Proof.
  unfold two_of. induction l as [|x l IH]; cbn [filter].
  - split; [cbn; lia|]. intros (i & j & a & b & _ & H & _). destruct i; discriminate.
  - destruct (f x) eqn:F.
    + cbn [length]. split.
      * intros H. assert (L : 0 < length (filter f l)) by lia. destruct (filter f l) as [|y r] eqn:E; [cbn in L; lia|].
        assert (I : In y (filter f l)) by (rewrite E; now left). apply filter_In in I. destruct I as (I & Fy). apply In_nth_error in I. destruct I as (k & K).
        exists 0, (S k), x, y. repeat split; try assumption. lia.
      * intros (i & j & a & b & L & HI & HJ & Fa & Fb). destruct j as [|j]; [lia|]. cbn in HJ. assert (I : In b (filter f l)) by (apply filter_In; split; [now apply nth_error_In in HJ|assumption]).
        destruct (filter f l); [destruct I|cbn; lia].
    + rewrite IH. split.
      * intros (i & j & a & b & L & H). exists (S i), (S j), a, b. split; [lia|exact H].
      * intros (i & j & a & b & L & HI & HJ & Fa & Fb). destruct i as [|i]; [cbn in HI; congruence|]. destruct j as [|j]; [lia|]. exists i, j, a, b. repeat split; try assumption. lia.
Qed.
Lemma two_of_ext {A} (P Q : A -> Prop) l : (forall a, In a l -> (P a <-> Q a)) -> (two_of P l <-> two_of Q l).
Proof.
  intros H. split; intros (i & j & a & b & L & HI & HJ & Pa & Pb); exists i, j, a, b; repeat split; try assumption; apply H; try assumption; eapply nth_error_In; eassumption.
Qed.

Lemma contains_iff l v : Forall plain l -> plain v -> (contains l v = true <-> exists e, In e l /\ same e v).
Proof.
  intros PL PV. unfold contains. rewrite existsb_exists. rewrite Forall_forall in PL. split; intros (e & I & H); exists e; (split; [assumption|]); apply same_value_plain in H || apply same_value_plain; auto.
Qed.
Lemma occurrences_iff l v : Forall plain l -> plain v -> (1 < occurrences l v <-> two_of (fun e => same e v) l).
Proof.
  intros PL PV. unfold occurrences. rewrite filter_two. apply two_of_ext. intros a I. rewrite Forall_forall in PL. apply same_value_plain; auto.
Qed.
Lemma common_iff l m : Forall plain l -> Forall plain m -> (common l m = true <-> exists a b, In a l /\ In b m /\ same a b).
Proof.
  intros PL PM. rewrite Forall_forall in PL, PM. unfold common. rewrite existsb_exists. split.
  - intros (a & I & H). apply existsb_exists in H. destruct H as (b & J & S). exists a, b. repeat split; try assumption. apply same_value_plain in S; auto.
  - intros (a & b & I & J & S). exists a. split; [assumption|]. apply existsb_exists. exists b. split; [assumption|]. apply same_value_plain; auto.
Qed.

Lemma dups_go_iff l : forall before, dups_go before l = true <->
  exists i j a b, i < j /\ length before <= j /\ nth_error (before ++ l) i = Some a /\ nth_error (before ++ l) j = Some b /\ same_value b a = true.
Proof.
  induction l as [|e l IH]; intros before; cbn [dups_go].
  - split; [discriminate|]. intros (i & j & a & b & _ & L & _ & H & _). rewrite app_nil_r in H. assert (j < length before) by (apply nth_error_Some; congruence). lia.
  - rewrite orb_true_iff, IH, existsb_exists, <- app_assoc. cbn [app]. rewrite app_length. cbn [length]. split.
    + intros [(e' & I & S)|(i & j & a & b & L & LB & H)].
      * apply In_nth_error in I. destruct I as (i & HI). assert (i < length before) by (apply nth_error_Some; congruence). exists i, (length before), e', e. repeat split; try lia; try assumption.
        -- now rewrite nth_error_app1.
        -- rewrite nth_error_app2, Nat.sub_diag by lia. reflexivity.
      * exists i, j, a, b. repeat split; try lia; try tauto.
    + intros (i & j & a & b & L & LB & HI & HJ & S). destruct (Nat.eq_dec j (length before)) as [->|NE].
      * left. rewrite nth_error_app2, Nat.sub_diag in HJ by lia. injection HJ as <-. rewrite nth_error_app1 in HI by lia. exists a. split; [now apply nth_error_In in HI|assumption].
      * right. exists i, j, a, b. repeat split; try assumption. lia.
Qed.
Lemma duplicates_iff l : Forall plain l -> (duplicates l = true <-> repeated l).
Proof.
  intros PL. unfold duplicates. rewrite dups_go_iff. cbn [app length]. rewrite Forall_forall in PL. split.
  - intros (i & j & a & b & L & _ & HI & HJ & S). exists i, j, a, b. repeat split; try assumption. apply same_sym. apply same_value_plain in S; [assumption| |]; apply PL; eapply nth_error_In; eassumption.
  - intros (i & j & a & b & L & HI & HJ & S). exists i, j, a, b. repeat split; try assumption; [lia|]. apply same_value_plain; [| |now apply same_sym]; apply PL; eapply nth_error_In; eassumption.
Qed.
Lemma duplicates_bool l i j a b : i < j -> nth_error l i = Some a -> nth_error l j = Some b -> same_value b a = true -> duplicates l = true.
Proof. intros L HI HJ S. unfold duplicates. apply dups_go_iff. exists i, j, a, b. repeat split; try assumption. cbn. lia. Qed.

Lemma as_list_ok c l : as_list c = Ok l <-> c = VList l.
Proof. destruct c; cbn; split; congruence. Qed.
Lemma as_list_err c e : as_list c = Err e <-> (forall l, c <> VList l) /\ e = AssertionError.
Proof. destruct c; cbn; split; try (intros; split; congruence); try discriminate. all: try (intros (_ & ->); reflexivity). intros (H & _). now destruct (H elements). Qed.

Lemma text_in_iff s t : text_in s t = true <-> exists a b, t = a ++ s ++ b.
Proof.
  assert (P : forall s t, is_prefix s t = true <-> exists b, t = s ++ b).
  { clear. induction s as [|c s IH]; intros t; cbn [is_prefix]; [split; [now exists t|reflexivity]|]. destruct t as [|d t].
    - split; [discriminate|]. intros (b & H). discriminate.
    - rewrite andb_true_iff, N.eqb_eq, IH. split; [intros (-> & b & ->); now exists b|]. intros (b & H). injection H as -> ->. split; [reflexivity|now exists b]. }
  induction t as [|c t IH]; cbn [text_in]; rewrite orb_true_iff, P.
  - split; [intros [(b & H)|H]; [now exists [], b|discriminate]|]. intros (a & b & H). left. destruct a; [now exists b|discriminate].
  - rewrite IH. split.
    + intros [(b & H)|(a & b & H)]; [now exists [], b|]. exists (c :: a), b. cbn. now rewrite H.
    + intros (a & b & H). destruct a as [|x a]; [left; now exists b|]. right. injection H as -> H. now exists a, b.
Qed.

(* concat *)
Lemma concat_ok vs l : concat_ vs = Ok l <-> exists ls, vs = map VList ls /\ l = List.concat ls.
Proof.
  revert l. induction vs as [|v vs IH]; intros l; cbn [concat_].
  - split; [intros H; injection H as <-; now exists []|]. intros ([|x ls] & H & ->); [reflexivity|discriminate].
  - destruct (as_list v) as [x|] eqn:E; cbn [bind].
    + apply as_list_ok in E. subst v. destruct (concat_ vs) as [r|] eqn:F; cbn [bind].
      * destruct (proj1 (IH r) eq_refl) as (ls & -> & ->). split.
        -- intros H. injection H as <-. now exists (x :: ls).
        -- intros ([|y ls'] & H & ->); [discriminate|]. cbn in H. injection H as <- H. cbn. f_equal. f_equal. assert (M : map VList ls = map VList ls' -> ls = ls') by (clear; revert ls'; induction ls as [|a ls IH]; intros [|b ls'] H; try discriminate; [reflexivity|cbn in H; injection H as -> H; f_equal; auto]). now rewrite (M H).
      * split; [discriminate|]. intros ([|y ls'] & H & ->); [discriminate|]. cbn in H. injection H as <- H. enough (@Err (list val) e = Ok (List.concat ls')) by discriminate. apply IH. now exists ls'.
    + split; [discriminate|]. intros ([|y ls'] & H & ->); [discriminate|]. cbn in H. injection H as -> H. discriminate.
Qed.
Lemma concat_err vs e : concat_ vs = Err e -> e = AssertionError.
Proof.
  induction vs as [|v vs IH]; cbn [concat_]; [discriminate|]. destruct (as_list v) as [x|] eqn:E; cbn [bind].
  - destruct (concat_ vs); cbn [bind]; [discriminate|]. intros H. injection H as <-. auto.
  - intros H. injection H as <-. apply as_list_err in E. tauto.
Qed.

(* property definitions *)
Inductive lists : pdlist -> list propdef -> Prop :=
| lists_one d : lists (PLOne d) [d]
| lists_more l ds d : lists l ds -> lists (PLMore l d) (ds ++ [d]).
Lemma each_pd_lists l ds : lists l ds -> each_pd l = (ds, true).
Proof. induction 1 as [d|l ds d _ IH]; cbn [each_pd]; [reflexivity|]. now rewrite IH. Qed.

Definition of_form (v : val) (puks : list nat) (d : propdef) : Prop := exists n, pd_name d = Ok n /\ same n v /\ In (pd_puk d) puks.
Definition of_form_b (v : val) (puks : list nat) (d : propdef) : bool :=
  match pd_name d with Ok n => same_value n v && existsb (Nat.eqb (pd_puk d)) puks | Err _ => false end.
Lemma count_pds_ok v puks ds : forall n, Forall (fun d => pd_ok d = true /\ exists m, pd_name d = Ok m) ds ->
  count_pds v puks n ds = Ok (n + length (filter (of_form_b v puks) ds)).
Proof.
  induction ds as [|d ds IH]; intros n F; cbn [count_pds filter length].
  - f_equal. lia.
  - inversion F as [|? ? (K & m & M) F']; subst. rewrite K, M. unfold of_form_b at 1. rewrite M. cbn [assert_ bind]. rewrite (IH _ F'). destruct (same_value m v); cbn [andb]; [|reflexivity]. destruct (existsb _ puks); cbn [length]; f_equal; lia.
Qed.
Lemma of_form_iff v puks d : plain v -> (forall n, pd_name d = Ok n -> plain n) -> (of_form_b v puks d = true <-> of_form v puks d).
Proof.
  intros PV PN. unfold of_form_b, of_form. destruct (pd_name d) as [n|e].
  - rewrite andb_true_iff, existsb_exists. rewrite same_value_plain by auto. split.
    + intros (S & x & I & E). apply Nat.eqb_eq in E. subst. now exists n.
    + intros (n' & H & S & I). injection H as <-. split; [assumption|]. exists (pd_puk d). split; [assumption|apply Nat.eqb_refl].
  - split; [discriminate|]. intros (n & H & _). discriminate.
Qed.

(* escaping of asterisks *)
Definition escape (s : text) : text := flat_map (fun c => if (c =? 42)%N then [92; 42]%N else [c]) s.
Lemma escape_head s r : escape s <> 42%N :: r.
Proof. destruct s as [|c s]; cbn; [discriminate|]. destruct (c =? 42)%N eqn:E; cbn; [discriminate|]. intros H. injection H as -> _. discriminate. Qed.
Lemma unescape s : str_replace (tx "\*") (tx "*") (escape s) = s.
Proof.
  assert (P1 : tx "\*" = [92; 42]%N) by reflexivity. assert (P2 : tx "*" = [42]%N) by reflexivity. rewrite P1, P2. unfold str_replace.
  induction s as [|c s IH]; [reflexivity|]. unfold escape. cbn [flat_map]. fold (escape s). destruct (c =? 42)%N eqn:E.
  - apply N.eqb_eq in E. subst c. cbn [app replace_go is_prefix N.eqb andb length Nat.sub]. cbn. f_equal. exact IH.
  - cbn [app replace_go]. destruct (is_prefix [92; 42]%N (c :: escape s)) eqn:Q.
    + cbn [is_prefix] in Q. apply andb_true_iff in Q. destruct Q as (_ & Q). destruct (escape s) as [|d r] eqn:R; [discriminate|]. rewrite andb_true_iff in Q. destruct Q as (Q & _). apply N.eqb_eq in Q. subst d. now apply escape_head in R.
    + f_equal. exact IH.
Qed.
Lemma slice_mid {A} (a m b : list A) : slice (length a) (length (a ++ m ++ b) - length b) (a ++ m ++ b) = m.
Proof.
  unfold slice. rewrite skipn_app, skipn_all, Nat.sub_diag. cbn [app skipn]. rewrite !app_length. replace (length a + (length m + length b) - length b - length a) with (length m) by lia.
  rewrite firstn_app, firstn_all, Nat.sub_diag. cbn [firstn]. apply app_nil_r.
Qed.

Lemma drop_underscores t : str_replace (tx "_") [] t = filter (fun c => negb (c =? 95)%N) t.
Proof.
  assert (P : tx "_" = [95]%N) by reflexivity. rewrite P. unfold str_replace. induction t as [|c t IH]; [reflexivity|].
  cbn [replace_go is_prefix filter length Nat.sub]. rewrite andb_true_r, N.eqb_sym. destruct (c =? 95)%N; cbn [negb app]; [exact IH|now rewrite IH].
Qed.

Lemma repeat_nodup (t : text) : length (nodup N.eq_dec t) < length t <-> ~ NoDup t.
Proof.
  split.
  - intros L ND. rewrite nodup_fixed_point in L by assumption. lia.
  - intros ND. induction t as [|c t IH]; [destruct ND; constructor|]. cbn [nodup]. destruct (in_dec N.eq_dec c t) as [I|I].
    + cbn [length]. assert (length (nodup N.eq_dec t) <= length t); [|lia]. clear. induction t as [|d t IH]; cbn [nodup]; [lia|]. destruct (in_dec N.eq_dec d t); cbn [length]; lia.
    + cbn [length]. assert (~ NoDup t) by (intros K; apply ND; now constructor). specialize (IH H). lia.
Qed.

Lemma all_some_ok {A} (l : list (option A)) r : all_some l = Ok r <-> l = map Some r.
Proof.
  revert r. induction l as [|[a|] l IH]; intros r; cbn [all_some].
  - split; [intros H; injection H as <-; reflexivity|]. destruct r; [reflexivity|discriminate].
  - destruct (all_some l) as [r'|] eqn:E; cbn [bind].
    + rewrite (proj1 (IH r') eq_refl). split; [intros H; injection H as <-; reflexivity|]. destruct r as [|b r]; [discriminate|]. cbn. intros H. injection H as -> H. assert (M : map Some r' = map Some r -> r' = r) by (clear; revert r; induction r' as [|x r' IH]; intros [|y r] H; try discriminate; [reflexivity|cbn in H; injection H as -> H; f_equal; auto]). now rewrite (M H).
    + split; [discriminate|]. destruct r as [|b r]; [discriminate|]. cbn. intros H. injection H as -> H. specialize (IH r). enough (@Err (list A) e = Ok r) by discriminate. now apply IH.
  - split; [discriminate|]. destruct r; discriminate.
Qed.
