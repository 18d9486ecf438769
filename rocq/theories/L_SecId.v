(* Replacing what matches, left to right: the statement and lemmas about the model (M_SecId.v). *)
From Coq Require Import Ascii String Lia List.
From Verif Require Import M_Base L_Base M_HTML M_Shared M_Indent M_Defs M_Refs M_Style L_StyleDesc M_PropPath L_PropPath Properties_PropPath M_PGrammar Properties_PGrammar M_Steps Properties_Steps M_Validate L_Entities M_SecId.
Open Scope list_scope.
Open Scope nat_scope.
Notation length := List.length.

(* M b m r x: with b before it and r after it, m is to be replaced by x *)
Definition mrel := text -> text -> text -> text -> Prop.
Inductive rewritten (M : mrel) : text -> text -> text -> Prop :=
| rw_end b : rewritten M b [] []
| rw_hit b m r x y : m <> [] -> M b m r x -> rewritten M (b ++ m) r y -> rewritten M b (m ++ r) (x ++ y)
| rw_miss b c r y : (forall m r' x, m <> [] -> c :: r = m ++ r' -> ~ M b m r' x) -> rewritten M (b ++ [c]) r y -> rewritten M b (c :: r) (c :: y).
(* s with every match replaced, from the left and without overlaps *)
Definition replaced (M : mrel) (s s' : text) : Prop := rewritten M [] s s'.

(* what a function that looks for matches must do *)
Definition finds (f : text -> text -> option (text * nat)) (M : mrel) : Prop :=
  forall b t x n, f (rev b) t = Some (x, n) <-> exists m r, t = m ++ r /\ m <> [] /\ n = length m /\ M b m r x.

Lemma sub_skip f k : forall rb r, sub_go f rb (length k) (k ++ r) = sub_go f (rev k ++ rb) 0 r.
Proof.
  induction k as [|c k IH]; intros rb r; [reflexivity|]. cbn [length app sub_go]. rewrite IH. cbn [rev]. now rewrite <- app_assoc.
Qed.
Lemma sub_step f M b t : finds f M ->
  match t with
  | [] => True
  | c :: t' => match f (rev b) t with
               | Some (x, n) => exists m r, t = m ++ r /\ m <> [] /\ M b m r x /\ sub_go f (rev b) 0 t = x ++ sub_go f (rev (b ++ m)) 0 r
               | None => (forall m r x, m <> [] -> t = m ++ r -> ~ M b m r x) /\ sub_go f (rev b) 0 t = c :: sub_go f (rev (b ++ [c])) 0 t'
               end
  end.
Proof.
  intros F. destruct t as [|c t']; [exact I|]. destruct (f (rev b) (c :: t')) as [(x, n)|] eqn:E.
  - assert (X := proj1 (F b (c :: t') x n) E). destruct X as (m & r & T & NE & L & H). exists m, r. repeat split; auto. cbn [sub_go]. rewrite E. f_equal.
    destruct m as [|d m]; [contradiction|]. cbn [app] in T. injection T as <- ->. subst n. replace (length (c :: m) - 1) with (length m) by (cbn [length]; lia). rewrite sub_skip, rev_app_distr. cbn [rev]. now rewrite <- app_assoc.
  - split.
    + intros m r x NE T H. assert (X := proj2 (F b (c :: t') x (length m)) (ex_intro _ m (ex_intro _ r (conj T (conj NE (conj eq_refl H)))))). congruence.
    + cbn [sub_go]. rewrite E, rev_app_distr. reflexivity.
Qed.
Lemma sub_ok f M : finds f M -> forall k b t, length t <= k -> rewritten M b t (sub_go f (rev b) 0 t).
Proof.
  intros F. induction k as [|k IH]; intros b t L.
  - destruct t; [constructor|cbn in L; lia].
  - assert (X := sub_step f M b t F). destruct t as [|c t']; [constructor|]. cbn [length] in L. destruct (f (rev b) (c :: t')) as [(x, n)|].
    + destruct X as (m & r & T & NE & H & ->). rewrite T. constructor; [exact NE|exact H|]. apply IH. destruct m as [|d m]; [contradiction|]. apply (f_equal (@List.length N)) in T. rewrite app_length in T. cbn [length] in T. lia.
    + destruct X as (NM & ->). constructor; [exact NM|]. apply IH. lia.
Qed.
Lemma sub_only f M : finds f M -> forall b t y, rewritten M b t y -> y = sub_go f (rev b) 0 t.
Proof.
  intros F b t y H. induction H as [b|b m r x y NE H R IH|b c r y NM R IH]; [reflexivity| |].
  - assert (X := sub_step f M b (m ++ r) F). destruct m as [|c m]; [contradiction|]. cbn [app] in *. assert (Q := proj2 (F b (c :: m ++ r) x (length (c :: m))) (ex_intro _ (c :: m) (ex_intro _ r (conj eq_refl (conj NE (conj eq_refl H)))))).
    cbn [sub_go]. rewrite Q. f_equal. replace (length (c :: m) - 1) with (length m) by (cbn [length]; lia). rewrite sub_skip, IH, rev_app_distr. cbn [rev]. now rewrite <- app_assoc.
  - assert (X := sub_step f M b (c :: r) F). cbn beta iota in X. destruct (f (rev b) (c :: r)) as [(x, n)|].
    + exfalso. destruct X as (m & r' & T & NE & H & _). exact (NM _ _ _ NE T H).
    + destruct X as (_ & ->). now rewrite IH.
Qed.
Lemma replaced_iff f M : finds f M -> forall s s', replaced M s s' <-> s' = re_sub f s.
Proof.
  intros F s s'. unfold replaced, re_sub. split; [apply (sub_only f M F [])|]. intros ->. apply (sub_ok f M F (length s) []). lia.
Qed.

(* ------------------------------------------------------------------ *)
(* str.replace *)
Definition literal (p o : text) : mrel := fun b m r x => m = p /\ x = o.
Lemma literal_finds p o : p <> [] -> finds (rules_at (plain [ILit p o])) (literal p o).
Proof.
  intros NE b t x n. unfold plain, rules_at, rule_at. cbn [r_before r_body r_after anywhere items_at]. unfold literal. destruct (eat p t) as [r|] eqn:E.
  - apply eat_inv in E. subst t. rewrite app_nil_r, Nat.add_0_r. cbn [anywhere]. split.
    + intros [= <- <-]. exists p, r. auto.
    + intros (m & r' & T & _ & -> & -> & ->). reflexivity.
  - split; [discriminate|]. intros (m & r & -> & _ & _ & -> & _). rewrite eat_ok in E. discriminate.
Qed.
Lemma str_replace_sub p o : p <> [] -> forall t, str_replace p o t = re_sub (rules_at (plain [ILit p o])) t.
Proof.
  intros NE t. unfold str_replace, re_sub. generalize (@nil N) as rb. generalize 0 as k. induction t as [|c t IH]; intros k rb; [reflexivity|]. cbn [replace_go sub_go]. destruct k as [|k]; [|apply IH].
  assert (V : rules_at (plain [ILit p o]) rb (c :: t) = if is_prefix p (c :: t) then Some (o, length p) else None).
  { unfold plain, rules_at, rule_at. cbn [r_before r_body r_after anywhere items_at]. unfold eat. destruct (is_prefix p (c :: t)); [|reflexivity]. rewrite app_nil_r, Nat.add_0_r. reflexivity. }
  rewrite V. destruct (is_prefix p (c :: t)); f_equal; apply IH.
Qed.
Definition swapped (p o s s' : text) : Prop := replaced (literal p o) s s'.
Lemma swapped_iff p o : p <> [] -> forall s s', swapped p o s s' <-> s' = str_replace p o s.
Proof. intros NE s s'. rewrite (str_replace_sub p o NE). apply replaced_iff. now apply literal_finds. Qed.

(* ------------------------------------------------------------------ *)
(* patterns of items *)
Inductive fits : list item -> text -> text -> text -> Prop :=
| f_nil r : fits [] [] r []
| f_lit p o l m r x : fits l m r x -> fits (ILit p o :: l) (p ++ m) r (o ++ x)
| f_one (k : N -> bool) f c l m r x : k c = true -> fits l m r x -> fits (IOne k f :: l) (c :: m) r (f [c] ++ x)
| f_run (k : N -> bool) f w l m r x : w <> [] -> (forall c, In c w -> k c = true) -> head_not k (m ++ r) -> fits l m r x -> fits (IRun k f :: l) (w ++ m) r (f w ++ x).
Lemma take_split k t : forall a r, take k t = (a, r) <-> t = a ++ r /\ (forall c, In c a -> k c = true) /\ head_not k r.
Proof.
  induction t as [|c t IH]; intros a r; cbn [take].
  - split; [intros [= <- <-]; repeat split; intros c []|]. intros (E & _). symmetry in E. apply app_eq_nil in E as (-> & ->). reflexivity.
  - destruct (k c) eqn:K.
    + destruct (take k t) as (a', r') eqn:T. split.
      * intros [= <- <-]. destruct (proj1 (IH a' r') eq_refl) as (-> & A & H). repeat split; [|exact H]. intros d [<-|I]; auto.
      * intros (E & A & H). destruct a as [|d a]; cbn [app] in E; [subst r; cbn in H; congruence|]. injection E as <- E. assert (X : (a', r') = (a, r)) by (apply IH; repeat split; [exact E|intros d I; apply A; now right|exact H]). injection X as -> ->. reflexivity.
    + split.
      * intros [= <- <-]. repeat split; [intros d []|exact K].
      * intros (E & A & H). destruct a as [|d a]; cbn [app] in E; [now subst r|]. injection E as <- E. rewrite (A c (or_introl eq_refl)) in K. discriminate.
Qed.
Lemma items_iff l : forall t x n, items_at l t = Some (x, n) <-> exists m r, t = m ++ r /\ n = length m /\ fits l m r x.
Proof.
  induction l as [|[p o|k f|k f] l IH]; intros t x n; cbn [items_at].
  - split; [intros [= <- <-]; exists [], t; repeat split; constructor|]. intros (m & r & -> & -> & H). inversion H; subst. reflexivity.
  - destruct (eat p t) as [u|] eqn:E.
    + apply eat_inv in E. subst t. destruct (items_at l u) as [(y, j)|] eqn:Q.
      * apply IH in Q as (m & r & -> & -> & H). split.
        -- intros [= <- <-]. exists (p ++ m), r. repeat split; [now rewrite app_assoc|now rewrite app_length|now constructor].
        -- intros (m' & r' & T & -> & H'). inversion H' as [|p' o' l' m2 r2 x2 H2| |]; subst. rewrite <- app_assoc in T. apply app_inv_head in T. assert (Y := proj2 (IH (m ++ r) x2 (length m2)) (ex_intro _ m2 (ex_intro _ r' (conj T (conj eq_refl H2))))). assert (Z := proj2 (IH (m ++ r) y (length m)) (ex_intro _ m (ex_intro _ r (conj eq_refl (conj eq_refl H))))). rewrite Y in Z. injection Z as -> Z. rewrite app_length, Z. reflexivity.
      * split; [discriminate|]. intros (m' & r' & T & -> & H'). exfalso. inversion H' as [|p' o' l' m2 r2 x2 H2| |]; subst. rewrite <- app_assoc in T. apply app_inv_head in T. assert (Y := proj2 (IH u x2 (length m2)) (ex_intro _ m2 (ex_intro _ r' (conj T (conj eq_refl H2))))). congruence.
    + split; [discriminate|]. intros (m & r & -> & -> & H). exfalso. inversion H; subst. rewrite <- app_assoc, eat_ok in E. discriminate.
  - destruct t as [|c t]; [split; [discriminate|]; intros (m & r & T & _ & H); exfalso; inversion H; subst; discriminate|]. destruct (k c) eqn:K.
    + destruct (items_at l t) as [(y, j)|] eqn:Q.
      * split.
        -- intros [= <- <-]. apply IH in Q as (m & r & -> & -> & H). exists (c :: m), r. repeat split. now constructor.
        -- intros (m' & r' & T & -> & H'). inversion H' as [| |k' f' c' l' m2 r2 x2 K2 H2|]; subst. cbn [app] in T. injection T as <- T. assert (Y := proj2 (IH t x2 (length m2)) (ex_intro _ m2 (ex_intro _ r' (conj T (conj eq_refl H2))))). rewrite Q in Y. injection Y as -> ->. reflexivity.
      * split; [discriminate|]. intros (m' & r' & T & -> & H'). exfalso. inversion H' as [| |k' f' c' l' m2 r2 x2 K2 H2|]; subst. cbn [app] in T. injection T as <- T. assert (Y := proj2 (IH t x2 (length m2)) (ex_intro _ m2 (ex_intro _ r' (conj T (conj eq_refl H2))))). congruence.
    + split; [discriminate|]. intros (m' & r' & T & -> & H'). exfalso. inversion H' as [| |k' f' c' l' m2 r2 x2 K2 H2|]; subst. cbn [app] in T. injection T as <- T. congruence.
  - destruct (take k t) as (w, u) eqn:T. assert (T' := proj1 (take_split k t w u) T). destruct T' as (E & A & HN).
    assert (U : forall m r x, t = m ++ r -> fits (IRun k f :: l) m r x -> exists m2 x2, m = w ++ m2 /\ w <> [] /\ u = m2 ++ r /\ x = f w ++ x2 /\ fits l m2 r x2).
    { intros m r x' T2 H. inversion H as [| | |k' f' w' l' m2 r2 x2 NE A2 H2 H3]; subst. assert (X : take k (w ++ u) = (w', m2 ++ r)) by (apply take_split; split; [rewrite T2; symmetry; apply app_assoc|auto]). rewrite T in X. injection X as -> ->. exists m2, x2. auto. }
    destruct w as [|c w].
    + split; [discriminate|]. intros (m & r & T2 & -> & H). destruct (U m r x T2 H) as (m2 & x2 & _ & NE & _). contradiction.
    + destruct (items_at l u) as [(y, j)|] eqn:Q.
      * split.
        -- intros [= <- <-]. apply IH in Q as (m & r & -> & -> & H). exists ((c :: w) ++ m), r. split; [now rewrite E, app_assoc|]. split; [now rewrite app_length|]. constructor; [discriminate|exact A|exact HN|exact H].
        -- intros (m & r & T2 & -> & H). destruct (U m r x T2 H) as (m2 & x2 & -> & _ & E2 & -> & H2). assert (Y := proj2 (IH u x2 (length m2)) (ex_intro _ m2 (ex_intro _ r (conj E2 (conj eq_refl H2))))). rewrite Q in Y. injection Y as -> ->. rewrite app_length. reflexivity.
      * split; [discriminate|]. intros (m & r & T2 & -> & H). exfalso. destruct (U m r x T2 H) as (m2 & x2 & -> & _ & E2 & -> & H2). assert (Y := proj2 (IH u x2 (length m2)) (ex_intro _ m2 (ex_intro _ r (conj E2 (conj eq_refl H2))))). congruence.
Qed.
Definition of_rule (ru : rule) : mrel := fun b m r x => fits (r_body ru) m r x /\ r_before ru (rev b) = true /\ r_after ru r = true.
Lemma rule_iff ru b t x n : rule_at ru (rev b) t = Some (x, n) <-> exists m r, t = m ++ r /\ n = length m /\ of_rule ru b m r x.
Proof.
  unfold rule_at, of_rule. destruct (r_before ru (rev b)).
  - destruct (items_at (r_body ru) t) as [(y, j)|] eqn:Q.
    + assert (Q' := proj1 (items_iff _ _ _ _) Q). destruct Q' as (m & r & -> & -> & H). rewrite skipn_app, skipn_all, Nat.sub_diag. cbn [app skipn]. destruct (r_after ru r) eqn:R.
      * split; [intros [= <- <-]; exists m, r; auto|]. intros (m' & r' & T & -> & H' & _). assert (Y := proj2 (items_iff _ (m ++ r) x (length m')) (ex_intro _ m' (ex_intro _ r' (conj T (conj eq_refl H'))))). rewrite Q in Y. exact Y.
      * split; [discriminate|]. intros (m' & r' & T & -> & H' & _ & R'). assert (Y := proj2 (items_iff _ (m ++ r) x (length m')) (ex_intro _ m' (ex_intro _ r' (conj T (conj eq_refl H'))))). rewrite Q in Y. injection Y as <- Y.
        assert (Z : r = r'). { apply (f_equal (skipn (length m))) in T. rewrite Y in T at 2. rewrite !skipn_app, !skipn_all, !Nat.sub_diag in T. exact T. } subst r'. congruence.
    + split; [discriminate|]. intros (m' & r' & T & -> & H' & _). assert (Y := proj2 (items_iff _ t x (length m')) (ex_intro _ m' (ex_intro _ r' (conj T (conj eq_refl H'))))). congruence.
  - split; [discriminate|]. intros (m & r & _ & _ & _ & F & _). discriminate.
Qed.
(* one pattern *)
Lemma rule_finds ru (M : mrel) : (forall b m r x, of_rule ru b m r x <-> m <> [] /\ M b m r x) -> finds (rules_at [ru]) M.
Proof.
  intros H b t x n. cbn [rules_at]. replace (match rule_at ru (rev b) t with Some r => Some r | None => None end) with (rule_at ru (rev b) t) by now destruct (rule_at ru (rev b) t).
  rewrite rule_iff. split; intros (m & r & A); exists m, r; rewrite H in *; tauto.
Qed.
(* two, which never match at the same place *)
Lemma rules_finds ru ru' (M : mrel) : (forall b m r x, of_rule ru b m r x \/ of_rule ru' b m r x <-> m <> [] /\ M b m r x) ->
  (forall b m r x m' r' x', of_rule ru b m r x -> of_rule ru' b m' r' x' -> m ++ r <> m' ++ r') -> finds (rules_at [ru; ru']) M.
Proof.
  intros H D b t x n. cbn [rules_at].
  transitivity (rule_at ru (rev b) t = Some (x, n) \/ rule_at ru' (rev b) t = Some (x, n)).
  - destruct (rule_at ru (rev b) t) as [(y, j)|] eqn:A.
    + split; [now left|]. intros [E|E]; [exact E|]. exfalso. apply rule_iff in A as (m & r & T & _ & A). apply rule_iff in E as (m' & r' & T' & _ & E). apply (D _ _ _ _ _ _ _ A E). congruence.
    + destruct (rule_at ru' (rev b) t); (split; [intros E; right; exact E|intros [E|E]; [discriminate|exact E]]).
  - rewrite !rule_iff. split.
    + intros [(m & r & T & L & A)|(m & r & T & L & A)]; exists m, r; (split; [exact T|]); [assert (Y := proj1 (H b m r x) (or_introl A))|assert (Y := proj1 (H b m r x) (or_intror A))]; tauto.
    + intros (m & r & T & NE & L & A). destruct (proj2 (H b m r x) (conj NE A)); [left|right]; exists m, r; auto.
Qed.

(* ------------------------------------------------------------------ *)
(* the last place of something *)
Lemma last_split_some p t : p <> [] -> forall a b, last_split p t = Some (a, b) -> t = a ++ p ++ b.
Proof.
  intros NE. induction t as [|c t IH]; intros a b; cbn [last_split]; [discriminate|]. destruct (last_split p t) as [(a', b')|].
  - intros [= <- <-]. cbn [app]. f_equal. now apply IH.
  - destruct (eat p (c :: t)) as [u|] eqn:E; [|discriminate]. intros [= <- <-]. now apply eat_inv in E.
Qed.
Lemma last_split_none p t : last_split p t = None -> p <> [] -> ~ contains p t.
Proof.
  intros E NE. induction t as [|c t IH]; cbn [last_split] in E.
  - intros (a & b & X). symmetry in X. apply app_eq_nil in X as (_ & X). apply app_eq_nil in X as (X & _). contradiction.
  - destruct (last_split p t) as [(a', b')|]; [discriminate|]. destruct (eat p (c :: t)) as [u|] eqn:Q; [discriminate|]. intros ([|d a] & b & X); cbn [app] in X.
    + rewrite X, eat_ok in Q. discriminate.
    + apply IH; [reflexivity|]. exists a, b. congruence.
Qed.
