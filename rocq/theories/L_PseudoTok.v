(* Specification and lemmas for the pseudocode tokenizer (C18). *)
From Verif Require Import M_Base L_Base M_PseudoTok.

(* ---------------- specification ---------------- *)

(* the character at p is c *)
Definition at_char (s : text) (p : nat) (c : N) : Prop := nth_error s p = Some c.
(* a newline at p followed by exactly n spaces within the first [stop] characters *)
Definition newline_indent (s : text) (stop p n : nat) : Prop :=
  at_char s p 10%N /\ p + 1 + n <= stop /\ (forall i, i < n -> at_char s (p + 1 + i) 32%N) /\
  (p + 1 + n = stop \/ ~ at_char s (p + 1 + n) 32%N).
(* the other token patterns match non-empty text within bounds *)
Definition other_ok (stop : nat) (other : nat -> option (nat * nat)) : Prop :=
  forall p k e, other p = Some (k, e) -> p < e <= stop.

(* how text divides into tokens when indentation tokens are left out *)
Inductive lexed (s : text) (stop : nat) (other : nat -> option (nat * nat)) : nat -> list tok -> Prop :=
| lexed_eos p : p = stop \/ (S p = stop /\ at_char s p 10%N) -> lexed s stop other p [(KEos, p, p)]
| lexed_nlai p n l : S p < stop -> newline_indent s stop p n -> lexed s stop other (p + 1 + n) l ->
    lexed s stop other p ((KNlai, p, p + 1 + n) :: l)
| lexed_other p k e l : p < stop -> ~ at_char s p 10%N -> other p = Some (k, e) -> lexed s stop other e l ->
    lexed s stop other p ((KOther k, p, e) :: l).

Definition kind_of (t : tok) : kind := fst (fst t).
Definition is_dent (t : tok) : bool := match kind_of t with KIndent | KOutdent => true | _ => false end.
Definition count (k : kind) (l : list tok) : Z :=
  Z.of_nat (length (filter (fun t => match kind_of t, k with KIndent, KIndent => true | KOutdent, KOutdent => true | _, _ => false end) l)).
(* the current depth after the tokens l *)
Definition depth (l : list tok) : Z := (count KIndent l - count KOutdent l)%Z.
(* the indentations of the lines *)
Definition indents (l : list tok) : list nat :=
  flat_map (fun t => match t with (KNlai, p, e) => [e - p - 1] | _ => [] end) l.
Fixpoint even_changes (prev : nat) (l : list nat) : Prop :=
  match l with
  | [] => True
  | x :: l' => Nat.Even (prev + x) /\ even_changes x l'
  end.

(* ---------------- lemmas ---------------- *)

Lemma char_is_at s c p : char_is s c p = true <-> at_char s p c.
Proof.
  unfold char_is, at_char. destruct (nth_error s p) as [x|]; [|split; congruence].
  rewrite N.eqb_eq. split; congruence.
Qed.

Lemma skip_spaces_spec s : forall n p, exists m, skip_spaces s n p = p + m /\ m <= n /\
  (forall i, i < m -> at_char s (p + i) 32%N) /\ (m = n \/ ~ at_char s (p + m) 32%N).
Proof.
  induction n as [|n IH]; intros p; cbn [skip_spaces].
  - exists 0. split; [lia|]. split; [lia|]. split; [intros; lia|now left].
  - destruct (char_is s 32 p) eqn:E.
    + apply char_is_at in E. destruct (IH (S p)) as (m & H1 & H2 & H3 & H4). exists (S m).
      split; [rewrite H1; lia|]. split; [lia|]. split.
      * intros [|i] Hi; [now rewrite Nat.add_0_r|]. replace (p + S i) with (S p + i) by lia. apply H3. lia.
      * destruct H4 as [->|H4]; [now left|right]. replace (p + S m) with (S p + m) by lia. exact H4.
    + exists 0. rewrite Nat.add_0_r. split; [reflexivity|]. split; [lia|]. split; [intros; lia|].
      right. intros H. apply char_is_at in H. congruence.
Qed.

Section Tok.
  Variable s : text.
  Variable stop : nat.
  Variable other : nat -> option (nat * nat).

  Lemma match_eos p e : match_at s stop other p = Some (KEos, e) ->
    e = p /\ (p = stop \/ (S p = stop /\ at_char s p 10%N)).
  Proof.
    unfold match_at. destruct ((p =? stop) || ((S p =? stop) && char_is s 10 p)) eqn:E.
    - intros [= <-]. split; [reflexivity|]. apply orb_true_iff in E as [E|E].
      + apply Nat.eqb_eq in E. now left.
      + apply andb_true_iff in E as [E1 E2]. apply Nat.eqb_eq in E1. apply char_is_at in E2. now right.
    - destruct ((p <? stop) && char_is s 10 p); [discriminate|]. destruct (other p) as [[k e']|]; discriminate.
  Qed.
  Lemma match_nlai p e : match_at s stop other p = Some (KNlai, e) ->
    exists n, e = p + 1 + n /\ S p < stop /\ newline_indent s stop p n.
  Proof.
    unfold match_at. destruct ((p =? stop) || ((S p =? stop) && char_is s 10 p)) eqn:E; [discriminate|].
    destruct ((p <? stop) && char_is s 10 p) eqn:E2; [|destruct (other p) as [[k e']|]; discriminate].
    intros [= <-]. apply andb_true_iff in E2 as [E2 E3]. apply Nat.ltb_lt in E2.
    apply orb_false_iff in E as [_ E]. rewrite E3, andb_true_r in E. apply Nat.eqb_neq in E.
    destruct (skip_spaces_spec s (stop - S p) (S p)) as (n & H1 & H2 & H3 & H4). exists n.
    rewrite H1. split; [lia|]. split; [lia|]. apply char_is_at in E3. split; [exact E3|]. split; [lia|]. split.
    - intros i Hi. replace (p + 1 + i) with (S p + i) by lia. auto.
    - destruct H4 as [H4|H4]; [left; lia|right]. now replace (p + 1 + n) with (S p + n) by lia.
  Qed.
  Lemma match_other p k e : match_at s stop other p = Some (KOther k, e) ->
    other p = Some (k, e) /\ (p < stop -> ~ at_char s p 10%N) /\ p <> stop.
  Proof.
    unfold match_at. destruct ((p =? stop) || ((S p =? stop) && char_is s 10 p)) eqn:E; [discriminate|].
    destruct ((p <? stop) && char_is s 10 p) eqn:E2; [discriminate|].
    destruct (other p) as [[k' e']|] eqn:E3; [|discriminate]. intros [= -> ->]. split; [reflexivity|]. split.
    - intros Hlt Hc. apply char_is_at in Hc. apply Nat.ltb_lt in Hlt. rewrite Hlt, Hc in E2. discriminate.
    - intros ->. rewrite Nat.eqb_refl in E. discriminate.
  Qed.

  Lemma match_at_eos p : p = stop \/ (S p = stop /\ at_char s p 10%N) -> match_at s stop other p = Some (KEos, p).
  Proof.
    unfold match_at. intros [->|[E H]].
    - now rewrite Nat.eqb_refl.
    - apply Nat.eqb_eq in E. apply char_is_at in H. rewrite E, H. now rewrite orb_true_r.
  Qed.
  Lemma newline_unique p n n' : newline_indent s stop p n -> newline_indent s stop p n' -> n = n'.
  Proof.
    intros (_ & A1 & A2 & A3) (_ & B1 & B2 & B3).
    destruct (Nat.lt_trichotomy n n') as [H|[H|H]]; [|exact H|].
    - exfalso. destruct A3 as [A3|A3]; [lia|]. apply A3. now apply B2.
    - exfalso. destruct B3 as [B3|B3]; [lia|]. apply B3. now apply A2.
  Qed.
  Lemma match_at_nlai p n : S p < stop -> newline_indent s stop p n -> match_at s stop other p = Some (KNlai, p + 1 + n).
  Proof.
    intros Hp Hn. pose proof Hn as (Hc & _). apply char_is_at in Hc.
    destruct (match_at s stop other p) as [[[| | | |k] e]|] eqn:E.
    - apply match_eos in E as [_ [E|[E _]]]; lia.
    - apply match_nlai in E as (n' & -> & _ & E). now rewrite (newline_unique _ _ _ Hn E).
    - unfold match_at in E. destruct (_ || _); [discriminate|]. destruct (_ && _); [discriminate|]. destruct (other p) as [[]|]; discriminate.
    - unfold match_at in E. destruct (_ || _); [discriminate|]. destruct (_ && _); [discriminate|]. destruct (other p) as [[]|]; discriminate.
    - apply match_other in E as (_ & E & _). exfalso. apply E; [lia|]. now apply char_is_at.
    - unfold match_at in E. destruct (_ || _); [discriminate|]. assert ((p <? stop) = true) as Hlt by (apply Nat.ltb_lt; lia).
      rewrite Hlt, Hc in E. discriminate.
  Qed.
  Lemma match_at_other p k e : p < stop -> ~ at_char s p 10%N -> other p = Some (k, e) -> match_at s stop other p = Some (KOther k, e).
  Proof.
    intros Hp Hc Ho. unfold match_at. assert (char_is s 10 p = false) as -> by (destruct (char_is s 10 p) eqn:E; [|reflexivity]; apply char_is_at in E; now destruct Hc).
    assert ((p =? stop) = false) as -> by (apply Nat.eqb_neq; lia). rewrite !andb_false_r. cbn. now rewrite Ho.
  Qed.

  Lemma count_app k a b : count k (a ++ b) = (count k a + count k b)%Z.
  Proof. unfold count. rewrite filter_app, app_length. lia. Qed.
  Lemma depth_app a b : depth (a ++ b) = (depth a + depth b)%Z.
  Proof. unfold depth. rewrite !count_app. lia. Qed.
  Lemma depth_repeat_indent p n : depth (repeat (KIndent, p, p) n) = Z.of_nat n.
  Proof.
    induction n as [|n IH]; [reflexivity|]. change (repeat (KIndent, p, p) (S n)) with ([(KIndent, p, p)] ++ repeat (KIndent, p, p) n).
    rewrite depth_app, IH. change (depth [(KIndent, p, p)]) with 1%Z. lia.
  Qed.
  Lemma depth_repeat_outdent p n : depth (repeat (KOutdent, p, p) n) = (- Z.of_nat n)%Z.
  Proof.
    induction n as [|n IH]; [reflexivity|]. change (repeat (KOutdent, p, p) (S n)) with ([(KOutdent, p, p)] ++ repeat (KOutdent, p, p) n).
    rewrite depth_app, IH. change (depth [(KOutdent, p, p)]) with (-1)%Z. lia.
  Qed.
  Lemma depth_nodent t : is_dent t = false -> depth [t] = 0%Z.
  Proof. destruct t as [[[] p] e]; cbn; intros; try discriminate; reflexivity. Qed.

  Lemma dents_ok prev p n ds this : dents prev p (p + 1 + n) = Ok (ds, this) ->
    this = Z.of_nat n /\ (prev + 2 * depth ds = this)%Z /\
    exists k m, ds = repeat (k, p, p) m /\ (m <> 0 -> k = KIndent \/ k = KOutdent) /\
      (k = KIndent \/ m = 0 -> (prev <= this)%Z) /\ (k = KOutdent \/ m = 0 -> (this <= prev)%Z).
  Proof.
    unfold dents. replace (Z.of_nat (p + 1 + n - p) - 1)%Z with (Z.of_nat n) by lia.
    destruct ((Z.of_nat n - prev) mod 2 =? 0)%Z eqn:E; cbn [assert_ bind]; [|discriminate]. intros [= <- <-].
    apply Z.eqb_eq in E. split; [reflexivity|].
    assert (Hd : (Z.of_nat n - prev = 2 * ((Z.of_nat n - prev) / 2))%Z) by (pose proof (Z.div_mod (Z.of_nat n - prev) 2); lia).
    set (d := ((Z.of_nat n - prev) / 2)%Z) in *. split.
    - destruct (Z.ltb_spec 0 d); [rewrite depth_repeat_indent|rewrite depth_repeat_outdent]; lia.
    - eexists _, _. split; [reflexivity|]. destruct (Z.ltb_spec 0 d); (split; [auto|]); split; intros [Hk|Hm]; try discriminate; lia.
  Qed.
  Lemma dents_even prev p n : Nat.Even (prev + n) -> exists ds, dents (Z.of_nat prev) p (p + 1 + n) = Ok (ds, Z.of_nat n).
  Proof.
    intros [m Hm]. unfold dents. replace (Z.of_nat (p + 1 + n - p) - 1)%Z with (Z.of_nat n) by lia.
    replace (Z.of_nat n - Z.of_nat prev)%Z with ((Z.of_nat n - Z.of_nat m) * 2)%Z by lia. rewrite Z.mod_mul by lia. cbn. eauto.
  Qed.
  Lemma dents_odd prev p n : ~ Nat.Even (prev + n) -> dents (Z.of_nat prev) p (p + 1 + n) = Err AssertionError.
  Proof.
    intros Hm. unfold dents. replace (Z.of_nat (p + 1 + n - p) - 1)%Z with (Z.of_nat n) by lia.
    destruct ((Z.of_nat n - Z.of_nat prev) mod 2 =? 0)%Z eqn:E; [|reflexivity]. exfalso. apply Hm. apply Z.eqb_eq in E.
    apply Z.mod_divide in E as [d Hd]; [|lia]. exists (Z.to_nat (Z.of_nat prev + d)). lia.
  Qed.

  Definition groups_ok (toks : list tok) : Prop :=
    forall pre k p e post, toks = pre ++ (k, p, e) :: post -> k = KIndent \/ k = KOutdent ->
      e = p /\ exists t post', post = t :: post' /\ (t = (k, p, p) \/ exists e', t = (KNlai, p, e')).

  Lemma filter_repeat_dent k p m : (m <> 0 -> k = KIndent \/ k = KOutdent) -> filter (fun t => negb (is_dent t)) (repeat (k, p, p) m) = [].
  Proof. intros H. destruct m as [|m]; [reflexivity|]. destruct H as [->| ->]; [lia| |]; induction (S m) as [|x IH]; cbn; auto. Qed.

  Lemma tokenize_loop_ok : other_ok stop other -> forall fuel first prev p toks, p <= stop ->
    tokenize_loop s stop other fuel first prev p = Ok toks ->
    lexed s stop other p (filter (fun t => negb (is_dent t)) toks) /\
    groups_ok toks /\
    (forall pre q e post, toks = pre ++ (KNlai, q, e) :: post -> (prev + 2 * depth pre = Z.of_nat (e - q - 1))%Z) /\
    (prev + 2 * depth toks = last (map Z.of_nat (indents toks)) prev)%Z.
  Proof.
    intros Hoth. induction fuel as [|fuel IH]; intros first prev p toks Hp H; cbn [tokenize_loop] in H; [discriminate|].
    destruct (match_at s stop other p) as [[[| | | |k] e]|] eqn:E.
    - inversion H; subst. apply match_eos in E as [-> E]. split; [cbn; now constructor|]. split; [|split].
      + intros pre k q e post Ht Hk. destruct pre as [|? [|]]; cbn in Ht; try discriminate. inversion Ht; subst. destruct Hk; discriminate.
      + intros pre q e post Ht. destruct pre as [|? [|]]; cbn in Ht; try discriminate.
      + cbn. lia.
    - apply bind_ok in H as ([ds this] & Hd & H). apply bind_ok in H as (rest & Hr & H). inversion H; subst toks; clear H.
      apply match_nlai in E as (n & -> & Hlt & Hn). apply dents_ok in Hd as (-> & Hdep & k & m & -> & Hk & _ & _).
      destruct (IH _ _ _ _ (proj1 (proj2 Hn)) Hr) as (L & G & D & T).
      split; [|split; [|split]].
      + rewrite filter_app, (filter_repeat_dent k p m Hk). cbn. now constructor.
      + intros pre k' q e post Ht Hk'. clear -Ht Hk' G Hk. revert pre Ht. induction m as [|m IHm]; intros pre Ht.
        * cbn in Ht. destruct pre as [|t pre]; cbn in Ht; [inversion Ht; subst; destruct Hk'; discriminate|]. inversion Ht; subst.
          eapply G; eauto.
        * cbn in Ht. destruct pre as [|t pre]; cbn in Ht.
          -- inversion Ht; subst. split; [reflexivity|]. destruct m as [|m].
             ++ cbn. eexists _, _. split; [reflexivity|]. right. eauto.
             ++ cbn. eexists _, _. split; [reflexivity|]. now left.
          -- inversion Ht; subst. eapply IHm; eauto.
      + intros pre q e post Ht.
        assert (Hcase : (pre = repeat (k, p, p) m /\ q = p /\ e = p + 1 + n) \/
                        exists pre', pre = repeat (k, p, p) m ++ (KNlai, p, p + 1 + n) :: pre' /\ rest = pre' ++ (KNlai, q, e) :: post).
        { clear -Ht Hk. revert pre Ht. induction m as [|m IHm]; intros pre Ht.
          - cbn in *. destruct pre as [|t pre]; cbn in Ht; inversion Ht; subst; [left; auto|right]. eauto.
          - cbn in *. destruct pre as [|t pre]; cbn in Ht; inversion Ht; subst.
            + destruct Hk as [Hk|Hk]; [lia|discriminate|discriminate].
            + assert (Hk0 : m <> 0 -> k = KIndent \/ k = KOutdent) by (intros; apply Hk; lia).
              destruct (IHm Hk0 pre H1) as [(-> & -> & ->)|(pre' & -> & ->)]; [left; auto|right]. eauto. }
        destruct Hcase as [(-> & -> & ->)|(pre' & -> & ->)]; [lia|].
        rewrite depth_app. change ((KNlai, p, p + 1 + n) :: pre') with ([(KNlai, p, p + 1 + n)] ++ pre'). rewrite depth_app.
        specialize (D pre' q e post eq_refl). rewrite (depth_nodent (KNlai, p, p + 1 + n) eq_refl). lia.
      + rewrite depth_app. change ((KNlai, p, p + 1 + n) :: rest) with ([(KNlai, p, p + 1 + n)] ++ rest). rewrite depth_app.
        rewrite (depth_nodent (KNlai, p, p + 1 + n) eq_refl). unfold indents in *. rewrite !flat_map_app.
        assert (flat_map (fun t : kind * nat * nat => let (y, e) := t in let (k0, p0) := y in match k0 with KNlai => [e - p0 - 1] | _ => [] end) (repeat (k, p, p) m) = []) as ->.
        { clear -Hk. destruct m as [|m]; [reflexivity|]. destruct Hk as [->| ->]; [lia| |]; induction (S m); cbn; auto. }
        cbn [app flat_map map]. replace (p + 1 + n - p - 1) with n by lia. 
        assert (Hl : forall (l : list Z) x d, last (x :: l) d = last l x).
        { clear. induction l as [|y l IHl]; intros x d; [reflexivity|]. change (last (x :: y :: l) d) with (last (y :: l) d). rewrite (IHl y d), (IHl y x). reflexivity. }
        rewrite Hl. lia.
    - discriminate || (exfalso; unfold match_at in E; destruct (_ || _); [discriminate|]; destruct (_ && _); [discriminate|]; destruct (other p) as [[]|]; discriminate).
    - discriminate || (exfalso; unfold match_at in E; destruct (_ || _); [discriminate|]; destruct (_ && _); [discriminate|]; destruct (other p) as [[]|]; discriminate).
    - apply bind_ok in H as (rest & Hr & H). inversion H; subst toks; clear H. apply match_other in E as (Eo & Enl & Ene).
      pose proof (Hoth p k e Eo) as He. destruct (IH _ _ _ _ (proj2 He) Hr) as (L & G & D & T).
      split; [|split; [|split]].
      + cbn. constructor; auto; [lia|]. apply Enl. lia.
      + intros pre k' q e' post Ht Hk'. destruct pre as [|t pre]; cbn in Ht; inversion Ht; subst; [destruct Hk'; discriminate|]. eapply G; eauto.
      + intros pre q e' post Ht. destruct pre as [|t pre]; cbn in Ht; inversion Ht; subst.
        specialize (D pre q e' post eq_refl). change ((KOther k, p, e) :: pre) with ([(KOther k, p, e)] ++ pre). rewrite depth_app.
        rewrite (depth_nodent (KOther k, p, e) eq_refl). lia.
      + change ((KOther k, p, e) :: rest) with ([(KOther k, p, e)] ++ rest). rewrite depth_app. rewrite (depth_nodent (KOther k, p, e) eq_refl).
        cbn [indents flat_map app] in *. unfold indents in T. lia.
    - destruct first; discriminate.
  Qed.

  (* every division of the text with even changes of indentation is produced *)
  Lemma tokenize_complete : forall p l, lexed s stop other p l -> forall first prev, even_changes prev (indents l) ->
    exists toks, tokenize_loop s stop other (length l) first (Z.of_nat prev) p = Ok toks /\ filter (fun t => negb (is_dent t)) toks = l.
  Proof.
    induction 1 as [p Hp|p n l Hlt Hn Hl IH|p k e l Hlt Hc Ho Hl IH]; intros first prev Hev; cbn [length tokenize_loop].
    - rewrite match_at_eos by assumption. eexists. split; reflexivity.
    - rewrite (match_at_nlai p n) by assumption. cbn in Hev. replace (p + 1 + n - p - 1) with n in Hev by lia. destruct Hev as [He Hev].
      destruct (dents_even prev p n He) as [ds Hd]. rewrite Hd. cbn [bind]. destruct (IH false n Hev) as (toks & E & F). rewrite E. cbn [bind].
      eexists. split; [reflexivity|]. apply dents_ok in Hd as (_ & _ & k & m & -> & Hk & _). rewrite filter_app, (filter_repeat_dent k p m Hk). cbn. now rewrite F.
    - rewrite (match_at_other p k e) by assumption. cbn in Hev. destruct (IH false prev Hev) as (toks & E & F). rewrite E. cbn [bind].
      eexists. split; [reflexivity|]. cbn. now rewrite F.
  Qed.
  Lemma tokenize_odd : forall p l, lexed s stop other p l -> forall first prev, ~ even_changes prev (indents l) ->
    tokenize_loop s stop other (length l) first (Z.of_nat prev) p = Err AssertionError.
  Proof.
    induction 1 as [p Hp|p n l Hlt Hn Hl IH|p k e l Hlt Hc Ho Hl IH]; intros first prev Hev; cbn [length tokenize_loop].
    - exfalso. now apply Hev.
    - rewrite (match_at_nlai p n) by assumption. cbn in Hev. replace (p + 1 + n - p - 1) with n in Hev by lia.
      destruct (Nat.Even_or_Odd (prev + n)) as [He|He].
      + destruct (dents_even prev p n He) as [ds Hd]. rewrite Hd. cbn [bind]. rewrite IH; [reflexivity|]. tauto.
      + rewrite dents_odd; [reflexivity|]. intros H'. destruct H' as [a Ha], He as [b Hb]. lia.
    - rewrite (match_at_other p k e) by assumption. cbn in Hev. rewrite IH; [reflexivity|exact Hev].
  Qed.

  (* prefixes stay non-negative *)
  Lemma tokenize_prefix_nonneg : forall fuel first prev p toks base, other_ok stop other -> p <= stop -> (base <= prev)%Z ->
    tokenize_loop s stop other fuel first prev p = Ok toks ->
    (forall x, In x (indents toks) -> (base <= Z.of_nat x)%Z) ->
    forall pre post, toks = pre ++ post -> (base <= prev + 2 * depth pre)%Z.
  Proof.
    induction fuel as [|fuel IH]; intros first prev p toks base Hoth Hp Hbase H Hall pre post Ht; cbn [tokenize_loop] in H; [discriminate|].
    destruct pre as [|t0 pre]; [cbn; lia|].
    destruct (match_at s stop other p) as [[[| | | |k] e]|] eqn:E.
    - inversion H; subst toks. inversion H1; subst. destruct pre; [cbn; lia|discriminate].
    - apply bind_ok in H as ([ds this] & Hd & H). apply bind_ok in H as (rest & Hr & H). inversion H as [Etoks]; clear H.
      apply match_nlai in E as (n & -> & Hlt & Hn). apply dents_ok in Hd as (-> & Hdep & k & m & -> & Hk & Hin & Hout).
      assert (Hn_base : (base <= Z.of_nat n)%Z).
      { apply Hall. rewrite <- Etoks. unfold indents. rewrite flat_map_app. apply in_or_app. right. cbn. left. lia. }
      assert (Hall' : forall x, In x (indents rest) -> (base <= Z.of_nat x)%Z).
      { intros x Hx. apply Hall. rewrite <- Etoks. unfold indents in *. rewrite flat_map_app. apply in_or_app. right. cbn. now right. }
      rewrite <- Etoks in Ht. clear Etoks Hall.
      assert (Hcase : (exists j, j <= m /\ t0 :: pre = repeat (k, p, p) j) \/
                      exists pre', t0 :: pre = repeat (k, p, p) m ++ (KNlai, p, p + 1 + n) :: pre' /\ rest = pre' ++ post).
      { clear -Ht. revert Ht. generalize (t0 :: pre). clear. induction m as [|m IHm]; intros l Ht; cbn in Ht.
        - destruct l as [|x l]; [left; exists 0; auto|]. cbn in Ht. inversion Ht; subst. right. exists l. auto.
        - destruct l as [|x l]; [left; exists 0; split; [lia|reflexivity]|]. cbn in Ht. inversion Ht; subst.
          destruct (IHm l H1) as [(j & Hj & ->)|(pre' & -> & E)]; [left; exists (S j); split; [lia|reflexivity]|right]. exists pre'. auto. }
      destruct Hcase as [(j & Hj & ->)|(pre' & -> & ->)].
      + destruct j as [|j]; [cbn; lia|]. destruct Hk as [->| ->]; [lia| |].
        * rewrite depth_repeat_indent. lia.
        * rewrite depth_repeat_outdent. rewrite depth_repeat_outdent in Hdep. lia.
      + rewrite depth_app. change ((KNlai, p, p + 1 + n) :: pre') with ([(KNlai, p, p + 1 + n)] ++ pre'). rewrite depth_app.
        rewrite (depth_nodent (KNlai, p, p + 1 + n) eq_refl).
        pose proof (IH _ _ _ _ base Hoth (proj1 (proj2 Hn)) Hn_base Hr Hall' pre' post eq_refl). lia.
    - exfalso; unfold match_at in E; destruct (_ || _); [discriminate|]; destruct (_ && _); [discriminate|]; destruct (other p) as [[]|]; discriminate.
    - exfalso; unfold match_at in E; destruct (_ || _); [discriminate|]; destruct (_ && _); [discriminate|]; destruct (other p) as [[]|]; discriminate.
    - apply bind_ok in H as (rest & Hr & H). inversion H as [Etoks]; clear H. rewrite <- Etoks in Ht. inversion Ht; subst t0. apply match_other in E as (Eo & _ & _).
      change ((KOther k, p, e) :: pre) with ([(KOther k, p, e)] ++ pre). rewrite depth_app. rewrite (depth_nodent (KOther k, p, e) eq_refl).
      pose proof (Hoth p k e Eo) as He.
      assert (Hall' : forall x, In x (indents rest) -> (base <= Z.of_nat x)%Z) by (intros x Hx; apply Hall; rewrite <- Etoks; exact Hx).
      pose proof (IH _ _ _ _ base Hoth (proj2 He) Hbase Hr Hall' pre post H1). lia.
    - destruct first; discriminate.
  Qed.
End Tok.

(* ---------------- the line's indentation ---------------- *)

Lemma line_start_spec s : forall p, line_start s p <= p /\
  (line_start s p = 0 \/ at_char s (line_start s p - 1) 10%N) /\
  (forall i, line_start s p <= i < p -> ~ at_char s i 10%N).
Proof.
  induction p as [|p IH]; cbn [line_start].
  - split; [lia|]. split; [now left|]. intros; lia.
  - destruct (char_is s 10 p) eqn:E.
    + apply char_is_at in E. split; [lia|]. split; [right; now rewrite Nat.sub_1_r|]. intros; lia.
    + destruct IH as (A & B & C). split; [lia|]. split; [exact B|]. intros i Hi. destruct (Nat.eq_dec i p) as [->|].
      * intros H. apply char_is_at in H. congruence.
      * apply C. lia.
Qed.
Lemma indent_end_spec s : forall n p e, indent_end s n p = Ok e ->
  p <= e < p + n /\ (forall i, p <= i < e -> at_char s i 32%N) /\ exists c, at_char s e c /\ c <> 32%N.
Proof.
  induction n as [|n IH]; intros p e H; cbn [indent_end] in H; [discriminate|].
  destruct (nth_error s p) as [c|] eqn:E; [|discriminate]. destruct (N.eqb_spec c 32) as [->|Hc].
  - destruct (IH _ _ H) as (A & B & C). split; [lia|]. split; [|exact C]. intros i Hi. destruct (Nat.eq_dec i p) as [->|]; [exact E|]. apply B. lia.
  - inversion H; subst. split; [lia|]. split; [intros; lia|]. eauto.
Qed.

(* the start of the line containing p, and the width w of the spaces it begins with, all before p *)
Definition line_indent (s : text) (p w : nat) : Prop :=
  exists b, b + w <= p /\ (b = 0 \/ at_char s (b - 1) 10%N) /\ (forall i, b <= i < p -> ~ at_char s i 10%N) /\
    (forall i, i < w -> at_char s (b + i) 32%N) /\ ~ at_char s (b + w) 32%N.

Lemma this_line_ok s p w : this_line_indentation s p = Ok w -> line_indent s p w.
Proof.
  unfold this_line_indentation. intros H. apply bind_ok in H as (e & He & H). inversion H; subst w; clear H.
  destruct (line_start_spec s p) as (A & B & C). destruct (indent_end_spec s _ _ _ He) as (D & E & c & F & G).
  exists (line_start s p). split; [lia|]. split; [exact B|]. split; [exact C|]. split.
  - intros i Hi. apply E. lia.
  - replace (line_start s p + (e - line_start s p)) with e by lia. intros H. unfold at_char in *. congruence.
Qed.
