(* The reader always comes to an end, and what it reports is so (C67). *)
From Coq Require Import Ascii String.
From Verif Require Import M_Base M_HTML M_Meta L_Base L_Meta L_MetaRx L_MetaFwd L_MetaRead L_MetaRead2 L_MetaRead3 L_MetaDec L_MetaBack.
Open Scope string_scope.
Open Scope nat_scope.
Open Scope list_scope.
Notation length := Datatypes.length.

(* -------- regular expressions -------- *)

Section Rx.
Variable uniword : N -> bool.
Notation word_of := (word_of uniword).
Notation rx_matches := (rx_matches uniword).
Notation star := (star_of uniword).

Lemma star_S : forall a n s, star a (S n) s =
  flat_map (fun '(s1, g) => if length s1 <? length s then map (fun '(s2, h) => (s2, g ++ h)) (star a n s1) else []) (rx_matches a s) ++ [(s, [])].
Proof. reflexivity. Qed.

Lemma star_more : forall a n m s x, n <= m -> In x (star a n s) -> In x (star a m s).
Proof.
  intros a. induction n as [|n IH]; intros m s x L I.
  - cbn in I. destruct I as [<-|[]]. destruct m as [|m]; [left; reflexivity|]. rewrite star_S. apply in_or_app. right. left. reflexivity.
  - destruct m as [|m]; [lia|]. rewrite star_S in I |- *. apply in_app_or in I. apply in_or_app. destruct I as [I|I]; [left|right; exact I].
    apply in_flat_map in I. destruct I as [[s1 g] [I1 I2]]. apply in_flat_map. exists (s1, g). split; [exact I1|]. cbv beta iota in *. destruct (length s1 <? length s); [|destruct I2].
    apply in_map_iff in I2. destruct I2 as [y [E I2]]. apply in_map_iff. exists y. split; [exact E|]. apply IH; [lia|exact I2].
Qed.

Lemma rx_complete : forall r w g, word_of r w g -> forall s, exists g', In (s, g') (rx_matches r (w ++ s)).
Proof.
  intros r w g W. induction W as [|neg items c H|a b u v g h Wa IHa Wb IHb|a b u g Wa IHa|a b u g Wb IHb|a|a u v g h Wa IHa Ws IHs|a u g Wa IHa]; intros s.
  - exists []. left. reflexivity.
  - exists []. cbn. rewrite H. left. reflexivity.
  - destruct (IHa (v ++ s)) as [g' Ia]. destruct (IHb s) as [h' Ib]. exists (g' ++ h'). rewrite <- app_assoc. cbn. apply in_flat_map. exists (v ++ s, g'). split; [exact Ia|].
    apply in_map_iff. exists (s, h'). auto.
  - destruct (IHa s) as [g' Ia]. exists g'. cbn. apply in_or_app. auto.
  - destruct (IHb s) as [g' Ib]. exists g'. cbn. apply in_or_app. auto.
  - exists []. rewrite rx_star. destruct (length ([] ++ s)); [left; reflexivity|]. rewrite star_S. apply in_or_app. right. left. reflexivity.
  - destruct u as [|c u]; [apply IHs|]. destruct (IHa (v ++ s)) as [g' Ia]. destruct (IHs s) as [h' Is]. rewrite rx_star in *. exists (g' ++ h').
    rewrite <- app_assoc. cbn [app length]. rewrite star_S. apply in_or_app. left. apply in_flat_map. exists (v ++ s, g'). split; [exact Ia|].
    rewrite (proj2 (Nat.ltb_lt _ _)) by (unfold text in *; cbn [length]; rewrite !app_length; lia). apply in_map_iff. exists (s, h'). split; [reflexivity|]. eapply star_more; [|exact Is]. unfold text in *. rewrite !app_length. lia.
  - destruct (IHa s) as [g' Ia]. cbn. eexists. apply in_map_iff. exists (s, g'). split; [reflexivity|exact Ia].
Qed.

(* no match is shorter *)
Fixpoint min_len (r : rx) : nat :=
  match r with REps => 0 | RSet _ _ => 1 | RSeq a b => min_len a + min_len b | RAlt a b => Nat.min (min_len a) (min_len b) | RStar _ => 0 | RGroup a => min_len a end.
Lemma min_len_ok : forall r w g, word_of r w g -> min_len r <= length w.
Proof. intros r w g W. induction W; cbn; rewrite ?app_length; lia. Qed.
End Rx.

(* -------- what is statically so of a metagrammar -------- *)

Fixpoint rank (g : mgrammar) (goal : string) : nat :=
  match g with [] => 1 | (k, _) :: g' => if String.eqb k goal then length g' + 2 else rank g' goal end.

Definition is_in (s : string) (l : list string) : bool := existsb (String.eqb s) l.
Definition nullable (goal : string) : bool :=
  is_in goal ["INDENT"; "OUTDENT"; "EOI"; ""; "OPTIONAL_COMMENT_LINE"; "OPTIONAL_GUARD"; "OPTIONAL_LABEL"; "OPTIONAL_PARAMS"].
Definition shifts (goal : string) : bool :=
  is_in goal ["INDENT"; "OUTDENT"; "MULTILINE_RHSS"; "MULTILINE_ONE_OF"; "MULTILINE_R"; "MULTILINE_PRODUCTION"; "BLOCK_PRODUCTION"; "BLOCK_PRODUCTIONS"; "EMU_GRAMMAR_CONTENT_2"].

Definition gives (goal : string) : bool :=
  match mget metagrammar goal with Some (PRe, RNone, _) | Some (POpt, RNone, _) | None => false | _ => true end.

Definition re_ok (pat : string) (may_be_empty : bool) : bool :=
  match rx_compile pat with Some r => may_be_empty || (0 <? min_len r) | None => false end.

Definition arg_ok (goal a : string) : bool :=
  (rank metagrammar a <? rank metagrammar goal) && implb (shifts a) (shifts goal) &&
  match mget metagrammar a with Some _ => true | None => negb (looks_like_name a) && re_ok a (nullable a) end.

Definition count_gives (l : list string) : nat := length (filter gives l).

Definition rule_ok (rule : string * (pkind * rkind * list string)) : bool :=
  let '(goal, (pk, rk, args)) := rule in
  match pk, rk with
  | PAlt, RUp => forallb (arg_ok goal) args && negb (match args with [] => true | _ => false end) && forallb gives args && forallb (fun a => negb (nullable a)) args
  | PCat, RNode => forallb (arg_ok goal) args && (nullable goal || existsb (fun a => negb (nullable a)) args)
  | PCat, RUp => forallb (arg_ok goal) args && (count_gives args =? 1) && (nullable goal || existsb (fun a => negb (nullable a)) args)
  | POpt, RNone => forallb (arg_ok goal) args && nullable goal
  | POpt, RUp => forallb (arg_ok goal) args && (count_gives args =? 1) && nullable goal
  | PList, RNode =>
      forallb (fun a => String.eqb a "" || arg_ok goal a) args &&
      match args with
      | [el; sep] => arg_ok goal el && arg_ok goal sep && gives el && negb (nullable el)
      | [el; sep; ld; rd] => arg_ok goal el && arg_ok goal sep && gives el && negb (nullable el)
      | _ => false
      end
  | PRe, RNode | PRe, RNone => match args with [pat] => re_ok pat (nullable goal) | _ => false end
  | _, _ => false
  end.

Lemma rules_ok : forallb rule_ok metagrammar = true.
Proof. vm_compute. reflexivity. Qed.

Lemma mget_ok : forall goal r, mget metagrammar goal = Some r -> rule_ok (goal, r) = true.
Proof.
  assert (K : forall g goal r, forallb rule_ok g = true -> mget g goal = Some r -> rule_ok (goal, r) = true).
  { induction g as [|[k v] g IH]; intros goal r F H; [discriminate H|]. cbn [forallb mget] in *. apply andb_prop in F. destruct F as [F1 F2].
    destruct (String.eqb_spec k goal) as [->|]; [inversion H; subst; exact F1|apply IH; assumption]. }
  intros goal r H. eapply K; [exact rules_ok|exact H].
Qed.

(* -------- the invariant -------- *)

Definition is_some {A} (o : option A) : bool := match o with Some _ => true | None => false end.

Section Tot.
Variable uniword : N -> bool.
Notation word_of := (word_of uniword).
Variables (t : text) (e : nat).

(* somewhere at or after p a line is indented by an odd number of spaces *)
Definition odd_from (p : nat) : Prop := exists p' k rest, p <= p' /\ at_ t p' (nl k ++ rest) /\ Nat.Odd k /\ no_space rest.

(* what was expected at that position is not there *)
Definition not_there (pos : nat) (x : expectation) : Prop :=
  match x with
  | ExpPattern goal pat => exists r, rx_compile pat = Some r /\ forall w rest g, at_ t pos (w ++ rest) -> ~ word_of r w g
  | ExpIndent i => exists p k rest, 1 <= k /\ at_ t p (nl k ++ rest) /\ pos = p + length (nl k) /\ i <> Some (Z.of_nat k)
  | ExpEnd => pos < e
  end.

Definition log_ok (p : nat) (l : list (nat * expectation)) : Prop := Forall (fun y => p <= fst y <= length t /\ not_there (fst y) (snd y)) l.

Definition fine {A} (p : nat) (Q : A -> list (nat * expectation) -> Prop) (m : logged A) : Prop :=
  log_ok p (fst m) /\ match snd m with Ok a => Q a (fst m) | Err x => x = AssertionError /\ odd_from p end.

Lemma log_less : forall p p' l, p <= p' -> log_ok p' l -> log_ok p l.
Proof. intros p p' l L H. eapply Forall_impl; [|exact H]. cbn. intros a [Ha Hb]. split; [lia|exact Hb]. Qed.

Lemma fine_less : forall A p p' (Q R : A -> list (nat * expectation) -> Prop) m, p <= p' -> (forall a l, Q a l -> R a l) -> fine p' Q m -> fine p R m.
Proof.
  intros A p p' Q R [l [a|x]] L H [F1 F2]; (split; [eapply log_less; eauto|]); cbn in *; [apply H; exact F2|]. destruct F2 as [-> [q [k [r [Hq Hr]]]]]. split; [reflexivity|]. exists q, k, r. split; [lia|exact Hr].
Qed.

Lemma fine_ret : forall A p (Q : A -> list (nat * expectation) -> Prop) a, Q a [] -> fine p Q (wret (Ok a)).
Proof. intros A p Q a H. split; [constructor|exact H]. Qed.

Lemma fine_bind : forall A B p Q (R : B -> list (nat * expectation) -> Prop) (m : logged A) k,
  fine p Q m -> (forall a l, Q a l -> fine p (fun b l' => R b (l ++ l')) (k a)) -> fine p R (wbind m k).
Proof.
  intros A B p Q R [l [a|x]] k [F1 F2] H; cbn in *.
  - destruct (H a l F2) as [G1 G2]. destruct (k a) as [l' r]. cbn in *. split; [apply Forall_app; auto|exact G2].
  - split; [exact F1|exact F2].
Qed.

Definition out_ok (p : nat) (i : option Z) (nul giv : bool) (o : option (nat * option Z * option gnode)) (l : list (nat * expectation)) : Prop :=
  match o with
  | None => l <> []
  | Some (q, j, n) => p <= q <= length t /\ (nul = false -> p < q) /\ is_some j = is_some i /\ is_some n = giv
  end.

Lemma at_here : forall p, p <= length t -> exists s, at_ t p s.
Proof. intros p H. exists (skipn p t). apply at_of_skipn. exact H. Qed.

Lemma spaces_span : forall s : text, exists k r, s = repeat 32%N k ++ r /\ no_space r.
Proof.
  induction s as [|c s [k [r [-> N]]]]; [exists 0, []; split; [reflexivity|exact I]|]. destruct (N.eq_dec c 32) as [->|Nc].
  - exists (S k), r. auto.
  - exists 0, (c :: repeat 32%N k ++ r). split; [reflexivity|]. unfold no_space, stops. apply N.eqb_neq. congruence.
Qed.

Lemma nlai_span : forall p s q g, at_ t p s -> re_match uniword "\n +" t p = Ok (Some (q, g)) -> exists k rest, 1 <= k /\ at_ t p (nl k ++ rest) /\ no_space rest /\ q = p + length (nl k).
Proof.
  intros p s q g At M. destruct (re_match_inv uniword t "\n +" rx_nlai p s q g eq_refl At M) as [w [rest [E1 [E2 W]]]]. unfold rx_nlai in W. apply word_seq_chr in W. destruct W as [v [-> W]].
  apply word_seq_eps in W. apply word_plus in W. destruct W as [_ [Nv F]]. apply (all_same uniword) in F. destruct (spaces_span rest) as [k [r [Er Nr]]].
  assert (At' : at_ t p (nl (length v + k) ++ r)).
  { unfold nl. rewrite repeat_app. cbn [app]. rewrite <- app_assoc, <- Er. replace (repeat 32%N (length v) ++ rest) with (v ++ rest) by (f_equal; exact F). rewrite E1 in At. exact At. }
  assert (K : 1 <= length v + k) by (destruct v; [contradiction|cbn; lia]).
  exists (length v + k), r. split; [exact K|]. split; [exact At'|]. split; [exact Nr|]. rewrite (match_nlai uniword t p _ r K Nr At') in M. inversion M. reflexivity.
Qed.

Lemma re_fine : forall goal pat rk p i, re_ok pat (nullable goal) = true -> rk <> RUp -> p <= length t -> (i = None -> shifts goal = false) -> (goal = "NLAI" -> pat = "\n +") ->
  fine p (out_ok p i (nullable goal) (match rk with RNode => true | _ => false end)) (attempt_re uniword t e goal pat rk p i).
Proof.
  intros goal pat rk p i Ro Rk Hp Sh Nl. unfold re_ok in Ro. destruct (rx_compile pat) as [r|] eqn:C; [|discriminate Ro]. destruct (at_here p Hp) as [s At]. unfold attempt_re.
  destruct (re_match uniword pat t p) as [[[q g]|]|x] eqn:M.
  - destruct (re_match_inv uniword t pat r p s q g C At M) as [w [rest [E1 [E2 W]]]]. pose proof (min_len_ok uniword r w g W) as Mi.
    assert (Hq : p <= q <= length t) by (rewrite (at_length _ _ _ At), E1, app_length; unfold text in *; lia).
    assert (Hn : nullable goal = false -> p < q) by (intros E; rewrite E in Ro; cbn [orb] in Ro; apply Nat.ltb_lt in Ro; unfold text in *; lia).
    assert (Fin : forall j, is_some j = is_some i -> fine p (out_ok p i (nullable goal) (match rk with RNode => true | _ => false end))
      (match rk with RNode => wret (Ok (Some (q, j, Some (GNode goal p q g [])))) | RUp => wret (Err AssertionError) | RNone => wret (Ok (Some (q, j, None))) end)).
    { intros j Ej. destruct rk; [|contradiction|]; apply fine_ret; cbn; auto 6. }
    cbv zeta. destruct (String.eqb_spec goal "INDENT") as [->|N1]; [destruct i as [z|]; [|specialize (Sh eq_refl); discriminate Sh]; cbn [shift wret wbind]|].
    { specialize (Fin (Some (z + 2)%Z) eq_refl). destruct rk; [|contradiction|]; exact Fin. }
    destruct (String.eqb_spec goal "OUTDENT") as [->|N2]; [destruct i as [z|]; [|specialize (Sh eq_refl); discriminate Sh]; cbn [shift wret wbind]|].
    { specialize (Fin (Some (z + -2)%Z) eq_refl). destruct rk; [|contradiction|]; exact Fin. }
    destruct (String.eqb_spec goal "NLAI") as [Eg|N3].
    { rewrite (Nl Eg) in M. destruct (nlai_span _ _ _ _ At M) as [k [rest' [K [At' [Ns Eq]]]]].
      assert (Th : (Z.of_nat q - Z.of_nat p - 1)%Z = Z.of_nat k) by (rewrite Eq; apply nl_indent). rewrite Th.
      destruct (Z.of_nat k mod 2 =? 0)%Z eqn:Mo; cbn [negb].
      - destruct (eqb_indent (Some (Z.of_nat k)) i) eqn:Ei; cbn [negb]; [apply Fin; reflexivity|]. split; [|cbn; discriminate].
        constructor; [|constructor]. cbn [fst snd]. split; [exact Hq|]. exists p, k, rest'. split; [exact K|]. split; [exact At'|]. split; [exact Eq|]. intros ->. cbn in Ei. rewrite Z.eqb_refl in Ei. discriminate Ei.
      - split; [constructor|]. cbn. split; [reflexivity|]. exists p, k, rest'. split; [lia|]. split; [exact At'|]. split; [|exact Ns].
        apply Nat.odd_spec. apply Z.eqb_neq in Mo. rewrite <- Nat.negb_even. destruct (Nat.even k) eqn:Ev; [|reflexivity]. exfalso. apply Mo. apply Nat.even_spec in Ev. destruct Ev as [m ->]. rewrite Nat2Z.inj_mul. rewrite Z.mul_comm. apply Z_mod_mult. }
    destruct (String.eqb_spec goal "EOI") as [->|N4].
    { destruct (Nat.ltb_spec q e); [|apply Fin; reflexivity]. split; [|cbn; discriminate]. constructor; [|constructor]. cbn [fst snd]. split; [exact Hq|]. exact H. }
    apply Fin. reflexivity.
  - split; [|cbn; discriminate]. constructor; [|constructor]. cbn [fst snd]. split; [lia|]. exists r. split; [exact C|]. intros w rest g At' W.
    unfold re_match in M. rewrite C, (at_skipn _ _ _ At') in M. destruct (rx_complete uniword r w g W rest) as [g' In']. destruct (rx_matches uniword r (w ++ rest)) as [|[? ?] ?]; [exact In'|discriminate M].
  - unfold re_match in M. rewrite C in M. destruct (rx_matches uniword r (skipn p t)) as [|[? ?] ?]; discriminate M.
Qed.

Section Rec.
Variables (rec : string -> nat -> option Z -> logged (option (nat * option Z * option gnode))) (goal0 : string).
Hypothesis Rec : forall a p i, arg_ok goal0 a = true -> p <= length t -> (i = None -> shifts goal0 = false) -> fine p (out_ok p i (nullable a) (gives a)) (rec a p i).

Lemma alts_fine : forall args p i, forallb (arg_ok goal0) args = true -> forallb gives args = true -> forallb (fun a => negb (nullable a)) args = true -> p <= length t -> (i = None -> shifts goal0 = false) ->
  forall l0, (l0 <> [] \/ args <> []) -> fine p (fun o l => out_ok p i false true o (l0 ++ l)) (attempt_alts rec RUp args p i).
Proof.
  induction args as [|a args IH]; intros p i A G N Hp Hi l0 Ne; cbn [attempt_alts].
  - apply fine_ret. cbn. rewrite app_nil_r. destruct Ne as [Ne|Ne]; [exact Ne|contradiction].
  - cbn [forallb] in *. apply andb_prop in A, G, N. destruct A as [A1 A2], G as [G1 G2], N as [N1 N2]. apply negb_true_iff in N1.
    eapply fine_bind; [apply Rec; assumption|]. rewrite G1, N1. intros [[[q j] n]|] l Ho.
    + apply fine_ret. exact Ho.
    + cbn [out_ok] in Ho. eapply fine_less with (p' := p); [lia| |apply (IH p i A2 G2 N2 Hp Hi (l0 ++ l))].
      * intros o l' H. cbv beta. rewrite app_assoc. exact H.
      * left. intros E. apply app_eq_nil in E. destruct E as [_ E]. contradiction.
Qed.

Definition seq_ok' (p : nat) (i : option Z) (args : list string) (r : nat * option Z * list gnode + option Z) (l : list (nat * expectation)) : Prop :=
  match r with
  | inl (q, j, cs) => p <= q <= length t /\ (existsb (fun a => negb (nullable a)) args = true -> p < q) /\ is_some j = is_some i /\ length cs = count_gives args
  | inr j => l <> [] /\ is_some j = is_some i
  end.

Lemma seq_fine : forall args p i, forallb (arg_ok goal0) args = true -> p <= length t -> (i = None -> shifts goal0 = false) ->
  fine p (seq_ok' p i args) (attempt_seq rec args p i).
Proof.
  induction args as [|a args IH]; intros p i A Hp Hi; cbn [attempt_seq].
  - apply fine_ret. cbn. repeat split; auto; discriminate.
  - cbn [forallb] in A. apply andb_prop in A. destruct A as [A1 A2]. eapply fine_bind; [apply Rec; assumption|]. intros [[[q j] n]|] l Ho.
    + destruct Ho as [Hq [Hn [Hj Hg]]]. eapply fine_less with (p' := q); [lia|intros b l' H; exact H|].
      eapply fine_bind; [apply (IH q j A2); [lia|intros ->; apply Hi; destruct i; [discriminate Hj|reflexivity]]|].
      intros [[[q' j'] cs]|j'] l' Ho'; apply fine_ret; rewrite !app_nil_r; cbn [seq_ok'] in *.
      * destruct Ho' as [Hq' [Hn' [Hj' Hc]]]. split; [lia|]. split; [|split; [congruence|]].
        -- cbn [existsb]. destruct (nullable a); cbn [negb orb]; [|intros _; specialize (Hn eq_refl); lia]. intros E. specialize (Hn' E). lia.
        -- unfold count_gives in *. cbn [filter]. destruct n as [n|], (gives a); cbn in Hg; try discriminate Hg; cbn; lia.
      * destruct Ho' as [Hl Hj']. split; [|congruence]. intros E. apply app_eq_nil in E. destruct E as [_ E]. contradiction.
    + apply fine_ret. cbn in *. rewrite app_nil_r. split; [exact Ho|reflexivity].
Qed.

Definition loop_ok (b p : nat) (i : option Z) (ss : option nat) (r : option (nat * option Z * list gnode)) (l : list (nat * expectation)) : Prop :=
  match r with
  | None => ss = None /\ l <> []
  | Some (q, j, cs) => b <= q <= length t /\ (ss = None -> p < q) /\ is_some j = is_some i
  end.

Lemma loop_fine : forall el sep, arg_ok goal0 el = true -> arg_ok goal0 sep = true -> nullable el = false ->
  forall fuel ss b p i, length t < fuel + p -> p <= length t -> (i = None -> shifts goal0 = false) -> b <= p -> (forall s0, ss = Some s0 -> b <= s0 <= p) ->
  fine p (loop_ok b p i ss) (attempt_loop rec fuel el sep ss p i).
Proof.
  intros el sep Ae As Ne. induction fuel as [|f IH]; intros ss b p i Fu Hp Hi Hb Hs; [lia|]. cbn [attempt_loop].
  eapply fine_bind; [apply Rec; assumption|]. rewrite Ne. intros [[[q j] n]|] l Ho; cbn [out_ok] in Ho.
  - destruct Ho as [Hq [Hn [Hj Hg]]]. specialize (Hn eq_refl). assert (Hi' : j = None -> shifts goal0 = false) by (intros ->; apply Hi; destruct i; [discriminate Hj|reflexivity]).
    eapply fine_less with (p' := q); [lia|intros b' l' H; exact H|].
    eapply fine_bind; [apply (Rec sep q j As); [lia|exact Hi']|]. intros [[[q' j'] n']|] l' Ho'; cbn [out_ok] in Ho'.
    + destruct Ho' as [Hq' [_ [Hj' _]]]. assert (Hi'' : j' = None -> shifts goal0 = false) by (intros ->; apply Hi'; destruct j; [discriminate Hj'|reflexivity]).
      eapply fine_less with (p' := q'); [lia|intros b' l'' H; exact H|].
      eapply fine_bind; [apply (IH (Some q) q q' j'); [lia|lia|exact Hi''|lia|intros s0 E; inversion E; subst; lia]|].
      intros [[[q2 j2] cs]|] l'' Ho''; apply fine_ret; cbn [loop_ok] in *.
      * destruct Ho'' as [H1 [_ H3]]. split; [lia|]. split; [lia|congruence].
      * destruct Ho'' as [H1 _]. discriminate H1.
    + apply fine_ret. cbn [loop_ok]. split; [lia|]. split; [lia|exact Hj].
  - destruct ss as [s0|]; apply fine_ret; cbn [loop_ok].
    + specialize (Hs s0 eq_refl). split; [lia|]. split; [discriminate|reflexivity].
    + rewrite app_nil_r. auto.
Qed.

Definition delim_ok (p : nat) (i : option Z) (r : option (nat * option Z)) (l : list (nat * expectation)) : Prop :=
  match r with None => l <> [] | Some (q, j) => p <= q <= length t /\ is_some j = is_some i end.

Lemma delim_fine : forall o p i, (forall a, o = Some a -> (String.eqb a "" || arg_ok goal0 a) = true) -> p <= length t -> (i = None -> shifts goal0 = false) ->
  fine p (delim_ok p i) (attempt_delim rec o p i).
Proof.
  intros [a|] p i A Hp Hi; cbn [attempt_delim]; [|apply fine_ret; cbn; auto]. specialize (A a eq_refl). destruct (String.eqb a ""); [apply fine_ret; cbn; auto|]. cbn [orb] in A.
  eapply fine_bind; [apply Rec; assumption|]. intros [[[q j] n]|] l Ho; apply fine_ret; cbn in *; [|rewrite app_nil_r; exact Ho]. destruct Ho as [H1 [_ [H3 _]]]. auto.
Qed.

Lemma list_fine : forall goal args el sep ld rd p i,
  (match args with [e; s] => Some (e, s, None, None) | [e; s; l; r] => Some (e, s, Some l, Some r) | _ => None end) = Some (el, sep, ld, rd) ->
  arg_ok goal0 el = true -> arg_ok goal0 sep = true -> nullable el = false ->
  (forall a, ld = Some a -> (String.eqb a "" || arg_ok goal0 a) = true) -> (forall a, rd = Some a -> (String.eqb a "" || arg_ok goal0 a) = true) ->
  p <= length t -> (i = None -> shifts goal0 = false) -> fine p (out_ok p i false true) (attempt_list t rec goal args p i).
Proof.
  intros goal args el sep ld rd p i E Ae As Ne Al Ar Hp Hi. unfold attempt_list. rewrite E.
  eapply fine_bind; [apply (delim_fine ld p i); assumption|]. intros [[p0 i0]|] l Ho; cbn [delim_ok] in Ho; [|apply fine_ret; cbn; rewrite app_nil_r; exact Ho]. destruct Ho as [H0 Hi0].
  assert (Hi' : i0 = None -> shifts goal0 = false) by (intros ->; apply Hi; destruct i; [discriminate Hi0|reflexivity]).
  eapply fine_less with (p' := p0); [lia|intros b l' H; exact H|].
  eapply fine_bind; [apply (loop_fine el sep Ae As Ne (S (length t)) None p0 p0 i0); [lia|lia|exact Hi'|lia|discriminate]|].
  intros [[[p1 i1] cs]|] l1 Ho1; cbn [loop_ok] in Ho1; [|apply fine_ret; cbn; rewrite app_nil_r; intros En; apply app_eq_nil in En; destruct En as [_ En]; apply Ho1; exact En].
  destruct Ho1 as [H1 [H1' Hi1]]. specialize (H1' eq_refl). assert (Hi'' : i1 = None -> shifts goal0 = false) by (intros ->; apply Hi'; destruct i0; [discriminate Hi1|reflexivity]).
  eapply fine_less with (p' := p1); [lia|intros b l' H; exact H|].
  eapply fine_bind; [apply (delim_fine rd p1 i1); [exact Ar|lia|exact Hi'']|]. intros [[p2 i2]|] l2 Ho2; cbn [delim_ok] in Ho2; apply fine_ret; cbn.
  - destruct Ho2 as [H2 Hi2]. split; [lia|]. split; [lia|]. split; [congruence|reflexivity].
  - rewrite app_nil_r. intros En. apply app_eq_nil in En. destruct En as [_ En]. apply app_eq_nil in En. destruct En as [_ En]. contradiction.
Qed.
End Rec.

Lemma attempt_fine : forall d goal p i, rank metagrammar goal <= d -> (match mget metagrammar goal with Some _ => true | None => negb (looks_like_name goal) && re_ok goal (nullable goal) end) = true ->
  p <= length t -> (i = None -> shifts goal = false) -> fine p (out_ok p i (nullable goal) (gives goal)) (attempt uniword metagrammar t e d goal p i).
Proof.
  induction d as [|d IH]; intros goal p i Rk Ok_ Hp Hi.
  { exfalso. clear - Rk. assert (K : forall g, 1 <= rank g goal) by (induction g as [|[k v] g IHg]; cbn; [lia|]; destruct (String.eqb k goal); lia). specialize (K metagrammar). lia. }
  assert (Rec : forall a p i, arg_ok goal a = true -> p <= length t -> (i = None -> shifts goal = false) -> fine p (out_ok p i (nullable a) (gives a)) (attempt uniword metagrammar t e d a p i)).
  { intros a p' i' A Hp' Hi'. unfold arg_ok in A. apply andb_prop in A. destruct A as [A A3]. apply andb_prop in A. destruct A as [A1 A2]. apply Nat.ltb_lt in A1. apply IH; [lia|exact A3|exact Hp'|].
    intros E. specialize (Hi' E). rewrite Hi' in A2. destruct (shifts a); [discriminate A2|reflexivity]. }
  cbn [attempt]. destruct (mget metagrammar goal) as [[[pk rk] args]|] eqn:G.
  - pose proof (mget_ok _ _ G) as Ro. unfold rule_ok in Ro. unfold gives. rewrite G. destruct pk, rk; try discriminate Ro.
    + (* alternatives *)
      apply andb_prop in Ro. destruct Ro as [Ro R4]. apply andb_prop in Ro. destruct Ro as [Ro R3]. apply andb_prop in Ro. destruct Ro as [R1 R2].
      eapply fine_less with (p' := p) (Q := fun o l => out_ok p i false true o ([] ++ l)); [lia| |apply (alts_fine _ goal Rec args p i R1 R3 R4 Hp Hi []); right; intros ->; discriminate R2].
      intros o l H. cbn [app] in H. destruct o as [[[q j] n]|]; cbn [out_ok is_some] in *; [|exact H]. destruct H as [H1 [H2 H3]]. auto.
    + (* one after the other, a node *)
      apply andb_prop in Ro. destruct Ro as [R1 R2]. unfold attempt_cat. eapply fine_bind; [apply (seq_fine _ goal Rec args p i R1 Hp Hi)|].
      intros [[[q j] cs]|j] l Ho; cbn [seq_ok'] in Ho; apply fine_ret; cbn [out_ok is_some]; [|rewrite app_nil_r; apply Ho]. destruct Ho as [H1 [H2 [H3 _]]]. repeat split; try apply H1; auto.
      intros Nu. rewrite Nu in R2. apply H2. exact R2.
    + (* one after the other, the only node *)
      apply andb_prop in Ro. destruct Ro as [Ro R3]. apply andb_prop in Ro. destruct Ro as [R1 R2]. apply Nat.eqb_eq in R2. unfold attempt_cat. eapply fine_bind; [apply (seq_fine _ goal Rec args p i R1 Hp Hi)|].
      intros [[[q j] cs]|j] l Ho; cbn [seq_ok'] in Ho; [|apply fine_ret; cbn [out_ok is_some]; rewrite app_nil_r; apply Ho]. destruct Ho as [H1 [H2 [H3 H4]]].
      rewrite R2 in H4. destruct cs as [|c [|? ?]]; try discriminate H4. apply fine_ret. cbn [out_ok is_some]. repeat split; try apply H1; auto. intros Nu. rewrite Nu in R3. apply H2. exact R3.
    + (* optional, the only node *)
      apply andb_prop in Ro. destruct Ro as [Ro R3]. apply andb_prop in Ro. destruct Ro as [R1 R2]. apply Nat.eqb_eq in R2. unfold attempt_opt. rewrite R3. eapply fine_bind; [apply (seq_fine _ goal Rec args p i R1 Hp Hi)|].
      intros [[[q j] cs]|j] l Ho; cbn [seq_ok'] in Ho.
      * destruct Ho as [H1 [H2 [H3 H4]]]. rewrite R2 in H4. destruct cs as [|c [|? ?]]; try discriminate H4. apply fine_ret. cbn [out_ok is_some]. repeat split; try apply H1; auto; discriminate.
      * apply fine_ret. cbn [out_ok is_some]. repeat split; auto; try apply Ho; discriminate.
    + (* optional, no node *)
      apply andb_prop in Ro. destruct Ro as [R1 R3]. unfold attempt_opt. rewrite R3. eapply fine_bind; [apply (seq_fine _ goal Rec args p i R1 Hp Hi)|].
      intros [[[q j] cs]|j] l Ho; cbn [seq_ok'] in Ho; apply fine_ret; cbn.
      * destruct Ho as [H1 [H2 [H3 H4]]]. repeat split; try apply H1; auto; discriminate.
      * repeat split; auto; try apply Ho; discriminate.
    + (* a list *)
      apply andb_prop in Ro. destruct Ro as [R0 R1].
      assert (L : exists el sep ld rd, (match args with [e; s] => Some (e, s, None, None) | [e; s; l; r] => Some (e, s, Some l, Some r) | _ => None end) = Some (el, sep, ld, rd) /\
        arg_ok goal el && arg_ok goal sep && gives el && negb (nullable el) = true /\ (forall a, ld = Some a -> In a args) /\ (forall a, rd = Some a -> In a args)).
      { destruct args as [|el [|sep [|ld [|rd [|? ?]]]]]; try discriminate R1.
        - exists el, sep, None, None. repeat split; auto; discriminate.
        - exists el, sep, (Some ld), (Some rd). repeat split; auto; intros a E; inversion E; subst; cbn; auto. }
      destruct L as [el [sep [ld [rd [E [R2 [Il Ir]]]]]]]. apply andb_prop in R2. destruct R2 as [R2 R5]. apply andb_prop in R2. destruct R2 as [R2 R4]. apply andb_prop in R2. destruct R2 as [R2 R3]. apply negb_true_iff in R5.
      rewrite forallb_forall in R0.
      eapply fine_less with (p' := p) (Q := out_ok p i false true); [lia| |eapply (list_fine _ goal Rec goal args el sep ld rd p i E R2 R3 R5); auto].
      intros o l H. destruct o as [[[q j] n]|]; cbn [out_ok is_some] in *; [|exact H]. destruct H as [H1 [H2 H3]]. auto.
    + destruct args as [|pat [|? ?]]; try discriminate Ro. apply (re_fine goal pat RNode p i Ro ltac:(discriminate) Hp Hi). intros ->. vm_compute in G. discriminate G.
    + destruct args as [|pat [|? ?]]; try discriminate Ro. apply (re_fine goal pat RNone p i Ro ltac:(discriminate) Hp Hi). intros ->. vm_compute in G. inversion G. reflexivity.
  - apply andb_prop in Ok_. destruct Ok_ as [K1 K2]. apply negb_true_iff in K1. rewrite K1. unfold gives. rewrite G. apply (re_fine goal goal RNone p i K2 ltac:(discriminate) Hp Hi).
    intros ->. vm_compute in G. discriminate G.
Qed.

(* -------- the message -------- *)

Lemma log_fold : forall l m ex pos exps, fold_left log1 l (m, ex) = (pos, exps) ->
  m <= pos /\ Forall (fun y => fst y <= pos) l /\ (forall x, In x exps -> In (pos, x) l \/ (pos = m /\ In x ex)) /\ (forall x, In (pos, x) l -> In x exps) /\ (ex <> [] -> exps <> []).
Proof.
  induction l as [|[p x] l IH]; intros m ex pos exps H; cbn [fold_left] in H.
  - inversion H; subst. repeat split; auto. intros x [].
  - unfold log1 in H at 2. destruct (Nat.ltb_spec m p).
    + destruct (IH _ _ _ _ H) as [H1 [H2 [H3 [H4 H5]]]]. split; [lia|]. split; [constructor; [exact H1|exact H2]|]. split; [|split].
      * intros y Hy. destruct (H3 y Hy) as [K|[-> [<-|[]]]]; [left; right; exact K|left; left; reflexivity].
      * intros y [E|K]; [|apply H4; exact K]. inversion E; subst. clear - H. revert H. assert (K : forall l ex y, In y ex -> forall m exps, fold_left log1 l (m, ex) = (m, exps) -> In y exps).
        { induction l0 as [|[p x0] l0 IH]; intros ex0 y0 Iy m0 exps0 H0; cbn [fold_left] in H0; [inversion H0; subst; exact Iy|]. unfold log1 in H0 at 2.
          destruct (Nat.ltb_spec m0 p).
          - exfalso. assert (G : forall l m ex m' ex', fold_left log1 l (m, ex) = (m', ex') -> m <= m').
            { clear. induction l as [|[p x] l IH]; intros m ex m' ex' H; cbn [fold_left] in H; [inversion H; lia|]. unfold log1 in H at 2. destruct (Nat.ltb_spec m p); [apply IH in H; lia|]. destruct (p =? m); apply IH in H; lia. }
            apply G in H0. lia.
          - destruct (p =? m0); (eapply IH; [|exact H0]); [apply in_or_app; left; exact Iy|exact Iy]. }
        intros H. eapply K; [|exact H]. left. reflexivity.
      * intros _. apply H5. discriminate.
    + destruct (Nat.eqb_spec p m) as [->|N].
      * destruct (IH _ _ _ _ H) as [H1 [H2 [H3 [H4 H5]]]]. split; [exact H1|]. split; [constructor; [exact H1|exact H2]|]. split; [|split].
        -- intros y Hy. destruct (H3 y Hy) as [K|[-> K]]; [left; right; exact K|]. apply in_app_or in K. destruct K as [K|[<-|[]]]; [right; auto|left; left; reflexivity].
        -- intros y [E|K]; [|apply H4; exact K]. inversion E; subst.
           assert (K : forall l ex y, In y ex -> forall m exps, fold_left log1 l (m, ex) = (m, exps) -> In y exps).
           { clear. induction l as [|[p x0] l0 IH]; intros ex0 y0 Iy m0 exps0 H0; cbn [fold_left] in H0; [inversion H0; subst; exact Iy|]. unfold log1 in H0 at 2.
             destruct (Nat.ltb_spec m0 p).
             - exfalso. assert (G : forall l m ex m' ex', fold_left log1 l (m, ex) = (m', ex') -> m <= m').
               { clear. induction l as [|[p x] l IH]; intros m ex m' ex' H; cbn [fold_left] in H; [inversion H; lia|]. unfold log1 in H at 2. destruct (Nat.ltb_spec m p); [apply IH in H; lia|]. destruct (p =? m); apply IH in H; lia. }
               apply G in H0. lia.
             - destruct (p =? m0); (eapply IH; [|exact H0]); [apply in_or_app; left; exact Iy|exact Iy]. }
           eapply K; [|exact H]. apply in_or_app. right. left. reflexivity.
        -- intros _. apply H5. intros E. apply app_eq_nil in E. destruct E as [_ E]. discriminate E.
      * destruct (IH _ _ _ _ H) as [H1 [H2 [H3 [H4 H5]]]]. split; [exact H1|]. split; [constructor; [cbn; lia|exact H2]|]. split; [|split; [|exact H5]].
        -- intros y Hy. destruct (H3 y Hy) as [K|K]; [left; right; exact K|right; exact K].
        -- intros y [E|K]; [inversion E; subst; lia|apply H4; exact K].
Qed.
End Tot.
