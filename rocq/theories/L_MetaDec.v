(* What parse_emu_grammar makes of the tree (C66): no failure in the decoration, the attributes of the
   productions. *)
From Coq Require Import Ascii String.
From Verif Require Import M_Base M_HTML M_Meta L_Base L_Meta L_MetaRx L_MetaFwd L_MetaRead L_MetaRead2 L_MetaRead3 L_MetaRead4.
Open Scope string_scope.
Open Scope nat_scope.
Open Scope list_scope.
Notation length := Datatypes.length.

(* -------- decorate -------- *)

Definition dec_all : list gnode -> res unit :=
  fix all (l : list gnode) : res unit := match l with [] => Ok tt | c :: l' => do _ <- decorate c ;; all l' end.

Lemma dec_all_ok : forall l, Forall (fun n => decorate n = Ok tt) l -> dec_all l = Ok tt.
Proof. induction l as [|c l IH]; intros H; [reflexivity|]. inversion H as [|? ? H1 H2]; subst. cbn. rewrite H1. cbn. apply IH. exact H2. Qed.

Lemma decorate_eq : forall kind s e gs cs, decorate (GNode kind s e gs cs) =
  if String.eqb kind "GNT" then do _ <- two cs ;; Ok tt
  else if String.eqb kind "BUT_NOT" then
    do ex <- one cs ;;
    do _ <- (if kind_is ex "EXCLUDABLES" then assert_ (1 <? length (g_children ex)) else Ok tt) ;;
    dec_all cs
  else if String.eqb kind "BACKTICKED_THING" then match gs with [] => Err IndexError | _ :: _ => Ok tt end
  else dec_all cs.
Proof. reflexivity. Qed.

Definition plain_kind (k : string) : bool := negb (String.eqb k "GNT") && negb (String.eqb k "BUT_NOT") && negb (String.eqb k "BACKTICKED_THING").

Lemma dec_plain : forall n, plain_kind (g_kind n) = true -> Forall (fun n => decorate n = Ok tt) (g_children n) -> decorate n = Ok tt.
Proof.
  intros [kind s e gs cs] H F. cbn [g_kind g_children] in *. rewrite decorate_eq. unfold plain_kind in H. apply andb_prop in H. destruct H as [H H3]. apply andb_prop in H. destruct H as [H1 H2].
  apply negb_true_iff in H1, H2, H3. rewrite H1, H2, H3. apply dec_all_ok. exact F.
Qed.

Lemma Forall_of2 : forall A B (R : A -> B -> Prop) (P : A -> Prop) (Q : B -> Prop) l l',
  Forall2 R l l' -> Forall Q l' -> (forall a b, R a b -> Q b -> P a) -> Forall P l.
Proof.
  intros A B R P Q l l' F G H. induction F as [|a b l l' r F IH]; [constructor|]. inversion G; subst. constructor; [eapply H; eauto|auto].
Qed.
Lemma Forall_true : forall A (l : list A), Forall (fun _ => True) l.
Proof. induction l; constructor; auto. Qed.

Section Dec.
Variable t : text.

Lemma leaf_kind : forall n k w g, leaf t n k w g -> plain_kind k = true -> decorate n = Ok tt.
Proof. intros n k w g [K [_ [_ C]]] P. apply dec_plain; [rewrite K; exact P|rewrite C; constructor]. Qed.

Lemma dec_tok : forall n w, is_tok t n w -> decorate n = Ok tt.
Proof. intros [kind s e gs cs] w [K [_ [G C]]]. cbn in K, G, C. subst. rewrite decorate_eq. reflexivity. Qed.
Lemma dec_chr : forall n w, is_chr t n w -> decorate n = Ok tt.
Proof. intros n w H. eapply leaf_kind; [exact H|reflexivity]. Qed.
Lemma dec_gnt : forall n w o, is_gnt t n w o -> decorate n = Ok tt.
Proof. intros [kind s e gs cs] w o [K [_ [nt [ps [C _]]]]]. cbn in K, C. subst. rewrite decorate_eq. reflexivity. Qed.
Lemma dec_params : forall n l, is_params t n l -> decorate n = Ok tt.
Proof.
  intros n l [K [_ F]]. apply dec_plain; [rewrite K; reflexivity|]. eapply Forall_of2; [exact F|apply Forall_true|].
  intros a b L _. eapply leaf_kind; [exact L|reflexivity].
Qed.
Lemma dec_opt_params : forall n o, is_opt_params t n o -> decorate n = Ok tt.
Proof. intros n [l|] H; [eapply dec_params; exact H|eapply leaf_kind; [exact H|reflexivity]]. Qed.
Lemma dec_symbol : forall n s, is_symbol t n s -> decorate n = Ok tt.
Proof. intros n [name o|w|x] H; [eapply dec_gnt|eapply dec_tok|eapply dec_chr]; exact H. Qed.
Lemma dec_excl : forall n s, is_excl t n s -> decorate n = Ok tt.
Proof. intros n [name|w] H; [eapply leaf_kind; [exact H|reflexivity]|eapply dec_tok; exact H]. Qed.
Lemma dec_term : forall n s, is_term t n s -> decorate n = Ok tt.
Proof. intros n [w|x|] H; [eapply dec_tok; exact H|eapply dec_chr; exact H|eapply leaf_kind; [exact H|reflexivity]]. Qed.
Lemma dec_terms : forall n s, is_terms t n s -> decorate n = Ok tt.
Proof. intros n s [K F]. apply dec_plain; [rewrite K; reflexivity|]. eapply Forall_of2; [exact F|apply Forall_true|]. intros a b H _. eapply dec_term; exact H. Qed.

(* "but not one of" is followed by at least two things *)
Definition full_constr (c : constr) : Prop := match c with ButNotOneOf _ l => l <> [] | _ => True end.
Definition full_item (i : item) : Prop := match i with ICon c => full_constr c | _ => True end.
Definition full_body (b : body) : Prop := match b with BItems l => Forall full_item (ne_list l) | _ => True end.
Definition full_prod (p : gprod) : Prop :=
  match p with
  | Lines _ _ _ _ rs => Forall (fun r => full_body (r_body r)) (ne_list rs)
  | OneLine _ _ _ b => full_body b /\ match b with BRange _ _ | BProp _ | BAny => False | _ => True end
  | _ => True
  end.

Lemma dec_constr : forall n c, is_constr t n c -> full_constr c -> decorate n = Ok tt.
Proof.
  intros n c [_ H] Fu. destruct c as [neg ts|neg name|neg ss| |w|x|x l]; cbn [full_constr] in *.
  - destruct H as [K [o [l [C [Lo Ll]]]]]. apply dec_plain; [rewrite K; reflexivity|]. rewrite C. repeat constructor; [eapply leaf_kind; [exact Lo|reflexivity]|eapply dec_terms; exact Ll].
  - destruct H as [K [o [l [C [Lo Ll]]]]]. apply dec_plain; [rewrite K; reflexivity|]. rewrite C. repeat constructor; [eapply leaf_kind; [exact Lo|reflexivity]|eapply leaf_kind; [exact Ll|reflexivity]].
  - destruct H as [K [o [l [C [Lo [Kl Ll]]]]]]. apply dec_plain; [rewrite K; reflexivity|]. rewrite C. repeat constructor; [eapply leaf_kind; [exact Lo|reflexivity]|].
    apply dec_plain; [rewrite Kl; reflexivity|]. eapply Forall_of2; [exact Ll|apply Forall_true|]. intros a b H _. eapply dec_terms; exact H.
  - destruct H as [K C]. apply dec_plain; [rewrite K; reflexivity|rewrite C; constructor].
  - destruct H as [K [_ C]]. apply dec_plain; [rewrite K; reflexivity|rewrite C; constructor].
  - destruct H as [K [m [C X]]]. destruct n as [kind s e gs cs]. cbn [g_kind g_children] in *. subst. rewrite decorate_eq.
    cbn [String.eqb Ascii.eqb Bool.eqb one bind].
    assert (Km : kind_is m "EXCLUDABLES" = false) by (destruct x; destruct X as [Kx _]; unfold kind_is; rewrite Kx; reflexivity).
    rewrite Km. cbn [bind dec_all]. rewrite (dec_excl _ _ X). reflexivity.
  - destruct H as [K [m [C [Km X]]]]. destruct n as [kind s e gs cs]. cbn [g_kind g_children] in *. subst. rewrite decorate_eq.
    cbn [String.eqb Ascii.eqb Bool.eqb one bind]. unfold kind_is. rewrite Km, String.eqb_refl.
    pose proof (Forall2_length _ _ _ X) as Le. rewrite Le. cbn [length map].
    assert (Lt : 1 <? S (length (map snd l)) = true). { apply Nat.ltb_lt. destruct l; [contradiction|]. cbn. lia. }
    rewrite Lt. cbn [assert_ bind dec_all].
    assert (Dm : decorate m = Ok tt).
    { apply dec_plain; [rewrite Km; reflexivity|]. eapply Forall_of2; [exact X|apply Forall_true|]. intros a b H _. eapply dec_excl; exact H. }
    rewrite Dm. reflexivity.
Qed.

Lemma dec_item : forall n i, is_item t n i -> full_item i -> decorate n = Ok tt.
Proof.
  intros n [s []|c] H Fu.
  - destruct H as [K [_ [m [C X]]]]. apply dec_plain; [rewrite K; reflexivity|]. rewrite C. repeat constructor. eapply dec_symbol; exact X.
  - eapply dec_symbol; exact H.
  - eapply dec_constr; [exact H|exact Fu].
Qed.

Lemma dec_body : forall n b, is_body t n b -> full_body b -> decorate n = Ok tt.
Proof.
  intros n [lo hi|x| | |l] H Fu; try (eapply leaf_kind; [exact H|reflexivity]).
  destruct H as [K F]. apply dec_plain; [rewrite K; reflexivity|]. eapply Forall_of2; [exact F|exact Fu|]. intros a b H1 H2. eapply dec_item; eauto.
Qed.

Lemma dec_opt_label : forall n o, is_opt_label t n o -> decorate n = Ok tt.
Proof. intros n [l|] H; (eapply leaf_kind; [exact H|reflexivity]). Qed.

Lemma dec_line : forall n r, is_line t n r -> full_body (r_body r) -> decorate n = Ok tt.
Proof.
  intros n r [K [g [b [l [C [G [B L]]]]]]] Fu. apply dec_plain; [rewrite K; reflexivity|]. rewrite C.
  repeat constructor; [eapply dec_opt_params; exact G|eapply dec_body; eauto|eapply dec_opt_label; exact L].
Qed.

Lemma dec_toks : forall n l, is_toks t n l -> decorate n = Ok tt.
Proof. intros n l [K F]. apply dec_plain; [rewrite K; reflexivity|]. eapply Forall_of2; [exact F|apply Forall_true|]. intros a b H _. eapply dec_tok; exact H. Qed.

Lemma dec_prod : forall n x, is_prod_node t n x -> full_prod x -> decorate n = Ok tt.
Proof.
  intros n x [g [c [r [C H]]]] Fu.
  assert (P : plain_kind (g_kind n) = true) by (destruct x; destruct H as [K _]; rewrite K; reflexivity).
  apply dec_plain; [exact P|]. rewrite C.
  assert (D : decorate g = Ok tt /\ decorate c = Ok tt /\ decorate r = Ok tt).
  { destruct x as [cm lhs ps m rs|cm lhs ps m ls|lhs ps m b|lhs ps m l]; destruct H as [K [G [L H]]];
      (split; [eapply dec_gnt; exact G|]); (split; [eapply leaf_kind; [exact L|reflexivity]|]); cbn [full_prod] in Fu.
    - destruct H as [Kr F]. apply dec_plain; [rewrite Kr; reflexivity|]. eapply Forall_of2; [exact F|exact Fu|]. intros a b H1 H2. eapply dec_line; eauto.
    - destruct H as [Kr [l [Cl [Kl F]]]]. apply dec_plain; [rewrite Kr; reflexivity|]. rewrite Cl. repeat constructor.
      apply dec_plain; [rewrite Kl; reflexivity|]. eapply Forall_of2; [exact F|apply Forall_true|]. intros a b H1 _. eapply dec_toks; eauto.
    - eapply dec_body; [exact H|apply Fu].
    - destruct H as [Kr [l' [Cl F]]]. apply dec_plain; [rewrite Kr; reflexivity|]. rewrite Cl. repeat constructor. eapply dec_toks; exact F. }
  destruct D as [D1 [D2 D3]]. repeat constructor; assumption.
Qed.

(* -------- the check of the prefixes finds nothing, ever -------- *)

Inductive clean : gnode -> Prop :=
  clean_node : forall k s e gs cs, String.eqb k "OPTIONAL_PREFIX" = false -> Forall clean cs -> clean (GNode k s e gs cs).

Fixpoint clean_check (n : gnode) (H : clean n) (b : bool) {struct H} : check_param_prefix t b n = [].
Proof.
  destruct H as [k s e gs cs K F]. cbn [check_param_prefix]. rewrite K.
  revert cs F. fix go 2. intros cs F. destruct F as [|c cs Hc F]; [reflexivity|]. cbn [flat_map]. rewrite (clean_check c Hc b), (go cs F). reflexivity.
Qed.

Lemma clean_children : forall n, clean n -> Forall clean (g_children n).
Proof. intros n [k s e gs cs K F]. exact F. Qed.

Lemma goal_ok : forall goal pk rk args, mget metagrammar goal = Some (pk, rk, args) -> String.eqb goal "OPTIONAL_PREFIX" = false.
Proof. intros goal pk rk args H. destruct (String.eqb_spec goal "OPTIONAL_PREFIX") as [->|]; [discriminate H|reflexivity]. Qed.

Lemma snd_ok : forall A B (m : logged A) (k : A -> logged B) b, snd (wbind m k) = Ok b -> exists a, snd m = Ok a /\ snd (k a) = Ok b.
Proof. intros A B [l [a|x]] k b H; cbn in H; [|discriminate H]. exists a. split; [reflexivity|]. destruct (k a). exact H. Qed.

Section Clean.
Variable uniword : N -> bool.
Variable e : nat.
Variable rec : string -> nat -> option Z -> logged (option (nat * option Z * option gnode)).
Hypothesis rec_clean : forall goal p i q j n, snd (rec goal p i) = Ok (Some (q, j, Some n)) -> clean n.

Lemma alts_clean : forall rk args p i q j n, snd (attempt_alts rec rk args p i) = Ok (Some (q, j, Some n)) -> clean n.
Proof.
  intros rk args p i q j n. induction args as [|a args IH]; intros H; [discriminate H|]. cbn [attempt_alts] in H.
  apply snd_ok in H. destruct H as [[x|] [H1 H2]]; [|apply IH; exact H2]. destruct rk; cbn in H2; inversion H2; subst. eapply rec_clean; exact H1.
Qed.

Lemma opt_clean : forall goal p i q j c, snd (rec goal p i) = Ok (Some (q, j, c)) -> Forall clean (opt_list c).
Proof. intros goal p i q j [n|] H; cbn; repeat constructor. eapply rec_clean; exact H. Qed.

Lemma seq_clean : forall args p i q j cs, snd (attempt_seq rec args p i) = Ok (inl (q, j, cs)) -> Forall clean cs.
Proof.
  induction args as [|a args IH]; intros p i q j cs H; cbn [attempt_seq] in H; [inversion H; constructor|].
  apply snd_ok in H. destruct H as [[[[p' i'] c]|] [H1 H2]]; [|discriminate H2].
  apply snd_ok in H2. destruct H2 as [[[[q' j'] cs']|j'] [H2 H3]]; cbn in H3; inversion H3; subst.
  apply Forall_app. split; [eapply opt_clean; exact H1|eapply IH; exact H2].
Qed.

Lemma loop_clean : forall el sep fuel ss p i q j cs, snd (attempt_loop rec fuel el sep ss p i) = Ok (Some (q, j, cs)) -> Forall clean cs.
Proof.
  induction fuel as [|f IH]; intros ss p i q j cs H; cbn [attempt_loop] in H; [discriminate H|].
  apply snd_ok in H. destruct H as [[[[p' i'] c]|] [H1 H2]].
  - apply snd_ok in H2. destruct H2 as [[[[p'' i''] c']|] [H2 H3]].
    + apply snd_ok in H3. destruct H3 as [[[[q' j'] cs']|] [H3 H4]]; cbn in H4; inversion H4; subst.
      apply Forall_app. split; [eapply opt_clean; exact H1|eapply IH; exact H3].
    + cbn in H3. inversion H3; subst. eapply opt_clean; exact H1.
  - destruct ss; cbn in H2; inversion H2; constructor.
Qed.
End Clean.

Lemma attempt_clean : forall uniword e d goal p i q j n, snd (attempt uniword metagrammar t e d goal p i) = Ok (Some (q, j, Some n)) -> clean n.
Proof.
  intros uniword e. induction d as [|d IH]; intros goal p i q j n H; [discriminate H|]. cbn [attempt] in H.
  assert (Re : forall pat rk, (rk <> RNone -> String.eqb goal "OPTIONAL_PREFIX" = false) -> snd (attempt_re uniword t e goal pat rk p i) = Ok (Some (q, j, Some n)) -> clean n).
  { intros pat rk K H0. unfold attempt_re in H0. destruct (re_match uniword pat t p) as [[[q' gs]|]|]; try discriminate H0.
    assert (Fin : forall ind, snd (match rk with
              | RNode => wret (Ok (Some (q', ind, Some (GNode goal p q' gs []))))
              | RUp => wret (Err AssertionError)
              | RNone => wret (Ok (Some (q', ind, None)))
              end) = Ok (Some (q, j, Some n)) -> clean n).
    { intros ind H1. destruct rk; cbn in H1; inversion H1; subst. apply clean_node; [apply K; discriminate|constructor]. }
    destruct (String.eqb goal "INDENT"). { apply snd_ok in H0. destruct H0 as [a [_ H0]]. apply (Fin a H0). }
    destruct (String.eqb goal "OUTDENT"). { apply snd_ok in H0. destruct H0 as [a [_ H0]]. apply (Fin a H0). }
    destruct (String.eqb goal "NLAI"). { destruct (negb _); [discriminate H0|]. destruct (negb _); [discriminate H0|]. apply (Fin _ H0). }
    destruct (String.eqb goal "EOI"). { destruct (_ <? _); [discriminate H0|]. apply (Fin _ H0). }
    apply (Fin _ H0). }
  destruct (mget metagrammar goal) as [[[pk rk] args]|] eqn:G.
  - pose proof (goal_ok _ _ _ _ G) as K. destruct pk.
    + eapply alts_clean; [exact IH|exact H].
    + unfold attempt_cat in H. apply snd_ok in H. destruct H as [[[[q' j'] cs]|j'] [H1 H2]]; [|discriminate H2].
      apply (seq_clean _ IH) in H1. destruct rk; cbn in H2; try discriminate H2; [inversion H2; subst; apply clean_node; assumption|].
      destruct cs as [|c [|? ?]]; inversion H2; subst. inversion H1; subst; assumption.
    + unfold attempt_opt in H. apply snd_ok in H. destruct H as [[[[q' j'] cs]|j'] [H1 H2]].
      * apply (seq_clean _ IH) in H1. destruct rk; cbn in H2; try discriminate H2; [inversion H2; subst; apply clean_node; assumption|].
        destruct cs as [|c [|? ?]]; inversion H2; subst. inversion H1; subst; assumption.
      * destruct rk; cbn in H2; inversion H2; subst; apply clean_node; try constructor; exact K.
    + unfold attempt_list in H.
      destruct (match args with [e0; s] => _ | _ => _ end) as [[[[el sep] ld] rd]|]; [|discriminate H].
      apply snd_ok in H. destruct H as [[[p0 i0]|] [_ H]]; [|discriminate H].
      apply snd_ok in H. destruct H as [[[[p1 i1] cs]|] [H1 H]]; [|discriminate H].
      apply snd_ok in H. destruct H as [[[p2 i2]|] [_ H]]; cbn in H; inversion H; subst.
      apply clean_node; [exact K|]. eapply loop_clean; [exact IH|exact H1].
    + destruct args as [|pat [|? ?]]; try discriminate H. eapply Re; [|exact H]. intros _; exact K.
  - destruct (looks_like_name goal); [discriminate H|]. eapply Re; [|exact H]. intros X. contradiction.
Qed.

(* -------- the reduced forms -------- *)

Lemma joined_sep : forall sep l x, joined sep (x :: l) = sep_by sep (fun y => y) (x, l).
Proof.
  intros sep l. induction l as [|y l IH]; intros x; [unfold sep_by; cbn; rewrite app_nil_r; reflexivity|].
  change (joined sep (x :: y :: l)) with (x ++ sep ++ joined sep (y :: l)). rewrite IH. unfold sep_by. cbn. rewrite <- !app_assoc. reflexivity.
Qed.

Lemma kind_in_spec : forall n ks, kind_in n ks = existsb (String.eqb (g_kind n)) ks.
Proof. reflexivity. Qed.

Lemma reduce_symbol_tok : forall n w, is_tok t n w -> reduce_item t n = Ok (Some (w_tok w)).
Proof. intros n w [K [S _]]. unfold reduce_item, kind_in. rewrite K. cbn. rewrite S. reflexivity. Qed.
Lemma reduce_symbol_chr : forall n w, is_chr t n w -> reduce_item t n = Ok (Some (w_chr w)).
Proof. intros n w [K [S _]]. unfold reduce_item, kind_in. rewrite K. cbn. rewrite S. reflexivity. Qed.

Lemma reduce_item_ok : forall n i, is_item t n i -> reduce_item t n = Ok (match red_item i with x :: _ => Some x | [] => None end) /\ length (red_item i) <= 1.
Proof.
  intros n [s []|c] H.
  - destruct H as [K [S [m [C X]]]]. unfold reduce_item, kind_in, kind_is. rewrite K, C. cbn [existsb String.eqb Ascii.eqb Bool.eqb orb one bind].
    destruct s as [name o|w|x]; cbn [is_symbol] in X.
    + destruct X as [Km [_ [nt [ps [Cm [Ln _]]]]]]. rewrite Km, Cm. cbn. split; [|lia]. destruct Ln as [_ [Sn _]]. rewrite Sn. reflexivity.
    + destruct X as [Km [Sm _]]. rewrite Km. cbn. rewrite Sm. split; [reflexivity|lia].
    + destruct X as [Km [Sm _]]. rewrite Km. cbn. rewrite Sm. split; [reflexivity|lia].
  - cbn [is_item] in H. destruct s as [name o|w|x]; cbn [is_symbol] in H.
    + destruct H as [Km [_ [nt [ps [Cm [Ln _]]]]]]. unfold reduce_item, kind_in, kind_is. rewrite Km, Cm. cbn. destruct Ln as [_ [Sn _]]. rewrite Sn, app_nil_r. split; [reflexivity|lia].
    + rewrite (reduce_symbol_tok _ _ H). cbn. rewrite app_nil_r. split; [reflexivity|lia].
    + rewrite (reduce_symbol_chr _ _ H). cbn [red_item w_item w_symbol]. rewrite app_nil_r. split; [reflexivity|cbn; lia].
  - split; [|cbn; lia]. destruct H as [_ H]. unfold reduce_item, kind_in, kind_is.
    assert (K : In (g_kind n) ["LAC_SINGLE"; "LAC_SET"; "NLTH"; "BUT_ONLY"; "BUT_NOT"]).
    { destruct c; destruct H as [K _]; rewrite K; cbn; tauto. }
    cbn in K. destruct K as [K|[K|[K|[K|[K|[]]]]]]; rewrite <- K; reflexivity.
Qed.

Lemma reduce_items_ok : forall ns l, Forall2 (is_item t) ns l -> exists ps, mapM (reduce_item t) ns = Ok ps /\ flat_map opt_list ps = flat_map red_item l.
Proof.
  intros ns l F. induction F as [|n i ns l R F [ps [E1 E2]]]; [exists []; split; reflexivity|].
  destruct (reduce_item_ok n i R) as [E L]. exists (match red_item i with x :: _ => Some x | [] => None end :: ps). cbn [mapM]. rewrite E, E1. split; [reflexivity|].
  cbn [flat_map]. rewrite E2. f_equal. destruct (red_item i) as [|x [|y l']]; [reflexivity|reflexivity|cbn in L; lia].
Qed.

Definition opt_items (b : bool) (n : gnode) : list gnode := if b then [n] else [].

Lemma mapM_app : forall A B (f : A -> res B) l l' r r', mapM f l = Ok r -> mapM f l' = Ok r' -> mapM f (l ++ l') = Ok (r ++ r').
Proof.
  intros A B f l. induction l as [|a l IH]; intros l' r r' H H'; cbn in *; [inversion H; exact H'|].
  destruct (f a) as [b|]; cbn in *; [|discriminate]. destruct (mapM f l) as [bs|] eqn:E; cbn in *; [|discriminate]. inversion H; subst. rewrite (IH _ _ _ eq_refl H'). reflexivity.
Qed.

Lemma reduce_guard : forall g o, is_guard_items t g o -> exists ps, mapM (reduce_item t) g = Ok ps /\ flat_map opt_list ps = [].
Proof.
  intros g [l|] H; cbn in H; [|subst; exists []; split; reflexivity]. destruct H as [n [-> [K _]]]. exists [None]. cbn. unfold reduce_item, kind_in, kind_is. rewrite K. split; reflexivity.
Qed.
Lemma reduce_label : forall g o, is_label_items t g o -> exists ps, mapM (reduce_item t) g = Ok ps /\ flat_map opt_list ps = [].
Proof.
  intros g [l|] H; cbn in H; [|subst; exists []; split; reflexivity]. destruct H as [n [-> [K _]]]. exists [None]. cbn. unfold reduce_item, kind_in, kind_is. rewrite K. split; reflexivity.
Qed.

Lemma reduce_body : forall ns b, is_body_items t ns b -> exists ps, mapM (reduce_item t) ns = Ok ps /\ joined (tx " ") (flat_map opt_list ps) = red_body b.
Proof.
  intros ns [lo hi|x| | |l] H; cbn [is_body_items] in H.
  - destruct H as [n [-> [K [S _]]]]. eexists. cbn [mapM]. unfold reduce_item, kind_in. rewrite K. cbn [existsb String.eqb Ascii.eqb Bool.eqb orb bind]. split; [reflexivity|].
    cbn [flat_map opt_list app joined]. exact S.
  - destruct H as [n [-> [K [S _]]]]. eexists. cbn [mapM]. unfold reduce_item, kind_in. rewrite K. cbn [existsb String.eqb Ascii.eqb Bool.eqb orb bind]. split; [reflexivity|].
    cbn [flat_map opt_list app joined]. exact S.
  - destruct H as [n [-> [K [S _]]]]. eexists. cbn [mapM]. unfold reduce_item, kind_in. rewrite K. cbn [existsb String.eqb Ascii.eqb Bool.eqb orb bind]. split; [reflexivity|].
    cbn [flat_map opt_list app joined]. exact S.
  - subst. exists []. split; reflexivity.
  - destruct (reduce_items_ok _ _ H) as [ps [E1 E2]]. exists ps. split; [exact E1|]. rewrite E2. cbn [red_body].
    destruct (flat_map red_item (ne_list l)) as [|x l']; [reflexivity|]. apply joined_sep.
Qed.

(* -------- productions -------- *)

Definition says_label (r : rhs) : Prop := r_label r <> Some [].

Lemma bind_Ok : forall A B (a : A) (k : A -> res B), bind (Ok a) k = k a.
Proof. reflexivity. Qed.

Lemma line_items : forall n r, is_line t n r -> says_label r ->
  exists items red, rhs_line_items t n = Ok (n, items) /\ reduce_rhs t items = Ok red /\ is_rhs t (n, items, red) r.
Proof.
  intros n [gu b la] [K [g [bn [ln [C [G [B L]]]]]]] Sl. cbn [r_guard r_body r_label] in *. unfold says_label in Sl. cbn [r_label] in Sl.
  set (gi := match g_text t g with [] => [] | _ => [g] end). set (li := match g_text t ln with [] => [] | _ => [ln] end).
  assert (Gi : is_guard_items t gi gu).
  { unfold gi. destruct gu as [l|]; cbn [is_opt_params is_guard_items] in *.
    - exists g. split; [|exact G]. destruct G as [_ [S _]]. unfold says in S. rewrite S. reflexivity.
    - destruct G as [_ [S _]]. unfold says in S. rewrite S. reflexivity. }
  assert (Li : is_label_items t li la).
  { unfold li. destruct la as [l|]; cbn [is_opt_label is_label_items] in *.
    - destruct l as [|c l]; [exfalso; apply Sl; reflexivity|]. exists ln. split; [|exact L]. destruct L as [_ [S _]]. unfold says in S. rewrite S. reflexivity.
    - destruct L as [_ [S _]]. unfold says in S. rewrite S. reflexivity. }
  set (bi := match b with BEmpty => [] | BItems _ => g_children bn | _ => [bn] end).
  assert (Bi : is_body_items t bi b).
  { unfold bi. destruct b as [lo hi|x| | |l]; cbn [is_body is_body_items] in *; try (eexists; split; [reflexivity|exact B]); [reflexivity|apply B]. }
  assert (Eb : (if kind_is bn "EMPTY" then Ok []
     else if kind_in bn ["U_RANGE"; "U_PROP"; "U_ANY"] then Ok [bn]
     else if kind_is bn "RHS_ITEMS" then Ok (g_children bn)
     else Err AssertionError) = Ok bi).
  { unfold bi, kind_is, kind_in. destruct b as [lo hi|x| | |l]; cbn [is_body] in B; destruct B as [Kb _]; rewrite Kb; reflexivity. }
  exists (gi ++ bi ++ li).
  destruct (reduce_guard _ _ Gi) as [p1 [E1 F1]]. destruct (reduce_body _ _ Bi) as [p2 [E2 F2]]. destruct (reduce_label _ _ Li) as [p3 [E3 F3]].
  exists (red_body b). split; [|split].
  - unfold rhs_line_items. unfold kind_is at 1. rewrite K, String.eqb_refl. cbn [assert_]. rewrite bind_Ok, C. cbn [three]. rewrite bind_Ok. cbv beta iota. rewrite Eb, bind_Ok. reflexivity.
  - unfold reduce_rhs. rewrite (mapM_app _ _ _ _ _ _ _ E1 (mapM_app _ _ _ _ _ _ _ E2 E3)). rewrite bind_Ok. f_equal.
    rewrite !flat_map_app, F1, F3, app_nil_r. exact F2.
  - split; [exact K|]. split; [reflexivity|]. exists gi, bi, li. split; [reflexivity|]. auto.
Qed.

Definition with_red (x : gnode * list gnode) : res (gnode * list gnode * text) := do red <- reduce_rhs t (snd x) ;; Ok (fst x, snd x, red).

Lemma lines_items : forall ns rs, Forall2 (is_line t) ns rs -> Forall says_label rs ->
  exists xs ys, mapM (rhs_line_items t) ns = Ok xs /\ mapM with_red xs = Ok ys /\ Forall2 (is_rhs t) ys rs.
Proof.
  intros ns rs F. induction F as [|n r ns rs R F IH]; intros S; [exists [], []; repeat split; constructor|].
  inversion S as [|? ? S1 S2]; subst. destruct (IH S2) as [xs [ys [E1 [E2 F']]]]. destruct (line_items n r R S1) as [items [red [A1 [A2 A3]]]].
  exists ((n, items) :: xs), ((n, items, red) :: ys). cbn [mapM]. rewrite A1, E1. unfold with_red at 1. cbn [snd fst]. rewrite A2, E2.
  repeat split. constructor; assumption.
Qed.

Lemma toks_items : forall ns l, Forall2 (is_tok t) ns l -> exists ys, mapM with_red (map (fun b => (b, [b])) ns) = Ok ys /\ Forall2 (is_tok_rhs t) ys l.
Proof.
  intros ns l F. induction F as [|n w ns l R F [ys [E F']]]; [exists []; split; [reflexivity|constructor]|].
  exists ((n, [n], w_tok w) :: ys). cbn [map mapM]. unfold with_red at 1, reduce_rhs. cbn [snd fst mapM]. rewrite (reduce_symbol_tok _ _ R). cbn [bind].
  cbn [flat_map opt_list app joined]. rewrite E. split; [reflexivity|]. constructor; [|exact F']. split; [reflexivity|]. split; [reflexivity|exact R].
Qed.

Lemma tok_lines_items : forall ns ls, Forall2 (is_toks t) ns ls ->
  exists xs ys, mapM (fun l => do _ <- assert_ (kind_is l "BACKTICKED_THINGS") ;; Ok (map (fun b => (b, [b])) (g_children l))) ns = Ok xs /\
    mapM with_red (List.concat xs) = Ok ys /\ Forall2 (is_tok_rhs t) ys (flat_map ne_list ls).
Proof.
  intros ns ls F. induction F as [|n l ns ls [K R] F [xs [ys [E1 [E2 F']]]]]; [exists [], []; repeat split; constructor|].
  destruct (toks_items _ _ R) as [zs [E3 F3]]. exists (map (fun b => (b, [b])) (g_children n) :: xs), (zs ++ ys). cbn [mapM]. unfold kind_is at 1. rewrite K, String.eqb_refl. cbn [assert_ bind].
  rewrite E1. split; [reflexivity|]. cbn [List.concat]. rewrite (mapM_app _ _ _ _ _ _ _ E3 E2). split; [reflexivity|]. cbn [flat_map]. apply Forall2_app; assumption.
Qed.

Lemma params_names : forall n o, is_opt_params t n o ->
  kind_in n ["OMITTED_OPTIONAL"; "PARAMS"] = true /\
  mapM (fun p => match nth_error (g_groups p) 1 with Some n => Ok n | None => Err IndexError end) (g_children n)
    = Ok (match o with Some l => map snd (ne_list l) | None => [] end).
Proof.
  intros n [l|] H; cbn [is_opt_params] in H.
  - destruct H as [K [_ F]]. unfold kind_in. rewrite K. split; [reflexivity|].
    induction F as [|a b la lb [_ [_ [G _]]] F IH]; [reflexivity|]. cbn [mapM map]. rewrite G. change (nth_error [w_prefix (fst b); snd b] 1) with (Some (snd b)). cbv iota. rewrite bind_Ok, IH. reflexivity.
  - destruct H as [K [_ [_ C]]]. unfold kind_in. rewrite K, C. split; reflexivity.
Qed.

Definition labels_said (x : gprod) : Prop := match x with Lines _ _ _ _ rs => Forall says_label (ne_list rs) | _ => True end.

Lemma do_production_ok : forall n x, is_prod_node t n x -> full_prod x -> labels_said x -> clean n ->
  exists d, do_production t n = Ok (d, []) /\ is_prod t d x /\ dp_node d = n.
Proof.
  intros n x [g [c [r [C H]]]] Fu La Cl.
  assert (G : exists lhs ps m, is_gnt t g lhs ps /\ leaf t c "COLONS" (repeat 58%N m) [] /\
     (forall d, has_left d lhs ps m -> forall ys, dp_rhss d = ys ->
        (match x with
         | Lines _ _ _ _ rs => Forall2 (is_rhs t) ys (ne_list rs)
         | LinesOneOf _ _ _ _ ls => Forall2 (is_tok_rhs t) ys (flat_map ne_list (ne_list ls))
         | OneLine _ _ _ b => exists y, ys = [y] /\ is_oneline_rhs t y b
         | OneLineOneOf _ _ _ l => Forall2 (is_tok_rhs t) ys (ne_list l)
         end) -> is_prod t d x)).
  { destruct x as [cm lhs ps m rs|cm lhs ps m ls|lhs ps m b|lhs ps m l]; destruct H as [K [G [L H]]]; exists lhs, ps, m; (split; [exact G|]); (split; [exact L|]);
      intros d Hl ys <- Hy; (split; [exact Hl|exact Hy]). }
  destruct G as [lhs [ps [m [Hg [Hc Hp]]]]].
  destruct Hg as [_ [_ [nt [pn [Cg [Ln Hps]]]]]]. destruct (params_names _ _ Hps) as [Kp Ep].
  assert (Ms : check_param_prefix t false pn ++ check_param_prefix t true r = []).
  { apply clean_children in Cl. rewrite C in Cl. inversion Cl as [|? ? Cl1 Cl2]; subst. inversion Cl2 as [|? ? _ Cl3]; subst. inversion Cl3 as [|? ? Cl4 _]; subst.
    apply clean_children in Cl1. rewrite Cg in Cl1. inversion Cl1 as [|? ? _ Cl5]; subst. inversion Cl5 as [|? ? Cl6 _]; subst.
    rewrite (clean_check _ Cl6), (clean_check _ Cl4). reflexivity. }
  assert (Rh : exists xs ys, rhss_of t n r = Ok xs /\ mapM with_red xs = Ok ys /\
     match x with
     | Lines _ _ _ _ rs => Forall2 (is_rhs t) ys (ne_list rs)
     | LinesOneOf _ _ _ _ ls => Forall2 (is_tok_rhs t) ys (flat_map ne_list (ne_list ls))
     | OneLine _ _ _ b => exists y, ys = [y] /\ is_oneline_rhs t y b
     | OneLineOneOf _ _ _ l => Forall2 (is_tok_rhs t) ys (ne_list l)
     end).
  { clear - H Fu La. unfold rhss_of, kind_is.
    destruct x as [cm lhs ps m rs|cm lhs ps m ls|lhs ps m b|lhs ps m l]; destruct H as [K [_ [_ H]]]; rewrite K; cbn [String.eqb Ascii.eqb Bool.eqb]; cbn [full_prod labels_said] in *.
    - destruct H as [Kr F]. rewrite Kr. cbn [String.eqb Ascii.eqb Bool.eqb]. apply lines_items; assumption.
    - destruct H as [Kr [l [Cr [Kl F]]]]. rewrite Kr, Cr. cbn [String.eqb Ascii.eqb Bool.eqb one]. rewrite bind_Ok, Kl, String.eqb_refl. cbn [assert_]. rewrite bind_Ok.
      destruct (tok_lines_items _ _ F) as [xs [ys [E1 [E2 F']]]]. exists (List.concat xs), ys. unfold kind_is in E1. rewrite E1, bind_Ok. auto.
    - destruct Fu as [_ Fu]. destruct b as [lo hi|x| | |l]; try contradiction; cbn [is_body] in H; destruct H as [Kr H]; rewrite Kr; cbn [String.eqb Ascii.eqb Bool.eqb].
      + exists [(r, [])], [(r, [], [])]. split; [reflexivity|]. split; [reflexivity|]. eexists. split; [reflexivity|]. split; reflexivity.
      + assert (Bi : is_body_items t (g_children r) (BItems l)) by exact H.
        destruct (reduce_body _ _ Bi) as [p [E1 E2]]. exists [(r, g_children r)], [(r, g_children r, red_body (BItems l))]. split; [reflexivity|].
        split; [|eexists; split; [reflexivity|]; split; [reflexivity|exact Bi]].
        cbn [mapM]. unfold with_red at 1, reduce_rhs. cbn [fst snd]. rewrite E1, bind_Ok, E2. reflexivity.
    - destruct H as [Kr [l' [Cr [Kl F]]]]. rewrite Kr, Cr. cbn [String.eqb Ascii.eqb Bool.eqb one]. rewrite bind_Ok.
      destruct (toks_items _ _ F) as [ys [E F']]. eexists. exists ys. split; [reflexivity|]. auto. }
  destruct Rh as [xs [ys [E1 [E2 F]]]].
  eexists. split; [|split; [|]].
  - unfold do_production. rewrite C. cbn [three]. rewrite bind_Ok. cbv beta iota. rewrite Cg. cbn [two]. rewrite bind_Ok. cbv beta iota. rewrite Kp. cbn [assert_]. rewrite bind_Ok.
    rewrite Ep, bind_Ok, E1, bind_Ok. unfold with_red in E2. rewrite E2, bind_Ok, Ms. reflexivity.
  - eapply Hp; [|reflexivity|exact F]. destruct Ln as [_ [Sn _]]. destruct Hc as [_ [Sc _]]. unfold says in Sn, Sc. unfold has_left. cbn. rewrite Sn, Sc, repeat_length. auto.
  - reflexivity.
Qed.

Lemma do_productions_ok : forall ns xs, Forall2 (is_prod_node t) ns xs -> Forall full_prod xs -> Forall labels_said xs -> Forall clean ns ->
  exists ds, mapM (do_production t) ns = Ok (map (fun d => (d, [])) ds) /\ Forall2 (is_prod t) ds xs.
Proof.
  intros ns xs F. induction F as [|n x ns xs R F IH]; intros Fu La Cl; [exists []; split; [reflexivity|constructor]|].
  inversion Fu; inversion La; inversion Cl; subst. destruct (do_production_ok n x) as [d [E [P _]]]; auto. destruct IH as [ds [E' P']]; auto.
  exists (d :: ds). cbn [mapM map]. rewrite E, E'. split; [reflexivity|]. constructor; assumption.
Qed.
End Dec.

(* -------- the whole -------- *)

Lemma simple_parse_ok : forall uniword t goal p e i n,
  snd (attempt uniword metagrammar t e (length metagrammar + 2) goal p i) = Ok (Some (e, i, Some n)) ->
  simple_parse uniword metagrammar t goal p e i = Ok (inl (Some n)).
Proof.
  intros uniword t goal p e i n H. unfold simple_parse. destruct (attempt uniword metagrammar t e (length metagrammar + 2) goal p i) as [l r]. cbn [snd] in H. subst r.
  cbn [bind]. rewrite Nat.eqb_refl. cbn [assert_ bind]. destruct i as [z|]; cbn; [rewrite Z.eqb_refl|]; reflexivity.
Qed.

Lemma line_start_skip : forall l i best, ~ In 10%N l -> line_start_from i best l = best.
Proof.
  induction l as [|c l IH]; intros i best H; [reflexivity|]. cbn. destruct (N.eqb_spec c 10); [exfalso; apply H; left; congruence|]. apply IH. intros I. apply H. right. exact I.
Qed.

Lemma line_start_app : forall a b i best, line_start_from i best (a ++ b) = line_start_from (i + length a) (line_start_from i best a) b.
Proof.
  induction a as [|c a IH]; intros b i best; cbn; [rewrite Nat.add_0_r; reflexivity|]. rewrite IH. f_equal. lia.
Qed.

Lemma line_start_at : forall pre ind rest, (pre = [] \/ exists q, pre = q ++ [10%N]) -> ~ In 10%N ind ->
  line_start (pre ++ ind ++ rest) (length pre + length ind) = length pre.
Proof.
  intros pre ind rest Hp Hi. unfold line_start. rewrite app_assoc, <- app_length. rewrite firstn_app, firstn_all, Nat.sub_diag. cbn [firstn]. rewrite app_nil_r.
  rewrite line_start_app, line_start_skip by exact Hi. destruct Hp as [->|[q ->]]; [reflexivity|]. rewrite line_start_app, app_length. cbn. lia.
Qed.

Lemma label_said : forall uniword x, wf_prod uniword x -> labels_said x.
Proof.
  intros uniword [cm lhs ps n rs| | |] W; cbn in *; auto. destruct W as [_ W]. apply Forall_impl with (2 := W). intros r [_ [_ L]] E. destruct (L _ E) as [w [Ew _]]. discriminate Ew.
Qed.
