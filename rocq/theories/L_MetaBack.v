(* What has been read is what was written (C66): the rules, and the goals up to the symbols. *)
From Coq Require Import Ascii String.
From Verif Require Import M_Base M_HTML M_Meta L_Base L_Meta L_MetaRx L_MetaFwd L_MetaRead L_MetaDec.
Open Scope string_scope.
Open Scope nat_scope.
Open Scope list_scope.
Notation length := Datatypes.length.

Section Back.
Variable uniword : N -> bool.
Notation word_of := (word_of uniword).
Notation set_has := (set_has uniword).
Notation wordb := (wordb uniword).
Variables (t : text) (e : nat).
Notation run d goal p i := (snd (attempt uniword metagrammar t e d goal p i)).
Notation seq d args p i := (snd (attempt_seq (attempt uniword metagrammar t e d) args p i)).

(* -------- the words of the regular expressions -------- *)

Lemma word_seq_chr : forall k b w g, word_of (RSeq (RSet false [CRange k k]) b) w g -> exists v, w = k :: v /\ word_of b v g.
Proof.
  intros k b w g W. inversion W as [| |? ? u v g1 h W1 W2| | | | |]; subst. inversion W1 as [|? ? c H| | | | | |]; subst.
  assert (c = k). { clear - H. unfold M_Meta.set_has in H. cbn in H. unfold in_range in H. destruct (N.leb_spec k c), (N.leb_spec c k); cbn in H; try discriminate H. lia. }
  subst c. exists v. split; [reflexivity|exact W2].
Qed.

Lemma word_seq_set : forall neg its b w g, word_of (RSeq (RSet neg its) b) w g -> exists c v, w = c :: v /\ set_has neg its c = true /\ word_of b v g.
Proof.
  intros neg its b w g W. inversion W as [| |? ? u v g1 h W1 W2| | | | |]; subst. inversion W1 as [|? ? c H| | | | | |]; subst.
  exists c, v. auto.
Qed.

Lemma word_seq : forall a b w g, word_of (RSeq a b) w g -> exists u v g1 g2, w = u ++ v /\ g = g1 ++ g2 /\ word_of a u g1 /\ word_of b v g2.
Proof. intros a b w g W. inversion W as [| |? ? u v g1 h W1 W2| | | | |]; subst. exists u, v, g1, h. auto. Qed.

Lemma word_eps : forall w g, word_of REps w g -> w = [] /\ g = [].
Proof. intros w g W. inversion W. auto. Qed.

Lemma word_seq_eps : forall a w g, word_of (RSeq a REps) w g -> word_of a w g.
Proof. intros a w g W. apply word_seq in W. destruct W as [u [v [g1 [g2 [-> [-> [W1 W2]]]]]]]. apply word_eps in W2. destruct W2 as [-> ->]. rewrite !app_nil_r. exact W1. Qed.

Lemma word_alt : forall a b w g, word_of (RAlt a b) w g -> word_of a w g \/ word_of b w g.
Proof. intros a b w g W. inversion W; auto. Qed.

Lemma word_group : forall a w g, word_of (RGroup a) w g -> exists g', g = w :: g' /\ word_of a w g'.
Proof. intros a w g W. inversion W; subst. eauto. Qed.

Lemma word_plus : forall neg its w g, word_of (RSeq (RSet neg its) (RStar (RSet neg its))) w g -> g = [] /\ w <> [] /\ forallb (set_has neg its) w = true.
Proof.
  intros neg its w g W. apply word_seq_set in W. destruct W as [c [v [-> [H W]]]]. apply word_star_set in W. destruct W as [-> F].
  split; [reflexivity|]. split; [discriminate|]. cbn. rewrite H. exact F.
Qed.

Ltac chr H := let v := fresh "v" in apply word_seq_chr in H; destruct H as [v [-> H]].
Ltac chrs H := repeat chr H.

Lemma words_nt : forall w g, word_of rx_nt w g -> g = [] /\ wf_nt uniword w.
Proof.
  intros w g W. unfold rx_nt in W. apply word_alt in W. destruct W as [W|W]; [|apply word_alt in W; destruct W as [W|W]].
  - apply word_seq_set in W. destruct W as [c [v [-> [H W]]]]. apply word_seq_eps in W. apply word_star_set in W. destruct W as [-> F].
    split; [reflexivity|]. left. exists c, v. split; [reflexivity|]. split; [rewrite <- (sh_upper uniword); exact H|apply (forallb_eq _ _ _ _ (fun c => eq_sym (sh_word uniword c)) F)].
  - chrs W. apply word_seq_eps in W. apply word_star_set in W. destruct W as [-> F].
    split; [reflexivity|]. right. left. eexists. split; [reflexivity|]. apply (forallb_eq _ _ _ _ (fun c => eq_sym (sh_word uniword c)) F).
  - chrs W. apply word_eps in W. destruct W as [-> ->]. split; [reflexivity|]. right. right. reflexivity.
Qed.

Lemma words_param : forall w g, word_of rx_param w g -> exists x, w = w_param x /\ g = [w_prefix (fst x); snd x] /\ wf_param x.
Proof.
  intros w g W. unfold rx_param in W. apply word_seq in W. destruct W as [u [v [g1 [g2 [-> [-> [W1 W2]]]]]]].
  apply word_group in W1. destruct W1 as [g1' [-> W1]]. apply word_seq_eps in W1.
  apply word_seq_eps in W2. apply word_group in W2. destruct W2 as [g2' [-> W2]].
  apply word_seq_set in W2. destruct W2 as [c [v' [-> [H W]]]]. apply word_seq_eps in W. apply word_star_set in W. destruct W as [-> F].
  rewrite (sh_upper uniword) in H.
  assert (P : exists x, u = w_prefix x /\ g1' = []).
  { apply word_alt in W1. destruct W1 as [W1|W1].
    - inversion W1 as [|? ? c0 H0| | | | | |]; subst. assert (E : c0 = 126%N \/ c0 = 43%N \/ c0 = 63%N).
      { clear - H0. unfold M_Meta.set_has in H0. cbn in H0. unfold in_range in H0.
        destruct (N.leb_spec 126 c0), (N.leb_spec c0 126), (N.leb_spec 43 c0), (N.leb_spec c0 43), (N.leb_spec 63 c0), (N.leb_spec c0 63); cbn in H0; try discriminate H0; lia. }
      destruct E as [-> |[-> | -> ]]; [exists Tilde|exists Plus|exists Quest]; split; reflexivity.
    - apply word_eps in W1. destruct W1 as [-> ->]. exists NoPrefix. split; reflexivity. }
  destruct P as [x [-> ->]]. exists (x, c :: v'). split; [reflexivity|]. split; [reflexivity|]. exists c, v'. split; [reflexivity|]. split; [exact H|].
  apply (forallb_eq _ _ _ _ (fun c => eq_sym (sh_letter uniword c)) F).
Qed.

Lemma words_tok : forall w g, word_of rx_tok w g -> exists x, w = w_tok x /\ g = [x] /\ wf_tok x.
Proof.
  intros w g W. unfold rx_tok in W. chr W. apply word_seq in W. destruct W as [u [v' [g1 [g2 [-> [-> [W1 W2]]]]]]]. chr W2. apply word_eps in W2. destruct W2 as [-> ->].
  apply word_group in W1. destruct W1 as [g' [-> W1]]. exists u. split; [reflexivity|]. apply word_alt in W1. destruct W1 as [W1|W1].
  - apply word_seq_eps in W1. apply word_plus in W1. destruct W1 as [-> [N0 F]]. split; [reflexivity|]. right. split; [exact N0|].
    rewrite forallb_forall in F. apply Forall_forall. intros c I. specialize (F c I). clear - F. unfold M_Meta.set_has in F. cbn in F. unfold in_range in F.
    destruct (N.leb_spec 96 c), (N.leb_spec c 96), (N.leb_spec 32 c), (N.leb_spec c 32); cbn in F; try discriminate F; lia.
  - chr W1. apply word_eps in W1. destruct W1 as [-> ->]. split; [reflexivity|]. left. reflexivity.
Qed.

Lemma words_chr : forall w g, word_of rx_chr w g -> exists x, w = w_chr x /\ g = [x] /\ wf_chr x.
Proof.
  intros w g W. unfold rx_chr in W. do 4 chr W. apply word_seq in W. destruct W as [u [v' [g1 [g2 [-> [-> [W1 W2]]]]]]]. chrs W2. apply word_eps in W2. destruct W2 as [-> ->].
  apply word_group in W1. destruct W1 as [g' [-> W1]]. exists u. apply word_seq_eps in W1. apply word_plus in W1. destruct W1 as [-> [N0 F]].
  split; [reflexivity|]. split; [reflexivity|]. split; [exact N0|]. apply (forallb_eq _ _ _ _ (fun c => eq_sym (sh_upper uniword c)) F).
Qed.

Lemma words_label : forall w g, word_of rx_label w g -> g = [] /\ wf_label uniword w.
Proof.
  intros w g W. unfold rx_label in W. chr W. apply word_seq_eps in W. apply word_plus in W. destruct W as [-> [N0 F]]. split; [reflexivity|].
  eexists. split; [reflexivity|]. split; [exact N0|]. apply (forallb_eq _ _ _ _ (fun c => eq_sym (sh_word uniword c)) F).
Qed.

Lemma all_same : forall k w, forallb (set_has false [CRange k k]) w = true -> w = repeat k (length w).
Proof.
  intros k. induction w as [|c w IH]; intros H; [reflexivity|]. cbn in H. apply andb_prop in H. destruct H as [H1 H2]. cbn [length repeat]. rewrite <- (IH H2). f_equal.
  clear - H1. unfold M_Meta.set_has in H1. cbn in H1. unfold in_range in H1. destruct (N.leb_spec k c), (N.leb_spec c k); cbn in H1; try discriminate H1. lia.
Qed.

Lemma words_colons : forall w g, word_of rx_colons w g -> g = [] /\ exists n, 1 <= n /\ w = repeat 58%N n.
Proof.
  intros w g W. unfold rx_colons in W. apply word_seq_eps in W. apply word_plus in W. destruct W as [-> [N0 F]]. split; [reflexivity|]. exists (length w).
  split; [destruct w; [contradiction|cbn; lia]|apply all_same; exact F].
Qed.

Lemma words_butonly : forall w g, word_of rx_butonly w g -> exists x, w = tx "[> but only if " ++ x ++ tx "]" /\ g = [x] /\ x <> [] /\ Forall (fun c => c <> 91%N /\ c <> 93%N) x.
Proof.
  intros w g W. unfold rx_butonly in W. do 15 chr W. apply word_seq in W. destruct W as [u [v' [g1 [g2 [-> [-> [W1 W2]]]]]]]. chrs W2. apply word_eps in W2. destruct W2 as [-> ->].
  apply word_group in W1. destruct W1 as [g' [-> W1]]. exists u. apply word_seq_eps in W1. apply word_plus in W1. destruct W1 as [-> [N0 F]].
  split; [reflexivity|]. split; [reflexivity|]. split; [exact N0|].
  rewrite forallb_forall in F. apply Forall_forall. intros c I. specialize (F c I). clear - F. unfold M_Meta.set_has in F. cbn in F. unfold in_range in F.
  destruct (N.leb_spec 91 c), (N.leb_spec c 91), (N.leb_spec 93 c), (N.leb_spec c 93); cbn in F; try discriminate F; lia.
Qed.

Lemma words_urange : forall w g, word_of rx_urange w g -> exists lo hi, w = w_body (BRange lo hi) /\ g = [lo; hi] /\ wf_body uniword (BRange lo hi).
Proof.
  intros w g W. unfold rx_urange in W. chrs W. apply word_seq in W. destruct W as [u [v' [g1 [g2 [-> [-> [W1 W2]]]]]]].
  chrs W2. apply word_seq_eps in W2. apply word_group in W2. destruct W2 as [g'' [-> W2]].
  apply word_group in W1. destruct W1 as [g' [-> W1]]. apply word_seq_eps in W1, W2. apply word_plus in W1, W2. destruct W1 as [-> [N1 F1]]. destruct W2 as [-> [N2 F2]].
  eexists. eexists. split; [reflexivity|]. split; [reflexivity|]. cbn [wf_body].
  repeat split; auto; apply (forallb_eq _ _ _ _ (fun c => eq_sym (sh_hex uniword c))); assumption.
Qed.

Lemma words_uprop : forall w g, word_of rx_uprop w g -> exists x, w = w_body (BProp x) /\ g = [x] /\ wf_body uniword (BProp x).
Proof.
  intros w g W. unfold rx_uprop in W. repeat chr W. apply word_seq in W. destruct W as [u [v' [g1 [g2 [-> [-> [W1 W2]]]]]]]. chrs W2. apply word_eps in W2. destruct W2 as [-> ->].
  apply word_group in W1. destruct W1 as [g' [-> W1]]. exists u. apply word_seq_eps in W1. apply word_plus in W1. destruct W1 as [-> [N0 F]].
  split; [reflexivity|]. split; [reflexivity|]. split; [exact N0|]. apply (forallb_eq _ _ _ _ (fun c => eq_sym (sh_word uniword c)) F).
Qed.

(* -------- inversion of the steps -------- *)

Lemma seq_inv : forall d a args p i q j cs, seq d (a :: args) p i = Ok (inl (q, j, cs)) ->
  exists p' i' c cs', run d a p i = Ok (Some (p', i', c)) /\ seq d args p' i' = Ok (inl (q, j, cs')) /\ cs = opt_list c ++ cs'.
Proof.
  intros d a args p i q j cs H. cbn [attempt_seq] in H. apply snd_ok in H. destruct H as [[[[p' i'] c]|] [H1 H2]]; [|discriminate H2].
  apply snd_ok in H2. destruct H2 as [[[[q' j'] cs']|j'] [H2 H3]]; cbn in H3; inversion H3; subst. exists p', i', c, cs'. auto.
Qed.

Lemma seq_nil_inv : forall d p i q j cs, seq d [] p i = Ok (inl (q, j, cs)) -> q = p /\ j = i /\ cs = [].
Proof. intros d p i q j cs H. inversion H. auto. Qed.

Lemma seq_no_inv : forall d a args p i j, seq d (a :: args) p i = Ok (inr j) ->
  (run d a p i = Ok None /\ j = i) \/ exists p' i' c, run d a p i = Ok (Some (p', i', c)) /\ seq d args p' i' = Ok (inr j).
Proof.
  intros d a args p i j H. cbn [attempt_seq] in H. apply snd_ok in H. destruct H as [[[[p' i'] c]|] [H1 H2]].
  - apply snd_ok in H2. destruct H2 as [[[[q' j'] cs']|j'] [H2 H3]]; cbn in H3; inversion H3; subst. right. exists p', i', c. auto.
  - inversion H2; subst. left. auto.
Qed.

Lemma cat_node_inv : forall d goal args p i q j o, mget metagrammar goal = Some (PCat, RNode, args) -> run (S d) goal p i = Ok (Some (q, j, o)) ->
  exists cs, seq d args p i = Ok (inl (q, j, cs)) /\ o = Some (GNode goal p q [] cs).
Proof.
  intros d goal args p i q j o G H. rewrite (run_cat _ _ _ _ _ _ _ _ _ G) in H. unfold attempt_cat in H. apply snd_ok in H. destruct H as [[[[q' j'] cs]|j'] [H1 H2]]; inversion H2; subst. eauto.
Qed.
Lemma cat_up_inv : forall d goal args p i q j o, mget metagrammar goal = Some (PCat, RUp, args) -> run (S d) goal p i = Ok (Some (q, j, o)) ->
  exists c, seq d args p i = Ok (inl (q, j, [c])) /\ o = Some c.
Proof.
  intros d goal args p i q j o G H. rewrite (run_cat _ _ _ _ _ _ _ _ _ G) in H. unfold attempt_cat in H. apply snd_ok in H. destruct H as [[[[q' j'] cs]|j'] [H1 H2]]; [|discriminate H2].
  destruct cs as [|c [|? ?]]; inversion H2; subst. eauto.
Qed.
Lemma opt_up_inv : forall d goal args p i q j o, mget metagrammar goal = Some (POpt, RUp, args) -> run (S d) goal p i = Ok (Some (q, j, o)) ->
  (exists c, seq d args p i = Ok (inl (q, j, [c])) /\ o = Some c) \/
  (seq d args p i = Ok (inr j) /\ q = p /\ o = Some (GNode "OMITTED_OPTIONAL" p p [] [])).
Proof.
  intros d goal args p i q j o G H. rewrite (run_opt _ _ _ _ _ _ _ _ _ G) in H. unfold attempt_opt in H. apply snd_ok in H. destruct H as [[[[q' j'] cs]|j'] [H1 H2]].
  - destruct cs as [|c [|? ?]]; inversion H2; subst. left. eauto.
  - inversion H2; subst. right. auto.
Qed.
Lemma opt_none_inv : forall d goal args p i q j o, mget metagrammar goal = Some (POpt, RNone, args) -> run (S d) goal p i = Ok (Some (q, j, o)) ->
  o = None /\ ((exists cs, seq d args p i = Ok (inl (q, j, cs))) \/ (seq d args p i = Ok (inr j) /\ q = p)).
Proof.
  intros d goal args p i q j o G H. rewrite (run_opt _ _ _ _ _ _ _ _ _ G) in H. unfold attempt_opt in H. apply snd_ok in H. destruct H as [[[[q' j'] cs]|j'] [H1 H2]];
    inversion H2; subst; split; eauto.
Qed.

Lemma alts_inv : forall d a args p i x, snd (attempt_alts (attempt uniword metagrammar t e d) RUp (a :: args) p i) = Ok (Some x) ->
  run d a p i = Ok (Some x) \/ (run d a p i = Ok None /\ snd (attempt_alts (attempt uniword metagrammar t e d) RUp args p i) = Ok (Some x)).
Proof.
  intros d a args p i x H. cbn [attempt_alts] in H. apply snd_ok in H. destruct H as [[y|] [H1 H2]]; [|right; auto]. inversion H2; subst. auto.
Qed.
Lemma alts_nil_inv : forall d p i x, snd (attempt_alts (attempt uniword metagrammar t e d) RUp [] p i) = Ok (Some x) -> False.
Proof. intros d p i x H. discriminate H. Qed.

(* what a step has read: a node for x, written w x, where x may stand before the rest *)
Definition back {A} (d : nat) (goal : string) (i : option Z) (wr : A -> text) (ok : A -> text -> Prop) (R : gnode -> A -> Prop) : Prop :=
  forall p s q j o, at_ t p s -> run d goal p i = Ok (Some (q, j, o)) ->
  j = i /\ exists n x rest, o = Some n /\ s = wr x ++ rest /\ q = p + length (wr x) /\ ok x rest /\ R n x.
Definition eats (d : nat) (goal : string) (i : option Z) (W : text -> Prop) : Prop :=
  forall p s q j o, at_ t p s -> run d goal p i = Ok (Some (q, j, o)) ->
  j = i /\ o = None /\ exists w rest, s = w ++ rest /\ q = p + length w /\ W w.

Lemma re_match_inv : forall pat r p s q g, rx_compile pat = Some r -> at_ t p s -> re_match uniword pat t p = Ok (Some (q, g)) ->
  exists w rest, s = w ++ rest /\ q = p + length w /\ word_of r w g.
Proof.
  intros pat r p s q g C A H. unfold re_match in H. rewrite C, (at_skipn _ _ _ A) in H. destruct (rx_matches uniword r s) as [|[rest g'] l] eqn:E; [discriminate H|].
  inversion H; subst. destruct (rx_sound uniword r s rest g) as [w [-> W]]; [rewrite E; left; reflexivity|]. exists w, rest. split; [reflexivity|]. split; [|exact W].
  rewrite (at_length _ _ _ A), app_length. lia.
Qed.

Lemma re_inv : forall goal pat rk r p s i q j o, special goal = false -> rx_compile pat = Some r -> at_ t p s ->
  snd (attempt_re uniword t e goal pat rk p i) = Ok (Some (q, j, o)) ->
  j = i /\ exists w rest g, s = w ++ rest /\ q = p + length w /\ word_of r w g /\ o = (match rk with RNode => Some (GNode goal p q g []) | _ => None end).
Proof.
  intros goal pat rk r p s i q j o S0 C A H. unfold attempt_re in H. destruct (re_match uniword pat t p) as [[[q' g]|]|] eqn:M; try discriminate H.
  destruct (re_match_inv _ _ _ _ _ _ C A M) as [w [rest [E1 [E2 W]]]].
  unfold special in S0. cbn [existsb] in S0. apply orb_false_iff in S0. destruct S0 as [N1 S0]. apply orb_false_iff in S0. destruct S0 as [N2 S0]. apply orb_false_iff in S0. destruct S0 as [N3 S0]. apply orb_false_iff in S0. destruct S0 as [N4 _].
  rewrite ?N1, ?N2, ?N3, ?N4 in H.
  destruct rk; cbn in H; inversion H; subst; (split; [reflexivity|]); exists w, rest, g; auto.
Qed.

Lemma leaf_back : forall d goal pat r i A (wr : A -> text) (ok : A -> Prop) (gs : A -> list text),
  mget metagrammar goal = Some (PRe, RNode, [pat]) -> special goal = false -> rx_compile pat = Some r ->
  (forall w g, word_of r w g -> exists x, w = wr x /\ g = gs x /\ ok x) ->
  back d goal i wr (fun x _ => ok x) (fun n x => leaf t n goal (wr x) (gs x)).
Proof.
  intros d goal pat r i A wr ok gs G S0 C Ws p s q j o At H. destruct d as [|d]; [discriminate H|]. cbn [attempt] in H. rewrite G in H.
  destruct (re_inv _ _ _ _ _ _ _ _ _ _ S0 C At H) as [-> [w [rest [g [-> [-> [W ->]]]]]]]. split; [reflexivity|].
  destruct (Ws _ _ W) as [x [-> [-> O]]]. eexists. exists x, rest. split; [reflexivity|]. split; [reflexivity|]. split; [reflexivity|]. split; [exact O|].
  apply (leaf_node t goal p (wr x) rest (gs x) At).
Qed.

Lemma lit_back : forall d goal r i (W : text -> Prop),
  mget metagrammar goal = None -> looks_like_name goal = false -> special goal = false -> rx_compile goal = Some r ->
  (forall w g, word_of r w g -> W w) -> eats d goal i W.
Proof.
  intros d goal r i W G L S0 C Ws p s q j o At H. destruct d as [|d]; [discriminate H|]. cbn [attempt] in H. rewrite G, L in H.
  destruct (re_inv _ _ _ _ _ _ _ _ _ _ S0 C At H) as [-> [w [rest [g [-> [-> [Ww ->]]]]]]]. split; [reflexivity|]. split; [reflexivity|].
  exists w, rest. split; [reflexivity|]. split; [reflexivity|]. eapply Ws; exact Ww.
Qed.

Lemma joinr_cons : forall A (wr : A -> text) x w y tl, joinr wr x ((w, y) :: tl) = wr x ++ w ++ joinr wr y tl.
Proof. intros A wr x w y tl. unfold joinr. cbn [flat_map fst snd]. rewrite <- app_assoc. reflexivity. Qed.

Lemma loop_back : forall A (wr : A -> text) (ok : A -> text -> Prop) (R : gnode -> A -> Prop) W d el sep i,
  back d el i wr ok R -> eats d sep i W ->
  forall fuel ss p s q j cs, at_ t p s ->
  snd (attempt_loop (attempt uniword metagrammar t e d) fuel el sep ss p i) = Ok (Some (q, j, cs)) ->
  j = i /\
  ((cs = [] /\ ss = Some q /\ run d el p i = Ok None) \/
   exists x tl rest, s = joinr wr x tl ++ rest /\ q = p + length (joinr wr x tl) /\ chain ok wr x tl rest /\ Forall (fun y => W (fst y)) tl /\ Forall2 R cs (x :: map snd tl) /\
     (run d sep q i = Ok None \/ exists q' o', run d sep q i = Ok (Some (q', i, o')) /\ run d el q' i = Ok None)).
Proof.
  intros A wr ok R W d el sep i Be Es. induction fuel as [|f IH]; intros ss p s q j cs At H; cbn [attempt_loop] in H; [discriminate H|].
  apply snd_ok in H. destruct H as [[[[p' i'] c]|] [H1 H2]].
  - destruct (Be _ _ _ _ _ At H1) as [-> [n [x [rest [-> [-> [-> [O Rx]]]]]]]]. pose proof (at_app _ _ _ _ At) as At1.
    apply snd_ok in H2. destruct H2 as [[[[p'' i''] c']|] [H2 H3]].
    + destruct (Es _ _ _ _ _ At1 H2) as [-> [-> [w [rest' [-> [-> Ww]]]]]]. pose proof (at_app _ _ _ _ At1) as At2.
      apply snd_ok in H3. destruct H3 as [[[[q' j'] cs']|] [H3 H4]]; cbn in H4; inversion H4; subst.
      destruct (IH _ _ _ _ _ _ At2 H3) as [-> [[-> [E N0]]|[y [tl [rest [-> [-> [Ch [Fw [F2 St]]]]]]]]]]; (split; [reflexivity|right]).
      * inversion E; subst. exists x, [], (w ++ rest'). unfold joinr. cbn [flat_map map chain]. rewrite !app_nil_r. repeat split; auto.
        right. eexists. eexists. split; [exact H2|exact N0].
      * exists x, ((w, y) :: tl), rest. rewrite joinr_cons, <- !app_assoc.
        split; [reflexivity|]. split; [rewrite !app_length; unfold text in *; lia|]. split; [cbn [chain]; split; [exact O|exact Ch]|].
        split; [constructor; [exact Ww|exact Fw]|]. split; [cbn [map snd opt_list app]; constructor; assumption|exact St].
    + cbn in H3. inversion H3; subst. split; [reflexivity|right]. exists x, [], rest. unfold joinr. cbn [flat_map map chain]. rewrite !app_nil_r. repeat split; auto.
  - destruct ss as [q0|]; cbn in H2; inversion H2; subst. split; [reflexivity|left]. auto.
Qed.

(* where a list without delimiters stops *)
Definition stop_at (d : nat) (el sep : string) (i : option Z) (q : nat) : Prop :=
  run d sep q i = Ok None \/ exists q' o', run d sep q i = Ok (Some (q', i, o')) /\ run d el q' i = Ok None.

Lemma list_back : forall A (wr : A -> text) (ok : A -> text -> Prop) (R : gnode -> A -> Prop) W d goal rk el sep i,
  mget metagrammar goal = Some (PList, rk, [el; sep]) -> back d el i wr ok R -> eats d sep i W ->
  forall p s q j o, at_ t p s -> run (S d) goal p i = Ok (Some (q, j, o)) ->
  j = i /\ exists n x tl rest, o = Some n /\ s = joinr wr x tl ++ rest /\ q = p + length (joinr wr x tl) /\ chain ok wr x tl rest /\
    Forall (fun y => W (fst y)) tl /\ Forall2 R (g_children n) (x :: map snd tl) /\ n = GNode goal p q [] (g_children n) /\ stop_at d el sep i q.
Proof.
  intros A wr ok R W d goal rk el sep i G Be Es p s q j o At H. rewrite (run_list _ _ _ _ _ _ _ _ _ G) in H. unfold attempt_list in H.
  apply snd_ok in H. destruct H as [[[p0 i0]|] [H0 H]]; [|discriminate H]. inversion H0; subst.
  apply snd_ok in H. destruct H as [[[[p1 i1] cs]|] [H1 H]]; [|discriminate H].
  destruct (loop_back _ _ _ _ _ _ _ _ _ Be Es _ _ _ _ _ _ _ At H1) as [-> [[_ [E _]]|[x [tl [rest [-> [-> [Ch [Fw [F2 St]]]]]]]]]]; [discriminate E|].
  cbn in H. inversion H; subst. split; [reflexivity|]. eexists. exists x, tl, rest. split; [reflexivity|]. repeat split; auto.
Qed.

(* with delimiters; the right one may be empty *)
Lemma list_delim_back : forall A (wr : A -> text) (ok : A -> text -> Prop) (R : gnode -> A -> Prop) W d goal rk el sep ld rd i,
  mget metagrammar goal = Some (PList, rk, [el; sep; ld; rd]) -> String.eqb ld "" = false ->
  forall p s q j o, at_ t p s -> run (S d) goal p i = Ok (Some (q, j, o)) ->
  exists p0 i0 o0, run d ld p i = Ok (Some (p0, i0, o0)) /\
  (back d el i0 wr ok R -> eats d sep i0 W -> forall s0, at_ t p0 s0 ->
   exists n x tl rest q0, o = Some n /\ s0 = joinr wr x tl ++ rest /\ q0 = p0 + length (joinr wr x tl) /\ chain ok wr x tl rest /\
    Forall (fun y => W (fst y)) tl /\ Forall2 R (g_children n) (x :: map snd tl) /\ n = GNode goal p q [] (g_children n) /\ stop_at d el sep i0 q0 /\
    if String.eqb rd "" then q = q0 /\ j = i0 else exists o1, run d rd q0 i0 = Ok (Some (q, j, o1))).
Proof.
  intros A wr ok R W d goal rk el sep ld rd i G L p s q j o At H. rewrite (run_list _ _ _ _ _ _ _ _ _ G) in H. unfold attempt_list in H.
  apply snd_ok in H. destruct H as [[[p0 i0]|] [H0 H]]; [|discriminate H].
  unfold attempt_delim in H0. rewrite L in H0. apply snd_ok in H0. destruct H0 as [[[[p0' i0'] o0]|] [H0 H0']]; cbn in H0'; inversion H0'; subst.
  exists p0, i0, o0. split; [exact H0|]. intros Be Es s0 At0.
  apply snd_ok in H. destruct H as [[[[p1 i1] cs]|] [H1 H]]; [|discriminate H].
  destruct (loop_back _ _ _ _ _ _ _ _ _ Be Es _ _ _ _ _ _ _ At0 H1) as [-> [[_ [E _]]|[x [tl [rest [-> [-> [Ch [Fw [F2 St]]]]]]]]]]; [discriminate E|].
  apply snd_ok in H. destruct H as [[[p2 i2]|] [H2 H]]; cbn in H; inversion H; subst.
  eexists. exists x, tl, rest. eexists. split; [reflexivity|]. split; [reflexivity|]. split; [reflexivity|]. cbn [g_children]. repeat split; auto.
  unfold attempt_delim in H2. destruct (String.eqb rd "").
  - inversion H2; subst. auto.
  - apply snd_ok in H2. destruct H2 as [[[[p2' i2'] o2]|] [H2 H2']]; cbn in H2'; inversion H2'; subst. eauto.
Qed.

(* all separators the same *)
Lemma joinr_same : forall A (wr : A -> text) sep x tl, Forall (fun y : text * A => fst y = sep) tl -> joinr wr x tl = sep_by sep wr (x, map snd tl).
Proof.
  intros A wr sep x tl F. unfold joinr, sep_by. cbn [fst snd]. f_equal. induction F as [|[s y] tl E F IH]; [reflexivity|]. cbn in *. subst. rewrite IH. reflexivity.
Qed.

Lemma chain_ok : forall A (ok : A -> text -> Prop) (P : A -> Prop) wr, (forall x r, ok x r -> P x) ->
  forall tl x rest, chain ok wr x tl rest -> Forall P (x :: map snd tl).
Proof.
  intros A ok P wr H. induction tl as [|[s y] tl IH]; intros x rest Ch; cbn [chain map snd] in *.
  - constructor; [eapply H; exact Ch|constructor].
  - destruct Ch as [O Ch]. constructor; [eapply H; exact O|eapply IH; exact Ch].
Qed.

End Back.

Ltac eat := eapply lit_back; [reflexivity|reflexivity|reflexivity|reflexivity|];
  let W := fresh "W" in intros ? ? W; vm_compute in W; repeat (apply word_seq_chr in W; let v := fresh "v" in destruct W as [v [-> W]]); apply word_eps in W; destruct W as [-> _]; reflexivity.
