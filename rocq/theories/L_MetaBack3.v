(* What has been read is what was written (C66): lines, productions, the whole content. *)
From Coq Require Import Ascii String.
From Verif Require Import M_Base M_HTML M_Meta L_Base L_Meta L_MetaRx L_MetaFwd L_MetaRead L_MetaRead2 L_MetaRead3 L_MetaRead4 L_MetaDec L_MetaBack L_MetaBack2.
Open Scope string_scope.
Open Scope nat_scope.
Open Scope list_scope.
Notation length := Datatypes.length.

Section Back.
Variable uniword : N -> bool.
Notation word_of := (word_of uniword).
Notation wordb := (wordb uniword).
Variables (t : text) (e : nat).
Notation run d goal p i := (snd (attempt uniword metagrammar t e d goal p i)).
Notation seq d args p i := (snd (attempt_seq (attempt uniword metagrammar t e d) args p i)).
Notation back := (back uniword t e).
Notation eats := (eats uniword t e).

(* -------- bodies -------- *)

Lemma back_urange : forall d i, back d "U_RANGE" i (fun x : text * text => w_body (BRange (fst x) (snd x))) (fun x _ => wf_body uniword (BRange (fst x) (snd x)))
  (fun n x => leaf t n "U_RANGE" (w_body (BRange (fst x) (snd x))) [fst x; snd x]).
Proof.
  intros d i. eapply leaf_back with (wr := fun x : text * text => w_body (BRange (fst x) (snd x))) (ok := fun x => wf_body uniword (BRange (fst x) (snd x))) (gs := fun x => [fst x; snd x]) (r := rx_urange);
    [reflexivity|reflexivity|reflexivity|].
  intros w g W. destruct (words_urange _ _ _ W) as [lo [hi [-> [-> O]]]]. exists (lo, hi). auto.
Qed.
Lemma back_uprop : forall d i, back d "U_PROP" i (fun x => w_body (BProp x)) (fun x _ => wf_body uniword (BProp x)) (fun n x => leaf t n "U_PROP" (w_body (BProp x)) [x]).
Proof. intros d i. eapply leaf_back with (wr := fun x => w_body (BProp x)) (ok := fun x => wf_body uniword (BProp x)) (gs := fun x => [x]) (r := rx_uprop); [reflexivity|reflexivity|reflexivity|]. apply words_uprop. Qed.
Lemma back_uany : forall d i, back d "U_ANY" i (fun _ : unit => w_any) (fun _ _ => True) (fun n _ => leaf t n "U_ANY" w_any []).
Proof.
  intros d i. eapply leaf_back with (A := unit) (wr := fun _ => w_any) (ok := fun _ => True) (gs := fun _ => []) (r := rx_uany); [reflexivity|reflexivity|reflexivity|].
  intros w g W. unfold rx_uany in W. repeat (apply word_seq_chr in W; let v := fresh "v" in destruct W as [v [-> W]]). apply word_eps in W. destruct W as [-> ->]. exists tt. auto.
Qed.
Lemma back_empty : forall d i, back d "EMPTY" i (fun _ : unit => tx "[empty]") (fun _ _ => True) (fun n _ => leaf t n "EMPTY" (tx "[empty]") []).
Proof.
  intros d i. eapply leaf_back with (A := unit) (wr := fun _ => tx "[empty]") (ok := fun _ => True) (gs := fun _ => []) (r := rx_empty); [reflexivity|reflexivity|reflexivity|].
  intros w g W. unfold rx_empty in W. repeat (apply word_seq_chr in W; let v := fresh "v" in destruct W as [v [-> W]]). apply word_eps in W. destruct W as [-> ->]. exists tt. auto.
Qed.

Lemma back_body : forall d i, 9 <= d -> back d "RHS_BODY" i w_body (fun b _ => wf_body uniword b /\ clear_body b) (is_body t).
Proof.
  intros d i D p s q j o At H. deeper d. alt_in "RHS_BODY" H.
  apply alts_inv in H. destruct H as [H|[_ H]]; [|apply alts_inv in H; destruct H as [H|[_ H]]; [|apply alts_inv in H; destruct H as [H|[_ H]]; [|apply alts_inv in H; destruct H as [H|[_ H]]; [|apply alts_inv in H; destruct H as [H|[_ H]]; [|discriminate H]]]]].
  - destruct (back_urange d i _ _ _ _ _ At H) as [-> [n [[lo hi] [rest [-> [-> [-> [O R]]]]]]]]. split; [reflexivity|]. exists n, (BRange lo hi), rest. cbn [clear_body is_body fst snd] in *. auto 6.
  - destruct (back_uprop d i _ _ _ _ _ At H) as [-> [n [x [rest [-> [-> [-> [O R]]]]]]]]. split; [reflexivity|]. exists n, (BProp x), rest. cbn [clear_body is_body fst snd] in *. auto 6.
  - destruct (back_uany d i _ _ _ _ _ At H) as [-> [n [x [rest [-> [-> [-> [O R]]]]]]]]. split; [reflexivity|]. exists n, BAny, rest. cbn [clear_body is_body wf_body w_body fst snd] in *. auto 6.
  - destruct (back_empty d i _ _ _ _ _ At H) as [-> [n [x [rest [-> [-> [-> [O R]]]]]]]]. split; [reflexivity|]. exists n, BEmpty, rest. cbn [clear_body is_body wf_body w_body fst snd] in *. auto 6.
  - assert (D8 : 8 <= d) by lia. destruct (back_items uniword t e d i D8 _ _ _ _ _ At H) as [-> [n [x [rest [-> [-> [-> [O R]]]]]]]]. split; [reflexivity|]. exists n, (BItems x), rest. cbn [clear_body is_body wf_body w_body fst snd] in *. auto 6.
Qed.

(* -------- lines -------- *)

Lemma eats_nlai : forall d k, eats d "NLAI" (Some (Z.of_nat k)) (fun w => w = nl k).
Proof.
  intros d k p s q j o At H. destruct d as [|d]; [discriminate H|]. cbn [attempt] in H. rewrite (eq_refl : mget metagrammar "NLAI" = Some (PRe, RNone, ["\n +"])) in H.
  unfold attempt_re in H. destruct (re_match uniword "\n +" t p) as [[[q' g]|]|] eqn:M; try discriminate H.
  destruct (re_match_inv uniword t "\n +" rx_nlai _ _ _ _ eq_refl At M) as [w [rest [E1 [E2 W]]]].
  rewrite (eq_refl : ("NLAI" =? "INDENT")%string = false), (eq_refl : ("NLAI" =? "OUTDENT")%string = false), (eq_refl : ("NLAI" =? "NLAI")%string = true) in H.
  destruct (negb (_ mod 2 =? 0)%Z); [discriminate H|]. destruct (negb (eqb_indent _ _)) eqn:I; [discriminate H|]. cbn in H. inversion H; subst. split; [reflexivity|]. split; [reflexivity|].
  exists w, rest. split; [reflexivity|]. split; [reflexivity|]. unfold rx_nlai in W. apply word_seq_chr in W. destruct W as [v [-> W]].
  apply word_seq_eps in W. apply word_plus in W. destruct W as [_ [_ F]]. unfold nl. f_equal. cbn [eqb_indent negb] in I. apply negb_false_iff in I. apply Z.eqb_eq in I. cbn [length] in I.
  assert (L : length v = k) by (unfold text in *; lia). rewrite <- L. apply (all_same uniword). exact F.
Qed.

Lemma back_guard : forall d i, back d "OPTIONAL_GUARD" i (w_opt (fun ps => w_params ps ++ tx " ")) (fun o _ => wf_ps o) (is_opt_params t).
Proof.
  intros d i p s q j o At H. destruct d as [|d]; [discriminate H|].
  eapply opt_up_inv in H; [|reflexivity]. destruct H as [[c [H ->]]|[H [-> ->]]].
  - destruct (seq_back _ _ _ _ _ _ _ _ _ _ _ _ _ _ _ _ (back_params uniword t e d i) At H) as [n [l [rest [cs' [-> [O [R [At1 [E H1]]]]]]]]].
    eapply seq_eats with (W := fun w => w = tx " ") in H1; [|eat|exact At1]. destruct H1 as [w4 [r4 [-> [-> [At4 H4]]]]].
    apply seq_nil_inv in H4. destruct H4 as [-> [-> ->]]. inversion E; subst. split; [reflexivity|]. exists n, (Some l), r4. cbn [w_opt]. rewrite <- app_assoc. repeat split; auto; try (intros x Ex; inversion Ex; subst; exact O); try apply R.
    rewrite app_length. unfold text in *. lia.
  - assert (j = i).
    { apply seq_no_inv in H. destruct H as [[_ H]|[p' [i' [c [H1 H2]]]]]; [exact H|]. destruct (back_params uniword t e d i _ _ _ _ _ At H1) as [-> _].
      apply seq_no_inv in H2. destruct H2 as [[_ H2]|[p2 [i2 [c2 [_ H3]]]]]; [exact H2|discriminate H3]. }
    subst j. split; [reflexivity|]. eexists. exists None, s.
    split; [reflexivity|]. split; [reflexivity|]. split; [cbn; lia|]. split; [intros x Ex; discriminate Ex|].
    unfold is_opt_params, leaf, says, g_text, slice. cbn. rewrite Nat.sub_diag. repeat split; reflexivity.
Qed.

Lemma back_label0 : forall d i, back d "LABEL" i (fun l => l) (fun l _ => wf_label uniword l) (fun n l => leaf t n "LABEL" l []).
Proof. intros d i. eapply leaf_back with (wr := fun l => l) (ok := wf_label uniword) (gs := fun _ => []) (r := rx_label); [reflexivity|reflexivity|reflexivity|]. intros w g W. destruct (words_label _ _ _ W) as [-> O]. eauto. Qed.

Lemma back_label : forall d i, back d "OPTIONAL_LABEL" i (w_opt (fun l => tx " " ++ l)) (fun o _ => forall l, o = Some l -> wf_label uniword l) (is_opt_label t).
Proof.
  intros d i p s q j o At H. destruct d as [|d]; [discriminate H|].
  assert (Es : eats d " " i (fun w => w = tx " ")) by eat.
  eapply opt_up_inv in H; [|reflexivity]. destruct H as [[c [H ->]]|[H [-> ->]]].
  - eapply seq_eats in H; [|exact Es|exact At]. destruct H as [w0 [r0 [-> [-> [At0 H]]]]].
    destruct (seq_back _ _ _ _ _ _ _ _ _ _ _ _ _ _ _ _ (back_label0 d i) At0 H) as [n [l [rest [cs' [-> [O [R [At1 [E H1]]]]]]]]].
    apply seq_nil_inv in H1. destruct H1 as [-> [-> ->]]. inversion E; subst. split; [reflexivity|]. exists n, (Some l), rest. cbn [w_opt]. rewrite <- app_assoc. repeat split; auto; try (intros x Ex; inversion Ex; subst; exact O); try apply R.
    rewrite app_length. unfold text in *. lia.
  - assert (j = i).
    { apply seq_no_inv in H. destruct H as [[_ H]|[p' [i' [c [H1 H2]]]]]; [exact H|]. destruct (Es _ _ _ _ _ At H1) as [-> _].
      apply seq_no_inv in H2. destruct H2 as [[_ H2]|[p2 [i2 [c2 [_ H3]]]]]; [exact H2|discriminate H3]. }
    subst j. split; [reflexivity|]. eexists. exists None, s.
    split; [reflexivity|]. split; [reflexivity|]. split; [cbn; lia|]. split; [intros x Ex; discriminate Ex|].
    unfold is_opt_label, leaf, says, g_text, slice. cbn. rewrite Nat.sub_diag. repeat split; reflexivity.
Qed.

Lemma back_line : forall d k, 10 <= d -> back d "RHS_LINE" (Some (Z.of_nat k)) (w_rhs k) (fun r _ => wf_rhs uniword r /\ clear_body (r_body r)) (is_line t).
Proof.
  intros d k D p s q j o At H. deeper d. eapply cat_node_inv in H; [|reflexivity]. destruct H as [cs [H ->]].
  eapply seq_eats in H; [|apply eats_nlai|exact At]. destruct H as [w0 [r0 [-> [-> [At0 H]]]]].
  destruct (seq_back _ _ _ _ _ _ _ _ _ _ _ _ _ _ _ _ (back_guard d _) At0 H) as [n1 [g [r1 [cs1 [-> [O1 [R1 [At1 [-> H1]]]]]]]]].
  assert (D9 : 9 <= d) by lia.
  destruct (seq_back _ _ _ _ _ _ _ _ _ _ _ _ _ _ _ _ (back_body d _ D9) At1 H1) as [n2 [b [r2 [cs2 [-> [O2 [R2 [At2 [-> H2]]]]]]]]].
  destruct (seq_back _ _ _ _ _ _ _ _ _ _ _ _ _ _ _ _ (back_label d _) At2 H2) as [n3 [l [r3 [cs3 [-> [O3 [R3 [At3 [-> H3]]]]]]]]].
  apply seq_nil_inv in H3. destruct H3 as [-> [-> ->]]. split; [reflexivity|].
  eexists. exists {| r_guard := g; r_body := b; r_label := l |}, r3. unfold w_rhs. cbn [r_guard r_body r_label].
  split; [reflexivity|]. split; [rewrite <- !app_assoc; reflexivity|]. split; [rewrite !app_length; unfold text in *; lia|].
  split; [split; [split; [exact O1|split; [apply O2|exact O3]]|apply O2]|]. split; [reflexivity|]. exists n1, n2, n3. auto.
Qed.

(* INDENT and OUTDENT *)
Lemma shift_inv : forall d p s k goal z q j o, (goal = "INDENT" /\ z = 2%Z) \/ (goal = "OUTDENT" /\ z = (-2)%Z) -> at_ t p s ->
  run d goal p (Some k) = Ok (Some (q, j, o)) -> q = p /\ j = Some (k + z)%Z /\ o = None.
Proof.
  intros d p s k goal z q j o G A H. destruct d as [|d]; [discriminate H|]. rewrite (read_shift uniword t e (S d) p s k goal z ltac:(lia) G A) in H. inversion H. auto.
Qed.

Lemma seq_indent : forall d args p k q j cs s, at_ t p s -> seq d ("INDENT" :: args) p (Some (Z.of_nat k)) = Ok (inl (q, j, cs)) -> seq d args p (Some (Z.of_nat (k + 2))) = Ok (inl (q, j, cs)).
Proof.
  intros d args p k q j cs s At H. apply seq_inv in H. destruct H as [p' [i' [c [cs' [H1 [H2 ->]]]]]].
  destruct (shift_inv _ _ _ _ _ 2%Z _ _ _ (or_introl (conj eq_refl eq_refl)) At H1) as [-> [-> ->]]. rewrite indent_eq in H2. exact H2.
Qed.
Lemma seq_outdent : forall d args p k q j cs s, at_ t p s -> seq d ("OUTDENT" :: args) p (Some (Z.of_nat (k + 2))) = Ok (inl (q, j, cs)) -> seq d args p (Some (Z.of_nat k)) = Ok (inl (q, j, cs)).
Proof.
  intros d args p k q j cs s At H. apply seq_inv in H. destruct H as [p' [i' [c [cs' [H1 [H2 ->]]]]]].
  destruct (shift_inv _ _ _ _ _ (-2)%Z _ _ _ (or_intror (conj eq_refl eq_refl)) At H1) as [-> [-> ->]]. rewrite outdent_eq in H2. exact H2.
Qed.

Lemma back_lines : forall d k, 11 <= d -> back d "MULTILINE_RHSS" (Some (Z.of_nat k)) (fun rs => flat_map (w_rhs (k + 2)) (ne_list rs))
  (fun rs _ => Forall (wf_rhs uniword) (ne_list rs) /\ Forall (fun r => clear_body (r_body r)) (ne_list rs)) (is_lines t).
Proof.
  intros d k D p s q j o At H. deeper d.
  destruct (list_delim_back uniword t e rhs (w_rhs (k + 2)) (fun r _ => wf_rhs uniword r /\ clear_body (r_body r)) (is_line t) (fun w => w = []) d "MULTILINE_RHSS" RNode "RHS_LINE" "" "INDENT" "OUTDENT" _ eq_refl eq_refl _ _ _ _ _ At H) as [p0 [i0 [o0 [H0 K]]]].
  destruct (shift_inv _ _ _ _ _ 2%Z _ _ _ (or_introl (conj eq_refl eq_refl)) At H0) as [-> [-> ->]]. rewrite indent_eq in K.
  assert (Es : eats d "" (Some (Z.of_nat (k + 2))) (fun w => w = [])).
  { eapply lit_back; [reflexivity|reflexivity|reflexivity|vm_compute; reflexivity|]. intros w g W. apply word_eps in W. apply W. }
  assert (D10 : 10 <= d) by lia.
  destruct (K (back_line d _ D10) Es _ At) as [n [x [tl [rest [q0 [-> [-> [-> [Ch [Fw [F2 [En [_ Hr]]]]]]]]]]]]]. cbn [String.eqb] in Hr. destruct Hr as [o1 Hr].
  pose proof (at_app _ _ _ _ At) as At1. destruct (shift_inv _ _ _ _ _ (-2)%Z _ _ _ (or_intror (conj eq_refl eq_refl)) At1 Hr) as [-> [-> ->]]. rewrite outdent_eq. split; [reflexivity|].
  exists n, (x, map snd tl), rest. cbv beta. rewrite flat_join. cbn [fst snd].
  assert (E : joinr (w_rhs (k + 2)) x (map (fun x0 => ([], x0)) (map snd tl)) = joinr (w_rhs (k + 2)) x tl).
  { rewrite !(joinr_same _ _ []). - rewrite !map_map. cbn [snd]. rewrite map_ext with (g := snd); reflexivity. - exact Fw. - apply Forall_map. apply Forall_forall. reflexivity. }
  rewrite E. split; [reflexivity|]. split; [reflexivity|]. split; [reflexivity|].
  pose proof (chain_ok _ _ (fun r => wf_rhs uniword r /\ clear_body (r_body r)) _ (fun x r H => H) _ _ _ Ch) as Wf. split; [|split; [rewrite En; reflexivity|exact F2]].
  split; (eapply Forall_impl; [|exact Wf]); cbn; intros a Ha; apply Ha.
Qed.

Lemma back_toks : forall d i, back d "BACKTICKED_THINGS" i w_toks (fun l _ => Forall wf_tok (ne_list l)) (is_toks t).
Proof.
  intros d i. destruct d as [|d]; [intros p s q j o At H; discriminate H|].
  eapply (list_const_back uniword t e text w_tok wf_tok (is_tok t) (tx " ") d); [reflexivity|apply back_tok|eat].
Qed.

Lemma back_tok_lines : forall d k, back d "LINES_OF_BACKTICKED_THINGS" (Some (Z.of_nat k)) (sep_by (nl k) w_toks) (fun l _ => Forall (fun l => Forall wf_tok (ne_list l)) (ne_list l)) (is_tok_lines t).
Proof.
  intros d k. destruct d as [|d]; [intros p s q j o At H; discriminate H|].
  eapply (list_const_back uniword t e (ne text) w_toks (fun l => Forall wf_tok (ne_list l)) (is_toks t) (nl k) d); [reflexivity|apply back_toks|apply eats_nlai].
Qed.

(* -------- productions -------- *)

Lemma back_colons : forall d i, back d "COLONS" i (fun n => repeat 58%N n) (fun n _ => 1 <= n) (fun m n => leaf t m "COLONS" (repeat 58%N n) []).
Proof.
  intros d i. eapply leaf_back with (wr := fun n => repeat 58%N n) (ok := fun n => 1 <= n) (gs := fun _ => []) (r := rx_colons); [reflexivity|reflexivity|reflexivity|].
  intros w g W. destruct (words_colons _ _ _ W) as [-> [n [O ->]]]. eauto.
Qed.

Lemma back_left : forall d i args p s q j cs, at_ t p s -> seq d ("GNT" :: " " :: "COLONS" :: args) p i = Ok (inl (q, j, cs)) ->
  exists lhs ps n rest g c cs', s = w_left lhs ps n ++ rest /\ wf_left uniword lhs ps n /\ is_gnt t g lhs ps /\ leaf t c "COLONS" (repeat 58%N n) [] /\
  at_ t (p + length (w_left lhs ps n)) rest /\ cs = g :: c :: cs' /\ seq d args (p + length (w_left lhs ps n)) i = Ok (inl (q, j, cs')).
Proof.
  intros d i args p s q j cs At H.
  destruct (seq_back _ _ _ _ _ _ _ _ _ _ _ _ _ _ _ _ (back_gnt uniword t e d _) At H) as [n1 [[lhs ps] [r1 [cs1 [-> [O1 [R1 [At1 [-> H1]]]]]]]]].
  eapply seq_eats with (W := fun w => w = tx " ") in H1; [|eat|exact At1]. destruct H1 as [w0 [r0 [-> [-> [At0 H1]]]]].
  destruct (seq_back _ _ _ _ _ _ _ _ _ _ _ _ _ _ _ _ (back_colons d _) At0 H1) as [n2 [n [r2 [cs2 [-> [O2 [R2 [At2 [-> H2]]]]]]]]].
  assert (Q : p + length (w_gnt (lhs, ps)) + length (tx " ") + length (repeat 58%N n) = p + length (w_left lhs ps n)) by (unfold w_left, w_gnt; cbn [fst snd]; rewrite !app_length; unfold text in *; lia).
  rewrite Q in *. exists lhs, ps, n, r2, n1, n2, cs2. cbn [fst snd] in *. split; [unfold w_left, w_gnt; cbn [fst snd]; rewrite <- !app_assoc; reflexivity|].
  split; [split; [apply O1|split; [apply O1|exact O2]]|]. auto 6.
Qed.

Definition ok_prod (x : gprod) (rest : text) : Prop := wf_prod uniword x /\ clear_prod x.

Lemma back_oneline : forall d i, 11 <= d -> back d "ONELINE_PRODUCTION" i w_line (fun x r => ok_prod x r /\ on_a_line x) (is_prod_node t).
Proof.
  intros d i D p s q j o At H. deeper d. eapply cat_node_inv in H; [|reflexivity]. destruct H as [cs [H ->]].
  destruct (back_left _ _ _ _ _ _ _ _ At H) as [lhs [ps [n [r0 [g [c [cs' [-> [Wl [Rg [Rc [At0 [-> H1]]]]]]]]]]]]].
  eapply seq_eats with (W := fun w => w = tx " ") in H1; [|eat|exact At0]. destruct H1 as [w1 [r1 [-> [-> [At1 H1]]]]].
  apply seq_inv in H1. destruct H1 as [p2 [i2 [c2 [cs2 [H1 [H2 ->]]]]]]. apply seq_nil_inv in H2. destruct H2 as [-> [-> ->]].
  deeper d. alt_in "ONELINE_R" H1. apply alts_inv in H1. destruct H1 as [H1|[_ H1]]; [|apply alts_inv in H1; destruct H1 as [H1|[_ H1]]; [|discriminate H1]].
  - deeper d. eapply cat_node_inv in H1; [|reflexivity]. destruct H1 as [cs3 [H1 ->]].
    eapply seq_eats with (W := fun w => w = tx "one of ") in H1; [|eat|exact At1]. destruct H1 as [w2 [r2 [-> [-> [At2 H1]]]]].
    destruct (seq_back _ _ _ _ _ _ _ _ _ _ _ _ _ _ _ _ (back_toks d _) At2 H1) as [n3 [l [r3 [cs4 [-> [O3 [R3 [At3 [-> H3]]]]]]]]].
    apply seq_nil_inv in H3. destruct H3 as [-> [-> ->]]. split; [reflexivity|]. eexists. exists (OneLineOneOf lhs ps n l), r3. cbn [w_line].
    split; [reflexivity|]. split; [unfold w_oneline; rewrite <- !app_assoc; reflexivity|]. split; [unfold w_oneline; rewrite !app_length; unfold text in *; lia|].
    split; [split; [split; [split; [exact Wl|exact O3]|exact I]|exact I]|]. exists g, c. eexists. split; [reflexivity|]. split; [reflexivity|]. split; [exact Rg|]. split; [exact Rc|]. split; [reflexivity|]. exists n3. auto.
  - assert (D9 : 9 <= d) by lia. destruct (back_body d i D9 _ _ _ _ _ At1 H1) as [-> [n3 [b [r3 [-> [-> [-> [O3 R3]]]]]]]]. split; [reflexivity|].
    eexists. exists (OneLine lhs ps n b), r3. cbn [w_line]. split; [reflexivity|]. split; [unfold w_oneline; rewrite <- !app_assoc; reflexivity|]. split; [unfold w_oneline; rewrite !app_length; unfold text in *; lia|].
    split; [split; [split; [split; [exact Wl|apply O3]|apply O3]|exact I]|]. exists g, c, n3. split; [reflexivity|]. split; [reflexivity|]. auto.
Qed.

Lemma eats_comment : forall d k, eats d "OPTIONAL_COMMENT_LINE" (Some (Z.of_nat k)) (fun w => exists cm, w = w_comment k cm).
Proof.
  intros d k p s q j o At H. destruct d as [|d]; [discriminate H|]. eapply opt_none_inv in H; [|reflexivity]. destruct H as [-> [[cs H]|[H ->]]].
  - eapply seq_eats in H; [|apply eats_nlai|exact At]. destruct H as [w0 [r0 [-> [-> [At0 H]]]]].
    eapply seq_eats with (W := fun w => w = tx "// emu-format ignore") in H; [|eat|exact At0]. destruct H as [w2 [r2 [-> [-> [At2 H]]]]].
    apply seq_nil_inv in H. destruct H as [-> [-> ->]]. split; [reflexivity|]. split; [reflexivity|]. exists (w_comment k true), r2. cbn [w_comment]. rewrite <- !app_assoc. split; [reflexivity|].
    split; [rewrite app_length; unfold text in *; lia|]. exists true. reflexivity.
  - assert (j = Some (Z.of_nat k)).
    { apply seq_no_inv in H. destruct H as [[_ H]|[p' [i' [c [H1 H2]]]]]; [exact H|]. destruct (eats_nlai d k _ _ _ _ _ At H1) as [-> _].
      apply seq_no_inv in H2. destruct H2 as [[_ H2]|[p2 [i2 [c2 [_ H3]]]]]; [exact H2|discriminate H3]. }
    subst j. split; [reflexivity|]. split; [reflexivity|]. exists [], s. split; [reflexivity|]. split; [cbn; lia|]. exists false. reflexivity.
Qed.

Lemma back_multi : forall d k, 13 <= d -> back d "MULTILINE_PRODUCTION" (Some (Z.of_nat k)) (w_prod k) ok_prod (is_prod_node t).
Proof.
  intros d k D p s q j o At H. deeper d. eapply cat_node_inv in H; [|reflexivity]. destruct H as [cs [H ->]].
  eapply seq_eats in H; [|apply eats_comment|exact At]. destruct H as [w0 [r0 [-> [[cm ->] [At0 H]]]]].
  eapply seq_eats in H; [|apply eats_nlai|exact At0]. destruct H as [w1 [r1 [-> [-> [At1 H]]]]].
  destruct (back_left _ _ _ _ _ _ _ _ At1 H) as [lhs [ps [n [r2 [g [c [cs' [-> [Wl [Rg [Rc [At2 [-> H1]]]]]]]]]]]]].
  apply seq_inv in H1. destruct H1 as [p2 [i2 [c2 [cs2 [H1 [H2 ->]]]]]]. apply seq_nil_inv in H2. destruct H2 as [-> [-> ->]].
  deeper d. alt_in "MULTILINE_R" H1. apply alts_inv in H1. destruct H1 as [H1|[_ H1]]; [|apply alts_inv in H1; destruct H1 as [H1|[_ H1]]; [|discriminate H1]].
  - deeper d. eapply cat_node_inv in H1; [|reflexivity]. destruct H1 as [cs3 [H1 ->]].
    eapply seq_eats with (W := fun w => w = tx " one of") in H1; [|eat|exact At2]. destruct H1 as [w3 [r3 [-> [-> [At3 H1]]]]].
    eapply seq_indent in H1; [|exact At3]. eapply seq_eats in H1; [|apply eats_nlai|exact At3]. destruct H1 as [w4 [r4 [-> [-> [At4 H1]]]]].
    destruct (seq_back _ _ _ _ _ _ _ _ _ _ _ _ _ _ _ _ (back_tok_lines d _) At4 H1) as [n3 [l [r5 [cs4 [-> [O3 [R3 [At5 [-> H3]]]]]]]]].
    eapply seq_outdent in H3; [|exact At5]. apply seq_nil_inv in H3. destruct H3 as [-> [-> ->]]. split; [reflexivity|]. eexists. exists (LinesOneOf cm lhs ps n l), r5. cbn [w_prod].
    split; [reflexivity|]. split; [rewrite <- !app_assoc; reflexivity|]. split; [rewrite !app_length; unfold text in *; lia|].
    split; [split; [split; [exact Wl|exact O3]|exact I]|]. exists g, c. eexists. split; [reflexivity|]. split; [reflexivity|]. split; [exact Rg|]. split; [exact Rc|]. split; [reflexivity|]. exists n3. auto.
  - assert (D11 : 11 <= d) by lia. destruct (back_lines d k D11 _ _ _ _ _ At2 H1) as [-> [n3 [rs [r3 [-> [-> [-> [O3 R3]]]]]]]]. split; [reflexivity|].
    eexists. exists (Lines cm lhs ps n rs), r3. cbn [w_prod]. split; [reflexivity|]. split; [rewrite <- !app_assoc; reflexivity|]. split; [rewrite !app_length; unfold text in *; lia|].
    split; [split; [split; [exact Wl|apply O3]|apply O3]|]. exists g, c, n3. split; [reflexivity|]. split; [reflexivity|]. auto.
Qed.

Lemma back_prod : forall d k, 14 <= d -> back d "BLOCK_PRODUCTION" (Some (Z.of_nat k)) (w_prod k) ok_prod (is_prod_node t).
Proof.
  intros d k D p s q j o At H. deeper d. alt_in "BLOCK_PRODUCTION" H. apply alts_inv in H. destruct H as [H|[_ H]]; [|apply alts_inv in H; destruct H as [H|[_ H]]; [|discriminate H]].
  - assert (D13 : 13 <= d) by lia. apply (back_multi d k D13 _ _ _ _ _ At H).
  - deeper d. eapply cat_up_inv in H; [|reflexivity]. destruct H as [c [H ->]]. eapply seq_eats in H; [|apply eats_nlai|exact At]. destruct H as [w1 [r1 [-> [-> [At1 H]]]]].
    assert (D11 : 11 <= d) by lia.
    destruct (seq_back _ _ _ _ _ _ _ _ _ _ _ _ _ _ _ _ (back_oneline d _ D11) At1 H) as [n3 [x [r5 [cs4 [-> [[O3 Ol] [R3 [At5 [E H3]]]]]]]]].
    apply seq_nil_inv in H3. destruct H3 as [-> [-> ->]]. inversion E; subst. split; [reflexivity|]. exists n3, x, r5. rewrite (w_prod_line _ _ Ol), <- app_assoc.
    split; [reflexivity|]. split; [reflexivity|]. split; [rewrite app_length; unfold text in *; lia|]. split; [exact O3|exact R3].
Qed.

Lemma back_block : forall d k, 15 <= d -> back d "BLOCK_PRODUCTIONS" (Some (Z.of_nat k)) (sep_by [10%N] (w_prod k)) (fun g _ => Forall (wf_prod uniword) (ne_list g) /\ Forall clear_prod (ne_list g)) (is_block t).
Proof.
  intros d k D p s q j o At H. deeper d. assert (D14 : 14 <= d) by lia. assert (Es : eats d "\n" (Some (Z.of_nat k)) (fun w => w = [10%N])) by eat.
  destruct (list_const_back uniword t e gprod (w_prod k) (fun x => wf_prod uniword x /\ clear_prod x) (is_prod_node t) [10%N] d "BLOCK_PRODUCTIONS" RNode "BLOCK_PRODUCTION" "\n" _ eq_refl (back_prod d k D14) Es _ _ _ _ _ At H)
    as [-> [n [x [rest [-> [-> [-> [O R]]]]]]]]. split; [reflexivity|]. exists n, x, rest. split; [reflexivity|]. split; [reflexivity|]. split; [reflexivity|]. split; [|exact R].
  split; (eapply Forall_impl; [|exact O]); cbn; intros a Ha; apply Ha.
Qed.

(* -------- the content -------- *)

Lemma eoi_inv : forall d p s i q j o, at_ t p s -> run d "EOI" p i = Ok (Some (q, j, o)) -> q = p /\ j = i /\ o = None /\ e <= p.
Proof.
  intros d p s i q j o At H. destruct d as [|d]; [discriminate H|]. cbn [attempt] in H. rewrite (eq_refl : mget metagrammar "EOI" = Some (PRe, RNone, [""])) in H. unfold attempt_re in H.
  rewrite (re_match_hit uniword t "" REps p [] s [] eq_refl At (fm_eps uniword s)) in H. rewrite (eq_refl : ("EOI" =? "INDENT")%string = false), (eq_refl : ("EOI" =? "OUTDENT")%string = false), (eq_refl : ("EOI" =? "NLAI")%string = false), (eq_refl : ("EOI" =? "EOI")%string = true) in H.
  cbn [length] in H. rewrite Nat.add_0_r in H.
  destruct (p <? e) eqn:L; cbn in H; inversion H; subst. apply Nat.ltb_ge in L. auto.
Qed.

Lemma back_content1 : forall d i p s q j o, 12 <= d -> at_ t p s -> run d "EMU_GRAMMAR_CONTENT_1" p i = Ok (Some (q, j, o)) ->
  j = i /\ e <= q /\ exists n x rest, o = Some n /\ s = w_line x ++ rest /\ q = p + length (w_line x) /\ wf_prod uniword x /\ clear_prod x /\ on_a_line x /\ is_prod_node t n x.
Proof.
  intros d i p s q j o D At H. deeper d. eapply cat_up_inv in H; [|reflexivity]. destruct H as [c [H ->]]. assert (D11 : 11 <= d) by lia.
  destruct (seq_back _ _ _ _ _ _ _ _ _ _ _ _ _ _ _ _ (back_oneline d _ D11) At H) as [n3 [x [r5 [cs4 [-> [[[O1 O2] Ol] [R3 [At5 [E H3]]]]]]]]].
  apply seq_inv in H3. destruct H3 as [p2 [i2 [c2 [cs2 [H1 [H2 ->]]]]]]. destruct (eoi_inv _ _ _ _ _ _ _ At5 H1) as [-> [-> [-> Le]]]. apply seq_nil_inv in H2. destruct H2 as [-> [-> ->]].
  inversion E; subst. split; [reflexivity|]. split; [exact Le|]. exists n3, x, r5. auto 9.
Qed.

Lemma back_content2 : forall d k p s q j o, 16 <= d -> at_ t p s -> run d "EMU_GRAMMAR_CONTENT_2" p (Some (Z.of_nat k)) = Ok (Some (q, j, o)) ->
  j = Some (Z.of_nat k) /\ e <= q /\ exists n g rest, o = Some n /\ s = w_block k g ++ rest /\ q = p + length (w_block k g) /\
  Forall (wf_prod uniword) (ne_list g) /\ Forall clear_prod (ne_list g) /\ is_block t n g.
Proof.
  intros d k p s q j o D At H. deeper d. eapply cat_up_inv in H; [|reflexivity]. destruct H as [c [H ->]]. assert (D15 : 15 <= d) by lia.
  eapply seq_indent in H; [|exact At].
  destruct (seq_back _ _ _ _ _ _ _ _ _ _ _ _ _ _ _ _ (back_block d _ D15) At H) as [n [g [r5 [cs4 [-> [[O1 O2] [R3 [At5 [E H3]]]]]]]]].
  eapply seq_outdent in H3; [|exact At5]. eapply seq_eats in H3; [|apply eats_nlai|exact At5]. destruct H3 as [w1 [r1 [-> [-> [At1 H3]]]]].
  apply seq_inv in H3. destruct H3 as [p2 [i2 [c2 [cs2 [H1 [H2 ->]]]]]]. destruct (eoi_inv _ _ _ _ _ _ _ At1 H1) as [-> [-> [-> Le]]]. apply seq_nil_inv in H2. destruct H2 as [-> [-> ->]].
  inversion E; subst. split; [reflexivity|]. split; [exact Le|]. exists n, g, r1. unfold w_block. rewrite <- app_assoc, app_length, Nat.add_assoc. auto 9.
Qed.
End Back.
