(* The two searches of the graph of calls, and the propagation to callers. *)
From Coq Require Import Ascii String Permutation Lia List.
From Verif Require Import M_Base L_Base M_HTML M_Shared M_Values M_Validate L_Validate L_ValTree L_ValNodes M_Style L_StyleVars M_Deps L_Deps.
Open Scope list_scope.
Open Scope nat_scope.
Notation length := List.length.

(* how many of some names are not in a list *)
Definition left_over (dom l : list text) : nat := length (filter (fun x => negb (tmem_ x l)) dom).
Lemma left_over_cons dom l n : In n dom -> ~ In n l -> left_over dom (n :: l) < left_over dom l.
Proof.
  unfold left_over. intros I N. induction dom as [|d dom IH]; [destruct I|]. cbn [filter].
  assert (LE : forall dm, length (filter (fun x => negb (tmem_ x (n :: l))) dm) <= length (filter (fun x => negb (tmem_ x l)) dm)).
  { clear. induction dm as [|d dm IH]; [reflexivity|]. cbn [filter]. change (tmem_ d (n :: l)) with (text_eqb d n || tmem_ d l). destruct (text_eqb d n), (tmem_ d l); cbn [orb negb length]; lia. }
  change (tmem_ d (n :: l)) with (text_eqb d n || tmem_ d l). destruct I as [->|I].
  - assert (E : text_eqb n n = true) by now apply text_eqb_eq. rewrite E. cbn [orb negb]. assert (M : tmem_ n l = false). { destruct (tmem_ n l) eqn:M; [|reflexivity]. now apply tmem_iff_ in M. } rewrite M. cbn [negb length]. specialize (LE dom). lia.
  - specialize (IH I). destruct (text_eqb d n), (tmem_ d l); cbn [orb negb length]; lia.
Qed.
Lemma left_over_mono dom l l' : incl l l' -> left_over dom l' <= left_over dom l.
Proof.
  intros S0. unfold left_over. induction dom as [|d dom IH]; [reflexivity|]. cbn [filter]. destruct (tmem_ d l) eqn:A, (tmem_ d l') eqn:B; cbn [negb length]; try lia. apply tmem_iff_, S0, tmem_iff_ in A. congruence.
Qed.
Lemma left_over_nil dom : left_over dom [] = length dom.
Proof. unfold left_over. induction dom as [|d dom IH]; [reflexivity|]. cbn [filter]. change (negb (tmem_ d [])) with true. cbv iota. cbn [length]. now rewrite IH. Qed.
Lemma tmem_no k l : tmem_ k l = false <-> ~ In k l.
Proof. rewrite <- tmem_iff_. destruct (tmem_ k l); split; congruence || (intros H; try reflexivity; exfalso; now apply H). Qed.

Section Search.
  Variable callees : text -> option (list text).
  Variable dom : list text.
  Hypothesis dom_ok : forall n cs, callees n = Some cs -> In n dom.

  (* y can be got to from x *)
  Inductive path : text -> text -> Prop :=
  | path_refl x : path x x
  | path_step x cs c y : callees x = Some cs -> In c cs -> path c y -> path x y.
  Definition found (st : rstate) (x : text) : Prop := match callees x with None => In x (fst st) | Some _ => In x (snd st) end.
  Definition proper (st : rstate) : Prop := (forall x, In x (fst st) -> callees x = None) /\ (forall x, In x (snd st) -> callees x <> None).
  Definition grew (from : text -> Prop) (st st' : rstate) : Prop :=
    proper st' /\ incl (fst st) (fst st') /\ incl (snd st) (snd st') /\
    (forall x, In x (fst st') -> In x (fst st) \/ from x) /\
    (forall x, In x (snd st') -> In x (snd st) \/ from x /\ forall cs c, callees x = Some cs -> In c cs -> found st' c).
  Lemma found_grew from st st' x : grew from st st' -> found st x -> found st' x.
  Proof. intros (_ & A & B & _) F. unfold found in *. destruct (callees x); auto. Qed.
  Lemma grew_refl from st : proper st -> grew from st st.
  Proof. intros P. split; [assumption|]. split; [apply incl_refl|]. split; [apply incl_refl|]. split; auto. Qed.
  Lemma grew_trans (f1 f2 from : text -> Prop) a b c : (forall x, f1 x -> from x) -> (forall x, f2 x -> from x) -> grew f1 a b -> grew f2 b c -> grew from a c.
  Proof.
    intros I1 I2 (P1 & A1 & B1 & C1 & D1) (P2 & A2 & B2 & C2 & D2). split; [assumption|]. split; [eapply incl_tran; eassumption|]. split; [eapply incl_tran; eassumption|]. split.
    - intros x X. destruct (C2 x X) as [Y|Y]; [|right; auto]. destruct (C1 x Y) as [Z|Z]; [now left|right; auto].
    - intros x X. destruct (D2 x X) as [Y|(Y & K)]; [|right; split; auto]. destruct (D1 x Y) as [Z|(Z & K)]; [now left|]. right. split; [auto|]. intros cs d E I. apply (found_grew f2 b); [now split|]. now apply (K cs).
  Qed.
  Lemma reach_op_eq f st n :
    reach_op (S f) callees st n =
    if tmem_ n (fst st) then Ok st
    else match callees n with
    | None => Ok (n :: fst st, snd st)
    | Some cs => if tmem_ n (snd st) then Ok st else reach_all f callees (fst st, n :: snd st) cs
    end.
  Proof.
    destruct st as [a b]. cbn [reach_op fst snd]. destruct (tmem_ n a); [reflexivity|]. destruct (callees n) as [cs|]; [|reflexivity]. destruct (tmem_ n b); [reflexivity|].
    generalize (a, n :: b). induction cs as [|c cs IH]; intros st; [reflexivity|]. cbn [reach_all]. destruct (reach_op f callees st c); [|reflexivity]. cbn [bind]. apply IH.
  Qed.
  Lemma reach_all_spec f : (forall st n, proper st -> left_over dom (snd st) < f -> exists st', reach_op f callees st n = Ok st' /\ grew (path n) st st' /\ found st' n) ->
    forall l st, proper st -> left_over dom (snd st) < f -> exists st', reach_all f callees st l = Ok st' /\ grew (fun y => exists n, In n l /\ path n y) st st' /\ forall n, In n l -> found st' n.
  Proof.
    intros H. induction l as [|n l IH]; intros st P L; cbn [reach_all].
    - exists st. split; [reflexivity|]. split; [now apply grew_refl|intros n []].
    - destruct (H st n P L) as (st1 & -> & G1 & F1). cbn [bind]. destruct (IH st1) as (st2 & -> & G2 & F2); [apply G1|pose proof (left_over_mono dom (snd st) (snd st1) ltac:(apply G1)); lia|]. exists st2. split; [reflexivity|]. split.
      + eapply grew_trans; [| |exact G1|exact G2]; cbv beta; [intros x X; exists n; split; [now left|assumption]|]. intros x (m & M & X). exists m. split; [now right|assumption].
      + intros m [<-|M]; [now apply (found_grew _ _ _ _ G2)|now apply F2].
  Qed.
  Lemma reach_op_spec f : forall st n, proper st -> left_over dom (snd st) < f -> exists st', reach_op f callees st n = Ok st' /\ grew (path n) st st' /\ found st' n.
  Proof.
    induction f as [|f IH]; intros st n P L; [lia|]. rewrite reach_op_eq. destruct (tmem_ n (fst st)) eqn:M.
    { apply tmem_iff_ in M. exists st. split; [reflexivity|]. split; [now apply grew_refl|]. unfold found. destruct P as (P & _). now rewrite (P n M). }
    apply tmem_no in M. destruct (callees n) as [cs|] eqn:C.
    - destruct (tmem_ n (snd st)) eqn:R.
      { apply tmem_iff_ in R. exists st. split; [reflexivity|]. split; [now apply grew_refl|]. unfold found. now rewrite C. }
      apply tmem_no in R. assert (L' : left_over dom (snd (fst st, n :: snd st)) < f). { cbn [snd]. pose proof (left_over_cons dom (snd st) n (dom_ok n cs C) R). lia. }
      assert (P' : proper (fst st, n :: snd st)). { destruct P as (P1 & P2). split; [assumption|]. cbn [snd]. intros x [<-|X]; [congruence|now apply P2]. }
      destruct (reach_all_spec f IH cs _ P' L') as (st' & -> & (G0 & G1 & G2 & G3 & G4) & F). cbn [fst snd] in G1, G2, G3, G4. exists st'. split; [reflexivity|]. split.
      + split; [assumption|]. split; [assumption|]. split; [intros x X; apply G2; now right|]. split.
        * intros x X. destruct (G3 x X) as [Y|(m & I & Y)]; [now left|]. right. now apply path_step with cs m.
        * intros x X. destruct (G4 x X) as [[<-|Y]|((m & I & Y) & K)]; [right; split; [constructor|]|now left|right; split; [now apply path_step with cs m|assumption]]. intros cs' c E I. rewrite C in E. injection E as <-. now apply F.
      + unfold found. rewrite C. apply G2. now left.
    - exists (n :: fst st, snd st). split; [reflexivity|]. split; [|unfold found; rewrite C; now left]. destruct P as (P1 & P2). split; [split; [|assumption]; cbn [fst]; intros x [<-|X]; auto|]. cbn [fst snd]. split; [intros x X; now right|]. split; [apply incl_refl|]. split; [|auto]. intros x [<-|X]; [right; constructor|now left].
  Qed.
  (* what a search from some names finds: exactly what can be got to from them *)
  Lemma reach_from l f : length dom < f -> exists st, reach_all f callees ([], []) l = Ok st /\
    (forall x, In x (fst st) <-> callees x = None /\ exists n, In n l /\ path n x) /\
    (forall x, In x (snd st) <-> callees x <> None /\ exists n, In n l /\ path n x).
  Proof.
    intros L. destruct (reach_all_spec f (reach_op_spec f) l ([], [])) as (st & E & (P & _ & _ & A & B) & F); [split; intros x []|cbn [snd]; rewrite left_over_nil; lia|]. exists st. split; [assumption|].
    assert (K : forall n x, path n x -> found st n -> found st x).
    { induction 1 as [x|x cs c y C I _ IH]; [auto|]. intros X. apply IH. unfold found in X. rewrite C in X. destruct (B x X) as [[]|(_ & Q)]. now apply (Q cs). }
    destruct P as (P1 & P2). split; intros x; split.
    - intros X. split; [auto|]. now destruct (A x X) as [[]|Y].
    - intros (C & n & I & Q). apply (K n x Q) in F; [|assumption]. unfold found in F. now rewrite C in F.
    - intros X. split; [auto|]. now destruct (B x X) as [[]|(Y & _)].
    - intros (C & n & I & Q). apply (K n x Q) in F; [|assumption]. unfold found in F. now destruct (callees x).
  Qed.

  (* ---------- the search of static semantics ---------- *)
  Definition ss_edge (x c : text) : Prop := exists cs, callees x = Some cs /\ In c cs /\ ~ (x = tx "ToString" /\ (c = tx "ToPrimitive" \/ c = tx "ToString")).
  Inductive ss_path : text -> text -> Prop :=
  | sp_refl x : ss_path x x
  | sp_step x c y : ss_edge x c -> ss_path c y -> ss_path x y.
  Lemma ss_path_path x y : ss_path x y -> path x y.
  Proof. induction 1 as [x|x c y (cs & E & I & _) _ IH]; [constructor|]. now apply path_step with cs c. Qed.
  Variable noinfo : list text.
  Definition ss_found (ss : list text) (x : text) : Prop := In x noinfo \/ In x ss.
  Definition ss_grew (from : text -> Prop) (ss ss' : list text) : Prop :=
    incl ss ss' /\ (forall x, In x ss' -> In x ss \/ (from x /\ callees x <> None /\ ~ In x noinfo /\ forall c, ss_edge x c -> ss_found ss' c)).
  Lemma ss_trans (f1 f2 from : text -> Prop) a b c : (forall x, f1 x -> from x) -> (forall x, f2 x -> from x) -> ss_grew f1 a b -> ss_grew f2 b c -> ss_grew from a c.
  Proof.
    intros I1 I2 (A1 & B1) (A2 & B2). split; [eapply incl_tran; eassumption|]. intros x X. destruct (B2 x X) as [Y|(Y & C & NI & K)]; [|right; auto]. destruct (B1 x Y) as [Z|(Z & C & NI & K)]; [now left|]. right. split; [auto|]. split; [assumption|]. split; [assumption|]. intros d E. destruct (K d E) as [D|D]; [now left|right; auto].
  Qed.
  Definition good_from (l : list text) : Prop := forall n x, In n l -> ss_path n x -> callees x = None -> In x noinfo.
  Fixpoint ss_go (f : nat) (n : text) (l : list text) (ss : list text) : res (list text) :=
    match l with
    | [] => Ok ss
    | c :: l' =>
      if text_eqb n (tx "ToString") && tmem_ c [tx "ToPrimitive"; tx "ToString"] then ss_go f n l' ss
      else bind (ss_reach_op f callees noinfo ss c) (fun ss' => ss_go f n l' ss')
    end.
  Lemma ss_reach_eq f ss n :
    ss_reach_op (S f) callees noinfo ss n =
    if tmem_ n noinfo then Ok ss
    else if tmem_ n ss then Ok ss
    else match callees n with None => Err KeyError | Some cs => ss_go f n cs (n :: ss) end.
  Proof.
    cbn [ss_reach_op]. destruct (tmem_ n noinfo); [reflexivity|]. destruct (tmem_ n ss); [reflexivity|]. destruct (callees n) as [cs|]; [|reflexivity].
    generalize (n :: ss). induction cs as [|c cs IH]; intros st; [reflexivity|]. cbn [ss_go]. destruct (text_eqb n (tx "ToString") && tmem_ c [tx "ToPrimitive"; tx "ToString"]); [apply IH|]. destruct (ss_reach_op f callees noinfo st c); [|reflexivity]. cbn [bind]. apply IH.
  Qed.
  Definition skipped (n c : text) : bool := text_eqb n (tx "ToString") && tmem_ c [tx "ToPrimitive"; tx "ToString"].
  Lemma skipped_iff n c : skipped n c = true <-> n = tx "ToString" /\ (c = tx "ToPrimitive" \/ c = tx "ToString").
  Proof. unfold skipped. rewrite andb_true_iff, text_eqb_eq, tmem_iff_. cbn [In]. intuition congruence. Qed.
  Definition ss_one (f : nat) : Prop := forall ss n, good_from [n] -> left_over dom ss < f -> exists ss', ss_reach_op f callees noinfo ss n = Ok ss' /\ ss_grew (ss_path n) ss ss' /\ ss_found ss' n.
  Lemma ss_go_spec f n : ss_one f -> forall l ss, (forall c, In c l -> skipped n c = false -> good_from [c]) -> left_over dom ss < f ->
    exists ss', ss_go f n l ss = Ok ss' /\ ss_grew (fun y => exists c, In c l /\ skipped n c = false /\ ss_path c y) ss ss' /\ forall c, In c l -> skipped n c = false -> ss_found ss' c.
  Proof.
    intros H. induction l as [|c l IH]; intros ss G L; cbn [ss_go].
    - exists ss. split; [reflexivity|]. split; [split; [apply incl_refl|auto]|intros c []].
    - fold (skipped n c). destruct (skipped n c) eqn:K.
      + destruct (IH ss) as (ss' & E & (W1 & W2) & F); [intros d D; apply G; now right|assumption|]. exists ss'. split; [assumption|]. split.
        * split; [assumption|]. intros x X. destruct (W2 x X) as [Y|((m & M & Y) & Z)]; [now left|]. right. split; [|assumption]. exists m. split; [now right|assumption].
        * intros d [<-|D] KD; [congruence|auto].
      + destruct (H ss c) as (s1 & -> & W1 & F1); [apply G; [now left|assumption]|assumption|]. cbn [bind]. destruct (IH s1) as (s2 & -> & W2 & F2); [intros d D; apply G; now right|pose proof (left_over_mono dom ss s1 ltac:(apply W1)); lia|]. exists s2. split; [reflexivity|]. split.
        * eapply ss_trans; [| |exact W1|exact W2]; cbv beta; [intros x X; exists c; split; [now left|now split]|]. intros x (m & M & X). exists m. split; [now right|assumption].
        * intros d [<-|D] KD; [|auto]. destruct F1 as [F1|F1]; [now left|right; now apply W2].
  Qed.
  Lemma ss_reach_spec f : ss_one f.
  Proof.
    induction f as [|f IH]; intros ss n G L; [lia|]. rewrite ss_reach_eq. destruct (tmem_ n noinfo) eqn:M.
    { apply tmem_iff_ in M. exists ss. split; [reflexivity|]. split; [split; [apply incl_refl|auto]|now left]. }
    apply tmem_no in M. destruct (tmem_ n ss) eqn:R.
    { apply tmem_iff_ in R. exists ss. split; [reflexivity|]. split; [split; [apply incl_refl|auto]|now right]. }
    apply tmem_no in R. destruct (callees n) as [cs|] eqn:C; [|exfalso; apply M, (G n n); [now left|constructor|assumption]].
    assert (STEP : forall c, In c cs -> skipped n c = false -> ss_edge n c). { intros c I K. exists cs. split; [assumption|]. split; [assumption|]. rewrite <- skipped_iff, K. discriminate. }
    destruct (ss_go_spec f n IH cs (n :: ss)) as (ss' & -> & (W1 & W2) & F).
    - intros c I K m x [<-|[]] P. apply (G n); [now left|]. apply sp_step with c; [now apply STEP|assumption].
    - pose proof (left_over_cons dom ss n (dom_ok n cs C) R). lia.
    - exists ss'. split; [reflexivity|]. split; [|right; apply W1; now left]. split; [intros x X; apply W1; now right|]. intros x X. destruct (W2 x X) as [[<-|Y]|((m & I & K & Y) & Z)].
      + right. split; [constructor|]. split; [congruence|]. split; [assumption|]. intros c (cs' & E & I & NK). rewrite C in E. injection E as <-. apply F; [assumption|]. destruct (skipped n c) eqn:K; [|reflexivity]. now apply skipped_iff in K.
      + now left.
      + right. split; [|assumption]. apply sp_step with m; [now apply STEP|assumption].
  Qed.
  Lemma ss_reach_from l f : length dom < f -> good_from l -> (forall x, In x noinfo -> callees x = None) -> exists ss, ss_reach_all f callees noinfo [] l = Ok ss /\
    forall x, In x ss <-> callees x <> None /\ exists n, In n l /\ ss_path n x.
  Proof.
    intros L G NI. assert (W : forall l ss, good_from l -> left_over dom ss < f -> exists ss', ss_reach_all f callees noinfo ss l = Ok ss' /\ ss_grew (fun y => exists n, In n l /\ ss_path n y) ss ss' /\ forall n, In n l -> ss_found ss' n).
    { clear l G. induction l as [|n l IH]; intros ss G LO; cbn [ss_reach_all].
      - exists ss. split; [reflexivity|]. split; [split; [apply incl_refl|auto]|intros n []].
      - destruct (ss_reach_spec f ss n) as (s1 & -> & W1 & F1); [intros m x [<-|[]]; apply G; now left|assumption|]. cbn [bind]. destruct (IH s1) as (s2 & -> & W2 & F2); [intros m x M; apply G; now right|pose proof (left_over_mono dom ss s1 ltac:(apply W1)); lia|]. exists s2. split; [reflexivity|]. split.
        + eapply ss_trans; [| |exact W1|exact W2]; cbv beta; [intros x X; exists n; split; [now left|assumption]|]. intros x (m & M & X). exists m. split; [now right|assumption].
        + intros m [<-|M]; [destruct F1 as [F1|F1]; [now left|right; now apply W2]|now apply F2]. }
    destruct (W l []) as (ss & E & (_ & B) & F); [assumption|rewrite left_over_nil; lia|]. exists ss. split; [assumption|]. intros x. split.
    - intros X. destruct (B x X) as [[]|(Y & C & _)]. now split.
    - intros (C & n & I & P). assert (K : forall n x, ss_path n x -> ss_found ss n -> ss_found ss x).
      { induction 1 as [y|y c z EY _ IH]; [auto|]. intros Y. apply IH. destruct Y as [Y|Y]; [destruct EY as (cs & E1 & _); apply NI in Y; congruence|]. destruct (B y Y) as [[]|(_ & _ & _ & Q)]. now apply Q. }
      destruct (K n x P (F n I)) as [Y|Y]; [exfalso; now apply C, NI|assumption].
  Qed.
End Search.

(* ---------- the propagation to callers ---------- *)
Section Propagate.
  Variables (ops : cdict) (is : list cinfo).
  (* x is an operation whose name is that of an algorithm that calls y *)
  Definition caller (x y : text) : Prop := In x (map fst ops) /\ exists i, In i is /\ ci_name i = x /\ In y (ci_callees i).
  Inductive up (cur : list text) : text -> Prop :=
  | up_here x : In x cur -> up cur x
  | up_step x y : up cur y -> caller x y -> up cur x.
  Lemma next_callers_iff cur x : In x (next_callers ops is cur) <-> ~ In x cur /\ exists y, In y cur /\ caller x y.
  Proof.
    unfold next_callers, caller, callers_of, is_op. rewrite nodup_In, filter_In, andb_true_iff, tmem_iff_, negb_true_iff, tmem_no, in_flat_map. split.
    - intros ((y & Y & I) & D & NI). split; [assumption|]. exists y. split; [assumption|]. split; [assumption|]. apply in_map_iff in I as (i & E & I). apply filter_In in I as (I & M). apply tmem_iff_ in M. now exists i.
    - intros (NI & y & Y & D & i & I & E & M). split; [|now split]. exists y. split; [assumption|]. apply in_map_iff. exists i. split; [assumption|]. apply filter_In. split; [assumption|]. now apply tmem_iff_.
  Qed.
  Lemma loop_spec f : forall cur, NoDup cur -> incl cur (map fst ops) -> NoDup (map fst ops) -> length ops - length cur < f ->
    exists r, runtimey_loop f ops is cur = Ok r /\ forall x, In x r <-> up cur x.
  Proof.
    induction f as [|f IH]; intros cur ND IN DD L; [lia|]. cbn [runtimey_loop]. destruct (next_callers ops is cur) as [|n new] eqn:E.
    - exists cur. split; [reflexivity|]. intros x. split; [now constructor|]. induction 1 as [x X|x y U IHU C]; [assumption|]. destruct (in_dec (list_eq_dec N.eq_dec) x cur) as [I|I]; [assumption|]. exfalso. assert (K : In x (next_callers ops is cur)) by (apply next_callers_iff; split; [assumption|now exists y]). rewrite E in K. destruct K.
    - rewrite <- E. assert (I2 : incl (cur ++ next_callers ops is cur) (map fst ops)). { intros x X. apply in_app_or in X as [X|X]; [now apply IN|]. apply next_callers_iff in X as (_ & y & _ & X & _). assumption. }
      assert (N2 : NoDup (cur ++ next_callers ops is cur)).
      { clear E I2 L IN. assert (NN : NoDup (next_callers ops is cur)) by (unfold next_callers; apply NoDup_nodup). assert (DJ : forall x, In x cur -> ~ In x (next_callers ops is cur)) by (intros x X K; apply next_callers_iff in K as (K & _); contradiction). revert NN DJ. generalize (next_callers ops is cur). intros l NN DJ. induction cur as [|c cur IHc]; [assumption|]. inversion ND; subst. cbn [app]. constructor; [intros X; apply in_app_or in X as [X|X]; [contradiction|]; now apply (DJ c (or_introl eq_refl))|]. apply IHc; [assumption|intros x X; apply DJ; now right]. }
      pose proof (NoDup_incl_length N2 I2) as LL. rewrite map_length in LL. destruct (IH (cur ++ next_callers ops is cur) N2 I2 DD) as (r & R & U); [rewrite app_length in *; rewrite E in *; cbn [length] in *; lia|]. exists r. split; [assumption|]. intros x. rewrite U. split.
      + induction 1 as [x X|x y _ IHU C]; [|now apply up_step with y]. apply in_app_or in X as [X|X]; [now constructor|]. apply next_callers_iff in X as (_ & y & Y & C). apply up_step with y; [now constructor|assumption].
      + induction 1 as [x X|x y _ IHU C]; [constructor; apply in_or_app; now left|now apply up_step with y].
  Qed.
End Propagate.
