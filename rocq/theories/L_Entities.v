(* Specification and lemmas for shared.decode_entities (C04). *)
From Verif Require Import M_Base L_Base M_Shared.

(* Specification: one left-to-right scan; at each place, the first entity of
   the table that is a prefix of the remaining text is decoded. *)
Fixpoint lookup_entity (tbl : list (text * text)) (t : text) : option (text * text) :=
  match tbl with
  | [] => None
  | (p, r) :: tbl' => if is_prefix p t then Some (p, r) else lookup_entity tbl' t
  end.

Fixpoint scan_entities (tbl : list (text * text)) (skip : nat) (t : text) : text :=
  match t with
  | [] => []
  | c :: t' =>
    match skip with
    | S k => scan_entities tbl k t'
    | O => match lookup_entity tbl t with
           | Some (p, r) => r ++ scan_entities tbl (length p - 1) t'
           | None => c :: scan_entities tbl 0 t'
           end
    end
  end.

Definition entity_table : list (text * text) :=
  [(e_lt, [c_lt]); (e_gt, [c_gt]); (e_ldquo, [c_ldquo]); (e_rdquo, [c_rdquo]); (e_amp, [c_amp])].

(* Escaping, the usual inverse. *)
Definition escape_char (c : N) : text :=
  if (c =? c_amp)%N then e_amp else if (c =? c_lt)%N then e_lt else if (c =? c_gt)%N then e_gt else [c].
Definition escape (t : text) : text := flat_map escape_char t.

Lemma is_prefix_app p t : is_prefix p t = true <-> exists u, t = p ++ u.
Proof.
  revert t. induction p as [|x p IH]; intros t; simpl.
  - split; [intros _; now exists t|reflexivity].
  - destruct t as [|y t]; [split; [discriminate|intros [u H]; discriminate]|].
    rewrite andb_true_iff, N.eqb_eq, IH. split.
    + intros [-> [u ->]]. now exists u.
    + intros [u H]. inversion H; subst. eauto.
Qed.

Lemma replace_go_skip p r : forall k u, k <= length u -> replace_go p r k u = replace_go p r 0 (skipn k u).
Proof.
  induction k as [|k IH]; intros u H; [reflexivity|].
  destruct u as [|c u]; simpl in *; [lia|]. rewrite IH by lia. reflexivity.
Qed.

Lemma scan_skip tbl : forall k u, k <= length u -> scan_entities tbl k u = scan_entities tbl 0 (skipn k u).
Proof.
  induction k as [|k IH]; intros u H; [reflexivity|].
  destruct u as [|c u]; simpl in *; [lia|]. rewrite IH by lia. reflexivity.
Qed.

Lemma replace_match p r u : p <> [] -> str_replace p r (p ++ u) = r ++ str_replace p r u.
Proof.
  intros Hp. unfold str_replace. destruct p as [|x p]; [congruence|].
  cbn [app replace_go].
  replace (is_prefix (x :: p) (x :: p ++ u)) with true
    by (symmetry; apply is_prefix_app; exists u; reflexivity).
  f_equal. cbn [length]. rewrite Nat.sub_succ, Nat.sub_0_r.
  rewrite replace_go_skip by (rewrite app_length; lia).
  now rewrite skipn_app, skipn_all, Nat.sub_diag.
Qed.

Lemma replace_nomatch p r c u : is_prefix p (c :: u) = false ->
  str_replace p r (c :: u) = c :: str_replace p r u.
Proof. intros H. unfold str_replace. cbn [replace_go]. now rewrite H. Qed.

(* conditions on a table: every entity starts with '&' and has no other '&' *)
Definition amp_entity (q : text) : Prop := exists q', q = c_amp :: q' /\ ~ In c_amp q'.

Lemma lookup_match tbl t q s : Forall (fun e => amp_entity (fst e)) tbl ->
  lookup_entity tbl t = Some (q, s) -> In (q, s) tbl /\ exists u, t = q ++ u.
Proof.
  intros HF. induction tbl as [|[p r] tbl IH]; simpl; [discriminate|].
  inversion HF; subst. destruct (is_prefix p t) eqn:E.
  - intros H. inversion H; subst. split; [auto|]. now apply is_prefix_app.
  - intros H. destruct (IH H2 H). auto.
Qed.

Lemma scan_plain tbl r u : Forall (fun e => amp_entity (fst e)) tbl -> ~ In c_amp r ->
  scan_entities tbl 0 (r ++ u) = r ++ scan_entities tbl 0 u.
Proof.
  intros HF. induction r as [|c r IH]; intros Hr; [reflexivity|].
  cbn [app scan_entities].
  destruct (lookup_entity tbl (c :: r ++ u)) as [[q s]|] eqn:E.
  - exfalso. apply lookup_match in E as [Hin [v Hv]]; auto.
    rewrite Forall_forall in HF. destruct (HF _ Hin) as (q' & Hq & _). simpl in Hq. subst q.
    inversion Hv; subst. apply Hr. now left.
  - f_equal. apply IH. intros H. apply Hr. now right.
Qed.

Section Step.
  Variables (p r : text) (tbl : list (text * text)).
  Hypothesis Hp : amp_entity p.
  Hypothesis Hr : r <> [].
  Hypothesis Hramp : ~ In c_amp r.
  Hypothesis HF : Forall (fun e => amp_entity (fst e)) tbl.
  Hypothesis Hfresh : forall q s x, In (q, s) tbl -> In x r -> ~ In x q.

  Lemma prefix_replace q' : forall t,
    ~ In c_amp q' -> (forall x, In x r -> ~ In x q') ->
    is_prefix q' (str_replace p r t) = is_prefix q' t /\
    (is_prefix q' t = true -> skipn (length q') (str_replace p r t) = str_replace p r (skipn (length q') t)).
  Proof.
    induction q' as [|d q' IH]; intros t Ha Hx; [split; reflexivity|].
    destruct t as [|c t]; [split; [reflexivity|discriminate]|].
    destruct (is_prefix p (c :: t)) eqn:E.
    - apply is_prefix_app in E as [u E]. destruct Hp as (p' & Ep & Hp'). rewrite E.
      rewrite replace_match by (rewrite Ep; discriminate).
      assert (is_prefix (d :: q') (p ++ u) = false) as E1.
      { rewrite Ep. cbn [app is_prefix]. destruct (N.eqb_spec d c_amp) as [->|]; [|reflexivity].
        exfalso. apply Ha. now left. }
      rewrite E1. split; [|discriminate].
      destruct r as [|y r'] eqn:Er; [congruence|]. cbn [app is_prefix].
      destruct (N.eqb_spec d y) as [->|]; [|reflexivity].
      exfalso. apply (Hx y); now left.
    - rewrite replace_nomatch by exact E. cbn [is_prefix].
      destruct (N.eqb_spec d c) as [->|]; [|split; [reflexivity|discriminate]].
      cbn [andb length skipn]. apply IH.
      + intros H. apply Ha. now right.
      + intros x H1 H2. apply (Hx x H1). now right.
  Qed.

  Lemma lookup_replace c t :
    is_prefix p (c :: t) = false ->
    forall tbl', incl tbl' tbl ->
    lookup_entity tbl' (c :: str_replace p r t) = lookup_entity tbl' (c :: t).
  Proof.
    intros E tbl'. induction tbl' as [|[q s] tbl' IH]; intros Hi; [reflexivity|].
    cbn [lookup_entity]. rewrite IH by (intros x Hx; apply Hi; now right).
    assert (In (q, s) tbl) as Hin by (apply Hi; now left).
    rewrite Forall_forall in HF. destruct (HF _ Hin) as (q' & Eq & Hq'). simpl in Eq.
    replace (is_prefix q (c :: str_replace p r t)) with (is_prefix q (c :: t)); [reflexivity|].
    rewrite Eq. cbn [is_prefix]. f_equal. symmetry.
    apply (prefix_replace q' t Hq'). intros x Hx Hx'. apply (Hfresh q s x Hin Hx). rewrite Eq. now right.
  Qed.

  Lemma scan_replace_step : forall n t, length t <= n ->
    scan_entities tbl 0 (str_replace p r t) = scan_entities ((p, r) :: tbl) 0 t.
  Proof.
    induction n as [|n IH]; intros t Hn.
    { destruct t; [reflexivity|simpl in Hn; lia]. }
    destruct t as [|c t]; [reflexivity|]. cbn [length] in Hn.
    destruct (is_prefix p (c :: t)) eqn:E.
    - pose proof E as E0. apply is_prefix_app in E as [u E]. pose proof Hp as (p' & Ep & Hp').
      rewrite E. rewrite replace_match by (rewrite Ep; discriminate).
      rewrite scan_plain by auto.
      cbn [scan_entities]. rewrite Ep in *. cbn [app] in *. inversion E; subst c t.
      cbn [scan_entities lookup_entity]. rewrite E0. f_equal.
      cbn [length]. rewrite Nat.sub_succ, Nat.sub_0_r.
      rewrite (scan_skip _ (length p')) by (rewrite app_length; lia).
      rewrite skipn_app, skipn_all, Nat.sub_diag. cbn [skipn app].
      apply IH. rewrite app_length in Hn. lia.
    - rewrite replace_nomatch by exact E.
      cbn [scan_entities lookup_entity]. rewrite E.
      rewrite (lookup_replace c t E tbl) by apply incl_refl.
      destruct (lookup_entity tbl (c :: t)) as [[q s]|] eqn:El.
      + f_equal. apply lookup_match in El as [Hin [u Hu]]; auto.
        rewrite Forall_forall in HF. destruct (HF _ Hin) as (q' & Eq & Hq'). simpl in Eq. subst q.
        cbn [length app] in *. rewrite Nat.sub_succ, Nat.sub_0_r. inversion Hu; subst c t.
        destruct (prefix_replace q' (q' ++ u) Hq') as [H1 H2].
        { intros x Hx Hx'. apply (Hfresh _ _ x Hin Hx). now right. }
        assert (is_prefix q' (q' ++ u) = true) as H3 by (apply is_prefix_app; eauto).
        specialize (H2 H3). rewrite H3 in H1.
        apply is_prefix_app in H1 as [v Hv].
        rewrite (scan_skip _ _ (str_replace p r (q' ++ u))) by (rewrite Hv, app_length; lia).
        rewrite H2. rewrite (scan_skip _ (length q')) by (rewrite app_length; lia).
        apply IH. rewrite skipn_app, skipn_all, Nat.sub_diag. simpl.
        rewrite app_length in Hn. lia.
      + f_equal. apply IH. lia.
  Qed.
End Step.

Lemma scan_nil t : scan_entities [] 0 t = t.
Proof. induction t as [|c t IH]; simpl; congruence. Qed.

Ltac no_in := simpl; let H := fresh in intros H; repeat (destruct H as [H|H]; [discriminate|]); contradiction.

Lemma amp_lt : amp_entity e_lt.      Proof. eexists; split; [reflexivity|]. no_in. Qed.
Lemma amp_gt : amp_entity e_gt.      Proof. eexists; split; [reflexivity|]. no_in. Qed.
Lemma amp_ldquo : amp_entity e_ldquo. Proof. eexists; split; [reflexivity|]. no_in. Qed.
Lemma amp_rdquo : amp_entity e_rdquo. Proof. eexists; split; [reflexivity|]. no_in. Qed.
Lemma amp_amp : amp_entity e_amp.    Proof. eexists; split; [reflexivity|]. no_in. Qed.

Lemma replace_scan1 p r t : amp_entity p -> str_replace p r t = scan_entities [(p, r)] 0 t.
Proof.
  intros Hp. remember (length t) as n eqn:En. assert (length t <= n) as Hn by lia. clear En.
  revert t Hn. induction n as [|n IH]; intros t Hn.
  { destruct t; [reflexivity|simpl in Hn; lia]. }
  destruct t as [|c t]; [reflexivity|]. cbn [length] in Hn.
  destruct (is_prefix p (c :: t)) eqn:E.
  - pose proof E as E0. apply is_prefix_app in E as [u E]. pose proof Hp as (p' & Ep & Hp').
    rewrite E, replace_match by (rewrite Ep; discriminate).
    rewrite Ep in *. cbn [app] in *. inversion E; subst c t.
    cbn [scan_entities lookup_entity]. rewrite E0. f_equal.
    cbn [length]. rewrite Nat.sub_succ, Nat.sub_0_r.
    rewrite (scan_skip _ (length p')) by (rewrite app_length; lia).
    rewrite skipn_app, skipn_all, Nat.sub_diag. cbn [skipn app].
    apply IH. rewrite app_length in Hn. lia.
  - rewrite replace_nomatch by exact E. cbn [scan_entities lookup_entity]. rewrite E.
    f_equal. apply IH. lia.
Qed.

Lemma decode_is_scan t :
  ~ In c_lt t -> decode_entities t = Ok (scan_entities entity_table 0 t).
Proof.
  intros Hlt. unfold decode_entities.
  destruct (existsb (N.eqb c_lt) t) eqn:E.
  { exfalso. apply Hlt. apply existsb_exists in E as (x & Hx & Ex). apply N.eqb_eq in Ex. now subst. }
  cbn [negb assert_ bind]. f_equal. unfold entity_table.
  rewrite replace_scan1 by apply amp_amp.
  rewrite (scan_replace_step e_rdquo [c_rdquo]) with (n := length (str_replace e_ldquo [c_ldquo] (str_replace e_gt [c_gt] (str_replace e_lt [c_lt] t)))); auto using amp_rdquo, amp_amp; try discriminate.
  rewrite (scan_replace_step e_ldquo [c_ldquo]) with (n := length (str_replace e_gt [c_gt] (str_replace e_lt [c_lt] t))); auto using amp_rdquo, amp_amp, amp_ldquo; try discriminate.
  rewrite (scan_replace_step e_gt [c_gt]) with (n := length (str_replace e_lt [c_lt] t)); auto using amp_rdquo, amp_amp, amp_ldquo, amp_gt; try discriminate.
  rewrite (scan_replace_step e_lt [c_lt]) with (n := length t); auto using amp_rdquo, amp_amp, amp_ldquo, amp_gt, amp_lt; try discriminate.
  all: try no_in.
  all: try (intros q s x Hq Hx; simpl in Hx; destruct Hx as [<-|[]];
            simpl in Hq; repeat (destruct Hq as [Hq|Hq]; [inversion Hq; subst; no_in|]); contradiction).
Qed.

Lemma decode_lt_fails t : In c_lt t -> decode_entities t = Err AssertionError.
Proof.
  intros H. unfold decode_entities.
  replace (existsb (N.eqb c_lt) t) with true; [reflexivity|].
  symmetry. apply existsb_exists. exists c_lt. split; [exact H|apply N.eqb_refl].
Qed.

Lemma scan_escape t : scan_entities entity_table 0 (escape t) = t.
Proof.
  induction t as [|c t IH]; [reflexivity|].
  cbn [escape flat_map]. fold (escape t). unfold escape_char.
  destruct (N.eqb_spec c c_amp) as [->|H1]; [simpl; now rewrite IH|].
  destruct (N.eqb_spec c c_lt) as [->|H2]; [simpl; now rewrite IH|].
  destruct (N.eqb_spec c c_gt) as [->|H3]; [simpl; now rewrite IH|].
  rewrite scan_plain.
  - rewrite IH. reflexivity.
  - unfold entity_table; repeat constructor; auto using amp_rdquo, amp_amp, amp_ldquo, amp_gt, amp_lt.
  - intros [H|[]]. congruence.
Qed.

Lemma escape_no_lt t : ~ In c_lt (escape t).
Proof.
  unfold escape. rewrite in_flat_map. intros (c & _ & H). unfold escape_char in H.
  destruct (c =? c_amp)%N; [revert H; no_in|].
  destruct (N.eqb_spec c c_lt); [revert H; no_in|].
  destruct (c =? c_gt)%N; [revert H; no_in|]. destruct H as [H|[]]. congruence.
Qed.

Lemma decode_escape t : decode_entities (escape t) = Ok t.
Proof. rewrite decode_is_scan by apply escape_no_lt. now rewrite scan_escape. Qed.
