(* Specification and lemmas for NodeGrammar.py (C07). *)
From Verif Require Import M_Base L_Base M_NodeGrammar.

Section NGS.
  Context {R : Type}.
  Notation unit_ := (@unit_ R).
  Notation processor := (@processor R).
  Implicit Types us : list unit_.

  (* an atom accepts a node: same element name and, if there is a regex, it
     full-matches the node's inner text *)
  Definition accepts (a : atom) (n : node) : Prop :=
    match a with
    | AName name => n_name n = name
    | ARegex name re => n_name n = name /\ exists g, re (n_inner n) = Some g
    end.
  (* the nodes [ns] at the front of the remaining nodes are accepted, one by one *)
  Definition pattern_matches (p : list atom) (rest : list node) : Prop :=
    exists ns tail, rest = ns ++ tail /\ Forall2 accepts p ns.
  (* unit number i is the first unit whose pattern matches *)
  Definition first_unit us (rest : list node) (i : nat) (u : unit_) : Prop :=
    nth_error us i = Some u /\ pattern_matches (u_pattern u) rest /\
    forall j v, j < i -> nth_error us j = Some v -> ~ pattern_matches (u_pattern v) rest.

  (* the arguments passed for a run of nodes: a capturing atom contributes what it captured
     (its groups in style 1, the match in style 2), another atom contributes the node *)
  Definition captured (a : atom) (n : node) : option (list text) :=
    match a with
    | AName _ => None
    | ARegex _ re => match re (n_inner n) with Some (g :: gs) => Some (g :: gs) | _ => None end
    end.
  Fixpoint arguments (style : nat) (p : list atom) (ns : list node) : list arg :=
    match p, ns with
    | a :: p', n :: ns' =>
      match captured a n with
      | Some g => if style =? 1 then map ArgText g else [ArgMatch g]
      | None => [ArgNode n]
      end ++ arguments style p' ns'
    | _, _ => []
    end.
  Definition call_args (style : nat) (p : list atom) (ns : list node) : list arg :=
    (if style =? 2 then [ArgSection] else []) ++ arguments style p ns.

  (* effect of one successful run: events and results *)
  Inductive run_unit (style i : nat) (u : unit_) (ns : list node) : list event -> list R -> Prop :=
  | ru_none : u_proc u = PNone -> run_unit style i u ns [EMatch i] []
  | ru_print : u_proc u = PPrint -> run_unit style i u ns [EMatch i; EPrint ns] []
  | ru_call f r : u_proc u = PCall f -> f (call_args style (u_pattern u) ns) = Ok r ->
      run_unit style i u ns [EMatch i; ECall i (call_args style (u_pattern u) ns)] (res_list r).

  (* scanning a prefix of the nodes by consecutive first-matching runs *)
  Inductive scanned us (style : nat) : list node -> list event -> list R -> list node -> Prop :=
  | sc_nil rest : scanned us style rest [] [] rest
  | sc_cons ns tail i u es rs es' rs' rest :
      ns ++ tail <> [] ->
      first_unit us (ns ++ tail) i u -> length ns = length (u_pattern u) ->
      run_unit style i u ns es rs ->
      scanned us style tail es' rs' rest ->
      scanned us style (ns ++ tail) (es ++ es') (rs ++ rs') rest.

  Lemma nma_truthy n a : truthy (node_matches_atom n a) = true <-> accepts a n.
  Proof.
    destruct a as [name|name re]; cbn; [apply text_eqb_eq|].
    destruct (text_eqb (n_name n) name) eqn:E.
    - apply text_eqb_eq in E. destruct (re (n_inner n)) eqn:Er; cbn.
      + split; eauto.
      + split; [discriminate|]. intros [_ [g H]]. congruence.
    - cbn. split; [discriminate|]. intros [H _]. apply text_eqb_eq in H. congruence.
  Qed.

  Lemma zip_match_ok : forall p ns tail, length ns = length p ->
    (forallb truthy (zip_match (ns ++ tail) p) = true <-> Forall2 accepts p ns).
  Proof.
    induction p as [|a p IH]; intros [|n ns] tail H; try discriminate; cbn [zip_match app].
    - destruct tail; cbn; split; auto.
    - cbn [forallb]. rewrite andb_true_iff, nma_truthy, (IH ns tail) by (cbn in H; lia).
      split; [intros []; constructor; auto|intros HF; inversion HF; auto].
  Qed.

  Lemma try_unit_some (u : unit_) rest mrs : try_unit u rest = Some mrs ->
    let ns := firstn (length (u_pattern u)) rest in
    length ns = length (u_pattern u) /\ Forall2 accepts (u_pattern u) ns /\ mrs = zip_match ns (u_pattern u)
    /\ forall style, args_of style ns mrs = arguments style (u_pattern u) ns.
  Proof.
    unfold try_unit. destruct (Nat.ltb_spec (length rest) (length (u_pattern u))) as [|Hle]; [discriminate|].
    destruct (forallb _ _) eqn:E; [|discriminate]. intros H. inversion H; subst mrs; clear H.
    cbv zeta. set (n := length (u_pattern u)) in *.
    assert (length (firstn n rest) = n) as HL by (apply firstn_length_le; lia).
    rewrite <- (firstn_skipn n rest) in E.
    pose proof (proj1 (zip_match_ok _ _ _ HL) E) as HF.
    split; [exact HL|]. split; [exact HF|].
    assert (zip_match rest (u_pattern u) = zip_match (firstn n rest) (u_pattern u)) as ->.
    { rewrite <- (firstn_skipn n rest) at 1. revert HL. unfold n. clear.
      generalize (firstn (length (u_pattern u)) rest) as a. generalize (skipn (length (u_pattern u)) rest) as b.
      induction (u_pattern u) as [|x p IH]; intros b [|y a] H; try discriminate; cbn.
      - destruct b; reflexivity.
      - f_equal. apply IH. cbn in H. lia. }
    split; [reflexivity|]. intros style. clear E HL Hle. clearbody n. induction HF as [|a m p ns Ha HF IH]; [reflexivity|].
    cbn [zip_match args_of arguments]. destruct a as [name|name re]; cbn [node_matches_atom captured].
    - cbn. f_equal. exact IH.
    - destruct Ha as [Hn [g Hg]]. apply text_eqb_eq in Hn. rewrite Hn, Hg.
      destruct g as [|g gs]; [cbn; f_equal; exact IH|]. f_equal. exact IH.
  Qed.

  Lemma try_unit_none (u : unit_) rest : try_unit u rest = None <-> ~ pattern_matches (u_pattern u) rest.
  Proof.
    unfold try_unit, pattern_matches. split.
    - intros H (ns & tail & -> & HF). pose proof (Forall2_length _ _ _ HF) as HL.
      destruct (Nat.ltb_spec (length (ns ++ tail)) (length (u_pattern u))) as [Hlt|_].
      + rewrite app_length in Hlt. lia.
      + destruct (forallb _ _) eqn:E; [discriminate|].
        apply (zip_match_ok _ _ tail (eq_sym HL)) in HF. congruence.
    - intros H. destruct (Nat.ltb_spec (length rest) (length (u_pattern u))) as [|Hle]; [reflexivity|].
      destruct (forallb _ _) eqn:E; [|reflexivity]. exfalso. apply H.
      exists (firstn (length (u_pattern u)) rest), (skipn (length (u_pattern u)) rest).
      split; [symmetry; apply firstn_skipn|]. apply zip_match_ok with (tail := skipn (length (u_pattern u)) rest).
      + apply firstn_length_le; lia.
      + rewrite firstn_skipn. exact E.
  Qed.

  Lemma find_unit_some us rest : forall i k u mrs, find_unit i us rest = Some (k, u, mrs) ->
    exists j, k = i + j /\ first_unit us rest j u /\ try_unit u rest = Some mrs.
  Proof.
    induction us as [|v us IH]; intros i k u mrs H; cbn [find_unit] in H; [discriminate|].
    destruct (try_unit v rest) as [m|] eqn:E.
    - inversion H; subst. exists 0. split; [lia|]. split; [|exact E]. split; [reflexivity|].
      split; [|intros; lia].
      pose proof (try_unit_some _ _ _ E) as T. cbv zeta in T. destruct T as (_ & HF & _).
      exists (firstn (length (u_pattern u)) rest), (skipn (length (u_pattern u)) rest).
      split; [symmetry; apply firstn_skipn|exact HF].
    - destruct (IH _ _ _ _ H) as (j & -> & (H1 & H2 & H3) & H4). exists (S j). split; [lia|].
      split; [|exact H4]. split; [exact H1|]. split; [exact H2|].
      intros [|j'] w Hj Hw; cbn in Hw.
      + inversion Hw; subst. now apply try_unit_none.
      + apply (H3 j'); [lia|exact Hw].
  Qed.

  Lemma find_unit_none us rest : forall i, find_unit i us rest = None <->
    forall u, In u us -> ~ pattern_matches (u_pattern u) rest.
  Proof.
    induction us as [|v us IH]; intros i; cbn [find_unit]; [split; [intros _ u []|reflexivity]|].
    destruct (try_unit v rest) as [m|] eqn:E.
    - split; [discriminate|]. intros H. specialize (H v (or_introl eq_refl)).
      apply try_unit_none in H. congruence.
    - rewrite IH. split.
      + intros H u [<-|Hu]; [now apply try_unit_none|now apply H].
      + intros H u Hu. apply H. now right.
  Qed.

  (* the three outcomes of a scan *)
  Inductive outcome us (style : nat) (rest : list node) (results : list R) : list event * res (list R) -> Prop :=
  | oc_done es rs : scanned us style rest es rs [] ->
      outcome us style rest results (es, Ok (results ++ rs))
  | oc_nomatch es rs n tail : scanned us style rest es rs (n :: tail) ->
      (forall u, In u us -> ~ pattern_matches (u_pattern u) (n :: tail)) ->
      outcome us style rest results (es ++ [EMsg (n_start n)], Ok [])
  | oc_raise es rs ns tail i u es' e : scanned us style rest es rs (ns ++ tail) ->
      first_unit us (ns ++ tail) i u -> length ns = length (u_pattern u) ->
      (u_proc u = PBad /\ es' = [EMatch i] /\ e = AssertionError \/
       exists f, u_proc u = PCall f /\ f (call_args style (u_pattern u) ns) = Err e
                 /\ es' = [EMatch i; ECall i (call_args style (u_pattern u) ns)]) ->
      outcome us style rest results (es ++ es', Err e).

  Lemma outcome_cons us style ns tail i u es rs results out :
    ns ++ tail <> [] -> first_unit us (ns ++ tail) i u -> length ns = length (u_pattern u) ->
    run_unit style i u ns es rs ->
    outcome us style tail (results ++ rs) out ->
    outcome us style (ns ++ tail) results (es ++ fst out, snd out).
  Proof.
    intros Hne Hf Hl Hr H. inversion H as [es' rs' Hs|es' rs' n tl Hs Hno|es' rs' ns' tl i' u' es'' e Hs Hf' Hl' Hp]; subst; cbn [fst snd].
    - rewrite <- app_assoc. apply oc_done. econstructor; eauto.
    - rewrite app_assoc. eapply oc_nomatch; [|exact Hno]. econstructor; eauto.
    - rewrite app_assoc. eapply oc_raise; eauto. econstructor; eauto.
  Qed.

  Lemma scan_loop_spec style us : 
    (forall u f args, In u us -> u_proc u = PCall f -> f args <> Err OutOfFuel) ->
    forall fuel rest results,
    snd (scan_loop fuel style us rest results) = Err OutOfFuel \/
    outcome us style rest results (scan_loop fuel style us rest results).
  Proof.
    intros HF. induction fuel as [|f IH]; intros rest results; [now left|].
    destruct rest as [|n0 rest0] eqn:Er; [right|].
    { cbn. rewrite <- (app_nil_r results) at 2. apply oc_done. constructor. }
    cbn [scan_loop]. rewrite <- Er in *.
    destruct (find_unit 0 us rest) as [[[i u] mrs]|] eqn:Ef.
    - apply find_unit_some in Ef as (j & -> & Hfu & Ht). cbn [Nat.add].
      pose proof (try_unit_some _ _ _ Ht) as T. cbv zeta in T. destruct T as (HL & HFa & Hm & Harg).
      set (ns := firstn (length (u_pattern u)) rest) in *.
      set (tail := skipn (length (u_pattern u)) rest) in *.
      assert (rest = ns ++ tail) as Es by (symmetry; apply firstn_skipn).
      assert (ns ++ tail <> []) as Hne by (rewrite <- Es, Er; discriminate).
      assert (first_unit us (ns ++ tail) j u) as Hfu' by (rewrite <- Es; exact Hfu).
      destruct (u_proc u) as [| |g|] eqn:Ep.
      + destruct (IH tail results) as [H|H].
        * destruct (scan_loop f style us tail results) as [es r]. left. exact H.
        * right. rewrite Es. rewrite <- (app_nil_r results) in H at 1.
          pose proof (outcome_cons us style ns tail j u _ _ results _ Hne Hfu' HL (ru_none _ _ _ _ Ep) H) as Ho.
          destruct (scan_loop f style us tail results) as [es r]. exact Ho.
      + destruct (IH tail results) as [H|H].
        * destruct (scan_loop f style us tail results) as [es r]. left. exact H.
        * right. rewrite Es. rewrite <- (app_nil_r results) in H at 1.
          pose proof (outcome_cons us style ns tail j u _ _ results _ Hne Hfu' HL (ru_print _ _ _ _ Ep) H) as Ho.
          destruct (scan_loop f style us tail results) as [es r]. exact Ho.
      + rewrite Harg. fold (call_args style (u_pattern u) ns).
        destruct (g (call_args style (u_pattern u) ns)) as [r0|e] eqn:Eg.
        * destruct (IH tail (results ++ res_list r0)) as [H|H].
          -- destruct (scan_loop f style us tail _) as [es r]. left. exact H.
          -- right. rewrite Es.
             pose proof (outcome_cons us style ns tail j u _ _ results _ Hne Hfu' HL (ru_call _ _ _ _ _ _ Ep Eg) H) as Ho.
             destruct (scan_loop f style us tail _) as [es r]. exact Ho.
        * right. rewrite Es.
          apply (oc_raise us style (ns ++ tail) results [] [] ns tail j u _ e); auto; [constructor|].
          right. exists g. auto.
      + right. rewrite Es.
        apply (oc_raise us style (ns ++ tail) results [] [] ns tail j u _ _); auto; constructor.
    - right. pose proof (proj1 (find_unit_none us rest 0) Ef) as Hno. rewrite Er in Hno |- *.
      apply (oc_nomatch us style (n0 :: rest0) results [] [] n0 rest0); [constructor|exact Hno].
  Qed.

  (* no empty pattern: the scan ends *)
  Lemma scan_loop_terminates style us :
    (forall u f args, In u us -> u_proc u = PCall f -> f args <> Err OutOfFuel) ->
    (forall u, In u us -> u_pattern u <> []) ->
    forall fuel rest results, length rest < fuel ->
    snd (scan_loop fuel style us rest results) <> Err OutOfFuel.
  Proof.
    intros HF Hne. induction fuel as [|f IH]; intros rest results Hf; [lia|].
    destruct rest as [|n0 rest0] eqn:Er; [discriminate|]. cbn [scan_loop]. rewrite <- Er in *.
    destruct (find_unit 0 us rest) as [[[i u] mrs]|] eqn:Ef; [|discriminate].
    apply find_unit_some in Ef as (j & -> & (Hn & _ & _) & Ht). apply nth_error_In in Hn.
    assert (length (skipn (length (u_pattern u)) rest) < f) as Hs.
    { rewrite skipn_length. specialize (Hne u Hn). destruct (u_pattern u); [congruence|].
      rewrite Er in *. cbn [length] in *. lia. }
    destruct (u_proc u) as [| |g|] eqn:Ep.
    - specialize (IH _ results Hs). destruct (scan_loop f style us _ results). exact IH.
    - specialize (IH _ results Hs). destruct (scan_loop f style us _ results). exact IH.
    - match goal with |- context [g ?a] => destruct (g a) as [r0|e] eqn:Eg end.
      + specialize (IH _ (results ++ res_list r0) Hs). destruct (scan_loop f style us _ _). exact IH.
      + cbn. intros H. inversion H; subst. exact (HF _ _ _ Hn Ep Eg).
    - discriminate.
  Qed.

  Definition no_fuel_proc us := forall u f args, In u us -> u_proc u = PCall f -> f args <> Err OutOfFuel.

  Lemma scan_section_outcome fuel us k style hnodes :
    no_fuel_proc us -> arguments_style k = Ok style ->
    (forall u, In u us -> u_pattern u <> []) -> length hnodes < fuel ->
    outcome us style hnodes [] (scan_section fuel us k hnodes).
  Proof.
    intros HF Hk Hne Hf. unfold scan_section. rewrite Hk.
    destruct (scan_loop_spec style us HF fuel hnodes []) as [H|H]; [|exact H].
    exfalso. exact (scan_loop_terminates style us HF Hne fuel hnodes [] Hf H).
  Qed.

  Lemma scan_section_outcome_any fuel us k style hnodes :
    no_fuel_proc us -> arguments_style k = Ok style ->
    snd (scan_section fuel us k hnodes) <> Err OutOfFuel ->
    outcome us style hnodes [] (scan_section fuel us k hnodes).
  Proof.
    intros HF Hk Hn. unfold scan_section in *. rewrite Hk in *.
    destruct (scan_loop_spec style us HF fuel hnodes []) as [H|H]; [|exact H]. contradiction.
  Qed.

  (* a scan is a partition: the nodes before the remaining ones are covered *)
  Lemma scanned_partition us style hnodes es rs rest : scanned us style hnodes es rs rest ->
    exists runs : list (nat * list node), hnodes = concat (map snd runs) ++ rest /\
      Forall (fun r => exists u, nth_error us (fst r) = Some u /\ Forall2 accepts (u_pattern u) (snd r)) runs.
  Proof.
    intros H. induction H as [rest|ns tail i u es rs es' rs' rest Hne Hfu Hl Hr Hs IH].
    - exists []. split; [reflexivity|constructor].
    - destruct IH as (runs & -> & HF). exists ((i, ns) :: runs). split; [cbn; now rewrite app_assoc|].
      constructor; [|exact HF]. exists u. cbn. destruct Hfu as (H1 & (ns' & tl & E & H2) & _). split; [exact H1|].
      pose proof (Forall2_length _ _ _ H2) as HL. assert (ns = ns').
      { apply (f_equal (firstn (length ns))) in E. rewrite firstn_app, Nat.sub_diag, firstn_all, app_nil_r in E.
        cbn in E. rewrite E. replace (length ns) with (length ns') by lia.
        rewrite firstn_app, Nat.sub_diag, firstn_all, app_nil_r. reflexivity. }
      now subst.
  Qed.
End NGS.

(* an empty pattern makes the scan run forever *)
Lemma scan_empty_pattern_loops (R : Type) (k : section_kind) style (hnodes : list node) :
  arguments_style k = Ok style -> hnodes <> [] ->
  forall fuel, snd (scan_section (R:=R) fuel [mkUnit [] PNone] k hnodes) = Err OutOfFuel.
Proof.
  intros Hk Hne fuel. unfold scan_section. rewrite Hk. generalize (@nil R) as results.
  induction fuel as [|f IH]; intros results; [reflexivity|].
  destruct hnodes as [|n hn] eqn:E; [congruence|]. cbn [scan_loop find_unit]. 
  change (try_unit (mkUnit (R:=R) [] PNone) (n :: hn)) with (Some (@nil mres)).
  cbn [u_proc u_pattern length skipn]. specialize (IH results).
  destruct (scan_loop f style [mkUnit [] PNone] (n :: hn) results). exact IH.
Qed.
