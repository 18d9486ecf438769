(* C89: the analysis of static dependencies (Pseudocode.py:837-1180) lists the calls of every algorithm,
   the operations that cannot be reached, and the anomalies among the labels. *)
From Coq Require Import Ascii String Permutation Lia List Sorting.Sorted.
From Verif Require Import M_Base L_Base M_HTML M_Shared M_Values M_Validate L_Validate L_ValTree L_ValNodes M_Style L_StyleVars M_Deps L_Deps L_DepsReach.
Open Scope list_scope.
Open Scope nat_scope.
Notation length := List.length.

Definition declared (d : cdict) (x : text) : Prop := exists a, In (x, a) d.
(* what can be got to from the top level: names given here, calls of functions, calls of operations got to *)
Inductive reaches (ops bifs : cdict) : text -> Prop :=
| reach_top x :
    In x [ tx "Early Errors"; tx "InitializeHostDefinedRealm"; tx "ParseScript"; tx "ScriptEvaluation"; tx "ParseModule"; tx "Link"; tx "Evaluate"
         ; tx "DetachArrayBuffer"; tx "HostEventSet"; tx "Valid Chosen Reads"; tx "Coherent Reads"; tx "Tear Free Reads"; tx "Data Races" ] ->
    reaches ops bifs x
| reach_bif b a x : In (b, a) bifs -> calls b a x -> reaches ops bifs x
| reach_step x a y : reaches ops bifs x -> In (x, a) ops -> calls x a y -> reaches ops bifs y.
(* what can be got to while parsing; conversion of a value to a string is taken not to be of an object *)
Inductive ss_reaches (ops : cdict) : text -> Prop :=
| ss_top x : x = tx "Early Errors" \/ x = tx "ParseScript" \/ x = tx "ParseModule" -> ss_reaches ops x
| ss_step x a y : ss_reaches ops x -> In (x, a) ops -> calls x a y ->
    ~ (x = tx "ToString" /\ (y = tx "ToPrimitive" \/ y = tx "ToString")) -> ss_reaches ops y.
(* the labels of sections; only the first header of a section counts *)
Definition begins_with (p t : text) : Prop := exists s, t = p ++ s.
Definition static_op (ss : list csect) (x : text) : Prop :=
  exists t hs, In (mkCS t (x :: hs)) ss /\ begins_with (tx "Static Semantics:") t.
Definition runtime_op (ss : list csect) (x : text) : Prop :=
  exists t hs, In (mkCS t (x :: hs)) ss /\ begins_with (tx "Runtime Semantics:") t.
Definition unlabelled_op (ss : list csect) (x : text) : Prop :=
  exists t hs, In (mkCS t (x :: hs)) ss /\ ~ begins_with (tx "Static Semantics:") t /\ ~ begins_with (tx "Runtime Semantics:") t.
(* operations that look like run-time semantics themselves *)
Definition runtime_alg (ops : cdict) (x : text) : Prop := exists a s t, In (x, a) ops /\ tree_of a s t /\ runtime_tree t.
(* operations from which calls lead to one of those *)
Inductive leads_to_runtime (ops : cdict) : text -> Prop :=
| lr_here x : runtime_alg ops x -> leads_to_runtime ops x
| lr_call x a y : In (x, a) ops -> calls x a y -> leads_to_runtime ops y -> leads_to_runtime ops x.
(* ... where the calls of a function count as calls of the operation of the same name, if there is one *)
Inductive marked_runtime (ops bifs : cdict) : text -> Prop :=
| mr_here x : runtime_alg ops x -> marked_runtime ops bifs x
| mr_call x a y : In (x, a) ops -> calls x a y -> marked_runtime ops bifs y -> marked_runtime ops bifs x
| mr_mixed x b a y : In (x, b) ops -> In (x, a) bifs -> calls x a y -> marked_runtime ops bifs y -> marked_runtime ops bifs x.

(* ------------------------------------------------------------------ *)
Lemma sorted_in {A} (d : list (text * A)) e : In e (sorted_items d) <-> In e d.
Proof. unfold sorted_items. split; apply Permutation_in; [apply isort_perm|apply Permutation_sym, isort_perm]. Qed.
Lemma of_sorted {A} (d : list (text * A)) e : In e (sorted_items d) -> In e d.
Proof. apply sorted_in. Qed.
Lemma in_sorted {A} (d : list (text * A)) e : In e d -> In e (sorted_items d).
Proof. apply sorted_in. Qed.
Lemma sorted_len {A} (d : list (text * A)) : length (sorted_items d) = length d.
Proof. unfold sorted_items. apply Permutation_length, isort_perm. Qed.
Lemma keys_unique {A} (d : list (text * A)) x a b : NoDup (map fst d) -> In (x, a) d -> In (x, b) d -> a = b.
Proof.
  induction d as [|[y c] d IH]; intros N I J; [destruct I|]. cbn [map fst] in N. inversion N as [|? ? NI N']; subst. destruct I as [E|I], J as [F|J]; [congruence| | |now apply IH]; exfalso; apply NI, in_map_iff; [injection E as -> _; now exists (x, b)|injection F as -> _; now exists (x, a)].
Qed.
Lemma forall2_split {A B} (R : A -> B -> Prop) l1 l2 l : Forall2 R (l1 ++ l2) l -> Forall2 R l1 (firstn (length l1) l) /\ Forall2 R l2 (skipn (length l1) l).
Proof.
  revert l. induction l1 as [|x l1 IH]; intros l H; [split; [constructor|exact H]|]. cbn [app] in H. inversion H as [|? y ? l' H1 H2]; subst. destruct (IH _ H2) as (A1 & A2). split; [now constructor|assumption].
Qed.

Lemma infos_facts l is : Forall2 (fun x y => info_of x = Ok y) l is -> Forall2 facts l is.
Proof. induction 1; constructor; [now apply info_ok|assumption]. Qed.

Section Run.
  Variables (ops bifs : cdict) (sects : list csect).
  Hypothesis ops_dict : NoDup (map fst ops).
  Variable is : list cinfo.
  Hypothesis found_is : infos_of ops bifs = Ok is.
  Lemma is_ops : Forall2 facts (sorted_items ops) (firstn (length ops) is).
  Proof. unfold infos_of in found_is. apply map_res_ok in found_is. apply infos_facts in found_is. apply forall2_split in found_is. rewrite sorted_len in found_is. apply found_is. Qed.
  Lemma is_bifs : Forall2 facts (sorted_items bifs) (skipn (length ops) is).
  Proof. unfold infos_of in found_is. apply map_res_ok in found_is. apply infos_facts in found_is. apply forall2_split in found_is. rewrite sorted_len in found_is. apply found_is. Qed.
  Lemma is_all : Forall2 facts (sorted_items ops ++ sorted_items bifs) is.
  Proof. unfold infos_of in found_is. apply map_res_ok in found_is. now apply infos_facts in found_is. Qed.
  Lemma calls_in_infos x y : (exists i, In i is /\ ci_name i = x /\ In y (ci_callees i)) <-> exists a, (In (x, a) ops \/ In (x, a) bifs) /\ calls x a y.
  Proof.
    split.
    - intros (i & I & E & C). destruct (forall2_in_r _ _ _ _ is_all I) as ([n a] & K & (F1 & F2 & (_ & _ & F3) & _)). cbn [fst snd] in *. rewrite F1 in E. subst n. exists a. split; [|now apply F3]. apply in_app_or in K as [K|K]; apply of_sorted in K; auto.
    - intros (a & D & C). assert (K : In (x, a) (sorted_items ops ++ sorted_items bifs)) by (apply in_or_app; destruct D as [D|D]; [left|right]; now apply sorted_in). destruct (forall2_in_l _ _ _ _ is_all K) as (i & I & (F1 & F2 & (_ & _ & F3) & _)). exists i. split; [assumption|]. split; [assumption|]. now apply F3.
  Qed.
  Let callees := op_callees (length ops) is.
  Lemma callees_some x cs : callees x = Some cs -> exists a, In (x, a) ops /\ listing cs (calls x a).
  Proof.
    unfold callees, op_callees. destruct (find _ _) as [i|] eqn:F; [|discriminate]. cbn [option_map]. intros [= <-]. apply find_some in F as (I & E). apply text_eqb_eq in E. destruct (forall2_in_r _ _ _ _ is_ops I) as ([n a] & K & (F1 & F2 & F3 & _)). cbn [fst snd] in *. rewrite F1 in E. subst n. exists a. split; [now apply sorted_in|assumption].
  Qed.
  Lemma callees_none x : callees x = None <-> ~ declared ops x.
  Proof.
    unfold callees, op_callees. destruct (find _ _) as [i|] eqn:F; cbn [option_map].
    - split; [discriminate|]. intros D. exfalso. apply D. apply find_some in F as (I & E). apply text_eqb_eq in E. destruct (forall2_in_r _ _ _ _ is_ops I) as ([n a] & K & (F1 & _)). cbn [fst] in F1. exists a. apply sorted_in. congruence.
    - split; [|reflexivity]. intros _ (a & A). apply in_sorted in A. destruct (forall2_in_l _ _ _ _ is_ops A) as (i & I & (F1 & _)). cbn [fst] in F1. assert (K := find_none _ _ F i I). cbv beta in K. rewrite F1 in K. assert (R : text_eqb x x = true) by now apply text_eqb_eq. congruence.
  Qed.
  Lemma callees_edge x y : (exists cs, callees x = Some cs /\ In y cs) <-> exists a, In (x, a) ops /\ calls x a y.
  Proof.
    split.
    - intros (cs & C & I). apply callees_some in C as (a & A & (_ & _ & L)). exists a. split; [assumption|]. now apply L.
    - intros (a & A & C). destruct (callees x) as [cs|] eqn:E; [|exfalso; apply callees_none in E; apply E; now exists a]. exists cs. split; [reflexivity|]. apply callees_some in E as (b & B & (_ & _ & L)). apply L. now rewrite (keys_unique ops x b a).
  Qed.
  Lemma callees_dom n cs : callees n = Some cs -> In n (map fst ops).
  Proof. intros C. apply callees_some in C as (a & A & _). apply in_map_iff. now exists (n, a). Qed.
  Lemma declared_keys x : In x (map fst ops) <-> declared ops x.
  Proof. rewrite in_map_iff. split; [intros ([n a] & <- & I); now exists a|intros (a & I); now exists (x, a)]. Qed.
  Lemma starts_iff x : In x (start_points (length ops) is) <-> In x top_level \/ exists b a, In (b, a) bifs /\ calls b a x.
  Proof.
    unfold start_points. rewrite in_app_iff, in_flat_map. split; (intros [T|T]; [now left|right]).
    - destruct T as (i & I & C). destruct (forall2_in_r _ _ _ _ is_bifs I) as ([b a] & K & (F1 & F2 & (_ & _ & F3) & _)). exists b, a. split; [now apply sorted_in|now apply F3].
    - destruct T as (b & a & B & C). apply in_sorted in B. destruct (forall2_in_l _ _ _ _ is_bifs B) as (i & I & (F1 & F2 & (_ & _ & F3) & _)). exists i. split; [assumption|]. now apply F3.
  Qed.
  Lemma reaches_iff x : (exists n, In n (start_points (length ops) is) /\ path callees n x) <-> reaches ops bifs x.
  Proof.
    split.
    - intros (n & S0 & P). assert (R : reaches ops bifs n) by (apply starts_iff in S0 as [S0|(b & a & B & C)]; [now apply reach_top|now apply reach_bif with b a]). clear S0. induction P as [x|x cs c y E I _ IH]; [assumption|]. apply IH. destruct (proj1 (callees_edge x c)) as (a & A & C); [now exists cs|]. now apply reach_step with x a.
    - induction 1 as [x T|b a x B C|x a y _ (n & S0 & P) A C].
      + exists x. split; [apply starts_iff; now left|constructor].
      + exists x. split; [apply starts_iff; right; now exists b, a|constructor].
      + exists n. split; [assumption|]. destruct (proj2 (callees_edge x y)) as (cs & E & I); [now exists a|]. clear S0. induction P as [z|z cs' c w E' I' P IH]; [apply path_step with cs y; [assumption|assumption|constructor]|]. apply path_step with cs' c; [assumption|assumption|]. now apply IH.
  Qed.
  Lemma ss_iff x : (exists n, In n ss_points /\ ss_path callees n x) <-> ss_reaches ops x.
  Proof.
    split.
    - intros (n & S0 & P). assert (R : ss_reaches ops n) by (apply ss_top; destruct S0 as [<-|[<-|[<-|[]]]]; auto). clear S0. induction P as [x|x c y (cs & E & I & K) _ IH]; [assumption|]. apply IH. destruct (proj1 (callees_edge x c)) as (a & A & C); [now exists cs|]. now apply ss_step with x a.
    - induction 1 as [x T|x a y _ (n & S0 & P) A C K].
      + exists x. split; [destruct T as [->|[->| ->]]; cbn [ss_points In]; auto|constructor].
      + exists n. split; [assumption|]. destruct (proj2 (callees_edge x y)) as (cs & E & I); [now exists a|]. clear S0. induction P as [z|z c w E' P IH]; [apply sp_step with y; [now exists cs|constructor]|]. apply sp_step with c; [assumption|]. now apply IH.
  Qed.
  Lemma ss_reaches_reaches x : ss_reaches ops x -> reaches ops bifs x.
  Proof. induction 1 as [x T|x a y _ IH A C _]; [apply reach_top; cbn [In]; destruct T as [->|[->| ->]]; auto 10|now apply reach_step with x a]. Qed.
  (* both searches succeed *)
  Lemma searches : exists noinfo reached ssr,
    reach_all (S (S (length ops))) callees ([], []) (start_points (length ops) is) = Ok (noinfo, reached) /\
    ss_reach_all (S (S (length ops))) callees noinfo [] ss_points = Ok ssr /\
    (forall x, In x noinfo <-> ~ declared ops x /\ reaches ops bifs x) /\
    (forall x, In x reached <-> declared ops x /\ reaches ops bifs x) /\
    (forall x, In x ssr <-> declared ops x /\ ss_reaches ops x).
  Proof.
    destruct (reach_from callees (map fst ops) callees_dom (start_points (length ops) is) (S (S (length ops)))) as ([noinfo reached] & E & NI & RE); [rewrite map_length; lia|]. cbn [fst snd] in NI, RE.
    assert (NI' : forall x, In x noinfo <-> ~ declared ops x /\ reaches ops bifs x) by (intros x; rewrite NI, reaches_iff, callees_none; reflexivity).
    assert (DEC : forall x, callees x <> None <-> declared ops x). { intros x. rewrite callees_none. split; [intros H|tauto]. destruct (callees x) as [cs|] eqn:C; [apply callees_some in C as (a & A & _); now exists a|]. apply callees_none in C. contradiction. }
    destruct (ss_reach_from callees (map fst ops) callees_dom noinfo ss_points (S (S (length ops)))) as (ssr & E2 & SS); [rewrite map_length; lia| | |].
    - intros n x S0 P C. apply NI'. split; [now apply callees_none|]. apply ss_reaches_reaches, ss_iff. now exists n.
    - intros x X. apply NI' in X. now apply callees_none.
    - exists noinfo, reached, ssr. split; [assumption|]. split; [assumption|]. split; [assumption|]. split; intros x; [rewrite RE, reaches_iff, DEC; reflexivity|rewrite SS, ss_iff, DEC; reflexivity].
  Qed.
  Lemma caller_iff x y : caller ops is x y <-> declared ops x /\ exists a, (In (x, a) ops \/ In (x, a) bifs) /\ calls x a y.
  Proof. unfold caller. now rewrite declared_keys, calls_in_infos. Qed.
  Lemma direct_ok r0 : runtimey_direct ops = Ok r0 -> NoDup r0 /\ forall x, In x r0 <-> runtime_alg ops x.
  Proof.
    unfold runtimey_direct. intros H. apply bind_ok in H as (l & M & H). apply ok_inj in H. subst r0.
    assert (ONE : forall e b, runtimey_alg e = Ok b -> (b = [fst e] \/ b = []) /\ (b = [fst e] <-> exists s t, tree_of (snd e) s t /\ runtime_tree t)).
    { intros [x a] b. unfold runtimey_alg. cbn [fst snd]. intros H. apply bind_ok in H as (bs & B & H). apply ok_inj in H.
      assert (K : existsb (fun b => b) bs = true <-> exists s t, tree_of a s t /\ runtime_tree t).
      { rewrite existsb_exists. apply map_res_ok in B. split.
        - intros (c & C & ->). destruct (forall2_in_r _ _ _ _ B C) as (o & O & F). apply in_flat_map in O as (d & D & O). destruct o as [t|]; [|discriminate]. cbn [runtimey_anode] in F. apply bind_ok in F as (q & Q & F). apply ok_inj in F. apply runtimey_in_ok in Q as (Q & _). exists (cd_sect d), t. split; [now exists d|]. now apply Q.
        - intros (s & t & (d & D & _ & T) & R). destruct (forall2_in_l _ _ _ (Some t) B) as (c & C & F); [apply in_flat_map; now exists d|]. exists c. split; [assumption|]. cbn [runtimey_anode] in F. apply bind_ok in F as (q & Q & F). apply ok_inj in F. apply runtimey_in_ok in Q as (Q & _). apply Q in R. congruence. }
      destruct (existsb (fun b => b) bs); subst b; (split; [auto|]); rewrite <- K; split; congruence || discriminate. }
    split.
    - apply map_res_ok in M. assert (ND : NoDup (map fst (sorted_items ops))). { eapply Permutation_NoDup; [|exact ops_dict]. apply Permutation_map, Permutation_sym, isort_perm. }
      induction M as [|e b es bs F M IH]; [constructor|]. cbn [map] in ND. inversion ND as [|? ? NI ND']; subst. specialize (IH ND'). cbn [concat]. destruct (ONE _ _ F) as ([->| ->] & _); [|assumption]. cbn [app]. constructor; [|assumption]. intros X. apply NI. apply in_concat in X as (c & C & X). destruct (forall2_in_r _ _ _ _ M C) as (e' & E' & F'). apply in_map_iff. exists e'. split; [|assumption]. destruct (ONE _ _ F') as ([->| ->] & _); [|destruct X]. destruct X as [X|[]]. assumption.
    - intros x. rewrite (map_res_concat _ _ _ x M). unfold runtime_alg. split.
      + intros ([n a] & b & I & F & X). apply of_sorted in I. destruct (ONE _ _ F) as (O & K). cbn [fst snd] in *. destruct O as [->| ->]; [|destruct X]. destruct X as [<-|[]]. destruct (proj1 K eq_refl) as (s & t & T & R). now exists a, s, t.
      + intros (a & s & t & I & T & R). apply in_sorted in I. assert (M' := M). apply map_res_ok in M'. destruct (forall2_in_l _ _ _ _ M' I) as (b & B & F). exists (x, a), b. split; [assumption|]. split; [assumption|]. destruct (ONE _ _ F) as (_ & K). cbn [fst snd] in K. destruct K as (_ & K). rewrite K; [now left|]. now exists s, t.
  Qed.
  Lemma runtime_found r0 : runtimey_direct ops = Ok r0 -> exists r, runtimey_loop (S (length ops)) ops is r0 = Ok r /\ forall x, In x r <-> marked_runtime ops bifs x.
  Proof.
    intros D. destruct (direct_ok r0 D) as (ND & R0). destruct (loop_spec ops is (S (length ops)) r0) as (r & E & U); [assumption| |assumption|lia|].
    - intros x X. apply R0 in X as (a & _ & _ & I & _). apply in_map_iff. now exists (x, a).
    - exists r. split; [assumption|]. intros x. rewrite U. split.
      + induction 1 as [x X|x y _ IH C]; [apply mr_here; now apply R0|]. apply caller_iff in C as ((b & B) & a & [A|A] & C); [now apply mr_call with a y|now apply mr_mixed with b a y].
      + induction 1 as [x X|x a y A C _ IH|x b a y B A C _ IH]; [apply up_here; now apply R0| |]; apply up_step with y; try assumption; apply caller_iff; (split; [eexists; eassumption|]); exists a; auto.
  Qed.
End Run.

Lemma direct_err ops e : runtimey_direct ops = Err e -> (e = AssertionError \/ e = AttributeError) /\ exists x a, In (x, a) ops /\ ~ sound_alg x a.
Proof.
  unfold runtimey_direct. destruct (map_res runtimey_alg (sorted_items ops)) as [l|e'] eqn:M; cbn [bind]; [discriminate|]. intros [= ->]. apply map_res_err in M as ([x a] & I & F). apply of_sorted in I. unfold runtimey_alg in F. cbn [fst snd] in F. destruct (map_res _ _) as [bs|e'] eqn:M in F; cbn [bind] in F; [discriminate|]. injection F as ->. apply map_res_err in M as (o & O & F). apply in_flat_map in O as (d & D & O). destruct o as [t|]; [|discriminate]. cbn [runtimey_anode] in F. destruct (runtimey_in x t) as [q|e'] eqn:Q; cbn [bind] in F; [discriminate|]. injection F as ->. apply runtimey_in_err in Q as (E & U). split; [assumption|]. exists x, a. split; [assumption|]. intros (W & _). apply U, (W (cd_sect d)). now exists d.
Qed.
(* everything an analysis produces, by its parts *)
Lemma analyze_ok ops bifs sects d : NoDup (map fst ops) -> analyze ops bifs sects = Ok d ->
  exists is noinfo reached ssr r,
    infos_of ops bifs = Ok is /\
    (forall x, In x noinfo <-> ~ declared ops x /\ reaches ops bifs x) /\
    (forall x, In x reached <-> declared ops x /\ reaches ops bifs x) /\
    (forall x, In x ssr <-> declared ops x /\ ss_reaches ops x) /\
    (forall x, In x r <-> marked_runtime ops bifs x) /\
    let ss := labelled LStatic sects in
    let rs := labelled LRuntime sects in
    let un := labelled LNone sects in
    let dont := minus (map fst ops) r in
    d = mkDeps
    (map (fun i => (ci_name i, ca_species (ci_alg i), length (ca_defns (ci_alg i)), ci_callees i)) is)
    (complaints ops is)
    (invocations_of ops is)
    (sorted_set noinfo)
    (filter (fun n => negb (tmem_ n reached)) (map fst (sorted_items ops)))
    (sorted_set (both ss rs)) (sorted_set (both ss un)) (sorted_set (both rs un))
    (sorted_set (minus ss ssr)) (sorted_set (minus ssr ss))
    (crossing true ss (firstn (length ops) is)) (crossing false ss (firstn (length ops) is))
    (sorted_set (minus ss dont)) (sorted_set (minus dont ss)).
Proof.
  intros ND. unfold analyze. destruct (infos_of ops bifs) as [is|e] eqn:I; cbn [bind]; [|discriminate]. destruct (searches ops bifs ND is I) as (noinfo & reached & ssr & E1 & E2 & P1 & P2 & P3). rewrite E1. cbn [bind]. rewrite E2. cbn [bind]. destruct (runtimey_direct ops) as [r0|e] eqn:D; cbn [bind]; [|discriminate]. destruct (runtime_found ops bifs ND is I r0 D) as (r & E3 & P4). rewrite E3. cbn [bind]. intros H. apply ok_inj in H. exists is, noinfo, reached, ssr, r. repeat (split; [first [reflexivity|assumption]|]). now rewrite <- H.
Qed.
Lemma both_iff a b x : In x (both a b) <-> In x a /\ In x b.
Proof. unfold both. now rewrite filter_In, tmem_iff_. Qed.
Lemma minus_iff a b x : In x (minus a b) <-> In x a /\ ~ In x b.
Proof. unfold minus. now rewrite filter_In, negb_true_iff, tmem_no. Qed.
Lemma prefix_iff p t : is_prefix p t = true <-> begins_with p t.
Proof.
  unfold begins_with. revert t. induction p as [|c p IH]; intros t; cbn [is_prefix]; [split; [now exists t|reflexivity]|]. destruct t as [|e t]; [split; [discriminate|intros (s & H); discriminate]|]. rewrite andb_true_iff, N.eqb_eq, IH. split.
  - intros (-> & s & ->). now exists s.
  - intros (s & [= -> ->]). split; [reflexivity|now exists s].
Qed.
Lemma labelled_iff l ss x : In x (labelled l ss) <-> exists t hs, In (mkCS t (x :: hs)) ss /\ label_of (mkCS t (x :: hs)) = l.
Proof.
  unfold labelled. rewrite in_flat_map. split.
  - intros ([t hs] & I & H). cbn [cs_headers] in H. destruct hs as [|h hs]; [destruct H|]. destruct (same_label _ l) eqn:E; [|destruct H]. destruct H as [<-|[]]. exists t, hs. split; [assumption|]. destruct (label_of _), l; discriminate || reflexivity.
  - intros (t & hs & I & <-). exists (mkCS t (x :: hs)). split; [assumption|]. cbn [cs_headers]. destruct (label_of _); now left.
Qed.
Lemma static_iff ss x : In x (labelled LStatic ss) <-> static_op ss x.
Proof.
  rewrite labelled_iff. unfold static_op, label_of. cbn [cs_title]. split; intros (t & hs & I & L); exists t, hs; (split; [assumption|]).
  - destruct (is_prefix (tx "Static Semantics:") t) eqn:P; [now apply prefix_iff|]. destruct (is_prefix (tx "Runtime Semantics:") t); discriminate.
  - apply prefix_iff in L. now rewrite L.
Qed.
Lemma runtime_iff ss x : In x (labelled LRuntime ss) <-> runtime_op ss x.
Proof.
  rewrite labelled_iff. unfold runtime_op, label_of. cbn [cs_title]. split; intros (t & hs & I & L); exists t, hs; (split; [assumption|]).
  - destruct (is_prefix (tx "Static Semantics:") t); [discriminate|]. destruct (is_prefix (tx "Runtime Semantics:") t) eqn:P; [now apply prefix_iff|discriminate].
  - destruct (is_prefix (tx "Static Semantics:") t) eqn:P.
    + apply prefix_iff in P. destruct P as (s & ->). destruct L as (s' & L). vm_compute in L. discriminate L.
    + apply prefix_iff in L. now rewrite L.
Qed.
Lemma unlabelled_iff ss x : In x (labelled LNone ss) <-> unlabelled_op ss x.
Proof.
  rewrite labelled_iff. unfold unlabelled_op, label_of. cbn [cs_title]. split; intros (t & hs & I & L); exists t, hs; (split; [assumption|]).
  - destruct (is_prefix (tx "Static Semantics:") t) eqn:P1; [discriminate|]. destruct (is_prefix (tx "Runtime Semantics:") t) eqn:P2; [discriminate|]. rewrite <- !prefix_iff, P1, P2. split; discriminate.
  - rewrite <- !prefix_iff in L. destruct (is_prefix (tx "Static Semantics:") t); [exfalso; now apply L|]. destruct (is_prefix (tx "Runtime Semantics:") t); [exfalso; now apply L|reflexivity].
Qed.

(* ------------------------------------------------------------------ *)
(* The analysis succeeds on algorithms whose trees are sound... *)
Theorem C89_runs : forall ops bifs sects, NoDup (map fst ops) ->
  (forall x a, In (x, a) ops \/ In (x, a) bifs -> sound_alg x a) -> exists d, analyze ops bifs sects = Ok d.
Proof.
  intros ops bifs sects ND W. unfold analyze. destruct (infos_of ops bifs) as [is|e] eqn:I; cbn [bind].
  - destruct (searches ops bifs ND is I) as (noinfo & reached & ssr & E1 & E2 & _). rewrite E1. cbn [bind]. rewrite E2. cbn [bind]. destruct (runtimey_direct ops) as [r0|e] eqn:D; cbn [bind].
    + destruct (runtime_found ops bifs ND is I r0 D) as (r & E3 & _). rewrite E3. cbn [bind]. eexists. reflexivity.
    + apply direct_err in D as (_ & x & a & A & U). exfalso. now apply U, W; left.
  - unfold infos_of in I. apply map_res_err in I as ([x a] & K & F). apply info_err in F as (_ & U). exfalso. apply U, W. cbn [fst snd]. apply in_app_or in K as [K|K]; apply of_sorted in K; auto.
Qed.
(* ... and otherwise only an assertion or a missing tree stops it: no lookup fails and every loop ends. *)
Theorem C89_stops : forall ops bifs sects e, NoDup (map fst ops) -> analyze ops bifs sects = Err e ->
  (e = AssertionError \/ e = AttributeError) /\ exists x a, (In (x, a) ops \/ In (x, a) bifs) /\ ~ sound_alg x a.
Proof.
  intros ops bifs sects e ND. unfold analyze. destruct (infos_of ops bifs) as [is|e'] eqn:I; cbn [bind].
  - destruct (searches ops bifs ND is I) as (noinfo & reached & ssr & E1 & E2 & _). rewrite E1. cbn [bind]. rewrite E2. cbn [bind]. destruct (runtimey_direct ops) as [r0|e'] eqn:D; cbn [bind].
    + destruct (runtime_found ops bifs ND is I r0 D) as (r & E3 & _). rewrite E3. cbn [bind]. discriminate.
    + intros [= ->]. apply direct_err in D as (E & x & a & A & U). split; [assumption|]. exists x, a. split; [now left|assumption].
  - intros [= ->]. unfold infos_of in I. apply map_res_err in I as ([x a] & K & F). apply info_err in F as (E & U). split; [assumption|]. exists x, a. split; [|assumption]. apply in_app_or in K as [K|K]; apply of_sorted in K; auto.
Qed.
(* Every algorithm is listed with exactly what it calls, operations before functions, by name. *)
Theorem C89_callees : forall ops bifs sects d, NoDup (map fst ops) -> NoDup (map fst bifs) -> analyze ops bifs sects = Ok d ->
  exists os bs, Permutation os ops /\ Permutation bs bifs /\ StronglySorted text_lt (map fst os) /\ StronglySorted text_lt (map fst bs) /\
    Forall2 (fun e l => exists cs, l = (fst e, ca_species (snd e), length (ca_defns (snd e)), cs) /\ listing cs (calls (fst e) (snd e))) (os ++ bs) (dp_algs d).
Proof.
  intros ops bifs sects d ND NB H. destruct (analyze_ok _ _ _ _ ND H) as (is & noinfo & reached & ssr & r & I & _ & _ & _ & _ & ->). exists (sorted_items ops), (sorted_items bifs).
  split; [apply isort_perm|]. split; [apply isort_perm|]. split; [now apply sorted_keys|]. split; [now apply sorted_keys|]. cbn [dp_algs].
  pose proof (is_all ops bifs is I) as F. clear H I. induction F as [|e i es is' K F IH]; cbn [map]; [constructor|]. constructor; [|assumption]. destruct K as (-> & -> & L & _). now exists (ci_callees i).
Qed.
(* Names that can be got to but are not declared, and operations that cannot be got to. *)
Theorem C89_undeclared : forall ops bifs sects d, NoDup (map fst ops) -> analyze ops bifs sects = Ok d ->
  listing (dp_undeclared d) (fun x => ~ declared ops x /\ reaches ops bifs x).
Proof.
  intros ops bifs sects d ND H. destruct (analyze_ok _ _ _ _ ND H) as (is & noinfo & reached & ssr & r & I & NI & _ & _ & _ & ->). cbn [dp_undeclared]. apply (sorted_set_iff _ noinfo); [assumption|reflexivity].
Qed.
Lemma lt_listing l : StronglySorted text_lt l -> StronglySorted (fun a b => text_leb a b = true) l /\ NoDup l.
Proof.
  induction 1 as [|x l S0 (I1 & I2) F]; [split; constructor|]. split; constructor; try assumption.
  - eapply Forall_impl; [|exact F]. cbv beta. intros y (A & _). assumption.
  - intros X. rewrite Forall_forall in F. destruct (F x X) as (_ & A). now apply A.
Qed.
Lemma sorted_filter {A} (R : A -> A -> Prop) p l : StronglySorted R l -> StronglySorted R (filter p l).
Proof. induction 1 as [|x l S0 IH F]; cbn [filter]; [constructor|]. destruct (p x); [|assumption]. constructor; [assumption|]. rewrite Forall_forall in *. intros y Y. apply filter_In in Y. now apply F. Qed.
Theorem C89_unreached : forall ops bifs sects d, NoDup (map fst ops) -> analyze ops bifs sects = Ok d ->
  listing (dp_unreached d) (fun x => declared ops x /\ ~ reaches ops bifs x).
Proof.
  intros ops bifs sects d ND H. destruct (analyze_ok _ _ _ _ ND H) as (is & noinfo & reached & ssr & r & I & _ & RE & _ & _ & ->). cbn [dp_unreached].
  destruct (lt_listing _ (sorted_filter text_lt (fun n => negb (tmem_ n reached)) _ (sorted_keys ops ND))) as (A & B). split; [assumption|]. split; [assumption|]. intros x. rewrite filter_In, negb_true_iff, tmem_no, RE. assert (K : In x (map fst (sorted_items ops)) <-> declared ops x). { rewrite in_map_iff. split; [intros ([n a] & <- & K); exists a; now apply sorted_in|intros (a & K); exists (x, a); split; [reflexivity|now apply sorted_in]]. } rewrite K. tauto.
Qed.
(* Operations with sections of two kinds. *)
Theorem C89_labels : forall ops bifs sects d, NoDup (map fst ops) -> analyze ops bifs sects = Ok d ->
  listing (dp_ss_rs d) (fun x => static_op sects x /\ runtime_op sects x) /\
  listing (dp_ss_un d) (fun x => static_op sects x /\ unlabelled_op sects x) /\
  listing (dp_rs_un d) (fun x => runtime_op sects x /\ unlabelled_op sects x).
Proof.
  intros ops bifs sects d ND H. destruct (analyze_ok _ _ _ _ ND H) as (is & noinfo & reached & ssr & r & I & _ & _ & _ & _ & ->). cbn [dp_ss_rs dp_ss_un dp_rs_un].
  split; [|split]; (eapply (sorted_set_iff _ (both _ _)); [|reflexivity]); intros x; rewrite both_iff; now rewrite ?static_iff, ?runtime_iff, ?unlabelled_iff.
Qed.
(* Operations labelled as static that parsing does not get to, and those it gets to that are not so labelled. *)
Theorem C89_static : forall ops bifs sects d, NoDup (map fst ops) -> analyze ops bifs sects = Ok d ->
  listing (dp_ss_unreached d) (fun x => static_op sects x /\ ~ (declared ops x /\ ss_reaches ops x)) /\
  listing (dp_ss_unlabelled d) (fun x => declared ops x /\ ss_reaches ops x /\ ~ static_op sects x).
Proof.
  intros ops bifs sects d ND H. destruct (analyze_ok _ _ _ _ ND H) as (is & noinfo & reached & ssr & r & I & _ & _ & SS & _ & ->). cbn [dp_ss_unreached dp_ss_unlabelled].
  split; (eapply (sorted_set_iff _ (minus _ _)); [|reflexivity]); intros x; rewrite minus_iff, SS, static_iff; tauto.
Qed.
(* Calls between operations that cross the border of the static semantics, in order. *)
Definition pair_lt (p q : text * text) : Prop := text_lt (fst p) (fst q) \/ fst p = fst q /\ text_lt (snd p) (snd q).
Lemma leb_lt l : StronglySorted (fun a b => text_leb a b = true) l -> NoDup l -> StronglySorted text_lt l.
Proof.
  induction 1 as [|x l S0 IH F]; [constructor|]. intros N. inversion N as [|? ? NI N']; subst. constructor; [now apply IH|]. rewrite Forall_forall in *. intros y Y. split; [now apply F|]. intros ->. contradiction.
Qed.
Lemma sorted_map {A B} (R : A -> A -> Prop) (Q : B -> B -> Prop) (f : A -> B) l : (forall x y, R x y -> Q (f x) (f y)) -> StronglySorted R l -> StronglySorted Q (map f l).
Proof. intros K. induction 1 as [|x l S0 IH F]; cbn [map]; constructor; [assumption|]. rewrite Forall_forall in *. intros y Y. apply in_map_iff in Y as (z & <- & Z). now apply K, F. Qed.
Lemma crossing_ok ops bifs is b ss : NoDup (map fst ops) -> infos_of ops bifs = Ok is ->
  StronglySorted pair_lt (crossing b ss (firstn (length ops) is)) /\
  forall x y, In (x, y) (crossing b ss (firstn (length ops) is)) <->
    (exists a, In (x, a) ops /\ calls x a y) /\ (if b then In x ss /\ ~ In y ss else ~ In x ss /\ In y ss).
Proof.
  intros ND I. pose proof (is_ops ops bifs is I) as F. pose proof (sorted_keys ops ND) as SK. split.
  - unfold crossing. induction F as [|e i es is' K F IH]; cbn [flat_map]; [constructor|]. cbn [map] in SK. inversion SK as [|? ? SK' FA]; subst. specialize (IH SK'). destruct K as (K1 & _ & (L1 & L2 & _) & _). rewrite K1. apply L_Style.sorted_app; [|assumption|].
    + apply sorted_map with (R := text_lt); [intros x y X; right; now split|]. apply sorted_filter, leb_lt; assumption.
    + intros p q P Q. apply in_map_iff in P as (c & <- & _). apply in_flat_map in Q as (j & J & Q). apply in_map_iff in Q as (c' & <- & _). left. cbn [fst]. destruct (forall2_in_r _ _ _ _ F J) as (e' & E' & (K' & _)). rewrite K'. rewrite Forall_forall in FA. apply FA. apply in_map_iff. now exists e'.
  - intros x y. unfold crossing. rewrite in_flat_map. assert (BB : forall u v, Bool.eqb u v = true <-> u = v) by (intros [] []; cbn; intuition discriminate). split.
    + intros (i & J & P). apply in_map_iff in P as (c & [= <- <-] & P). apply filter_In in P as (P & Q). apply andb_true_iff in Q as (Q1 & Q2). apply (proj1 (BB _ _)) in Q1; apply (proj1 (BB _ _)) in Q2. destruct (forall2_in_r _ _ _ _ F J) as ([n a] & E & (K1 & _ & (_ & _ & K3) & _)). cbn [fst snd] in *. rewrite K1 in *. split; [exists a; split; [now apply sorted_in|now apply K3]|]. destruct b; cbn [negb] in Q2; rewrite <- !tmem_iff_, Q1, Q2; split; congruence || discriminate.
    + intros ((a & A & C) & Q). apply in_sorted in A. destruct (forall2_in_l _ _ _ _ F A) as (i & J & (K1 & _ & (_ & _ & K3) & _)). cbn [fst snd] in *. exists i. split; [assumption|]. rewrite K1. apply in_map_iff. exists y. split; [reflexivity|]. apply filter_In. split; [now apply K3|]. apply andb_true_iff. rewrite !BB. destruct b; cbn [negb]; rewrite ?tmem_no, ?tmem_iff_; tauto.
Qed.
Theorem C89_crossing : forall ops bifs sects d, NoDup (map fst ops) -> analyze ops bifs sects = Ok d ->
  StronglySorted pair_lt (dp_ss_non d) /\ StronglySorted pair_lt (dp_non_ss d) /\
  (forall x y, In (x, y) (dp_ss_non d) <-> (exists a, In (x, a) ops /\ calls x a y) /\ static_op sects x /\ ~ static_op sects y) /\
  (forall x y, In (x, y) (dp_non_ss d) <-> (exists a, In (x, a) ops /\ calls x a y) /\ ~ static_op sects x /\ static_op sects y).
Proof.
  intros ops bifs sects d ND H. destruct (analyze_ok _ _ _ _ ND H) as (is & noinfo & reached & ssr & r & I & _ & _ & _ & _ & ->). cbn [dp_ss_non dp_non_ss].
  destruct (crossing_ok ops bifs is true (labelled LStatic sects) ND I) as (A1 & A2). destruct (crossing_ok ops bifs is false (labelled LStatic sects) ND I) as (B1 & B2). split; [assumption|]. split; [assumption|]. split; intros x y; [rewrite A2|rewrite B2]; now rewrite !static_iff.
Qed.
(* Operations that look like run-time semantics, or are marked as calling such operations. *)
Theorem C89_runtimey : forall ops bifs sects d, NoDup (map fst ops) -> analyze ops bifs sects = Ok d ->
  listing (dp_ss_runtimey d) (fun x => static_op sects x /\ ~ (declared ops x /\ ~ marked_runtime ops bifs x)) /\
  listing (dp_not_runtimey d) (fun x => declared ops x /\ ~ marked_runtime ops bifs x /\ ~ static_op sects x).
Proof.
  intros ops bifs sects d ND H. destruct (analyze_ok _ _ _ _ ND H) as (is & noinfo & reached & ssr & r & I & _ & _ & _ & RR & ->). cbn [dp_ss_runtimey dp_not_runtimey].
  split; (eapply (sorted_set_iff _ (minus _ _)); [|reflexivity]); intros x; rewrite !minus_iff, declared_keys, RR, static_iff; tauto.
Qed.
(* When no function has the name of an operation, the marked operations are those that lead to run-time semantics. *)
Theorem C89_runtimey_exact : forall ops bifs, (forall x, declared ops x -> ~ declared bifs x) ->
  forall x, marked_runtime ops bifs x <-> leads_to_runtime ops x.
Proof.
  intros ops bifs DJ x. split.
  - induction 1 as [x R|x a y A C _ IH|x b a y B A C _ IH]; [now apply lr_here|now apply lr_call with a y|]. exfalso. apply (DJ x); [now exists b|now exists a].
  - induction 1 as [x R|x a y A C _ IH]; [now apply mr_here|now apply mr_call with a y].
Qed.

(* The nodes that invoke an operation, each once, in document order. *)
Inductive subseq {A} : list A -> list A -> Prop :=
| sub_nil l : subseq [] l
| sub_take x l l' : subseq l l' -> subseq (x :: l) (x :: l')
| sub_skip x l l' : subseq l l' -> subseq l (x :: l').
Fixpoint nodes (t : ctree) : list nat :=
  match t with
  | CT id _ _ _ sub ch => id :: (match sub with Some (Some t') => nodes t' | _ => [] end) ++ (fix go l := match l with [] => [] | c :: l' => nodes c ++ go l' end) ch
  end.
(* no node names an operation twice *)
Inductive names_once : ctree -> Prop :=
| no_ id r s inv sub ch :
    (forall names, inv = Some names -> NoDup names) -> (forall t, sub = Some (Some t) -> names_once t) -> (forall c, In c ch -> names_once c) ->
    names_once (CT id r s inv sub ch).
Lemma nodes_eq id r s inv sub ch : nodes (CT id r s inv sub ch) = id :: (match sub with Some (Some t') => nodes t' | _ => [] end) ++ flat_map nodes ch.
Proof. reflexivity. Qed.
Lemma sub_app {A} (a b c d : list A) : subseq a b -> subseq c d -> subseq (a ++ c) (b ++ d).
Proof.
  induction 1 as [l|x l l' _ IH|x l l' _ IH]; intros K; cbn [app]; [|constructor; auto|constructor; auto]. induction l as [|x l IH]; cbn [app]; [assumption|now constructor].
Qed.
Lemma sub_flat {A B C} (R : A -> B -> Prop) (f : A -> list C) (g : B -> list C) l l' : Forall2 R l l' -> (forall x y, In x l -> R x y -> subseq (g y) (f x)) -> subseq (flat_map g l') (flat_map f l).
Proof. induction 1 as [|x y l l' K F IH]; intros H; cbn [flat_map]; [constructor|]. apply sub_app; [apply H; [now left|assumption]|]. apply IH. intros a b I. apply H. now right. Qed.
Lemma sub_in {A} (a b : list A) x : subseq a b -> In x a -> In x b.
Proof. induction 1 as [l|y l l' _ IH|y l l' _ IH]; [intros []|intros [->|I]; [now left|right; auto]|right; auto]. Qed.
Lemma sub_nodup {A} (a b : list A) : subseq a b -> NoDup b -> NoDup a.
Proof. induction 1 as [l|y l l' S0 IH|y l l' _ IH]; intros N; [constructor| |]; inversion N as [|? ? NI N']; subst; [constructor; [intros X; apply NI; now apply (sub_in l)|auto]|auto]. Qed.
Definition named (x : text) (l : list call) : list nat := map snd (filter (fun c => text_eqb (fst c) x) l).
Lemma named_concat x ls : named x (concat ls) = flat_map (named x) ls.
Proof. induction ls as [|l ls IH]; [reflexivity|]. cbn [concat flat_map]. rewrite <- IH. unfold named. now rewrite filter_app, map_app. Qed.
Lemma named_app x a b : named x (a ++ b) = named x a ++ named x b.
Proof. unfold named. now rewrite filter_app, map_app. Qed.
Lemma calls_sub name x t l : calls_in name t = Ok l -> names_once t -> subseq (named x l) (nodes t).
Proof.
  revert l. induction t as [id r s inv sub ch IS IC] using ctree_induction. intros l. rewrite calls_in_eq, nodes_eq. intros H W. inversion W as [? ? ? ? ? ? W1 W2 W3]; subst. apply bind_ok in H as (here & HH & H). apply bind_ok in H as (rest & HR & H). apply ok_inj in H. subst l. rewrite named_app, named_concat.
  assert (REST : subseq (flat_map (named x) rest) (flat_map nodes ch)). { apply map_res_ok in HR. eapply sub_flat; [exact HR|]. intros c b C F. apply IC; [assumption|assumption|now apply W3]. }
  change (id :: (match sub with Some (Some t') => nodes t' | _ => [] end) ++ flat_map nodes ch) with ((id :: (match sub with Some (Some t') => nodes t' | _ => [] end)) ++ flat_map nodes ch). apply sub_app; [|assumption].
  destruct inv as [names|].
  - apply ok_inj in HH. subst here. specialize (W1 _ eq_refl). assert (K : named x (map (fun n => (n, id)) names) = [] \/ named x (map (fun n => (n, id)) names) = [id]).
    { clear - W1. induction names as [|n names IH]; [now left|]. inversion W1 as [|? ? NI N']; subst. specialize (IH N'). unfold named in *. cbn [map filter fst]. destruct (text_eqb n x) eqn:E; [|assumption]. apply text_eqb_eq in E. subst n. right. cbn [map snd]. f_equal. assert (Z : filter (fun c : call => text_eqb (fst c) x) (map (fun n => (n, id)) names) = []); [|exact (f_equal (map snd) Z)]. clear - NI. induction names as [|n names IH]; [reflexivity|]. cbn [map filter fst]. destruct (text_eqb n x) eqn:E; [apply text_eqb_eq in E; subst n; exfalso; apply NI; now left|]. apply IH. intros X. apply NI. now right. }
    destruct K as [->| ->]; [constructor|constructor; constructor].
  - apply sub_skip. destruct sub as [st|]; [|apply ok_inj in HH; subst here; constructor]. apply bind_ok in HH as (? & _ & HH). destruct st as [t'|]; [|discriminate]. now apply (IS t' eq_refl _ HH), W2.
Qed.
Definition alg_nodes (a : calg) : list nat := flat_map (fun d => flat_map (fun o => match o with Some t => nodes t | None => [] end) (cd_anodes d)) (ca_defns a).
Theorem C89_invocations : forall ops bifs sects d x, NoDup (map fst ops) -> NoDup (map fst bifs) -> analyze ops bifs sects = Ok d ->
  (forall i, In i (dp_invocations d x) <-> declared ops x /\ exists n a s t, (In (n, a) ops \/ In (n, a) bifs) /\ tree_of a s t /\ invokes t x i) /\
  ((forall n a s t, In (n, a) ops \/ In (n, a) bifs -> tree_of a s t -> names_once t) ->
   exists os bs, Permutation os ops /\ Permutation bs bifs /\ StronglySorted text_lt (map fst os) /\ StronglySorted text_lt (map fst bs) /\
     subseq (dp_invocations d x) (flat_map (fun e => alg_nodes (snd e)) (os ++ bs)) /\
     (NoDup (flat_map (fun e => alg_nodes (snd e)) (os ++ bs)) -> NoDup (dp_invocations d x))).
Proof.
  intros ops bifs sects d x ND NB H. destruct (analyze_ok _ _ _ _ ND H) as (is & noinfo & reached & ssr & r & I & _ & _ & _ & _ & ->). cbn [dp_invocations]. unfold invocations_of, is_op. pose proof (is_all ops bifs is I) as F. split.
  - intros i. destruct (tmem_ x (map fst ops)) eqn:M.
    + apply tmem_iff_, declared_keys in M. rewrite in_flat_map. split.
      * intros (ci & J & K). split; [assumption|]. apply in_flat_map in K as ([sc l] & K & Q). cbn [snd] in Q. apply in_map_iff in Q as ([y j] & E & Q). cbn [snd] in E. subst j. apply filter_In in Q as (Q & E). apply text_eqb_eq in E. cbn [fst] in E. subst y. destruct (forall2_in_r _ _ _ _ F J) as ([n a] & G & (_ & _ & _ & G4)). cbn [fst snd] in *. destruct (forall2_in_r _ _ _ _ G4 K) as (df & DF & (SD & CD)). cbn [fst snd] in *. apply (calls_of_defn_ok _ _ _ CD) in Q as (t & T & V). exists n, a, sc, t. split; [apply in_app_or in G as [G|G]; apply of_sorted in G; auto|]. split; [|assumption]. now exists df.
      * intros (_ & n & a & s & t & D & (df & DF & SD & T) & V). assert (G : In (n, a) (sorted_items ops ++ sorted_items bifs)) by (apply in_or_app; destruct D as [D|D]; [left|right]; now apply sorted_in). destruct (forall2_in_l _ _ _ _ F G) as (ci & J & (_ & _ & _ & G4)). cbn [fst snd] in G4. exists ci. split; [assumption|]. destruct (forall2_in_l _ _ _ _ G4 DF) as ([sc l] & K & (_ & CD)). cbn [snd] in CD. apply in_flat_map. exists (sc, l). split; [assumption|]. cbn [snd]. apply in_map_iff. exists (x, i). split; [reflexivity|]. apply filter_In. split; [apply (calls_of_defn_ok _ _ _ CD); now exists t|]. now apply text_eqb_eq.
    + apply tmem_no in M. split; [intros []|]. intros (D & _). exfalso. now apply M, declared_keys.
  - intros W. exists (sorted_items ops), (sorted_items bifs). split; [apply isort_perm|]. split; [apply isort_perm|]. split; [now apply sorted_keys|]. split; [now apply sorted_keys|].
    assert (SUB : subseq (if tmem_ x (map fst ops) then flat_map (fun i => flat_map (fun dc : text * list call => map snd (filter (fun c : call => text_eqb (fst c) x) (snd dc))) (ci_calls i)) is else []) (flat_map (fun e => alg_nodes (snd e)) (sorted_items ops ++ sorted_items bifs))).
    { destruct (tmem_ x (map fst ops)); [|constructor]. eapply sub_flat; [exact F|]. intros [n a] ci G (_ & _ & _ & G4). cbn [fst snd] in *. unfold alg_nodes. eapply sub_flat; [exact G4|]. intros df [sc l] DF (_ & CD). cbn [fst snd] in *. unfold calls_of_defn in CD. apply bind_ok in CD as (ls & M & CD). apply ok_inj in CD. subst l. change (subseq (named x (concat ls)) (flat_map (fun o => match o with Some t => nodes t | None => [] end) (cd_anodes df))). rewrite named_concat. apply map_res_ok in M. eapply sub_flat; [exact M|]. intros o b O FO. cbv beta in FO. destruct o as [t|]; cbn [calls_of_anode] in FO; [|apply ok_inj in FO; subst b; constructor]. apply (calls_sub _ _ _ _ FO). apply (W n a (cd_sect df)); [apply in_app_or in G as [G|G]; apply of_sorted in G; auto|now exists df]. }
    split; [exact SUB|]. intros N. now apply (sub_nodup _ _ SUB).
Qed.
(* What is said of calls of undeclared operations. *)
Theorem C89_complaints : forall ops bifs sects d, NoDup (map fst ops) -> analyze ops bifs sects = Ok d ->
  (forall y x s, In (NoEntryIn y x s) (dp_stderr d) <-> ~ declared ops y /\ exists a t i, (In (x, a) ops \/ In (x, a) bifs) /\ tree_of a s t /\ invokes t y i) /\
  (forall y x, In (NoEntry y x) (dp_stderr d) <-> ~ declared ops y /\ exists a, (In (x, a) ops \/ In (x, a) bifs) /\ calls x a y).
Proof.
  intros ops bifs sects d ND H. destruct (analyze_ok _ _ _ _ ND H) as (is & noinfo & reached & ssr & r & I & _ & _ & _ & _ & ->). cbn [dp_stderr]. unfold complaints, is_op. pose proof (is_all ops bifs is I) as F. split.
  - intros y x s. rewrite in_flat_map. split.
    + intros (ci & J & K). apply in_app_or in K as [K|K]; [|apply in_map_iff in K as (? & K & _); discriminate]. apply in_flat_map in K as ([sc l] & K & Q). cbn [fst snd] in Q. apply in_map_iff in Q as ([z j] & E & Q). injection E as -> EX ->. apply filter_In in Q as (Q & M). cbn [fst] in M. apply negb_true_iff, tmem_no in M. rewrite declared_keys in M. split; [assumption|]. destruct (forall2_in_r _ _ _ _ F J) as ([n a] & G & (G1 & _ & _ & G4)). cbn [fst snd] in *. rewrite G1 in EX. subst n. destruct (forall2_in_r _ _ _ _ G4 K) as (df & DF & (SD & CD)). cbn [fst snd] in *. apply (calls_of_defn_ok _ _ _ CD) in Q as (t & T & V). exists a, t, j. split; [apply in_app_or in G as [G|G]; apply of_sorted in G; auto|]. split; [|assumption]. now exists df.
    + intros (ND' & a & t & i & D & (df & DF & SD & T) & V). assert (G : In (x, a) (sorted_items ops ++ sorted_items bifs)) by (apply in_or_app; destruct D as [D|D]; [left|right]; now apply sorted_in). destruct (forall2_in_l _ _ _ _ F G) as (ci & J & (G1 & _ & _ & G4)). cbn [fst snd] in *. exists ci. split; [assumption|]. apply in_or_app. left. destruct (forall2_in_l _ _ _ _ G4 DF) as ([sc l] & K & (E & CD)). cbn [fst snd] in *. apply in_flat_map. exists (sc, l). split; [assumption|]. cbn [fst snd]. apply in_map_iff. exists (y, i). split; [cbn [fst]; congruence|]. apply filter_In. split; [apply (calls_of_defn_ok _ _ _ CD); now exists t|]. cbn [fst]. now rewrite negb_true_iff, tmem_no, declared_keys.
  - intros y x. rewrite in_flat_map, <- (calls_in_infos ops bifs is I). split.
    + intros (ci & J & K). apply in_app_or in K as [K|K]; [apply in_flat_map in K as (? & _ & K); apply in_map_iff in K as (? & K & _); discriminate|]. apply in_map_iff in K as (c & [= -> <-] & K). apply filter_In in K as (K & M). apply negb_true_iff, tmem_no in M. rewrite declared_keys in M. split; [assumption|]. now exists ci.
    + intros (ND' & ci & J & <- & K). exists ci. split; [assumption|]. apply in_or_app. right. apply in_map_iff. exists y. split; [reflexivity|]. apply filter_In. split; [assumption|]. now rewrite negb_true_iff, tmem_no, declared_keys.
Qed.

(* ------------------------------------------------------------------ *)
(* an example: ParseScript calls Scan and a name nobody declared; Scan and Skip call each other;
   Set (the operation) calls Scan; Set (the function) calls Put, which looks like run-time semantics *)
Definition leaf_call (i : nat) (x : text) : ctree := CT i (tx "{NAMED_OPERATION_INVOCATION}") (tx "") (Some [x]) None [].
Definition one (ch : list ctree) : calg := mkCA (tx "op: singular") [mkCD (tx "1.2") [Some (CT 0 (tx "{COMMANDS}") (tx "") None None ch); None]].
Definition ops_ex : cdict :=
  [ (tx "Set", one [leaf_call 1 (tx "Scan")])
  ; (tx "ParseScript", one [leaf_call 2 (tx "Scan"); leaf_call 3 (tx "Nobody")])
  ; (tx "Scan", one [leaf_call 4 (tx "Skip")])
  ; (tx "Skip", one [leaf_call 5 (tx "Scan")])
  ; (tx "Put", one [CT 6 (tx "Throw a {ERROR_TYPE} exception.") (tx "") None None []])
  ; (tx "Lonely", one [leaf_call 7 (tx "Set")])
  ; (tx "Early Errors", one [CT 8 (tx "...") (tx "") None (Some (Some (leaf_call 9 (tx "Skip")))) []]) ].
Definition bifs_ex : cdict := [ (tx "Set", one [leaf_call 10 (tx "Put")]) ].
Definition sects_ex : list csect :=
  [ mkCS (tx "Static Semantics: Scan") [tx "Scan"]; mkCS (tx "Set (O, P, V, Throw)") [tx "Set"]; mkCS (tx "Static Semantics: Set") [tx "Set"]; mkCS (tx "Intro") [] ].
Definition deps_ex : deps := match analyze ops_ex bifs_ex sects_ex with Ok d => d | Err _ => mkDeps [] [] (fun _ => []) [] [] [] [] [] [] [] [] [] [] [] end.
Example C89_ex :
  analyze ops_ex bifs_ex sects_ex = Ok deps_ex /\
  NoDup (map fst ops_ex) /\
  map (fun l => fst (fst (fst l))) (dp_algs deps_ex) = [tx "Early Errors"; tx "Lonely"; tx "ParseScript"; tx "Put"; tx "Scan"; tx "Set"; tx "Skip"; tx "Set"] /\
  map snd (dp_algs deps_ex) = [[tx "Skip"]; [tx "Set"]; [tx "Nobody"; tx "Scan"]; []; [tx "Skip"]; [tx "Scan"]; [tx "Scan"]; [tx "Put"]] /\
  dp_invocations deps_ex (tx "Scan") = [2; 1; 5] /\
  dp_invocations deps_ex (tx "Skip") = [9; 4] /\
  dp_stderr deps_ex = [NoEntryIn (tx "Nobody") (tx "ParseScript") (tx "1.2"); NoEntry (tx "Nobody") (tx "ParseScript")] /\
  dp_unreached deps_ex = [tx "Lonely"; tx "Set"] /\
  In (tx "Nobody") (dp_undeclared deps_ex) /\ In (tx "Link") (dp_undeclared deps_ex) /\
  dp_ss_un deps_ex = [tx "Set"] /\ dp_ss_rs deps_ex = [] /\
  dp_ss_unreached deps_ex = [tx "Set"] /\ dp_ss_unlabelled deps_ex = [tx "Early Errors"; tx "ParseScript"; tx "Skip"] /\
  dp_ss_non deps_ex = [(tx "Scan", tx "Skip")] /\
  dp_non_ss deps_ex = [(tx "Lonely", tx "Set"); (tx "ParseScript", tx "Scan"); (tx "Skip", tx "Scan")] /\
  dp_ss_runtimey deps_ex = [tx "Set"] /\
  dp_not_runtimey deps_ex = [tx "Early Errors"; tx "ParseScript"; tx "Skip"].
Proof.
  assert (K : forall d e, match analyze ops_ex bifs_ex sects_ex with Ok _ => true | Err _ => false end = true -> match analyze ops_ex bifs_ex sects_ex with Ok d => d | Err _ => e end = d -> analyze ops_ex bifs_ex sects_ex = Ok d) by (intros d e; destruct (analyze ops_ex bifs_ex sects_ex); [now intros _ ->|discriminate]).
  split; [apply (K _ (mkDeps [] [] (fun _ => []) [] [] [] [] [] [] [] [] [] [] [])); [vm_compute; reflexivity|reflexivity]|].
  assert (D : forall l : list text, nodup (list_eq_dec N.eq_dec) l = l -> NoDup l) by (intros l E; rewrite <- E; apply NoDup_nodup).
  split; [apply D; vm_compute; reflexivity|].
  repeat (split; [vm_compute; reflexivity|]). split; [apply tmem_iff_; vm_compute; reflexivity|]. split; [apply tmem_iff_; vm_compute; reflexivity|].
  repeat (split; [vm_compute; reflexivity|]). vm_compute; reflexivity.
Qed.
(* its algorithms are sound, and no node names an operation twice *)
Example C89_ex_sound : forall x a, In (x, a) ops_ex \/ In (x, a) bifs_ex -> sound_alg x a.
Proof.
  assert (L : forall n i x, sound n (leaf_call i x)) by (intros n i x; constructor; [discriminate|intros c []]).
  assert (O : forall x ch, x <> tx "HostLoadImportedModule" -> (forall c, In c ch -> sound x c) -> sound_alg x (one ch)).
  { intros x ch NX H. split; [|intros ->; contradiction]. intros s t (d & [<-|[]] & _ & T). destruct T as [[= <-]|[T|[]]]; [|discriminate]. constructor; [discriminate|assumption]. }
  intros x a [I|I].
  - unfold ops_ex in I. cbn [In] in I. destruct I as [I|[I|[I|[I|[I|[I|[I|[]]]]]]]]; injection I as <- <-; (apply O; [intros E; vm_compute in E; discriminate|]); intros c C; cbn [In] in C.
    1: destruct C as [<-|[]]; apply L.
    1: destruct C as [<-|[<-|[]]]; apply L.
    1-2: destruct C as [<-|[]]; apply L.
    1: destruct C as [<-|[]]; constructor; [discriminate|intros c []].
    1: destruct C as [<-|[]]; apply L.
    destruct C as [<-|[]]. constructor; [|intros c []]. intros o [= <-]. split; [reflexivity|]. eexists. split; [reflexivity|]. apply L.
  - unfold bifs_ex in I. cbn [In] in I. destruct I as [I|[]]; injection I as <- <-; (apply O; [intros E; vm_compute in E; discriminate|]). intros c [<-|[]]. apply L.
Qed.
Example C89_ex_once : forall n a s t, In (n, a) ops_ex \/ In (n, a) bifs_ex -> tree_of a s t -> names_once t.
Proof.
  assert (L : forall i x, names_once (leaf_call i x)) by (intros i x; constructor; [intros names [= <-]; constructor; [intros []|constructor]|discriminate|intros c []]).
  assert (O : forall ch s t, (forall c, In c ch -> names_once c) -> tree_of (one ch) s t -> names_once t).
  { intros ch s t H (d & [<-|[]] & _ & T). destruct T as [[= <-]|[T|[]]]; [|discriminate]. constructor; [discriminate|discriminate|assumption]. }
  intros n a s t [I|I] T.
  - unfold ops_ex in I. cbn [In] in I. destruct I as [I|[I|[I|[I|[I|[I|[I|[]]]]]]]]; injection I as <- <-; (eapply O; [|exact T]); intros c C; cbn [In] in C.
    1: destruct C as [<-|[]]; apply L.
    1: destruct C as [<-|[<-|[]]]; apply L.
    1-2: destruct C as [<-|[]]; apply L.
    1: destruct C as [<-|[]]; constructor; [discriminate|discriminate|intros c []].
    1: destruct C as [<-|[]]; apply L.
    destruct C as [<-|[]]. constructor; [discriminate| |intros c []]. intros t' [= <-]. apply L.
  - unfold bifs_ex in I. cbn [In] in I. destruct I as [I|[]]; injection I as <- <-; (eapply O; [|exact T]). intros c [<-|[]]. apply L.
Qed.
(* a tree that refers to an element outside the early errors; an element that was not parsed; definitions where none are expected *)
Example C89_ex_stops :
  analyze [(tx "Scan", one [CT 1 (tx "...") (tx "") None (Some (Some (leaf_call 2 (tx "Skip")))) []])] [] [] = Err AssertionError /\
  analyze [(tx "Early Errors", one [CT 1 (tx "...") (tx "") None (Some None) []])] [] [] = Err AttributeError /\
  analyze [(tx "HostLoadImportedModule", one [])] [] [] = Err AssertionError.
Proof. split; [|split]; vm_compute; reflexivity. Qed.
(* The analysis as meant would not report an operation that does not lead to run-time semantics; it does,
   since the calls of the function Set are taken for calls of the operation Set. *)
Theorem C89_runtimey_refuted : exists ops bifs sects d x, NoDup (map fst ops) /\ analyze ops bifs sects = Ok d /\
  declared ops x /\ In x (dp_ss_runtimey d) /\ ~ leads_to_runtime ops x.
Proof.
  exists ops_ex, bifs_ex, sects_ex, deps_ex, (tx "Set"). destruct C89_ex as (A & N & _). split; [assumption|]. split; [assumption|]. split; [eexists; now left|]. split; [apply tmem_iff_; vm_compute; reflexivity|].
  (* without the functions the operation is not marked, and then the marks are right *)
  destruct (C89_runs ops_ex [] sects_ex N) as (d & D); [intros x a [I|[]]; apply C89_ex_sound; now left|]. intros L. apply (C89_runtimey_exact ops_ex [] ltac:(intros x _ (a & [])) (tx "Set")) in L. destruct (C89_runtimey _ _ _ _ N D) as ((_ & _ & R) & _). assert (S0 : static_op sects_ex (tx "Set")). { exists (tx "Static Semantics: Set"), []. split; [cbn [In sects_ex]; auto|]. now exists (tx " Set"). }
  assert (K : In (tx "Set") (dp_ss_runtimey d)) by (apply R; split; [assumption|]; intros (_ & NM); now apply NM). apply tmem_iff_ in K. assert (E : match analyze ops_ex [] sects_ex with Ok d => tmem_ (tx "Set") (dp_ss_runtimey d) | Err _ => true end = false) by (vm_compute; reflexivity). rewrite D in E. congruence.
Qed.
Print Assumptions C89_runs.
Print Assumptions C89_stops.
Print Assumptions C89_callees.
Print Assumptions C89_undeclared.
Print Assumptions C89_unreached.
Print Assumptions C89_labels.
Print Assumptions C89_static.
Print Assumptions C89_crossing.
Print Assumptions C89_runtimey.
Print Assumptions C89_runtimey_exact.
Print Assumptions C89_invocations.
Print Assumptions C89_complaints.
Print Assumptions C89_runtimey_refuted.
