(* The whole of the validation: what is reported, and when it fails. *)
From Coq Require Import Ascii String Sorting.Sorted.
From Verif Require Import M_Base L_Base M_HTML M_Shared L_Entities M_Layout L_Layout M_Indent M_Defs M_Refs M_Validate L_Validate L_ValRegex L_ValTree L_ValNodes L_ValRest.
Open Scope list_scope.
Open Scope nat_scope.
Notation length := List.length.

Lemma vnode_ind2 (P : vnode -> Prop) : (forall n, (forall c, In c (v_children n) -> P c) -> P n) -> forall n, P n.
Proof.
  intros H. fix F 1. intros [s e x a i cs]. apply H. cbn [v_children]. induction cs as [|c cs IH]; intros d I; [destruct I|]. destruct I as [E|I]; [rewrite <- E; apply F|now apply IH].
Qed.

Section Main.
  Variable uniword : N -> bool.
  Variable valfull : text -> text -> bool.
  Variable einfo : list (text * info).
  Variable ainfo : list (text * option text).
  Variable t : text.
  Notation complaint := (complaint uniword valfull einfo ainfo t).
  Notation validate := (validate uniword valfull einfo ainfo t).

  Fixpoint validate_all (up : list vnode) (cs : list vnode) : res (list (nat * vmsg)) :=
    match cs with
    | [] => Ok []
    | x :: cs' => do m <- validate up x ;; do ms <- validate_all up cs' ;; Ok (m ++ ms)
    end.
  Lemma validate_eq up n : validate up n =
    if text_eqb (v_name n) (tx "#LITERAL") then literal_msgs uniword t n up
    else do a <- edge_msgs t n up ;; do c <- content_msgs einfo t n ;; do below <- validate_all (n :: up) (v_children n) ;;
         Ok (a ++ attr_msgs valfull einfo ainfo n ++ kind_msgs einfo t n ++ c ++ below).
  Proof.
    destruct n as [s e x a i cs]. cbn [M_Validate.validate v_children].
    assert (E : forall up cs, (fix go (cs : list vnode) : res (list (nat * vmsg)) := match cs with [] => Ok [] | x :: cs' => do m <- validate up x ;; do ms <- go cs' ;; Ok (m ++ ms) end) cs = validate_all up cs) by (intros up' cs'; induction cs' as [|c cs' IH]; [reflexivity|cbn [validate_all]; now rewrite IH]).
    now rewrite E.
  Qed.
  Lemma all_ok up : forall cs ms, validate_all up cs = Ok ms -> (forall c, In c cs -> exists m, validate up c = Ok m) /\ forall x, In x ms <-> exists c m, In c cs /\ validate up c = Ok m /\ In x m.
  Proof.
    induction cs as [|c cs IH]; intros ms H; cbn [validate_all] in H.
    - apply ok_inj in H. subst ms. split; [intros ? []|]. intros x. split; [intros []|intros (c & m & [] & _)].
    - apply bind_ok in H. destruct H as (m & M & H). apply bind_ok in H. destruct H as (r & R & H). apply ok_inj in H. subst ms. destruct (IH r R) as (I1 & I2). split; [intros d [<-|D]; [eauto|now apply I1]|].
      intros x. rewrite in_app_iff, I2. split.
      + intros [I|(d & m' & D & V & I)]; [exists c, m; split; [now left|now split]|exists d, m'; split; [now right|now split]].
      + intros (d & m' & [<-|D] & V & I); [left; rewrite M in V; apply ok_inj in V; now subst|right; now exists d, m'].
  Qed.
  Lemma node_iff up n a c p m : ~ literal n -> proper_names n -> edge_msgs t n up = Ok a -> content_msgs einfo t n = Ok c ->
    (In (p, m) (a ++ attr_msgs valfull einfo ainfo n ++ kind_msgs einfo t n ++ c) <-> complaint up n p m).
  Proof.
    intros L P A C. rewrite !in_app_iff, (edge_ok _ _ _ _ L A), attr_iff, kind_iff, (content_iff _ _ _ _ P C). split.
    - intros [[(x & y & I & N & LT & S & -> & ->)|(x & y & u & I & N & S & NI & -> & ->)]|[(-> & [(i & l & M & LS & N & ->)|[(i & l & M & LS & N & ->)|[(x & v & I & NP & ->)|[(x & v & I & PT & ->)|[(x & q & I & PT & ->)|(x & q & v & I & PT & V & ->)]]]]])|[[(d & D & L1 & L2 & N & -> & ->)|(b & i & B & I & N1 & N2 & -> & ->)]|(-> & [(N & ->)|(i & r & xs & ys & M & R & X & Y & NL & ->)])]]].
      + eapply c_start; eassumption.
      + eapply c_end; eassumption.
      + eapply c_missing; eassumption.
      + eapply c_unexpected; eassumption.
      + eapply c_unknown; eassumption.
      + eapply c_no_value; eassumption.
      + eapply c_value; eassumption.
      + eapply c_bad; eassumption.
      + eapply c_kind; eassumption.
      + eapply c_mixed; eassumption.
      + eapply c_no_model; eassumption.
      + eapply c_content; eassumption.
    - intros X. inversion X; subst; try contradiction.
      + left. left. do 2 eexists. repeat split; eassumption.
      + left. right. do 3 eexists. repeat split; eassumption.
      + right. left. split; [reflexivity|]. left. do 2 eexists. split; [eassumption|]. split; [eassumption|]. now split.
      + right. left. split; [reflexivity|]. right. left. do 2 eexists. split; [eassumption|]. split; [eassumption|]. now split.
      + right. left. split; [reflexivity|]. do 2 right. left. do 2 eexists. split; [eassumption|]. split; [assumption|reflexivity].
      + right. left. split; [reflexivity|]. do 3 right. left. do 2 eexists. split; [eassumption|]. split; [assumption|reflexivity].
      + right. left. split; [reflexivity|]. do 4 right. left. do 2 eexists. split; [eassumption|]. split; [eassumption|reflexivity].
      + right. left. split; [reflexivity|]. do 5 right. do 3 eexists. split; [eassumption|]. split; [eassumption|]. now split.
      + right. right. left. left. eexists. split; [eassumption|]. split; [assumption|]. split; [assumption|]. split; [assumption|]. now split.
      + right. right. left. right. do 2 eexists. split; [eassumption|]. split; [eassumption|]. split; [assumption|]. split; [assumption|]. now split.
      + right. right. right. split; [reflexivity|]. left. auto.
      + right. right. right. split; [reflexivity|]. right. exists i, r, xs, ys. do 5 (split; [assumption|]). reflexivity.
  Qed.
  Lemma reached_literal up n up' n' : literal n -> reached up n up' n' -> up' = up /\ n' = n.
  Proof. intros L R. inversion R; subst; [auto|contradiction]. Qed.
  Lemma validate_ok : forall n up ms, up <> [] \/ ~ literal n -> (forall up' n', reached up n up' n' -> proper_names n') -> validate up n = Ok ms ->
    forall p m, In (p, m) ms <-> exists up' n', reached up n up' n' /\ complaint up' n' p m.
  Proof.
    induction n as [n IH] using vnode_ind2. intros up ms U P V p m. rewrite validate_eq in V. destruct (text_eqb (v_name n) (tx "#LITERAL")) eqn:L.
    - apply lit_iff in L. destruct up as [|x up]; [destruct U as [U|U]; contradiction|]. rewrite (literal_ok uniword valfull einfo ainfo _ _ _ _ _ L V). split; [intros C; exists (x :: up), n; split; [constructor|assumption]|]. intros (up' & n' & R & C). apply reached_literal in R; [|assumption]. destruct R as (-> & ->). assumption.
    - assert (NL : ~ literal n) by (intros X; apply lit_iff in X; congruence). apply bind_ok in V. destruct V as (a & A & V). apply bind_ok in V. destruct V as (c & C & V). apply bind_ok in V. destruct V as (below & B & V). apply ok_inj in V. subst ms.
      replace (a ++ attr_msgs valfull einfo ainfo n ++ kind_msgs einfo t n ++ c ++ below) with ((a ++ attr_msgs valfull einfo ainfo n ++ kind_msgs einfo t n ++ c) ++ below) by now rewrite !app_assoc.
      rewrite in_app_iff, (node_iff _ _ _ _ _ _ NL (P up n (r_self _ _)) A C). destruct (all_ok _ _ _ B) as (B1 & B2). rewrite B2.
      assert (CH : forall d, In d (v_children n) -> forall md, validate (n :: up) d = Ok md -> forall p m, In (p, m) md <-> exists up' n', reached (n :: up) d up' n' /\ complaint up' n' p m).
      { intros d D md. apply IH; [assumption|left; discriminate|]. intros up' n' R. apply (P up'). now apply (r_child _ _ d). }
      split.
      + intros [H|(d & md & D & VD & I)]; [exists up, n; split; [constructor|assumption]|].
        pose proof (proj1 (CH d D md VD p m) I) as (up' & n' & R & K). exists up', n'. split; [now apply (r_child _ _ d)|assumption].
      + intros (up' & n' & R & K). inversion R as [? ?|? ? d ? ? _ D R']; subst; [now left|]. right. destruct (B1 d D) as (md & VD). exists d, md. split; [assumption|]. split; [assumption|].
        apply (CH d D md VD p m). now exists up', n'.
  Qed.

  (* a cell outside of every table, whose start tag and end tag are both there; or text
     with spaces to be reported in such a cell *)
  Definition crash (up : list vnode) (n : vnode) : Prop :=
    (~ literal n /\ v_inner n <> None /\ stray (n :: up)) \/
    (literal n /\ stray up /\ exists p k, run_of_spaces t (v_start n) (v_end n) p k /\ ~ after_newline t p).
  Lemma all_err up : forall cs e, (forall c e', In c cs -> validate up c = Err e' -> e' = AttributeError) -> (validate_all up cs = Err e <-> e = AttributeError /\ exists c, In c cs /\ validate up c = Err AttributeError).
  Proof.
    induction cs as [|c cs IH]; intros e S; cbn [validate_all]; [split; [discriminate|intros (_ & c & [] & _)]|]. destruct (validate up c) as [m|e'] eqn:V; cbn [bind].
    - specialize (IH e (fun c' e' C => S c' e' (or_intror C))). destruct (validate_all up cs) as [ms|e'] eqn:A; cbn [bind].
      + split; [discriminate|]. intros (-> & d & [<-|D] & VD); [congruence|]. exfalso. assert (X : Ok ms = Err AttributeError) by (apply IH; split; [reflexivity|now exists d]). discriminate.
      + rewrite IH. split; [intros (E & d & D & VD); split; [assumption|exists d; split; [now right|assumption]]|]. intros (E & d & [<-|D] & VD); [congruence|]. split; [assumption|now exists d].
    - pose proof (S c e' (or_introl eq_refl) V) as ->. split; [intros H; injection H as <-; split; [reflexivity|]; exists c; split; [now left|assumption]|]. now intros (-> & _).
  Qed.
  Lemma validate_err : parses einfo -> forall n up e, up <> [] \/ ~ literal n -> (validate up n = Err e <-> e = AttributeError /\ exists up' n', reached up n up' n' /\ crash up' n').
  Proof.
    intros P. induction n as [n IH] using vnode_ind2. intros up e U. rewrite validate_eq. destruct (text_eqb (v_name n) (tx "#LITERAL")) eqn:L.
    - apply lit_iff in L. destruct up as [|x up]; [destruct U as [U|U]; contradiction|]. rewrite literal_err. split.
      + intros (-> & S & R). split; [reflexivity|]. exists (x :: up), n. split; [constructor|]. right. auto.
      + intros (-> & up' & n' & R & C). apply reached_literal in R; [|assumption]. destruct R as (-> & ->). split; [reflexivity|]. destruct C as [(N & _)|(_ & C)]; [contradiction|assumption].
    - assert (NL : ~ literal n) by (intros X; apply lit_iff in X; congruence). destruct (content_total einfo t n P) as (c & C). rewrite C.
      assert (K : forall d, In d (v_children n) -> forall e', validate (n :: up) d = Err e' <-> e' = AttributeError /\ exists up' n', reached (n :: up) d up' n' /\ crash up' n') by (intros d D e'; apply IH; [assumption|left; discriminate]).
      assert (S : forall d e', In d (v_children n) -> validate (n :: up) d = Err e' -> e' = AttributeError) by (intros d e' D V; now apply (proj1 (K d D e')) in V).
      destruct (edge_msgs t n up) as [a|e'] eqn:E; cbn [bind].
      + assert (NE : ~ (stray (n :: up) /\ v_inner n <> None)) by (intros (S1 & S2); assert (edge_msgs t n up = Err AttributeError) by (apply edge_err; auto); congruence).
        destruct (validate_all (n :: up) (v_children n)) as [below|e'] eqn:B; cbn [bind].
        * split; [discriminate|]. intros (-> & up' & n' & R & X). exfalso. inversion R as [? ?|? ? d ? ? _ D R']; subst; [destruct X as [(_ & X1 & X2)|(X & _)]; [tauto|contradiction]|].
          assert (V : validate (n :: up) d = Err AttributeError) by (apply K; [assumption|split; [reflexivity|now exists up', n']]). assert (validate_all (n :: up) (v_children n) = Err AttributeError) by (apply all_err; [assumption|split; [reflexivity|now exists d]]). congruence.
        * pose proof (proj1 (all_err _ _ _ S) B) as (-> & d & D & V). pose proof (proj1 (K d D _) V) as (_ & up' & n' & R & X). split; [intros H; injection H as <-; split; [reflexivity|]; exists up', n'; split; [now apply (r_child _ _ d)|assumption]|]. now intros (-> & _).
      + pose proof (proj1 (edge_err _ _ _ _) E) as (-> & S1 & S2). split; [intros H; injection H as <-; split; [reflexivity|]; exists up, n; split; [constructor|left; auto]|]. now intros (-> & _).
  Qed.
End Main.
