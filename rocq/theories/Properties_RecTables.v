(* C103: what the tables of the specification declare about Records, and the check of tables by their captions *)
From Coq Require Import Ascii String Lia ZArith.
From Verif Require Import M_Base L_Base M_HTML M_Shared M_Records M_Values M_Refs M_PropPath M_Style M_Tables M_RecTables L_Records Properties_Records L_ValLists L_ValTree L_StyleDesc L_PropPath L_RecTables.
Open Scope list_scope.
Open Scope nat_scope.
Notation length := List.length.

(* ------------------------------------------------------------------ *)
(* captions *)
Definition plain (t : text) : Prop := t <> [] /\ ~ In 10%N t.
Definition ending (p t : text) : Prop := exists a, t = a ++ p.
Definition has (p t : text) : Prop := exists a b, t = a ++ p ++ b.
Definition fields_of_schema (c n : text) : Prop :=
  plain n /\ (ending (tx " Record") n \/ ending (tx " Event") n \/ n = tx "PrivateElement") /\ (c = n ++ tx " Fields" \/ c = tx "Additional Fields of " ++ n ++ tx "s").
Definition methods_of_schema (c n : text) : Prop :=
  exists a b m, (a = [] \/ a = tx "Additional ") /\ (b = [] \/ b = tx "Abstract ") /\ plain m /\ n = m ++ tx " Record" /\ c = a ++ b ++ tx "Methods of " ++ n ++ tx "s".

Lemma dots_iff t : dots t = true <-> plain t.
Proof. unfold plain. destruct t as [|c t]; cbn [dots]; [split; [discriminate|intros ([] & _); reflexivity]|]. rewrite no_newline_iff. split; [intros H; split; [discriminate|assumption]|tauto]. Qed.
Lemma ends_iff p t : ends_with p t = true <-> ending p t.
Proof.
  unfold ends_with. rewrite begins_iff. unfold ending. split.
  - intros (r & E). exists (rev r). apply (f_equal (@rev N)) in E. rewrite rev_involutive, rev_app_distr, rev_involutive in E. exact E.
  - intros (a & ->). exists (rev a). apply rev_app_distr.
Qed.
Lemma kind_iff n : ends_with (tx " Record") n || ends_with (tx " Event") n || text_eqb n (tx "PrivateElement") = true <-> ending (tx " Record") n \/ ending (tx " Event") n \/ n = tx "PrivateElement".
Proof. rewrite !Bool.orb_true_iff, !ends_iff, text_eqb_eq. tauto. Qed.
Lemma last_of (p q a b : text) x y : a ++ p ++ [x] = b ++ q ++ [y] -> x = y.
Proof. rewrite !app_assoc. intros E. now apply app_inj_tail in E as (_ & ->). Qed.
(* a name that may be given to a schema does not end like a caption of fields *)
Lemma no_field n : (ending (tx " Record") n \/ ending (tx " Event") n \/ ending (tx "PrivateElement") n) -> forall b, n <> b ++ tx "Field".
Proof.
  intros [(a & ->)|[(a & ->)|(a & ->)]] b E.
  - change (tx " Record") with (tx " Rec" ++ [111; 114; 100]%N) in E. change (tx "Field") with (tx "Fi" ++ [101; 108; 100]%N) in E.
    change [111; 114; 100]%N with ([111; 114]%N ++ [100%N]) in E. change [101; 108; 100]%N with ([101; 108]%N ++ [100%N]) in E. rewrite !app_assoc in E. apply app_inj_tail in E as (E & _).
    change [111; 114]%N with ([111]%N ++ [114%N]) in E. change [101; 108]%N with ([101]%N ++ [108%N]) in E. rewrite !app_assoc in E. apply app_inj_tail in E as (_ & E). discriminate E.
  - change (tx " Event") with (tx " Even" ++ [116]%N) in E. change (tx "Field") with (tx "Fiel" ++ [100]%N) in E. rewrite !app_assoc in E. apply app_inj_tail in E as (_ & E). discriminate E.
  - change (tx "PrivateElement") with (tx "PrivateElemen" ++ [116]%N) in E. change (tx "Field") with (tx "Fiel" ++ [100]%N) in E. rewrite !app_assoc in E. apply app_inj_tail in E as (_ & E). discriminate E.
Qed.
Lemma fields_name_iff c n : fields_name c = Ok n <-> fields_of_schema c n.
Proof.
  unfold fields_name, fields_of_schema.
  assert (B : forall r : res text, (do n0 <- r ;; do _ <- assert_ (ends_with (tx " Record") n0 || ends_with (tx " Event") n0 || text_eqb n0 (tx "PrivateElement")) ;; Ok n0) = Ok n
    <-> r = Ok n /\ (ending (tx " Record") n \/ ending (tx " Event") n \/ n = tx "PrivateElement")).
  { intros [m|e]; cbn [bind]; [|split; [discriminate|intros (X & _); discriminate X]]. destruct (ends_with (tx " Record") m || ends_with (tx " Event") m || text_eqb m (tx "PrivateElement")) eqn:K; cbn [assert_ bind].
    - apply kind_iff in K. split; [intros X; apply ok_inj in X; subst m; auto|]. now intros (X & _).
    - split; [discriminate|]. intros (X & Y). apply ok_inj in X. subst m. apply kind_iff in Y. congruence. }
  rewrite B. clear B.
  assert (SECOND : match between (tx "Additional Fields of ") (tx "s") c with Some m' => if dots m' then Ok m' else Err AssertionError | None => Err AssertionError end = Ok n <-> plain n /\ c = tx "Additional Fields of " ++ n ++ tx "s").
  { destruct (between (tx "Additional Fields of ") (tx "s") c) as [m|] eqn:E.
    - apply between_iff in E. destruct (dots m) eqn:D.
      + apply dots_iff in D. split; [intros X; apply ok_inj in X; subst m; auto|]. intros (_ & X). rewrite E in X. apply app_inv_head, app_inv_tail in X. now subst.
      + split; [discriminate|]. intros (P & X). rewrite E in X. apply app_inv_head, app_inv_tail in X. subst m. apply dots_iff in P. congruence.
    - split; [discriminate|]. intros (_ & X). apply between_iff in X. congruence. }
  destruct (between [] (tx " Fields") c) as [m|] eqn:E.
  - apply between_iff in E. cbn [app] in E. destruct (dots m) eqn:D.
    + apply dots_iff in D. split.
      * intros (X & K). apply ok_inj in X. subst m. auto.
      * intros (P & K & [X|X]); (split; [|assumption]).
        -- rewrite E in X. apply app_inv_tail in X. now subst.
        -- exfalso. rewrite E in X. change (tx " Fields") with ((tx " " ++ tx "Field") ++ tx "s") in X. rewrite !app_assoc in X. apply app_inv_tail in X.
           apply (no_field (tx "Additional Fields of " ++ n)) with (b := m ++ tx " "); [|now symmetry].
           destruct K as [(a & ->)|[(a & ->)| ->]]; [left; exists (tx "Additional Fields of " ++ a)|right; left; exists (tx "Additional Fields of " ++ a)|right; right; exists (tx "Additional Fields of ")]; now rewrite ?app_assoc.
    + rewrite SECOND. split; [intros ((P & X) & K); auto|]. intros (P & K & [X|X]); [|auto]. exfalso. rewrite E in X. apply app_inv_tail in X. subst m. apply dots_iff in P. congruence.
  - rewrite SECOND. split; [intros ((P & X) & K); auto|]. intros (P & K & [X|X]); [|auto]. exfalso. assert (Y := proj2 (between_iff [] (tx " Fields") c n) X). congruence.
Qed.
Lemma methods_name_iff c n : methods_name c = Ok n <-> methods_of_schema c n.
Proof.
  unfold methods_name, methods_of_schema.
  assert (LAST : forall c2, match between (tx "Methods of ") (tx " Records") c2 with Some m => if dots m then Ok (m ++ tx " Record") else Err AssertionError | None => Err AssertionError end = Ok n
    <-> exists m, plain m /\ n = m ++ tx " Record" /\ c2 = tx "Methods of " ++ n ++ tx "s").
  { intros c2. destruct (between (tx "Methods of ") (tx " Records") c2) as [m|] eqn:E.
    - apply between_iff in E. destruct (dots m) eqn:D.
      + apply dots_iff in D. split.
        * intros X. apply ok_inj in X. exists m. split; [assumption|]. split; [now symmetry|]. rewrite E, <- X. rewrite <- !app_assoc. reflexivity.
        * intros (m' & P & -> & X). rewrite E in X. rewrite <- app_assoc in X. apply app_inv_head in X. change (tx " Records") with (tx " Record" ++ tx "s") in X. apply app_inv_tail in X. now subst.
      + split; [discriminate|]. intros (m' & P & -> & X). rewrite E in X. rewrite <- app_assoc in X. apply app_inv_head in X. change (tx " Records") with (tx " Record" ++ tx "s") in X. apply app_inv_tail in X. subst m'. apply dots_iff in P. congruence.
    - split; [discriminate|]. intros (m & P & -> & X). assert (Y : c2 = tx "Methods of " ++ m ++ tx " Records") by (rewrite X, <- app_assoc; reflexivity). apply between_iff in Y. congruence. }
  assert (EAT : forall p c0 c1, eat p c0 = None -> c0 <> p ++ c1) by (intros p c0 c1 E ->; rewrite eat_ok in E; discriminate).
  destruct (eat (tx "Additional ") c) as [c1|] eqn:E1.
  - apply eat_inv in E1. destruct (eat (tx "Abstract ") c1) as [c2|] eqn:E2.
    + apply eat_inv in E2. rewrite LAST. split.
      * intros (m & P & -> & ->). exists (tx "Additional "), (tx "Abstract "), m. rewrite E1, E2. auto 6.
      * intros (a & b & m & A & B & P & -> & X). exists m. split; [assumption|]. split; [reflexivity|]. rewrite E1, E2 in X. destruct A as [-> | ->], B as [-> | ->]; try discriminate X. now apply app_inv_head, app_inv_head in X.
    + rewrite LAST. split.
      * intros (m & P & -> & ->). exists (tx "Additional "), [], m. rewrite E1. auto 6.
      * intros (a & b & m & A & B & P & -> & X). exists m. split; [assumption|]. split; [reflexivity|]. rewrite E1 in X. destruct A as [-> | ->], B as [-> | ->]; try discriminate X; apply app_inv_head in X; [assumption|].
        exfalso. exact (EAT _ _ _ E2 X).
  - destruct (eat (tx "Abstract ") c) as [c2|] eqn:E2.
    + apply eat_inv in E2. rewrite LAST. split.
      * intros (m & P & -> & ->). exists [], (tx "Abstract "), m. rewrite E2. auto 6.
      * intros (a & b & m & A & B & P & -> & X). exists m. split; [assumption|]. split; [reflexivity|]. rewrite E2 in X. destruct A as [-> | ->], B as [-> | ->]; try discriminate X. now apply (app_inv_head (tx "Abstract ")) in X.
    + rewrite LAST. split.
      * intros (m & P & -> & ->). exists [], [], m. auto 6.
      * intros (a & b & m & A & B & P & -> & X). exists m. split; [assumption|]. split; [reflexivity|]. destruct A as [-> | ->]; [|exfalso; exact (EAT _ _ _ E1 X)]. destruct B as [-> | ->]; [exact X|exfalso; exact (EAT _ _ _ E2 X)].
Qed.

(* ------------------------------------------------------------------ *)
(* what a table declares *)
Definition is_upper (c : N) : Prop := (65 <= c <= 90)%N.
Definition is_alnum (c : N) : Prop := (65 <= c <= 90 \/ 97 <= c <= 122 \/ 48 <= c <= 57)%N.
Definition field_name (f : text) : Prop := exists c m, f = tx "[[" ++ c :: m ++ tx "]]" /\ is_upper c /\ m <> [] /\ forall d, In d m -> is_alnum d.
Definition joined_by (sep : text) (l : list text) : text := concat (match l with [] => [] | x :: l' => x :: map (fun y => sep ++ y) l' end).

Section Extract.
  Variable parse_type : hnode -> option nat.
  Variable parse_sig : hnode -> option (list text).
  (* what a row of a table of fields declares; a table about kinds has one column more *)
  Inductive row_declares (n : text) (four : bool) : row -> list op -> Prop :=
  | row_field cs a c b f ts d v : parse_type c = Some v -> field_name f -> cs = a ++ [c; b] -> length ts = (if four then 3 else 2) -> row_declares n four (mkRow cs (f :: ts) d) [OField n f (S v)]
  | row_unknown cs a c b f ts d : parse_type c = None -> cs = a ++ [c; b] -> length ts = (if four then 3 else 2) -> row_declares n four (mkRow cs (f :: ts) d) [].
  Inductive row_method (n : text) : row -> list op -> Prop :=
  | row_sig c cs x m r p d t0 t1 ts dd : parse_sig c = Some (x :: m :: r) -> length r = 1 \/ length r = 2 -> p = OMethod n m 0 -> d = mkRow (c :: cs) (t0 :: t1 :: ts) dd -> row_method n d [p].
  Definition four_columns (h : list text) : bool :=
    text_eqb (joined_by (tx "; ") h) (tx "Field Name; Values of the [[Kind]] field for which it is present; Value; Meaning").
  Inductive declares (t : table) : list op -> Prop :=
  | d_fields n h oss : has (tx "Field") (t_caption t) -> fields_of_schema (t_caption t) n -> t_header t = Some h ->
      In (joined_by (tx "; ") h) [tx "Field Name; Value Type; Meaning"; tx "Field Name; Value; Meaning"; tx "Field Name; Value; Usage"; tx "Field Name; Values of the [[Kind]] field for which it is present; Value; Meaning"] ->
      Forall2 (row_declares n (four_columns h)) (t_rows t) oss -> declares t (OEnsure n :: concat oss)
  | d_methods n h oss : ~ has (tx "Field") (t_caption t) -> has (tx "Method") (t_caption t) -> has (tx "Record") (t_caption t) -> methods_of_schema (t_caption t) n -> t_header t = Some h ->
      In (joined_by (tx "; ") h) [tx "Method; Purpose; Definitions"; tx "Method; Purpose"] -> Forall2 (row_method n) (t_rows t) oss -> declares t (OEnsure n :: concat oss)
  | d_other h : ~ has (tx "Field") (t_caption t) -> ~ (has (tx "Method") (t_caption t) /\ has (tx "Record") (t_caption t)) -> t_header t = Some h -> declares t [].
  (* what the program adds of its own *)
  Definition fields (n : text) (l : list text) : list op := OEnsure n :: map (fun f => OField n f 0) l.
  Definition own : list op :=
    fields (tx "Property Descriptor") [tx "[[Getter]]"; tx "[[Setter]]"; tx "[[Value]]"; tx "[[Writable]]"; tx "[[Enumerable]]"; tx "[[Configurable]]"] ++
    fields (tx "Environment Record") [tx "[[OuterEnv]]"] ++
    fields (tx "Declarative Environment Record") [tx "[[DisposableResourceStack]]"] ++
    fields (tx "Module Environment Record") [] ++
    fields (tx "ResolvedBinding Record") [tx "[[Module]]"; tx "[[BindingName]]"] ++
    fields (tx "CaptureRange") [tx "[[StartIndex]]"; tx "[[EndIndex]]"] ++
    fields (tx "MatchState") [tx "[[Input]]"; tx "[[EndIndex]]"; tx "[[Captures]]"] ++
    fields (tx "Synchronize Event") [] ++
    fields (tx "Host-Specific Event") [].

  Lemma field_name_iff f : field_name_ok f = true <-> field_name f.
  Proof.
    unfold field_name_ok, field_name. destruct (between (tx "[[") (tx "]]") f) as [m|] eqn:E.
    - apply between_iff in E. assert (U : forall c m', f = tx "[[" ++ c :: m' ++ tx "]]" -> m = c :: m').
      { intros c m' X. rewrite E in X. apply app_inv_head in X. apply (app_inv_tail (tx "]]")). exact X. }
      assert (AL : forall c, alnum c = true <-> is_alnum c). { intros c. unfold alnum, letter, is_alnum. rewrite !Bool.orb_true_iff, !Bool.andb_true_iff, !N.leb_le. tauto. }
      destruct m as [|c [|d m]].
      + split; [discriminate|]. intros (c & m' & X & _). now apply U in X.
      + split; [discriminate|]. intros (c' & m' & X & _ & Y & _). apply U in X. destruct m'; [congruence|discriminate].
      + rewrite Bool.andb_true_iff, Bool.andb_true_iff, !N.leb_le, forallb_forall. unfold is_upper. split.
        * intros (A & B). exists c, (d :: m). split; [exact E|]. split; [assumption|]. split; [discriminate|]. intros x I. now apply AL, B.
        * intros (c' & m' & X & A & B & C). apply U in X. injection X as -> <-. split; [assumption|]. intros x I. apply AL. auto.
    - split; [discriminate|]. intros (c & m & X & _). change (tx "[[" ++ c :: m ++ tx "]]") with (tx "[[" ++ (c :: m) ++ tx "]]") in X. apply between_iff in X. congruence.
  Qed.
  Lemma join_iff l : join_semi l = joined_by (tx "; ") l.
  Proof.
    unfold joined_by. destruct l as [|x l]; [reflexivity|]. cbn [concat]. revert x. induction l as [|y l IH]; intros x; [symmetry; apply app_nil_r|].
    change (join_semi (x :: y :: l)) with (x ++ tx "; " ++ join_semi (y :: l)). rewrite IH. cbn [map concat]. now rewrite <- app_assoc.
  Qed.
  Lemma one_of_iff t l : one_of t l = true <-> In t l.
  Proof. unfold one_of. rewrite existsb_exists. split; [intros (x & I & E); apply text_eqb_eq in E; now subst|]. intros I. exists t. split; [assumption|now apply text_eqb_eq]. Qed.
  Lemma has_iff p t : text_in p t = true <-> has p t.
  Proof. apply text_in_iff. Qed.
  Lemma second_last_iff (l : list hnode) x : second_last l = Ok x <-> exists a b, l = a ++ [x; b].
  Proof.
    unfold second_last. split.
    - destruct (rev l) as [|b [|y r]] eqn:E; try discriminate. intros X. apply ok_inj in X. subst y. exists (rev r), b. apply (f_equal (@rev hnode)) in E. rewrite rev_involutive in E. rewrite E. cbn [rev]. now rewrite <- app_assoc.
    - intros (a & b & ->). rewrite rev_app_distr. reflexivity.
  Qed.

  Lemma field_rows pre s i n h rows s' : reach pre s -> (forall o, In o pre -> simple o) -> name_of s i = Some n ->
    (each_row (field_row parse_type i (join_semi h)) s rows = Ok s' <-> exists oss, Forall2 (row_declares n (four_columns h)) rows oss /\ run s (concat oss) = Ok s').
  Proof.
    revert pre s. induction rows as [|r rows IH]; intros pre s R F N.
    - cbn [each_row]. split; [intros E; exists []; split; [constructor|assumption]|]. intros (oss & F2 & E). inversion F2. subst. exact E.
    - cbn [each_row]. assert (STEP : forall s1, field_row parse_type i (join_semi h) s r = Ok s1 <-> exists os, row_declares n (four_columns h) r os /\ run s os = Ok s1).
      { intros s1. unfold field_row. replace (text_eqb (join_semi h) kind_header) with (four_columns h) by (unfold four_columns; now rewrite join_iff). pose proof (reach_wf _ _ R) as W.
        assert (FIRST : forall f, (if four_columns h then match r_texts r with [f; _; _; _] => Ok f | _ => Err ValueError end else match r_texts r with [f; _; _] => Ok f | _ => Err ValueError end) = Ok f
          <-> exists ts, r_texts r = f :: ts /\ length ts = (if four_columns h then 3 else 2)).
        { intros f. destruct (four_columns h).
          - split; [|intros (ts & -> & L); destruct ts as [|? [|? [|? [|? ?]]]]; try discriminate L; reflexivity]. destruct (r_texts r) as [|x [|a [|b [|c [|? ?]]]]]; try discriminate. intros X. apply ok_inj in X. subst x. now exists [a; b; c].
          - split; [|intros (ts & -> & L); destruct ts as [|? [|? [|? ?]]]; try discriminate L; reflexivity]. destruct (r_texts r) as [|x [|a [|b [|c ?]]]]; try discriminate. intros X. apply ok_inj in X. subst x. now exists [a; b]. }
        destruct r as [cs tt dd]. cbn [r_texts r_cells] in *. split.
        - intros E. apply bind_ok in E as (f & E1 & E). apply FIRST in E1 as (ts & -> & L). apply bind_ok in E as (c & E2 & E). apply second_last_iff in E2 as (a & b & Ec).
          destruct (parse_type c) as [v|] eqn:P.
          + destruct (field_name_ok f) eqn:K; cbn [assert_ bind] in E; [|discriminate]. apply field_name_iff in K. exists [OField n f (S v)]. split; [eapply row_field; eauto|]. cbn [run]. apply (field_op s i n f (S v) s1 W N) in E. rewrite E. reflexivity.
          + exists []. split; [eapply row_unknown; eauto|]. exact E.
        - intros (os & D & E). inversion D as [cs0 a c b f ts d0 v P K Ec L|cs0 a c b f ts d0 P Ec L]; subst.
          + rewrite (proj2 (FIRST f)) by (exists ts; auto). cbn [bind]. rewrite (proj2 (second_last_iff (a ++ [c; b]) c)) by eauto. cbn [bind]. rewrite P, (proj2 (field_name_iff f) K). cbn [assert_ bind]. apply (field_op s i n f (S v) s1 W N). cbn [run] in E. destruct (do_op s (OField n f (S v))) as [s2|e]; cbn [bind] in E; [exact E|discriminate].
          + rewrite (proj2 (FIRST f)) by (exists ts; auto). cbn [bind]. rewrite (proj2 (second_last_iff (a ++ [c; b]) c)) by eauto. cbn [bind]. rewrite P. exact E. }
      assert (NEXT : forall os s1, row_declares n (four_columns h) r os -> run s os = Ok s1 -> reach (pre ++ os) s1 /\ (forall o, In o (pre ++ os) -> simple o) /\ name_of s1 i = Some n).
      { intros os s1 D E. assert (So : forall o, In o os -> simple o) by (inversion D; intros o [<-|[]] || intros o []; exact I). split; [now apply run_reach with (s := s)|]. split; [intros o I; apply in_app_or in I as [I|I]; auto|].
        inversion D; subst; cbn [run] in E; [|apply ok_inj in E; now subst]. destruct (do_op s (OField n f (S v))) as [s2|e] eqn:Q; cbn [bind] in E; [|discriminate]. apply ok_inj in E. subst s2. now apply (names_kept pre s (OField n f (S v)) s1 i n R Logic.I Q). }
      split.
      + intros E. apply bind_ok in E as (s1 & E1 & E2). apply STEP in E1 as (os & D & E1). destruct (NEXT os s1 D E1) as (R1 & F1 & N1). apply (proj1 (IH _ s1 R1 F1 N1)) in E2 as (oss & D2 & E2). exists (os :: oss). split; [now constructor|]. cbn [concat]. rewrite run_app, E1. exact E2.
      + intros (oss & D & E). inversion D as [|r0 os rs oss' D1 D2]; subst. cbn [concat] in E. rewrite run_app in E. destruct (run s os) as [s1|e] eqn:E1; cbn [bind] in E; [|discriminate]. rewrite (proj2 (STEP s1)) by eauto. cbn [bind]. destruct (NEXT os s1 D1 E1) as (R1 & F1 & N1). apply (proj2 (IH _ s1 R1 F1 N1)). eauto.
  Qed.
  Lemma method_rows pre s i n rows s' : reach pre s -> (forall o, In o pre -> simple o) -> name_of s i = Some n ->
    (each_row (method_row parse_sig i) s rows = Ok s' <-> exists oss, Forall2 (row_method n) rows oss /\ run s (concat oss) = Ok s').
  Proof.
    revert pre s. induction rows as [|r rows IH]; intros pre s R F N.
    - cbn [each_row]. split; [intros E; exists []; split; [constructor|assumption]|]. intros (oss & F2 & E). inversion F2. subst. exact E.
    - cbn [each_row]. assert (STEP : forall s1, method_row parse_sig i s r = Ok s1 <-> exists os, row_method n r os /\ run s os = Ok s1).
      { intros s1. unfold method_row. pose proof (reach_wf _ _ R) as W.
        assert (NAME : forall c m, method_name parse_sig c = Ok m <-> exists x q, parse_sig c = Some (x :: m :: q) /\ (length q = 1 \/ length q = 2)).
        { intros c m. unfold method_name. destruct (parse_sig c) as [l|]; [|split; [discriminate|intros (x & q & X & _); discriminate X]]. split.
          - destruct l as [|x [|y [|z [|z' [|? ?]]]]]; try discriminate; intros X; apply ok_inj in X; subst y; exists x; eexists; (split; [reflexivity|]); cbn; auto.
          - intros (x & q & X & L). injection X as ->. destruct q as [|a [|b [|? ?]]]; cbn in L; try lia; reflexivity. }
        destruct r as [cs tt dd]. cbn [r_texts r_cells]. split.
        - intros E. apply bind_ok in E as (c & E1 & E). destruct cs as [|c0 cs]; [discriminate|]. apply ok_inj in E1. subst c0. apply bind_ok in E as (p & E2 & E). destruct tt as [|t0 [|t1 ts]]; try discriminate. apply bind_ok in E as (m & E3 & E).
          apply NAME in E3 as (x & q & P & L). exists [OMethod n m 0]. split; [eapply row_sig; eauto|]. cbn [run]. apply (method_op s i n m 0 s1 W N) in E. rewrite E. reflexivity.
        - intros (os & D & E). inversion D as [c cs' x m q p d t0 t1 ts dd' P L Ep Ed X1 X2]. injection Ed as -> -> ->. subst p os. cbn [bind]. rewrite (proj2 (NAME c m)) by eauto. cbn [bind]. apply (method_op s i n m 0 s1 W N). cbn [run] in E. destruct (do_op s (OMethod n m 0)) as [s2|e]; cbn [bind] in E; [exact E|discriminate]. }
      assert (NEXT : forall os s1, row_method n r os -> run s os = Ok s1 -> reach (pre ++ os) s1 /\ (forall o, In o (pre ++ os) -> simple o) /\ name_of s1 i = Some n).
      { intros os s1 D E. inversion D as [c cs x m q p d t0 t1 ts dd P L Ep Ed X1 X2]. rewrite <- X2 in E. subst p. assert (So : forall o, In o [OMethod n m 0] -> simple o) by (intros o [<-|[]]; exact Logic.I). split; [now apply run_reach with (s := s)|]. split; [intros o I; apply in_app_or in I as [I|I]; auto|].
        cbn [run] in E. destruct (do_op s (OMethod n m 0)) as [s2|e] eqn:Q; cbn [bind] in E; [|discriminate]. apply ok_inj in E. subst s2. now apply (names_kept pre s (OMethod n m 0) s1 i n R Logic.I Q). }
      split.
      + intros E. apply bind_ok in E as (s1 & E1 & E2). apply STEP in E1 as (os & D & E1). destruct (NEXT os s1 D E1) as (R1 & F1 & N1). apply (proj1 (IH _ s1 R1 F1 N1)) in E2 as (oss & D2 & E2). exists (os :: oss). split; [now constructor|]. cbn [concat]. rewrite run_app, E1. exact E2.
      + intros (oss & D & E). inversion D as [|r0 os rs oss' D1 D2]; subst. cbn [concat] in E. rewrite run_app in E. destruct (run s os) as [s1|e] eqn:E1; cbn [bind] in E; [|discriminate]. rewrite (proj2 (STEP s1)) by eauto. cbn [bind]. destruct (NEXT os s1 D1 E1) as (R1 & F1 & N1). apply (proj2 (IH _ s1 R1 F1 N1)). eauto.
  Qed.
  Lemma declares_simple t os : declares t os -> forall o, In o os -> simple o.
  Proof.
    assert (RD : forall n b rows oss, Forall2 (row_declares n b) rows oss -> forall o, In o (concat oss) -> simple o).
    { intros n b rows oss F. induction F as [|r osr rows oss D F IH]; [intros o []|]. cbn [concat]. intros o I. apply in_app_or in I as [I|I]; [|auto]. inversion D; subst; [destruct I as [<-|[]]; exact Logic.I|destruct I]. }
    assert (RM : forall n rows oss, Forall2 (row_method n) rows oss -> forall o, In o (concat oss) -> simple o).
    { intros n rows oss F. induction F as [|r osr rows oss D F IH]; [intros o []|]. cbn [concat]. intros o I. apply in_app_or in I as [I|I]; [|auto]. inversion D; subst. destruct I as [<-|[]]; exact Logic.I. }
    intros D. inversion D; subst; intros o I; [destruct I as [<-|I]; [exact Logic.I|eauto]|destruct I as [<-|I]; [exact Logic.I|eauto]|destruct I].
  Qed.
  Lemma not_in_true (p t : text) : text_in p t = false -> ~ has p t.
  Proof. intros E H. apply has_iff in H. congruence. Qed.
  Lemma table_iff pre s t s' : reach pre s -> (forall o, In o pre -> simple o) -> (table_decls parse_type parse_sig s t = Ok s' <-> exists os, declares t os /\ run s os = Ok s').
  Proof.
    intros R F. unfold table_decls. destruct (t_header t) as [h|] eqn:H; unfold header_line; rewrite H; cbn [bind].
    2: { split; [discriminate|]. intros (os & D & _). inversion D; congruence. }
    assert (ENS : forall n (g : nat -> st -> res st), (do (i, s1) <- ensure enough s n ;; g i s1) = Ok s' <-> exists i s1, ensure enough s n = Ok (i, s1) /\ do_op s (OEnsure n) = Ok s1 /\ reach (pre ++ [OEnsure n]) s1 /\ name_of s1 i = Some n /\ g i s1 = Ok s').
    { intros n g. destruct (ensure_op pre s n R) as (i & s1 & E1 & E2 & E3 & E4). rewrite E1. cbn [bind]. split; [intros E; exists i, s1; auto|]. intros (i' & s1' & E & _ & _ & _ & G). injection E as -> ->. exact G. }
    assert (F1 : forall n o, In o (pre ++ [OEnsure n]) -> simple o) by (intros n o I; apply in_app_or in I as [I|[<-|[]]]; [auto|exact Logic.I]).
    destruct (text_in (tx "Field") (t_caption t)) eqn:TF.
    - apply has_iff in TF. split.
      + intros E. apply bind_ok in E as (n & E1 & E). apply fields_name_iff in E1. apply ENS in E as (i & s1 & _ & E2 & R1 & N1 & E). destruct (one_of (join_semi h) field_headers) eqn:O; cbn [assert_ bind] in E; [|discriminate].
        apply one_of_iff in O. rewrite join_iff in O. apply (field_rows _ s1 i n h (t_rows t) s' R1 (F1 n) N1) in E as (oss & D & E). exists (OEnsure n :: concat oss). split; [eapply d_fields; eauto|]. cbn [run]. rewrite E2. exact E.
      + intros (os & D & E). inversion D as [n h' oss A B C G K X|n h' oss A B C G K L X|h' A B K X]; subst; [|contradiction|contradiction]. assert (h' = h) by congruence. subst h'.
        rewrite (proj2 (fields_name_iff _ n) B). cbn [bind]. apply ENS. destruct (ensure_op pre s n R) as (i & s1 & E1 & E2 & E3 & E4). exists i, s1. split; [assumption|]. split; [assumption|]. split; [assumption|]. split; [assumption|].
        rewrite (proj2 (one_of_iff (join_semi h) field_headers)) by (rewrite join_iff; exact G). cbn [assert_ bind]. apply (field_rows _ s1 i n h (t_rows t) s' E3 (F1 n) E4). exists oss. split; [assumption|]. cbn [run] in E. rewrite E2 in E. exact E.
    - apply not_in_true in TF. destruct (text_in (tx "Method") (t_caption t)) eqn:TM; [destruct (text_in (tx "Record") (t_caption t)) eqn:TR|]; cbn [andb].
      + apply has_iff in TM. apply has_iff in TR. split.
        * intros E. apply bind_ok in E as (n & E1 & E). apply methods_name_iff in E1. apply ENS in E as (i & s1 & _ & E2 & R1 & N1 & E). destruct (one_of (join_semi h) method_headers) eqn:O; cbn [assert_ bind] in E; [|discriminate].
          apply one_of_iff in O. rewrite join_iff in O. apply (method_rows _ s1 i n (t_rows t) s' R1 (F1 n) N1) in E as (oss & D & E). exists (OEnsure n :: concat oss). split; [eapply d_methods; eauto|]. cbn [run]. rewrite E2. exact E.
        * intros (os & D & E). inversion D as [n h' oss A B C G K X|n h' oss A B0 B1 B C G K X|h' A B K X]; subst; [contradiction| |tauto]. assert (h' = h) by congruence. subst h'.
          rewrite (proj2 (methods_name_iff _ n) B). cbn [bind]. apply ENS. destruct (ensure_op pre s n R) as (i & s1 & E1 & E2 & E3 & E4). exists i, s1. split; [assumption|]. split; [assumption|]. split; [assumption|]. split; [assumption|].
          rewrite (proj2 (one_of_iff (join_semi h) method_headers)) by (rewrite join_iff; exact G). cbn [assert_ bind]. apply (method_rows _ s1 i n (t_rows t) s' E3 (F1 n) E4). exists oss. split; [assumption|]. cbn [run] in E. rewrite E2 in E. exact E.
      + apply not_in_true in TR. split; [intros E; exists []; split; [apply d_other with (h := h); tauto|exact E]|]. intros (os & D & E). inversion D; subst; [contradiction|contradiction|exact E].
      + apply not_in_true in TM. split; [intros E; exists []; split; [apply d_other with (h := h); tauto|exact E]|]. intros (os & D & E). inversion D; subst; [contradiction|contradiction|exact E].
  Qed.
  Lemma tables_iff pre s l s' : reach pre s -> (forall o, In o pre -> simple o) -> (tables_decls parse_type parse_sig s l = Ok s' <-> exists oss, Forall2 declares l oss /\ run s (concat oss) = Ok s').
  Proof.
    revert pre s. induction l as [|t l IH]; intros pre s R F; cbn [tables_decls].
    - split; [intros E; exists []; split; [constructor|assumption]|]. intros (oss & F2 & E). inversion F2. subst. exact E.
    - split.
      + intros E. apply bind_ok in E as (s1 & E1 & E2). apply (table_iff pre s t s1 R F) in E1 as (os & D & E1). pose proof (declares_simple t os D) as So.
        apply (IH (pre ++ os) s1) in E2 as (oss & D2 & E2); [|now apply run_reach with (s := s)|intros o I; apply in_app_or in I as [I|I]; auto]. exists (os :: oss). split; [now constructor|]. cbn [concat]. rewrite run_app, E1. exact E2.
      + intros (oss & D & E). inversion D as [|t0 os ts oss' D1 D2]; subst. cbn [concat] in E. rewrite run_app in E. destruct (run s os) as [s1|e] eqn:E1; cbn [bind] in E; [|discriminate]. rewrite (proj2 (table_iff pre s t s1 R F)) by eauto. cbn [bind].
        pose proof (declares_simple t os D1) as So. apply (IH (pre ++ os) s1); [now apply run_reach with (s := s)|intros o I; apply in_app_or in I as [I|I]; auto|]. eauto.
  Qed.
  Lemma add_fields_iff pre s i n fs s' : reach pre s -> (forall o, In o pre -> simple o) -> name_of s i = Some n -> forallb field_name_ok fs = true ->
    (add_fields s i fs = Ok s' <-> run s (map (fun f => OField n f 0) fs) = Ok s').
  Proof.
    revert pre s. induction fs as [|f fs IH]; intros pre s R F N K; [reflexivity|]. cbn [forallb] in K. apply Bool.andb_true_iff in K as (K1 & K2). cbn [add_fields map run]. rewrite K1. cbn [assert_ bind]. pose proof (reach_wf _ _ R) as W.
    assert (NX : forall s1, do_op s (OField n f 0) = Ok s1 -> reach (pre ++ [OField n f 0]) s1 /\ (forall o, In o (pre ++ [OField n f 0]) -> simple o) /\ name_of s1 i = Some n).
    { intros s1 Q. split; [now apply simple_more with (s := s)|]. split; [intros o I; apply in_app_or in I as [I|[<-|[]]]; [auto|exact Logic.I]|]. now apply (names_kept pre s (OField n f 0) s1 i n R Logic.I Q). }
    split; intros E; apply bind_ok in E as (s1 & E1 & E2).
    - apply (field_op s i n f 0 s1 W N) in E1. destruct (NX s1 E1) as (A & B & C). rewrite E1. cbn [bind]. now apply (IH _ s1 A B C K2).
    - destruct (NX s1 E1) as (A & B & C). apply (field_op s i n f 0 s1 W N) in E1. rewrite E1. cbn [bind]. now apply (IH _ s1 A B C K2).
  Qed.
  Lemma more_iff pre s n empty fs s' : reach pre s -> (forall o, In o pre -> simple o) -> n <> tx "Empty Record" -> forallb field_name_ok fs = true ->
    (more s n empty fs = Ok s' <-> (empty = true -> forall f d, ~ In (OField n f d) pre) /\ run s (fields n fs) = Ok s').
  Proof.
    intros R F NR K. unfold more. destruct (ensure_op pre s n R) as (i & s1 & E1 & E2 & R1 & N1). rewrite E1. cbn [bind]. assert (F1 : forall o, In o (pre ++ [OEnsure n]) -> simple o) by (intros o I; apply in_app_or in I as [I|[<-|[]]]; [auto|exact Logic.I]).
    unfold fields. cbn [run]. rewrite E2. cbn [bind]. rewrite <- (add_fields_iff _ s1 i n fs s' R1 F1 N1 K). destruct empty; cbn [bind]; [|split; [intros E; split; [discriminate|exact E]|intros (_ & E); exact E]].
    pose proof (reach_wf _ _ R1) as W1. assert (Z : i <> 0) by (intros ->; rewrite (name_root0 s1 W1) in N1; apply NR; apply (f_equal (fun o => match o with Some x => x | None => [] end)) in N1; symmetry; exact N1).
    destruct (decls_in _ s1 F1 R1) as (DF & _). unfold get. destruct (nth_error (schemas s1) i) as [x|] eqn:Q; [|unfold name_of in N1; rewrite Q in N1; discriminate]. cbn [bind].
    assert (EM : s_fields x = [] <-> forall f d, ~ In (OField n f d) pre).
    { split.
      - intros E f d I. assert (D : declares_field s1 n f d) by (apply DF, in_or_app; auto). destruct D as (j & _ & Nj & y & Y1 & Y2). assert (j = i) by (apply (name_inj s1 j i n W1 Nj N1)). subst j. assert (y = x) by congruence. subst y. rewrite E in Y2. discriminate.
      - intros H. destruct (s_fields x) as [|[k v] l] eqn:E; [reflexivity|]. exfalso. assert (D : declares_field s1 n k v). { exists i. split; [assumption|]. split; [assumption|]. exists x. split; [assumption|]. rewrite E. cbn [tget]. now rewrite teqb_refl. }
        apply DF in D. apply in_app_or in D as [D|[D|[]]]; [|discriminate D]. exact (H k v D). }
    destruct (s_fields x) as [|kv l]; cbn [assert_ bind].
    - split; [intros E; split; [intros _; now apply EM|exact E]|]. now intros (_ & E).
    - split; [discriminate|]. intros (H & _). specialize (H eq_refl). apply EM in H. discriminate.
  Qed.
  Lemma own_iff pre s s' : reach pre s -> (forall o, In o pre -> simple o) -> (own_decls s = Ok s' <-> (forall f d, ~ In (OField (tx "Environment Record") f d) pre) /\ run s own = Ok s').
  Proof.
    intros R F.
    assert (FS : forall n fs o, In o (fields n fs) -> simple o) by (intros n fs o [<-|I]; [exact Logic.I|]; apply in_map_iff in I as (f & <- & _); exact Logic.I).
    assert (ONE : forall pre s n fs (k : st -> res st) l, reach pre s -> (forall o, In o pre -> simple o) -> n <> tx "Empty Record" -> forallb field_name_ok fs = true ->
       (forall s1, reach (pre ++ fields n fs) s1 -> (forall o, In o (pre ++ fields n fs) -> simple o) -> (k s1 = Ok s' <-> run s1 l = Ok s')) ->
       ((do s1 <- more s n false fs ;; k s1) = Ok s' <-> run s (fields n fs ++ l) = Ok s')).
    { clear s R pre F. intros pre s n fs k l R F NR K H. rewrite run_app. split; intros E; apply bind_ok in E as (s1 & E1 & E2).
      - apply (more_iff pre s n false fs s1 R F NR K) in E1 as (_ & E1). rewrite E1. cbn [bind]. apply H; [apply run_reach with (s := s); eauto|intros o I; apply in_app_or in I as [I|I]; eauto|assumption].
      - rewrite (proj2 (more_iff pre s n false fs s1 R F NR K)) by (split; [discriminate|assumption]). cbn [bind]. apply H; [apply run_reach with (s := s); eauto|intros o I; apply in_app_or in I as [I|I]; eauto|assumption]. }
    assert (LAST : forall pre s n fs, reach pre s -> (forall o, In o pre -> simple o) -> n <> tx "Empty Record" -> forallb field_name_ok fs = true -> (more s n false fs = Ok s' <-> run s (fields n fs) = Ok s')).
    { clear s R pre F. intros pre s n fs R F NR K. rewrite (more_iff pre s n false fs s' R F NR K). split; [now intros (_ & E)|]. intros E. split; [discriminate|assumption]. }
    unfold own_decls, own.
    set (PD := [tx "[[Getter]]"; tx "[[Setter]]"; tx "[[Value]]"; tx "[[Writable]]"; tx "[[Enumerable]]"; tx "[[Configurable]]"]).
    assert (REST : forall s2, reach ((pre ++ fields (tx "Property Descriptor") PD) ++ fields (tx "Environment Record") [tx "[[OuterEnv]]"]) s2 -> (forall o, In o ((pre ++ fields (tx "Property Descriptor") PD) ++ fields (tx "Environment Record") [tx "[[OuterEnv]]"]) -> simple o) ->
      ((do s <- more s2 (tx "Declarative Environment Record") false [tx "[[DisposableResourceStack]]"] ;;
        do s <- more s (tx "Module Environment Record") false [] ;;
        do s <- more s (tx "ResolvedBinding Record") false [tx "[[Module]]"; tx "[[BindingName]]"] ;;
        do s <- more s (tx "CaptureRange") false [tx "[[StartIndex]]"; tx "[[EndIndex]]"] ;;
        do s <- more s (tx "MatchState") false [tx "[[Input]]"; tx "[[EndIndex]]"; tx "[[Captures]]"] ;;
        do s <- more s (tx "Synchronize Event") false [] ;;
        more s (tx "Host-Specific Event") false []) = Ok s' <->
       run s2 (fields (tx "Declarative Environment Record") [tx "[[DisposableResourceStack]]"] ++ fields (tx "Module Environment Record") [] ++ fields (tx "ResolvedBinding Record") [tx "[[Module]]"; tx "[[BindingName]]"] ++
        fields (tx "CaptureRange") [tx "[[StartIndex]]"; tx "[[EndIndex]]"] ++ fields (tx "MatchState") [tx "[[Input]]"; tx "[[EndIndex]]"; tx "[[Captures]]"] ++ fields (tx "Synchronize Event") [] ++ fields (tx "Host-Specific Event") []) = Ok s')).
    { intros s2 R2 F2. eapply ONE; [exact R2|exact F2|discriminate|reflexivity|]. intros s3 R3 F3. eapply ONE; [exact R3|exact F3|discriminate|reflexivity|]. intros s4 R4 F4. eapply ONE; [exact R4|exact F4|discriminate|reflexivity|].
      intros s5 R5 F5. eapply ONE; [exact R5|exact F5|discriminate|reflexivity|]. intros s6 R6 F6. eapply ONE; [exact R6|exact F6|discriminate|reflexivity|]. intros s7 R7 F7. eapply ONE; [exact R7|exact F7|discriminate|reflexivity|].
      intros s8 R8 F8. eapply LAST; [exact R8|exact F8|discriminate|reflexivity]. }
    assert (F1 : forall o, In o (pre ++ fields (tx "Property Descriptor") PD) -> simple o) by (intros o I; apply in_app_or in I as [I|I]; eauto).
    assert (ENV : (forall f d, ~ In (OField (tx "Environment Record") f d) (pre ++ fields (tx "Property Descriptor") PD)) <-> (forall f d, ~ In (OField (tx "Environment Record") f d) pre)).
    { split; intros H f d I; [apply (H f d), in_or_app; auto|]. apply in_app_or in I as [I|I]; [exact (H f d I)|]. destruct I as [I|I]; [discriminate I|]. apply in_map_iff in I as (g & I & _). apply (f_equal (fun o => match o with OField n _ _ => text_eqb n (tx "Property Descriptor") | _ => false end)) in I. vm_compute in I. discriminate I. }
    assert (K1 : forallb field_name_ok PD = true) by reflexivity. assert (K2 : forallb field_name_ok [tx "[[OuterEnv]]"] = true) by reflexivity.
    rewrite run_app. split.
    - intros E. apply bind_ok in E as (s1 & E1 & E). apply (more_iff pre s (tx "Property Descriptor") false PD s1 R F) in E1 as (_ & E1); [|discriminate|exact K1]. rewrite E1. cbn [bind].
      assert (R1 : reach (pre ++ fields (tx "Property Descriptor") PD) s1) by (apply run_reach with (s := s); eauto).
      apply bind_ok in E as (s2 & E2 & E). apply (more_iff _ s1 (tx "Environment Record") true [tx "[[OuterEnv]]"] s2 R1 F1) in E2 as (E3 & E2); [|discriminate|exact K2]. split; [now apply ENV, E3|]. rewrite run_app, E2. cbn [bind].
      apply REST; [apply run_reach with (s := s1); eauto|intros o I; apply in_app_or in I as [I|I]; eauto|exact E].
    - intros (H & E). apply bind_ok in E as (s1 & E1 & E). rewrite (proj2 (more_iff pre s (tx "Property Descriptor") false PD s1 R F ltac:(discriminate) K1)) by (split; [discriminate|assumption]). cbn [bind].
      assert (R1 : reach (pre ++ fields (tx "Property Descriptor") PD) s1) by (apply run_reach with (s := s); eauto). rewrite run_app in E. apply bind_ok in E as (s2 & E2 & E).
      rewrite (proj2 (more_iff _ s1 (tx "Environment Record") true [tx "[[OuterEnv]]"] s2 R1 F1 ltac:(discriminate) K2)) by (split; [intros _; now apply ENV|assumption]). cbn [bind].
      apply REST; [apply run_reach with (s := s1); eauto|intros o I; apply in_app_or in I as [I|I]; eauto|exact E].
  Qed.
  Lemma all_simple l oss : Forall2 declares l oss -> forall o, In o (concat oss) -> simple o.
  Proof. intros F. induction F as [|t os l oss D F IH]; [intros o []|]. cbn [concat]. intros o I. apply in_app_or in I as [I|I]; [now apply (declares_simple t os D)|auto]. Qed.
  Lemma own_simple o : In o own -> simple o.
  Proof.
    assert (FS : forall n fs o, In o (fields n fs) -> simple o) by (intros n fs o' [<-|I]; [exact Logic.I|]; apply in_map_iff in I as (f & <- & _); exact Logic.I).
    unfold own. intros I. repeat (apply in_app_or in I as [I|I]; [now apply FS in I|]). now apply FS in I.
  Qed.
  Lemma both_simple l oss : Forall2 declares l oss -> forall o, In o (concat oss ++ own) -> simple o.
  Proof. intros F o I. apply in_app_or in I as [I|I]; [now apply (all_simple l oss F)|now apply own_simple]. Qed.

  (* The schemas are what results from the declarations of the tables in their order, followed by the program's own. *)
  Theorem C103_extract : forall l s, extract_record_schemas parse_type parse_sig l = Ok s <->
    exists oss, Forall2 declares l oss /\ (forall f d, ~ In (OField (tx "Environment Record") f d) (concat oss)) /\ reach (concat oss ++ own) s.
  Proof.
    intros l s. unfold extract_record_schemas. split.
    - intros E. apply bind_ok in E as (s1 & E1 & E2). apply (tables_iff [] start l s1 reach_start ltac:(intros o [])) in E1 as (oss & F & E1). pose proof (all_simple l oss F) as So.
      assert (R1 : reach (concat oss) s1) by (exact (run_reach [] start (concat oss) s1 reach_start So E1)). apply (own_iff (concat oss) s1 s R1 So) in E2 as (E2 & E3). exists oss. split; [assumption|]. split; [assumption|]. apply run_reach with (s := s1); [assumption|apply own_simple|assumption].
    - intros (oss & F & E2 & R). apply reach_run in R. rewrite run_app in R. apply bind_ok in R as (s1 & E1 & E3). pose proof (all_simple l oss F) as So. assert (R1 : reach (concat oss) s1) by (exact (run_reach [] start (concat oss) s1 reach_start So E1)).
      rewrite (proj2 (tables_iff [] start l s1 reach_start ltac:(intros o []))) by eauto. cbn [bind]. now apply (own_iff (concat oss) s1 s R1 So).
  Qed.
  (* They are accepted exactly if every table is one of the kinds, no field or method is declared for a schema after it or one above it has it,
     and no table declares fields of Environment Records. *)
  Theorem C103_accepted : forall l, (exists s, extract_record_schemas parse_type parse_sig l = Ok s) <->
    exists oss, Forall2 declares l oss /\ (forall f d, ~ In (OField (tx "Environment Record") f d) (concat oss)) /\ forall a o b, concat oss ++ own = a ++ o :: b -> fits a o.
  Proof.
    intros l. split.
    - intros (s & E). apply C103_extract in E as (oss & F & E & R). exists oss. split; [assumption|]. split; [assumption|]. apply (reach_fits _ (both_simple l oss F)). eauto.
    - intros (oss & F & E & H). apply (reach_fits _ (both_simple l oss F)) in H as (s & R). exists s. apply C103_extract. eauto.
  Qed.
  (* Every schema then has the fields and methods that were declared for it, and no others; a schema is there exactly if it is declared or above one that is. *)
  Theorem C103_content : forall l s, extract_record_schemas parse_type parse_sig l = Ok s -> exists oss, Forall2 declares l oss /\
    (forall n f d, declares_field s n f d <-> In (OField n f d) (concat oss ++ own)) /\
    (forall n f, declares_method s n f <-> exists d, In (OMethod n f d) (concat oss ++ own)) /\
    (forall n, registered s n <-> n <> tx "Empty Record" /\ exists k, In (OEnsure k) (concat oss ++ own) /\ above [] k n).
  Proof.
    intros l s E. apply C103_extract in E as (oss & F & _ & R). pose proof (both_simple l oss F) as So. exists oss. split; [assumption|]. destruct (decls_in _ s So R) as (A & B). split; [assumption|]. split; [assumption|]. intros n. now apply there.
  Qed.
End Extract.
Print Assumptions C103_extract.
Print Assumptions C103_accepted.
Print Assumptions C103_content.

(* ------------------------------------------------------------------ *)
(* tables for the examples *)
Definition td (x : string) : hnode := El (tx "td") [] (tx x) [].
Definition a_row (l : list string) : row := mkRow (map td l) (map (fun x => tx x) l) None.
Definition ex_type (n : hnode) : option nat := if text_eqb (h_inner n) (tx "a String") then Some 7 else if text_eqb (h_inner n) (tx "a Boolean") then Some 8 else None.
Definition ex_sig (n : hnode) : option (list text) := if is_prefix (tx "Link") (h_inner n) then Some [[]; tx "Link"; []; []] else None.
Definition ex_fields (c : string) (rows : list (list string)) : table := mkT (tx c) (Some [tx "Field Name"; tx "Value"; tx "Meaning"]) (map a_row rows).
Definition ex_tables : list table :=
  [ ex_fields "Module Record Fields" [["[[Realm]]"; "a String"; "x"]; ["[[Odd]]"; "???"; "x"]]%string
  ; mkT (tx "Abstract Methods of Module Records") (Some [tx "Method"; tx "Purpose"]) [a_row ["Link()"; "x"]%string]
  ; mkT (tx "Well-known Symbols") (Some [tx "Name"]) []
  ; mkT (tx "PrivateElement Fields") (Some [tx "Field Name"; tx "Values of the [[Kind]] field for which it is present"; tx "Value"; tx "Meaning"]) [a_row ["[[Key]]"; "All"; "a Boolean"; "x"]%string]
  ; ex_fields "Additional Fields of Source Text Module Records" [["[[Async]]"; "a Boolean"; "x"]]%string ].
Definition of_name (s : st) (n : string) : option (list (text * nat) * list (text * nat)) :=
  match tget (registry s) (tx n) with Some i => match nth_error (schemas s) i with Some x => Some (s_fields x, s_methods x) | None => None end | None => None end.
Example ex_C103_extract : exists s, extract_record_schemas ex_type ex_sig ex_tables = Ok s /\
  of_name s "Module Record" = Some ([(tx "[[Realm]]", 8)], [(tx "Link", 0)]) /\ of_name s "PrivateElement" = Some ([(tx "[[Key]]", 9)], []) /\
  of_name s "Source Text Module Record" = Some ([(tx "[[Async]]", 9)], []) /\ of_name s "Cyclic Module Record" = Some ([], []) /\ of_name s "Environment Record" = Some ([(tx "[[OuterEnv]]", 0)], []).
Proof. eexists. split; [vm_compute; reflexivity|]. vm_compute. auto 8. Qed.
Example ex_C103_again : extract_record_schemas ex_type ex_sig (ex_tables ++ [ex_fields "Additional Fields of Cyclic Module Records" [["[[Realm]]"; "a Boolean"; "x"]]%string]) = Err AssertionError.
Proof. vm_compute. reflexivity. Qed.
(* A field declared below the schema that has it, but earlier, is not noticed; so it is with [[OuterEnv]], which the program itself adds last. *)
Theorem C103_outer_env_refuted : exists l s, extract_record_schemas ex_type ex_sig l = Ok s /\
  declares_field s (tx "Function Environment Record") (tx "[[OuterEnv]]") 8 /\ declares_field s (tx "Environment Record") (tx "[[OuterEnv]]") 0 /\ above [] (tx "Function Environment Record") (tx "Environment Record").
Proof.
  exists [ex_fields "Additional Fields of Function Environment Records" [["[[OuterEnv]]"; "a String"; "x"]]%string]. eexists. split; [vm_compute; reflexivity|]. split; [|split].
  - exists 3. split; [discriminate|]. split; [vm_compute; reflexivity|]. eexists. split; [vm_compute; reflexivity|vm_compute; reflexivity].
  - exists 1. split; [discriminate|]. split; [vm_compute; reflexivity|]. eexists. split; [vm_compute; reflexivity|vm_compute; reflexivity].
  - assert (L : forall n m, tget sub_to_super n = Some m -> n <> tx "Empty Record" -> forall k, above [] m k -> above [] n k).
    { intros n m T NR k A. apply above_more with (m := m); [assumption| |assumption]. right. split; [intros []|]. left. now apply listed_iff. }
    apply (L _ (tx "Declarative Environment Record")); [vm_compute; reflexivity|discriminate|]. apply (L _ (tx "Environment Record")); [vm_compute; reflexivity|discriminate|]. constructor.
Qed.
Print Assumptions C103_outer_env_refuted.
(* A field of the root ends the run, with another error than the assertion. *)
Theorem C103_root_refuted : exists l, extract_record_schemas ex_type ex_sig l = Err AttributeError /\ (exists t, l = [t] /\ fields_of_schema (t_caption t) (tx "Empty Record") /\ t_header t <> None).
Proof.
  exists [ex_fields "Empty Record Fields" [["[[Xx]]"; "a String"; "x"]]%string].
  split; [|eexists; split; [reflexivity|]; split; [|discriminate]].
  - vm_compute. reflexivity.
  - split; [split; [discriminate|]|split; [|left; reflexivity]]; [intros I; vm_compute in I; repeat (destruct I as [I|I]; [discriminate I|]); destruct I|left; exists (tx "Empty"); reflexivity].
Qed.
Print Assumptions C103_root_refuted.

(* ------------------------------------------------------------------ *)
(* the check of tables *)
Section Check.
  Variable uw : N -> bool.
  Definition word_char (c : N) : Prop := (48 <= c <= 57 \/ 65 <= c <= 90 \/ 97 <= c <= 122 \/ c = 95)%N \/ ((128 <= c)%N /\ uw c = true).
  (* the cells of a column *)
  Definition cells_in (i : nat) (h : list text) (rows : list row) (cs : list hnode) : Prop :=
    Forall2 (fun r c => nth_error (r_cells r) i = Some c /\ i < length (r_texts r)) rows cs /\ (rows <> [] -> i < length h).
  Definition slots_of (c : text) : Prop := exists m z, plain m /\ (z = [] \/ z = [10%N]) /\ c = tx "Internal Slots of " ++ m ++ z.
  Definition interface (c : text) : Prop := exists m e, m <> [] /\ (forall x, In x m -> word_char x \/ x = 32%N) /\ In e [[]; tx " Required"; tx " Optional"] /\ c = m ++ tx " Interface" ++ e ++ tx " Properties".
  Inductive kind := KRecord | KSlots | KInternal | KProxy | KMethods | KProperties | KAttributes | KOther.
  (* the first that applies *)
  Definition kind_of (c : text) (k : kind) : Prop :=
    let r := has (tx "Field") c \/ (has (tx "Method") c /\ has (tx "Record") c) in
    match k with
    | KRecord => r
    | KSlots => ~ r /\ has (tx "Slot") c
    | KInternal => ~ r /\ ~ has (tx "Slot") c /\ has (tx "Internal Methods") c
    | KProxy => c = tx "Proxy Handler Methods"
    | KMethods => ~ r /\ ~ has (tx "Slot") c /\ has (tx "Method") c /\ ~ has (tx "Internal Methods") c /\ c <> tx "Proxy Handler Methods"
    | KProperties => ~ r /\ ~ has (tx "Slot") c /\ ~ has (tx "Method") c /\ has (tx "Properties") c
    | KAttributes => c = tx "Attributes of an Object property"
    | KOther => ~ r /\ ~ has (tx "Slot") c /\ ~ has (tx "Method") c /\ ~ has (tx "Properties") c /\ c <> tx "Attributes of an Object property"
    end.
  Inductive checked (t : table) : list hnode -> Prop :=
  | ch_record h : kind_of (t_caption t) KRecord -> t_header t = Some h -> checked t []
  | ch_slots h cs : kind_of (t_caption t) KSlots -> slots_of (t_caption t) -> t_header t = Some h -> joined_by (tx "; ") h = tx "Internal Slot; Type; Description" -> cells_in 1 h (t_rows t) cs -> checked t cs
  | ch_internal h : kind_of (t_caption t) KInternal -> In (t_caption t) [tx "Essential Internal Methods"; tx "Additional Essential Internal Methods of Function Objects"] -> t_header t = Some h ->
      joined_by (tx "; ") h = tx "Internal Method; Signature; Description" -> checked t []
  | ch_proxy h : kind_of (t_caption t) KProxy -> t_header t = Some h -> joined_by (tx "; ") h = tx "Internal Method; Handler Method" -> checked t []
  | ch_properties h cs : kind_of (t_caption t) KProperties -> interface (t_caption t) -> t_header t = Some h -> joined_by (tx "; ") h = tx "Property; Value; Requirements" -> cells_in 1 h (t_rows t) cs -> checked t cs
  | ch_attributes h cs : kind_of (t_caption t) KAttributes -> t_header t = Some h -> joined_by (tx "; ") h = tx "Attribute Name; Types of property for which it is present; Value Domain; Default Value; Description" ->
      cells_in 2 h (t_rows t) cs -> checked t cs
  | ch_other h : kind_of (t_caption t) KOther -> t_header t = Some h -> checked t [].

  Lemma column_iff i h rows cs : column i h rows = Ok cs <-> cells_in i h rows cs.
  Proof.
    unfold cells_in. revert cs. induction rows as [|r rows IH]; intros cs; cbn [column].
    - split; [intros E; apply ok_inj in E; subst cs; split; [constructor|congruence]|]. intros (F & _). inversion F. reflexivity.
    - split.
      + destruct (nth_error h i) eqn:E1; [|discriminate]. destruct (nth_error (r_texts r) i) eqn:E2; [|discriminate]. destruct (nth_error (r_cells r) i) as [c|] eqn:E3; [|discriminate]. intros E. apply bind_ok in E as (cs' & E & E'). apply ok_inj in E'. subst cs.
        apply IH in E as (F & _). split; [constructor; [split; [assumption|apply nth_error_Some; congruence]|assumption]|]. intros _. apply nth_error_Some. congruence.
      + intros (F & L). inversion F as [|r0 c rs cs' (A & B) F']; subst. specialize (L ltac:(discriminate)). apply nth_error_Some in B. destruct (nth_error (r_texts r) i); [|congruence]. rewrite A.
        destruct (nth_error h i) as [hx|] eqn:E; [|apply nth_error_None in E; lia]. rewrite (proj2 (IH cs')); [reflexivity|]. split; [assumption|]. intros _. assumption.
  Qed.
  Lemma slots_iff c : slots_caption c = true <-> slots_of c.
  Proof.
    unfold slots_caption, slots_of. destruct (eat (tx "Internal Slots of ") c) as [m|] eqn:E.
    - apply eat_inv in E. rewrite Bool.orb_true_iff, dots_iff. split.
      + intros [P|P]; [exists m, []; rewrite app_nil_r; auto|]. destruct (rev m) as [|d m'] eqn:R; [discriminate|]. apply Bool.andb_true_iff in P as (P1 & P2). apply N.eqb_eq in P1. apply dots_iff in P2. exists (rev m'), [10%N]. split; [assumption|]. split; [auto|].
        rewrite E. f_equal. apply (f_equal (@rev N)) in R. rewrite rev_involutive in R. rewrite R. cbn [rev]. now rewrite P1.
      + intros (m0 & z & P & Z & X). rewrite E in X. apply app_inv_head in X. subst m. destruct Z as [-> | ->]; [rewrite app_nil_r; auto|]. right. rewrite rev_app_distr. cbn [rev app]. rewrite rev_involutive. apply Bool.andb_true_iff. split; [reflexivity|now apply dots_iff].
    - split; [discriminate|]. intros (m & z & _ & _ & X). rewrite X, eat_ok in E. discriminate.
  Qed.
  Lemma words_spaces_iff m : words_spaces uw m = true <-> m <> [] /\ forall x, In x m -> word_char x \/ x = 32%N.
  Proof.
    assert (W : forall x, word_or_space uw x = true <-> word_char x \/ x = 32%N).
    { intros x. unfold word_or_space, wordc, word_char, M_Defs.digit, M_Defs.upper, M_Defs.lowerc. rewrite !Bool.orb_true_iff, !Bool.andb_true_iff, !N.leb_le, !N.eqb_eq. tauto. }
    destruct m as [|c m]; [split; [discriminate|intros ([] & _); reflexivity]|]. cbn [words_spaces]. rewrite forallb_forall. split.
    - intros H. split; [discriminate|]. intros x I. now apply W, H.
    - intros (_ & H) x I. now apply W, H.
  Qed.
  Lemma interface_iff c : interface_caption uw c = true <-> interface c.
  Proof.
    unfold interface_caption, interface. rewrite existsb_exists.
    assert (B : forall e, (match between [] e c with Some m => words_spaces uw m | None => false end) = true <-> exists m, m <> [] /\ (forall x, In x m -> word_char x \/ x = 32%N) /\ c = m ++ e).
    { intros e. destruct (between [] e c) as [m|] eqn:E.
      - apply between_iff in E. cbn [app] in E. rewrite words_spaces_iff. split; [intros (A & B); exists m; auto|]. intros (m' & A & B & X). rewrite E in X. apply app_inv_tail in X. subst m'. auto.
      - split; [discriminate|]. intros (m & _ & _ & X). assert (Y := proj2 (between_iff [] e c m) X). congruence. }
    split.
    - intros (e & I & X). apply B in X as (m & A1 & A2 & X). exists m. destruct I as [<-|[<-|[<-|[]]]]; [exists []|exists (tx " Required")|exists (tx " Optional")]; (split; [assumption|]); (split; [assumption|]); (split; [cbn [In]; auto|exact X]).
    - intros (m & e & A1 & A2 & I & X). destruct I as [<-|[<-|[<-|[]]]]; [exists (tx " Interface Properties")|exists (tx " Interface Required Properties")|exists (tx " Interface Optional Properties")]; (split; [cbn [In]; auto|]); apply B; exists m; auto.
  Qed.
  Local Ltac alien P A K :=
    exfalso; first [destruct (P K) as (? & ? & ? & ?) | destruct (A K) as (? & ? & ? & ?)]; repeat match goal with X : has _ _ |- _ => apply has_iff in X end; congruence.
  (* A table passes exactly if its header, its caption and the cells to be parsed are what its kind requires; the cells that are parsed are those of the column of values. *)
  Theorem C103_check : forall t cs, check_table uw t = Ok cs <-> checked t cs.
  Proof.
    intros t cs. unfold check_table, header_line. destruct (t_header t) as [h|] eqn:H; cbn [bind].
    2: { split; [discriminate|]. intros K. inversion K; congruence. }
    assert (HJ : forall h', t_header t = Some h' -> h' = h) by (intros; congruence). cbv zeta. set (c := t_caption t).
    assert (NR : forall a b, text_in a c || (text_in b c && text_in (tx "Record") c) = true <-> has a c \/ (has b c /\ has (tx "Record") c)) by (intros a b; rewrite Bool.orb_true_iff, Bool.andb_true_iff, !has_iff; tauto).
    assert (AS : forall b (r : res (list hnode)), (do _ <- assert_ b ;; r) = Ok cs <-> b = true /\ r = Ok cs) by (intros [|] r; cbn [assert_ bind]; [tauto|split; [discriminate|intros (X & _); discriminate X]]).
    assert (NIL : Ok [] = Ok cs <-> cs = @nil hnode) by (split; [intros X; apply ok_inj in X; now symmetry|now intros ->]).
    assert (PROXY : c = tx "Proxy Handler Methods" -> text_in (tx "Field") c || (text_in (tx "Method") c && text_in (tx "Record") c) = false /\ text_in (tx "Slot") c = false /\ text_in (tx "Method") c = true /\ text_in (tx "Internal Methods") c = false).
    { intros ->. vm_compute. auto. }
    assert (ATTR : c = tx "Attributes of an Object property" -> text_in (tx "Field") c || (text_in (tx "Method") c && text_in (tx "Record") c) = false /\ text_in (tx "Slot") c = false /\ text_in (tx "Method") c = false /\ text_in (tx "Properties") c = false).
    { intros ->. vm_compute. auto. }
    assert (IM : has (tx "Internal Methods") c -> has (tx "Method") c). { intros (a & b & E). exists (a ++ tx "Internal "), (tx "s" ++ b). rewrite E, <- !app_assoc. reflexivity. }
    destruct (text_in (tx "Field") c || (text_in (tx "Method") c && text_in (tx "Record") c)) eqn:B1.
    { assert (R := proj1 (NR _ _) B1). rewrite NIL. split; [intros ->; now apply ch_record with (h := h)|]. intros K. inversion K as [h' K1 K2|h' cs' K1|h' K1|h' K1|h' cs' K1|h' cs' K1|h' K1]; fold c in K1; cbn [kind_of] in K1; try (symmetry; assumption); try solve [alien PROXY ATTR K1]; try reflexivity; try tauto.  }
    assert (R : ~ (has (tx "Field") c \/ (has (tx "Method") c /\ has (tx "Record") c))) by (intros X; apply NR in X; congruence).
    destruct (text_in (tx "Slot") c) eqn:B2.
    { apply has_iff in B2. destruct (slots_caption c) eqn:S1.
      - apply slots_iff in S1. destruct (text_eqb (join_semi h) (tx "Internal Slot; Type; Description")) eqn:J.
        + apply text_eqb_eq in J. rewrite join_iff in J. rewrite column_iff. split; [intros X; apply ch_slots with (h := h); auto; now split|]. intros K.
          inversion K as [h' K1 K2|h' cs' K1 K2 K3 K4 K5|h' K1|h' K1|h' cs' K1|h' cs' K1|h' K1]; fold c in K1; cbn [kind_of] in K1; try (symmetry; assumption); try solve [alien PROXY ATTR K1]; try tauto.
          * apply HJ in K3. subst h'. assumption.  
        + split; [discriminate|]. intros K. exfalso. inversion K as [h' K1 K2|h' cs' K1 K2 K3 K4 K5|h' K1|h' K1|h' cs' K1|h' cs' K1|h' K1]; fold c in K1; cbn [kind_of] in K1; try (symmetry; assumption); try solve [alien PROXY ATTR K1]; try tauto.
          * apply HJ in K3. subst h'. rewrite <- join_iff in K4. apply text_eqb_eq in K4. congruence.  
      - split; [discriminate|]. intros K. exfalso. inversion K as [h' K1 K2|h' cs' K1 K2 K3 K4 K5|h' K1|h' K1|h' cs' K1|h' cs' K1|h' K1]; fold c in K1; cbn [kind_of] in K1; try (symmetry; assumption); try solve [alien PROXY ATTR K1]; try tauto.
          * apply slots_iff in K2. fold c in K2. congruence.   }
    apply not_in_true in B2. destruct (text_in (tx "Method") c) eqn:B3.
    { apply has_iff in B3. destruct (text_in (tx "Internal Methods") c) eqn:B4.
      - apply has_iff in B4. rewrite !AS, one_of_iff, text_eqb_eq, join_iff, NIL. split.
        + intros (X1 & X2 & ->). apply ch_internal with (h := h); auto. now split.
        + intros K. inversion K as [h' K1 K2|h' cs' K1|h' K1 K2 K3 K4|h' K1|h' cs' K1|h' cs' K1|h' K1]; fold c in K1; cbn [kind_of] in K1; try (symmetry; assumption); try solve [alien PROXY ATTR K1]; try tauto.
          * apply HJ in K3. subst h'. auto.  
      - apply not_in_true in B4. destruct (text_eqb c (tx "Proxy Handler Methods")) eqn:B5.
        + apply text_eqb_eq in B5. rewrite AS, text_eqb_eq, join_iff, NIL. split.
          * intros (X1 & ->). apply ch_proxy with (h := h); auto.
          * intros K. inversion K as [h' K1 K2|h' cs' K1|h' K1 K2 K3 K4|h' K1 K2 K3|h' cs' K1|h' cs' K1|h' K1]; fold c in K1; cbn [kind_of] in K1; try (symmetry; assumption); try solve [alien PROXY ATTR K1]; try tauto.
            -- apply HJ in K2. subst h'. auto. 
        + split; [discriminate|]. intros K. exfalso. assert (B5' : c <> tx "Proxy Handler Methods") by (intros X; apply text_eqb_eq in X; congruence).
          inversion K as [h' K1 K2|h' cs' K1|h' K1 K2 K3 K4|h' K1 K2 K3|h' cs' K1|h' cs' K1|h' K1]; fold c in K1; cbn [kind_of] in K1; try (symmetry; assumption); try solve [alien PROXY ATTR K1]; try tauto. }
    apply not_in_true in B3. assert (NP : c <> tx "Proxy Handler Methods") by (intros X; destruct (PROXY X) as (_ & _ & Y & _); discriminate Y).
    destruct (text_in (tx "Properties") c) eqn:B4.
    { apply has_iff in B4. rewrite !AS, interface_iff, text_eqb_eq, join_iff, column_iff. split.
      - intros (X1 & X2 & X3). apply ch_properties with (h := h); auto. cbn [kind_of]. auto.
      - intros K. inversion K as [h' K1 K2|h' cs' K1|h' K1 K2 K3 K4|h' K1 K2 K3|h' cs' K1 K2 K3 K4 K5|h' cs' K1|h' K1]; fold c in K1; cbn [kind_of] in K1; try (symmetry; assumption); try solve [alien PROXY ATTR K1]; try tauto.
        + apply HJ in K3. subst h'. auto.  }
    apply not_in_true in B4. destruct (text_eqb c (tx "Attributes of an Object property")) eqn:B5.
    - apply text_eqb_eq in B5. rewrite AS, text_eqb_eq, join_iff, column_iff. split.
      + intros (X1 & X2). apply ch_attributes with (h := h); auto.
      + intros K. inversion K as [h' K1 K2|h' cs' K1|h' K1 K2 K3 K4|h' K1 K2 K3|h' cs' K1 K2 K3 K4 K5|h' cs' K1 K2 K3 K4|h' K1]; fold c in K1; cbn [kind_of] in K1; try (symmetry; assumption); try solve [alien PROXY ATTR K1]; try tauto. apply HJ in K2. subst h'. auto.
    - assert (B5' : c <> tx "Attributes of an Object property") by (intros X; apply text_eqb_eq in X; congruence). rewrite NIL. split.
      + intros ->. apply ch_other with (h := h); auto. cbn [kind_of]. auto.
      + intros K. inversion K as [h' K1 K2|h' cs' K1|h' K1 K2 K3 K4|h' K1 K2 K3|h' cs' K1 K2 K3 K4 K5|h' cs' K1 K2 K3 K4|h' K1]; fold c in K1; cbn [kind_of] in K1; try (symmetry; assumption); try solve [alien PROXY ATTR K1]; try tauto; try reflexivity.
  Qed.
  (* A table that declares something about Records passes the check, and none of its cells is parsed there. *)
  Theorem C103_same_tables : forall pt ps t os, declares pt ps t os -> os <> [] -> check_table uw t = Ok [].
  Proof.
    intros pt ps t os D NE. apply C103_check. inversion D as [n h oss A B C E F|n h oss A B C E F G|h A B C]; subst; [apply ch_record with (h := h); [now left|assumption]|apply ch_record with (h := h); [right; auto|assumption]|congruence].
  Qed.
End Check.
Print Assumptions C103_check.
Print Assumptions C103_same_tables.
Definition no_uni : N -> bool := fun _ => false.
Example ex_C103_check : check_table no_uni (mkT (tx "Internal Slots of Things") (Some [tx "Internal Slot"; tx "Type"; tx "Description"]) [a_row ["[[A]]"; "a String"; "x"]; a_row ["[[B]]"; "a Boolean"; "y"]]%string) = Ok [td "a String"; td "a Boolean"] /\
  check_table no_uni (mkT (tx "_Iterator_ Interface Required Properties") (Some [tx "Property"; tx "Value"; tx "Requirements"]) [a_row ["next"; "a function"; "z"]]%string) = Ok [td "a function"] /\
  check_table no_uni (mkT (tx "Odd Methods") (Some [tx "Property"]) []) = Err AssertionError /\ check_table no_uni (mkT (tx "Well-known Symbols") None []) = Err AttributeError.
Proof. vm_compute. auto. Qed.
Example ex_C103_checked : exists t cs, checked no_uni t cs /\ t_rows t <> [] /\ cs <> [].
Proof.
  exists (mkT (tx "Internal Slots of Things") (Some [tx "Internal Slot"; tx "Type"; tx "Description"]) [a_row ["[[A]]"; "a String"; "x"]]%string), [td "a String"]. split; [|split; discriminate]. apply C103_check. vm_compute. reflexivity.
Qed.
