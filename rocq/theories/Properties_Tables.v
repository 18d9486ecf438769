(* C95: the analysis of tables. *)
From Coq Require Import Ascii String ZArith Sorted Lia List.
From Verif Require Import M_Base L_Base M_HTML M_Shared M_Records L_Records M_Indent M_Refs L_Refs L_Entities L_ValTree M_Style L_StyleIfs L_StyleDesc M_PropPath L_PropPath Properties_PropPath M_Tables.
Open Scope list_scope.
Open Scope nat_scope.
Notation length := List.length.

(* ---------- quasi_ecmarkdown ---------- *)
Definition contains (p t : text) : Prop := exists a b, t = a ++ p ++ b.
(* a text as it is written in the code of a cell *)
Definition write_char (c : N) : text :=
  if (c =? 92)%N then tx "\\" else if (c =? 60)%N then tx "&lt;" else if (c =? 62)%N then tx "&gt;" else [c].
Definition write_code (v : text) : text := tx "`" ++ flat_map write_char v ++ tx "`".

Lemma unquote_code m : ~ In 96%N m -> unquote (tx "`" ++ m ++ tx "`") = m.
Proof.
  intros H. change (tx "`" ++ m ++ tx "`") with (96%N :: m ++ [96%N]). cbn [unquote]. rewrite rev_app_distr. cbn [rev app]. rewrite !N.eqb_refl. cbn [andb].
  replace (forallb _ (rev m)) with true; [apply rev_involutive|]. symmetry. apply forallb_forall. intros c I. apply in_rev in I. apply Bool.negb_true_iff, N.eqb_neq. intros ->. contradiction.
Qed.
Lemma unquote_other t : ~ (exists m, ~ In 96%N m /\ t = tx "`" ++ m ++ tx "`") -> unquote t = t.
Proof.
  intros H. destruct t as [|c t]; [reflexivity|]. cbn [unquote]. destruct (rev t) as [|d m] eqn:R; [reflexivity|]. destruct ((c =? 96)%N && (d =? 96)%N && forallb (fun x => negb (x =? 96)%N) m) eqn:E; [|reflexivity].
  rewrite !Bool.andb_true_iff, !N.eqb_eq, forallb_forall in E. destruct E as ((-> & ->) & F). exfalso. apply H. exists (rev m). split.
  - intros I. apply in_rev in I. specialize (F _ I). discriminate.
  - rewrite <- (rev_involutive t), R. cbn [rev]. reflexivity.
Qed.
(* the texts in which < and > are written as entities *)
Definition ent_lt (c : N) : text := if (c =? 60)%N then tx "&lt;" else [c].
Definition ent (c : N) : text := if (c =? 60)%N then tx "&lt;" else if (c =? 62)%N then tx "&gt;" else [c].
Lemma unescape_plain x u : ~ In 92%N x -> unescape (x ++ u) = x ++ unescape u.
Proof. induction x as [|c x IH]; intros H; [reflexivity|]. cbn [app unescape]. replace (c =? 92)%N with false; [f_equal; apply IH; intros I; apply H; now right|]. symmetry. apply N.eqb_neq. intros ->. apply H. now left. Qed.
Lemma unescape_code v : unescape (flat_map write_char v) = flat_map ent v.
Proof.
  induction v as [|c v IH]; [reflexivity|]. cbn [flat_map]. unfold write_char at 1, ent at 1. destruct (N.eqb_spec c 92) as [->|D].
  - cbn. now rewrite IH.
  - destruct (N.eqb_spec c 60) as [->|D1]; [rewrite unescape_plain by (vm_compute; intuition discriminate); now rewrite IH|]. destruct (N.eqb_spec c 62) as [->|D2]; [rewrite unescape_plain by (vm_compute; intuition discriminate); now rewrite IH|].
    rewrite unescape_plain by (cbn; intuition). now rewrite IH.
Qed.
Lemma ent_prefix (f : N -> text) q : (forall c, f c = [c] \/ exists x, f c = 38%N :: x) -> ~ In 38%N q -> forall v, is_prefix q (flat_map f v) = true -> is_prefix q v = true.
Proof.
  intros F. induction q as [|a q IH]; intros NA v H; [reflexivity|]. destruct v as [|c v]; [discriminate|]. cbn [flat_map] in H. destruct (F c) as [E|(x & E)]; rewrite E in H; cbn [app is_prefix] in *; apply Bool.andb_true_iff in H as (A & B).
  - rewrite A. cbn [andb]. apply IH; [intros I; apply NA; now right|exact B].
  - apply N.eqb_eq in A. subst a. exfalso. apply NA. now left.
Qed.
Lemma contains_cons p c t : contains p t -> contains p (c :: t).
Proof. intros (a & b & ->). now exists (c :: a), b. Qed.
Lemma contains_here p t : is_prefix p t = true -> contains p t.
Proof. intros H. apply begins_iff in H as (u & ->). now exists [], u. Qed.
Lemma replace_ent s x (f : N -> text) d : ~ In 38%N s -> (forall c, c <> d -> f c = [c] \/ exists y, f c = 38%N :: y /\ (forall u, is_prefix (38%N :: s) (38%N :: y ++ u) = false) /\ forall u, str_replace (38%N :: s) [x] (y ++ u) = y ++ str_replace (38%N :: s) [x] u) ->
  f d = 38%N :: s -> forall v, ~ contains (38%N :: s) v -> str_replace (38%N :: s) [x] (flat_map f v) = flat_map (fun c => if (c =? d)%N then [x] else f c) v.
Proof.
  intros NS F Fd. assert (F' : forall c, f c = [c] \/ exists y, f c = 38%N :: y). { intros c. destruct (N.eq_dec c d) as [->|D]; [right; now exists s|]. destruct (F c D) as [E|(y & E & _)]; [now left|right; now exists y]. }
  induction v as [|c v IH]; intros NC; [reflexivity|]. cbn [flat_map]. assert (NC' : ~ contains (38%N :: s) v) by (intros X; apply NC; now apply contains_cons).
  destruct (N.eqb_spec c d) as [->|D].
  - rewrite Fd, replace_match by discriminate. f_equal. now apply IH.
  - destruct (F c D) as [E|(y & E & NP & RY)]; rewrite E; cbn [app].
    + rewrite replace_nomatch; [f_equal; now apply IH|]. apply Bool.not_true_iff_false. intros P. apply NC, contains_here. cbn [is_prefix] in *. apply Bool.andb_true_iff in P as (A & B). rewrite A. cbn [andb]. eapply ent_prefix; eauto.
    + rewrite replace_nomatch by apply NP. f_equal. rewrite RY. f_equal. now apply IH.
Qed.
(* what is written as code is read back *)
Theorem C95_code v : ~ In 96%N v -> ~ contains (tx "&lt;") v -> ~ contains (tx "&gt;") v -> quasi_ecmarkdown (write_code v) = v.
Proof.
  intros NB NL NG. unfold quasi_ecmarkdown, write_code. rewrite unquote_code.
  - rewrite unescape_code. change (tx "&lt;") with (38%N :: tx "lt;"). change (tx "&gt;") with (38%N :: tx "gt;"). change (tx "<") with [60%N]. change (tx ">") with [62%N].
    rewrite (replace_ent (tx "lt;") 60%N ent 60%N); [| vm_compute; intuition discriminate | | reflexivity | exact NL].
    + rewrite (replace_ent (tx "gt;") 62%N (fun c => if (c =? 60)%N then [60%N] else ent c) 62%N); [| vm_compute; intuition discriminate | | reflexivity | exact NG].
      * clear. induction v as [|c v IH]; [reflexivity|]. cbn [flat_map]. rewrite IH. unfold ent. destruct (N.eqb_spec c 62) as [->|D]; [reflexivity|]. destruct (N.eqb_spec c 60) as [->|D1]; reflexivity.
      * intros c D. left. unfold ent. destruct (N.eqb_spec c 60) as [->|D1]; [reflexivity|]. replace (c =? 62)%N with false; [reflexivity|]. symmetry. now apply N.eqb_neq.
    + intros c D. unfold ent. replace (c =? 60)%N with false by (symmetry; now apply N.eqb_neq). destruct (c =? 62)%N; [|now left]. right. exists (tx "gt;"). split; [reflexivity|]. split; intros u; reflexivity.
  - intros I. apply in_flat_map in I as (c & I & J). unfold write_char in J. destruct (c =? 92)%N; [vm_compute in J; intuition discriminate|]. destruct (c =? 60)%N; [vm_compute in J; intuition discriminate|]. destruct (c =? 62)%N; [vm_compute in J; intuition discriminate|]. destruct J as [->|[]]. contradiction.
Qed.
Print Assumptions C95_code.
Example C95_code_ex : write_code (tx "\b<a>&*") = tx "`\\b&lt;a&gt;&*`" /\ quasi_ecmarkdown (tx "`\\b&lt;a&gt;&*`") = tx "\b<a>&*".
Proof. split; vm_compute; reflexivity. Qed.
Lemma replace_absent p r : p <> [] -> forall t, ~ contains p t -> str_replace p r t = t.
Proof.
  intros NE. induction t as [|c t IH]; intros H; [reflexivity|]. rewrite replace_nomatch; [f_equal; apply IH; intros X; apply H; now apply contains_cons|]. apply Bool.not_true_iff_false. intros P. apply H. now apply contains_here.
Qed.
(* a text without anything special stays as it is *)
Theorem C95_plain t : ~ In 92%N t -> ~ contains (tx "&lt;") t -> ~ contains (tx "&gt;") t -> ~ (exists m, ~ In 96%N m /\ t = tx "`" ++ m ++ tx "`") -> quasi_ecmarkdown t = t.
Proof.
  intros NB NL NG NQ. unfold quasi_ecmarkdown. rewrite unquote_other by exact NQ. rewrite <- (app_nil_r t) at 1. rewrite unescape_plain by exact NB. cbn [unescape]. rewrite app_nil_r. rewrite (replace_absent (tx "&lt;")); [|discriminate|exact NL]. now apply replace_absent.
Qed.
Print Assumptions C95_plain.
Example C95_plain_ex : quasi_ecmarkdown (tx "`a` or `b` & *c* &amp;") = tx "`a` or `b` & *c* &amp;".
Proof. vm_compute. reflexivity. Qed.
(* what comes out contains no entity for < or >: a backslash before it does not help *)
Lemma prefix_of_replaced p x q : ~ In x q -> forall t, is_prefix q (str_replace p [x] t) = true -> p <> [] -> is_prefix q t = true.
Proof.
  intros NX t. revert q NX. assert (G : forall n t q, length t <= n -> ~ In x q -> is_prefix q (str_replace p [x] t) = true -> p <> [] -> is_prefix q t = true).
  { induction n as [|n IH]; intros [|c t'] q L NX H NE; cbn [length] in L; try lia; [exact H|exact H|].
    destruct q as [|a q]; [reflexivity|]. destruct (is_prefix p (c :: t')) eqn:P.
    - apply begins_iff in P as (v & E). rewrite E, replace_match in H by exact NE. cbn [app is_prefix] in H. apply Bool.andb_true_iff in H as (A & _). apply N.eqb_eq in A. subst a. exfalso. apply NX. now left.
    - rewrite (replace_nomatch _ _ _ _ P) in H. cbn [is_prefix] in *. apply Bool.andb_true_iff in H as (A & B). rewrite A. cbn [andb]. apply (IH t' q); [lia|intros I; apply NX; now right|exact B|exact NE]. }
  intros q NX H NE. exact (G (length t) t q (le_n _) NX H NE).
Qed.
Lemma replaced_keeps p x q : p <> [] -> ~ In x q -> q <> [] -> forall t, contains q (str_replace p [x] t) -> contains q t.
Proof.
  intros NE NX NQ t. assert (G : forall n t, length t <= n -> contains q (str_replace p [x] t) -> contains q t).
  { induction n as [|n IH]; intros [|c t'] L H; cbn [length] in L; try lia; [exact H|exact H|]. destruct (is_prefix p (c :: t')) eqn:P.
    - apply begins_iff in P as (v & E). rewrite E, replace_match in H by exact NE. destruct H as (a & b & H). destruct a as [|d a]; cbn [app] in H.
      + exfalso. destruct q as [|y q]; [congruence|]. cbn [app] in H. apply NX. left. congruence.
      + assert (H' : str_replace p [x] v = a ++ q ++ b) by congruence. assert (LV : length v <= n). { assert (LL := f_equal (@length _) E). rewrite app_length in LL. cbn [length] in LL. destruct p; [congruence|cbn [length] in LL; lia]. }
        destruct (IH v LV) as (a' & b' & ->); [now exists a, b|]. exists (p ++ a'), b'. now rewrite E, <- app_assoc.
    - rewrite (replace_nomatch _ _ _ _ P) in H. destruct H as (a & b & H). destruct a as [|d a]; cbn [app] in H.
      + apply contains_here. apply (prefix_of_replaced p x q NX); [|exact NE]. rewrite (replace_nomatch _ _ _ _ P), H. apply begins_iff. now exists b.
      + apply contains_cons. apply IH; [lia|]. exists a, b. congruence. }
  exact (G (length t) t (le_n _)).
Qed.
Lemma replaced_gone p x : ~ In x p -> p <> [] -> forall t, ~ contains p (str_replace p [x] t).
Proof.
  intros NX NE t. assert (G : forall n t, length t <= n -> ~ contains p (str_replace p [x] t)).
  { induction n as [|n IH]; intros [|c t'] L H; cbn [length] in L; try lia; try (destruct H as ([|] & b & H); [destruct p; [congruence|discriminate]|discriminate]). destruct (is_prefix p (c :: t')) eqn:P.
    - apply begins_iff in P as (v & E). rewrite E, replace_match in H by exact NE. destruct H as (a & b & H). destruct a as [|d a]; cbn [app] in H.
      + destruct p as [|y p']; [congruence|]. cbn [app] in H. apply NX. left. congruence.
      + assert (LV : length v <= n). { assert (LL := f_equal (@length _) E). rewrite app_length in LL. cbn [length] in LL. destruct p; [congruence|cbn [length] in LL; lia]. }
        apply (IH v LV). exists a, b. congruence.
    - rewrite (replace_nomatch _ _ _ _ P) in H. destruct H as (a & b & H). destruct a as [|d a]; cbn [app] in H.
      + assert (X : is_prefix p (c :: t') = true); [|congruence]. apply (prefix_of_replaced p x p NX); [|exact NE]. rewrite (replace_nomatch _ _ _ _ P), H. apply begins_iff. now exists b.
      + apply (IH t'); [lia|]. exists a, b. congruence. }
  exact (G (length t) t (le_n _)).
Qed.
Theorem C95_no_entities t : ~ contains (tx "&lt;") (quasi_ecmarkdown t) /\ ~ contains (tx "&gt;") (quasi_ecmarkdown t).
Proof.
  unfold quasi_ecmarkdown. split.
  - intros H. apply (replaced_keeps (tx "&gt;") 62%N) in H; [|discriminate|vm_compute; intuition discriminate|discriminate]. revert H. apply (replaced_gone (tx "&lt;") 60%N); [vm_compute; intuition discriminate|discriminate].
  - apply (replaced_gone (tx "&gt;") 62%N); [vm_compute; intuition discriminate|discriminate].
Qed.
Print Assumptions C95_no_entities.
Example C95_no_entities_ex : quasi_ecmarkdown (tx "`\&lt;\\n`") = tx "<\n" /\ quasi_ecmarkdown (tx "&&lt;lt;&l\t;") = tx "&<lt;<".
Proof. split; vm_compute; reflexivity. Qed.
(* doing it twice is not the same as doing it once *)
Theorem C95_twice_refuted : exists t, quasi_ecmarkdown (quasi_ecmarkdown t) <> quasi_ecmarkdown t.
Proof. exists (tx "`\\b`"). vm_compute. discriminate. Qed.
Print Assumptions C95_twice_refuted.

(* ---------- captions ---------- *)
Definition attr (t : hnode) (k : text) : option text := tget (h_attrs t) k.
Definition captions (t : hnode) : list hnode := filter (named (tx "emu-caption")) (h_children t).
(* the caption is there and not empty, or it is not *)
Definition given (x : option text) (v : text) : Prop := x = Some v /\ v <> [].
Definition missing (x : option text) : Prop := x = None \/ x = Some [].
Definition caption_child (t : hnode) (x : option text) : Prop := captions t = [] /\ x = None \/ exists c, captions t = [c] /\ x = Some (strip (h_inner c)).
Inductive has_caption (t : hnode) : text -> Prop :=
| by_attr v x : attr t (tx "type") = None -> caption_child t x -> given (attr t (tx "caption")) v -> missing x -> has_caption t v
| by_child v x : attr t (tx "type") = None -> caption_child t x -> given x v -> missing (attr t (tx "caption")) -> has_caption t v
| methods_attr v : attr t (tx "type") = Some (tx "abstract methods") -> captions t = [] -> given (attr t (tx "caption")) v -> has_caption t v
| methods_of o : attr t (tx "type") = Some (tx "abstract methods") -> captions t = [] -> missing (attr t (tx "caption")) -> attr t (tx "of") = Some o -> has_caption t (tx "Abstract Methods of " ++ o).
Lemma truthy_yes x : truthy x = true <-> exists v, given x v.
Proof. unfold given. destruct x as [[|c v]|]; cbn; split; try discriminate; try (intros (v' & E & D); congruence); try (intros _; now exists (c :: v)); reflexivity. Qed.
Lemma truthy_no x : truthy x = false <-> missing x.
Proof. unfold missing. destruct x as [[|c v]|]; cbn; split; auto; try discriminate; intros [X|X]; discriminate. Qed.
Lemma e_caption_ok t x : e_caption t = Ok x <-> caption_child t x.
Proof.
  unfold e_caption, caption_child, captions. destruct (filter (named (tx "emu-caption")) (h_children t)) as [|c [|c' l]]; split.
  - intros E. apply ok_inj in E. subst. auto. - intros [(_ & ->)|(c & E & _)]; [reflexivity|discriminate].
  - intros E. apply ok_inj in E. subst. right. now exists c. - intros [(E & _)|(c' & E & ->)]; [discriminate|]. now replace c' with c by congruence.
  - discriminate. - intros [(E & _)|(c'' & E & _)]; discriminate.
Qed.
Theorem C95_caption t v : caption_of t = Ok v <-> has_caption t v.
Proof.
  unfold caption_of. fold (attr t (tx "caption")). fold (attr t (tx "type")). fold (attr t (tx "of")). split.
  - intros H. apply bind_ok in H as (e & E & H). apply e_caption_ok in E. destruct (attr t (tx "type")) as [ty|] eqn:T.
    + destruct (text_eqb ty (tx "abstract methods")) eqn:TE; [|discriminate]. apply text_eqb_eq in TE. subst ty. apply bind_ok in H as (u & A & H). destruct e as [e|]; [discriminate|].
      assert (C : captions t = []) by (destruct E as [(C & _)|(c & _ & X)]; [exact C|discriminate]). destruct (truthy (attr t (tx "caption"))) eqn:TA.
      * apply truthy_yes in TA as (w & G). apply ok_inj in H. subst v. replace (the (attr t (tx "caption"))) with w by (destruct G as (-> & _); reflexivity). now apply methods_attr.
      * apply truthy_no in TA. destruct (attr t (tx "of")) as [o|] eqn:O; [|discriminate]. apply ok_inj in H. subst v. now apply methods_of.
    + destruct (truthy (attr t (tx "caption")) && negb (truthy e)) eqn:X.
      * apply Bool.andb_true_iff in X as (A & B). apply Bool.negb_true_iff in B. apply truthy_yes in A as (w & G). apply truthy_no in B. apply ok_inj in H. subst v. replace (the (attr t (tx "caption"))) with w by (destruct G as (-> & _); reflexivity). now apply by_attr with e.
      * destruct (truthy e && negb (truthy (attr t (tx "caption")))) eqn:Y; [|discriminate]. apply Bool.andb_true_iff in Y as (A & B). apply Bool.negb_true_iff in B. apply truthy_yes in A as (w & G). apply truthy_no in B. apply ok_inj in H. subst v. replace (the e) with w by (destruct G as (-> & _); reflexivity). now apply by_child with e.
  - intros H. destruct H as [v x T C G M|v x T C G M|v T C G|o T C M O]; rewrite T.
    + apply e_caption_ok in C. rewrite C. cbn [bind]. rewrite (proj2 (truthy_yes _) (ex_intro _ v G)), (proj2 (truthy_no _) M). cbn [andb negb]. destruct G as (-> & _). reflexivity.
    + apply e_caption_ok in C. rewrite C. cbn [bind]. rewrite (proj2 (truthy_yes _) (ex_intro _ v G)), (proj2 (truthy_no _) M). cbn [andb negb]. destruct G as (-> & _). reflexivity.
    + replace (e_caption t) with (@Ok (option text) None) by (symmetry; apply e_caption_ok; now left). cbn [bind]. rewrite (proj2 (text_eqb_eq _ _) eq_refl). cbn [assert_ bind]. rewrite (proj2 (truthy_yes _) (ex_intro _ v G)). destruct G as (-> & _). reflexivity.
    + replace (e_caption t) with (@Ok (option text) None) by (symmetry; apply e_caption_ok; now left). cbn [bind]. rewrite (proj2 (text_eqb_eq _ _) eq_refl). cbn [assert_ bind]. rewrite (proj2 (truthy_no _) M), O. reflexivity.
Qed.
Print Assumptions C95_caption.

(* ---------- rows ---------- *)
Section Rows.
  Variable int_of : text -> res Z.
  Definition spans (c : hnode) (n : Z) : Prop := attr c (tx "colspan") = None /\ n = 1%Z \/ exists s, attr c (tx "colspan") = Some s /\ int_of s = Ok n.
  Definition is_cell (c : hnode) : Prop := h_name c = tx "th" \/ h_name c = tx "td".
  Definition not_white (c : hnode) : bool := match c with White => false | _ => true end.
  (* each text as many times as its cell has columns *)
  Fixpoint spread (f : text -> text) (cells : list hnode) (ns : list Z) : list text :=
    match cells, ns with c :: cells', n :: ns' => repeat (f (strip (h_inner c))) (Z.to_nat n) ++ spread f cells' ns' | _, _ => [] end.
  (* a row with its cells, their texts and what these mean *)
  Definition row_in (caption : text) (tr : hnode) (cells : list hnode) (texts values : list text) : Prop :=
    (h_attrs tr = [] \/ exists v, h_attrs tr = [(tx "id", v)]) /\
    cells = filter not_white (h_children tr) /\ Forall is_cell cells /\
    exists ns, Forall2 spans cells ns /\ (caption = tx "Import Forms Mappings to ImportEntry Records" \/ Forall (eq 1%Z) ns) /\
      texts = spread (fun t => t) cells ns /\ values = spread quasi_ecmarkdown cells ns.
  Lemma named_iff x n : named x n = true <-> h_name n = x. Proof. apply text_eqb_eq. Qed.
  Lemma cells_ok l cs : cells_of l = Ok cs <-> cs = filter not_white l /\ Forall is_cell cs.
  Proof.
    revert cs. induction l as [|c l IH]; intros cs; cbn [cells_of filter].
    - split; [intros E; apply ok_inj in E; subst; auto|]. intros (-> & _). reflexivity.
    - destruct c as [n a i ch|]; [|apply IH]. cbn [not_white]. destruct (named (tx "th") (El n a i ch) || named (tx "td") (El n a i ch)) eqn:E.
      + assert (IC : is_cell (El n a i ch)) by (apply Bool.orb_true_iff in E; rewrite !named_iff in E; exact E). split.
        * intros H. apply bind_ok in H as (cs' & A & B). apply IH in A as (-> & F). apply ok_inj in B. subst cs. split; [reflexivity|]. now constructor.
        * intros (-> & F). inversion F; subst. rewrite (proj2 (IH _) (conj eq_refl H2)). reflexivity.
      + split; [discriminate|]. intros (-> & F). inversion F as [|? ? X ?]; subst. unfold is_cell in X. rewrite <- !named_iff in X. apply Bool.orb_false_iff in E as (E1 & E2). destruct X; congruence.
  Qed.
  Lemma texts_ok caption cs ts vs : texts_of int_of caption cs = Ok (ts, vs) <->
    exists ns, Forall2 spans cs ns /\ (caption = tx "Import Forms Mappings to ImportEntry Records" \/ Forall (eq 1%Z) ns) /\ ts = spread (fun t => t) cs ns /\ vs = spread quasi_ecmarkdown cs ns.
  Proof.
    revert ts vs. induction cs as [|c cs IH]; intros ts vs; cbn [texts_of].
    - split; [intros E; apply ok_inj in E; exists []; split; [constructor|]; split; [right; constructor|]; split; cbn; congruence|]. intros (ns & F & _ & -> & ->). inversion F; subst. reflexivity.
    - assert (SP : forall n, (match tget (h_attrs c) (tx "colspan") with Some s => int_of s | None => Ok 1%Z end) = Ok n <-> spans c n).
      { intros n. unfold spans, attr. destruct (tget (h_attrs c) (tx "colspan")) as [s|]; split; [intros E; right; now exists s|intros [(X & _)|(s' & X & E)]; [discriminate|congruence]|intros E; apply ok_inj in E; left; auto|intros [(_ & ->)|(s' & X & _)]; [reflexivity|discriminate]]. }
      split.
      + intros H. apply bind_ok in H as (n & N0 & H). apply SP in N0. apply bind_ok in H as ([] & A & H). apply bind_ok in H as ([ts' vs'] & R & H). apply ok_inj in H. cbn [fst snd] in H. apply IH in R as (ns & F & CA & -> & ->).
        exists (n :: ns). split; [now constructor|]. split; [|cbn [spread]; split; congruence].
        destruct CA as [CA|CA]; [now left|]. destruct (Z.eqb_spec n 1) as [->|D]; [right; now constructor|]. left. unfold assert_ in A. destruct (text_eqb caption (tx "Import Forms Mappings to ImportEntry Records")) eqn:TE; [now apply text_eqb_eq|discriminate].
      + intros (ns & F & CA & -> & ->). inversion F as [|? n ? ns' S0 F']; subst. rewrite (proj2 (SP n) S0). cbn [bind].
        replace (if (n =? 1)%Z then Ok tt else assert_ (text_eqb caption (tx "Import Forms Mappings to ImportEntry Records"))) with (Ok tt).
        * cbn [bind]. rewrite (proj2 (IH _ _) (ex_intro _ ns' (conj F' (conj (match CA with or_introl X => or_introl X | or_intror X => or_intror (Forall_inv_tail X) end) (conj eq_refl eq_refl))))). reflexivity.
        * destruct CA as [->|CA]; [rewrite (proj2 (text_eqb_eq _ _) eq_refl); now destruct (n =? 1)%Z|]. inversion CA; subst. reflexivity.
  Qed.
  Lemma attrs_ok tr : (match h_attrs tr with [] => true | [(k, _)] => text_eqb k (tx "id") | _ => false end) = true <-> h_attrs tr = [] \/ exists v, h_attrs tr = [(tx "id", v)].
  Proof.
    destruct (h_attrs tr) as [|[k v] [|p l]]; split; auto; try discriminate; try (intros [X|(w & X)]; congruence).
    - intros E. apply text_eqb_eq in E. subst k. right. now exists v.
    - intros [X|(w & X)]; [discriminate|]. apply text_eqb_eq. congruence.
  Qed.
  (* the round of the loop for a good row *)
  Lemma add_row_good caption st tr cells ts vs : row_in caption tr cells ts vs ->
    add_row int_of caption st tr =
    if forallb (named (tx "th")) cells then
      match st with (None, []) => Ok (Some (mkRow cells ts None), []) | _ => Err AssertionError end
    else
      match fst st with
      | None => Err AttributeError
      | Some h =>
          if length vs =? length (r_texts h) then Ok (fst st, snd st ++ [mkRow cells ts (Some (dict_zip (r_texts h) vs))])
          else if text_eqb caption (tx "Numeric Type Operations") then Ok (fst st, snd st ++ [mkRow cells ts None]) else Err AssertionError
      end.
  Proof.
    intros (A & C & F & T). unfold add_row. rewrite (proj2 (attrs_ok tr) A). cbn [assert_ bind]. rewrite (proj2 (cells_ok _ cells) (conj C F)). cbn [bind]. rewrite (proj2 (texts_ok caption cells ts vs) T). cbn [bind fst snd].
    destruct (forallb (named (tx "th")) cells); [|reflexivity]. destruct st as [[h|] [|d ds]]; reflexivity.
  Qed.
  Lemma add_row_ok caption st tr st' : add_row int_of caption st tr = Ok st' -> exists cells ts vs, row_in caption tr cells ts vs.
  Proof.
    unfold add_row. intros H. apply bind_ok in H as (u & A & H). apply bind_ok in H as (cells & C & H). apply bind_ok in H as ([ts vs] & T & _). exists cells, ts, vs. split; [|split; [|split]].
    - apply attrs_ok. unfold assert_ in A. destruct (match h_attrs tr with [] => true | [(k, _)] => text_eqb k (tx "id") | _ => false end); [reflexivity|discriminate].
    - apply cells_ok in C. apply C. - apply cells_ok in C. apply C. - now apply texts_ok.
  Qed.
  Definition header_row (caption : text) (tr : hnode) (h : row) : Prop :=
    exists values, row_in caption tr (r_cells h) (r_texts h) values /\ r_dict h = None /\ forall c, In c (r_cells h) -> h_name c = tx "th".
  Definition data_row (caption : text) (h : row) (tr : hnode) (d : row) : Prop :=
    exists values, row_in caption tr (r_cells d) (r_texts d) values /\ (exists c, In c (r_cells d) /\ h_name c <> tx "th") /\
      (length values = length (r_texts h) /\ r_dict d = Some (dict_zip (r_texts h) values) \/
       length values <> length (r_texts h) /\ caption = tx "Numeric Type Operations" /\ r_dict d = None).
  Lemma all_th cells : forallb (named (tx "th")) cells = true <-> forall c, In c cells -> h_name c = tx "th".
  Proof. rewrite forallb_forall. split; intros H c I; apply named_iff; auto. Qed.
  Lemma some_td cells : forallb (named (tx "th")) cells = false <-> exists c, In c cells /\ h_name c <> tx "th".
  Proof.
    split.
    - intros H. induction cells as [|c cells IH]; [discriminate|]. cbn [forallb] in H. destruct (named (tx "th") c) eqn:E; [destruct (IH H) as (d & I & D); exists d; split; [now right|exact D]|]. exists c. split; [now left|]. rewrite <- named_iff. congruence.
    - intros (c & I & D). apply Bool.not_true_iff_false. rewrite all_th. intros H. apply D. now apply H.
  Qed.
  Lemma data_round caption h ds tr st' : add_row int_of caption (Some h, ds) tr = Ok st' <-> exists d, data_row caption h tr d /\ st' = (Some h, ds ++ [d]).
  Proof.
    split.
    - intros H. destruct (add_row_ok _ _ _ _ H) as (cells & ts & vs & R). rewrite (add_row_good _ _ _ _ _ _ R) in H. destruct (forallb (named (tx "th")) cells) eqn:TH; [discriminate|]. apply some_td in TH. cbn [fst snd] in H.
      destruct (Nat.eqb_spec (length vs) (length (r_texts h))) as [L|L].
      + apply ok_inj in H. subst st'. eexists. split; [|reflexivity]. exists vs. split; [exact R|]. split; [exact TH|]. left. auto.
      + destruct (text_eqb caption (tx "Numeric Type Operations")) eqn:CE; [|discriminate]. apply text_eqb_eq in CE. apply ok_inj in H. subst st'. eexists. split; [|reflexivity]. exists vs. split; [exact R|]. split; [exact TH|]. right. auto.
    - intros ([cells ts dd] & (vs & R & TD & X) & ->). cbn [r_cells r_texts r_dict] in *. rewrite (add_row_good _ _ _ _ _ _ R), (proj2 (some_td cells) TD). cbn [fst snd]. destruct X as [(L & ->)|(L & -> & ->)]; [rewrite (proj2 (Nat.eqb_eq _ _) L); reflexivity|].
      rewrite (proj2 (Nat.eqb_neq _ _) L). rewrite (proj2 (text_eqb_eq _ _) eq_refl). reflexivity.
  Qed.
  Lemma data_rounds caption h l : forall ds st', add_rows int_of caption (Some h, ds) l = Ok st' <-> exists ds', Forall2 (data_row caption h) l ds' /\ st' = (Some h, ds ++ ds').
  Proof.
    induction l as [|tr l IH]; intros ds st'; cbn [add_rows].
    - split; [intros E; apply ok_inj in E; exists []; rewrite app_nil_r; auto|]. intros (ds' & F & ->). inversion F; subst. now rewrite app_nil_r.
    - split.
      + intros H. apply bind_ok in H as (st1 & A & H). apply data_round in A as (d & D & ->). apply IH in H as (ds' & F & ->). exists (d :: ds'). split; [now constructor|]. now rewrite <- app_assoc.
      + intros (ds' & F & ->). inversion F as [|? d ? ds1 D F']; subst. rewrite (proj2 (data_round caption h ds tr _) (ex_intro _ d (conj D eq_refl))). cbn [bind]. apply IH. exists ds1. split; [exact F'|]. now rewrite <- app_assoc.
  Qed.
  Lemma header_round caption tr st' : add_row int_of caption (None, []) tr = Ok st' <-> exists h, header_row caption tr h /\ st' = (Some h, []).
  Proof.
    split.
    - intros H. destruct (add_row_ok _ _ _ _ H) as (cells & ts & vs & R). rewrite (add_row_good _ _ _ _ _ _ R) in H. destruct (forallb (named (tx "th")) cells) eqn:TH; [|discriminate]. apply ok_inj in H. subst st'. eexists. split; [|reflexivity]. exists vs. split; [exact R|]. split; [reflexivity|]. now apply all_th.
    - intros ([cells ts dd] & (vs & R & D & TH) & ->). cbn [r_cells r_texts r_dict] in *. rewrite (add_row_good _ _ _ _ _ _ R), (proj2 (all_th cells) TH), D. reflexivity.
  Qed.
  Definition id_message (t : hnode) (caption : text) : list text :=
    match attr t (tx "id") with Some _ => [] | None => [tx "no id attribute for table with caption """ ++ caption ++ tx """"] end.
  (* a table is taken in exactly if it has one caption, and its rows are one header and rows of data that fit *)
  Theorem C95_table t ms caption h ds :
    analyze_table int_of t = (ms, Ok (caption, h, ds)) <->
    h_name t = tx "emu-table" /\ has_caption t caption /\ ms = id_message t caption /\
    (each_named (tx "tr") t = [] /\ h = None /\ ds = [] \/
     exists tr trs h', each_named (tx "tr") t = tr :: trs /\ h = Some h' /\ header_row caption tr h' /\ Forall2 (data_row caption h') trs ds).
  Proof.
    unfold analyze_table. rewrite mbind_assert. destruct (named (tx "emu-table") t) eqn:NT.
    2: { split; [discriminate|]. intros (X & _). apply named_iff in X. congruence. }
    apply named_iff in NT. destruct (caption_of t) as [cap|e] eqn:C.
    2: { split; [discriminate|]. intros (_ & X & _). apply C95_caption in X. congruence. }
    rewrite mbind_tell. assert (IM : (if thas (h_attrs t) (tx "id") then [] else [tx "no id attribute for table with caption """ ++ cap ++ tx """"]) = id_message t cap) by (unfold thas, id_message, attr; destruct (tget (h_attrs t) (tx "id")); reflexivity). rewrite IM. clear IM.
    assert (ROWS : forall h ds, add_rows int_of cap (None, []) (each_named (tx "tr") t) = Ok (h, ds) <->
       (each_named (tx "tr") t = [] /\ h = None /\ ds = [] \/ exists tr trs h', each_named (tx "tr") t = tr :: trs /\ h = Some h' /\ header_row cap tr h' /\ Forall2 (data_row cap h') trs ds)).
    { clear. intros h ds. destruct (each_named (tx "tr") t) as [|tr trs]; cbn [add_rows].
      - split; [intros E; apply ok_inj in E; left; split; [reflexivity|split; congruence]|]. intros [(_ & -> & ->)|(tr & trs & h' & X & _)]; [reflexivity|discriminate].
      - split.
        + intros H. apply bind_ok in H as (st & A & H). apply header_round in A as (h' & HR & ->). apply data_rounds in H as (ds' & F & E). right. exists tr, trs, h'. cbn [app] in E. split; [reflexivity|]. split; [congruence|]. split; [exact HR|]. now replace ds with ds' by congruence.
        + intros [(X & _)|(tr' & trs' & h' & E & -> & HR & F)]; [discriminate|]. replace tr' with tr in HR by congruence. replace trs' with trs in F by congruence. rewrite (proj2 (header_round cap tr _) (ex_intro _ h' (conj HR eq_refl))). cbn [bind]. apply data_rounds. now exists ds. }
    split.
    - intros H. destruct (add_rows int_of cap (None, []) (each_named (tx "tr") t)) as [[h1 ds1]|e] eqn:R; cbn [mret mfail fst snd] in H; [|discriminate]. rewrite app_nil_r in H. assert (E1 : ms = id_message t cap) by congruence. assert (E2 : cap = caption) by congruence. assert (E3 : h1 = h) by congruence. assert (E4 : ds1 = ds) by congruence. subst caption h1 ds1.
      split; [exact NT|]. split; [now apply C95_caption|]. split; [exact E1|]. now apply ROWS.
    - intros (_ & HC & -> & X). apply C95_caption in HC. assert (cap = caption) by congruence. subst caption. apply ROWS in X. rewrite X. cbn [mret fst snd]. now rewrite app_nil_r.
  Qed.
  (* rows of data before a header: an error other than an assertion *)
  Theorem C95_no_header t caption tr trs cells ts vs : h_name t = tx "emu-table" -> has_caption t caption -> each_named (tx "tr") t = tr :: trs -> row_in caption tr cells ts vs -> (exists c, In c cells /\ h_name c <> tx "th") ->
    snd (analyze_table int_of t) = Err AttributeError.
  Proof.
    intros NT HC E R TD. unfold analyze_table. rewrite mbind_assert. rewrite (proj2 (named_iff _ _) NT), (proj2 (C95_caption t caption) HC), mbind_tell, E. cbn [add_rows]. rewrite (add_row_good _ _ _ _ _ _ R), (proj2 (some_td cells) TD). reflexivity.
  Qed.
  (* a row without cells counts as a header *)
  Theorem C95_empty_row t ms caption h ds : analyze_table int_of t = (ms, Ok (caption, h, ds)) -> forall i tr, nth_error (each_named (tx "tr") t) i = Some tr -> filter not_white (h_children tr) = [] -> i = 0 /\ exists h', h = Some h' /\ r_texts h' = [].
  Proof.
    intros H i tr E NIL. apply C95_table in H as (_ & _ & _ & [(X & _)|(tr0 & trs & h' & X & -> & (vs & (_ & C & _ & ns & F & _ & T & _) & _ & TH) & D)]); rewrite X in E; [destruct i; discriminate|]. destruct i as [|i]; cbn in E.
    - split; [reflexivity|]. exists h'. split; [reflexivity|]. replace tr0 with tr in C by congruence. rewrite T, C, NIL. reflexivity.
    - exfalso. assert (G : exists d, data_row caption h' tr d). { clear - E D. revert i E. induction D as [|a d trs ds Dd D IH]; intros i E; [destruct i; discriminate|]. destruct i as [|i]; cbn in E; [exists d; congruence|exact (IH i E)]. }
      destruct G as (d & vs' & (_ & C' & _) & (c & I & _) & _). rewrite C', NIL in I. destruct I.
  Qed.
  (* the errors there can be *)
  Theorem C95_errors t e : snd (analyze_table int_of t) = Err e -> e = AssertionError \/ e = KeyError \/ e = AttributeError \/ exists s, int_of s = Err e.
  Proof.
    unfold analyze_table. rewrite mbind_assert. destruct (named (tx "emu-table") t); [|cbn; intros [= <-]; now left]. destruct (caption_of t) as [cap|e'] eqn:C.
    - rewrite mbind_tell. cbn [snd]. destruct (add_rows int_of cap (None, []) (each_named (tx "tr") t)) as [[h ds]|e'] eqn:R; [discriminate|]. cbn. intros [= ->]. clear C. revert R. generalize (@None row, @nil row). generalize (each_named (tx "tr") t). clear t.
      induction l as [|tr l IH]; intros st R; cbn [add_rows] in R; [discriminate|]. destruct (add_row int_of cap st tr) as [st'|e'] eqn:A; cbn [bind] in R; [exact (IH st' R)|]. assert (e' = e) by congruence. subst e'. clear R IH. unfold add_row in A.
      destruct (match h_attrs tr with [] => true | [(k, _)] => text_eqb k (tx "id") | _ => false end); cbn [assert_ bind] in A; [|left; congruence].
      destruct (cells_of (h_children tr)) as [cells|e'] eqn:C; cbn [bind] in A.
      + destruct (texts_of int_of cap cells) as [[ts vs]|e'] eqn:T; cbn [bind fst snd] in A.
        * destruct (forallb (named (tx "th")) cells); [destruct st as [[|] [|]]; cbn in A; try discriminate; left; congruence|]. destruct (fst st) as [h|]; [|right; right; left; congruence]. destruct (length vs =? length (r_texts h)); [discriminate|]. destruct (text_eqb cap (tx "Numeric Type Operations")); [discriminate|]. left. congruence.
        * assert (e' = e) by congruence. subst e'. clear - T. induction cells as [|c cells IH]; cbn [texts_of] in T; [discriminate|]. destruct (tget (h_attrs c) (tx "colspan")) as [s|].
          -- destruct (int_of s) as [n|e'] eqn:I; cbn [bind] in T; [|right; right; right; exists s; congruence]. destruct (n =? 1)%Z; [|destruct (text_eqb cap (tx "Import Forms Mappings to ImportEntry Records"))]; cbn [assert_ bind] in T; try (left; congruence); (destruct (texts_of int_of cap cells) as [r|e'']; cbn [bind] in T; [discriminate|apply IH; congruence]).
          -- cbn [bind] in T. change ((1 =? 1)%Z) with true in T. cbn [bind] in T. destruct (texts_of int_of cap cells) as [r|e'']; cbn [bind] in T; [discriminate|apply IH; congruence].
      + assert (e' = e) by congruence. subst e'. left. clear - C. induction (h_children tr) as [|c l IH]; cbn [cells_of] in C; [discriminate|]. destruct c as [n a i ch|]; [|exact (IH C)]. destruct (named (tx "th") (El n a i ch) || named (tx "td") (El n a i ch)); [|congruence]. destruct (cells_of l); cbn [bind] in C; [discriminate|apply IH; congruence].
    - cbn. intros [= ->]. unfold caption_of, e_caption in C. destruct (filter (named (tx "emu-caption")) (h_children t)) as [|c [|]]; cbn [bind] in C; [| |left; congruence].
      + destruct (tget (h_attrs t) (tx "type")) as [ty|].
        * destruct (text_eqb ty (tx "abstract methods")); [|left; congruence]. cbn [assert_ bind] in C. destruct (truthy (tget (h_attrs t) (tx "caption"))); [discriminate|]. destruct (tget (h_attrs t) (tx "of")); [discriminate|]. right. left. congruence.
        * destruct (truthy (tget (h_attrs t) (tx "caption")) && _); [discriminate|]. destruct (_ && negb (truthy (tget (h_attrs t) (tx "caption")))); [discriminate|]. left. congruence.
      + destruct (tget (h_attrs t) (tx "type")) as [ty|].
        * destruct (text_eqb ty (tx "abstract methods")); cbn [assert_ bind] in C; left; congruence.
        * destruct (truthy (tget (h_attrs t) (tx "caption")) && _); [discriminate|]. destruct (_ && negb (truthy (tget (h_attrs t) (tx "caption")))); [discriminate|]. left. congruence.
  Qed.
End Rows.
Print Assumptions C95_table.
Print Assumptions C95_no_header.
Print Assumptions C95_empty_row.
Print Assumptions C95_errors.
(* ---------- the columns of a row ---------- *)
(* under a heading is the value of the last column with it *)
Lemma zip_nth {A B} (ks : list A) (vs : list B) i k v : nth_error (combine ks vs) i = Some (k, v) <-> nth_error ks i = Some k /\ nth_error vs i = Some v.
Proof.
  revert vs i. induction ks as [|k' ks IH]; intros [|v' vs] [|i]; cbn [combine nth_error]; try (split; [discriminate|intros (X & Y); discriminate]); try (split; [discriminate|intros (X & Y); congruence]).
  - split; [intros E; split; congruence|intros (X & Y); congruence]. - apply IH.
Qed.
Lemma find_last (ps : list (text * text)) k v : find (fun p => text_eqb (fst p) k) (rev ps) = Some (k, v) <-> exists i, nth_error ps i = Some (k, v) /\ forall j p, i < j -> nth_error ps j = Some p -> fst p <> k.
Proof.
  induction ps as [|[k' v'] ps IH] using rev_ind; [split; [discriminate|intros (i & E & _); destruct i; discriminate]|]. rewrite rev_app_distr. cbn [rev app find fst].
  destruct (text_eqb k' k) eqn:E.
  - apply text_eqb_eq in E. subst k'. split.
    + intros X. exists (length ps). assert (v' = v) by congruence. subst v'. split; [rewrite nth_error_app2, Nat.sub_diag by lia; reflexivity|]. intros j p L Ej. exfalso. assert (j < length (ps ++ [(k, v)])) by (apply nth_error_Some; congruence). rewrite app_length in H. cbn in H. lia.
    + intros (i & Ei & L). f_equal. destruct (lt_dec i (length ps)) as [Li|Li].
      * exfalso. apply (L (length ps) (k, v') Li); [rewrite nth_error_app2, Nat.sub_diag by lia; reflexivity|reflexivity].
      * assert (i < length (ps ++ [(k, v')])) by (apply nth_error_Some; congruence). rewrite app_length in H. cbn in H. assert (i = length ps) by lia. subst i. rewrite nth_error_app2, Nat.sub_diag in Ei by lia. cbn in Ei. congruence.
  - assert (D : k' <> k) by (intros ->; rewrite (proj2 (text_eqb_eq k k) eq_refl) in E; discriminate). rewrite IH. split; intros (i & Ei & L).
    + exists i. assert (i < length ps) by (apply nth_error_Some; congruence). split; [rewrite nth_error_app1 by lia; exact Ei|]. intros j p Lj Ej. destruct (lt_dec j (length ps)) as [Lp|Lp]; [rewrite nth_error_app1 in Ej by lia; eauto|].
      rewrite nth_error_app2 in Ej by lia. destruct (j - length ps) as [|m]; cbn in Ej; [|destruct m; discriminate]. injection Ej as <-. exact D.
    + exists i. destruct (lt_dec i (length ps)) as [Li|Li].
      * rewrite nth_error_app1 in Ei by lia. split; [exact Ei|]. intros j p Lj Ej. apply (L j p Lj). rewrite nth_error_app1; [exact Ej|]. apply nth_error_Some. congruence.
      * exfalso. rewrite nth_error_app2 in Ei by lia. destruct (i - length ps) as [|m]; cbn in Ei; [congruence|destruct m; discriminate].
Qed.
Theorem C95_column ks vs k v : length vs = length ks ->
  (tget (dict_zip ks vs) k = Some v <-> exists i, nth_error ks i = Some k /\ nth_error vs i = Some v /\ forall j, i < j -> nth_error ks j <> Some k).
Proof.
  intros L. unfold dict_zip. rewrite fold_last. cbn [tget].
  transitivity (find (fun p : text * text => text_eqb (fst p) k) (rev (combine ks vs)) = Some (k, v)).
  - destruct (find (fun p : text * text => text_eqb (fst p) k) (rev (combine ks vs))) as [[k' v']|] eqn:F; [|split; discriminate]. apply find_some in F as (_ & E). apply text_eqb_eq in E. cbn [fst snd] in *. subst k'. split; congruence.
  - rewrite find_last. split; intros (i & E & H); exists i.
    + apply zip_nth in E as (A & B). split; [exact A|]. split; [exact B|]. intros j Lj Ej. assert (X : j < length ks) by (apply nth_error_Some; congruence). destruct (nth_error vs j) as [w|] eqn:V; [|apply nth_error_None in V; lia]. apply (H j (k, w) Lj); [now apply zip_nth|reflexivity].
    + destruct H as (B & H). split; [now apply zip_nth|]. intros j [k' v'] Lj Ej Ek. cbn in Ek. subst k'. apply zip_nth in Ej as (Ej & _). exact (H j Lj Ej).
Qed.
Print Assumptions C95_column.
(* with different headings, nothing is lost *)
Theorem C95_distinct ks vs : NoDup ks -> length vs = length ks -> dict_zip ks vs = combine ks vs.
Proof.
  intros ND L. unfold dict_zip. rewrite (fold_tset (combine ks vs) []); [reflexivity|]. cbn [map app]. replace (map fst (combine ks vs)) with ks; [exact ND|]. revert vs L. clear ND. induction ks as [|k ks IH]; intros [|v vs] L; try discriminate; [reflexivity|]. cbn [combine map fst]. f_equal. apply IH. cbn in L. lia.
Qed.
Print Assumptions C95_distinct.
(* choosing the row with a value in a column *)
Theorem C95_unique_row k v l r : unique_row (column_is k v) l = Ok r <->
  (forall x, In x l -> exists d w, r_dict x = Some d /\ tget d k = Some w) /\
  exists l1 l2, l = l1 ++ r :: l2 /\ (exists d, r_dict r = Some d /\ tget d k = Some v) /\ forall x d, In x (l1 ++ l2) -> r_dict x = Some d -> tget d k <> Some v.
Proof.
  assert (P : forall x b, column_is k v x = Ok b <-> exists d w, r_dict x = Some d /\ tget d k = Some w /\ b = text_eqb w v).
  { intros x b. unfold column_is. destruct (r_dict x) as [d|]; [|split; [discriminate|intros (d & w & X & _); discriminate]]. destruct (tget d k) as [w|] eqn:G.
    - split; [intros E; apply ok_inj in E; subst; eauto|]. intros (d' & w' & X & Y & ->). assert (d' = d) by congruence. subst d'. congruence.
    - split; [discriminate|]. intros (d' & w' & X & Y & _). assert (d' = d) by congruence. subst d'. congruence. }
  assert (S0 : forall l rs, selected (column_is k v) l = Ok rs <-> (forall x, In x l -> exists d w, r_dict x = Some d /\ tget d k = Some w) /\ rs = filter (fun x => match column_is k v x with Ok b => b | Err _ => false end) l).
  { clear l r. induction l as [|x l IH]; intros rs; cbn [selected filter]; [split; [intros E; apply ok_inj in E; subst; split; [intros y []|reflexivity]|intros (_ & ->); reflexivity]|]. split.
    - intros H. apply bind_ok in H as (b & B & H). apply bind_ok in H as (rs' & R & H). apply IH in R as (A & ->). apply ok_inj in H. rewrite B. split; [|now symmetry]. intros y [<-|I]; [|now apply A]. apply P in B as (d & w & X & Y & _). now exists d, w.
    - intros (A & ->). destruct (A x (or_introl eq_refl)) as (d & w & X & Y). assert (B : column_is k v x = Ok (text_eqb w v)) by (apply P; exists d, w; auto). rewrite B. cbn [bind]. rewrite (proj2 (IH _) (conj (fun y I => A y (or_intror I)) eq_refl)). reflexivity. }
  unfold unique_row. split.
  - intros H. apply bind_ok in H as (rs & R & H). apply S0 in R as (A & R). destruct rs as [|r' [|]]; try discriminate. apply ok_inj in H. subst r'. split; [exact A|]. clear - R P A. induction l as [|x l IH]; cbn [filter] in R; [discriminate|].
    destruct (A x (or_introl eq_refl)) as (d & w & X & Y). assert (B : column_is k v x = Ok (text_eqb w v)) by (apply P; exists d, w; auto). rewrite B in R. destruct (text_eqb w v) eqn:W.
    + apply text_eqb_eq in W. subst w. exists [], l. assert (x = r) by congruence. subst x. assert (N : [] = filter (fun x => match column_is k v x with Ok b => b | Err _ => false end) l) by congruence. split; [reflexivity|]. split; [now exists d|]. cbn [app]. intros y d' I E G.
      assert (J : In y (filter (fun x => match column_is k v x with Ok b => b | Err _ => false end) l)); [|rewrite <- N in J; destruct J]. apply filter_In. split; [exact I|]. rewrite (proj2 (P y true)); [reflexivity|]. exists d', v. split; [exact E|]. split; [exact G|]. symmetry. now apply text_eqb_eq.
    + destruct (IH (fun y I => A y (or_intror I)) R) as (l1 & l2 & -> & V & O). exists (x :: l1), l2. split; [reflexivity|]. split; [exact V|]. intros y d' [<-|I] E G; [|exact (O y d' I E G)]. assert (d' = d) by congruence. subst d'. assert (w = v) by congruence. subst w. rewrite (proj2 (text_eqb_eq v v) eq_refl) in W. discriminate.
  - intros (A & l1 & l2 & -> & (d & X & Y) & O).
    assert (NO : forall l0, (forall x, In x l0 -> In x (l1 ++ l2)) -> filter (fun x => match column_is k v x with Ok b => b | Err _ => false end) l0 = []).
    { intros l0. induction l0 as [|y l0 IH]; intros SUB; [reflexivity|]. cbn [filter]. assert (I : In y (l1 ++ l2)) by (apply SUB; now left). assert (I' : In y (l1 ++ r :: l2)) by (apply in_app_iff in I as [I|I]; apply in_app_iff; [now left|right; now right]).
      destruct (A y I') as (d' & w & X' & Y'). assert (B : column_is k v y = Ok (text_eqb w v)) by (apply P; exists d', w; auto). rewrite B. destruct (text_eqb w v) eqn:W; [apply text_eqb_eq in W; subst w; destruct (O y d' I X' Y')|]. apply IH. intros x J. apply SUB. now right. }
    rewrite (proj2 (S0 (l1 ++ r :: l2) _) (conj A eq_refl)). cbn [bind]. rewrite filter_app. cbn [filter]. rewrite (NO l1) by (intros; apply in_app_iff; now left). rewrite (NO l2) by (intros; apply in_app_iff; now right).
    rewrite (proj2 (P r true)); [reflexivity|]. exists d, v. split; [exact X|]. split; [exact Y|]. symmetry. now apply text_eqb_eq.
Qed.
Print Assumptions C95_unique_row.

(* examples *)
Definition int_ex (s : text) : res Z := if text_eqb s (tx "2") then Ok 2%Z else if text_eqb s (tx "-1") then Ok (-1)%Z else Err ValueError.
Definition th (s : String.string) : hnode := El (tx "th") [] (tx s) [].
Definition td (s : String.string) : hnode := El (tx "td") [] (tx s) [].
Definition tr_ (l : list hnode) : hnode := El (tx "tr") [] [] (White :: l).
Definition table (attrs : list (text * text)) (l : list hnode) : hnode := El (tx "emu-table") attrs [] [White; El (tx "table") [] [] [El (tx "tbody") [] [] l]].
Definition escapes : hnode :=
  table [(tx "caption", tx "String Single Character Escape Sequences")]
    [tr_ [th "Escape Sequence"; th "Code Unit Value"]; White; tr_ [td " `\\b` "; White; td "`0x0008`"]; tr_ [th "`\\t`"; td "`0x0009`"]].
Example C95_table_ex :
  analyze_table int_ex escapes =
  ([tx "no id attribute for table with caption ""String Single Character Escape Sequences"""],
   Ok (tx "String Single Character Escape Sequences", Some (mkRow [th "Escape Sequence"; th "Code Unit Value"] [tx "Escape Sequence"; tx "Code Unit Value"] None),
       [mkRow [td " `\\b` "; td "`0x0008`"] [tx "`\\b`"; tx "`0x0008`"] (Some [(tx "Escape Sequence", tx "\b"); (tx "Code Unit Value", tx "0x0008")]);
        mkRow [th "`\\t`"; td "`0x0009`"] [tx "`\\t`"; tx "`0x0009`"] (Some [(tx "Escape Sequence", tx "\t"); (tx "Code Unit Value", tx "0x0009")])])).
Proof. vm_compute. reflexivity. Qed.
Example C95_unique_row_ex : let ds := match snd (analyze_table int_ex escapes) with Ok x => snd x | Err _ => [] end in
  (do r <- unique_row (column_is (tx "Escape Sequence") (tx "\t")) ds ;; match r_dict r with Some d => Ok (tget d (tx "Code Unit Value")) | None => Err TypeError end) = Ok (Some (tx "0x0009")) /\
  unique_row (column_is (tx "Escape Sequence") (tx "\x")) ds = Err AssertionError /\ unique_row (column_is (tx "Escape") (tx "\t")) ds = Err KeyError.
Proof. vm_compute. auto. Qed.
(* two columns with the same heading: the first is lost *)
Theorem C95_duplicate_refuted : exists t ms c h r d, analyze_table int_ex t = (ms, Ok (c, Some h, [r])) /\ r_dict r = Some d /\ r_texts r = [tx "one"; tx "two"] /\ ~ In (tx "one") (map snd d).
Proof.
  exists (table [(tx "caption", tx "C"); (tx "id", tx "i")] [tr_ [th "A"; th "A"]; tr_ [td "one"; td "two"]]), []. eexists. eexists. eexists. eexists. split; [vm_compute; reflexivity|]. split; [reflexivity|]. split; [reflexivity|]. vm_compute. intuition discriminate.
Qed.
Print Assumptions C95_duplicate_refuted.
Definition import_caption : text := tx "Import Forms Mappings to ImportEntry Records".
Example C95_colspan_ex :
  snd (analyze_table int_ex (table [(tx "caption", import_caption)] [tr_ [th "A"; th "B"]; tr_ [El (tx "td") [(tx "colspan", tx "2")] (tx "x\*") []]])) =
    Ok (import_caption, Some (mkRow [th "A"; th "B"] [tx "A"; tx "B"] None),
        [mkRow [El (tx "td") [(tx "colspan", tx "2")] (tx "x\*") []] [tx "x\*"; tx "x\*"] (Some [(tx "A", tx "x*"); (tx "B", tx "x*")])]) /\
  snd (analyze_table int_ex (table [(tx "caption", tx "C")] [tr_ [th "A"; th "B"]; tr_ [El (tx "td") [(tx "colspan", tx "2")] (tx "x\*") []]])) = Err AssertionError /\
  snd (analyze_table int_ex (table [(tx "caption", tx "C")] [tr_ [El (tx "th") [(tx "colspan", tx "x")] (tx "A") []]])) = Err ValueError /\
  snd (analyze_table int_ex (table [(tx "caption", tx "C")] [tr_ [td "a"]])) = Err AttributeError /\
  snd (analyze_table int_ex (table [(tx "caption", tx "C")] [tr_ []; tr_ [td "a"]])) = Err AssertionError /\
  snd (analyze_table int_ex (table [(tx "type", tx "abstract methods")] [])) = Err KeyError.
Proof. repeat split; vm_compute; reflexivity. Qed.
Example C95_caption_ex :
  caption_of (El (tx "emu-table") [] [] [White; El (tx "emu-caption") [] (tx " Some Caption ") []]) = Ok (tx "Some Caption") /\
  caption_of (El (tx "emu-table") [(tx "caption", tx "A")] [] [El (tx "emu-caption") [] (tx "B") []]) = Err AssertionError /\
  caption_of (El (tx "emu-table") [(tx "type", tx "abstract methods"); (tx "of", tx "Module Records")] [] []) = Ok (tx "Abstract Methods of Module Records").
Proof. repeat split; vm_compute; reflexivity. Qed.

(* the nodes of a tree in the order of the document *)
Fixpoint doc_order (n : hnode) : list hnode := n :: match n with El _ _ _ c => flat_map doc_order c | White => [] end.
(* The rows of a table are all nodes below it that are rows, also those inside others, in the order of the document. *)
Theorem C95_rows : forall x n, each_named x n = filter (fun m => text_eqb (h_name m) x) (doc_order n).
Proof.
  intros x. fix IH 1. intros [nm a i c|]; [|cbn [each_named doc_order filter]; unfold named; destruct (text_eqb (h_name White) x); reflexivity]. cbn [each_named doc_order filter]. unfold named. destruct (text_eqb (h_name (El nm a i c)) x); cbn [app]; try f_equal.
  - induction c as [|d c IHc]; [reflexivity|]. cbn [flat_map]. rewrite filter_app. f_equal; [apply IH|exact IHc].
  - induction c as [|d c IHc]; [reflexivity|]. cbn [flat_map]. rewrite filter_app. f_equal; [apply IH|exact IHc].
Qed.
Print Assumptions C95_rows.
Example C95_rows_ex : let r i := El (tx "tr") [] (tx i) [] in
  each_named (tx "tr") (El (tx "emu-table") [] [] [White; El (tx "tr") [] (tx "a") [r "b"%string; White]; r "c"%string]) = [El (tx "tr") [] (tx "a") [r "b"%string; White]; r "b"%string; r "c"%string].
Proof. vm_compute. reflexivity. Qed.

(* a backslash is dropped and the next character kept, unless there is none or it is the end of a line *)
Inductive escapes_dropped : text -> text -> Prop :=
| ed_nil : escapes_dropped [] []
| ed_keep c t u : (c = 92%N -> t = [] \/ exists t', t = 10%N :: t') -> escapes_dropped t u -> escapes_dropped (c :: t) (c :: u)
| ed_drop d t u : d <> 10%N -> escapes_dropped t u -> escapes_dropped (92%N :: d :: t) (d :: u).
Lemma unescape_dropped : forall n t, length t <= n -> escapes_dropped t (unescape t).
Proof.
  induction n as [|n IH]; intros [|c t] L; cbn [length] in L; try lia; try constructor. cbn [unescape]. destruct (N.eqb_spec c 92) as [->|D].
  - destruct t as [|d t]; [apply ed_keep; [auto|constructor]|]. cbn [length] in L. destruct (N.eqb_spec d 10) as [->|D]; [|apply ed_drop; [assumption|apply IH; lia]].
    apply ed_keep; [eauto|]. apply ed_keep; [discriminate|]. apply IH. lia.
  - apply ed_keep; [congruence|apply IH; lia].
Qed.
Lemma dropped_once t u : escapes_dropped t u -> forall v, escapes_dropped t v -> u = v.
Proof.
  induction 1 as [|c t u H1 H2 IH|d t u H1 H2 IH]; intros v K; inversion K as [|c' t' u' K1 K2|d' t' u' K1 K2]; subst; try reflexivity.
  - f_equal. now apply IH. - destruct (H1 eq_refl) as [X|(x & X)]; [discriminate|]. exfalso. apply K1. congruence.
  - destruct (K1 eq_refl) as [X|(x & X)]; [discriminate|]. exfalso. apply H1. congruence. - f_equal. now apply IH.
Qed.
Lemma dropped_in t u : escapes_dropped t u -> forall c, In c u -> In c t.
Proof. induction 1 as [|c t u H1 H2 IH|d t u H1 H2 IH]; intros x I; cbn [In] in *; intuition. Qed.
(* A cell without entities and not in backticks is its text with the escapes dropped. *)
Theorem C95_escapes : forall t u, ~ In 38%N t -> ~ (exists m, ~ In 96%N m /\ t = tx "`" ++ m ++ tx "`") -> quasi_ecmarkdown t = u <-> escapes_dropped t u.
Proof.
  intros t u NA NQ. unfold quasi_ecmarkdown. rewrite unquote_other by exact NQ. pose proof (unescape_dropped _ t (le_n _)) as D.
  assert (NC : forall p, In 38%N p -> ~ contains p (unescape t)). { intros p I (a & b & E). apply NA. apply (dropped_in _ _ D). rewrite E. apply in_or_app. right. apply in_or_app. now left. }
  rewrite (replace_absent (tx "&lt;")); [|discriminate|apply NC; now left]. rewrite (replace_absent (tx "&gt;")); [|discriminate|apply NC; now left].
  split; [now intros <-|]. intros K. eapply dropped_once; eassumption.
Qed.
Print Assumptions C95_escapes.
Example C95_escapes_ex : quasi_ecmarkdown (tx "a\*\\b\") = tx "a*\b\" /\ quasi_ecmarkdown (tx "\" ++ [10%N] ++ tx "c") = tx "\" ++ [10%N] ++ tx "c" /\ ~ In 38%N (tx "a\*\\b\").
Proof. vm_compute. repeat split; intuition discriminate. Qed.
