(* The check of indentation over the tree of elements. *)
From Coq Require Import Ascii String Sorted.
From Verif Require Import M_Base L_Base M_HTML M_Layout L_Layout Properties_Layout M_Indent L_Indent L_IndentTree.
Open Scope list_scope.
Notation length := List.length.

Section ElemInd.
Variable P : elem -> Prop.
Hypothesis H : forall n, Forall P (kids n) -> P n.
Fixpoint elem_rect' (n : elem) : P n :=
  match n with Elem a b c d e f g h ks => H (Elem a b c d e f g h ks) ((fix go (l : list elem) : Forall P l := match l with [] => Forall_nil _ | x :: l' => Forall_cons x (elem_rect' x) (go l') end) ks) end.
End ElemInd.

(* elements whose children are looked at *)
Definition opened (s : text) (n : elem) : Prop :=
  ename n <> tx "#LITERAL" /\ ename n <> tx "#COMMENT" /\ ~ one_line s (sp n) (ep n) /\ the_code n = None /\ ~ inline n.
Inductive reached (s : text) : elem -> elem -> Prop :=
| RSelf n : reached s n n
| RKid n c m : opened s n -> In c (kids n) -> reached s c m -> reached s n m.
(* the content of a pre is a code that is not of the class javascript *)
Definition odd_code (s : text) (m : elem) : Prop :=
  ename m = tx "pre" /\ ~ one_line s (sp m) (ep m) /\ exists c, the_code m = Some c /\ cls c <> Some (tx "javascript").

Definition check_list (s : text) (e : nat) : list elem -> list msg * res unit :=
  fix loop (l : list elem) : list msg * res unit := match l with [] => ([], Ok tt) | c :: l' => andthen (check_node s e c) (loop l') end.
Lemma doc_list : forall s l, check_doc s l = check_list s 0 l.
Proof. intros s. induction l as [|c l IH]; [reflexivity|]. cbn [check_doc check_list]. now rewrite IH. Qed.

Definition child_indent (s : text) (n : elem) (i : nat) : nat :=
  if existsb (text_eqb (ename n)) [tx "html"; tx "head"; tx "body"] then i
  else if existsb (text_eqb (ename n)) [tx "thead"; tx "tbody"] then
    let next := line_end s (sp n) + 1 in
    let piece := slice next (next + i + 2) s in
    if negb (length piece =? 0) && forallb py_space piece then i + 2 else i
  else i + 2.
Definition end_tag (s : text) (e : nat) (n : elem) : list msg :=
  if text_eqb (ename n) (tx "p") && has_br n && negb (starts_with [10%N] (slice (isp n) (iep n) s)) then [] else check_tag s e (line_start s (ep n)) (iep n) (ename n).
Definition is_inline (n : elem) : bool := existsb (text_eqb (ename n)) [tx "emu-grammar"; tx "emu-alg"; tx "emu-eqn"] || negb (has_block n).
Lemma teqb_dec : forall a b, text_eqb a b = if list_eq_dec N.eq_dec a b then true else false.
Proof. intros a b. destruct (list_eq_dec N.eq_dec a b) as [->|N]; [now apply text_eqb_eq|]. destruct (text_eqb a b) eqn:E; [|reflexivity]. apply text_eqb_eq in E. contradiction. Qed.

Lemma node_eq : forall s e n, check_node s e n =
  if text_eqb (ename n) (tx "#LITERAL") then ([], Ok tt)
  else if line_start s (sp n) =? line_start s (ep n) then (check_tag s e (line_start s (sp n)) (sp n) (ename n), Ok tt)
  else
    let i := sp n - line_start s (sp n) in
    andthen (check_tag s e (line_start s (sp n)) (sp n) (ename n), Ok tt)
      (if text_eqb (ename n) (tx "#COMMENT") then check_inline s true n (i + 2)
       else match the_code n with
            | Some c => match cls c with
                        | None => ([], Err KeyError)
                        | Some k => if text_eqb k (tx "javascript") then andthen (check_inline s false c (i + 2)) (check_tag s e (line_start s (ep n)) (iep c) (tx "code"), Ok tt) else ([], Err AssertionError)
                        end
            | None => andthen (if is_inline n then check_inline s false n (i + 2) else check_list s (child_indent s n i) (kids n)) (end_tag s e n, Ok tt)
            end).
Proof.
  intros s e [name nsp nep nisp niep block br ncls nkids]. cbn [check_node ename sp ep isp iep kids has_block has_br].
  destruct (text_eqb name (tx "#LITERAL")); [reflexivity|]. destruct (line_start s nsp =? line_start s nep); [reflexivity|]. cbv zeta. f_equal.
  destruct (text_eqb name (tx "#COMMENT")); [reflexivity|].
  assert (Ec : the_code (Elem name nsp nep nisp niep block br ncls nkids) =
    (if text_eqb name (tx "pre") then match nkids with [c] => if text_eqb (ename c) (tx "code") then Some c else None | _ => None end else None)).
  { unfold the_code. cbn [ename]. rewrite teqb_dec. destruct nkids as [|c [|c' ks]]; [destruct (list_eq_dec N.eq_dec name (tx "pre")); reflexivity| |destruct (list_eq_dec N.eq_dec name (tx "pre")); reflexivity].
    destruct (list_eq_dec N.eq_dec name (tx "pre")); [|reflexivity]. rewrite teqb_dec. destruct (list_eq_dec N.eq_dec (ename c) (tx "code")); reflexivity. }
  rewrite <- Ec. destruct (the_code _) as [c|]; [destruct (cls c) as [k|]; [destruct (text_eqb k (tx "javascript"))|]; reflexivity|].
  unfold is_inline, end_tag, child_indent. cbn [ename sp ep isp iep kids has_block has_br]. f_equal.
  - destruct (existsb (text_eqb name) [tx "emu-grammar"; tx "emu-alg"; tx "emu-eqn"]); [reflexivity|]. destruct (negb block); reflexivity.
  - destruct (text_eqb name (tx "p") && br && negb (starts_with [10%N] (slice nisp niep s))); reflexivity.
Qed.

Lemma ex_in : forall n l, existsb (text_eqb n) l = true <-> In n l.
Proof. intros n l. rewrite existsb_exists. split; [intros (x & Hx & E); apply text_eqb_eq in E; now subst|intros H; exists n; split; [exact H|now apply text_eqb_eq]]. Qed.
Lemma is_inline_iff : forall n, is_inline n = true <-> inline n.
Proof. intros n. unfold is_inline, inline. rewrite orb_true_iff, ex_in, negb_true_iff. reflexivity. Qed.
Lemma inner_fun : forall s n e, sp n <= length s -> inner s n e (child_indent s n e).
Proof.
  intros s n e Hl. unfold child_indent, inner. destruct (existsb _ [tx "html"; tx "head"; tx "body"]) eqn:E1. { left. split; [now apply ex_in|reflexivity]. }
  right. destruct (existsb _ [tx "thead"; tx "tbody"]) eqn:E2.
  - left. split; [now apply ex_in|]. pose proof (deeper_spec s (sp n) (e + 2) Hl ltac:(lia)) as D. cbv zeta. replace (line_end s (sp n) + 1 + e + 2) with (line_end s (sp n) + 1 + (e + 2)) by lia.
    destruct (negb _ && _); [left; split; [now apply D|reflexivity]|right; split; [|reflexivity]]. intros X. apply D in X. discriminate.
  - right. split; [|reflexivity]. intros X. assert (In (ename n) [tx "html"; tx "head"; tx "body"] \/ In (ename n) [tx "thead"; tx "tbody"]) as [Y|Y].
    { cbn [In] in X |- *. destruct X as [X|[X|[X|[X|[X|[]]]]]]; auto. }
    + apply ex_in in Y. congruence. + apply ex_in in Y. congruence.
Qed.
Lemma html_not_thead : forall x, In x [tx "html"; tx "head"; tx "body"] -> In x [tx "thead"; tx "tbody"] -> False.
Proof. intros x [<-|[<-|[<-|[]]]] [E|[E|[]]]; discriminate. Qed.
Lemma inner_unique : forall s n e a b, inner s n e a -> inner s n e b -> a = b.
Proof.
  intros s n e a b Ha Hb. unfold inner in *.
  assert (X : forall x, In x [tx "html"; tx "head"; tx "body"] \/ In x [tx "thead"; tx "tbody"] -> In x [tx "html"; tx "head"; tx "body"; tx "thead"; tx "tbody"]).
  { intros x [[<-|[<-|[<-|[]]]]|[<-|[<-|[]]]]; cbn [In]; tauto. }
  pose proof (X (ename n)) as Xn. pose proof (html_not_thead (ename n)) as Yn.
  destruct Ha as [[A1 ->]|[[A1 A2]|[A1 ->]]], Hb as [[B1 ->]|[[B1 B2]|[B1 ->]]]; try reflexivity; try tauto.
  destruct A2 as [[A2 ->]|[A2 ->]], B2 as [[B2 ->]|[B2 ->]]; tauto.
Qed.
Lemma open_iff : forall s n, (text_eqb (ename n) (tx "p") && has_br n && negb (starts_with [10%N] (slice (isp n) (iep n) s))) = true <-> open_ended s n.
Proof.
  intros s n. unfold open_ended. rewrite !andb_true_iff, text_eqb_eq, negb_true_iff.
  assert (E : starts_with [10%N] (slice (isp n) (iep n) s) = true <-> isp n < iep n /\ has s (isp n) 10%N).
  { assert (Q : has (slice (isp n) (iep n) s) 0 10%N <-> starts_with [10%N] (slice (isp n) (iep n) s) = true).
    { destruct (slice (isp n) (iep n) s) as [|c t]; [split; discriminate|]. cbn [starts_with]. unfold has. cbn [nth_error]. rewrite andb_true_r. split; [intros [= ->]; reflexivity|]. intros H. apply N.eqb_eq in H. now subst. }
    rewrite <- Q, has_slice. replace (isp n + 0) with (isp n) by lia. tauto. }
  destruct (starts_with [10%N] (slice (isp n) (iep n) s)); split; intros H.
  - destruct H as [_ X]. discriminate.
  - destruct H as (_ & _ & X). exfalso. apply X. now apply E.
  - destruct H as [[A B] _]. split; [exact A|]. split; [exact B|]. intros X. apply E in X. discriminate.
  - tauto.
Qed.
Lemma andthen_nil : forall a b, andthen a b = ([], Ok tt) <-> a = ([], Ok tt) /\ b = ([], Ok tt).
Proof.
  intros [m [[]|x]] [m' r']; unfold andthen; cbn [fst snd].
  - split; [intros E; injection E as E1 ->; apply app_eq_nil in E1 as [-> ->]; auto|]. intros [E E']. injection E as ->. injection E' as -> ->. reflexivity.
  - split; [discriminate|]. intros [E _]. discriminate.
Qed.
Lemma pair_nil : forall (m : list msg), (m, Ok tt) = ([], Ok tt) <-> m = [].
Proof. intros m. split; [congruence|intros ->; reflexivity]. Qed.
Lemma inline_nil : forall s c n e, check_inline s c n e = ([], Ok tt) <-> (if c then content s (sp n + 4) (ep n - 3) e else content s (isp n) (iep n) e).
Proof. intros s c n e. rewrite inline_eq, pair_nil, (lchk_silent _ _ e (Nat.le_refl _)). destruct c; rewrite content_iff; reflexivity. Qed.
Lemma list_nil : forall s e l, (forall c, In c l -> (check_node s e c = ([], Ok tt) <-> laid s e c)) -> (check_list s e l = ([], Ok tt) <-> Forall (laid s e) l).
Proof.
  intros s e. induction l as [|c l IH]; intros H; [split; [constructor|reflexivity]|]. cbn [check_list]. rewrite andthen_nil, Forall_cons_iff, (H c (or_introl eq_refl)).
  fold (check_list s e l). rewrite IH; [reflexivity|]. intros d Hd. apply H. now right.
Qed.
Lemma the_code_pre : forall n c, the_code n = Some c -> ename n = tx "pre" /\ kids n = [c].
Proof.
  intros [name a b c' d e f g ks] c H. unfold the_code in H. destruct ks as [|k [|k' ks]]; try discriminate. cbn [ename kids] in *. destruct (list_eq_dec N.eq_dec name (tx "pre")); [|discriminate].
  destruct (list_eq_dec N.eq_dec (ename k) (tx "code")); [|discriminate]. split; congruence.
Qed.

Lemma node_silent : forall s n, wf s n -> forall e, check_node s e n = ([], Ok tt) <-> laid s e n.
Proof.
  intros s. apply (elem_rect' (fun n => wf s n -> forall e, check_node s e n = ([], Ok tt) <-> laid s e n)). intros n IH W e.
  inversion W as [n0 W1 W2 W3 W4 W5 W5c W6 W7 En0]. subst n0. rewrite node_eq.
  destruct (text_eqb (ename n) (tx "#LITERAL")) eqn:E1.
  { apply text_eqb_eq in E1. split; [intros _; now apply LLit|reflexivity]. }
  assert (N1 : ename n <> tx "#LITERAL") by (intros X; apply text_eqb_eq in X; congruence). clear E1.
  pose proof (check_tag_spec s e (line_start s (sp n)) (sp n) (ename n) ltac:(lia) (line_start_spec s (sp n))) as T.
  pose proof (same_line s (sp n) (ep n) W1) as O. destruct (line_start s (sp n) =? line_start s (ep n)) eqn:E2.
  { rewrite pair_nil, T. split.
    - intros P. apply LOne; [exact N1|exact P|now apply O].
    - intros L. inversion L; subst; try assumption. contradiction. }
  assert (N2 : ~ one_line s (sp n) (ep n)) by (intros X; apply O in X; discriminate). clear E2 O. cbv zeta. rewrite andthen_nil, pair_nil, T. clear T.
  assert (Pi : placed s (sp n) e -> sp n - line_start s (sp n) = e).
  { intros (ls & St & Ep & _). rewrite (starts_line_fun _ _ _ _ (line_start_spec s (sp n)) St). lia. }
  assert (Te : forall p nm, p <= ep n -> one_line s p (ep n) -> (check_tag s e (line_start s (ep n)) p nm = [] <-> placed s p e)).
  { intros p nm Hp Ho. apply check_tag_spec; [lia|]. apply (starts_before s _ p (ep n)); [apply line_start_spec|exact Hp|exact Ho]. }
  destruct (text_eqb (ename n) (tx "#COMMENT")) eqn:E3.
  { apply text_eqb_eq in E3. rewrite inline_nil. split.
    - intros [P C]. rewrite (Pi P) in C. apply LComment; assumption.
    - intros L. inversion L; subst; try contradiction.
      + split; [assumption|]. now rewrite Pi.
      + match goal with H : the_code n = Some _ |- _ => apply the_code_pre in H as [H _]; rewrite H in E3; discriminate end. }
  assert (N3 : ename n <> tx "#COMMENT") by (intros X; apply text_eqb_eq in X; congruence). clear E3.
  destruct (the_code n) as [c|] eqn:Ec.
  { destruct (W6 c eq_refl) as (Wa & Wb & Wc). split.
    - intros [P C]. rewrite (Pi P) in C. destruct (cls c) as [k|] eqn:Ek; [|discriminate]. destruct (text_eqb k (tx "javascript")) eqn:Ej; [|discriminate]. apply text_eqb_eq in Ej. subst k.
      rewrite andthen_nil, inline_nil, pair_nil, (Te _ _ Wb Wc) in C. destruct C as [C1 C2]. apply (LPre s e n c); assumption.
    - intros L. inversion L; subst; try contradiction; try congruence.
      match goal with H : the_code n = Some ?d |- _ => assert (d = c) by congruence; subst d end. split; [assumption|].
      match goal with H : cls c = _ |- _ => rewrite H end. assert (text_eqb (tx "javascript") (tx "javascript") = true) as -> by reflexivity.
      rewrite andthen_nil, inline_nil, pair_nil, (Te _ _ Wb Wc). rewrite Pi by assumption. auto. }
  rewrite andthen_nil, pair_nil.
  assert (Ee : end_tag s e n = [] <-> open_ended s n \/ placed s (iep n) e).
  { unfold end_tag. destruct (text_eqb (ename n) (tx "p") && has_br n && negb (starts_with [10%N] (slice (isp n) (iep n) s))) eqn:Eo.
    - apply open_iff in Eo. tauto.
    - assert (~ open_ended s n) by (intros X; apply open_iff in X; congruence). rewrite (Te (iep n) (ename n) W4 (W5 N1 N3)). tauto. }
  rewrite Ee. destruct (is_inline n) eqn:Ei.
  - apply is_inline_iff in Ei. rewrite inline_nil. split.
    + intros (P & C & D). rewrite (Pi P) in C. apply LText; assumption.
    + intros L. inversion L; subst; try contradiction; try congruence. split; [assumption|]. split; [now rewrite Pi|assumption].
  - assert (Ni : ~ inline n) by (intros X; apply is_inline_iff in X; congruence). clear Ei.
    assert (K : forall c, check_list s c (kids n) = ([], Ok tt) <-> Forall (laid s c) (kids n)).
    { intros c. apply list_nil. intros d Hd. rewrite Forall_forall in IH, W7. apply IH; auto. }
    split.
    + intros (P & C & D). rewrite (Pi P) in C. apply (LBlock s e n (child_indent s n e)); try assumption; [apply inner_fun; lia|]. now apply K.
    + intros L. inversion L; subst; try contradiction; try congruence. split; [assumption|]. split; [|assumption]. rewrite Pi by assumption.
      match goal with H : inner s n e ?c |- _ => rewrite (inner_unique s n e _ c (inner_fun s n e ltac:(lia)) H) end. now apply K.
Qed.
Lemma doc_silent : forall s doc, Forall (wf s) doc -> (check_doc s doc = ([], Ok tt) <-> Forall (laid s 0) doc).
Proof. intros s doc W. rewrite doc_list. apply list_nil. intros c Hc. apply node_silent. rewrite Forall_forall in W. auto. Qed.

(* --- when it fails --- *)
Lemma andthen_snd : forall a b, snd (andthen a b) = match snd a with Ok _ => snd b | Err e => Err e end.
Proof. intros [m [[]|x]] [m' r']; reflexivity. Qed.
Lemma reached_kids : forall s n m, opened s n -> (reached s n m <-> m = n \/ exists c, In c (kids n) /\ reached s c m).
Proof.
  intros s n m O. split.
  - intros R. inversion R as [|? c ? _ Hc Rc]; subst; [now left|right; exists c; auto].
  - intros [->|(c & Hc & R)]; [constructor|]. exact (RKid s n c m O Hc R).
Qed.
Lemma reached_not : forall s n m, ~ opened s n -> reached s n m -> m = n.
Proof. intros s n m O R. inversion R; subst; [reflexivity|contradiction]. Qed.
Lemma node_fails : forall s n, wf s n -> forall e,
  (snd (check_node s e n) = Ok tt <-> forall m, reached s n m -> ~ odd_code s m) /\ (forall x, snd (check_node s e n) = Err x -> x = KeyError \/ x = AssertionError).
Proof.
  intros s. apply (elem_rect' (fun n => wf s n -> forall e, (snd (check_node s e n) = Ok tt <-> forall m, reached s n m -> ~ odd_code s m) /\ (forall x, snd (check_node s e n) = Err x -> x = KeyError \/ x = AssertionError))).
  intros n IH W e. inversion W as [n0 W1 W2 W3 W4 W5 W5c W6 W7 En0]. subst n0. rewrite node_eq.
  assert (Q : forall (P : Prop), ~ opened s n -> ~ odd_code s n -> (Ok tt = Ok tt <-> forall m, reached s n m -> ~ odd_code s m) /\ (forall x, Ok tt = @Err unit x -> x = KeyError \/ x = AssertionError)).
  { intros _ O N. split; [|discriminate]. split; [|reflexivity]. intros _ m R. rewrite (reached_not s n m O R). exact N. }
  destruct (text_eqb (ename n) (tx "#LITERAL")) eqn:E1.
  { apply text_eqb_eq in E1. apply (Q True); [intros (X & _); contradiction|intros (X & _); rewrite X in E1; discriminate]. }
  pose proof (same_line s (sp n) (ep n) W1) as O. destruct (line_start s (sp n) =? line_start s (ep n)) eqn:E2.
  { assert (one_line s (sp n) (ep n)) by (now apply O). apply (Q True); [intros (_ & _ & X & _); contradiction|intros (_ & X & _); contradiction]. }
  assert (N2 : ~ one_line s (sp n) (ep n)) by (intros X; apply O in X; discriminate). clear E2 O. cbv zeta. rewrite andthen_snd. cbn [snd].
  destruct (text_eqb (ename n) (tx "#COMMENT")) eqn:E3.
  { apply text_eqb_eq in E3. rewrite inline_eq. apply (Q True); [intros (_ & X & _); contradiction|intros (X & _); rewrite X in E3; discriminate]. }
  destruct (the_code n) as [c|] eqn:Ec.
  { assert (No : ~ opened s n) by (intros (_ & _ & _ & X & _); congruence). pose proof (the_code_pre n c Ec) as [Np _].
    destruct (cls c) as [k|] eqn:Ek; [destruct (text_eqb k (tx "javascript")) eqn:Ej|].
    - apply text_eqb_eq in Ej. subst k. rewrite andthen_snd, inline_eq. cbn [snd]. apply (Q True No). intros (_ & _ & d & Hd & X). assert (d = c) by congruence. subst d. contradiction.
    - cbn [snd]. split; [|intros x [= <-]; now right]. split; [discriminate|]. intros H. exfalso. apply (H n); [constructor|]. split; [exact Np|]. split; [exact N2|]. exists c. split; [exact Ec|].
      rewrite Ek. intros X. assert (k = tx "javascript") by congruence. subst k. discriminate.
    - cbn [snd]. split; [|intros x [= <-]; now left]. split; [discriminate|]. intros H. exfalso. apply (H n); [constructor|]. split; [exact Np|]. split; [exact N2|]. exists c. split; [exact Ec|]. rewrite Ek. discriminate. }
  rewrite andthen_snd. cbn [snd]. assert (Nn : ~ odd_code s n) by (intros (_ & _ & c & X & _); congruence).
  destruct (is_inline n) eqn:Ei.
  { rewrite inline_eq. cbn [snd]. apply is_inline_iff in Ei. apply (Q True); [intros (_ & _ & _ & _ & X); contradiction|exact Nn]. }
  assert (On : opened s n).
  { split; [intros X; apply text_eqb_eq in X; congruence|]. split; [intros X; apply text_eqb_eq in X; congruence|]. split; [exact N2|]. split; [exact Ec|]. intros X. apply is_inline_iff in X. congruence. }
  generalize (child_indent s n (sp n - line_start s (sp n))). intros ch. rewrite Forall_forall in IH, W7.
  assert (L : forall l, incl l (kids n) -> (snd (check_list s ch l) = Ok tt <-> forall c m, In c l -> reached s c m -> ~ odd_code s m) /\ (forall x, snd (check_list s ch l) = Err x -> x = KeyError \/ x = AssertionError)).
  { induction l as [|c l IHl]; intros Hi; [split; [split; [intros _ c m []|reflexivity]|discriminate]|]. destruct (IHl (fun y Hy => Hi y (or_intror Hy))) as [L1 L2].
    destruct (IH c (Hi c (or_introl eq_refl)) (W7 c (Hi c (or_introl eq_refl))) ch) as [I1 I2]. cbn [check_list]. fold (check_list s ch l). rewrite andthen_snd.
    destruct (snd (check_node s ch c)) as [[]|x].
    - split; [|exact L2]. rewrite L1. split.
      + intros H d m [<-|Hd]; [exact (proj1 I1 eq_refl m)|exact (H d m Hd)].
      + intros H d m Hd. exact (H d m (or_intror Hd)).
    - split; [|exact I2]. split; [discriminate|]. intros H. apply I1. intros m. exact (H c m (or_introl eq_refl)). }
  destruct (L (kids n) (fun y Hy => Hy)) as [L1 L2]. destruct (snd (check_list s ch (kids n))) as [[]|x].
  - split; [|discriminate]. split; [|reflexivity]. intros _ m R. apply (reached_kids s n m On) in R as [->|(c & Hc & R)]; [exact Nn|]. exact (proj1 L1 eq_refl c m Hc R).
  - split; [|exact L2]. split; [discriminate|]. intros H. apply L1. intros c m Hc R. apply H. apply (reached_kids s n m On). right. exists c. auto.
Qed.

(* --- messages --- *)
Definition true_msg (s : text) (m : msg) : Prop :=
  match snd m with
  | Expected want got => placed s (fst m) got /\ got <> want
  | ExpectedLess top got => placed s (fst m) got /\ got < top
  | NotFirst _ => ~ exists e, placed s (fst m) e
  end.
Lemma lchk_in : forall n l e m, length l <= n -> In m (lchk l e) ->
  exists ind, In (ind, fst m) l /\ ((exists want, snd m = Expected want ind /\ ind <> want) \/ (exists top, snd m = ExpectedLess top ind /\ ind < top)).
Proof.
  induction n as [|n IH]; intros l e m Hn Hm; [destruct l; [destruct Hm|cbn in Hn; lia]|]. destruct l as [|[t x] l]; [destruct Hm|]. cbn in Hn.
  rewrite lchk_cons in Hm. apply in_app_iff in Hm as [Hm|Hm]; [|apply in_app_iff in Hm as [Hm|Hm]].
  - destruct (t =? e) eqn:E; [destruct Hm|]. destruct Hm as [<-|[]]. apply Nat.eqb_neq in E. exists t. split; [now left|]. left. exists e. auto.
  - unfold low in Hm. apply in_flat_map in Hm as ([i q] & Hq & Hm). destruct (i <? t) eqn:E; [|destruct Hm]. destruct Hm as [<-|[]]. apply Nat.ltb_lt in E. exists i. split; [now right|]. right. exists t. auto.
  - apply in_flat_map in Hm as (g & Hg & Hm). pose proof (groups_len _ _ _ Hg). destruct (IH g (t + 2) m ltac:(lia) Hm) as (ind & H1 & H2). exists ind. split; [|exact H2]. right.
    clear - Hg H1. revert g Hg H1. induction l as [|a l IH]; intros g Hg H1; cbn [groups] in Hg.
    + destruct Hg as [<-|[]]. destruct H1.
    + destruct (fst a <=? t).
      * destruct Hg as [<-|Hg]; [destruct H1|]. right. exact (IH g Hg H1).
      * destruct (groups_cons t l) as (h & hs & E). rewrite E in *. destruct Hg as [<-|Hg].
        -- destruct H1 as [->|H1]; [now left|right]. exact (IH h (or_introl eq_refl) H1).
        -- right. exact (IH g (or_intror Hg) H1).
Qed.
Lemma line_placed : forall s a b ind x, line_at s a b ind x -> placed s x ind.
Proof.
  intros s a b ind x (i & c & A & B & -> & D & _). exists (i + 1). split; [|split; [reflexivity|]].
  - split; [lia|]. split; [right; replace (i + 1 - 1) with i by lia; exact B|]. intros j Hj X. destruct (D j Hj) as (d & Hd & <-). pose proof (has_fun _ _ _ _ Hd X). discriminate.
  - intros k Hk. destruct (D k Hk) as (d & Hd & <-). exists 32%N. split; [exact Hd|]. unfold white. lia.
Qed.
Lemma inline_true : forall s c n e m, In m (fst (check_inline s c n e)) -> true_msg s m.
Proof.
  intros s c n e m H. rewrite inline_eq in H. cbn [fst] in H. apply (lchk_in _ _ _ _ (Nat.le_refl _)) in H as (ind & H1 & H2). unfold true_msg.
  assert (P : placed s (fst m) ind) by (destruct c; apply lines_spec in H1; exact (line_placed _ _ _ _ _ H1)).
  destruct H2 as [(w & -> & N)|(t & -> & L)]; auto.
Qed.
Lemma tag_true : forall s e ls p name m, p <= length s -> starts_line s ls p -> In m (check_tag s e ls p name) -> true_msg s m /\ fst m = p.
Proof.
  intros s e ls p name m Hp St H. unfold check_tag in H. destruct (forallb py_space (slice ls p s)) eqn:E.
  - rewrite slice_len in H by exact Hp. destruct (p - ls =? e) eqn:El; [destruct H|]. destruct H as [<-|[]]. apply Nat.eqb_neq in El. split; [|reflexivity]. unfold true_msg. cbn [fst snd].
    split; [|exact El]. exists ls. pose proof (proj1 St). split; [exact St|]. split; [lia|]. now apply forallb_slice.
  - destruct H as [<-|[]]. split; [|reflexivity]. unfold true_msg. cbn [fst snd]. intros (e' & ls' & St' & _ & W). rewrite (starts_line_fun _ _ _ _ St' St) in W. apply forallb_slice in W; [|exact Hp]. congruence.
Qed.
Lemma andthen_in : forall a b m, In m (fst (andthen a b)) -> In m (fst a) \/ In m (fst b).
Proof. intros [l [[]|x]] [l' r'] m; unfold andthen; cbn [fst snd]; [apply in_app_iff|auto]. Qed.
Lemma node_true : forall s n, wf s n -> forall e m, In m (fst (check_node s e n)) -> true_msg s m.
Proof.
  intros s. apply (elem_rect' (fun n => wf s n -> forall e m, In m (fst (check_node s e n)) -> true_msg s m)).
  intros n IH W e m H. inversion W as [n0 W1 W2 W3 W4 W5 W5c W6 W7 En0]. subst n0. rewrite node_eq in H.
  destruct (text_eqb (ename n) (tx "#LITERAL")) eqn:E1; [destruct H|].
  assert (T : In m (check_tag s e (line_start s (sp n)) (sp n) (ename n)) -> true_msg s m).
  { intros X. apply (tag_true s e _ (sp n) _ m ltac:(lia) (line_start_spec s (sp n)) X). }
  destruct (line_start s (sp n) =? line_start s (ep n)); [exact (T H)|]. cbv zeta in H. apply andthen_in in H as [H|H]; [exact (T H)|].
  assert (Te : forall p nm, p <= ep n -> one_line s p (ep n) -> In m (check_tag s e (line_start s (ep n)) p nm) -> true_msg s m).
  { intros p nm Hp Ho X. refine (proj1 (tag_true s e _ p nm m _ _ X)); [lia|]. apply (starts_before s _ p (ep n)); [apply line_start_spec|exact Hp|exact Ho]. }
  destruct (text_eqb (ename n) (tx "#COMMENT")) eqn:E3; [exact (inline_true _ _ _ _ _ H)|].
  destruct (the_code n) as [c|].
  { destruct (W6 c eq_refl) as (Wa & Wb & Wc). destruct (cls c) as [k|]; [|destruct H]. destruct (text_eqb k (tx "javascript")); [|destruct H].
    apply andthen_in in H as [H|H]; [exact (inline_true _ _ _ _ _ H)|exact (Te _ _ Wb Wc H)]. }
  apply andthen_in in H as [H|H].
  - destruct (is_inline n); [exact (inline_true _ _ _ _ _ H)|]. rewrite Forall_forall in IH, W7. revert H. generalize (child_indent s n (sp n - line_start s (sp n))). intros ch.
    assert (L : forall l, incl l (kids n) -> In m (fst (check_list s ch l)) -> true_msg s m).
    { induction l as [|c l IHl]; intros Hi H; [destruct H|]. cbn [check_list] in H. fold (check_list s ch l) in H. apply andthen_in in H as [H|H].
      - apply (IH c (Hi c (or_introl eq_refl)) (W7 c (Hi c (or_introl eq_refl))) ch m H).
      - apply IHl; [|exact H]. intros y Hy. apply Hi. now right. }
    apply L. intros y Hy. exact Hy.
  - cbn [fst] in H. unfold end_tag in H. destruct (text_eqb (ename n) (tx "p") && has_br n && negb (starts_with [10%N] (slice (isp n) (iep n) s))); [destruct H|].
    refine (Te (iep n) (ename n) W4 _ H). apply W5; intros X; apply text_eqb_eq in X; congruence.
Qed.
