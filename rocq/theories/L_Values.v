(* What it is for two values to be the same, what descriptions mean, and how the
   model's tests relate to that. *)
From Coq Require Import Ascii String QArith.
From Verif Require Import M_Base L_Base M_HTML M_Shared M_Mathnum M_Values.
Open Scope list_scope.
Open Scope nat_scope.
Notation length := List.length.

(* the mathematical value that a Python number stands for *)
Definition qval (m : mnum) : Q := match m with MInt z => inject_Z z | MFlt k => Qmake k (2 ^ 1074)%positive end.

Lemma unit_pos : unit_ = Zpos (2 ^ 1074)%positive.
Proof. vm_compute. reflexivity. Qed.
Lemma unit_gt0 : (0 < unit_)%Z.
Proof. rewrite unit_pos. reflexivity. Qed.

Lemma units_qval a b : units a = units b <-> Qeq (qval a) (qval b).
Proof.
  unfold Qeq. pose proof unit_gt0 as U. destruct a as [x|x], b as [y|y]; cbn [units qval Qnum Qden inject_Z]; rewrite <- ?unit_pos.
  - split; intros H; [|nia]. apply Z.mul_cancel_r in H; [now subst|lia].
  - split; intros H; lia.
  - split; intros H; lia.
  - split; intros H; [now subst|]. now apply Z.mul_cancel_r in H; [|lia].
Qed.

(* a is the same value as b: the specification's notion.  Symbols, Objects and
   Parse Nodes have identities. *)
Inductive same : val -> val -> Prop :=
| same_undefined : same VUndefined VUndefined
| same_null : same VNull VNull
| same_boolean b : same (VBoolean b) (VBoolean b)
| same_string us : same (VString us) (VString us)
| same_symbol i x y : same x y -> same (VSymbol i x) (VSymbol i y)
| same_number n : same (VNumber n) (VNumber n)
| same_object i n : same (VObject i n) (VObject i n)
| same_list l m : Forall2 same l m -> same (VList l) (VList m)
| same_code_point c : same (VCodePoint c) (VCodePoint c)
| same_code_points t : same (VCodePoints t) (VCodePoints t)
| same_code_unit u : same (VCodeUnit u) (VCodeUnit u)
| same_adhoc t : same (VAdhoc t) (VAdhoc t)
| same_math x y : Qeq (qval x) (qval y) -> same (VMath x) (VMath y)
| same_node i s t s' t' : same (VNode i s t) (VNode i s' t')
| same_absent i : same (VAbsent i) (VAbsent i)
| same_nonterminal t : same (VNonterminal t) (VNonterminal t)
| same_terminal t : same (VTerminal t) (VTerminal t).

(* no Numbers, Symbols or Objects in it *)
Fixpoint plain (v : val) : Prop :=
  match v with
  | VNumber _ | VSymbol _ _ | VObject _ _ => False
  | VList l => (fix go l := match l with [] => True | x :: l' => plain x /\ go l' end) l
  | _ => True
  end.
(* what the comparison does not see: all Numbers look like NaN, and Symbols and
   Objects have no identity *)
Fixpoint blur (v : val) : val :=
  match v with
  | VNumber _ => VNumber NaN
  | VSymbol _ d => VSymbol 0 (blur d)
  | VObject _ n => VObject 0 n
  | VList l => VList (map blur l)
  | v => v
  end.

Section Ind.
  Variable P : val -> Prop.
  Hypothesis Hsym : forall i d, P d -> P (VSymbol i d).
  Hypothesis Hlist : forall l, Forall P l -> P (VList l).
  Hypothesis Hrest : forall v, (forall i d, v <> VSymbol i d) -> (forall l, v <> VList l) -> P v.
  Fixpoint val_ind' (v : val) : P v.
  Proof.
    destruct v as [| |b|us|i d|n|i n|l|c|t|u|t|m|i s t|i|t|t]; try (apply Hrest; congruence).
    - apply Hsym, val_ind'.
    - apply Hlist. induction l as [|x l IH]; constructor; [apply val_ind'|exact IH].
  Defined.
End Ind.

Lemma py_eq_list l m : py_eq (VList l) (VList m) = true <-> Forall2 (fun a b => py_eq a b = true) l m.
Proof.
  cbn [py_eq]. revert m. induction l as [|x l IH]; intros [|y m]; split; intros H; try discriminate; try constructor; try now inversion H.
  - apply andb_true_iff in H. tauto.
  - apply IH. apply andb_true_iff in H. tauto.
  - inversion H as [|? ? ? ? A B]; subst. rewrite A. cbn [andb]. now apply IH.
Qed.

Lemma cls_eq_iff a b : cls_beq a b = true <-> a = b.
Proof. split; [apply internal_cls_dec_bl|apply internal_cls_dec_lb]. Qed.
Lemma py_eq_class a b : py_eq a b = true -> class_of a = class_of b.
Proof. destruct a, b; cbn; congruence. Qed.
Lemma same_value_py a b : same_value a b = py_eq a b.
Proof.
  unfold same_value. destruct (cls_beq _ _) eqn:E; [reflexivity|]. destruct (py_eq a b) eqn:F; [|reflexivity].
  apply py_eq_class in F. apply cls_eq_iff in F. congruence.
Qed.
Lemma Forall2_map_iff {A B} (R : B -> B -> Prop) (f : A -> B) l m : Forall2 R (map f l) (map f m) <-> Forall2 (fun a b => R (f a) (f b)) l m.
Proof.
  revert m. induction l as [|x l IH]; intros [|y m]; cbn [map]; split; intros H; inversion H; subst; constructor; try assumption; apply IH; assumption.
Qed.

Lemma py_eq_blur a : forall b, py_eq a b = true <-> same (blur a) (blur b).
Proof.
  induction a as [i d IH|l IH|v N1 N2] using val_ind'; intros b.
  - destruct b; cbn [py_eq blur]; split; intros H; try discriminate; try now inversion H.
    + constructor. now apply IH.
    + inversion H; subst. now apply IH.
  - destruct b as [| |b|us|i d|n|i n|m|c|t|u|t|m|i s t|i|t|t]; try (split; [discriminate|intros H; now inversion H]).
    rewrite py_eq_list. cbn [blur]. split; intros H.
    + constructor. apply (Forall2_map_iff same blur). revert m H. induction IH as [|x l Hx _ IHl]; intros m H; inversion H; subst; constructor; auto. now apply Hx.
    + inversion H as [| | | | | | |? ? F| | | | | | | | |]; subst. apply (Forall2_map_iff same blur) in F. clear H. revert m F. induction IH as [|x l Hx _ IHl]; intros m F; inversion F; subst; constructor; auto. now apply Hx.
  - destruct v as [| |b0|us|i d|n|i n|m|c|t|u|t|m|i s t|i|t|t]; try (exfalso; now eapply N1); try (exfalso; now eapply N2);
      destruct b as [| |b1|us'|i' d'|n'|i' n'|m'|c'|t'|u'|t'|m'|i' s' t'|i'|t'|t']; cbn [py_eq blur]; (split; intros H; [|try now inversion H]); try discriminate; try now constructor.
    + apply eqb_prop in H. subst. constructor.
    + inversion H; subst. apply eqb_reflx.
    + apply text_eqb_eq in H. subst. constructor.
    + inversion H; subst. now apply text_eqb_eq.
    + apply Nat.eqb_eq in H. subst. constructor.
    + inversion H; subst. apply Nat.eqb_refl.
    + apply N.eqb_eq in H. subst. constructor.
    + inversion H; subst. apply N.eqb_refl.
    + apply text_eqb_eq in H. subst. constructor.
    + inversion H; subst. now apply text_eqb_eq.
    + apply N.eqb_eq in H. subst. constructor.
    + inversion H; subst. apply N.eqb_refl.
    + apply text_eqb_eq in H. subst. constructor.
    + inversion H; subst. now apply text_eqb_eq.
    + apply Z.eqb_eq in H. constructor. now apply units_qval.
    + inversion H as [| | | | | | | | | | | |? ? Q| | | |]; subst. apply Z.eqb_eq. now apply units_qval.
    + apply Nat.eqb_eq in H. subst. constructor.
    + inversion H; subst. apply Nat.eqb_refl.
    + apply Nat.eqb_eq in H. subst. constructor.
    + inversion H; subst. apply Nat.eqb_refl.
    + apply text_eqb_eq in H. subst. constructor.
    + inversion H; subst. now apply text_eqb_eq.
    + apply text_eqb_eq in H. subst. constructor.
    + inversion H; subst. now apply text_eqb_eq.
Qed.

Lemma blur_plain v : plain v -> blur v = v.
Proof.
  induction v as [i d IH|l IH|v N1 N2] using val_ind'; intros P.
  - destruct P.
  - cbn [blur]. f_equal. cbn [plain] in P. induction IH as [|x l Hx _ IHl]; [reflexivity|]. destruct P as (P1 & P2). cbn [map]. f_equal; auto.
  - destruct v; try reflexivity; try (destruct P). now destruct (N2 elements).
Qed.
Lemma blur_keeps_same a b : same a b -> same (blur a) (blur b).
Proof.
  revert b. induction a as [i d IH|l IH|v N1 N2] using val_ind'; intros b H.
  - inversion H; subst. cbn [blur]. constructor. now apply IH.
  - inversion H as [| | | | | | |? ? F| | | | | | | | |]; subst. cbn [blur]. constructor. apply (Forall2_map_iff same blur). clear H. revert F. revert m. induction IH as [|x l Hx _ IHl]; intros m F; inversion F; subst; constructor; auto.
  - inversion H; subst; cbn [blur]; try (exfalso; now eapply N1); try (exfalso; now eapply N2); constructor; try assumption.
Qed.

Lemma same_refl a : same a a.
Proof.
  induction a as [i d IH|l IH|v N1 N2] using val_ind'.
  - now constructor.
  - constructor. induction IH; constructor; auto.
  - destruct v; try constructor; try reflexivity; try (exfalso; now eapply N1); exfalso; now eapply N2.
Qed.
Lemma same_sym a b : same a b -> same b a.
Proof.
  revert b. induction a as [i d IH|l IH|v N1 N2] using val_ind'; intros b H.
  - inversion H; subst. constructor. now apply IH.
  - inversion H as [| | | | | | |? ? F| | | | | | | | |]; subst. constructor. clear H. revert F. revert m. induction IH as [|x l Hx _ IHl]; intros m F; inversion F; subst; constructor; auto.
  - inversion H; subst; try (exfalso; now eapply N1); try (exfalso; now eapply N2); constructor. now symmetry.
Qed.
Lemma same_trans a b c : same a b -> same b c -> same a c.
Proof.
  revert b c. induction a as [i d IH|l IH|v N1 N2] using val_ind'; intros b c H K.
  - inversion H; subst. inversion K; subst. constructor. eapply IH; eassumption.
  - inversion H as [| | | | | | |? ? F| | | | | | | | |]; subst. inversion K as [| | | | | | |? ? G| | | | | | | | |]; subst. constructor. clear H K.
    revert m m0 F G. induction IH as [|x l Hx _ IHl]; intros m k F G; inversion F; subst; inversion G; subst; constructor; eauto.
  - inversion H; subst; inversion K; subst; try (exfalso; now eapply N1); try (exfalso; now eapply N2); constructor. etransitivity; eassumption.
Qed.

Lemma same_value_blur a b : same_value a b = true <-> same (blur a) (blur b).
Proof. rewrite same_value_py. apply py_eq_blur. Qed.
Lemma same_value_plain a b : plain a -> plain b -> (same_value a b = true <-> same a b).
Proof. intros A B. rewrite same_value_blur, !blur_plain by assumption. reflexivity. Qed.

(* Descriptions.  What each of them says of a value *)
Inductive means : val -> vdesc -> Prop :=
| means_literal v w : same v w -> means v (DLiteral w)
| means_string us : means (VString us) DString
| means_symbol i d : means (VSymbol i d) DSymbol
| means_number n : means (VNumber n) DNumber
| means_node i s t : means (VNode i s t) DParseNode
| means_symbol_of nt : means (VNonterminal nt) (DSymbolOf nt)
| means_instance_nt i s : means (VNode i s false) DInstanceNT
| means_instance_n i n t : means (VNode i (SymNT n) t) (DInstanceOf (VNonterminal n))
| means_instance_t i c t : means (VNode i (SymLit c) t) (DInstanceOf (VTerminal c))
| means_any v ds d : In d ds -> means v d -> means v (DAnyOf ds).
(* the literals in it are plain *)
Fixpoint plain_desc (d : vdesc) : Prop :=
  match d with
  | DLiteral v => plain v
  | DAnyOf ds => (fix go l := match l with [] => True | x :: l' => plain_desc x /\ go l' end) ds
  | _ => True
  end.
(* the value is of the kind that the question is about *)
Fixpoint sensible (v : val) (d : vdesc) : Prop :=
  match d with
  | DSymbolOf _ => match v with VNonterminal _ | VTerminal _ => True | _ => False end
  | DInstanceNT => match v with VNode _ _ _ => True | _ => False end
  | DInstanceOf g => match v with VNode _ _ _ => True | _ => False end /\ match g with VNonterminal _ | VTerminal _ => True | _ => False end
  | DAnyOf ds => (fix go l := match l with [] => True | x :: l' => sensible v x /\ go l' end) ds
  | _ => True
  end.

Section DInd.
  Variable P : vdesc -> Prop.
  Hypothesis Hany : forall l, Forall P l -> P (DAnyOf l).
  Hypothesis Hrest : forall d, (forall l, d <> DAnyOf l) -> P d.
  Fixpoint vdesc_ind' (d : vdesc) : P d.
  Proof.
    destruct d as [v| | | | |nt| |g|l]; try (apply Hrest; congruence).
    apply Hany. induction l as [|x l IH]; constructor; [apply vdesc_ind'|exact IH].
  Defined.
End DInd.

Lemma matches_any v d ds : matches v (DAnyOf (d :: ds)) = bind (matches v d) (fun b => if b then Ok true else matches v (DAnyOf ds)).
Proof. reflexivity. Qed.

Lemma matches_means v d : plain v -> plain_desc d -> forall b, matches v d = Ok b -> (b = true <-> means v d).
Proof.
  intros PV. induction d as [l IH|d N] using vdesc_ind'; intros PD b H.
  - revert b PD H. induction IH as [|d l Hd _ IHl]; intros b PD H.
    + cbn in H. injection H as <-. split; [discriminate|]. intros M. inversion M as [| | | | | | | | |? ? ? I]; destruct I.
    + destruct PD as (P1 & P2). rewrite matches_any in H. destruct (matches v d) as [[|]|] eqn:E; cbn [bind] in H; [| |discriminate].
      * injection H as <-. split; [intros _|reflexivity]. apply means_any with d; [now left|]. now apply (Hd P1 true eq_refl).
      * rewrite (IHl b P2 H). split; intros M; inversion M as [| | | | | | | | |? ? d' I K]; subst.
        -- apply means_any with d'; [now right|exact K].
        -- destruct I as [->|I]; [now apply (Hd P1 false eq_refl) in K|]. now apply means_any with d'.
  - destruct d as [w| | | | |nt| |g|l]; cbn [matches] in H; try (now destruct (N l)).
    + injection H as <-. rewrite same_value_plain by assumption. split; intros M; [now constructor|now inversion M].
    + injection H as <-. rewrite cls_eq_iff. split; intros M; [destruct v; try discriminate; constructor|now inversion M].
    + injection H as <-. rewrite cls_eq_iff. split; intros M; [destruct v; try discriminate; constructor|now inversion M].
    + injection H as <-. rewrite cls_eq_iff. split; intros M; [destruct v; try discriminate; constructor|now inversion M].
    + injection H as <-. rewrite cls_eq_iff. split; intros M; [destruct v; try discriminate; constructor|now inversion M].
    + destruct v; try discriminate H; injection H as <-; split; intros M; try discriminate; try now inversion M.
      * apply text_eqb_eq in M. subst. constructor.
      * inversion M; subst. now apply text_eqb_eq.
    + destruct v; try discriminate H; injection H as <-; split; intros M.
      * destruct is_terminal; [discriminate|constructor].
      * now inversion M.
    + destruct g; try discriminate H; cbn [bind] in H; destruct v; try discriminate H; injection H as <-; split; intros M.
      * destruct symbol; cbn in M; try discriminate. apply text_eqb_eq in M. subst. constructor.
      * inversion M; subst. cbn. now apply text_eqb_eq.
      * destruct symbol; cbn in M; try discriminate. apply text_eqb_eq in M. subst. constructor.
      * inversion M; subst. cbn. now apply text_eqb_eq.
Qed.
Lemma matches_total v d : sensible v d -> exists b, matches v d = Ok b.
Proof.
  induction d as [l IH|d N] using vdesc_ind'; intros S.
  - induction IH as [|d l Hd _ IHl]; [now exists false|]. destruct S as (S1 & S2). rewrite matches_any. destruct (Hd S1) as ([|] & ->); cbn [bind]; eauto.
  - destruct d as [w| | | | |nt| |g|l]; cbn [matches]; eauto.
    + destruct v; try destruct S; eauto.
    + destruct v; try destruct S; eauto.
    + destruct S as (S1 & S2). destruct g; try destruct S2; cbn [bind]; destruct v; try destruct S1; eauto.
    + now destruct (N l).
Qed.
Lemma matches_err v d e : matches v d = Err e -> e = AssertionError.
Proof.
  induction d as [l IH|d N] using vdesc_ind'; intros H.
  - induction IH as [|d l Hd _ IHl]; [discriminate|]. rewrite matches_any in H. destruct (matches v d) as [[|]|] eqn:E; cbn [bind] in H; [discriminate|auto|]. injection H as <-. auto.
  - destruct d as [w| | | | |nt| |g|l]; cbn [matches] in H; try discriminate; try (destruct v; try discriminate; congruence).
    + destruct g; cbn [bind] in H; try congruence; destruct v; congruence.
    + now destruct (N l).
Qed.
