(* C68: what is evaluated, and when; C69: what early error rules find and what is recorded. *)
From Verif Require Import M_Base L_Base M_Dict L_Dict M_Exec L_Exec L_ExecStack L_ExecBig L_ExecCond.

Section Exec.
  Variable prim : nat -> list (list val) -> list val -> res val.
  Variable test : nat -> list (list val) -> list val -> res bool.
  Variable resolve : nat -> option val -> res val.
  Variable covered : nat -> val -> option val.
  Variable algs : nat -> option alg.
  Variable dispatch : nat -> option val -> res ((nat * option val) + val).
  Notation run := (run prim test resolve covered algs dispatch).
  Notation evals := (evals prim test resolve covered algs dispatch).
  Notation holds := (holds prim test resolve covered algs dispatch).
  Notation big := (big prim test resolve covered algs dispatch).
  Notation in_seq := (in_seq prim test resolve covered algs dispatch).
  Notation eval_seq := (eval_seq prim test resolve covered algs dispatch).
  Notation eval_opt := (eval_opt prim test resolve covered algs dispatch).
  Notation done := (done prim test resolve covered algs dispatch).
  Notation abandoned := (abandoned prim test resolve covered algs dispatch).
  Notation tested := (tested prim test resolve covered algs dispatch).
  Notation applied := (applied prim test resolve covered algs dispatch).
  Notation in_order := (in_order prim test resolve covered algs dispatch).

  (* ---- C68 ---- *)
  (* "or": false when all operands were found false, in order; true when one was found true after all before it were found false - those after it are not evaluated *)
  Theorem C68_or : forall cs s s' b, quiet s ->
    (holds (COr cs) s s' b <->
     (b = false /\ in_seq false cs s s') \/ (b = true /\ exists pre c post s1, cs = pre ++ c :: post /\ in_seq false pre s s1 /\ holds c s1 s' true)).
  Proof. intros cs s s' b Q. exact (or_iff _ _ _ _ _ _ cs s s' b Q). Qed.
  Theorem C68_and : forall cs s s' b, quiet s ->
    (holds (CAnd cs) s s' b <->
     (b = true /\ in_seq true cs s s') \/ (b = false /\ exists pre c post s1, cs = pre ++ c :: post /\ in_seq true pre s s1 /\ holds c s1 s' false)).
  Proof. intros cs s s' b Q. exact (and_iff _ _ _ _ _ _ cs s s' b Q). Qed.
  (* "a, unless c": true when a is and c, evaluated only then, is not *)
  Theorem C68_unless : forall a c s s' b, quiet s ->
    (holds (CUnless a c) s s' b <-> (holds a s s' false /\ b = false) \/ exists s1, holds a s s1 true /\ ((holds c s1 s' false /\ b = true) \/ (holds c s1 s' true /\ b = false))).
  Proof.
    intros a c s s' b Q. rewrite (unless_iff _ _ _ _ _ _ a c s s' b Q). split; (intros [H|(s1 & H & K)]; [now left|right; exists s1; split; [exact H|]]).
    - destruct b; [left|right]; auto.
    - destruct K as [[K ->]|[K ->]]; exact K.
  Qed.
  (* atomic conditions and expressions get the values of their parts, evaluated in order *)
  Theorem C68_parts : forall k es s s', quiet s ->
    (forall b, holds (CTest k es) s s' b <-> exists vs, eval_seq es s s' vs /\ test k (heap s') vs = Ok b) /\
    (forall v, evals (EPrim k es) s s' v <-> exists vs, eval_seq es s s' vs /\ prim k (heap s') vs = Ok v) /\
    (forall v, evals (EList es) s s' v <-> exists s1 vs, eval_seq es s s1 vs /\ v = VList (length (heap s1)) /\ s' = mkSt (stack s1) (heap s1 ++ [vs]) (errs s1) (next s1)).
  Proof. intros k es s s' Q. split; [|split]; intros; [now apply test_iff|now apply prim_iff|now apply list_iff]. Qed.
  (* a variable, or a reference to the focus node, of the algorithm being executed *)
  Theorem C68_references : forall x s s' v, quiet s ->
    (evals (EVar x) s s' v <-> s' = s /\ get_var (top_contours s) x = Ok v) /\
    (evals (EFocus x) s s' v <-> s' = s /\ resolve x (top_focus s) = Ok v) /\
    (forall e, evals (ECovered x e) s s' v <-> exists u, evals e s s' u /\ covered x u = Some v).
  Proof. intros x s s' v Q. split; [|split]; intros; [now apply var_iff|now apply focus_iff|now apply covered_iff]. Qed.
  (* only the alternative that is chosen is evaluated *)
  Theorem C68_alternative : forall ea c eb s s' v, quiet s ->
    (evals (EIf ea c eb) s s' v <-> exists s1, (holds c s s1 true /\ evals ea s1 s' v) \/ (holds c s s1 false /\ evals eb s1 s' v)).
  Proof. intros. now apply ifexpr_iff. Qed.
  (* "ea, where x is eb": eb first, without x; x is in scope for ea only; the variables in scope afterwards are those from before *)
  Theorem C68_where : forall ea x eb s s' w, quiet s ->
    (evals (EWhere ea x eb) s s' w <->
     exists s1 v cs s2, evals eb s s1 v /\ let_var ([] :: top_contours s1) x v = Ok cs /\ evals ea (with_contours cs s1) s2 w /\ s' = with_contours (top_contours s1) s2).
  Proof. intros. now apply where_iff. Qed.
  (* a call: the focus node, then the arguments, then the algorithm that is in charge of that focus node *)
  Theorem C68_call : forall op fo es s s' v, quiet s ->
    (evals (ECall op fo es) s s' v <->
     exists s1 fv s2 vs, eval_opt fo s s1 fv /\ eval_seq es s1 s2 vs /\
       ((dispatch op fv = Ok (inr v) /\ s' = s2) \/ exists a fv' n, dispatch op fv = Ok (inl (a, fv')) /\ run n (TCall a fv' vs) s2 = (s', Val (RVal v)))).
  Proof. intros. now apply call_iff. Qed.

  (* ---- C69 ---- *)
  (* what has been recorded stays recorded, whatever is executed and however it ends *)
  Theorem C69_kept : forall n t s s' o, run n t s = (s', o) -> exists l, errs s' = errs s ++ l.
  Proof. intros n t s s' o H. now apply run_grows in H. Qed.
  (* evaluating records nothing *)
  Theorem C69_only_rules_record : forall s s',
    (forall e v, evals e s s' v -> errs s' = errs s) /\ (forall c b, holds c s s' b -> errs s' = errs s) /\ (forall c n v, run n (TCmd c) s = (s', Val v) -> errs s' = errs s).
  Proof.
    intros s s'. split; [|split].
    - intros e v H. eapply evals_errs; exact H.
    - intros c b H. eapply holds_errs; exact H.
    - intros c n v H. apply (proj1 (run_keeps _ _ _ _ _ _ n) (TCmd c) eq_refl _ _ _ H). discriminate.
  Qed.
  (* "It is a Syntax Error if c": one error is recorded if c holds, none otherwise *)
  Theorem C69_if : forall c s s', quiet s ->
    (done (RIf c) s s' <-> exists s1 b, holds c s s1 b /\ errs s1 = errs s /\ s' = mkSt (stack s1) (heap s1) (errs s ++ if b : bool then [top_id s] else []) (next s1)).
  Proof.
    intros c s s' Q. rewrite (if_iff _ _ _ _ _ _ c s s' Q). split.
    - intros (s1 & b & H & ->). exists s1, b. assert (E := holds_errs _ _ _ _ _ _ _ _ _ _ H). split; [exact H|]. split; [exact E|]. unfold record. rewrite E. do 2 f_equal. destruct H as (n & H). apply cond_same in H. unfold top_id. now rewrite H.
    - intros (s1 & b & H & E & ->). exists s1, b. split; [exact H|]. unfold record. rewrite E. do 2 f_equal. destruct H as (n & H). apply cond_same in H. unfold top_id. now rewrite H.
  Qed.
  (* "... if any element x of e ...": the elements are tested in turn, all of them, and each for which c holds gives one error *)
  Theorem C69_for_each : forall x e c s s', quiet s ->
    (done (RForEach x e c) s s' <-> exists s1 l bs, evals e s s1 (VList l) /\ tested x l c 0 s1 s' bs) /\
    (forall s1 l bs, evals e s s1 (VList l) -> tested x l c 0 s1 s' bs -> errs s' = errs s ++ repeat (top_id s) (length (filter (fun b : bool => b) bs)) /\
       forall vs, nth_error (heap s1) l = Some vs -> (forall t t' b, holds c t t' b -> nth_error (heap t) l = Some vs -> nth_error (heap t') l = Some vs) -> length bs = length vs).
  Proof.
    intros x e c s s' Q. split; [now apply foreach_iff|]. intros s1 l bs H T. split.
    - assert (E := evals_errs _ _ _ _ _ _ _ _ _ _ H). destruct H as (n & H). apply expr_same in H. apply tested_errs in T as [_ T]. unfold met, top_id in T. unfold top_id. now rewrite T, E, H.
    - intros vs V P. apply (tested_length _ _ _ _ _ _ x l c vs P) in T; [exact T|exact V|lia].
  Qed.
  (* "if c, and the following algorithm returns w": the algorithm is executed if c holds, and one error is recorded if w is what it returns; the rule's frame does not stay in the state of returning *)
  Theorem C69_algorithm : forall c w steps s s', quiet s ->
    (done (RAlg c w steps) s s' <->
     holds c s s' false \/
     exists s1 s2 v, holds c s s1 true /\ big steps s1 s2 (Some v) /\ quiet s2 /\
       ((v = VBool w /\ s' = mkSt (stack s2) (heap s2) (errs s2 ++ [top_id s2]) (next s2)) \/ (v <> VBool w /\ s' = s2))).
  Proof.
    intros c w steps s s' Q. rewrite (alg_iff _ _ _ _ _ _ c w steps s s' Q). split; (intros [H|(s1 & s2 & v & H & B & K)]; [now left|right; exists s1, s2, v; split; [exact H|]; split; [now apply B|]]).
    - assert (Q1 := holds_quiet _ _ _ _ _ _ _ _ _ _ H Q). split; [now apply (proj1 (big_depth _ _ _ _ _ _) _ _ _ _ B Q1)|]. subst s'. destruct (val_eqb v (VBool w)) eqn:V.
      + left. destruct v as [a|a|a]; cbn in V; try discriminate. apply eqb_prop in V as ->. auto.
      + right. split; [intros ->; cbn in V; now rewrite eqb_reflx in V|]. unfold record. rewrite app_nil_r. now destruct s2.
    - destruct K as (_ & [[-> ->]|[N ->]]); [cbn; now rewrite eqb_reflx|]. replace (val_eqb v (VBool w)) with false; [unfold record; rewrite app_nil_r; now destruct s2|]. destruct v as [a|a|a]; cbn; try reflexivity. symmetry. apply eqb_false_iff. congruence.
  Qed.
  (* "if c, ... the Early Error rules for ... are applied": each of them, in order, to the same focus node *)
  Theorem C69_apply : forall c rules s s', quiet s ->
    (done (RApply c rules) s s' <-> holds c s s' false \/ exists s1, holds c s s1 true /\ applied (top_focus s) rules s1 s').
  Proof. intros. now apply applyrule_iff. Qed.
  (* a list of rules is executed rule by rule; one that is abandoned, for a missing reference, does not keep the others from being executed *)
  Theorem C69_all_rules : forall a al rs fo args s s' v, algs a = Some al -> a_body al = BRules rs ->
    ((exists n, run n (TCall a fo args) s = (s', Val v)) <->
     v = RNone /\ exists cs s1 f, init_contours (a_params al) args = Ok cs /\
       in_order (next s) rs (mkSt (mkFrame (next s) fo cs None :: stack s) (heap s) (errs s) (S (next s))) s1 /\
       stack s1 = f :: stack s /\ fid f = next s /\ s' = mkSt (stack s) (heap s1) (errs s1) (next s1)).
  Proof.
    intros a al rs fo args s s' v Ea Eb. split.
    - intros ([|n] & H); [discriminate|]. assert (G := run_good _ _ _ _ _ _ _ _ _ _ _ H). cbn [M_Exec.run step] in H. rewrite Ea, Eb in H. apply bindM_val in H as (s0 & cs & H0 & H). apply lift_val in H0 as [-> Ei]. apply bindM_val in H as (s1 & i & H1 & H). injection H1 as <- <-.
      apply bindM_val in H as (s2 & r & H1 & H). apply bindM_val in H as (s3 & u & H2 & H). apply ret_val in H as [-> ->]. split; [eapply rules_none; exact H1|]. apply rules_sound in H1. unfold pop_frame in H2. destruct (stack s2) as [|f t] eqn:E2; [discriminate|]. destruct (Nat.eqb_spec (fid f) (next s)) as [F|]; [|discriminate]. injection H2 as <-.
      cbn [good] in G. destruct G as [_ G]. cbn in G. subst t. exists cs, s2, f. auto.
    - intros (-> & cs & s1 & f & Ei & O & E1 & F & ->). apply rules_complete in O as (n & O). exists (S n). cbn [M_Exec.run step]. rewrite Ea, Eb. rewrite (bindM_eq _ _ _ _ _ (lift_ok _ s _ Ei)). rewrite (bindM_eq _ _ _ _ _ (eq_refl : push_frame fo cs s = _)). rewrite (bindM_eq _ _ _ _ _ O).
      unfold pop_frame. unfold bindM at 1. rewrite E1, F, Nat.eqb_refl. reflexivity.
  Qed.
End Exec.
Print Assumptions C68_or.
Print Assumptions C68_and.
Print Assumptions C68_unless.
Print Assumptions C68_parts.
Print Assumptions C68_references.
Print Assumptions C68_alternative.
Print Assumptions C68_where.
Print Assumptions C68_call.
Print Assumptions C69_kept.
Print Assumptions C69_only_rules_record.
Print Assumptions C69_if.
Print Assumptions C69_for_each.
Print Assumptions C69_algorithm.
Print Assumptions C69_apply.
Print Assumptions C69_all_rules.

(* ---- examples: test 0 is "always", test 1 compares two values, any other fails; a covered thing exists for atom 1 only ---- *)
Definition ex_prim (k : nat) (h : list (list val)) (vs : list val) : res val := Ok (VAtom (length vs)).
Definition ex_test (k : nat) (h : list (list val)) (vs : list val) : res bool :=
  match k, vs with 0, _ => Ok true | 1, [a; b] => Ok (val_eqb a b) | _, _ => Err AssertionError end.
Definition ex_resolve (k : nat) (fo : option val) : res val := match fo with Some v => Ok v | None => Err AssertionError end.
Definition ex_covered (k : nat) (v : val) : option val := match v with VAtom 1 => Some (VAtom 100) | _ => None end.
Definition ex_dispatch (op : nat) (fo : option val) : res ((nat * option val) + val) := Ok (inl (op, fo)).
Definition eq_ (a b : expr) : cond := CTest 1 [a; b].
Definition always : cond := CTest 0 [].
Definition broken : cond := CTest 2 [].
Definition at_ (n : nat) : expr := ELit (VAtom n).
Definition ex_algs (a : nat) : option alg :=
  match a with
  (* 0: the focus node is 7; 1: the focus node is not 8; 2: four rules, of which the first is abandoned *)
  | 0 => Some (mkAlg OtherAlg [] (BRules [RIf (eq_ (EFocus 0) (at_ 7))]))
  | 1 => Some (mkAlg OtherAlg [] (BRules [RIf (CUnless always (eq_ (EFocus 0) (at_ 8)))]))
  | 2 => Some (mkAlg OtherAlg [] (BRules [RIf (eq_ (ECovered 0 (at_ 2)) (at_ 2)); RForEach 5 (EList [at_ 7; at_ 8; at_ 7]) (eq_ (EVar 5) (EFocus 0));
              RAlg always true (CReturn (ELit (VBool true))); RApply (eq_ (EFocus 0) (at_ 7)) [0; 1]]))
  | _ => None
  end.
Notation ex_run := (run ex_prim ex_test ex_resolve ex_covered ex_algs ex_dispatch).
Definition ex_s : st := mkSt [mkFrame 0 (Some (VAtom 7)) [[(4, VAtom 9)]] None] [] [] 1.
(* the third operand would fail *)
Example C68_ex_or : quiet ex_s /\ holds ex_prim ex_test ex_resolve ex_covered ex_algs ex_dispatch (COr [eq_ (EFocus 0) (at_ 8); eq_ (EVar 4) (at_ 9); broken]) ex_s ex_s true /\
  snd (ex_run 9 (TCond (COr [eq_ (EFocus 0) (at_ 8); broken; eq_ (EVar 4) (at_ 9)])) ex_s) = Exc (Py AssertionError).
Proof. split; [reflexivity|]. split; [exists 9; vm_compute; reflexivity|vm_compute; reflexivity]. Qed.
Example C68_ex_and : holds ex_prim ex_test ex_resolve ex_covered ex_algs ex_dispatch (CAnd [always; eq_ (EVar 4) (at_ 7); broken]) ex_s ex_s false /\
  holds ex_prim ex_test ex_resolve ex_covered ex_algs ex_dispatch (CAnd [always; CUnless always (eq_ (EVar 4) (at_ 7))]) ex_s ex_s true /\
  holds ex_prim ex_test ex_resolve ex_covered ex_algs ex_dispatch (CUnless (eq_ (EVar 4) (at_ 7)) broken) ex_s ex_s false.
Proof. split; [|split]; exists 9; vm_compute; reflexivity. Qed.
Example C68_ex_where : evals ex_prim ex_test ex_resolve ex_covered ex_algs ex_dispatch (EWhere (EIf (EVar 6) (eq_ (EVar 6) (EVar 4)) (at_ 1)) 6 (EVar 4)) ex_s ex_s (VAtom 9) /\
  snd (ex_run 9 (TExpr (EWhere (EVar 6) 6 (EVar 6))) ex_s) = Exc (Py AssertionError).
Proof. split; [exists 9; vm_compute; reflexivity|vm_compute; reflexivity]. Qed.
(* two errors for the elements, one for the algorithm, and one for each of the applied rules, which have frames of their own *)
Example C69_ex : exists s', ex_run 20 (TCall 2 (Some (VAtom 7)) []) ex_s = (s', Val RNone) /\ errs s' = [1; 1; 1; 2; 3] /\ stack s' = stack ex_s.
Proof. eexists. split; [vm_compute; reflexivity|split; vm_compute; reflexivity]. Qed.
Example C69_ex_for_each : exists s1 s', evals ex_prim ex_test ex_resolve ex_covered ex_algs ex_dispatch (EList [at_ 7; at_ 8]) ex_s s1 (VList 0) /\
  tested ex_prim ex_test ex_resolve ex_covered ex_algs ex_dispatch 5 0 (eq_ (EVar 5) (EFocus 0)) 0 s1 s' [true; false] /\ errs s' = [0].
Proof.
  eexists _, _. split; [exists 9; vm_compute; reflexivity|]. split.
  - eapply t_step; [vm_compute; reflexivity..|exists 9; vm_compute; reflexivity|]. eapply t_step; [vm_compute; reflexivity..|exists 9; vm_compute; reflexivity|]. eapply t_end; vm_compute; reflexivity.
  - vm_compute. reflexivity.
Qed.
