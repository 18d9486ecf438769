(* C62: an algorithm that the static type analysis finds no type error in does not go wrong. *)
From Verif Require Import M_Base L_Base M_Dict L_Dict M_Types L_Hier L_Types M_Env L_Env M_STA L_STASpec L_STAEnv L_STA.
From Coq Require Import Permutation.

(* hierarchy for the examples: Top_ (0) over Normal (1), not_set (14), not_passed (15) and not_returned (16); Normal over List (2), Record (3), String (6) and Undefined (7) *)
Definition sta_h : hier := [mkT 0 None 0; mkT 1 (Some 0) 1; mkT 14 (Some 0) 1; mkT 15 (Some 0) 1; mkT 16 (Some 0) 1; mkT 2 (Some 1) 2; mkT 3 (Some 1) 2; mkT 6 (Some 1) 2; mkT 7 (Some 1) 2].
Lemma sta_built : built sta_h.
Proof.
  apply b_add with (h := firstn 8 sta_h) (p := 1) (a := 7); [|reflexivity].
  apply b_add with (h := firstn 7 sta_h) (p := 1) (a := 6); [|reflexivity].
  apply b_add with (h := firstn 6 sta_h) (p := 1) (a := 3); [|reflexivity].
  apply b_add with (h := firstn 5 sta_h) (p := 1) (a := 2); [|reflexivity].
  apply b_add with (h := firstn 4 sta_h) (p := 0) (a := 16); [|reflexivity].
  apply b_add with (h := firstn 3 sta_h) (p := 0) (a := 15); [|reflexivity].
  apply b_add with (h := firstn 2 sta_h) (p := 0) (a := 14); [|reflexivity].
  apply b_add with (h := firstn 1 sta_h) (p := 0) (a := 1); [|reflexivity].
  eapply b_root. reflexivity.
Qed.
Lemma sta_par c m : par sta_h c m -> In (c, m) [(1, 0); (14, 0); (15, 0); (16, 0); (2, 1); (3, 1); (6, 1); (7, 1)].
Proof. intros (t & H & <- & E). cbn in H. repeat (destruct H as [<-|H]; [cbn in E; (discriminate || (injection E as <-; cbn; tauto))|]). destruct H. Qed.
Lemma sta_no2 c : ~ par sta_h c 2.
Proof. intros H. apply sta_par in H. cbn in H. repeat (destruct H as [H|H]; [discriminate|]). destruct H. Qed.
Lemma sta_leaf a : In a [14; 15; 16; 2; 6; 7] -> leaf sta_h a.
Proof.
  intros Ha. split; [cbn in *; intuition|]. intros c H. apply sta_par in H. cbn in Ha, H.
  destruct Ha as [<-|[<-|[<-|[<-|[<-|[<-|[]]]]]]]; repeat (destruct H as [H|H]; [discriminate|]); destruct H.
Qed.
Lemma sta_ht a : In a [0; 1; 14; 15; 16; 2; 6; 7] -> htype sta_h (Hier a).
Proof. intros H. left. exists a. split; [reflexivity|]. cbn in *. intuition. Qed.
Lemma sta_union l : incl l [6; 7; 15] -> NoDup l -> length l <> 1 -> htype sta_h (UnionT (map Hier l)).
Proof. intros I N L. right. exists l. split; [reflexivity|]. split; [intros x Hx; apply I in Hx; cbn in *; intuition|auto]. Qed.
Lemma sta_strun : htype sta_h (UnionT [Hier 6; Hier 7]).
Proof. apply (sta_union [6; 7]); [intros x; cbn; tauto| |discriminate]. repeat constructor; cbn; intuition discriminate. Qed.
Lemma sta_opt : htype sta_h (UnionT [Hier 6; Hier 7; Hier 15]).
Proof. apply (sta_union [6; 7; 15]); [intros x; cbn; tauto| |discriminate]. repeat constructor; cbn; intuition discriminate. Qed.

(* an operation whose definitions are found without type errors: invoked with arguments in the types of its parameters, it returns a value in its
   return type and nothing goes wrong on the way, neither in the operation nor in those it invokes *)
Theorem C62_program : forall h schemas fuel sorted params_of return_of isvar inside bodies (given : nat -> list nat -> option nat -> Prop),
  built h -> (forall c, ~ par h c 2) -> leaf h 14 -> leaf h 15 -> leaf h 16 -> (forall l, Permutation (sorted l) l) ->
  (forall op t, In t (params_of op) -> htype h t) -> (forall op, htype h (return_of op)) -> isvar 0 = true ->
  (forall op vs r, bodies op = None -> Forall2 (hmem h) vs (params_of op) -> Forall (leaf h) vs -> given op vs r ->
     exists v, r = Some v /\ leaf h v /\ hmem h v (return_of op)) ->
  (forall op ps cs, bodies op = Some (ps, cs) ->
     length ps = length (params_of op) /\ (forall p, In p ps -> isvar p = true) /\ (forall c, In c cs -> wf_cmd h isvar inside c) /\
     exists e errs envs, make_env h schemas (S fuel) (return_of op) (combine ps (params_of op)) = Ok (e, false) /\
       tc_defns h schemas (S fuel) sorted params_of return_of ps (return_of op) cs e = Ok (tt, (errs, envs)) /\
       forall err, In err errs -> serious err = false) ->
  forall n op vs r, Forall2 (hmem h) vs (params_of op) -> Forall (leaf h) vs -> call h params_of return_of inside bodies given n op vs r ->
  exists v, r = Some v /\ leaf h v /\ hmem h v (return_of op).
Proof.
  intros h sc f sorted params_of return_of isvar inside bodies given B LL L14 L15 L16 SP HP HR V0 GO CH n op vs r A L C.
  exact (program_sound h (built_wf h B) LL L14 L15 L16 sc f sorted SP params_of return_of HP HR isvar V0 inside bodies given GO CH n op vs r A L C).
Qed.
Print Assumptions C62_program.

(* one command: from a store that conforms to the environment, it does not go wrong; if it goes on, the store conforms to the resulting environment;
   if it returns, the value is in the expected type and the store, with the value under *return*, conforms to an environment recorded for the inference of types *)
Theorem C62_command : forall h schemas fuel sorted params_of return_of parameter_names expected isvar inside (den : nat -> list nat -> option nat -> Prop),
  built h -> (forall c, ~ par h c 2) -> leaf h 14 -> leaf h 15 -> (forall l, Permutation (sorted l) l) ->
  (forall op t, In t (params_of op) -> htype h t) -> (forall op, htype h (return_of op)) -> htype h expected ->
  (forall op vs r, Forall2 (hmem h) vs (params_of op) -> Forall (leaf h) vs -> den op vs r -> exists v, r = Some v /\ leaf h v /\ hmem h v (return_of op)) ->
  forall c e0 r errs envs, wf_cmd h isvar inside c ->
  (forall x t, nget (e_vars e0) x = Some t -> isvar x = true /\ htype h t) ->
  tc h schemas (S fuel) sorted params_of return_of parameter_names expected c (Some e0) = Ok (r, (errs, envs)) ->
  (forall err, In err errs -> serious err = false) ->
  forall s, (forall x, leaf h (s x) /\ hmem h (s x) (type_in e0 x)) ->
  forall o, exec h params_of inside den c s o ->
    match o with
    | Wrong => False
    | Next s' => exists e', r = Some e' /\ forall x, leaf h (s' x) /\ hmem h (s' x) (type_in e' x)
    | Ret v s' => leaf h v /\ hmem h v expected /\ exists e, In e envs /\ hmem h v (type_in e 0) /\ forall x, x <> 0 -> leaf h (s' x) /\ hmem h (s' x) (type_in e x)
    end.
Proof.
  intros h sc f sorted params_of return_of pn expected isvar inside den B LL L14 L15 SP HP HR HE DO c e0 r errs envs WC G E F s C o X.
  destruct (proj1 (sound h (built_wf h B) LL L14 L15 sc f sorted SP params_of return_of pn expected HP HR HE isvar inside den DO) c (Some e0) r errs envs WC) as (_ & _ & S).
  - split; [intros x t Q; right; apply (G x t Q)|]. intros x Q. destruct (nget (e_vars e0) x) eqn:Q'; [apply (G x t Q')|now destruct Q].
  - exact E.
  - specialize (S F s (conj (fun x => proj1 (C x)) (fun x => proj2 (C x))) o X). destruct o as [s'|v s'|]; cbn in S.
    + destruct r as [e'|]; [|destruct S]. exists e'. split; [reflexivity|]. intros x. split; apply S.
    + destruct S as (S1 & S2 & e & I & S3 & S4). split; [exact S1|]. split; [exact S2|]. exists e. split; [exact I|]. split; [apply (S4 0)|]. intros x N. specialize (S3 x). specialize (S4 x). unfold upd in S3, S4. destruct (Nat.eqb_spec x 0); [contradiction|]. auto.
    + exact S.
Qed.
Print Assumptions C62_command.

(* a condition: in each outcome the store conforms to the environment for it; where it is asserted it is not false, unless it is beyond the analysis *)
Theorem C62_condition : forall h schemas fuel sorted params_of return_of isvar inside (den : nat -> list nat -> option nat -> Prop),
  built h -> (forall c, ~ par h c 2) -> leaf h 14 -> leaf h 15 -> (forall l, Permutation (sorted l) l) ->
  (forall op t, In t (params_of op) -> htype h t) -> (forall op, htype h (return_of op)) ->
  (forall op vs r, Forall2 (hmem h) vs (params_of op) -> Forall (leaf h) vs -> den op vs r -> exists v, r = Some v /\ leaf h v /\ hmem h v (return_of op)) ->
  forall c e0 asserting t_env f_env errs envs, wf_cond h isvar inside c ->
  (forall x t, nget (e_vars e0) x = Some t -> isvar x = true /\ htype h t) ->
  tc_cond h schemas (S fuel) sorted params_of return_of c (Some e0) asserting = Ok ((t_env, f_env), (errs, envs)) ->
  (forall err, In err errs -> serious err = false) ->
  forall s, (forall x, leaf h (s x) /\ hmem h (s x) (type_in e0 x)) ->
  forall r, ceval h params_of inside den c s r ->
    exists b e', r = Some b /\ (if b : bool then t_env else f_env) = Some e' /\ (forall x, hmem h (s x) (type_in e' x)) /\ (asserting = true -> exact c -> b = true).
Proof.
  intros h sc f sorted params_of return_of isvar inside den B LL L14 L15 SP HP HR DO c e0 asserting te fe errs envs WC G E F s C r R.
  destruct (cond_ok h (built_wf h B) LL L14 L15 sc f sorted SP params_of return_of HP HR isvar inside den DO c (Some e0) asserting te fe errs envs WC) as (_ & _ & _ & S).
  - split; [intros x t Q; right; apply (G x t Q)|]. intros x Q. destruct (nget (e_vars e0) x) eqn:Q'; [apply (G x t Q')|now destruct Q].
  - exact E.
  - destruct (S F s (conj (fun x => proj1 (C x)) (fun x => proj2 (C x))) r R) as [S1 S2]. destruct r as [b|]; [|destruct S1]. exists b. destruct b.
    + destruct te as [e'|]; [|destruct S1]. exists e'. split; [reflexivity|]. split; [reflexivity|]. split; [apply S1|auto].
    + destruct fe as [e'|]; [|destruct S1]. exists e'. split; [reflexivity|]. split; [reflexivity|]. split; [apply S1|]. intros Z Y. specialize (S2 Z Y). discriminate.
Qed.
Print Assumptions C62_condition.

(* ---- a program ----
   10: ToStr(v : String or Undefined) : String       If v is a String, return v.  Assert: v is Undefined.  Let s be 20(v).  Return s.
   11: Main(v : String or Undefined, optional) : String   If v is not present, set v to 21().  Repeat, until ..., set v to ToStr(v).  Return ToStr(v). *)
Definition sta_params (op : nat) : list ty := match op with 10 => [UnionT [Hier 6; Hier 7]] | 11 => [UnionT [Hier 6; Hier 7; Hier 15]] | 20 => [Hier 7] | _ => [] end.
Definition sta_return (op : nat) : ty := match op with 21 => Hier 7 | _ => Hier 6 end.
Definition sta_isvar (x : nat) : bool := x <? 200.
Definition sta_inside (id v : nat) : bool := v =? id.       (* the test with number id is for the value id *)
Definition sta_given (op : nat) (vs : list nat) (r : option nat) : Prop := match op with 21 => r = Some 7 | _ => r = Some 6 end.
Definition sta_10 : cmd :=
  Seq (IfOther (TypeTest 6 (EVar 100) is_a (Hier 6) (Hier 6)) (Return (EVar 100)) NoElse)
      (Seq (Assert (TypeTest 7 (EVar 100) is_a (Hier 7) (Hier 7))) (Seq (Let 101 (EOp 200 20 [100])) (Return (EVar 101)))).
Definition sta_11 : cmd :=
  Seq (IfOther (TypeTest 15 (EVar 100) is_a (Hier 15) (Hier 15)) (SetV 100 (EOp 201 21 [])) NoElse)
      (Seq (RepeatCond true (Opaque 0) (SetV 100 (EOp 202 10 [100]))) (Return (EOp 202 10 [100]))).
Definition sta_bodies (op : nat) : option (list nat * list cmd) := match op with 10 => Some ([100], [sta_10]) | 11 => Some ([100], [sta_11]) | _ => None end.

Lemma sta_val v a : leaf sta_h v -> In a [2; 6; 7; 15] -> hmem sta_h v (Hier a) <-> v = a.
Proof.
  intros L I. split.
  - intros M. symmetry. apply (anc_leaf sta_h v a); [|exact M]. apply sta_leaf. cbn in *. intuition.
  - intros ->. apply anc_refl.
Qed.
Lemma sta_test id e cop : In id [2; 6; 7; 15] -> (exists x, e = EVar x /\ sta_isvar x = true) -> wf_cond sta_h sta_isvar sta_inside (TypeTest id e cop (Hier id) (Hier id)).
Proof.
  intros I V. split; [exact V|]. split; [apply sta_ht; cbn in *; intuition|]. split; [apply sta_ht; cbn in *; intuition|]. unfold sta_inside. split; intros v L H.
  - apply Nat.eqb_eq. now apply sta_val in H.
  - apply Nat.eqb_eq in H. now apply sta_val.
Qed.
Lemma sta_params_ok op t : In t (sta_params op) -> htype sta_h t.
Proof. unfold sta_params. do 22 (destruct op as [|op]; [cbn; intros H; repeat (destruct H as [<-|H]; [first [apply sta_opt|apply sta_strun|apply sta_ht; cbn; intuition]|]); destruct H|]). intros []. Qed.
Lemma sta_return_ok op : htype sta_h (sta_return op).
Proof. unfold sta_return. do 22 (destruct op as [|op]; [apply sta_ht; cbn; intuition|]). apply sta_ht. cbn. intuition. Qed.
Lemma sta_given_ok op vs r : sta_given op vs r -> exists v, r = Some v /\ leaf sta_h v /\ hmem sta_h v (sta_return op).
Proof.
  unfold sta_given, sta_return. intros H. assert (L6 : leaf sta_h 6) by (apply sta_leaf; cbn; tauto). assert (L7 : leaf sta_h 7) by (apply sta_leaf; cbn; tauto).
  do 22 (destruct op as [|op]; [subst r; eexists; split; [reflexivity|]; split; [assumption|apply anc_refl]|]). subst r. exists 6. split; [reflexivity|]. split; [assumption|apply anc_refl].
Qed.

Example C62_ex_checked :
  (exists e, make_env sta_h [] 5 (Hier 6) [(100, UnionT [Hier 6; Hier 7])] = Ok (e, false) /\ exists envs, tc_defns sta_h [] 5 (fun l => l) sta_params sta_return [100] (Hier 6) [sta_10] e = Ok (tt, ([], envs))) /\
  (exists e, make_env sta_h [] 5 (Hier 6) [(100, UnionT [Hier 6; Hier 7; Hier 15])] = Ok (e, false) /\ exists envs,
     tc_defns sta_h [] 5 (fun l => l) sta_params sta_return [100] (Hier 6) [sta_11] e = Ok (tt, ([SetParam 100; SetParam 100], envs))).
Proof. split; (eexists; split; [vm_compute; reflexivity|]; eexists; vm_compute; reflexivity). Qed.
Example C62_ex : forall n v r, leaf sta_h v -> hmem sta_h v (UnionT [Hier 6; Hier 7; Hier 15]) -> call sta_h sta_params sta_return sta_inside sta_bodies sta_given n 11 [v] r -> r = Some 6.
Proof.
  intros n v r L M C. destruct (C62_program sta_h [] 4 (fun l => l) sta_params sta_return sta_isvar sta_inside sta_bodies sta_given sta_built sta_no2) with (n := n) (op := 11) (vs := [v]) (r := r) as (w & -> & Lw & Mw); try assumption; try (apply sta_leaf; cbn; tauto).
  - intros l. apply Permutation_refl.
  - apply sta_params_ok.
  - apply sta_return_ok.
  - reflexivity.
  - intros op vs r' _ _ _ H. exact (sta_given_ok op vs r' H).
  - intros op ps cs B. assert (K : (op = 10 /\ ps = [100] /\ cs = [sta_10]) \/ (op = 11 /\ ps = [100] /\ cs = [sta_11])).
    { unfold sta_bodies in B. do 12 (destruct op as [|op]; [first [discriminate|inversion B; tauto]|]). discriminate. }
    destruct C62_ex_checked as [(e1 & P1 & v1 & Q1) (e2 & P2 & v2 & Q2)]. destruct K as [(-> & -> & ->)|(-> & -> & ->)].
    + split; [reflexivity|]. split; [intros p [<-|[]]; reflexivity|]. split.
      * intros c [<-|[]]. unfold sta_10. cbn [wf_cmd wf_tail]. repeat match goal with |- _ /\ _ => split end; try (apply sta_test; [cbn; tauto|exists 100; split; reflexivity]); try reflexivity; try exact I. all: split; [reflexivity|]; intros x I; repeat (destruct I as [<-|I]; [reflexivity|]); destruct I.
      * exists e1, [], v1. split; [exact P1|]. split; [exact Q1|]. intros err [].
    + split; [reflexivity|]. split; [intros p [<-|[]]; reflexivity|]. split.
      * intros c [<-|[]]. unfold sta_11. cbn [wf_cmd wf_tail]. repeat match goal with |- _ /\ _ => split end; try (apply sta_test; [cbn; tauto|exists 100; split; reflexivity]); try reflexivity; try exact I. all: split; [reflexivity|]; intros x I; repeat (destruct I as [<-|I]; [reflexivity|]); destruct I.
      * eexists e2, _, v2. split; [exact P2|]. split; [exact Q2|]. intros err I. repeat (destruct I as [<-|I]; [reflexivity|]). destruct I.
  - constructor; [exact M|constructor].
  - constructor; [exact L|constructor].
  - apply sta_val in Mw; [now subst w|exact Lw|cbn; tauto].
Qed.
(* the program runs *)
Example C62_ex_run : call sta_h sta_params sta_return sta_inside sta_bodies sta_given 2 11 [15] (Some 6).
Proof.
  assert (L6 : leaf sta_h 6) by (apply sta_leaf; cbn; tauto). cbn [call sta_bodies]. exists 6, sta_11. split; [exact L6|]. split; [apply anc_refl|]. split; [now left|].
  set (s0 := start [100] [15] 6). exists (Ret 6 (upd s0 100 7)). split; [|reflexivity]. left. exists (upd s0 100 7). split.
  - left. split; [exists (Some 15); split; reflexivity|]. exists (Some 7). split; [|reflexivity]. left. split; [constructor|reflexivity].
  - left. exists (upd s0 100 7). split; [apply it_exit; exists true; reflexivity|]. exists (Some 6). split; [|reflexivity]. left. split.
    + constructor; [|constructor]. exists 7. split; [cbn; tauto|apply anc_refl].
    + cbn [call sta_bodies]. exists 6, sta_10. split; [exact L6|]. split; [apply anc_refl|]. split; [now left|]. set (s1 := start [100] (pad sta_params 10 (map (upd s0 100 7) [100])) 6). exists (Ret 6 (upd s1 101 6)). split; [|reflexivity].
      left. exists s1. split; [right; left; split; [exists (Some 7); split; reflexivity|reflexivity]|]. left. exists s1. split; [left; split; [exists (Some 7); split; reflexivity|reflexivity]|].
      left. exists (upd s1 101 6). split; [exists (Some 6); split; [|reflexivity]|exists (Some 6); split; reflexivity]. left. split; [constructor; [apply anc_refl|constructor]|reflexivity].
Qed.

(* a condition and a command in an environment, a store that conforms to it, and what happens *)
Definition sta_c : cond := And [TypeTest 7 (EVar 101) is_a (Hier 7) (Hier 7); Or [TypeTest 7 (EVar 100) is_a (Hier 7) (Hier 7); TypeTest 6 (EVar 100) is_a (Hier 6) (Hier 6)]].
Definition sta_e : env := mkEnv 0 0 0 [(100, UnionT [Hier 6; Hier 7]); (101, Hier 7)] None.
Definition sta_s : store := fun x => if x =? 100 then 6 else if x =? 101 then 7 else 14.
Example C62_ex_condition : wf_cond sta_h sta_isvar sta_inside sta_c /\ exact sta_c /\ (forall x, leaf sta_h (sta_s x) /\ hmem sta_h (sta_s x) (type_in sta_e x)) /\
  (forall x t, nget (e_vars sta_e) x = Some t -> sta_isvar x = true /\ htype sta_h t) /\
  (exists e f, tc_cond sta_h [] 5 (fun l => l) sta_params sta_return sta_c (Some sta_e) true = Ok ((Some e, f), ([], [])) /\ type_in e 100 = UnionT [Hier 7; Hier 6]) /\
  ceval sta_h sta_params sta_inside sta_given sta_c sta_s (Some true) /\
  (exists e, tc sta_h [] 5 (fun l => l) sta_params sta_return [] (Hier 6) (Assert sta_c) (Some sta_e) = Ok (Some e, ([], []))) /\ wf_cmd sta_h sta_isvar sta_inside (Assert sta_c) /\
  exec sta_h sta_params sta_inside sta_given (Assert sta_c) sta_s (Next sta_s).
Proof.
  assert (WC : wf_cond sta_h sta_isvar sta_inside sta_c). { split; [apply sta_test; [cbn; tauto|exists 101; split; reflexivity]|]. split; [|exact I]. split; [apply sta_test; [cbn; tauto|exists 100; split; reflexivity]|]. split; [|exact I]. apply sta_test; [cbn; tauto|exists 100; split; reflexivity]. }
  assert (T : ceval sta_h sta_params sta_inside sta_given sta_c sta_s (Some true)).
  { left. split; [exists (Some 7); split; reflexivity|]. left. split; [|reflexivity]. left. split; [exists (Some 6); split; reflexivity|]. right. left. split; [exists (Some 6); split; reflexivity|reflexivity]. }
  split; [exact WC|]. split; [repeat split|]. split; [|split; [|split; [|split; [exact T|split; [eexists; vm_compute; reflexivity|split; [exact WC|left; auto]]]]]].
  - intros x. unfold sta_s, sta_e, type_in. cbn [e_vars nget]. rewrite (Nat.eqb_sym 100 x), (Nat.eqb_sym 101 x). destruct (x =? 100); [|destruct (x =? 101)]; (split; [apply sta_leaf; cbn; tauto|]); [exists 6; split; [cbn; tauto|]|..]; apply anc_refl.
  - intros x t. cbn [sta_e e_vars nget]. destruct (Nat.eqb_spec 100 x) as [<-|]; [intros [= <-]; split; [reflexivity|apply sta_strun]|]. destruct (Nat.eqb_spec 101 x) as [<-|]; [intros [= <-]; split; [reflexivity|apply sta_ht; cbn; tauto]|discriminate].
  - eexists _, _. split; vm_compute; reflexivity.
Qed.

(* ---- refutations ---- *)

(* the type of an invocation is kept when a variable in it is set: F(x) is tested, x is set to y, F(x) is returned *)
Definition sta_stale : cmd :=
  Seq (IfOther (TypeTest 6 (EOp 200 12 [100]) is_a (Hier 6) (Hier 6)) (Seq (SetV 100 (EVar 101)) (Return (EOp 200 12 [100]))) NoElse)
      (Return (EOp 201 20 [])).
Definition sta_p12 (op : nat) : list ty := match op with 12 => [Hier 1] | _ => [] end.
Definition sta_r12 (op : nat) : ty := match op with 12 => Hier 1 | _ => Hier 6 end.
Definition sta_id (op : nat) (vs : list nat) (r : option nat) : Prop := match op, vs with 12, [v] => r = Some v | _, _ => r = Some 6 end.
Theorem C62_stale_refuted : exists h params_of return_of (den : nat -> list nat -> option nat -> Prop) inside c e0 errs envs s v s',
  built h /\ (forall op vs r, Forall2 (hmem h) vs (params_of op) -> Forall (leaf h) vs -> den op vs r -> exists v, r = Some v /\ leaf h v /\ hmem h v (return_of op)) /\
  (forall x t, nget (e_vars e0) x = Some t -> htype h t) /\
  tc h [] 5 (fun l => l) params_of return_of [] (Hier 6) c (Some e0) = Ok (None, (errs, envs)) /\ (forall err, In err errs -> serious err = false) /\
  (forall x, leaf h (s x) /\ hmem h (s x) (type_in e0 x)) /\ exec h params_of inside den c s (Ret v s') /\ ~ hmem h v (Hier 6).
Proof.
  assert (L6 : leaf sta_h 6) by (apply sta_leaf; cbn; tauto). assert (L7 : leaf sta_h 7) by (apply sta_leaf; cbn; tauto). assert (L14 : leaf sta_h 14) by (apply sta_leaf; cbn; tauto).
  assert (N6 : hmem sta_h 6 (Hier 1)) by (eapply anc_up; [|apply anc_refl]; exists (mkT 6 (Some 1) 2); cbn; tauto). assert (N7 : hmem sta_h 7 (Hier 1)) by (eapply anc_up; [|apply anc_refl]; exists (mkT 7 (Some 1) 2); cbn; tauto).
  set (s := fun x => if x =? 100 then 6 else if x =? 101 then 7 else 14).
  exists sta_h, sta_p12, sta_r12, sta_id, sta_inside, sta_stale, (mkEnv 0 0 0 [(100, Hier 1); (101, Hier 1)] None). eexists _, _, s, 7, (upd s 100 7).
  split; [exact sta_built|]. split.
  { intros op vs r A L D. unfold sta_id, sta_r12 in *. do 13 (destruct op as [|op]; [destruct vs as [|v [|v' vs]]; try (subst r; exists 6; split; [reflexivity|]; split; [exact L6|]; first [apply anc_refl|exact N6])|]).
    - inversion A; subst. inversion L; subst. exists v. auto.
    - destruct vs as [|v [|v' vs]]; subst r; exists 6; (split; [reflexivity|]); (split; [exact L6|apply anc_refl]). }
  split. { intros x t. cbn [e_vars nget]. destruct (100 =? x); [intros [= <-]; apply sta_ht; cbn; tauto|]. destruct (101 =? x); [intros [= <-]; apply sta_ht; cbn; tauto|discriminate]. }
  split; [vm_compute; reflexivity|]. split; [intros err I; repeat (destruct I as [<-|I]; [reflexivity|]); destruct I|]. split.
  { intros x. unfold s, type_in. cbn [e_vars nget]. rewrite (Nat.eqb_sym 100 x), (Nat.eqb_sym 101 x). destruct (x =? 100); [auto|]. destruct (x =? 101); [auto|]. split; [exact L14|apply anc_refl]. }
  split; [|intros Q; apply sta_val in Q; [discriminate|exact L7|cbn; tauto]].
  right. split; [|discriminate]. left. split.
  - exists (Some 6). split; [|reflexivity]. left. split; [constructor; [exact N6|constructor]|reflexivity].
  - left. exists (upd s 100 7). split; [exists (Some 7); split; reflexivity|]. exists (Some 7). split; [|reflexivity]. left. split; [constructor; [exact N7|constructor]|reflexivity].
Qed.
Print Assumptions C62_stale_refuted.

(* "Assert: It is not the case that both A and B" is checked as if A and B were asserted: nothing is reported for an assertion that always fails,
   and one that always holds is reported *)
Theorem C62_not_both_refuted : exists h c c' e0 inside s, built h /\
  let run c := tc h [] 5 (fun l => l) sta_params sta_return [] (Hier 6) (Assert c) (Some e0) in
  (forall x, leaf h (s x) /\ hmem h (s x) (type_in e0 x)) /\
  wf_cond h sta_isvar inside c /\ (exists e, run c = Ok (Some e, ([], []))) /\ (forall r, ceval h sta_params inside sta_given c s r -> r = Some false) /\
  wf_cond h sta_isvar inside c' /\ (exists e errs, run c' = Ok (Some e, (errs, [])) /\ In (TypeTestErr CantBe) errs) /\ (forall r, ceval h sta_params inside sta_given c' s r -> r = Some true).
Proof.
  assert (L6 : leaf sta_h 6) by (apply sta_leaf; cbn; tauto). assert (L14 : leaf sta_h 14) by (apply sta_leaf; cbn; tauto).
  set (t6 := TypeTest 6 (EVar 100) is_a (Hier 6) (Hier 6)). set (t7 := TypeTest 7 (EVar 100) is_a (Hier 7) (Hier 7)).
  assert (W6 : wf_cond sta_h sta_isvar sta_inside t6) by (apply sta_test; [cbn; tauto|exists 100; split; reflexivity]). assert (W7 : wf_cond sta_h sta_isvar sta_inside t7) by (apply sta_test; [cbn; tauto|exists 100; split; reflexivity]).
  exists sta_h, (NotBoth t6 t6), (NotBoth t6 t7), (mkEnv 0 0 0 [(100, Hier 6)] None), sta_inside, (fun x => if x =? 100 then 6 else 14). split; [exact sta_built|].
  cbv zeta. split; [|split; [|split; [|split; [|split; [|split]]]]].
  - intros x. unfold type_in. cbn [e_vars nget]. rewrite (Nat.eqb_sym 100 x). destruct (x =? 100); split; first [exact L6|exact L14|apply anc_refl].
  - split; exact W6.
  - eexists. vm_compute. reflexivity.
  - intros r [[(ov & V & Q) ->]|[[(ov & V & Q) ->]|[_ (rb & (ov & V & ->) & ->)]]]; cbn in V; subst ov; try discriminate Q. reflexivity.
  - split; [exact W6|exact W7].
  - eexists _, _. split; [vm_compute; reflexivity|]. cbn. tauto.
  - intros r [[(ov & V & Q) ->]|[[(ov & V & Q) ->]|[_ (rb & (ov & V & ->) & ->)]]]; cbn in V; subst ov; try discriminate Q. reflexivity.
Qed.
Print Assumptions C62_not_both_refuted.

(* an argument of type List is accepted for a parameter that is a list of something *)
Theorem C62_list_refuted : exists h params_of return_of c e0 r e, built h /\ nget (e_vars e0) 100 = Some (Hier T_List) /\ params_of 12 = [ListT (Hier 6)] /\ c = Perform (EOp 200 12 [100]) /\
  is_a_subtype_of_or_equal_to h [] (Hier T_List) (ListT (Hier 6)) = Ok false /\
  tc h [] 5 (fun l => l) params_of return_of [] (Hier 6) c (Some e0) = Ok (r, ([], e)).
Proof. exists sta_h, (fun _ => [ListT (Hier 6)]), (fun _ => Hier 6). eexists _, (mkEnv 0 0 0 [(100, Hier 2)] None), _, _. split; [exact sta_built|]. repeat split; vm_compute; reflexivity. Qed.
Print Assumptions C62_list_refuted.

(* a loop whose body always returns, and a command after a Return, stop the analysis: the environment is None *)
Theorem C62_no_way_on_raises : forall h schemas fuel sorted params_of return_of parameter_names expected body c x e e0 errs envs,
  (tc h schemas fuel sorted params_of return_of parameter_names expected body (Some e0) = Ok (None, (errs, envs)) ->
   tc h schemas fuel sorted params_of return_of parameter_names expected (Repeat body) (Some e0) = Err AttributeError) /\
  (tc h schemas fuel sorted params_of return_of parameter_names expected c (Some e0) = Ok (None, (errs, envs)) ->
   tc h schemas fuel sorted params_of return_of parameter_names expected (Seq c (SetV x e)) (Some e0) = Err AttributeError).
Proof.
  intros. split; intros H.
  - cbn [tc need lift bind bindw ret]. unfold tc_loop. unfold bindw at 1, lift, ret. cbn [bind fst snd]. unfold bindw at 1. cbn [bind fst snd]. unfold bindw at 1. rewrite H. reflexivity.
  - cbn [tc]. unfold bindw at 1. rewrite H. reflexivity.
Qed.
Print Assumptions C62_no_way_on_raises.
Example C62_ex_no_way_on : exists envs, tc sta_h [] 5 (fun l => l) sta_params sta_return [] (Hier 6) (Return (EVar 100)) (Some (mkEnv 0 0 0 [(100, Hier 6)] None)) = Ok (None, ([], envs)).
Proof. eexists. vm_compute. reflexivity. Qed.

(* a header whose return type is partly a completion record makes the message raise *)
Theorem C62_mixed_return_raises : forall h schemas fuel t ps cr noncr, split_by h schemas fuel t T_Completion_Record = Ok (cr, noncr) ->
  ty_eqb cr T_0 = false -> ty_eqb noncr T_0 = false -> make_env h schemas fuel t ps = Err NameError.
Proof. intros h sc f t ps cr noncr E C N. unfold make_env. rewrite E. cbn [bind]. rewrite C, N. reflexivity. Qed.
Print Assumptions C62_mixed_return_raises.
Example C62_ex_mixed : make_env sta_h [] 5 (UnionT [T_Completion_Record; Hier 6]) [] = Err NameError.
Proof. vm_compute. reflexivity. Qed.
