(* What the analysis of dependencies is about: invocations in trees, calls between algorithms. *)
From Coq Require Import Ascii String Permutation Lia List Sorting.Sorted.
From Verif Require Import M_Base L_Base M_HTML M_Shared M_Values M_Validate L_Validate L_ValTree L_ValNodes L_ValLists M_Style L_StyleVars M_Deps.
Open Scope list_scope.
Open Scope nat_scope.
Notation length := List.length.

(* node i, somewhere in a tree or in a tree of an element it refers to, invokes x *)
Inductive invokes : ctree -> text -> nat -> Prop :=
| inv_here id r s names sub ch x : In x names -> invokes (CT id r s (Some names) sub ch) x id
| inv_sub id r s t ch x i : invokes t x i -> invokes (CT id r s None (Some (Some t)) ch) x i
| inv_child id r s inv sub ch c x i : In c ch -> invokes c x i -> invokes (CT id r s inv sub ch) x i.
(* a tree of the algorithm *)
Definition tree_of (a : calg) (sect : text) (t : ctree) : Prop :=
  exists d, In d (ca_defns a) /\ cd_sect d = sect /\ In (Some t) (cd_anodes d).
Definition calls (name : text) (a : calg) (x : text) : Prop :=
  (exists s t i, tree_of a s t /\ invokes t x i) \/
  name = tx "HostLoadImportedModule" /\ x = tx "FinishLoadingImportedModule".

(* trees that can be looked through: only those of the early errors refer to elements with
   trees of their own, and those were parsed *)
Inductive sound (name : text) : ctree -> Prop :=
| sound_ id r s inv sub ch :
    (forall o, sub = Some o -> name = tx "Early Errors" /\ exists t, o = Some t /\ sound name t) ->
    (forall c, In c ch -> sound name c) ->
    sound name (CT id r s inv sub ch).
Definition sound_alg (name : text) (a : calg) : Prop :=
  (forall s t, tree_of a s t -> sound name t) /\ (name = tx "HostLoadImportedModule" -> ca_defns a = []).

(* induction over trees *)
Fixpoint size (t : ctree) : nat :=
  match t with
  | CT _ _ _ _ sub ch =>
    S (match sub with Some (Some t') => size t' | _ => 0 end + (fix go l := match l with [] => 0 | c :: l' => size c + go l' end) ch)
  end.
Lemma size_ch id r s inv sub ch c : In c ch -> size c < size (CT id r s inv sub ch).
Proof.
  intros I. cbn [size]. set (k := match sub with Some (Some t') => size t' | _ => 0 end). clearbody k. induction ch as [|d ch IH]; [destruct I|]. destruct I as [->|I]; [lia|]. specialize (IH I). lia.
Qed.
Lemma ctree_induction (P : ctree -> Prop) :
  (forall id r s inv sub ch, (forall t, sub = Some (Some t) -> P t) -> (forall c, In c ch -> P c) -> P (CT id r s inv sub ch)) -> forall t, P t.
Proof.
  intros H t. remember (size t) as n eqn:E. revert t E. induction n as [n IH] using lt_wf_ind. intros [id r s inv sub ch] E. apply H.
  - intros t ->. apply (IH (size t)); [|reflexivity]. subst n. cbn [size]. lia.
  - intros c I. apply (IH (size c)); [|reflexivity]. subst n. now apply size_ch.
Qed.

(* ------------------------------------------------------------------ *)
Lemma map_res_ok {A B} (f : A -> res B) l l' : map_res f l = Ok l' <-> Forall2 (fun x y => f x = Ok y) l l'.
Proof.
  revert l'. induction l as [|x l IH]; intros l'; cbn [map_res]; [split; [intros H; apply ok_inj in H; subst; constructor|intros H; now inversion H]|].
  destruct (f x) as [y|e] eqn:F; cbn [bind]; [|split; [discriminate|intros H; inversion H; congruence]].
  destruct (map_res f l) as [ys|e] eqn:M; cbn [bind].
  - split; [intros H; apply ok_inj in H; subst; constructor; [assumption|now apply IH]|]. intros H. inversion H as [|? y' ? ys' H1 H2]; subst. apply IH in H2. congruence.
  - split; [discriminate|]. intros H. inversion H as [|? y' ? ys' H1 H2]; subst. apply IH in H2. discriminate.
Qed.
Lemma map_res_err {A B} (f : A -> res B) l e : map_res f l = Err e -> exists x, In x l /\ f x = Err e.
Proof.
  induction l as [|x l IH]; cbn [map_res]; [discriminate|]. destruct (f x) as [y|e'] eqn:F; cbn [bind]; [|intros [= ->]; exists x; split; [now left|assumption]].
  destruct (map_res f l) as [ys|e'] eqn:M; cbn [bind]; [discriminate|]. intros [= ->]. destruct (IH eq_refl) as (z & I & Z). exists z. split; [now right|assumption].
Qed.
Lemma forall2_in_l {A B} (R : A -> B -> Prop) l l' x : Forall2 R l l' -> In x l -> exists y, In y l' /\ R x y.
Proof. induction 1 as [|a b l l' H F IH]; [intros []|]. intros [->|I]; [exists b; split; [now left|assumption]|]. destruct (IH I) as (y & Y & K). exists y. split; [now right|assumption]. Qed.
Lemma forall2_in_r {A B} (R : A -> B -> Prop) l l' y : Forall2 R l l' -> In y l' -> exists x, In x l /\ R x y.
Proof. induction 1 as [|a b l l' H F IH]; [intros []|]. intros [->|I]; [exists a; split; [now left|assumption]|]. destruct (IH I) as (x & X & K). exists x. split; [now right|assumption]. Qed.
Lemma map_res_concat {A B} (f : A -> res (list B)) l l' y : map_res f l = Ok l' -> (In y (concat l') <-> exists x b, In x l /\ f x = Ok b /\ In y b).
Proof.
  intros M. apply map_res_ok in M. rewrite in_concat. split.
  - intros (b & I & Y). destruct (forall2_in_r _ _ _ _ M I) as (x & X & F). now exists x, b.
  - intros (x & b & X & F & Y). destruct (forall2_in_l _ _ _ _ M X) as (b' & I & F'). exists b'. split; [assumption|]. congruence.
Qed.

(* calls_in, its loop being a concatenation *)
Lemma calls_in_eq name id r s inv sub ch :
  calls_in name (CT id r s inv sub ch) =
  bind (match inv with
      | Some names => Ok (map (fun n => (n, id)) names)
      | None =>
        match sub with
        | None => Ok []
        | Some st =>
          bind (assert_ (text_eqb name (tx "Early Errors"))) (fun _ =>
          match st with Some t' => calls_in name t' | None => Err AttributeError end)
        end
      end) (fun here => bind (map_res (calls_in name) ch) (fun rest => Ok (here ++ concat rest))).
Proof.
  cbn [calls_in]. destruct (match inv with Some names => _ | None => _ end) as [here|e]; [|reflexivity]. cbn [bind].
  match goal with |- bind (?f ch) _ = _ => set (go := f) end.
  assert (E : go ch = bind (map_res (calls_in name) ch) (fun rest => Ok (concat rest))).
  { induction ch as [|c ch IH]; [reflexivity|]. cbn [map_res]. change (go (c :: ch)) with (bind (calls_in name c) (fun a => bind (go ch) (fun b => Ok (a ++ b)))). rewrite IH. destruct (calls_in name c) as [a|e]; [|reflexivity]. cbn [bind]. destruct (map_res (calls_in name) ch) as [b|e]; reflexivity. }
  rewrite E. destruct (map_res (calls_in name) ch); reflexivity.
Qed.
Lemma assert_cases b : (assert_ b = Ok tt /\ b = true) \/ (assert_ b = Err AssertionError /\ b = false).
Proof. destruct b; [left|right]; split; reflexivity. Qed.

Lemma calls_in_ok name t l : calls_in name t = Ok l -> forall x i, In (x, i) l <-> invokes t x i.
Proof.
  revert l. induction t as [id r s inv sub ch IS IC] using ctree_induction. intros l. rewrite calls_in_eq. intros H. apply bind_ok in H as (here & HH & H). apply bind_ok in H as (rest & HR & H). apply ok_inj in H. subst l. intros x i. rewrite in_app_iff.
  rewrite (map_res_concat _ _ _ (x, i) HR). split.
  - intros [I|(c & b & C & F & I)]; [|apply (IC c C _ F) in I; now apply inv_child with c].
    destruct inv as [names|]; [apply ok_inj in HH; subst here; apply in_map_iff in I as (n & [= -> ->] & I); now constructor|].
    destruct sub as [st|]; [|apply ok_inj in HH; subst here; destruct I]. apply bind_ok in HH as (? & _ & HH). destruct st as [t'|]; [|discriminate]. apply (IS t' eq_refl _ HH) in I. now constructor.
  - intros V. inversion V as [? ? ? names ? ? ? I|? ? ? t' ? ? ? V'|? ? ? ? ? ? c ? ? C V']; subst.
    + left. apply ok_inj in HH. subst here. now apply in_map_iff; exists x.
    + left. apply bind_ok in HH as (? & _ & HH). now apply (IS t' eq_refl _ HH).
    + right. apply map_res_ok in HR. destruct (forall2_in_l _ _ _ _ HR C) as (b & B & F). exists c, b. split; [assumption|]. split; [assumption|]. now apply (IC c C _ F).
Qed.
(* it fails only on a tree that is not sound *)
Lemma calls_in_err name t e : calls_in name t = Err e -> (e = AssertionError \/ e = AttributeError) /\ ~ sound name t.
Proof.
  revert e. induction t as [id r s inv sub ch IS IC] using ctree_induction. intros e. rewrite calls_in_eq.
  match goal with |- bind ?m _ = _ -> _ => destruct m as [here|e'] eqn:HH end; cbn [bind].
  - destruct (map_res (calls_in name) ch) as [rest|e'] eqn:HR; cbn [bind]; [discriminate|]. intros [= ->]. apply map_res_err in HR as (c & C & F). destruct (IC c C _ F) as (E & U). split; [assumption|]. intros W. inversion W as [? ? ? ? ? ? _ WC]; subst. now apply U, WC.
  - intros [= ->]. destruct inv as [names|]; [discriminate|]. destruct sub as [st|]; [|discriminate]. destruct (assert_cases (text_eqb name (tx "Early Errors"))) as [(A & B)|(A & B)]; rewrite A in HH; cbn [bind] in HH.
    + destruct st as [t'|].
      * destruct (IS t' eq_refl _ HH) as (E & U). split; [assumption|]. intros W. inversion W as [? ? ? ? ? ? WS _]; subst. destruct (WS _ eq_refl) as (_ & t & [= <-] & W'). now apply U.
      * injection HH as <-. split; [now right|]. intros W. inversion W as [? ? ? ? ? ? WS _]; subst. destruct (WS _ eq_refl) as (_ & t & K & _). discriminate.
    + injection HH as <-. split; [now left|]. intros W. inversion W as [? ? ? ? ? ? WS _]; subst. destruct (WS _ eq_refl) as (-> & _). vm_compute in B. discriminate.
Qed.

Lemma calls_of_defn_ok name d l : calls_of_defn name d = Ok l -> forall x i, In (x, i) l <-> exists t, In (Some t) (cd_anodes d) /\ invokes t x i.
Proof.
  unfold calls_of_defn. intros H x i. apply bind_ok in H as (ls & M & H). apply ok_inj in H. subst l. rewrite (map_res_concat _ _ _ (x, i) M). split.
  - intros (a & b & A & F & I). destruct a as [t|]; cbn [calls_of_anode] in F; [|apply ok_inj in F; subst b; destruct I]. exists t. split; [assumption|]. now apply (calls_in_ok _ _ _ F).
  - intros (t & A & V). apply map_res_ok in M. destruct (forall2_in_l _ _ _ _ M A) as (b & B & F). exists (Some t), b. split; [assumption|]. split; [assumption|]. now apply (calls_in_ok _ _ _ F).
Qed.
Lemma calls_of_defn_err name d e : calls_of_defn name d = Err e -> (e = AssertionError \/ e = AttributeError) /\ exists t, In (Some t) (cd_anodes d) /\ ~ sound name t.
Proof.
  unfold calls_of_defn. destruct (map_res (calls_of_anode name) (cd_anodes d)) as [ls|e'] eqn:M; cbn [bind]; [discriminate|]. intros [= ->]. apply map_res_err in M as (a & A & F). destruct a as [t|]; cbn [calls_of_anode] in F; [|discriminate]. apply calls_in_err in F as (E & U). split; [assumption|]. now exists t.
Qed.

(* the facts about one algorithm *)
Definition facts (e : text * calg) (i : cinfo) : Prop :=
  ci_name i = fst e /\ ci_alg i = snd e /\ listing (ci_callees i) (calls (fst e) (snd e)) /\
  Forall2 (fun d c => fst c = cd_sect d /\ calls_of_defn (fst e) d = Ok (snd c)) (ca_defns (snd e)) (ci_calls i).
Lemma info_ok e i : info_of e = Ok i -> facts e i.
Proof.
  destruct e as [name a]. unfold info_of. intros H. apply bind_ok in H as (ls & M & H). apply bind_ok in H as (all & AL & H). apply ok_inj in H. subst i. unfold facts. cbn [ci_name ci_alg ci_callees ci_calls fst snd].
  split; [reflexivity|]. split; [reflexivity|]. split.
  - apply (sorted_set_iff _ all); [|reflexivity]. intros x.
    assert (F : In x (map fst (concat ls)) <-> exists s t i, tree_of a s t /\ invokes t x i).
    { rewrite in_map_iff. split.
      - intros ([y i] & <- & I). apply (map_res_concat _ _ _ (y, i) M) in I as (d & b & D & F & I). apply (calls_of_defn_ok _ _ _ F) in I as (t & T & V). exists (cd_sect d), t, i. split; [|assumption]. now exists d.
      - intros (s & t & i & (d & D & _ & T) & V). apply map_res_ok in M. destruct (forall2_in_l _ _ _ _ M D) as (b & B & F). exists (x, i). split; [reflexivity|]. apply in_concat. exists b. split; [assumption|]. apply (calls_of_defn_ok _ _ _ F). now exists t. }
    unfold calls. destruct (text_eqb name (tx "HostLoadImportedModule")) eqn:E.
    + apply text_eqb_eq in E. apply bind_ok in AL as (? & _ & AL). apply ok_inj in AL. subst all. rewrite in_app_iff, F. cbn [In]. split; [intros [A|[<-|[]]]; [now left|now right]|intros [A|(_ & ->)]; [now left|right; now left]].
    + apply ok_inj in AL. subst all. rewrite F. split; [now left|]. intros [A|(-> & _)]; [assumption|]. vm_compute in E. discriminate.
  - clear AL. apply map_res_ok in M. induction M as [|d l ds ls F M IH]; cbn [map combine]; constructor; [split; [reflexivity|assumption]|assumption].
Qed.
Lemma info_err e x : info_of e = Err x -> (x = AssertionError \/ x = AttributeError) /\ ~ sound_alg (fst e) (snd e).
Proof.
  destruct e as [name a]. unfold info_of. cbn [fst snd]. destruct (map_res (calls_of_defn name) (ca_defns a)) as [ls|e'] eqn:M; cbn [bind].
  - destruct (text_eqb name (tx "HostLoadImportedModule")) eqn:E; cbn [bind]; [|discriminate]. apply text_eqb_eq in E.
    destruct (assert_cases (length (ca_defns a) =? 0)) as [(A & B)|(A & B)]; rewrite A; cbn [bind]; [discriminate|]. intros [= <-]. split; [now left|]. intros (_ & W). rewrite (W E) in B. discriminate.
  - intros [= ->]. apply map_res_err in M as (d & D & F). apply calls_of_defn_err in F as (X & t & T & U). split; [assumption|]. intros (W & _). apply U, (W (cd_sect d)). now exists d.
Qed.

(* ------------------------------------------------------------------ *)
(* what looks like run-time semantics *)
Definition occurs_in (p t : text) : Prop := exists a b, t = a ++ p ++ b.
Definition runtime_node (rhs src : text) : Prop :=
  occurs_in (tx "execution context") rhs \/ occurs_in (tx "{EXECUTION_CONTEXT_COMPONENT}") rhs \/
  occurs_in (tx "a newly created object") rhs \/ occurs_in (tx "a new built-in function object") rhs \/
  occurs_in (tx "an ECMAScript function object") rhs \/ occurs_in (tx "an iterator object") rhs \/
  occurs_in (tx "internal slot") rhs \/ occurs_in (tx "own property") rhs \/ occurs_in (tx "the property named") rhs \/
  occurs_in (tx "Data Block") rhs \/ occurs_in (tx "Environment Record") rhs \/ occurs_in (tx "Realm Record") rhs \/
  occurs_in (tx "the thisValue component") rhs \/ occurs_in (tx "Throw a") rhs \/
  occurs_in (tx "[[Prototype]]") src \/ occurs_in (tx "[[Extensible]]") src.
Inductive runtime_tree : ctree -> Prop :=
| rt_here id r s inv sub ch : runtime_node r s -> runtime_tree (CT id r s inv sub ch)
| rt_sub id r s inv t ch : runtime_tree t -> runtime_tree (CT id r s inv (Some (Some t)) ch)
| rt_child id r s inv sub ch c : In c ch -> runtime_tree c -> runtime_tree (CT id r s inv sub ch).
Lemma looks_runtimey_iff r s : looks_runtimey r s = true <-> runtime_node r s.
Proof.
  unfold looks_runtimey, runtime_phrases, runtime_texts, runtime_node, occurs_in. rewrite orb_true_iff. cbn [existsb]. rewrite !orb_true_iff, !text_in_iff. intuition discriminate.
Qed.
Lemma runtimey_in_eq name id r s inv sub ch :
  runtimey_in name (CT id r s inv sub ch) =
  if looks_runtimey r s then Ok (true, true)
  else bind (match sub with
        | None => Ok false
        | Some st =>
          bind (assert_ (text_eqb name (tx "Early Errors"))) (fun _ =>
          match st with Some t' => bind (runtimey_in name t') (fun r => Ok (fst r)) | None => Err AttributeError end)
        end) (fun here => (fix go (l : list ctree) (b : bool) : res (bool * bool) :=
         match l with
         | [] => Ok (b, false)
         | c :: l' =>
           bind (runtimey_in name c) (fun r =>
           if snd r then Ok (true, true) else go l' (b || fst r))
         end) ch here).
Proof. reflexivity. Qed.
Lemma runtimey_in_ok name t p : runtimey_in name t = Ok p -> (fst p = true <-> runtime_tree t) /\ (snd p = true -> fst p = true).
Proof.
  revert p. induction t as [id r s inv sub ch IS IC] using ctree_induction. intros p. rewrite runtimey_in_eq. destruct (looks_runtimey r s) eqn:L.
  - intros H. apply ok_inj in H. subst p. split; [|reflexivity]. split; [intros _; apply rt_here; now apply looks_runtimey_iff|reflexivity].
  - assert (NL : ~ runtime_node r s) by (rewrite <- looks_runtimey_iff, L; discriminate). intros H. apply bind_ok in H as (here & HH & H).
    assert (B : here = true <-> exists t, sub = Some (Some t) /\ runtime_tree t).
    { destruct sub as [st|]; [|apply ok_inj in HH; subst here; split; [discriminate|intros (t & K & _); discriminate]]. apply bind_ok in HH as (? & _ & HH). destruct st as [t'|]; [|discriminate]. apply bind_ok in HH as (q & Q & HH). apply ok_inj in HH. subst here. destruct (IS t' eq_refl _ Q) as (E & _). rewrite E. split; [intros R; now exists t'|intros (t & [= <-] & R); assumption]. }
    clear HH. assert (W : (fst p = true <-> here = true \/ exists c, In c ch /\ runtime_tree c) /\ (snd p = true -> fst p = true)).
    { clear B IS NL L. revert here H. induction ch as [|c ch IH]; intros here H.
      - apply ok_inj in H. subst p. split; [|discriminate]. split; [now left|intros [E|(c & [] & _)]; assumption].
      - apply bind_ok in H as (q & Q & H). destruct (IC c (or_introl eq_refl) _ Q) as (E & S2). destruct (snd q) eqn:SQ.
        + apply ok_inj in H. subst p. split; [|reflexivity]. split; [|reflexivity]. intros _. right. exists c. split; [now left|]. now apply E, S2.
        + apply IH in H; [|intros d D; apply IC; now right]. destruct H as (H1 & H2). split; [|assumption]. rewrite H1, orb_true_iff. split.
          * intros [[A|A]|(d & D & R)]; [now left|right; exists c; split; [now left|now apply E]|right; exists d; split; [now right|assumption]].
          * intros [A|(d & [<-|D] & R)]; [left; now left|left; right; now apply E|right; now exists d]. }
    destruct W as (W1 & W2). split; [|assumption]. rewrite W1, B. split.
    + intros [(t & -> & R)|(c & C & R)]; [now apply rt_sub|now apply rt_child with c].
    + intros R. inversion R as [? ? ? ? ? ? X|? ? ? ? ? ? X|? ? ? ? ? ? c C X]; subst; [contradiction|left; eauto|right; now exists c].
Qed.
Lemma runtimey_in_err name t e : runtimey_in name t = Err e -> (e = AssertionError \/ e = AttributeError) /\ ~ sound name t.
Proof.
  revert e. induction t as [id r s inv sub ch IS IC] using ctree_induction. intros e. rewrite runtimey_in_eq. destruct (looks_runtimey r s); [discriminate|].
  match goal with |- bind ?m _ = _ -> _ => destruct m as [here|e'] eqn:HH end; cbn [bind].
  - intros H. assert (K : (e = AssertionError \/ e = AttributeError) /\ exists c, In c ch /\ ~ sound name c).
    { clear HH IS. revert here H. induction ch as [|c ch IH]; intros here H; [discriminate|]. destruct (runtimey_in name c) as [q|e'] eqn:Q; cbn [bind] in H.
      - destruct (snd q); [discriminate|]. apply IH in H; [|intros d D; apply IC; now right]. destruct H as (E & d & D & U). split; [assumption|]. exists d. split; [now right|assumption].
      - injection H as ->. destruct (IC c (or_introl eq_refl) _ Q) as (E & U). split; [assumption|]. exists c. split; [now left|assumption]. }
    destruct K as (E & c & C & U). split; [assumption|]. intros W. inversion W as [? ? ? ? ? ? _ WC]; subst. now apply U, WC.
  - intros [= ->]. destruct sub as [st|]; [|discriminate]. destruct (assert_cases (text_eqb name (tx "Early Errors"))) as [(A & B)|(A & B)]; rewrite A in HH; cbn [bind] in HH.
    + destruct st as [t'|].
      * destruct (runtimey_in name t') as [q|e'] eqn:Q; cbn [bind] in HH; [discriminate|]. injection HH as ->. destruct (IS t' eq_refl _ Q) as (E & U). split; [assumption|]. intros W. inversion W as [? ? ? ? ? ? WS _]; subst. destruct (WS _ eq_refl) as (_ & t & [= <-] & W'). now apply U.
      * injection HH as <-. split; [now right|]. intros W. inversion W as [? ? ? ? ? ? WS _]; subst. destruct (WS _ eq_refl) as (_ & t & K & _). discriminate.
    + injection HH as <-. split; [now left|]. intros W. inversion W as [? ? ? ? ? ? WS _]; subst. destruct (WS _ eq_refl) as (-> & _). vm_compute in B. discriminate.
Qed.
