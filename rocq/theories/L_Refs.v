(* Specification of the checks of uses of the grammar, and lemmas about their model. *)
From Coq Require Import Ascii String Sorted Permutation.
From Verif Require Import M_Base L_Base M_HTML M_Records L_Records M_Defs L_Defs M_Refs.
Open Scope list_scope.
Notation length := List.length.

(* --- monad --- *)
Lemma mbind_ok : forall M A B (o : outm M A) (k : A -> outm M B) b, snd (mbind o k) = Ok b <-> exists a, snd o = Ok a /\ snd (k a) = Ok b.
Proof. intros M A B [m [a|e]] k b; unfold mbind; cbn [fst snd]; split; [eauto|intros (x & E & H); congruence|discriminate|intros (x & E & H); discriminate]. Qed.
Lemma mbind_err : forall M A B (o : outm M A) (k : A -> outm M B) e, snd (mbind o k) = Err e <-> snd o = Err e \/ exists a, snd o = Ok a /\ snd (k a) = Err e.
Proof. intros M A B [m [a|x]] k e; unfold mbind; cbn [fst snd]; split; [eauto|intros [E|(y & E & H)]; congruence|intros E; left; congruence|intros [E|(y & E & H)]; congruence]. Qed.
Lemma mbind_msgs : forall M A B (o : outm M A) (k : A -> outm M B) a, snd o = Ok a -> fst (mbind o k) = fst o ++ fst (k a).
Proof. intros M A B [m [a|x]] k b E; cbn in E; [injection E as ->; reflexivity|discriminate]. Qed.
Lemma mbind_assert : forall M A b (k : unit -> outm M A), mbind (massert b) k = if b then k tt else ([], Err AssertionError).
Proof. intros M A [] k; [|reflexivity]. unfold mbind, massert. cbn. destruct (k tt); reflexivity. Qed.
Lemma mbind_ret : forall M A B (a : A) (k : A -> outm M B), mbind (mret a) k = k a.
Proof. intros. unfold mbind, mret. cbn. destruct (k a); reflexivity. Qed.
Lemma mbind_tell : forall M A l (k : unit -> outm M A), mbind (mtell l) k = (l ++ fst (k tt), snd (k tt)).
Proof. reflexivity. Qed.
Lemma mfold_app : forall M A B (f : A -> B -> outm M A) l1 l2 a, mfold f a (l1 ++ l2) = mbind (mfold f a l1) (fun a' => mfold f a' l2).
Proof.
  intros M A B f. induction l1 as [|x l1 IH]; intros l2 a; cbn [app mfold]; [now rewrite mbind_ret|]. destruct (f a x) as [m [b|e]]; unfold mbind at 1 3; cbn [fst snd]; [|reflexivity]. rewrite IH.
  unfold mbind. cbn [fst snd]. destruct (mfold f b l1) as [m' [c|e']]; cbn [fst snd]; [now rewrite app_assoc|reflexivity].
Qed.
(* a loop without a state *)
Lemma munit_ok : forall M B (f : unit -> B -> outm M unit) l, snd (mfold f tt l) = Ok tt <-> Forall (fun x => snd (f tt x) = Ok tt) l.
Proof.
  intros M B f. induction l as [|x l IH]; [split; [constructor|reflexivity]|]. cbn [mfold]. rewrite mbind_ok, Forall_cons_iff, <- IH. split; [intros ([] & A & B'); auto|intros [A B']; exists tt; auto].
Qed.
Lemma munit_err : forall M B (f : unit -> B -> outm M unit) l e, snd (mfold f tt l) = Err e -> exists l1 x l2, l = l1 ++ x :: l2 /\ snd (f tt x) = Err e /\ Forall (fun y => snd (f tt y) = Ok tt) l1.
Proof.
  intros M B f. induction l as [|x l IH]; intros e H; [discriminate|]. cbn [mfold] in H. apply mbind_err in H as [H|([] & E & H)]; [exists [], x, l; auto|].
  destruct (IH e H) as (l1 & y & l2 & -> & Ey & F). exists (x :: l1), y, l2. auto.
Qed.
Lemma munit_msgs : forall M B (f : unit -> B -> outm M unit) l m, snd (mfold f tt l) = Ok tt -> (In m (fst (mfold f tt l)) <-> exists x, In x l /\ In m (fst (f tt x))).
Proof.
  intros M B f. induction l as [|x l IH]; intros m H; [split; [intros []|intros (y & [] & _)]|]. cbn [mfold] in *. apply mbind_ok in H as ([] & A & B'). rewrite (mbind_msgs _ _ _ _ _ tt A), in_app_iff, (IH m B').
  split; [intros [X|(y & Hy & X)]; [exists x; split; [now left|exact X]|exists y; split; [now right|exact X]]|]. intros (y & [->|Hy] & X); [now left|right; exists y; auto].
Qed.

(* ---------- the order of right-hand sides ---------- *)
Fixpoint node_rect' (P : node -> Prop) (f : forall n k u l, Forall P l -> P (Node n k u l)) (x : node) : P x :=
  match x with Node n k u l => f n k u l ((fix go (l : list node) : Forall P l := match l with [] => Forall_nil P | c :: l' => Forall_cons c (node_rect' P f c) (go l') end) l) end.
Definition a_section (n : node) : Prop := n_name n = tx "emu-intro" \/ n_name n = tx "emu-clause" \/ n_name n = tx "emu-annex".
Lemma section_iff : forall n, is_section n = true <-> a_section n.
Proof. intros n. unfold is_section, a_section. rewrite tin_iff. cbn [In]. intuition. Qed.
(* a section of the tree of sections; whether an emu-alg contains it *)
Inductive section_of : node -> bool -> node -> bool -> Prop :=
| Sec_here n alg : section_of n alg n alg
| Sec_child n alg c m alg' : In c (n_children n) -> a_section c -> section_of c (alg || in_alg n) m alg' -> section_of n alg m alg'.
(* the right-hand sides of a section: those of the emu-grammars in it, in order, but for those in algorithms *)
Fixpoint own_uses (n : node) : list use :=
  match n with Node name _ uses children =>
    if text_eqb name (tx "emu-alg") then [] else (if text_eqb name (tx "emu-grammar") then uses else []) ++ flat_map own_uses children end.
(* somewhere below there is a grammar *)
Inductive has_grammar : node -> Prop :=
| G_here n : n_name n = tx "emu-grammar" -> has_grammar n
| G_child n c : In c (n_children n) -> has_grammar c -> has_grammar n.
(* somewhere below there is a section with a grammar *)
Inductive inner_grammar : node -> Prop :=
| I_here n c : In c (n_children n) -> a_section c -> has_grammar c -> inner_grammar n
| I_child n c : In c (n_children n) -> inner_grammar c -> inner_grammar n.

Lemma each_section_eq : forall alg n, each_section alg n = (if is_section n then [(alg, n)] else []) ++ flat_map (fun c => if is_section c then each_section (alg || in_alg n) c else []) (n_children n).
Proof. intros alg [a b c l]. reflexivity. Qed.
Lemma each_grammar_eq : forall nested alg n, each_grammar nested alg n = (if text_eqb (n_name n) (tx "emu-grammar") then [(nested, alg || in_alg n, n_uses n)] else []) ++ flat_map (fun c => each_grammar (nested || is_section c) (alg || in_alg n) c) (n_children n).
Proof. intros nested alg [a b c l]. reflexivity. Qed.
Lemma sections_spec : forall n alg s a, In (a, s) (each_section alg n) <-> section_of n alg s a /\ a_section s.
Proof.
  assert (F : forall n alg s a, In (a, s) (each_section alg n) -> section_of n alg s a /\ a_section s).
  { induction n as [nm kd us l IH] using node_rect'. intros alg s a H. rewrite each_section_eq in H. apply in_app_iff in H as [H|H].
    - destruct (is_section _) eqn:E; [|destruct H]. destruct H as [H|[]]. injection H as <- <-. split; [constructor|now apply section_iff].
    - apply in_flat_map in H as (c & Hc & H). destruct (is_section c) eqn:E; [|destruct H]. rewrite Forall_forall in IH. destruct (IH c Hc _ _ _ H) as [A B]. split; [eapply Sec_child; [exact Hc|now apply section_iff|exact A]|exact B]. }
  intros n alg s a. split; [apply F|]. intros [H Hs]. induction H as [n alg|n alg c m alg' Hc E H IH]; rewrite each_section_eq; apply in_app_iff.
  - left. rewrite (proj2 (section_iff _) Hs). now left.
  - right. apply in_flat_map. exists c. split; [exact Hc|]. rewrite (proj2 (section_iff _) E). now apply IH.
Qed.
Lemma grammars_flags : forall n nested alg, (exists g, In g (each_grammar nested alg n)) <-> has_grammar n.
Proof.
  intros n. induction n as [nm kd us l IH] using node_rect'. intros nested alg. rewrite Forall_forall in IH. split.
  - intros (g & H). rewrite each_grammar_eq in H. apply in_app_iff in H as [H|H].
    + destruct (text_eqb _ _) eqn:E; [|destruct H]. apply text_eqb_eq in E. now apply G_here.
    + apply in_flat_map in H as (c & Hc & H). eapply G_child; [exact Hc|]. eapply (IH c Hc); eauto.
  - intros H. inversion H as [n E|n c Hc Hg]; subst.
    + eexists. rewrite each_grammar_eq, E. apply in_app_iff. left. now left.
    + apply (IH c Hc (nested || is_section c) (alg || in_alg (Node nm kd us l))) in Hg as (g & Hg). exists g. rewrite each_grammar_eq. apply in_app_iff. right. apply in_flat_map. eauto.
Qed.
Lemma grammars_nested : forall n alg g, In g (each_grammar true alg n) -> fst (fst g) = true.
Proof.
  intros n. induction n as [nm kd us l IH] using node_rect'. intros alg g H. rewrite Forall_forall in IH. rewrite each_grammar_eq in H. apply in_app_iff in H as [H|H].
  - destruct (text_eqb _ _); [|destruct H]. destruct H as [<-|[]]. reflexivity.
  - apply in_flat_map in H as (c & Hc & H). exact (IH c Hc _ _ H).
Qed.
Lemma grammars_inner : forall n alg, (exists g, In g (each_grammar false alg n) /\ fst (fst g) = true) <-> inner_grammar n.
Proof.
  intros n. induction n as [nm kd us l IH] using node_rect'. intros alg. rewrite Forall_forall in IH. split.
  - intros (g & H & E). rewrite each_grammar_eq in H. apply in_app_iff in H as [H|H].
    + destruct (text_eqb _ _); [|destruct H]. destruct H as [<-|[]]. discriminate.
    + apply in_flat_map in H as (c & Hc & H). cbn [orb] in H. destruct (is_section c) eqn:Ec.
      * eapply I_here; [exact Hc|now apply section_iff|]. eapply grammars_flags; eauto.
      * eapply I_child; [exact Hc|]. eapply (IH c Hc); eauto.
  - intros H. inversion H as [n c Hc Ec Hg|n c Hc Hg]; subst.
    + apply section_iff in Ec. apply (grammars_flags c true (alg || in_alg (Node nm kd us l))) in Hg as (g & Hg). exists g. split; [|eapply grammars_nested; eauto]. rewrite each_grammar_eq. apply in_app_iff. right. apply in_flat_map. exists c. rewrite Ec. auto.
    + destruct (is_section c) eqn:Ec.
      * assert (Hg' : has_grammar c). { clear - Hg. induction Hg as [n c H1 H2 H3|n c H1 H2 IH]; eapply G_child; eauto. }
        apply (grammars_flags c true (alg || in_alg (Node nm kd us l))) in Hg' as (g & Hg'). exists g. split; [|eapply grammars_nested; eauto]. rewrite each_grammar_eq. apply in_app_iff. right. apply in_flat_map. exists c. rewrite Ec. auto.
      * apply (IH c Hc (alg || in_alg (Node nm kd us l))) in Hg as (g & Hg & E). exists g. split; [|exact E]. rewrite each_grammar_eq. apply in_app_iff. right. apply in_flat_map. exists c. rewrite Ec. auto.
Qed.
Definition kept (g : bool * bool * list use) : list use := if snd (fst g) then [] else snd g.
Lemma grammars_alg : forall n nested, flat_map kept (each_grammar nested true n) = [].
Proof.
  intros n. induction n as [nm kd us l IH] using node_rect'. intros nested. rewrite each_grammar_eq, flat_map_app. rewrite Forall_forall in IH. destruct (text_eqb _ _); cbn [flat_map kept fst snd orb app];
  (induction l as [|c l IHl]; [reflexivity|]; cbn [n_children flat_map]; rewrite flat_map_app; cbn [orb] in *; rewrite (IH c (or_introl eq_refl)); apply IHl; intros x Hx; apply IH; now right).
Qed.
Lemma grammars_uses : forall n nested, flat_map kept (each_grammar nested false n) = own_uses n.
Proof.
  intros n. induction n as [nm kd us l IH] using node_rect'. intros nested. rewrite each_grammar_eq, flat_map_app. cbn [own_uses n_name n_uses n_children orb]. unfold in_alg. cbn [n_name]. destruct (text_eqb nm (tx "emu-alg")) eqn:E.
  - assert (E2 : text_eqb nm (tx "emu-grammar") = false) by (apply text_eqb_eq in E; subst nm; reflexivity). rewrite E2. cbn [flat_map app]. clear. induction l as [|c l IH]; [reflexivity|]. cbn [flat_map]. rewrite flat_map_app, grammars_alg. exact IH.
  - f_equal; [destruct (text_eqb nm (tx "emu-grammar")); cbn; [now rewrite app_nil_r|reflexivity]|]. rewrite Forall_forall in IH. induction l as [|c l IHl]; [reflexivity|]. cbn [flat_map]. rewrite flat_map_app, (IH c (or_introl eq_refl)). f_equal. apply IHl. intros x Hx. apply IH. now right.
Qed.

(* neighbours *)
Definition adj {A} (l : list A) (x y : A) : Prop := exists l1 l2, l = l1 ++ x :: y :: l2.
Lemma adj_cons : forall A (a b : A) l x y, adj (a :: b :: l) x y <-> (x = a /\ y = b) \/ adj (b :: l) x y.
Proof.
  intros A a b l x y. split.
  - intros ([|c l1] & l2 & E); cbn [app] in E; inversion E; subst; [auto|]. right. exists l1, l2. assumption.
  - intros [[-> ->]|(l1 & l2 & E)]; [exists [], l; reflexivity|]. exists (a :: l1), l2. cbn. congruence.
Qed.
Lemma adj_one : forall A (a x y : A), ~ adj [a] x y.
Proof. intros A a x y ([|c [|d l1]] & l2 & E); discriminate. Qed.
Lemma adj_nil : forall A (x y : A), ~ adj [] x y.
Proof. intros A x y ([|c l1] & l2 & E); discriminate. Qed.
(* one of two uses of the same production matches a right-hand side of it and the other does not *)
Definition clash (u v : use) : Prop := exists d n n', u_def u = Some (d, n) /\ u_def v = Some (d, n') /\ ((u_di u = None /\ u_di v <> None) \/ (u_di u <> None /\ u_di v = None)).
(* v, which follows u, comes before it in the definitions *)
Inductive descent (u v : use) : nat * order_msg -> Prop :=
| D_same d n n' i j : u_def u = Some (d, n) -> u_def v = Some (d, n') -> u_di u = Some i -> u_di v = Some j -> j < i -> descent u v (u_id v, SameLhs n' j i)
| D_other d d' n n' : u_def u = Some (d, n) -> u_def v = Some (d', n') -> d' < d -> descent u v (u_id v, OtherLhs n' d' d).
Definition keyof (u : use) : key := (match u_def u with Some (d, _) => d | None => 0 end, u_di u).
Definition opt_list {A} (o : option A) : list A := match o with Some x => [x] | None => [] end.

Lemma fold_spec : forall l pu, (forall u, pu = Some u -> u_def u <> None) -> let o := mfold order_step (option_map keyof pu) l in let all := opt_list pu ++ l in
  (Forall (fun u => u_def u <> None) l /\ (forall u v, adj all u v -> ~ clash u v) /\ snd o = Ok (option_map keyof (match rev l with u :: _ => Some u | [] => pu end)) /\
     (forall m, In m (fst o) <-> exists u v, adj all u v /\ descent u v m)) \/
  ((exists l1 u l2, l = l1 ++ u :: l2 /\ u_def u = None) /\ snd o = Err AttributeError) \/
  ((exists u v, adj all u v /\ clash u v) /\ snd o = Err TypeError).
Proof.
  induction l as [|v l IH]; intros pu Hpu o all.
  - left. split; [constructor|]. unfold all. rewrite app_nil_r. assert (N : forall u v, ~ adj (opt_list pu) u v) by (intros u v; destruct pu; [apply adj_one|apply adj_nil]).
    split; [intros u v X; destruct (N u v X)|]. split; [reflexivity|]. intros m. split; [intros []|intros (u & v & X & _); destruct (N u v X)].
  - unfold o. cbn [mfold]. destruct (u_def v) as [[d n]|] eqn:Ev.
    2:{ right. left. split; [exists [], v, l; auto|]. apply mbind_err. left. unfold order_step. rewrite Ev. reflexivity. }
    assert (Kv : keyof v = (d, u_di v)) by (unfold keyof; rewrite Ev; reflexivity).
    specialize (IH (Some v) ltac:(intros u [= <-]; congruence)). cbv zeta in IH. cbn [opt_list app option_map] in IH.
    (* what the step says *)
    assert (St : (exists ms, order_step (option_map keyof pu) v = (ms, Ok (Some (keyof v))) /\ (forall u, pu = Some u -> ~ clash u v) /\ forall m, In m ms <-> exists u, pu = Some u /\ descent u v m) \/
                 ((exists u, pu = Some u /\ clash u v) /\ order_step (option_map keyof pu) v = ([], Err TypeError))).
    { unfold order_step. rewrite Ev. destruct pu as [u|]; cbn [option_map].
      2:{ left. exists []. rewrite Kv. split; [reflexivity|]. split; [discriminate|]. intros m. split; [intros []|intros (u & X & _); discriminate]. }
      destruct (u_def u) as [[d' n']|] eqn:Eu; [|destruct (Hpu u eq_refl Eu)]. assert (Ku : keyof u = (d', u_di u)) by (unfold keyof; rewrite Eu; reflexivity). unfold key_lt. rewrite Ku, Kv. cbn [fst snd].
      destruct (Nat.eqb_spec d d') as [<-|Nd].
      - destruct (u_di v) as [j|] eqn:Jv, (u_di u) as [i|] eqn:Ju.
        + left. destruct (Nat.ltb_spec j i) as [Lt|Ge].
          * eexists. split; [rewrite mbind_tell; reflexivity|]. split; [intros u0 [= <-] (a & b & c & _ & _ & X); rewrite Jv, Ju in X; destruct X as [[X _]|[_ X]]; discriminate|].
            intros m. cbn [fst mret app]. split; [intros [<-|[]]; exists u; split; [reflexivity|]; eapply D_same; eauto|]. intros (u0 & [= <-] & D). left.
            inversion D as [a b c i' j' A1 A2 A3 A4 A5|a b c e A1 A2 A3]; subst; [congruence|]. assert (a = d) by congruence. assert (b = d) by congruence. lia.
          * eexists. split; [reflexivity|]. split; [intros u0 [= <-] (a & b & c & _ & _ & X); rewrite Jv, Ju in X; destruct X as [[X _]|[_ X]]; discriminate|].
            intros m. split; [intros []|]. intros (u0 & [= <-] & D). inversion D as [a b c i' j' A1 A2 A3 A4 A5|a b c e A1 A2 A3]; subst; [assert (i' = i) by congruence; assert (j' = j) by congruence; lia|]. assert (a = d) by congruence. assert (b = d) by congruence. lia.
        + right. split; [|reflexivity]. exists u. split; [reflexivity|]. exists d, n', n. split; [exact Eu|]. split; [exact Ev|]. left. rewrite Ju, Jv. split; [reflexivity|discriminate].
        + right. split; [|reflexivity]. exists u. split; [reflexivity|]. exists d, n', n. split; [exact Eu|]. split; [exact Ev|]. right. rewrite Ju, Jv. split; [discriminate|reflexivity].
        + left. eexists. split; [reflexivity|]. split; [intros u0 [= <-] (a & b & c & _ & _ & X); rewrite Jv, Ju in X; destruct X as [[_ X]|[X _]]; congruence|].
          intros m. split; [intros []|]. intros (u0 & [= <-] & D). inversion D as [a b c i' j' A1 A2 A3 A4 A5|a b c e A1 A2 A3]; subst; [congruence|]. assert (a = d) by congruence. assert (b = d) by congruence. lia.
      - left. destruct (Nat.ltb_spec d d') as [Lt|Ge].
        + eexists. split; [rewrite mbind_tell; reflexivity|]. split; [intros u0 [= <-] (a & b & c & X1 & X2 & _); congruence|].
          intros m. cbn [fst mret app]. split; [intros [<-|[]]; exists u; split; [reflexivity|]; eapply D_other; eauto|]. intros (u0 & [= <-] & D). left.
          inversion D as [a b c i' j' A1 A2 A3 A4 A5|a b c e A1 A2 A3]; subst; congruence.
        + eexists. split; [reflexivity|]. split; [intros u0 [= <-] (a & b & c & X1 & X2 & _); congruence|].
          intros m. split; [intros []|]. intros (u0 & [= <-] & D). inversion D as [a b c i' j' A1 A2 A3 A4 A5|a b c e A1 A2 A3]; subst; [congruence|]. assert (a = d') by congruence. assert (b = d) by congruence. lia. }
    assert (Al : forall x y, adj all x y <-> (pu = Some x /\ y = v) \/ adj (v :: l) x y).
    { intros x y. unfold all. destruct pu as [u|]; cbn [opt_list app]; [rewrite adj_cons; split; [intros [[-> ->]|X]; auto|intros [[X ->]|X]; [left; split; congruence|auto]]|]. split; [auto|intros [[X _]|X]; [discriminate|exact X]]. }
    destruct St as [(ms & E & Nc & Hms)|((u & -> & Cl) & E)].
    2:{ right. right. split; [exists u, v; split; [apply Al; auto|exact Cl]|]. apply mbind_err. left. cbn [option_map] in *. rewrite E. reflexivity. }
    assert (E' : snd (order_step (option_map keyof pu) v) = Ok (Some (keyof v))) by (rewrite E; reflexivity).
    destruct IH as [(F & Nc2 & R & Hm)|[((l1 & u & l2 & -> & Hu) & R)|((x & y & Hxy & Cl) & R)]].
    + left. split; [constructor; [congruence|exact F]|]. split; [intros x y X; apply Al in X as [[X ->]|X]; auto|]. split.
      * apply mbind_ok. exists (Some (keyof v)). split; [exact E'|]. rewrite R. cbn [rev]. destruct (rev l) as [|z t]; reflexivity.
      * intros m. rewrite (mbind_msgs _ _ _ _ _ _ E'), in_app_iff, Hm. replace (fst (order_step (option_map keyof pu) v)) with ms by (rewrite E; reflexivity). rewrite Hms. split.
        -- intros [(u & X & D)|(x & y & X & D)]; [exists u, v|exists x, y]; (split; [apply Al; auto|exact D]).
        -- intros (x & y & X & D). apply Al in X as [[X ->]|X]; [left; eauto|right; eauto].
    + right. left. split; [exists (v :: l1), u, l2; auto|]. apply mbind_err. right. eauto.
    + right. right. split; [exists x, y; split; [apply Al; auto|exact Cl]|]. apply mbind_err. right. eauto.
Qed.

(* the grammars of a section one after the other *)
Lemma grammar_fold : forall gs prev, Forall (fun g : bool * bool * list use => fst (fst g) = false) gs -> mfold order_grammar prev gs = mfold order_step prev (flat_map kept gs).
Proof.
  induction gs as [|[[ne al] us] gs IH]; intros prev F; [reflexivity|]. inversion F as [|? ? F1 F2]. subst. cbn [fst] in F1. subst ne. cbn [mfold flat_map kept fst snd]. rewrite mfold_app.
  assert (E : order_grammar prev (false, al, us) = mfold order_step prev (if al then [] else us)) by (unfold order_grammar; rewrite mbind_assert; destruct al; reflexivity). rewrite E. change (kept (false, al, us)) with (if al then [] else us).
  unfold mbind. destruct (mfold order_step prev (if al then [] else us)) as [m [p|e]]; cbn [fst snd]; [|reflexivity]. now rewrite (IH p F2).
Qed.
Lemma grammar_nested : forall gs prev, ~ Forall (fun g : bool * bool * list use => fst (fst g) = false) gs -> exists e, snd (mfold order_grammar prev gs) = Err e /\
   (e = AssertionError \/ exists gs1 gs2, gs = gs1 ++ gs2 /\ Forall (fun g : bool * bool * list use => fst (fst g) = false) gs1 /\ snd (mfold order_grammar prev gs1) = Err e).
Proof.
  induction gs as [|[[ne al] us] gs IH]; intros prev F; [destruct F; constructor|]. destruct ne.
  - exists AssertionError. split; [|now left]. cbn [mfold]. apply mbind_err. left. unfold order_grammar. rewrite mbind_assert. reflexivity.
  - destruct (order_grammar prev (false, al, us)) as [m [p|e]] eqn:E.
    + destruct (IH p) as (e & He & H); [intros X; apply F; constructor; [reflexivity|exact X]|]. exists e. split; [cbn [mfold]; apply mbind_err; right; exists p; rewrite E; auto|]. destruct H as [->|(g1 & g2 & -> & F1 & H)]; [now left|]. right.
      exists ((false, al, us) :: g1), g2. split; [reflexivity|]. split; [constructor; [reflexivity|exact F1]|]. cbn [mfold]. apply mbind_err. right. exists p. rewrite E. auto.
    + exists e. split; [cbn [mfold]; apply mbind_err; left; rewrite E; reflexivity|]. right. exists [(false, al, us)], gs. split; [reflexivity|]. split; [constructor; [reflexivity|constructor]|]. cbn [mfold]. apply mbind_err. left. rewrite E. reflexivity.
Qed.
(* what is checked of a section *)
Definition sequence (s : node) (alg : bool) : list use := if alg then [] else own_uses s.
Definition sdo (s : node) : Prop := n_kind s = tx "syntax_directed_operation".
Definition seq_fine (l : list use) : Prop := Forall (fun u => u_def u <> None) l /\ forall u v, adj l u v -> ~ clash u v.
Lemma sequence_eq : forall s alg, flat_map kept (each_grammar false alg s) = sequence s alg.
Proof. intros s []; [apply grammars_alg|apply grammars_uses]. Qed.
Lemma adj_app : forall A (l1 l2 : list A) x y, adj l1 x y -> adj (l1 ++ l2) x y.
Proof. intros A l1 l2 x y (a & b & ->). exists a, (b ++ l2). rewrite <- app_assoc. reflexivity. Qed.
Lemma section_spec : forall s alg, sdo s -> let o := order_section tt (alg, s) in
  (~ inner_grammar s /\ seq_fine (sequence s alg) /\ snd o = Ok tt /\ forall m, In m (fst o) <-> exists u v, adj (sequence s alg) u v /\ descent u v m) \/
  (exists e, snd o = Err e /\ ((e = AssertionError /\ inner_grammar s) \/ (e = AttributeError /\ exists u, In u (sequence s alg) /\ u_def u = None) \/
     (e = TypeError /\ exists u v, adj (sequence s alg) u v /\ clash u v))).
Proof.
  intros s alg Hs o. unfold o, order_section. rewrite Hs. replace (text_eqb (tx "syntax_directed_operation") (tx "syntax_directed_operation")) with true by reflexivity. clear o.
  destruct (Forall_dec (fun g : bool * bool * list use => fst (fst g) = false) (fun g => bool_dec (fst (fst g)) false) (each_grammar false alg s)) as [F|F].
  - rewrite (grammar_fold _ _ F), sequence_eq. pose proof (fold_spec (sequence s alg) None ltac:(discriminate)) as K. cbv zeta in K. cbn [option_map opt_list app] in K.
    destruct K as [(F1 & Nc & R & Hm)|[((l1 & u & l2 & E & Hu) & R)|((u & v & X & Cl) & R)]].
    + left. split; [intros X; apply (grammars_inner s alg) in X as (g & Hg & X); rewrite Forall_forall in F; rewrite (F g Hg) in X; discriminate|]. split; [split; assumption|]. split; [apply mbind_ok; eexists; split; [exact R|reflexivity]|].
      intros m. rewrite (mbind_msgs _ _ _ _ _ _ R). cbn [fst mret]. rewrite app_nil_r. apply Hm.
    + right. exists AttributeError. split; [apply mbind_err; now left|]. right. left. split; [reflexivity|]. exists u. split; [rewrite E; apply in_app_iff; right; now left|exact Hu].
    + right. exists TypeError. split; [apply mbind_err; now left|]. right. right. split; [reflexivity|]. eauto.
  - assert (In' : inner_grammar s).
    { apply (grammars_inner s alg). apply neg_Forall_Exists_neg in F; [|intros g; apply bool_dec]. apply Exists_exists in F as (g & Hg & X). exists g. split; [exact Hg|]. destruct (fst (fst g)); [reflexivity|congruence]. }
    destruct (grammar_nested _ None F) as (e & He & H). right. exists e. split; [apply mbind_err; now left|]. destruct H as [->|(g1 & g2 & E & F1 & H)]; [left; auto|].
    rewrite (grammar_fold _ _ F1) in H. pose proof (sequence_eq s alg) as Sq. rewrite E, flat_map_app in Sq. pose proof (fold_spec (flat_map kept g1) None ltac:(discriminate)) as K. cbv zeta in K. cbn [option_map opt_list app] in K.
    destruct K as [(_ & _ & R & _)|[((l1 & u & l2 & E1 & Hu) & R)|((u & v & X & Cl) & R)]]; rewrite R in H; [discriminate| |]; injection H as <-.
    + right. left. split; [reflexivity|]. exists u. split; [rewrite <- Sq, E1; apply in_app_iff; left; apply in_app_iff; right; now left|exact Hu].
    + right. right. split; [reflexivity|]. exists u, v. split; [rewrite <- Sq; now apply adj_app|exact Cl].
Qed.
(* sorted by place of definition *)
Definition before (u v : use) : Prop := exists d n d' n', u_def u = Some (d, n) /\ u_def v = Some (d', n') /\ (d < d' \/ (d = d' /\ ((u_di u = None /\ u_di v = None) \/ exists i j, u_di u = Some i /\ u_di v = Some j /\ i <= j))).
Lemma before_trans : forall u v w, before u v -> before v w -> before u w.
Proof.
  intros u v w (d & n & d' & n' & A & B & C) (e & m & e' & m' & A' & B' & C'). assert (e = d') by congruence. subst e. exists d, n, e', m'. split; [exact A|]. split; [exact B'|].
  destruct C as [C|(<- & C)], C' as [C'|(<- & C')]; [left; lia|left; lia|left; lia|]. right. split; [reflexivity|]. destruct C as [[C1 C2]|(i & j & C1 & C2 & C3)], C' as [[D1 D2]|(i' & j' & D1 & D2 & D3)]; [auto|congruence|congruence|]. right. exists i, j'. split; [exact C1|]. split; [exact D2|]. assert (i' = j) by congruence. lia.
Qed.
Lemma not_descent : forall u v, u_def u <> None -> u_def v <> None -> ~ clash u v -> ((forall m, ~ descent u v m) <-> before u v).
Proof.
  intros u v Hu Hv Nc. destruct (u_def u) as [[d n]|] eqn:Eu; [|congruence]. destruct (u_def v) as [[d' n']|] eqn:Ev; [|congruence]. split.
  - intros H. exists d, n, d', n'. split; [exact Eu|]. split; [exact Ev|]. destruct (lt_eq_lt_dec d d') as [[L|<-]|G]; [now left| |exfalso; eapply H; eapply D_other; eauto].
    right. split; [reflexivity|]. destruct (u_di u) as [i|] eqn:I, (u_di v) as [j|] eqn:J.
    + right. exists i, j. split; [reflexivity|]. split; [reflexivity|]. destruct (le_lt_dec i j) as [L|G]; [exact L|]. exfalso. eapply H. eapply D_same; eauto.
    + exfalso. apply Nc. exists d, n, n'. split; [exact Eu|]. split; [exact Ev|]. right. rewrite I, J. split; [discriminate|reflexivity].
    + exfalso. apply Nc. exists d, n, n'. split; [exact Eu|]. split; [exact Ev|]. left. rewrite I, J. split; [reflexivity|discriminate].
    + auto.
  - intros (a & b & c & e & A & B & C) m D. inversion D as [x y z i' j' A1 A2 A3 A4 A5|x y z t A1 A2 A3]; subst.
    + assert (x = a) by congruence. assert (x = c) by congruence. destruct C as [C|(_ & [[C1 C2]|(i & j & C1 & C2 & C3)])]; [lia|congruence|]. assert (i' = i) by congruence. assert (j' = j) by congruence. lia.
    + assert (x = a) by congruence. assert (y = c) by congruence. destruct C as [C|(C & _)]; lia.
Qed.
Lemma sorted_adj : forall A (R : A -> A -> Prop), (forall x y z, R x y -> R y z -> R x z) -> forall l, (forall x y, adj l x y -> R x y) <-> StronglySorted R l.
Proof.
  intros A R T. induction l as [|a l IH]; [split; [constructor|intros _ x y X; destruct (adj_nil _ _ _ X)]|]. destruct l as [|b l].
  - split; [intros _; constructor; constructor|intros _ x y X; destruct (adj_one _ _ _ _ X)].
  - split.
    + intros H. assert (S1 : StronglySorted R (b :: l)) by (apply IH; intros x y X; apply H; apply adj_cons; auto). constructor; [exact S1|]. assert (Rab : R a b) by (apply H; apply adj_cons; auto). constructor; [exact Rab|].
      inversion S1 as [|? ? _ F]. subst. rewrite Forall_forall in *. intros x Hx. eapply T; eauto.
    + intros H x y X. inversion H as [|? ? S1 F]. subst. apply adj_cons in X as [[-> ->]|X]; [now inversion F|]. now apply IH.
Qed.
