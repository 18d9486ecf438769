(* C96: the headers of an algorithm are consistent, or what is wrong is reported. *)
From Coq Require Import Ascii String Sorted Permutation Lia List.
From Verif Require Import M_Base L_Base M_HTML M_Shared M_Records L_Records M_Refs L_Refs M_Sections M_Style L_Style L_StyleVars L_StyleIfs L_StyleDesc L_ValTree M_PropPath L_PropPath L_Order M_Consist.
Open Scope list_scope.
Open Scope nat_scope.
Notation length := List.length.

(* ---------- what is expected ---------- *)
Definition by_type (a : alg) : Prop := begins (tx "op: discriminated by type:") (a_species a).
Definition by_syntax (a : alg) : Prop := begins (tx "op: discriminated by syntax:") (a_species a).
Definition singular (a : alg) : Prop := begins (tx "op: singular") (a_species a).
Definition built_in (a : alg) : Prop := begins (tx "bif:") (a_species a).
Definition short (a : alg) : Prop := a_species a = tx "shorthand".
Definition early (a : alg) : Prop := a_species a = tx "op: discriminated by syntax: early error".
Definition several_steps (a : alg) : Prop := a_species a = tx "op: discriminated by syntax: steps" /\ 1 < length (a_headers a).
(* Implementation of ... Module Record Abstract Methods *)
Definition module_methods (p : text) : Prop := exists m, p = tx "Implementation of " ++ m ++ tx "Module Record Abstract Methods" /\ ~ In 10%N m.
(* what the section of a header tells about the for-phrase *)
Definition phrase (h : header) (e : text) : Prop :=
  exists p, h_parent h = Some p /\
  ((module_methods p /\ exists g, h_grand h = Some g /\
     In (g, e) [(tx "Cyclic Module Records", tx "a Cyclic Module Record _module_"); (tx "Source Text Module Records", tx "a Source Text Module Record _module_"); (tx "Synthetic Module Records", tx "a Synthetic Module Record _module_")]) \/
   (~ module_methods p /\
     In (p, e) [
       (tx "Declarative Environment Records", tx "a Declarative Environment Record _envRecord_"); (tx "Object Environment Records", tx "an Object Environment Record _envRecord_");
       (tx "Function Environment Records", tx "a Function Environment Record _envRecord_"); (tx "Global Environment Records", tx "a Global Environment Record _envRecord_");
       (tx "Module Environment Records", tx "a Module Environment Record _envRecord_");
       (tx "Ordinary Object Internal Methods and Internal Slots", tx "an ordinary object _obj_"); (tx "ECMAScript Function Objects", tx "an ECMAScript function object _func_");
       (tx "Built-in Function Objects", tx "a built-in function object _func_"); (tx "Bound Function Exotic Objects", tx "a bound function exotic object _func_");
       (tx "Array Exotic Objects", tx "an Array exotic object _array_"); (tx "String Exotic Objects", tx "a String exotic object _string_");
       (tx "Arguments Exotic Objects", tx "an arguments exotic object _args_"); (tx "TypedArray Exotic Objects", tx "a TypedArray _obj_");
       (tx "Module Namespace Exotic Objects", tx "a module namespace exotic object _obj_"); (tx "Immutable Prototype Exotic Objects", tx "an immutable prototype exotic object _obj_");
       (tx "Proxy Object Internal Methods and Internal Slots", tx "a Proxy exotic object _obj_")])).
(* the parameters that both headers have are the same *)
Definition agree (l l' : list param) : Prop := forall i p p', nth_error l i = Some p -> nth_error l' i = Some p' -> p = p'.
(* what does not end the run *)
Record sound (a : alg) : Prop := mkSound {
  s_same : forall h, In h (a_headers a) -> h_name h = a_name a /\ h_species h = a_species a;
  s_species : short a \/ by_type a \/ by_syntax a \/ singular a \/ built_in a;
  s_short : short a -> a_headers a = [];
  s_phrases : by_type a -> (forall h, In h (a_headers a) -> exists e, phrase h e) /\ NoDup (map h_for (a_headers a));
  s_nophrase : by_syntax a \/ singular a \/ built_in a -> forall h, In h (a_headers a) -> h_for h = None;
  s_agree : forall h hs, a_headers a = h :: hs -> forall h', In h' hs -> agree (h_params h') (h_params h);
  s_noreturn : built_in a \/ early a -> forall h, In h (a_headers a) -> h_returns h = false }.
(* what is reported: the header with that number ... *)
Inductive fault := OtherPhrase (i : nat) (e : text) | OtherCount (i : nat) | FirstLacks | LaterHas (i : nat) | Lacks (i : nat).
Definition is_fault (a : alg) (f : fault) : Prop :=
  match f with
  | OtherPhrase i e => by_type a /\ exists h, nth_error (a_headers a) i = Some h /\ phrase h e /\ h_for h <> Some e
  | OtherCount i => 0 < i /\ exists h h0, nth_error (a_headers a) i = Some h /\ nth_error (a_headers a) 0 = Some h0 /\ length (h_params h) <> length (h_params h0)
  | FirstLacks => several_steps a /\ exists h, nth_error (a_headers a) 0 = Some h /\ h_returns h = false
  | LaterHas i => several_steps a /\ 0 < i /\ exists h, nth_error (a_headers a) i = Some h /\ h_returns h = true
  | Lacks i => ~ built_in a /\ ~ early a /\ ~ several_steps a /\ ~ by_type a /\ exists h, nth_error (a_headers a) i = Some h /\ h_returns h = false
  end.
Definition place (f : fault) : nat * nat := match f with OtherPhrase i _ => (0, i) | OtherCount i => (1, i) | FirstLacks => (2, 0) | LaterHas i => (2, i) | Lacks i => (2, i) end.
Definition comes_before (f g : fault) : Prop := fst (place f) < fst (place g) \/ fst (place f) = fst (place g) /\ snd (place f) < snd (place g).
Definition header_at (a : alg) (i : nat) : header := nth i (a_headers a) (mkHeader [] [] None [] false [] [] None None).
Definition about (h : header) (l : list text) : list text := tx "" :: (h_num h ++ tx " " ++ h_title h) :: l.
Definition said (a : alg) (f : fault) : list text :=
  match f with
  | OtherPhrase i e => about (header_at a i) [tx "  unexpected for_phrase"; tx "  expected: " ++ e; tx "       got: " ++ match h_for (header_at a i) with Some x => x | None => tx "None" end]
  | OtherCount i => about (header_at a i) [tx "  gives header for `" ++ a_name a ++ tx "` with " ++ str (length (h_params (header_at a i))) ++ tx " params"; tx "  but expected " ++ str (length (h_params (header_at a 0))) ++ tx " params"]
  | FirstLacks => about (header_at a 0) [tx "  first header for the alg doesn't have a return_nature_node"]
  | LaterHas i => about (header_at a i) [tx "  return_nature_node is not None"]
  | Lacks i => about (header_at a i) [tx "  For " ++ a_name a ++ tx ", return_nature_node is None"]
  end.

(* ---------- the pieces ---------- *)
Lemma opt_eqb_iff a b : opt_eqb a b = true <-> a = b.
Proof. destruct a, b; cbn; split; intros H; try discriminate; try reflexivity; [apply text_eqb_eq in H; congruence|apply text_eqb_eq; congruence]. Qed.
Lemma text_eqb_no a b : text_eqb a b = false <-> a <> b.
Proof. rewrite <- (text_eqb_eq a b). destruct (text_eqb a b); split; congruence. Qed.
Lemma tget_in {A} (d : list (text * A)) : NoDup (map fst d) -> forall k v, tget d k = Some v <-> In (k, v) d.
Proof.
  induction d as [|[k' v'] d IH]; intros ND k v; cbn [tget In map fst] in *; [split; [discriminate|intros []]|]. inversion ND as [|? ? NI ND']; subst. destruct (text_eqb k' k) eqn:E.
  - apply text_eqb_eq in E. subst k'. split; [intros X; left; congruence|]. intros [X|X]; [congruence|]. exfalso. apply NI. apply in_map_iff. now exists (k, v).
  - apply text_eqb_no in E. rewrite IH by exact ND'. split; [now right|]. intros [X|X]; [congruence|exact X].
Qed.
Fixpoint nodupb (l : list text) : bool := match l with [] => true | x :: l' => negb (existsb (text_eqb x) l') && nodupb l' end.
Lemma nodupb_ok l : nodupb l = true -> NoDup l.
Proof.
  induction l as [|x l IH]; intros H; [constructor|]. cbn [nodupb] in H. apply Bool.andb_true_iff in H as (A & B). constructor; [|now apply IH]. intros I. apply Bool.negb_true_iff in A. apply Bool.not_true_iff_false in A. apply A. apply existsb_exists. exists x. split; [exact I|]. now apply text_eqb_eq.
Qed.
Lemma module_iff p : match between (tx "Implementation of ") (tx "Module Record Abstract Methods") p with Some m => no_newline m | None => false end = true <-> module_methods p.
Proof.
  unfold module_methods. destruct (between (tx "Implementation of ") (tx "Module Record Abstract Methods") p) as [m|] eqn:B.
  - apply between_iff in B. rewrite no_newline_iff. split; [intros H; exists m; auto|]. intros (m' & E & H). rewrite B in E. apply app_inv_head, app_inv_tail in E. now subst m'.
  - split; [discriminate|]. intros (m & E & _). apply between_iff in E. congruence.
Qed.
Lemma expected_iff h e : expected_for h = Ok e <-> phrase h e.
Proof.
  unfold expected_for, phrase. destruct (h_parent h) as [p|]; [|split; [discriminate|intros (p & X & _); discriminate]].
  assert (FD : forall d k, NoDup (map fst d) -> (match tget d k with Some v => @Ok text v | None => Err KeyError end = Ok e <-> In (k, e) d)).
  { intros d k ND. rewrite <- (tget_in d ND). destruct (tget d k); split; try discriminate; intros X; [apply ok_inj in X; congruence|congruence]. }
  assert (NP : NoDup (map fst by_parent)) by (apply nodupb_ok; vm_compute; reflexivity). assert (NG : NoDup (map fst by_grandparent)) by (apply nodupb_ok; vm_compute; reflexivity).
  assert (M := module_iff p). destruct (between (tx "Implementation of ") (tx "Module Record Abstract Methods") p) as [m|].
  - destruct (no_newline m).
    + assert (MM : module_methods p) by now apply M. destruct (h_grand h) as [g|].
      * rewrite (FD by_grandparent g NG). split; [intros I; exists p; split; [reflexivity|]; left; split; [exact MM|]; exists g; auto|]. intros (p' & E & [(_ & g' & G & I)|(X & _)]); [now replace g with g' by congruence|]. replace p' with p in X by congruence. contradiction.
      * split; [discriminate|]. intros (p' & E & [(_ & g' & G & I)|(X & _)]); [discriminate|]. replace p' with p in X by congruence. contradiction.
    + assert (MM : ~ module_methods p) by (intros X; apply M in X; discriminate). rewrite (FD by_parent p NP). split; [intros I; exists p; split; [reflexivity|]; now right|]. intros (p' & E & X). replace p' with p in X by congruence. destruct X as [(X & _)|(_ & I)]; [contradiction|exact I].
  - assert (MM : ~ module_methods p) by (intros X; apply M in X; discriminate). rewrite (FD by_parent p NP). split; [intros I; exists p; split; [reflexivity|]; now right|]. intros (p' & E & X). replace p' with p in X by congruence. destruct X as [(X & _)|(_ & I)]; [contradiction|exact I].
Qed.
Lemma phrase_fun h e e' : phrase h e -> phrase h e' -> e = e'.
Proof. rewrite <- !expected_iff. intros A B. rewrite A in B. now apply ok_inj in B. Qed.
Lemma distinct_iff l : distinct l = true <-> NoDup l.
Proof.
  induction l as [|x l IH]; cbn [distinct]; [split; [constructor|reflexivity]|]. rewrite Bool.andb_true_iff, Bool.negb_true_iff, IH. split.
  - intros (A & B). constructor; [|exact B]. intros I. apply Bool.not_true_iff_false in A. apply A, existsb_exists. exists x. split; [exact I|]. now apply opt_eqb_iff.
  - intros ND. inversion ND as [|? ? NI ND']; subst. split; [|exact ND']. apply Bool.not_true_iff_false. intros X. apply existsb_exists in X as (y & I & E). apply opt_eqb_iff in E. subst y. contradiction.
Qed.
Lemma same_iff l l' : same_params l l' = true <-> agree l l'.
Proof.
  revert l'. induction l as [|p l IH]; intros [|p' l']; cbn [same_params]; try (split; [intros _ i q q' E E'; destruct i; discriminate|reflexivity]).
  rewrite !Bool.andb_true_iff, !text_eqb_eq, IH. split.
  - intros (((A & B) & C) & D) [|i] q q' E E'; cbn in E, E'; [|exact (D i q q' E E')]. destruct p, p'; cbn in *. congruence.
  - intros H. assert (E : p = p') by exact (H 0 p p' eq_refl eq_refl). subst p'. repeat split. intros i q q' E E'. exact (H (S i) q q' E E').
Qed.
Lemma starts_iff p t : starts p t = true <-> begins p t. Proof. apply begins_iff. Qed.
Ltac clash := repeat match goal with H : begins _ _ |- _ => destruct H as (? & H) end; congruence.
Lemma begins_no (p q t : text) : is_prefix p q = false -> is_prefix q p = false -> begins p t -> begins q t -> False.
Proof.
  intros A B (u & E) (v & E'). rewrite E in E'. apply app_eq_app in E' as (l & [(X & _)|(X & _)]).
  - assert (Y : is_prefix q p = true) by (apply begins_iff; now exists l). congruence.
  - assert (Y : is_prefix p q = true) by (apply begins_iff; now exists l). congruence.
Qed.
Lemma type_syntax a : by_type a -> by_syntax a -> False. Proof. apply begins_no; reflexivity. Qed.
Lemma type_singular a : by_type a -> singular a -> False. Proof. apply begins_no; reflexivity. Qed.
Lemma type_built a : by_type a -> built_in a -> False. Proof. apply begins_no; reflexivity. Qed.
Lemma syntax_built a : by_syntax a -> built_in a -> False. Proof. apply begins_no; reflexivity. Qed.
Lemma short_no a p : short a -> begins p (a_species a) -> is_prefix p (tx "shorthand") = false -> False.
Proof. intros S0 B N0. rewrite S0 in B. apply begins_iff in B. congruence. Qed.
Lemma early_syntax a : early a -> by_syntax a. Proof. intros E. exists (tx " early error"). rewrite E. reflexivity. Qed.
Lemma steps_syntax a : several_steps a -> by_syntax a. Proof. intros (E & _). exists (tx " steps"). rewrite E. reflexivity. Qed.
Lemma steps_early a : several_steps a -> early a -> False.
Proof. intros (E & _) E'. unfold early in E'. rewrite E in E'. apply (f_equal (@length _)) in E'. vm_compute in E'. discriminate. Qed.

(* ---------- for-phrases ---------- *)
Definition for_sound (a : alg) : Prop :=
  (forall h, In h (a_headers a) -> h_name h = a_name a /\ h_species h = a_species a) /\
  (short a \/ by_type a \/ by_syntax a \/ singular a \/ built_in a) /\ (short a -> a_headers a = []) /\
  (by_type a -> (forall h, In h (a_headers a) -> exists e, phrase h e) /\ NoDup (map h_for (a_headers a))) /\
  (by_syntax a \/ singular a \/ built_in a -> forall h, In h (a_headers a) -> h_for h = None).
Lemma forall_in {A} (P Q : A -> Prop) l : (forall x, P x <-> Q x) -> ((forall x, In x l -> P x) <-> (forall x, In x l -> Q x)).
Proof. intros H. split; intros X x I; apply H; auto. Qed.
Lemma pair_of {M A} (o : outm M A) : o = (fst o, snd o). Proof. now destruct o. Qed.
Lemma for_fold hs : snd (mfold for_one tt hs) = Ok tt <-> forall h, In h hs -> exists e, phrase h e.
Proof.
  rewrite munit_ok, Forall_forall. apply forall_in. intros h. assert (X : snd (for_one tt h) = Ok tt <-> exists e, phrase h e).
  { unfold for_one. destruct (expected_for h) as [e|x] eqn:E.
    - assert (P := E). apply expected_iff in P. split; [now exists e|]. intros _. destruct (opt_eqb (h_for h) (Some e)); reflexivity.
    - split; [discriminate|]. intros (e & P). apply expected_iff in P. congruence. }
  exact X.
Qed.
Lemma assert_ok b u : assert_ b = Ok u <-> b = true. Proof. destruct b, u; split; try discriminate; reflexivity. Qed.
Lemma snd_massert {M} b : snd (@massert M b) = assert_ b. Proof. reflexivity. Qed.
Lemma check_for_iff a u : snd (check_for a) = Ok u <-> for_sound a.
Proof.
  unfold check_for, for_sound. rewrite mbind_assert. set (same := forallb _ (a_headers a)).
  assert (SA : same = true <-> forall h, In h (a_headers a) -> h_name h = a_name a /\ h_species h = a_species a).
  { unfold same. rewrite forallb_forall. apply forall_in. intros h. rewrite Bool.andb_true_iff, !text_eqb_eq. reflexivity. }
  rewrite <- SA. destruct same; [|split; [discriminate|intros (X & _); discriminate]].
  assert (N0 : (length (a_headers a) =? 0) = true <-> a_headers a = []) by (rewrite Nat.eqb_eq; apply length_zero_iff_nil).
  assert (NF : forallb none_for (a_headers a) = true <-> forall h, In h (a_headers a) -> h_for h = None).
  { rewrite forallb_forall. apply forall_in. intros h. unfold none_for. destruct (h_for h); split; try discriminate; reflexivity. }
  destruct (text_eqb (a_species a) (tx "shorthand")) eqn:E.
  - apply text_eqb_eq in E. assert (SH : short a) by exact E. rewrite snd_massert, assert_ok, N0. split.
    + intros Z. split; [reflexivity|]. split; [now left|]. split; [now intros _|]. split; [intros X; exfalso; exact (short_no a _ SH X eq_refl)|]. intros [X|[X|X]]; exfalso; exact (short_no a _ SH X eq_refl).
    + intros (_ & _ & Z & _). now apply Z.
  - assert (NS : ~ short a) by now apply text_eqb_no. destruct (starts (tx "op: discriminated by type:") (a_species a)) eqn:T.
    + apply starts_iff in T. assert (BT : by_type a) by exact T. rewrite mbind_ok. split.
      * intros ([] & A & B). rewrite snd_massert, assert_ok, distinct_iff in B. split; [reflexivity|]. split; [now right; left|]. split; [contradiction|]. split; [intros _; split; [now apply for_fold|exact B]|].
        intros [X|[X|X]]; exfalso; [exact (type_syntax a BT X)|exact (type_singular a BT X)|exact (type_built a BT X)].
      * intros (_ & _ & _ & P & _). destruct (P BT) as (P1 & P2). exists tt. split; [now apply for_fold|]. now rewrite snd_massert, assert_ok, distinct_iff.
    + assert (NT : ~ by_type a) by (intros X; apply starts_iff in X; congruence).
      set (c := starts _ (a_species a) || starts (tx "op: singular") (a_species a) || starts (tx "bif:") (a_species a)). assert (C : c = true <-> by_syntax a \/ singular a \/ built_in a) by (unfold c; rewrite !Bool.orb_true_iff, !starts_iff, or_assoc; reflexivity). destruct c.
      * rewrite snd_massert, assert_ok, NF. destruct (proj1 C eq_refl) as [X|[X|X]]; (split; [intros Z; split; [reflexivity|]; split; [tauto|]; split; [contradiction|]; split; [contradiction|]; now intros _|intros (_ & _ & _ & _ & Z); apply Z; tauto]).
      * split; [discriminate|]. intros (_ & D & _). exfalso. assert (~ (by_syntax a \/ singular a \/ built_in a)) by (intros Y; apply C in Y; discriminate). tauto.
Qed.
Lemma params_iff name ps hs : snd (mfold (params_one name ps) tt hs) = Ok tt <-> forall h', In h' hs -> agree (h_params h') ps.
Proof.
  rewrite munit_ok, Forall_forall. apply forall_in. intros h. rewrite <- same_iff. unfold params_one.
  destruct (length (h_params h) =? length ps); [rewrite mbind_ret|rewrite mbind_tell; cbn [snd]]; rewrite snd_massert, assert_ok; reflexivity.
Qed.
Lemma check_params_iff a ps : snd (check_params a) = Ok ps <-> (forall h hs, a_headers a = h :: hs -> forall h', In h' hs -> agree (h_params h') (h_params h)) /\ ps = option_map h_params (hd_error (a_headers a)).
Proof.
  unfold check_params. destruct (a_headers a) as [|h hs].
  - cbn. split; [intros E; split; [discriminate|congruence]|]. intros (_ & ->). reflexivity.
  - rewrite mbind_ok. cbn [hd_error option_map]. split.
    + intros ([] & A & B). cbn in B. split; [|congruence]. intros h1 hs1 E. replace h1 with h by congruence. replace hs1 with hs by congruence. now apply (params_iff (a_name a)).
    + intros (A & ->). exists tt. split; [|reflexivity]. apply params_iff. exact (A h hs eq_refl).
Qed.
Lemma check_returns_iff a : snd (check_returns a) = Ok tt <-> (built_in a \/ early a -> forall h, In h (a_headers a) -> h_returns h = false).
Proof.
  unfold check_returns. set (c := starts _ (a_species a) || text_eqb (a_species a) _). assert (C : c = true <-> built_in a \/ early a) by (unfold c; rewrite Bool.orb_true_iff, starts_iff, text_eqb_eq; reflexivity). rewrite <- C. destruct c.
  - rewrite snd_massert, assert_ok, forallb_forall. split; [intros X _ h I; apply Bool.negb_true_iff; now apply X|]. intros X h I. apply Bool.negb_true_iff. now apply X.
  - split; [discriminate|]. intros _. destruct (_ && _); [reflexivity|]. destruct (starts _ _); reflexivity.
Qed.

(* An algorithm is accepted exactly if its headers are sound, and its parameters are then those of the first header. *)
Theorem C96_accepted a ps : snd (check_alg a) = Ok ps <-> sound a /\ ps = option_map h_params (hd_error (a_headers a)).
Proof.
  unfold check_alg. rewrite mbind_ok. split.
  - intros (u & A & B). apply check_for_iff in A as (A1 & A2 & A3 & A4 & A5). apply mbind_ok in B as (ps' & B & D). apply mbind_ok in D as ([] & D & E). apply check_params_iff in B as (B & ->). assert (RR := proj1 (check_returns_iff a) D). cbn in E. split; [now constructor|congruence].
  - intros ([] & ->). exists tt. split; [apply check_for_iff; unfold for_sound; auto|]. apply mbind_ok. exists (option_map h_params (hd_error (a_headers a))). split; [apply check_params_iff; auto|]. apply mbind_ok. exists tt. split; [now apply check_returns_iff|reflexivity].
Qed.

(* ---------- what is reported ---------- *)
Fixpoint number {A B} (f : nat -> A -> list B) (k : nat) (l : list A) : list B := match l with [] => [] | x :: l' => f k x ++ number f (S k) l' end.
Lemma number_in {A B} (f : nat -> A -> list B) l : forall k y, In y (number f k l) <-> exists i x, nth_error l i = Some x /\ In y (f (k + i) x).
Proof.
  induction l as [|x l IH]; intros k y; cbn [number]; [split; [intros []|intros ([|i] & x & E & _); discriminate]|]. rewrite in_app_iff, IH. split.
  - intros [I|(i & x' & E & I)]; [exists 0, x; rewrite Nat.add_0_r; auto|]. exists (S i), x'. replace (k + S i) with (S k + i) by lia. auto.
  - intros ([|i] & x' & E & I); cbn [nth_error] in E; [left; replace x' with x in I by congruence; now rewrite Nat.add_0_r in I|right]. exists i, x'. replace (S k + i) with (k + S i) by lia. auto.
Qed.
Lemma number_sorted {A} (f : nat -> A -> list fault) part l : (forall k x y, In y (f k x) -> place y = (part, k)) -> (forall k x, length (f k x) <= 1) -> forall k, StronglySorted comes_before (number f k l).
Proof.
  intros P L. induction l as [|x l IH]; intros k; cbn [number]; [constructor|]. assert (Lx := L k x). assert (Px := P k x). destruct (f k x) as [|y [|? ?]]; [apply IH| |cbn in Lx; lia].
  cbn [app]. constructor; [apply IH|]. apply Forall_forall. intros z I. apply number_in in I as (i & x' & _ & I). apply P in I. right. rewrite I, (Px y (or_introl eq_refl)). cbn [fst snd]. split; [reflexivity|lia].
Qed.
Lemma number_said {A} (f : nat -> A -> list fault) (s : fault -> list text) (g : A -> list text) l : forall k, (forall i x, nth_error l i = Some x -> flat_map s (f (k + i) x) = g x) -> flat_map s (number f k l) = flat_map g l.
Proof.
  induction l as [|x l IH]; intros k H; cbn [number flat_map]; [reflexivity|]. rewrite flat_map_app. rewrite <- (H 0 x eq_refl), Nat.add_0_r. f_equal. apply IH. intros i y E. replace (S k + i) with (k + S i) by lia. now apply H.
Qed.
Lemma at_nth a i h : nth_error (a_headers a) i = Some h -> header_at a i = h. Proof. intros E. unfold header_at. now apply nth_error_nth. Qed.
Definition phrase_at (i : nat) (h : header) : list fault := match expected_for h with Ok e => if opt_eqb (h_for h) (Some e) then [] else [OtherPhrase i e] | Err _ => [] end.
Definition count_at (n : nat) (i : nat) (h : header) : list fault := if length (h_params h) =? n then [] else [OtherCount i].
Definition later_at (i : nat) (h : header) : list fault := if h_returns h then [LaterHas i] else [].
Definition lacks_at (i : nat) (h : header) : list fault := if h_returns h then [] else [Lacks i].
Definition part_one (a : alg) : list fault := if starts (tx "op: discriminated by type:") (a_species a) then number phrase_at 0 (a_headers a) else [].
Definition part_two (a : alg) : list fault := match a_headers a with [] => [] | h :: hs => number (count_at (length (h_params h))) 1 hs end.
Definition part_three (a : alg) : list fault :=
  if starts (tx "bif:") (a_species a) || text_eqb (a_species a) (tx "op: discriminated by syntax: early error") then []
  else if text_eqb (a_species a) (tx "op: discriminated by syntax: steps") && (1 <? length (a_headers a)) then
    match a_headers a with [] => [] | h :: hs => (if h_returns h then [] else [FirstLacks]) ++ number later_at 1 hs end
  else if starts (tx "op: discriminated by type:") (a_species a) then [] else number lacks_at 0 (a_headers a).
Lemma munit_all {M B} (f : unit -> B -> outm M unit) l : snd (mfold f tt l) = Ok tt -> fst (mfold f tt l) = flat_map (fun x => fst (f tt x)) l.
Proof.
  induction l as [|x l IH]; intros H; cbn [mfold flat_map] in *; [reflexivity|]. apply mbind_ok in H as ([] & A & B0). rewrite (mbind_msgs _ _ _ _ _ tt A). now rewrite IH.
Qed.
Lemma one_said a u : snd (check_for a) = Ok u -> fst (check_for a) = flat_map (said a) (part_one a).
Proof.
  unfold check_for, part_one. rewrite mbind_assert. destruct (forallb _ (a_headers a)); [|discriminate]. destruct (text_eqb (a_species a) (tx "shorthand")) eqn:E.
  { apply text_eqb_eq in E. rewrite E. reflexivity. }
  destruct (starts (tx "op: discriminated by type:") (a_species a)).
  - intros H. apply mbind_ok in H as ([] & A & B). rewrite (mbind_msgs _ _ _ _ _ tt A). cbn [massert fst]. rewrite app_nil_r, (munit_all _ _ A). symmetry. apply number_said. intros i h N0. cbn [Nat.add]. unfold phrase_at, for_one.
    destruct (expected_for h) as [e|x]; [|reflexivity]. destruct (opt_eqb (h_for h) (Some e)); [reflexivity|]. cbn [flat_map said]. rewrite (at_nth a i h N0), app_nil_r. reflexivity.
  - intros _. destruct (_ || _); reflexivity.
Qed.
Lemma two_said a ps : snd (check_params a) = Ok ps -> fst (check_params a) = flat_map (said a) (part_two a).
Proof.
  unfold check_params, part_two. destruct (a_headers a) as [|h hs] eqn:E; [reflexivity|]. intros H. apply mbind_ok in H as ([] & A & _). rewrite (mbind_msgs _ _ _ _ _ tt A). cbn [mret fst]. rewrite app_nil_r, (munit_all _ _ A). symmetry. apply number_said.
  intros i h' N0. unfold count_at, params_one. destruct (length (h_params h') =? length (h_params h)); [reflexivity|]. rewrite mbind_tell. cbn [massert fst flat_map said]. rewrite !app_nil_r.
  rewrite (at_nth a (1 + i) h') by (rewrite E; exact N0). rewrite (at_nth a 0 h) by (rewrite E; reflexivity). reflexivity.
Qed.
Lemma three_said a : fst (check_returns a) = flat_map (said a) (part_three a).
Proof.
  unfold check_returns, part_three. destruct (starts (tx "bif:") (a_species a) || _); [reflexivity|]. destruct (_ && _).
  - cbn [mtell fst]. destruct (a_headers a) as [|h hs] eqn:E; [reflexivity|]. rewrite flat_map_app. f_equal.
    + destruct (h_returns h); [reflexivity|]. cbn [flat_map said]. rewrite (at_nth a 0 h) by (rewrite E; reflexivity). now rewrite app_nil_r.
    + symmetry. apply number_said. intros i h' N0. unfold later_at, later_return. destruct (h_returns h'); [|reflexivity]. cbn [flat_map said]. rewrite (at_nth a (1 + i) h') by (rewrite E; exact N0). now rewrite app_nil_r.
  - destruct (starts _ _); [reflexivity|]. cbn [mtell fst]. symmetry. apply number_said. intros i h' N0. unfold lacks_at. destruct (h_returns h'); [reflexivity|]. cbn [flat_map said Nat.add]. rewrite (at_nth a i h' N0). now rewrite app_nil_r.
Qed.
Lemma one_in a f : In f (part_one a) <-> exists i e, f = OtherPhrase i e /\ is_fault a f.
Proof.
  unfold part_one. assert (T := starts_iff (tx "op: discriminated by type:") (a_species a)). destruct (starts _ _).
  - rewrite number_in. cbn [Nat.add]. split.
    + intros (i & h & E & I). unfold phrase_at in I. destruct (expected_for h) as [e|] eqn:X; [|destruct I]. destruct (opt_eqb (h_for h) (Some e)) eqn:O; [destruct I|]. destruct I as [<-|[]]. exists i, e. split; [reflexivity|]. split; [now apply T|]. exists h. split; [exact E|]. split; [now apply expected_iff|]. intros Y. apply opt_eqb_iff in Y. congruence.
    + intros (i & e & -> & _ & h & E & P & NE). exists i, h. split; [exact E|]. unfold phrase_at. apply expected_iff in P. rewrite P. destruct (opt_eqb (h_for h) (Some e)) eqn:O; [apply opt_eqb_iff in O; contradiction|now left].
  - split; [intros []|]. intros (i & e & -> & B & _). apply T in B. discriminate.
Qed.
Lemma two_in a f : In f (part_two a) <-> exists i, f = OtherCount i /\ is_fault a f.
Proof.
  unfold part_two. destruct (a_headers a) as [|h hs] eqn:E.
  - split; [intros []|]. intros (i & -> & _ & h' & h0 & X & _). rewrite E in X. destruct i; discriminate.
  - rewrite number_in. split.
    + intros (i & h' & X & I). unfold count_at in I. destruct (length (h_params h') =? length (h_params h)) eqn:L; [destruct I|]. destruct I as [<-|[]]. exists (1 + i). split; [reflexivity|]. split; [lia|]. exists h', h. rewrite E. split; [exact X|]. split; [reflexivity|]. now apply Nat.eqb_neq.
    + intros ([|i] & -> & P & h' & h0 & X & Y & L); [lia|]. rewrite E in X, Y. cbn in Y. exists i, h'. split; [exact X|]. unfold count_at. replace (length (h_params h') =? length (h_params h)) with false; [now left|]. symmetry. apply Nat.eqb_neq. now replace h with h0 by congruence.
Qed.
Lemma three_in a f : In f (part_three a) <-> fst (place f) = 2 /\ is_fault a f.
Proof.
  unfold part_three. set (c := starts (tx "bif:") (a_species a) || _). assert (C : c = true <-> built_in a \/ early a) by (unfold c; rewrite Bool.orb_true_iff, starts_iff, text_eqb_eq; reflexivity).
  set (d := text_eqb (a_species a) _ && _). assert (D : d = true <-> several_steps a) by (unfold d, several_steps; rewrite Bool.andb_true_iff, text_eqb_eq, Nat.ltb_lt; reflexivity).
  assert (T := starts_iff (tx "op: discriminated by type:") (a_species a)). fold (by_type a) in T.
  assert (NC : c = false -> ~ (built_in a \/ early a)) by (intros X Y; apply C in Y; congruence). assert (ND : d = false -> ~ several_steps a) by (intros X Y; apply D in Y; congruence). clearbody c d.
  destruct c; [|destruct d].
  - split; [intros []|]. assert (X := proj1 C eq_refl). intros (P & F). destruct f; cbn in P; try discriminate; cbn [is_fault] in F; try tauto.
    + destruct F as (S0 & _). destruct X as [X|X]; [exact (syntax_built a (steps_syntax a S0) X)|exact (steps_early a S0 X)].
    + destruct F as (S0 & _). destruct X as [X|X]; [exact (syntax_built a (steps_syntax a S0) X)|exact (steps_early a S0 X)].
  - assert (S0 := proj1 D eq_refl). assert (LL := proj2 S0). destruct (a_headers a) as [|h hs] eqn:E; [cbn in LL; lia|]. rewrite in_app_iff, number_in. split.
    + intros [I|(i & h' & X & I)].
      * destruct (h_returns h) eqn:R; [destruct I|]. destruct I as [<-|[]]. split; [reflexivity|]. split; [exact S0|]. exists h. rewrite E. auto.
      * unfold later_at in I. destruct (h_returns h') eqn:R; [|destruct I]. destruct I as [<-|[]]. split; [reflexivity|]. split; [exact S0|]. split; [lia|]. exists h'. rewrite E. auto.
    + intros (P & F). destruct f; cbn in P; try discriminate; cbn [is_fault] in F.
      * left. destruct F as (_ & h0 & X & R). rewrite E in X. cbn in X. replace h with h0 by congruence. rewrite R. now left.
      * right. destruct F as (_ & L & h' & X & R). destruct i as [|i]; [lia|]. rewrite E in X. exists i, h'. split; [exact X|]. unfold later_at. rewrite R. now left.
      * tauto.
  - specialize (NC eq_refl). specialize (ND eq_refl). destruct (starts _ _).
    + assert (BT := proj1 T eq_refl). split; [intros []|]. intros (P & F). destruct f; cbn in P; try discriminate; cbn [is_fault] in F; tauto.
    + assert (NT : ~ by_type a) by (intros X; apply T in X; discriminate). rewrite number_in. cbn [Nat.add]. split.
      * intros (i & h & E & I). unfold lacks_at in I. destruct (h_returns h) eqn:R; [destruct I|]. destruct I as [<-|[]]. split; [reflexivity|]. repeat split; try tauto. exists h. auto.
      * intros (P & F). destruct f; cbn in P; try discriminate; cbn [is_fault] in F; try tauto. destruct F as (_ & _ & _ & _ & h & E & R). exists i, h. split; [exact E|]. unfold lacks_at. rewrite R. now left.
Qed.
Lemma sorted_parts (l l' : list fault) : StronglySorted comes_before l -> StronglySorted comes_before l' -> (forall f g, In f l -> In g l' -> fst (place f) < fst (place g)) -> StronglySorted comes_before (l ++ l').
Proof.
  induction l as [|f l IH]; intros A B H; [exact B|]. cbn [app]. inversion A as [|? ? A1 A2]; subst. constructor; [apply IH; auto; intros; apply H; auto; now right|]. apply Forall_app. split; [exact A2|]. apply Forall_forall. intros g I. left. apply H; [now left|exact I].
Qed.
(* The lines written about an accepted algorithm are those of its faults, each once and in order. *)
Theorem C96_report a ps : snd (check_alg a) = Ok ps ->
  exists fs, fst (check_alg a) = flat_map (said a) fs /\ StronglySorted comes_before fs /\ forall f, In f fs <-> is_fault a f.
Proof.
  intros H. exists (part_one a ++ part_two a ++ part_three a). unfold check_alg in *. apply mbind_ok in H as ([] & A & H). assert (HH := H). apply mbind_ok in H as (ps' & B & H). apply mbind_ok in H as ([] & C & _). split; [|split].
  - rewrite (mbind_msgs _ _ _ _ _ tt A), (mbind_msgs _ _ _ _ _ ps' B), (mbind_msgs _ _ _ _ _ tt C). cbn [mret fst]. rewrite app_nil_r, !flat_map_app, (one_said a tt A), (two_said a ps' B), three_said. reflexivity.
  - apply sorted_parts; [|apply sorted_parts|].
    + unfold part_one. destruct (starts _ _); [|constructor]. apply (number_sorted _ 0).
      * intros k h y I. unfold phrase_at in I. destruct (expected_for h); [|destruct I]. destruct (opt_eqb _ _); first [now destruct I | destruct I as [<-|[]]; reflexivity].
      * intros k h. unfold phrase_at. destruct (expected_for h); [destruct (opt_eqb _ _)|]; cbn; lia.
    + unfold part_two. destruct (a_headers a); [constructor|]. apply (number_sorted _ 1).
      * intros k y z I. unfold count_at in I. destruct (_ =? _); first [now destruct I | destruct I as [<-|[]]; reflexivity].
      * intros k y. unfold count_at. destruct (_ =? _); cbn; lia.
    + unfold part_three. destruct (_ || _); [constructor|]. destruct (_ && _).
      * destruct (a_headers a) as [|h hs]; [constructor|]. assert (SS : StronglySorted comes_before (number later_at 1 hs)).
        { apply (number_sorted _ 2); [intros k y z I|intros k y]; unfold later_at in *; destruct (h_returns y); [destruct I as [<-|[]]; reflexivity|destruct I|cbn; lia|cbn; lia]. }
        destruct (h_returns h); [exact SS|]. cbn [app]. constructor; [exact SS|]. apply Forall_forall. intros g I. apply number_in in I as (i & y & _ & I). unfold later_at in I. destruct (h_returns y); [|destruct I]. destruct I as [<-|[]]. right. cbn. lia.
      * destruct (starts _ _); [constructor|]. apply (number_sorted _ 2).
        -- intros k y z I. unfold lacks_at in I. destruct (h_returns y); first [now destruct I | destruct I as [<-|[]]; reflexivity].
        -- intros k y. unfold lacks_at. destruct (h_returns y); cbn; lia.
    + intros f g I J. apply two_in in I as (i & -> & _). apply three_in in J as (J & _). rewrite J. cbn. lia.
    + intros f g I J. apply one_in in I as (i & e & -> & _). apply in_app_iff in J as [J|J]; [apply two_in in J as (j & -> & _)|apply three_in in J as (J & _); rewrite J]; cbn; lia.
  - intros f. rewrite !in_app_iff, one_in, two_in, three_in. split.
    + intros [(i & e & _ & X)|[(i & _ & X)|(_ & X)]]; exact X.
    + intros X. destruct f; [left|right; left|right; right|right; right|right; right]; eauto.
Qed.
(* What ends the run: an assertion, or for an operation discriminated by type a section with an unknown title or none. *)
Theorem C96_errors a e : snd (check_alg a) = Err e ->
  e = AssertionError \/ by_type a /\ exists h, In h (a_headers a) /\ (forall x, ~ phrase h x) /\
    ((e = TypeError /\ h_parent h = None) \/ (e = KeyError /\ (h_parent h <> None))).
Proof.
  unfold check_alg. intros H. assert (PA : forall b x, assert_ b = Err x -> x = AssertionError) by (intros [] x; cbn; congruence).
  apply mbind_err in H as [H|(u & _ & H)].
  - unfold check_for in H. rewrite mbind_assert in H. destruct (forallb _ _); [|left; cbn in H; congruence]. destruct (text_eqb _ _); [left; now apply PA in H|]. assert (T := starts_iff (tx "op: discriminated by type:") (a_species a)). destruct (starts (tx "op: discriminated by type:") _).
    + apply mbind_err in H as [H|(u & _ & H)]; [|left; now apply PA in H]. apply munit_err in H as (l1 & h & l2 & E & X & _). right. split; [now apply T|]. exists h. split; [rewrite E; apply in_elt|]. unfold for_one in X. destruct (expected_for h) as [t|y] eqn:Q; [destruct (opt_eqb _ _); discriminate|].
      split; [intros z P; apply expected_iff in P; congruence|]. cbn in X. unfold expected_for in Q. destruct (h_parent h) as [p|]; [right|left; split; [congruence|reflexivity]]. split; [|discriminate].
      destruct (between _ _ _) as [m|]; [destruct (no_newline m)|]; [destruct (h_grand h)| |]; try (destruct (tget _ _)); congruence.
    + left. destruct (_ || _); [now apply PA in H|cbn in H; congruence].
  - apply mbind_err in H as [H|(ps & _ & H)].
    + left. unfold check_params in H. destruct (a_headers a) as [|h hs]; [discriminate|]. apply mbind_err in H as [H|([] & _ & H)]; [|discriminate]. apply munit_err in H as (l1 & x & l2 & _ & X & _). unfold params_one in X. destruct (_ =? _); [rewrite mbind_ret in X|rewrite mbind_tell in X; cbn [snd] in X]; now apply PA in X.
    + left. apply mbind_err in H as [H|([] & _ & H)]; [|discriminate]. unfold check_returns in H. destruct (_ || _); [now apply PA in H|]. destruct (_ && _); [discriminate|]. destruct (starts _ _); discriminate.
Qed.

(* ---------- all algorithms ---------- *)
(* the operations by name, then the built-in functions by name *)
Definition by_name (d l : list (text * alg)) : Prop := Permutation l d /\ StronglySorted text_lt (map fst l).
Lemma by_name_sorted d : NoDup (map fst d) -> by_name d (sorted_items d).
Proof. intros ND. split; [apply isort_perm|]. now apply sorted_keys. Qed.
Lemma by_name_fun d l l' : by_name d l -> by_name d l' -> l = l'.
Proof.
  intros (P & A) (P' & A'). assert (Q : Permutation l l') by (rewrite P; now symmetry). clear P P' d. revert l' A' Q. induction l as [|x l IH]; intros l' A' Q; [now apply Permutation_nil in Q|].
  destruct l' as [|y l']; [apply Permutation_sym, Permutation_nil in Q; discriminate|]. cbn [map] in A, A'. inversion A as [|? ? A1 A2]; subst. inversion A' as [|? ? B1 B2]; subst.
  assert (E : x = y).
  { assert (I : In x (y :: l')) by (eapply Permutation_in; [exact Q|now left]). assert (J : In y (x :: l)) by (eapply Permutation_in; [symmetry; exact Q|now left]).
    destruct I as [I|I]; [now symmetry|]. destruct J as [J|J]; [exact J|]. rewrite Forall_forall in A2, B2. destruct (A2 (fst y) (in_map fst _ _ J)) as (L1 & D1). destruct (B2 (fst x) (in_map fst _ _ I)) as (L2 & _). exfalso. apply D1. now apply text_leb_antisym. }
  subst y. f_equal. apply IH; auto. now apply Permutation_cons_inv in Q.
Qed.
Definition step (done : list (text * option (list param))) (x : text * alg) : outm text (list (text * option (list param))) := mbind (check_alg (snd x)) (fun ps => mret (done ++ [(fst x, ps)])).
Lemma steps_ok l : forall done r, snd (mfold step done l) = Ok r <-> (forall x, In x l -> sound (snd x)) /\ r = done ++ map (fun x => (fst x, option_map h_params (hd_error (a_headers (snd x))))) l.
Proof.
  induction l as [|x l IH]; intros done r; cbn [mfold map].
  - cbn. rewrite app_nil_r. split; [intros E; split; [intros x []|congruence]|]. intros (_ & ->). reflexivity.
  - rewrite mbind_ok. split.
    + intros (d & A & B). unfold step in A. apply mbind_ok in A as (ps & A & C). apply C96_accepted in A as (S0 & ->). cbn in C. apply IH in B as (B & ->). replace d with (done ++ [(fst x, option_map h_params (hd_error (a_headers (snd x))))]) by congruence. split; [intros y [<-|I]; auto|]. now rewrite <- app_assoc.
    + intros (S0 & ->). exists (done ++ [(fst x, option_map h_params (hd_error (a_headers (snd x))))]). split.
      * unfold step. apply mbind_ok. exists (option_map h_params (hd_error (a_headers (snd x)))). split; [apply C96_accepted; split; [apply S0; now left|reflexivity]|reflexivity].
      * apply IH. split; [intros y I; apply S0; now right|]. now rewrite <- app_assoc.
Qed.
Lemma steps_lines l : forall done r, snd (mfold step done l) = Ok r -> fst (mfold step done l) = flat_map (fun x => fst (check_alg (snd x))) l.
Proof.
  induction l as [|x l IH]; intros done r H; cbn [mfold flat_map] in *; [reflexivity|]. apply mbind_ok in H as (d & A & B). rewrite (mbind_msgs _ _ _ _ _ d A), (IH d r B). f_equal. unfold step in *. apply mbind_ok in A as (ps & A & C). rewrite (mbind_msgs _ _ _ _ _ ps A). cbn. apply app_nil_r.
Qed.
Lemma steps_err l : forall done e, snd (mfold step done l) = Err e -> exists l1 x l2, l = l1 ++ x :: l2 /\ (forall y, In y l1 -> sound (snd y)) /\ snd (check_alg (snd x)) = Err e /\
  fst (mfold step done l) = flat_map (fun x => fst (check_alg (snd x))) (l1 ++ [x]).
Proof.
  induction l as [|x l IH]; intros done e H; cbn [mfold] in *; [discriminate|]. apply mbind_err in H as [H|(d & A & H)].
  - exists [], x, l. split; [reflexivity|]. split; [intros y []|]. unfold step in *. destruct (check_alg (snd x)) as [ms [ps|e']] eqn:E; [discriminate|]. cbn in H |- *. split; [congruence|]. unfold mbind. rewrite E. cbn. now rewrite app_nil_r.
  - destruct (IH d e H) as (l1 & y & l2 & -> & S0 & X & L). exists (x :: l1), y, l2. split; [reflexivity|]. assert (A' := A). unfold step in A'. apply mbind_ok in A' as (ps & A' & C). split; [intros z [<-|I]; [now apply C96_accepted in A'|now apply S0]|]. split; [exact X|].
    rewrite (mbind_msgs _ _ _ _ _ d A), L. cbn [app flat_map]. f_equal. unfold step. rewrite (mbind_msgs _ _ _ _ _ ps A'). cbn. apply app_nil_r.
Qed.
(* All algorithms are accepted exactly if each is sound. *)
Theorem C96_all ops bifs : NoDup (map fst ops) -> NoDup (map fst bifs) -> forall r, snd (check_alg_consistency ops bifs) = Ok r <->
  (forall n a, In (n, a) ops \/ In (n, a) bifs -> sound a) /\
  exists lo lb, by_name ops lo /\ by_name bifs lb /\ r = map (fun x => (fst x, option_map h_params (hd_error (a_headers (snd x))))) (lo ++ lb).
Proof.
  intros N1 N2 r. unfold check_alg_consistency. fold step. rewrite steps_ok. cbn [app]. assert (B1 := by_name_sorted ops N1). assert (B2 := by_name_sorted bifs N2). split.
  - intros (S0 & ->). split; [|exists (sorted_items ops), (sorted_items bifs); auto]. intros n a H. apply (S0 (n, a)), in_app_iff. destruct H as [H|H]; [left|right]; (eapply Permutation_in; [symmetry; apply isort_perm|exact H]).
  - intros (S0 & lo & lb & A & B & ->). rewrite (by_name_fun _ _ _ A B1), (by_name_fun _ _ _ B B2). split; [|reflexivity]. intros (n, a) H. apply (S0 n). apply in_app_iff in H as [H|H]; [left|right]; (eapply Permutation_in; [apply isort_perm|exact H]).
Qed.
(* The file has the lines of each algorithm, the operations by name before the built-in functions by name. *)
Theorem C96_file ops bifs lo lb r : by_name ops lo -> by_name bifs lb -> NoDup (map fst ops) -> NoDup (map fst bifs) -> snd (check_alg_consistency ops bifs) = Ok r ->
  fst (check_alg_consistency ops bifs) = flat_map (fun x => fst (check_alg (snd x))) (lo ++ lb).
Proof.
  intros A B N1 N2 H. rewrite (by_name_fun _ _ _ A (by_name_sorted ops N1)), (by_name_fun _ _ _ B (by_name_sorted bifs N2)). exact (steps_lines _ _ _ H).
Qed.
(* The first algorithm that is not sound ends the run; what was written before stays. *)
Theorem C96_stops ops bifs lo lb e : by_name ops lo -> by_name bifs lb -> NoDup (map fst ops) -> NoDup (map fst bifs) -> snd (check_alg_consistency ops bifs) = Err e ->
  exists l1 x l2, lo ++ lb = l1 ++ x :: l2 /\ (forall y, In y l1 -> sound (snd y)) /\ ~ sound (snd x) /\ snd (check_alg (snd x)) = Err e /\
    fst (check_alg_consistency ops bifs) = flat_map (fun x => fst (check_alg (snd x))) (l1 ++ [x]).
Proof.
  intros A B N1 N2 H. rewrite (by_name_fun _ _ _ A (by_name_sorted ops N1)), (by_name_fun _ _ _ B (by_name_sorted bifs N2)). destruct (steps_err _ _ _ H) as (l1 & x & l2 & E & S0 & X & L). exists l1, x, l2. split; [exact E|]. split; [exact S0|]. split; [|now split].
  intros S1. assert (Y := proj2 (C96_accepted (snd x) _) (conj S1 eq_refl)). congruence.
Qed.

(* ---------- examples ---------- *)
Definition pm (n : string) : param := mkParam (tx n) [] (tx "a value").
Definition hd1 (nm sp : string) (f : option text) (ps : list param) (r : bool) (num : string) (par : string) : header := mkHeader (tx nm) (tx sp) f ps r (tx num) (tx nm) (Some (tx par)) None.
Definition steps_sp : string := "op: discriminated by syntax: steps".
Definition ev : alg := mkAlg (tx "Eval") (tx steps_sp) [hd1 "Eval" steps_sp None [pm "_x_"] false "1.1" "A"; hd1 "Eval" steps_sp None [] true "1.2" "B"; hd1 "Eval" steps_sp None [pm "_x_"] false "1.3" "C"].
Example C96_ex_steps : check_alg ev = ([
  tx ""; tx "1.2 Eval"; tx "  gives header for `Eval` with 0 params"; tx "  but expected 1 params";
  tx ""; tx "1.1 Eval"; tx "  first header for the alg doesn't have a return_nature_node";
  tx ""; tx "1.2 Eval"; tx "  return_nature_node is not None"], Ok (Some [pm "_x_"])).
Proof. vm_compute. reflexivity. Qed.
Example C96_ex_sound : sound ev.
Proof. apply (proj1 (C96_accepted ev (Some [pm "_x_"]))). rewrite C96_ex_steps. reflexivity. Qed.
Definition type_sp : string := "op: discriminated by type: env rec".
Definition has : alg := mkAlg (tx "Has") (tx type_sp) [
  hd1 "Has" type_sp (Some (tx "an Object Environment Record _envRecord_")) [] false "9.1" "Object Environment Records";
  hd1 "Has" type_sp None [] false "9.2" "Global Environment Records";
  mkHeader (tx "Has") (tx type_sp) (Some (tx "a Cyclic Module Record _module_")) [] true (tx "9.3") (tx "Has") (Some (tx "Implementation of Concrete Module Record Abstract Methods")) (Some (tx "Cyclic Module Records"))].
Example C96_ex_type : check_alg has = ([tx ""; tx "9.2 Has"; tx "  unexpected for_phrase"; tx "  expected: a Global Environment Record _envRecord_"; tx "       got: None"], Ok (Some [])).
Proof. vm_compute. reflexivity. Qed.
Definition bad_title : alg := mkAlg (tx "Has") (tx type_sp) [hd1 "Has" type_sp None [] false "9.1" "Records"].
Example C96_ex_title : check_alg bad_title = ([], Err KeyError). Proof. vm_compute. reflexivity. Qed.
Definition clash_param : alg := mkAlg (tx "B") (tx "op: singular") [hd1 "B" "op: singular" None [pm "_x_"] true "2.1" "A"; hd1 "B" "op: singular" None [pm "_y_"] true "2.2" "A"].
Definition sym : alg := mkAlg (tx "A") (tx "op: singular") [hd1 "A" "op: singular" None [pm "_x_"] false "3.1" "A"].
Example C96_ex_all : check_alg_consistency [(tx "B", bad_title); (tx "A", sym)] [] = ([tx ""; tx "3.1 A"; tx "  For A, return_nature_node is None"], Err KeyError).
Proof. vm_compute. reflexivity. Qed.
Example C96_ex_clash : check_alg_consistency [(tx "Eval", ev)] [(tx "B", clash_param)] = (fst (check_alg ev), Err AssertionError).
Proof. vm_compute. reflexivity. Qed.
Example C96_ex_file : check_alg_consistency [(tx "Eval", ev); (tx "A", sym)] [(tx "B", mkAlg (tx "B") (tx "bif: * per realm") [])] = (fst (check_alg sym) ++ fst (check_alg ev), Ok [(tx "A", Some [pm "_x_"]); (tx "Eval", Some [pm "_x_"]); (tx "B", None)]).
Proof. vm_compute. reflexivity. Qed.

Print Assumptions C96_accepted.
Print Assumptions C96_report.
Print Assumptions C96_errors.
Print Assumptions C96_all.
Print Assumptions C96_file.
Print Assumptions C96_stops.
