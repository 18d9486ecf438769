(* The reader of <emu-grammar> elements reads what has been written (C66). *)
From Coq Require Import Ascii String.
From Verif Require Import M_Base M_HTML M_Meta L_Base L_Meta L_MetaRx.
Open Scope string_scope.
Open Scope nat_scope.
Open Scope list_scope.
Notation length := Datatypes.length.

Lemma snd_wbind : forall {A B} (m : logged A) (k : A -> logged B),
  snd (wbind m k) = match snd m with Ok a => snd (k a) | Err e => Err e end.
Proof. intros A B [l [a|e]] k; cbn; [destruct (k a); reflexivity|reflexivity]. Qed.

(* -------- the combinators -------- *)

Section Comb.
Variables (t : text) (rec : string -> nat -> option Z -> logged (option (nat * option Z * option gnode))).

Lemma alts_hit : forall a args p i x, snd (rec a p i) = Ok (Some x) -> snd (attempt_alts rec RUp (a :: args) p i) = Ok (Some x).
Proof. intros a args p i x H. cbn. rewrite snd_wbind, H. reflexivity. Qed.

Lemma alts_miss : forall a rk args p i r, snd (rec a p i) = Ok None -> snd (attempt_alts rec rk args p i) = r -> snd (attempt_alts rec rk (a :: args) p i) = r.
Proof. intros a rk args p i r H H'. cbn. rewrite snd_wbind, H. exact H'. Qed.

Lemma alts_nil : forall rk p i, snd (attempt_alts rec rk [] p i) = Ok None.
Proof. reflexivity. Qed.

Lemma seq_ok : forall a args p i p' i' c q j cs,
  snd (rec a p i) = Ok (Some (p', i', c)) ->
  snd (attempt_seq rec args p' i') = Ok (inl (q, j, cs)) ->
  snd (attempt_seq rec (a :: args) p i) = Ok (inl (q, j, opt_list c ++ cs)).
Proof. intros a args p i p' i' c q j cs H H'. cbn. rewrite snd_wbind, H, snd_wbind, H'. reflexivity. Qed.

Lemma seq_nil : forall p i, snd (attempt_seq rec [] p i) = Ok (inl (p, i, [])).
Proof. reflexivity. Qed.

Lemma seq_no : forall a args p i, snd (rec a p i) = Ok None -> snd (attempt_seq rec (a :: args) p i) = Ok (inr i).
Proof. intros a args p i H. cbn. rewrite snd_wbind, H. reflexivity. Qed.

Lemma seq_later : forall a args p i p' i' c j,
  snd (rec a p i) = Ok (Some (p', i', c)) ->
  snd (attempt_seq rec args p' i') = Ok (inr j) ->
  snd (attempt_seq rec (a :: args) p i) = Ok (inr j).
Proof. intros a args p i p' i' c j H H'. cbn. rewrite snd_wbind, H, snd_wbind, H'. reflexivity. Qed.

(* an element and further ones, each with the separator before it *)
Definition joinr {A} (wr : A -> text) (x : A) (tl : list (text * A)) : text :=
  wr x ++ flat_map (fun y => fst y ++ wr (snd y)) tl.

Fixpoint chain {A} (ok : A -> text -> Prop) (wr : A -> text) (x : A) (tl : list (text * A)) (rest : text) : Prop :=
  match tl with
  | [] => ok x rest
  | (s, y) :: tl' => ok x (s ++ joinr wr y tl' ++ rest) /\ chain ok wr y tl' rest
  end.

Lemma loop_fwd : forall A (wr : A -> text) (R : gnode -> A -> Prop) (ok : A -> text -> Prop) el sep i,
  (forall x p rest, ok x rest -> at_ t p (wr x ++ rest) ->
     exists n, snd (rec el p i) = Ok (Some (p + length (wr x), i, Some n)) /\ R n x) ->
  forall tl x p rest fuel ss,
  (forall s y p r, In (s, y) tl -> at_ t p (s ++ wr y ++ r) -> exists o, snd (rec sep p i) = Ok (Some (p + length s, i, o))) ->
  chain ok wr x tl rest ->
  (forall p, at_ t p rest ->
     snd (rec sep p i) = Ok None \/ exists q o, snd (rec sep p i) = Ok (Some (q, i, o)) /\ snd (rec el q i) = Ok None) ->
  length tl + 2 <= fuel ->
  at_ t p (joinr wr x tl ++ rest) ->
  exists ns, snd (attempt_loop rec fuel el sep ss p i) = Ok (Some (p + length (joinr wr x tl), i, ns)) /\ Forall2 R ns (x :: map snd tl).
Proof.
  intros A wr R ok el sep i Hel. induction tl as [|[s y] tl IH]; intros x p rest fuel ss Hsep Ch Hend Hf Hat.
  - destruct fuel as [|fuel]; [lia|]. cbn [attempt_loop]. unfold joinr in *. cbn in Hat, Ch |- *. rewrite app_nil_r in *.
    destruct (Hel x p rest Ch Hat) as [n [E Rn]]. rewrite snd_wbind, E, snd_wbind.
    destruct (Hend _ (at_app _ _ _ _ Hat)) as [E2|[q [o [E2 E3]]]]; rewrite E2.
    + exists [n]. split; [reflexivity|]. constructor; [exact Rn|constructor].
    + destruct fuel as [|fuel]; [cbn in Hf; lia|]. rewrite snd_wbind. cbn [attempt_loop]. rewrite snd_wbind, E3.
      exists [n]. split; [reflexivity|]. constructor; [exact Rn|constructor].
  - destruct fuel as [|fuel]; [lia|]. cbn [attempt_loop]. destruct Ch as [Okx Ch].
    assert (Hat' : at_ t p (wr x ++ s ++ joinr wr y tl ++ rest)).
    { unfold joinr in Hat |- *. cbn [flat_map fst snd] in Hat. rewrite <- !app_assoc in Hat. rewrite <- !app_assoc. exact Hat. }
    destruct (Hel x p _ Okx Hat') as [n [E Rn]]. rewrite snd_wbind, E, snd_wbind.
    pose proof (at_app _ _ _ _ Hat') as Hat2.
    destruct (Hsep s y (p + length (wr x)) (flat_map (fun y => fst y ++ wr (snd y)) tl ++ rest)) as [o Es].
    { left. reflexivity. }
    { unfold joinr in Hat2. rewrite <- app_assoc in Hat2. exact Hat2. }
    rewrite Es, snd_wbind.
    destruct (IH y (p + length (wr x) + length s) rest fuel (Some (p + length (wr x)))) as [ns [El F]]; auto.
    { intros s' y' p' r I. apply Hsep. right. exact I. }
    { cbn in Hf. lia. }
    { apply at_app. exact Hat2. }
    rewrite El. exists (n :: ns). split; [|constructor; [exact Rn|exact F]].
    cbn. f_equal. f_equal. f_equal. f_equal. unfold joinr. cbn. rewrite !app_length. lia.
Qed.

Lemma joinr_long : forall A (wr : A -> text) (x : A) tl,
  (forall y, In y (x :: map snd tl) -> 1 <= length (wr y)) -> length tl + 1 <= length (joinr wr x tl).
Proof.
  intros A wr x tl H. unfold joinr. rewrite app_length.
  assert (H1 : 1 <= length (wr x)) by (apply H; left; reflexivity).
  assert (H2 : length tl <= length (flat_map (fun y => fst y ++ wr (snd y)) tl)).
  { assert (H' : forall y, In y (map snd tl) -> 1 <= length (wr y)) by (intros y I; apply H; right; exact I).
    clear H H1. induction tl as [|[s y] tl IH]; cbn; [lia|]. rewrite !app_length.
    assert (1 <= length (wr y)) by (apply H'; left; reflexivity).
    assert (length tl <= length (flat_map (fun y => fst y ++ wr (snd y)) tl)) by (apply IH; intros z I; apply H'; right; exact I).
    lia. }
  lia.
Qed.
End Comb.

Lemma joinr_ne : forall A (wr : A -> text) sep (l : ne A), joinr wr (fst l) (map (fun x => (sep, x)) (snd l)) = sep_by sep wr l.
Proof.
  intros A wr sep [x l]. unfold joinr, sep_by. cbn. f_equal. induction l as [|y l IH]; [reflexivity|]. cbn. rewrite IH. reflexivity.
Qed.

Lemma map_snd_pair : forall A B (s : A) (l : list B), map snd (map (fun x => (s, x)) l) = l.
Proof. intros A B s l. rewrite map_map. apply map_id. Qed.

Lemma chain_all : forall A (ok : A -> text -> Prop) (wr : A -> text) rest tl x,
  (forall y r, In y (x :: map snd tl) -> ok y rest /\ (forall s z, In (s, z) tl -> ok y (s ++ r))) ->
  chain ok wr x tl rest.
Proof.
  intros A ok wr rest. induction tl as [|[s y] tl IH]; intros x H; cbn.
  - apply (H x []). left. reflexivity.
  - split.
    + apply (proj2 (H x (joinr wr y tl ++ rest) (or_introl eq_refl)) s y). left. reflexivity.
    + apply IH. intros z r I. destruct (H z r (or_intror I)) as [H1 H2]. split; [exact H1|].
      intros s' z' I'. apply (H2 s' z'). right. exact I'.
Qed.

(* -------- goals of the metagrammar -------- *)

Section Fwd.
Variable uniword : N -> bool.
Variables (t : text) (e : nat).

Notation run d goal p i := (snd (attempt uniword metagrammar t e d goal p i)).
Notation first_match := (first_match uniword).
Notation no_match := (no_match uniword).
Notation set_has := (set_has uniword).
Notation wordb := (wordb uniword).

Definition special (goal : string) : bool := existsb (String.eqb goal) ["INDENT"; "OUTDENT"; "NLAI"; "EOI"].

Lemma re_match_hit : forall pat r p w rest g,
  rx_compile pat = Some r -> at_ t p (w ++ rest) -> first_match r (w ++ rest) rest g ->
  re_match uniword pat t p = Ok (Some (p + length w, g)).
Proof.
  intros pat r p w rest g C A [l F]. unfold re_match. rewrite C, (at_skipn _ _ _ A), F.
  rewrite (at_length _ _ _ A), app_length. do 3 f_equal. lia.
Qed.

Lemma re_match_miss : forall pat r p s, rx_compile pat = Some r -> at_ t p s -> no_match r s -> re_match uniword pat t p = Ok None.
Proof. intros pat r p s C A F. unfold re_match. rewrite C, (at_skipn _ _ _ A), F. reflexivity. Qed.

Lemma attempt_re_hit : forall goal pat rk r p i w rest g,
  special goal = false -> rx_compile pat = Some r -> at_ t p (w ++ rest) -> first_match r (w ++ rest) rest g ->
  snd (attempt_re uniword t e goal pat rk p i) =
    match rk with
    | RNode => Ok (Some (p + length w, i, Some (GNode goal p (p + length w) g [])))
    | RNone => Ok (Some (p + length w, i, None))
    | RUp => Err AssertionError
    end.
Proof.
  intros goal pat rk r p i w rest g S0 C A F. unfold attempt_re. rewrite (re_match_hit _ _ _ _ _ _ C A F).
  unfold special in S0. cbn [existsb] in S0. repeat (apply orb_false_iff in S0; destruct S0 as [?H S0]).
  rewrite H, H0, H1, H2. destruct rk; reflexivity.
Qed.

Lemma re_node : forall d goal pat r p i w rest g,
  mget metagrammar goal = Some (PRe, RNode, [pat]) -> special goal = false -> rx_compile pat = Some r -> 1 <= d ->
  at_ t p (w ++ rest) -> first_match r (w ++ rest) rest g ->
  run d goal p i = Ok (Some (p + length w, i, Some (GNode goal p (p + length w) g []))).
Proof.
  intros d goal pat r p i w rest g G S0 C D A F. destruct d as [|d]; [lia|]. cbn [attempt]. rewrite G.
  rewrite (attempt_re_hit goal pat RNode r p i w rest g S0 C A F). reflexivity.
Qed.

Lemma re_miss : forall d goal pat rk r p i s,
  mget metagrammar goal = Some (PRe, rk, [pat]) -> rx_compile pat = Some r -> 1 <= d ->
  at_ t p s -> no_match r s -> run d goal p i = Ok None.
Proof.
  intros d goal pat rk r p i s G C D A F. destruct d as [|d]; [lia|]. cbn [attempt]. rewrite G.
  unfold attempt_re. rewrite (re_match_miss _ _ _ _ C A F). reflexivity.
Qed.

Lemma lit_hit : forall d goal r p i w rest,
  mget metagrammar goal = None -> looks_like_name goal = false -> special goal = false -> rx_compile goal = Some r -> 1 <= d ->
  at_ t p (w ++ rest) -> (exists g, first_match r (w ++ rest) rest g) -> run d goal p i = Ok (Some (p + length w, i, None)).
Proof.
  intros d goal r p i w rest G L S0 C D A [g F]. destruct d as [|d]; [lia|]. cbn [attempt]. rewrite G, L.
  rewrite (attempt_re_hit goal goal RNone r p i w rest g S0 C A F). reflexivity.
Qed.

Lemma lit_miss : forall d goal r p i s,
  mget metagrammar goal = None -> looks_like_name goal = false -> rx_compile goal = Some r -> 1 <= d ->
  at_ t p s -> no_match r s -> run d goal p i = Ok None.
Proof.
  intros d goal r p i s G L C D A F. destruct d as [|d]; [lia|]. cbn [attempt]. rewrite G, L.
  unfold attempt_re. rewrite (re_match_miss _ _ _ _ C A F). reflexivity.
Qed.

Lemma run_alt : forall d goal rk args p i, mget metagrammar goal = Some (PAlt, rk, args) ->
  run (S d) goal p i = snd (attempt_alts (attempt uniword metagrammar t e d) rk args p i).
Proof. intros d goal rk args p i G. cbn [attempt]. rewrite G. reflexivity. Qed.
Lemma run_cat : forall d goal rk args p i, mget metagrammar goal = Some (PCat, rk, args) ->
  run (S d) goal p i = snd (attempt_cat (attempt uniword metagrammar t e d) goal rk args p i).
Proof. intros d goal rk args p i G. cbn [attempt]. rewrite G. reflexivity. Qed.
Lemma run_opt : forall d goal rk args p i, mget metagrammar goal = Some (POpt, rk, args) ->
  run (S d) goal p i = snd (attempt_opt (attempt uniword metagrammar t e d) goal rk args p i).
Proof. intros d goal rk args p i G. cbn [attempt]. rewrite G. reflexivity. Qed.
Lemma run_list : forall d goal rk args p i, mget metagrammar goal = Some (PList, rk, args) ->
  run (S d) goal p i = snd (attempt_list t (attempt uniword metagrammar t e d) goal args p i).
Proof. intros d goal rk args p i G. cbn [attempt]. rewrite G. reflexivity. Qed.

Lemma cat_node : forall d goal args p i q j cs, mget metagrammar goal = Some (PCat, RNode, args) ->
  snd (attempt_seq (attempt uniword metagrammar t e d) args p i) = Ok (inl (q, j, cs)) ->
  run (S d) goal p i = Ok (Some (q, j, Some (GNode goal p q [] cs))).
Proof. intros d goal args p i q j cs G H. rewrite (run_cat _ _ _ _ _ _ G). unfold attempt_cat. rewrite snd_wbind, H. reflexivity. Qed.
Lemma cat_up : forall d goal args p i q j c, mget metagrammar goal = Some (PCat, RUp, args) ->
  snd (attempt_seq (attempt uniword metagrammar t e d) args p i) = Ok (inl (q, j, [c])) ->
  run (S d) goal p i = Ok (Some (q, j, Some c)).
Proof. intros d goal args p i q j c G H. rewrite (run_cat _ _ _ _ _ _ G). unfold attempt_cat. rewrite snd_wbind, H. reflexivity. Qed.
Lemma cat_no : forall d goal rk args p i j, mget metagrammar goal = Some (PCat, rk, args) ->
  snd (attempt_seq (attempt uniword metagrammar t e d) args p i) = Ok (inr j) ->
  run (S d) goal p i = Ok None.
Proof. intros d goal rk args p i j G H. rewrite (run_cat _ _ _ _ _ _ G). unfold attempt_cat. rewrite snd_wbind, H. reflexivity. Qed.
Lemma opt_up : forall d goal args p i q j c, mget metagrammar goal = Some (POpt, RUp, args) ->
  snd (attempt_seq (attempt uniword metagrammar t e d) args p i) = Ok (inl (q, j, [c])) ->
  run (S d) goal p i = Ok (Some (q, j, Some c)).
Proof. intros d goal args p i q j c G H. rewrite (run_opt _ _ _ _ _ _ G). unfold attempt_opt. rewrite snd_wbind, H. reflexivity. Qed.
Lemma opt_up_no : forall d goal args p i j, mget metagrammar goal = Some (POpt, RUp, args) ->
  snd (attempt_seq (attempt uniword metagrammar t e d) args p i) = Ok (inr j) ->
  run (S d) goal p i = Ok (Some (p, j, Some (GNode "OMITTED_OPTIONAL" p p [] []))).
Proof. intros d goal args p i j G H. rewrite (run_opt _ _ _ _ _ _ G). unfold attempt_opt. rewrite snd_wbind, H. reflexivity. Qed.

(* lists without delimiters *)
Lemma list_plain : forall A (wr : A -> text) (R : gnode -> A -> Prop) (ok : A -> text -> Prop) d goal rk el sep i x tl p rest,
  mget metagrammar goal = Some (PList, rk, [el; sep]) ->
  (forall x p rest, ok x rest -> at_ t p (wr x ++ rest) -> exists n, run d el p i = Ok (Some (p + length (wr x), i, Some n)) /\ R n x) ->
  (forall s y p r, In (s, y) tl -> at_ t p (s ++ wr y ++ r) -> exists o, run d sep p i = Ok (Some (p + length s, i, o))) ->
  chain ok wr x tl rest ->
  (forall p, at_ t p rest -> run d sep p i = Ok None \/ exists q o, run d sep p i = Ok (Some (q, i, o)) /\ run d el q i = Ok None) ->
  (forall y, In y (x :: map snd tl) -> 1 <= length (wr y)) ->
  at_ t p (joinr wr x tl ++ rest) ->
  exists ns, run (S d) goal p i = Ok (Some (p + length (joinr wr x tl), i, Some (GNode goal p (p + length (joinr wr x tl)) [] ns))) /\ Forall2 R ns (x :: map snd tl).
Proof.
  intros A wr R ok d goal rk el sep i x tl p rest G Hel Hsep Ch Hend Long At0.
  destruct (loop_fwd t (attempt uniword metagrammar t e d) A wr R ok el sep i Hel tl x p rest (S (length t)) None Hsep Ch Hend) as [ns [E F]]; [|exact At0|].
  { pose proof (joinr_long A wr x tl Long). pose proof (at_length _ _ _ At0) as L. rewrite app_length in L. unfold text in *. lia. }
  exists ns. split; [|exact F]. rewrite (run_list _ _ _ _ _ _ G). unfold attempt_list. cbn [attempt_delim].
  rewrite snd_wbind. cbn [snd wret]. rewrite snd_wbind, E, snd_wbind. reflexivity.
Qed.

(* lists with delimiters, of which the second one may be empty *)
Lemma list_delim : forall A (wr : A -> text) (R : gnode -> A -> Prop) (ok : A -> text -> Prop) d goal rk el sep ld rd i i0 x tl p p0 rest q,
  mget metagrammar goal = Some (PList, rk, [el; sep; ld; rd]) ->
  String.eqb ld "" = false ->
  (exists o, run d ld p i = Ok (Some (p0, i0, o))) ->
  (forall x p rest, ok x rest -> at_ t p (wr x ++ rest) -> exists n, run d el p i0 = Ok (Some (p + length (wr x), i0, Some n)) /\ R n x) ->
  (forall s y p r, In (s, y) tl -> at_ t p (s ++ wr y ++ r) -> exists o, run d sep p i0 = Ok (Some (p + length s, i0, o))) ->
  chain ok wr x tl rest ->
  (forall p, at_ t p rest -> run d sep p i0 = Ok None \/ exists q o, run d sep p i0 = Ok (Some (q, i0, o)) /\ run d el q i0 = Ok None) ->
  (forall y, In y (x :: map snd tl) -> 1 <= length (wr y)) ->
  at_ t p0 (joinr wr x tl ++ rest) ->
  (if String.eqb rd "" then q = p0 + length (joinr wr x tl) /\ i = i0
   else exists o, run d rd (p0 + length (joinr wr x tl)) i0 = Ok (Some (q, i, o))) ->
  exists ns, run (S d) goal p i = Ok (Some (q, i, Some (GNode goal p q [] ns))) /\ Forall2 R ns (x :: map snd tl).
Proof.
  intros A wr R ok d goal rk el sep ld rd i i0 x tl p p0 rest q G Ld [o Hl] Hel Hsep Ch Hend Long At0 Hr.
  destruct (loop_fwd t (attempt uniword metagrammar t e d) A wr R ok el sep i0 Hel tl x p0 rest (S (length t)) None Hsep Ch Hend) as [ns [E F]]; [|exact At0|].
  { pose proof (joinr_long A wr x tl Long). pose proof (at_length _ _ _ At0) as L. rewrite app_length in L. unfold text in *. lia. }
  exists ns. split; [|exact F]. rewrite (run_list _ _ _ _ _ _ G). unfold attempt_list. unfold attempt_delim at 1.
  rewrite Ld. rewrite !snd_wbind, Hl. cbn [snd wret]. rewrite snd_wbind, E, snd_wbind. unfold attempt_delim.
  destruct (String.eqb rd "").
  - destruct Hr as [-> ->]. reflexivity.
  - destruct Hr as [o' Hr]. rewrite snd_wbind, Hr. reflexivity.
Qed.
End Fwd.
