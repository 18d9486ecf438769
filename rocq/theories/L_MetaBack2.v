(* What has been read is what was written (C66): the goals up to the items. *)
From Coq Require Import Ascii String.
From Verif Require Import M_Base M_HTML M_Meta L_Base L_Meta L_MetaRx L_MetaFwd L_MetaRead L_MetaRead2 L_MetaRead3 L_MetaDec L_MetaBack.
Open Scope string_scope.
Open Scope nat_scope.
Open Scope list_scope.
Notation length := Datatypes.length.

Ltac alt_in G H := rewrite (run_alt _ _ _ _ _ _ _ _ _ (eq_refl : mget metagrammar G = _)) in H.

Section Back.
Variable uniword : N -> bool.
Notation word_of := (word_of uniword).
Notation wordb := (wordb uniword).
Variables (t : text) (e : nat).
Notation run d goal p i := (snd (attempt uniword metagrammar t e d goal p i)).
Notation seq d args p i := (snd (attempt_seq (attempt uniword metagrammar t e d) args p i)).
Notation back := (back uniword t e).
Notation eats := (eats uniword t e).
Notation stop_at := (stop_at uniword t e).

Lemma seq_back : forall A (wr : A -> text) ok R d a args p i q j cs s,
  back d a i wr ok R -> at_ t p s -> seq d (a :: args) p i = Ok (inl (q, j, cs)) ->
  exists n x rest cs', s = wr x ++ rest /\ ok x rest /\ R n x /\ at_ t (p + length (wr x)) rest /\ cs = n :: cs' /\ seq d args (p + length (wr x)) i = Ok (inl (q, j, cs')).
Proof.
  intros A wr ok R d a args p i q j cs s B At H. apply seq_inv in H. destruct H as [p' [i' [c [cs' [H1 [H2 ->]]]]]].
  destruct (B _ _ _ _ _ At H1) as [-> [n [x [rest [-> [-> [-> [O Rx]]]]]]]]. exists n, x, rest, cs'. repeat split; auto. apply (at_app _ _ _ _ At).
Qed.

Lemma seq_eats : forall W d a args p i q j cs s,
  eats d a i W -> at_ t p s -> seq d (a :: args) p i = Ok (inl (q, j, cs)) ->
  exists w rest, s = w ++ rest /\ W w /\ at_ t (p + length w) rest /\ seq d args (p + length w) i = Ok (inl (q, j, cs)).
Proof.
  intros W d a args p i q j cs s B At H. apply seq_inv in H. destruct H as [p' [i' [c [cs' [H1 [H2 ->]]]]]].
  destruct (B _ _ _ _ _ At H1) as [-> [-> [w [rest [-> [-> O]]]]]]. exists w, rest. repeat split; auto. apply (at_app _ _ _ _ At).
Qed.

Lemma list_const_back : forall A (wr : A -> text) (P : A -> Prop) (R : gnode -> A -> Prop) ws d goal rk el sep i,
  mget metagrammar goal = Some (PList, rk, [el; sep]) -> back d el i wr (fun x _ => P x) R -> eats d sep i (fun w => w = ws) ->
  back (S d) goal i (sep_by ws wr) (fun l _ => Forall P (ne_list l)) (fun n l => g_kind n = goal /\ Forall2 R (g_children n) (ne_list l)).
Proof.
  intros A wr P R ws d goal rk el sep i G Be Es p s q j o At H.
  destruct (list_back _ _ _ _ _ _ _ _ _ _ _ _ _ _ G Be Es _ _ _ _ _ At H) as [-> [n [x [tl [rest [-> [-> [-> [Ch [Fw [F2 [En _]]]]]]]]]]]]. split; [reflexivity|].
  exists n, (x, map snd tl), rest. rewrite (joinr_same _ _ _ _ _ Fw). repeat split; auto.
  - apply (chain_ok _ _ P _ (fun x r H => H) _ _ _ Ch).
  - rewrite En. reflexivity.
Qed.

Lemma list_lit_back : forall A (wr : A -> text) (P : A -> Prop) (R : gnode -> A -> Prop) ws wl wrr d goal rk el sep ld rd i,
  mget metagrammar goal = Some (PList, rk, [el; sep; ld; rd]) -> String.eqb ld "" = false -> String.eqb rd "" = false ->
  back d el i wr (fun x _ => P x) R -> eats d sep i (fun w => w = ws) -> eats d ld i (fun w => w = wl) -> eats d rd i (fun w => w = wrr) ->
  back (S d) goal i (fun l => wl ++ sep_by ws wr l ++ wrr) (fun l _ => Forall P (ne_list l))
    (fun n l => g_kind n = goal /\ says t n (wl ++ sep_by ws wr l ++ wrr) /\ Forall2 R (g_children n) (ne_list l)).
Proof.
  intros A wr P R ws wl wrr d goal rk el sep ld rd i G L1 L2 Be Es El Er p s q j o At H.
  destruct (list_delim_back uniword t e A wr (fun x _ => P x) R (fun w => w = ws) _ _ _ _ _ _ _ _ G L1 _ _ _ _ _ At H) as [p0 [i0 [o0 [H0 K]]]].
  destruct (El _ _ _ _ _ At H0) as [-> [-> [w [rest0 [-> [-> ->]]]]]]. pose proof (at_app _ _ _ _ At) as At0.
  destruct (K Be Es _ At0) as [n [x [tl [rest [q0 [-> [-> [-> [Ch [Fw [F2 [En [_ Hr]]]]]]]]]]]]]. rewrite L2 in Hr. destruct Hr as [o1 Hr].
  pose proof (at_app _ _ _ _ At0) as At1. destruct (Er _ _ _ _ _ At1 Hr) as [-> [_ [w [rest' [-> [-> ->]]]]]]. split; [reflexivity|].
  rewrite (joinr_same _ _ _ _ _ Fw) in *. exists n, (x, map snd tl), rest'.
  assert (Q : p + length wl + length (sep_by ws wr (x, map snd tl)) + length wrr = p + length (wl ++ sep_by ws wr (x, map snd tl) ++ wrr)) by (rewrite !app_length; unfold text in *; lia).
  split; [reflexivity|]. split; [rewrite <- !app_assoc; reflexivity|]. split; [exact Q|]. split; [apply (chain_ok _ _ P _ (fun x r H => H) _ _ _ Ch)|].
  split; [rewrite En; reflexivity|]. split; [|exact F2]. unfold says, g_text. rewrite En. cbn [g_start g_end]. rewrite Q. eapply at_slice. rewrite <- !app_assoc. exact At.
Qed.

(* -------- parameters and symbols -------- *)

Lemma back_nt : forall d i, back d "NT" i (fun n => n) (fun n _ => wf_nt uniword n) (fun m n => leaf t m "NT" n []).
Proof. intros d i. eapply leaf_back with (gs := fun _ => []) (ok := wf_nt uniword) (r := rx_nt); [reflexivity|reflexivity|reflexivity|]. intros w g W. destruct (words_nt _ _ _ W) as [-> O]. eauto. Qed.
Lemma back_param : forall d i, back d "PARAM" i w_param (fun x _ => wf_param x) (is_param t).
Proof. intros d i. eapply leaf_back with (ok := wf_param) (r := rx_param); [reflexivity|reflexivity|reflexivity|]. apply words_param. Qed.
Lemma back_tok : forall d i, back d "BACKTICKED_THING" i w_tok (fun x _ => wf_tok x) (is_tok t).
Proof. intros d i. eapply leaf_back with (ok := wf_tok) (gs := fun x => [x]) (r := rx_tok); [reflexivity|reflexivity|reflexivity|]. apply words_tok. Qed.
Lemma back_chr : forall d i, back d "NAMED_CHAR" i w_chr (fun x _ => wf_chr x) (is_chr t).
Proof. intros d i. eapply leaf_back with (ok := wf_chr) (gs := fun x => [x]) (r := rx_chr); [reflexivity|reflexivity|reflexivity|]. apply words_chr. Qed.
Lemma back_nlth : forall d i, back d "NLTH" i (fun _ : unit => w_nlth) (fun _ _ => True) (fun n _ => leaf t n "NLTH" w_nlth []).
Proof.
  intros d i. eapply leaf_back with (A := unit) (wr := fun _ => w_nlth) (ok := fun _ => True) (gs := fun _ => []); [reflexivity|reflexivity|vm_compute; reflexivity|].
  intros w g W. repeat (apply word_seq_chr in W; let v := fresh "v" in destruct W as [v [-> W]]). apply word_eps in W. destruct W as [-> ->]. exists tt. auto.
Qed.

Lemma back_params : forall d i, back d "PARAMS" i w_params (fun l _ => Forall wf_param (ne_list l)) (is_params t).
Proof.
  intros d i. destruct d as [|d]; [intros p s q j o At H; discriminate H|].
  eapply (list_lit_back param w_param wf_param (is_param t) (tx ", ") (tx "[") (tx "]") d); [reflexivity|reflexivity|reflexivity|apply back_param|eat|eat|eat].
Qed.

Lemma back_opt_params : forall d i, back d "OPTIONAL_PARAMS" i (w_opt w_params) (fun o _ => wf_ps o) (is_opt_params t).
Proof.
  intros d i p s q j o At H. destruct d as [|d]; [discriminate H|].
  eapply opt_up_inv in H; [|reflexivity]. destruct H as [[c [H ->]]|[H [-> ->]]].
  - destruct (seq_back _ _ _ _ _ _ _ _ _ _ _ _ _ (back_params d i) At H) as [n [l [rest [cs' [-> [O [R [At1 [E H1]]]]]]]]].
    apply seq_nil_inv in H1. destruct H1 as [-> [-> ->]]. inversion E; subst. split; [reflexivity|]. exists n, (Some l), rest. repeat split; auto; try (intros x Ex; inversion Ex; subst; exact O); apply R.
  - apply seq_no_inv in H. destruct H as [[H ->]|[p' [i' [c [H1 H2]]]]]; [|discriminate H2]. split; [reflexivity|]. eexists. exists None, s.
    split; [reflexivity|]. split; [reflexivity|]. split; [cbn; lia|]. split; [intros x Ex; discriminate Ex|].
    unfold is_opt_params, leaf, says, g_text, slice. cbn. rewrite Nat.sub_diag. repeat split; reflexivity.
Qed.

Definition w_gnt (x : text * option (ne param)) : text := fst x ++ w_opt w_params (snd x).

Lemma back_gnt : forall d i, back d "GNT" i w_gnt (fun x _ => wf_nt uniword (fst x) /\ wf_ps (snd x)) (fun n x => is_gnt t n (fst x) (snd x)).
Proof.
  intros d i p s q j o At H. destruct d as [|d]; [discriminate H|]. eapply cat_node_inv in H; [|reflexivity]. destruct H as [cs [H ->]].
  destruct (seq_back _ _ _ _ _ _ _ _ _ _ _ _ _ (back_nt d i) At H) as [n [l [rest [cs' [-> [O [R [At1 [-> H1]]]]]]]]].
  destruct (seq_back _ _ _ _ _ _ _ _ _ _ _ _ _ (back_opt_params d i) At1 H1) as [n2 [l2 [rest2 [cs2 [-> [O2 [R2 [At2 [-> H2]]]]]]]]].
  apply seq_nil_inv in H2. destruct H2 as [-> [-> ->]]. split; [reflexivity|]. eexists. exists (l, l2), rest2. unfold w_gnt. cbn [fst snd].
  split; [reflexivity|]. split; [apply app_assoc|]. split; [rewrite app_length; unfold text in *; lia|]. split; [auto|].
  split; [reflexivity|]. split; [|exists n, n2; repeat split; auto; apply R].
  unfold says, g_text. cbn [g_start g_end]. rewrite <- Nat.add_assoc, <- app_length. eapply at_slice. rewrite <- app_assoc. exact At.
Qed.

Lemma back_symbol : forall d i, back d "RHS_SYMBOL" i w_symbol (fun x _ => wf_symbol uniword x) (is_symbol t).
Proof.
  intros d i p s q j o At H. destruct d as [|d]; [discriminate H|]. alt_in "RHS_SYMBOL" H.
  apply alts_inv in H. destruct H as [H|[_ H]]; [|apply alts_inv in H; destruct H as [H|[_ H]]; [|apply alts_inv in H; destruct H as [H|[_ H]]; [|discriminate H]]].
  - destruct (back_gnt d i _ _ _ _ _ At H) as [-> [n [x [rest [-> [-> [-> [O R]]]]]]]]. split; [reflexivity|]. exists n, (SNt (fst x) (snd x)), rest. repeat split; try apply O; apply R.
  - destruct (back_tok d i _ _ _ _ _ At H) as [-> [n [x [rest [-> [-> [-> [O R]]]]]]]]. split; [reflexivity|]. exists n, (STok x), rest. repeat split; try apply O; apply R.
  - destruct (back_chr d i _ _ _ _ _ At H) as [-> [n [x [rest [-> [-> [-> [O R]]]]]]]]. split; [reflexivity|]. exists n, (SChr x), rest. repeat split; try apply O; apply R.
Qed.

Lemma back_excl : forall d i, back d "EXCLUDABLE" i w_excl (fun x _ => wf_excl uniword x) (is_excl t).
Proof.
  intros d i p s q j o At H. destruct d as [|d]; [discriminate H|]. alt_in "EXCLUDABLE" H.
  apply alts_inv in H. destruct H as [H|[_ H]]; [|apply alts_inv in H; destruct H as [H|[_ H]]; [|discriminate H]].
  - destruct (back_nt d i _ _ _ _ _ At H) as [-> [n [x [rest [-> [-> [-> [O R]]]]]]]]. split; [reflexivity|]. exists n, (XNt x), rest. repeat split; try apply O; apply R.
  - destruct (back_tok d i _ _ _ _ _ At H) as [-> [n [x [rest [-> [-> [-> [O R]]]]]]]]. split; [reflexivity|]. exists n, (XTok x), rest. repeat split; try apply O; apply R.
Qed.

Lemma back_term : forall d i, back d "TERMINAL_ITEM" i w_term (fun x _ => wf_term x) (is_term t).
Proof.
  intros d i p s q j o At H. destruct d as [|d]; [discriminate H|]. alt_in "TERMINAL_ITEM" H.
  apply alts_inv in H. destruct H as [H|[_ H]]; [|apply alts_inv in H; destruct H as [H|[_ H]]; [|apply alts_inv in H; destruct H as [H|[_ H]]; [|discriminate H]]].
  - destruct (back_tok d i _ _ _ _ _ At H) as [-> [n [x [rest [-> [-> [-> [O R]]]]]]]]. split; [reflexivity|]. exists n, (TTok x), rest. repeat split; try apply O; apply R.
  - destruct (back_chr d i _ _ _ _ _ At H) as [-> [n [x [rest [-> [-> [-> [O R]]]]]]]]. split; [reflexivity|]. exists n, (TChr x), rest. repeat split; try apply O; apply R.
  - destruct (back_nlth d i _ _ _ _ _ At H) as [-> [n [x [rest [-> [-> [-> [O R]]]]]]]]. split; [reflexivity|]. exists n, TNlth, rest. repeat split; try apply O; apply R.
Qed.

Lemma back_terms : forall d i, back d "TERMINAL_SEQ" i w_terms (fun l _ => Forall wf_term (ne_list l)) (is_terms t).
Proof.
  intros d i. destruct d as [|d]; [intros p s q j o At H; discriminate H|].
  eapply (list_const_back term w_term wf_term (is_term t) (tx " ") d); [reflexivity|apply back_term|eat].
Qed.

Lemma back_set : forall d i, back d "SET_OF_TERMINAL_SEQ" i w_set (fun l _ => Forall (fun ts => Forall wf_term (ne_list ts)) (ne_list l))
  (fun n l => g_kind n = "SET_OF_TERMINAL_SEQ" /\ says t n (w_set l) /\ Forall2 (is_terms t) (g_children n) (ne_list l)).
Proof.
  intros d i. destruct d as [|d]; [intros p s q j o At H; discriminate H|].
  eapply (list_lit_back (ne term) w_terms (fun ts => Forall wf_term (ne_list ts)) (is_terms t) (tx ", ") (tx "{ ") (tx " }") d); [reflexivity|reflexivity|reflexivity|apply back_terms|eat|eat|eat].
Qed.

(* -------- exclusions -------- *)

(* no further thing to exclude *)
Definition no_more_excl (rest : text) : Prop := forall y r, wf_excl uniword y -> rest <> tx " " ++ w_excl y ++ r.

Lemma nt_extend : forall n r, wf_nt uniword n -> n = tx "@" \/ exists n' r', n ++ r = n' ++ r' /\ wf_nt uniword n' /\ stops wordb r'.
Proof.
  intros n r W.
  assert (Sp : exists w r', r = w ++ r' /\ forallb wordb w = true /\ stops wordb r').
  { clear. induction r as [|c r [w [r' [-> [F S]]]]]; [exists [], []; repeat split|]. destruct (wordb c) eqn:E.
    - exists (c :: w), r'. split; [reflexivity|]. split; [cbn; rewrite E; exact F|exact S].
    - exists [], (c :: w ++ r'). split; [reflexivity|]. split; [reflexivity|exact E]. }
  destruct Sp as [w [r' [-> [F S]]]]. destruct W as [[c [v [-> [U V]]]]|[[v [-> V]]| ->]]; [right|right|left; reflexivity].
  - exists ((c :: v) ++ w), r'. split; [apply app_assoc|]. split; [|exact S]. left. exists c, (v ++ w). split; [reflexivity|]. split; [exact U|]. rewrite forallb_app, V. exact F.
  - exists ((tx "uri" ++ v) ++ w), r'. split; [apply app_assoc|]. split; [|exact S]. right. left. exists (v ++ w). split; [rewrite <- app_assoc; reflexivity|]. rewrite forallb_app, V. exact F.
Qed.

Lemma excl_not_none : forall d p i y r, 2 <= d -> wf_excl uniword y -> at_ t p (w_excl y ++ r) -> run d "EXCLUDABLE" p i <> Ok None.
Proof.
  intros d p i y r D W At H. deeper d. alt_in "EXCLUDABLE" H. cbn [attempt_alts] in H. apply snd_ok in H. destruct H as [[x|] [H1 H2]]; [discriminate H2|].
  apply snd_ok in H2. destruct H2 as [[x|] [H2 H3]]; [discriminate H3|].
  destruct y as [n|w]; cbn [w_excl wf_excl] in *.
  - destruct (nt_extend n r W) as [->|[n' [r' [E [W' S]]]]].
    + deeper d. cbn [attempt] in H1. rewrite (eq_refl : mget metagrammar "NT" = Some (PRe, RNode, ["[A-Z]\w*|uri\w*|@"])) in H1.
      rewrite (attempt_re_hit uniword t e "NT" "[A-Z]\w*|uri\w*|@" RNode rx_nt p i (tx "@") r []) in H1; [discriminate H1|reflexivity|reflexivity|exact At|]. exists []. reflexivity.
    + rewrite E in At. rewrite (read_nt uniword t e d p i n' r') in H1; [discriminate H1|lia|exact W'|exact S|exact At].
  - destruct (read_tok uniword t e d p i w r ltac:(lia) W At) as [m [E _]]. rewrite E in H2. discriminate H2.
Qed.

Lemma stop_no_more : forall d i q rest, 2 <= d -> at_ t q rest -> stop_at d "EXCLUDABLE" " or | " i q -> no_more_excl rest.
Proof.
  intros d i q rest D At St y r W ->.
  assert (Y : exists c v, w_excl y ++ r = c :: v /\ c <> 111%N).
  { destruct y as [n|w]; cbn [w_excl wf_excl] in *; [|eexists; eexists; split; [reflexivity|discriminate]].
    destruct W as [[c [v [-> [U _]]]]|[[v [-> _]]| ->]]; eexists; eexists; (split; [reflexivity|]); try discriminate. intros ->. discriminate U. }
  destruct Y as [c [v [Ey Nc]]].
  assert (Sp : run d " or | " q i = Ok (Some (q + 1, i, None))).
  { eapply lit_hit with (w := tx " ") (rest := w_excl y ++ r); [reflexivity|reflexivity|reflexivity|vm_compute; reflexivity|lia|exact At|]. exists [].
    rewrite Ey. cbn [tx app N_of_ascii]. apply fm_alt2; [|exists []; reflexivity].
    apply nm_seq_set; [reflexivity|]. apply nm_seq. apply nm_set. cbn [stops]. clear - Nc. nbool. }
  unfold L_MetaBack.stop_at in St. rewrite Sp in St. destruct St as [St|[q' [o' [E1 E2]]]]; [discriminate St|]. inversion E1; subst.
  apply (at_app _ _ _ _) in At. eapply (excl_not_none d (q + 1) i y r D W); [exact At|exact E2].
Qed.

Definition w_exclusion (x : excl + excl * list (bool * excl)) : text :=
  match x with inl y => w_excl y | inr (y, l) => tx "one of " ++ w_excls y l end.

Definition ok_exclusion (x : excl + excl * list (bool * excl)) (rest : text) : Prop :=
  match x with inl y => wf_excl uniword y | inr (y, l) => wf_excl uniword y /\ Forall (fun z : bool * excl => wf_excl uniword (snd z)) l /\ no_more_excl rest end.

Definition is_exclusion (n : gnode) (x : excl + excl * list (bool * excl)) : Prop :=
  match x with
  | inl y => is_excl t n y
  | inr (y, l) => g_kind n = "EXCLUDABLES" /\ Forall2 (is_excl t) (g_children n) (y :: map snd l)
  end.

Lemma seps_bools : forall tl : list (text * excl), Forall (fun y => fst y = tx " or " \/ fst y = tx " ") tl ->
  exists l : list (bool * excl), flat_map (fun y => fst y ++ w_excl (snd y)) tl = flat_map (fun y : bool * excl => (if fst y then tx " or " else tx " ") ++ w_excl (snd y)) l /\ map snd tl = map snd l.
Proof.
  intros tl F. induction F as [|[s y] tl E F [l [E1 E2]]]; [exists []; split; reflexivity|]. cbn [fst] in E. destruct E as [-> | ->].
  - exists ((true, y) :: l). cbn [flat_map map fst snd]. rewrite E1, E2. split; reflexivity.
  - exists ((false, y) :: l). cbn [flat_map map fst snd]. rewrite E1, E2. split; reflexivity.
Qed.

Lemma eats_or : forall d i, eats d " or | " i (fun w => w = tx " or " \/ w = tx " ").
Proof.
  intros d i. eapply lit_back; [reflexivity|reflexivity|reflexivity|vm_compute; reflexivity|]. intros w g W. apply word_alt in W. destruct W as [W|W];
    repeat (apply word_seq_chr in W; let v := fresh "v" in destruct W as [v [-> W]]); apply word_eps in W; destruct W as [-> _]; [left|right]; reflexivity.
Qed.

Lemma back_exclusion : forall d i, 4 <= d -> back d "EXCLUSION" i w_exclusion ok_exclusion is_exclusion.
Proof.
  intros d i D p s q j o At H. deeper d. alt_in "EXCLUSION" H. apply alts_inv in H. destruct H as [H|[_ H]]; [|apply alts_inv in H; destruct H as [H|[_ H]]; [|discriminate H]].
  - deeper d. destruct (list_delim_back uniword t e excl w_excl (fun x _ => wf_excl uniword x) (is_excl t) (fun w => w = tx " or " \/ w = tx " ") d "EXCLUDABLES" RNode "EXCLUDABLE" " or | " "one of " "" i eq_refl eq_refl _ _ _ _ _ At H) as [p0 [i0 [o0 [H0 K]]]].
    assert (El : eats d "one of " i (fun w => w = tx "one of ")) by eat.
    destruct (El _ _ _ _ _ At H0) as [-> [-> [w [rest0 [-> [-> ->]]]]]]. pose proof (at_app _ _ _ _ At) as At0.
    destruct (K (back_excl d i) (eats_or d i) _ At0) as [n [x [tl [rest [q0 [-> [-> [-> [Ch [Fw [F2 [En [St Hr]]]]]]]]]]]]]. cbn [String.eqb] in Hr. destruct Hr as [-> ->]. split; [reflexivity|].
    destruct (seps_bools tl Fw) as [l [E1 E2]]. rewrite E2 in F2. pose proof (at_app _ _ _ _ At0) as At1.
    pose proof (chain_ok _ _ (wf_excl uniword) _ (fun x r H => H) _ _ _ Ch) as Wf. rewrite E2 in Wf. inversion Wf as [|? ? Wx Wl]; subst.
    exists n, (inr (x, l)), rest. unfold w_exclusion, w_excls, joinr. rewrite E1. split; [reflexivity|]. split; [rewrite <- !app_assoc; reflexivity|].
    split; [rewrite !app_length; unfold text in *; lia|]. split.
    + split; [exact Wx|]. split; [|eapply stop_no_more; [|exact At1|exact St]; lia]. apply (proj1 (Forall_map snd (wf_excl uniword) l)) in Wl. exact Wl.
    + split; [rewrite En; reflexivity|exact F2].
  - destruct (back_excl d i _ _ _ _ _ At H) as [-> [n [x [rest [-> [-> [-> [O R]]]]]]]]. split; [reflexivity|]. exists n, (inl x), rest. repeat split; auto.
Qed.

(* -------- constraints -------- *)

Definition ok_constr (c : constr) (rest : text) : Prop :=
  wf_constr uniword c /\ match c with ButNotOneOf _ _ => no_more_excl rest | _ => True end.

Lemma back_single_op : forall d i, back d "LAC_SINGLE_OP" i (fun neg : bool => if neg then tx "!=" else tx "==") (fun _ _ => True) (fun n (neg : bool) => leaf t n "LAC_SINGLE_OP" (if neg then tx "!=" else tx "==") []).
Proof.
  intros d i. eapply leaf_back with (A := bool) (wr := fun neg : bool => if neg then tx "!=" else tx "==") (ok := fun _ => True) (gs := fun _ => []); [reflexivity|reflexivity|vm_compute; reflexivity|].
  intros w g W. apply word_alt in W. destruct W as [W|W]; repeat (apply word_seq_chr in W; let v := fresh "v" in destruct W as [v [-> W]]); apply word_eps in W; destruct W as [-> ->]; [exists false|exists true]; auto.
Qed.
Lemma back_set_op : forall d i, back d "LAC_SET_OP" i (fun neg : bool => if neg then tx "&notin;" else tx "&isin;") (fun _ _ => True) (fun n (neg : bool) => leaf t n "LAC_SET_OP" (if neg then tx "&notin;" else tx "&isin;") []).
Proof.
  intros d i. eapply leaf_back with (A := bool) (wr := fun neg : bool => if neg then tx "&notin;" else tx "&isin;") (ok := fun _ => True) (gs := fun _ => []); [reflexivity|reflexivity|vm_compute; reflexivity|].
  intros w g W. apply word_alt in W. destruct W as [W|W]; repeat (apply word_seq_chr in W; let v := fresh "v" in destruct W as [v [-> W]]); apply word_eps in W; destruct W as [-> ->]; [exists false|exists true]; auto.
Qed.
Lemma back_butonly : forall d i, back d "BUT_ONLY" i (fun w => tx "[> but only if " ++ w ++ tx "]") (fun w _ => w <> [] /\ Forall (fun c => c <> 91%N /\ c <> 93%N) w) (fun n w => leaf t n "BUT_ONLY" (tx "[> but only if " ++ w ++ tx "]") [w]).
Proof. intros d i. eapply leaf_back with (wr := fun w => tx "[> but only if " ++ w ++ tx "]") (ok := fun w => w <> [] /\ Forall (fun c => c <> 91%N /\ c <> 93%N) w) (gs := fun w => [w]) (r := rx_butonly); [reflexivity|reflexivity|reflexivity|]. apply words_butonly. Qed.

Lemma back_constr : forall d i, 6 <= d -> back d "RHS_CONSTRAINT" i w_constr ok_constr (is_constr t).
Proof.
  intros d i D p s q j o At H. deeper d. alt_in "RHS_CONSTRAINT" H.
  assert (Say : forall c rest n, s = w_constr c ++ rest -> g_start n = p -> g_end n = p + length (w_constr c) -> says t n (w_constr c)).
  { intros c rest n -> E1 E2. unfold says, g_text. rewrite E1, E2. apply (at_slice _ _ _ _ At). }
  apply alts_inv in H. destruct H as [H|[_ H]]; [|apply alts_inv in H; destruct H as [H|[_ H]]; [|apply alts_inv in H; destruct H as [H|[_ H]]; [|apply alts_inv in H; destruct H as [H|[_ H]]; [|discriminate H]]]].
  - deeper d. alt_in "LOOKAHEAD_CONSTRAINT" H. apply alts_inv in H. destruct H as [H|[_ H]]; [|apply alts_inv in H; destruct H as [H|[_ H]]; [|discriminate H]]; deeper d;
      (eapply cat_node_inv in H; [|reflexivity]; destruct H as [cs [H ->]]); (eapply seq_eats with (W := fun w => w = tx "[lookahead ") in H; [|eat|exact At]); destruct H as [w0 [r0 [E0 [-> [At0 H]]]]].
    + destruct (seq_back _ _ _ _ _ _ _ _ _ _ _ _ _ (back_single_op d i) At0 H) as [n1 [neg [r1 [cs1 [E1 [_ [R1 [At1 [-> H1]]]]]]]]].
      eapply seq_eats with (W := fun w => w = tx " ") in H1; [|eat|exact At1]. destruct H1 as [w2 [r2 [E2 [-> [At2 H2]]]]].
      destruct (seq_back _ _ _ _ _ _ _ _ _ _ _ _ _ (back_terms d i) At2 H2) as [n3 [ts [r3 [cs3 [E3 [O3 [R3 [At3 [-> H3]]]]]]]]].
      eapply seq_eats with (W := fun w => w = tx "]") in H3; [|eat|exact At3]. destruct H3 as [w4 [r4 [E4 [-> [At4 H4]]]]].
      apply seq_nil_inv in H4. destruct H4 as [Eq [-> ->]]. split; [reflexivity|].
      assert (Q : q = p + length (w_constr (LaSingle neg ts))) by (rewrite Eq; cbn [w_constr]; rewrite !app_length; unfold text in *; lia).
      assert (Es : s = w_constr (LaSingle neg ts) ++ r4) by (subst; cbn [w_constr]; rewrite <- !app_assoc; reflexivity).
      eexists. exists (LaSingle neg ts), r4. split; [reflexivity|]. split; [exact Es|]. split; [exact Q|]. split; [split; [exact O3|exact I]|].
      split; [apply (Say _ r4); auto|]. split; [reflexivity|]. exists n1, n3. auto.
    + destruct (seq_back _ _ _ _ _ _ _ _ _ _ _ _ _ (back_set_op d i) At0 H) as [n1 [neg [r1 [cs1 [E1 [_ [R1 [At1 [-> H1]]]]]]]]].
      eapply seq_eats with (W := fun w => w = tx " ") in H1; [|eat|exact At1]. destruct H1 as [w2 [r2 [E2 [-> [At2 H2]]]]].
      apply seq_inv in H2. destruct H2 as [p3 [i3 [c3 [cs3 [H2 [H3 E3]]]]]]. deeper d. alt_in "LAC_SET_OPERAND" H2.
      apply alts_inv in H2. destruct H2 as [H2|[_ H2]]; [|apply alts_inv in H2; destruct H2 as [H2|[_ H2]]; [|discriminate H2]].
      * destruct (back_nt d i _ _ _ _ _ At2 H2) as [-> [n3 [x [r3 [-> [Er [-> [O R]]]]]]]]. rewrite Er in At2. pose proof (at_app _ _ _ _ At2) as At3.
        eapply seq_eats with (W := fun w => w = tx "]") in H3; [|eat|exact At3]. destruct H3 as [w4 [r4 [E4 [-> [At4 H4]]]]].
        apply seq_nil_inv in H4. destruct H4 as [Eq [-> ->]]. split; [reflexivity|].
        assert (Q : q = p + length (w_constr (LaNt neg x))) by (rewrite Eq; cbn [w_constr]; rewrite !app_length; unfold text in *; lia).
        assert (Es : s = w_constr (LaNt neg x) ++ r4) by (subst; cbn [w_constr]; rewrite <- !app_assoc; reflexivity).
        eexists. exists (LaNt neg x), r4. split; [reflexivity|]. split; [exact Es|]. split; [exact Q|]. split; [split; [exact O|exact I]|].
        split; [apply (Say _ r4); auto|]. split; [reflexivity|]. exists n1, n3. cbn [g_children]. rewrite E3. auto.
      * destruct (back_set d i _ _ _ _ _ At2 H2) as [-> [n3 [x [r3 [-> [Er [-> [O [Kn [Sn R]]]]]]]]]]. rewrite Er in At2. pose proof (at_app _ _ _ _ At2) as At3.
        eapply seq_eats with (W := fun w => w = tx "]") in H3; [|eat|exact At3]. destruct H3 as [w4 [r4 [E4 [-> [At4 H4]]]]].
        apply seq_nil_inv in H4. destruct H4 as [Eq [-> ->]]. split; [reflexivity|].
        assert (Q : q = p + length (w_constr (LaSet neg x))) by (rewrite Eq; cbn [w_constr]; unfold w_set; rewrite !app_length; unfold text in *; lia).
        assert (Es : s = w_constr (LaSet neg x) ++ r4) by (subst; cbn [w_constr]; unfold w_set; rewrite <- !app_assoc; reflexivity).
        eexists. exists (LaSet neg x), r4. split; [reflexivity|]. split; [exact Es|]. split; [exact Q|]. split; [split; [exact O|exact I]|].
        split; [apply (Say _ r4); auto|]. split; [reflexivity|]. exists n1, n3. cbn [g_children]. rewrite E3. auto.
  - destruct (back_nlth d i _ _ _ _ _ At H) as [-> [n [x [rest [-> [-> [-> [O R]]]]]]]]. split; [reflexivity|]. exists n, Nlth, rest. destruct R as [K [S [_ C]]]. repeat split; auto.
  - destruct (back_butonly d i _ _ _ _ _ At H) as [-> [n [x [rest [-> [-> [-> [O R]]]]]]]]. split; [reflexivity|]. exists n, (ButOnly x), rest. destruct R as [K [S [G C]]]. repeat split; auto; apply O.
  - deeper d. eapply cat_node_inv in H; [|reflexivity]. destruct H as [cs [H ->]]. eapply seq_eats with (W := fun w => w = tx "but not ") in H; [|eat|exact At]. destruct H as [w0 [r0 [E0 [-> [At0 H]]]]].
    assert (D4 : 4 <= d) by lia.
    destruct (seq_back _ _ _ _ _ _ _ _ _ _ _ _ _ (back_exclusion d i D4) At0 H) as [n [x [rest [cs' [E1 [O [R [At1 [-> H1]]]]]]]]].
    apply seq_nil_inv in H1. destruct H1 as [Eq [-> ->]]. split; [reflexivity|]. destruct x as [y|[y l]]; cbn [w_exclusion ok_exclusion is_exclusion] in *.
    + assert (Q : q = p + length (w_constr (ButNot y))) by (rewrite Eq; cbn [w_constr]; rewrite !app_length; unfold text in *; lia).
      assert (Es : s = w_constr (ButNot y) ++ rest) by (subst; cbn [w_constr]; rewrite <- !app_assoc; reflexivity).
      eexists. exists (ButNot y), rest. split; [reflexivity|]. split; [exact Es|]. split; [exact Q|]. split; [split; [exact O|exact I]|].
      split; [apply (Say _ rest); auto|]. split; [reflexivity|]. exists n. auto.
    + assert (Q : q = p + length (w_constr (ButNotOneOf y l))) by (rewrite Eq; cbn [w_constr]; unfold w_excls; rewrite !app_length; unfold text in *; lia).
      assert (Es : s = w_constr (ButNotOneOf y l) ++ rest) by (subst; cbn [w_constr]; unfold w_excls; rewrite <- !app_assoc; reflexivity).
      eexists. exists (ButNotOneOf y l), rest. split; [reflexivity|]. split; [exact Es|]. split; [exact Q|]. split; [split; [split; apply O|apply O]|].
      split; [apply (Say _ rest); auto|]. split; [reflexivity|]. exists n. split; [reflexivity|]. exact R.
Qed.

(* -------- items -------- *)

Definition ok_item (x : item) (rest : text) : Prop := match x with ISym s _ => wf_symbol uniword s | ICon c => ok_constr c rest end.

Lemma back_item : forall d i, 7 <= d -> back d "RHS_ITEM" i w_item ok_item (is_item t).
Proof.
  intros d i D p s q j o At H. deeper d. alt_in "RHS_ITEM" H.
  apply alts_inv in H. destruct H as [H|[_ H]]; [|apply alts_inv in H; destruct H as [H|[_ H]]; [|apply alts_inv in H; destruct H as [H|[_ H]]; [|discriminate H]]].
  - deeper d. eapply cat_node_inv in H; [|reflexivity]. destruct H as [cs [H ->]].
    destruct (seq_back _ _ _ _ _ _ _ _ _ _ _ _ _ (back_symbol d i) At H) as [n [x [rest [cs' [E1 [O [R [At1 [-> H1]]]]]]]]].
    eapply seq_eats with (W := fun w => w = tx "?") in H1; [|eat|exact At1]. destruct H1 as [w4 [r4 [E4 [-> [At4 H4]]]]].
    apply seq_nil_inv in H4. destruct H4 as [-> [-> ->]]. split; [reflexivity|]. subst s rest.
    assert (Q : p + length (w_symbol x) + length (tx "?") = p + length (w_item (ISym x true))) by (cbn [w_item]; rewrite app_length; unfold text in *; lia).
    eexists. exists (ISym x true), r4. split; [reflexivity|]. split; [cbn [w_item]; rewrite <- app_assoc; reflexivity|]. split; [exact Q|]. split; [exact O|].
    split; [reflexivity|]. split; [|exists n; auto]. unfold says, g_text. cbn [g_start g_end]. rewrite Q. eapply at_slice with (s := r4). cbn [w_item]. rewrite <- app_assoc. exact At.
  - destruct (back_symbol d i _ _ _ _ _ At H) as [-> [n [x [rest [-> [-> [-> [O R]]]]]]]]. split; [reflexivity|]. exists n, (ISym x false), rest. cbn [w_item]. rewrite app_nil_r. repeat split; auto.
  - assert (D6 : 6 <= d) by lia. destruct (back_constr d i D6 _ _ _ _ _ At H) as [-> [n [x [rest [-> [-> [-> [O R]]]]]]]]. split; [reflexivity|]. exists n, (ICon x), rest. repeat split; auto; try apply O; apply R.
Qed.

Lemma chain_clear : forall tl x rest, Forall (fun y : text * item => fst y = tx " ") tl -> chain ok_item w_item x tl rest ->
  Forall (wf_item uniword) (x :: map snd tl) /\ but_nots_end (x :: map snd tl).
Proof.
  assert (Wf : forall x r, ok_item x r -> wf_item uniword x) by (intros [s b|c] r O; [exact O|apply O]).
  induction tl as [|[s y] tl IH]; intros x rest F Ch; cbn [chain map snd] in *.
  - split; [constructor; [eapply Wf; exact Ch|constructor]|exact I].
  - inversion F as [|? ? Es F']; subst. cbn [fst] in Es. subst s. destruct Ch as [O Ch]. destruct (IH _ _ F' Ch) as [W B]. split; [constructor; [eapply Wf; exact O|exact W]|].
    split; [|exact B]. destruct x as [|c]; [exact I|]. destruct c as [| | | | | |z l]; try exact I. destruct O as [_ O]. cbn [after_but_not].
    inversion W as [|? ? Wy _]; subst. unfold joinr in O. rewrite <- app_assoc in O.
    destruct y as [[n ps|w|n] b|c']; auto; cbn [wf_item wf_symbol] in Wy.
    + apply (O (XNt n) (w_opt w_params ps ++ (if b then tx "?" else []) ++ flat_map (fun y => fst y ++ w_item (snd y)) tl ++ rest)); [apply Wy|]. cbn [w_item w_symbol w_excl]. rewrite <- !app_assoc. reflexivity.
    + apply (O (XTok w) ((if b then tx "?" else []) ++ flat_map (fun y => fst y ++ w_item (snd y)) tl ++ rest)); [exact Wy|]. cbn [w_item w_symbol w_excl]. rewrite <- !app_assoc. reflexivity.
Qed.

Lemma back_items : forall d i, 8 <= d -> back d "RHS_ITEMS" i (sep_by (tx " ") w_item) (fun l _ => Forall (wf_item uniword) (ne_list l) /\ but_nots_end (ne_list l)) (is_items t).
Proof.
  intros d i D p s q j o At H. deeper d. assert (D7 : 7 <= d) by lia. assert (Es : eats d " " i (fun w => w = tx " ")) by eat.
  destruct (list_back uniword t e item w_item ok_item (is_item t) (fun w => w = tx " ") d "RHS_ITEMS" RNode "RHS_ITEM" " " i eq_refl (back_item d i D7) Es _ _ _ _ _ At H)
    as [-> [n [x [tl [rest [-> [-> [-> [Ch [Fw [F2 [En _]]]]]]]]]]]]. split; [reflexivity|].
  exists n, (x, map snd tl), rest. rewrite (joinr_same _ _ _ _ _ Fw). split; [reflexivity|]. split; [reflexivity|]. split; [reflexivity|]. split; [apply (chain_clear _ _ _ Fw Ch)|].
  split; [rewrite En; reflexivity|exact F2].
Qed.
End Back.
