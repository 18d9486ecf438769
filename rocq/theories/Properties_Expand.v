(* C53: the expanded grammar that the parser works with derives what the grammar of the specification derives. *)
From Coq Require Import String Ascii.
From Verif Require Import M_Base L_Base M_GramCheck L_GramCheck M_Expand L_Expand L_ExpandMain L_ExpandDer L_ExpandMore.
Notation length := Datatypes.length.
Notation concat := List.concat.
Fixpoint str (s : string) : text := match s with EmptyString => [] | String a s' => N_of_ascii a :: str s' end.
Notation "'T' s" := (str s%string) (at level 8, s at level 0, only parsing).

(* Whatever counts as a terminal being at a place, and as a constraint holding at a place: the nonterminal whose name is that of a production with signs for its parameters
   derives in the expanded grammar exactly what the production derives with those signs. *)
Theorem C53_exact lexical prodns ps : well_formed lexical prodns -> simplify_grammar lexical prodns = Ok ps ->
  forall tok chk p σ i j, In p prodns -> map snd σ = p_params p ->
  (xder tok chk ps (name_of (p_lhs p) σ) i j <-> pder lexical prodns tok chk (p_lhs p) σ i j).
Proof.
  intros W G tok chk p σ i j IP E. split; [|now apply expanded_complete]. intros D. apply (expanded_sound lexical prodns W tok chk ps G) in D as [D _]. apply D; [reflexivity|exists p; auto|]. exact (proj2 (in_params _ _ W p σ IP E)).
Qed.
Print Assumptions C53_exact.

(* In the lexical grammar, InputElement_common derives what one of the four nonterminals derives. *)
Theorem C53_common prodns ps : well_formed true prodns -> simplify_grammar true prodns = Ok ps ->
  forall tok chk i j, xder tok chk ps (T "InputElement_common") i j <-> exists n, In n [T "WhiteSpace"; T "LineTerminator"; T "Comment"; T "CommonToken"] /\ xder tok chk ps n i j.
Proof. intros W G tok chk i j. exact (common_exact true prodns W tok chk ps G i j eq_refl). Qed.
Print Assumptions C53_common.

(* The productions of a name are, one for one and in order, the alternatives whose guard holds; each records where it comes from. So nothing is in the expanded grammar twice that is not twice in the grammar. *)
Inductive select {A} (P : A -> Prop) : list A -> list A -> Prop :=
| sel_nil : select P [] []
| sel_keep x l l' : P x -> select P l l' -> select P (x :: l) (x :: l')
| sel_drop x l l' : ~ P x -> select P l l' -> select P (x :: l) l'.
Theorem C53_alternatives lexical prodns ps : well_formed lexical prodns -> simplify_grammar lexical prodns = Ok ps ->
  forall p σ, In p prodns -> map snd σ = p_params p ->
  exists rs, select (fun r => guard_holds r σ) (p_rhss p) rs /\
    Forall2 (fun r q => og_lhs q = p_lhs p /\ og_rhs_reduced q = reduced r /\ og_params_setting q = map (fun b : bool * text => (if fst b then 43%N else 126%N) :: snd b) σ)
      rs (filter (fun q => text_eqb (ex_lhs q) (name_of (p_lhs p) σ)) ps).
Proof.
  intros W G p σ IP E. exists (filter (fun r => guard_ok r (flat σ)) (p_rhss p)). split; [|exact (alternatives lexical prodns W ps p σ G IP E)].
  assert (GS : forall r, In r (p_rhss p) -> guard_ok r (flat σ) = true <-> guard_holds r σ) by (intros r IR; apply guard_spec; intros gs g EG IG; eapply (w_guard _ _ W); eauto).
  revert GS. generalize (p_rhss p) as l. induction l as [|r l IH]; intros GS; cbn [filter]; [constructor|]. specialize (IH (fun x I => GS x (or_intror I))). pose proof (GS r (or_introl eq_refl)) as [G1 G2]. destruct (guard_ok r (flat σ)).
  - constructor; auto.
  - apply sel_drop; [|auto]. intros H. specialize (G2 H). discriminate.
Qed.
Print Assumptions C53_alternatives.

(* An optional symbol has exactly two productions, however often it occurs: one with the symbol and one that is empty. *)
Theorem C53_optional lexical prodns ps : well_formed lexical prodns -> simplify_grammar lexical prodns = Ok ps ->
  forall p r σ, In p prodns -> In r (p_rhss p) -> map snd σ = p_params p -> guard_holds r σ ->
  (forall n args s, In (R_QM (S_GNT n args)) (items r) -> passes σ args s ->
    exists q1 q2, filter (fun q => text_eqb (ex_lhs q) (name_of n s ++ [63%N])) ps = [q1; q2] /\ ex_rhs q1 = [X_NT (name_of n s)] /\ ex_rhs q2 = []) /\
  (forall c, In (R_QM (S_lit c)) (items r) ->
    exists q1 q2, filter (fun q => text_eqb (ex_lhs q) (c ++ [63%N])) ps = [q1; q2] /\ ex_rhs q1 = [X_lit c] /\ ex_rhs q2 = []).
Proof.
  intros W G p r σ IP IR E GH. assert (GO : guard_ok r (flat σ) = true) by (apply guard_spec; [|exact GH]; intros gs g EG IG; eapply (w_guard _ _ W); eauto). destruct (in_params _ _ W p σ IP E) as [ND CS]. split.
  - intros n args s II PA. apply (option_once lexical prodns W ps (name_of n s) (X_NT (name_of n s)) p r σ (S_GNT n args) G IP IR E GO II). cbn [opt_of]. unfold expand_nt. rewrite (proj2 (expand_spec σ ND args n _) (ex_intro _ s (conj PA eq_refl))). reflexivity.
  - intros c II. apply (option_once lexical prodns W ps c (X_lit c) p r σ (S_lit c) G IP IR E GO II). reflexivity.
Qed.
Print Assumptions C53_optional.

(* The expansion of a grammar succeeds: at most four parameters, every argument with ? is a parameter, no optional named character, sets of lookaheads that can be listed, guards first and labels last. *)
Theorem C53_total lexical prodns : expandable prodns -> exists ps, simplify_grammar lexical prodns = Ok ps.
Proof. intros X. now apply expansion_ok. Qed.
Print Assumptions C53_total.

(* ---- where the expansion is wrong ---- *)
(* reading a sequence of terminals, for the syntactic grammar (w is the tokens) and for the lexical grammar (w is the characters) *)
Definition reads (w : list xthing) (i : nat) (x : xthing) : Prop := nth_error w i = Some x.
Definition matches_at (w : list xthing) (i : nat) (ts : list lthing) : Prop := forall k t, nth_error ts k = Some t -> match t with L_lit c => reads w (i + k) (X_lit c) | L_named n => reads w (i + k) (X_named n) | L_no_LT => True end.
Definition holds_at (w : list xthing) (pv : option nat) (i : nat) (x : xthing) : Prop :=
  match x with X_lookahead m tss => m = true <-> exists ts, In ts tss /\ matches_at w i ts | _ => True end.
Definition alt (l : list ritem) := mkRhs None l [].

Lemma xder_inv tok chk ps n i j : xder tok chk ps n i j -> exists q pv, In q ps /\ ex_lhs q = n /\ xrun tok chk (xder tok chk ps) None i (ex_rhs q) pv j.
Proof. intros []. eauto. Qed.
(* A constraint [lookahead is in a set] is expanded as [lookahead is not in the set]. *)
Definition g_set := [mkPr (T "A") [] [alt [R_LAC_SET true (O_set [[TI_lit (T "a")]]); R_sym (S_lit (T "a"))]]].
Theorem C53_lookahead_refuted : exists prodns ps w a, simplify_grammar false prodns = Ok ps /\ pder false prodns (reads w) (holds_at w) a [] 0 1 /\ ~ xder (reads w) (holds_at w) ps a 0 1.
Proof.
  exists g_set. eexists. exists [X_lit (T "a")], (T "A"). split; [vm_compute; reflexivity|]. split.
  - change (T "A") with (p_lhs (nth 0 g_set (mkPr [] [] []))). eapply pd with (r := alt [R_LAC_SET true (O_set [[TI_lit (T "a")]]); R_sym (S_lit (T "a"))]); [now left|reflexivity|now left|exact I|].
    eapply pr_cons; [eapply pi_con; [apply mn_set, sq_set|]|].
    + cbn. split; [|auto]. intros _. eexists. split; [now left|]. intros [|k] t Q; [injection Q as <-; reflexivity|destruct k; discriminate].
    + eapply pr_cons; [apply pi_sym, ps_lit; [now left|reflexivity]|constructor].
  - intros D. destruct (xder_inv _ _ _ _ _ _ D) as (q & pv & IQ & EN & X). cbn in IQ. destruct IQ as [<-|[]]. cbn in X. inversion X as [| |? ? ? ? ? ? TT|? ? ? ? ? ? C K X2]; subst; [destruct TT|]. cbn in K. destruct K as [_ K]. assert (false = true); [|discriminate]. apply K. eexists. split; [now left|].
    intros [|k] t Q; [injection Q as <-; reflexivity|destruct k; discriminate].
Qed.
Print Assumptions C53_lookahead_refuted.
(* An optional named terminal is expanded to a nonterminal without productions. *)
Definition g_named := [mkPr (T "A") [] [alt [R_QM (S_GNT (T "B") [])]]].
Theorem C53_optional_terminal_refuted : exists prodns ps w a, simplify_grammar false prodns = Ok ps /\ pder false prodns (reads w) (holds_at w) a [] 0 1 /\ ~ xder (reads w) (holds_at w) ps a 0 1.
Proof.
  exists g_named. eexists. exists [X_named (T "B")], (T "A"). split; [vm_compute; reflexivity|]. split.
  - change (T "A") with (p_lhs (nth 0 g_named (mkPr [] [] []))). eapply pd with (r := alt [R_QM (S_GNT (T "B") [])]); [now left|reflexivity|now left|exact I|].
    eapply pr_cons; [eapply pi_present, ps_named with (s' := [])|constructor]; [|constructor|reflexivity]. intros (p & [<-|[]] & Q). discriminate.
  - intros D. destruct (xder_inv _ _ _ _ _ _ D) as (q & pv & IQ & EN & X). cbn in IQ. destruct IQ as [<-|[<-|[<-|[]]]]; cbn in EN; try discriminate. cbn in X. inversion X as [|? ? ? j0 ? ? ? D0 X2|? ? ? ? ? ? TT|? ? ? ? ? ? C K X2]; subst; [|destruct TT|destruct C]. inversion X2; subst. clear X X2 D EN.
    destruct (xder_inv _ _ _ _ _ _ D0) as (q & pv' & IQ & EN & X). cbn in IQ. destruct IQ as [<-|[<-|[<-|[]]]]; cbn in EN; try discriminate; cbn in X; [|inversion X].
    inversion X as [|? ? ? j0 ? ? ? D1 X2|? ? ? ? ? ? TT|? ? ? ? ? ? C K X2]; subst; [|destruct TT|destruct C]. destruct (xder_inv _ _ _ _ _ _ D1) as (q & pv3 & IQ & EN3 & X3). cbn in IQ. destruct IQ as [<-|[<-|[<-|[]]]]; cbn in EN3; discriminate.
Qed.
Print Assumptions C53_optional_terminal_refuted.
(* In the lexical grammar, an optional literal of several characters is not taken apart into characters. *)
Definition g_lit := [mkPr (T "A") [] [alt [R_QM (S_lit (T "ab"))]]].
Theorem C53_optional_literal_refuted : exists prodns ps w a, simplify_grammar true prodns = Ok ps /\ pder true prodns (reads w) (holds_at w) a [] 0 2 /\ ~ xder (reads w) (holds_at w) ps a 0 2.
Proof.
  exists g_lit. eexists. exists [X_lit (T "a"); X_lit (T "b")], (T "A"). split; [vm_compute; reflexivity|]. split.
  - change (T "A") with (p_lhs (nth 0 g_lit (mkPr [] [] []))). eapply pd with (r := alt [R_QM (S_lit (T "ab"))]); [now left|reflexivity|now left|exact I|].
    eapply pr_cons; [eapply pi_present, (ps_chars true _ _ _ _ (T "ab") 0)|constructor]; [reflexivity|cbn; lia|]. intros [|[|k]] x Q; [injection Q as <-; reflexivity|injection Q as <-; reflexivity|destruct k; discriminate].
  - intros D. destruct (xder_inv _ _ _ _ _ _ D) as (q & pv & IQ & EN & X). cbn in IQ. repeat (destruct IQ as [<-|IQ]; [try (cbn in EN; discriminate)|]); [|destruct IQ]. cbn in X. inversion X as [|? ? ? j0 ? ? ? D0 X2|? ? ? ? ? ? TT|? ? ? ? ? ? C K X2]; subst; [|destruct TT|destruct C]. inversion X2; subst. clear X X2 D EN.
    destruct (xder_inv _ _ _ _ _ _ D0) as (q & pv' & IQ & EN & X). cbn in IQ. repeat (destruct IQ as [<-|IQ]; [try (cbn in EN; discriminate); cbn in X; try (inversion X; fail)|]); [|destruct IQ].
    inversion X as [|? ? ? j0 ? ? ? D1 X2|? ? ? ? ? ? TT K X2|? ? ? ? ? ? C K X2]; subst; [|destruct C]. inversion X2.
Qed.
Print Assumptions C53_optional_literal_refuted.

(* ---- an example: S[In] : [+In] `a` U[?In]opt | [~In] `b` [lookahead != `c`] U[+In]opt ; U[In] : `u` x {no `a`} ---- *)
Definition g_ex : list prodn :=
  [mkPr (T "S") [T "In"] [mkRhs (Some [(APlus, T "In")]) [R_PARAMS; R_sym (S_lit (T "a")); R_QM (S_GNT (T "U") [(AQuestion, T "In")])] (T "a U?");
                          mkRhs (Some [(ATilde, T "In")]) [R_PARAMS; R_sym (S_lit (T "b")); R_LAC_SINGLE false [TI_lit (T "c")]; R_QM (S_GNT (T "U") [(APlus, T "In")])] (T "b U?")];
   mkPr (T "U") [T "In"] [mkRhs None [R_sym (S_lit (T "u")); R_sym (S_GNT (T "x") [])] (T "u x")]].
Ltac cleanly := let c := fresh in let I := fresh in intros c I; cbn in I; repeat (destruct I as [<-|I]; [repeat split; discriminate|]); destruct I.
Lemma g_ex_rhss p r : In p g_ex -> In r (p_rhss p) -> In r (p_rhss (nth 0 g_ex (mkPr [] [] []))) \/ In r (p_rhss (nth 1 g_ex (mkPr [] [] []))).
Proof. intros [<-|[<-|[]]]; auto. Qed.
Lemma g_ex_well_formed : well_formed false g_ex.
Proof.
  constructor.
  - cbn. repeat constructor; cbn; intuition discriminate.
  - intros p [<-|[<-|[]]]; (split; [cleanly|]; split; [intros a [<-|[]]; cleanly|repeat constructor; cbn; intuition]).
  - intros p r gs g [<-|[<-|[]]] IR EG IG; cbn in IR; [destruct IR as [<-|[<-|[]]]|destruct IR as [<-|[]]]; cbn in EG; try discriminate; injection EG as <-; destruct IG as [<-|[]]; cleanly.
  - intros p r n args [<-|[<-|[]]] IR H; cbn in IR; [destruct IR as [<-|[<-|[]]]|destruct IR as [<-|[]]]; cbn in H; repeat destruct H as [H|H]; try discriminate; try (destruct H; fail); injection H as <- <-; (split; [cleanly|]; intros a IA; cbn in IA; try (destruct IA as [<-|[]]; cleanly)); destruct IA.
  - intros p r n args [<-|[<-|[]]] IR H; cbn in IR; [destruct IR as [<-|[<-|[]]]|destruct IR as [<-|[]]]; cbn in H; repeat destruct H as [H|H]; try discriminate; try (destruct H; fail); injection H as <- <-; eexists; (split; [right; left; reflexivity|reflexivity]).
  - intros p r c [<-|[<-|[]]] IR H; cbn in IR; [destruct IR as [<-|[<-|[]]]|destruct IR as [<-|[]]]; cbn in H; repeat destruct H as [H|H]; try discriminate; destruct H.
  - intros p r b o [<-|[<-|[]]] IR H; cbn in IR; [destruct IR as [<-|[<-|[]]]|destruct IR as [<-|[]]]; cbn in H; repeat destruct H as [H|H]; try discriminate; destruct H.
  - discriminate.
Qed.
Lemma g_ex_expandable : expandable g_ex.
Proof.
  constructor.
  - intros p [<-|[<-|[]]]; cbn; lia.
  - intros p [<-|[<-|[]]]; repeat constructor; cbn; intuition.
  - intros p r n args a [<-|[<-|[]]] IR H; cbn in IR; [destruct IR as [<-|[<-|[]]]|destruct IR as [<-|[]]]; cbn in H; repeat destruct H as [H|H]; try discriminate; try (destruct H; fail); injection H as <- <-; intros IA; cbn in IA; try (destruct IA as [<-|[]]; cbn; auto); destruct IA.
  - intros p r c [<-|[<-|[]]] IR H; cbn in IR; [destruct IR as [<-|[<-|[]]]|destruct IR as [<-|[]]]; cbn in H; repeat destruct H as [H|H]; try discriminate; destruct H.
  - intros p r b o [<-|[<-|[]]] IR H; cbn in IR; [destruct IR as [<-|[<-|[]]]|destruct IR as [<-|[]]]; cbn in H; repeat destruct H as [H|H]; try discriminate; destruct H.
  - intros p r i [<-|[<-|[]]] IR; cbn in IR; [destruct IR as [<-|[<-|[]]]|destruct IR as [<-|[]]]; (split; intros H; cbn in H; destruct i as [|[|[|[|[|i]]]]]; cbn in H; try discriminate; reflexivity).
  - cbn. repeat constructor; cbn; intuition discriminate.
Qed.
Definition g_ex_expanded : list exprod := match simplify_grammar false g_ex with Ok ps => ps | Err _ => [] end.
Example C53_ex_ok : simplify_grammar false g_ex = Ok g_ex_expanded.
Proof. vm_compute. reflexivity. Qed.
Example C53_ex_names : map ex_lhs g_ex_expanded = [T "U+In?"; T "U+In?"; T "S~In"; T "S+In"; T "U~In"; T "U+In"].
Proof. vm_compute. reflexivity. Qed.
(* `b u x` is derived by S~In, not by S+In *)
Definition bux := [X_lit (T "b"); X_lit (T "u"); X_named (T "x")].
Example C53_ex_derives : xder (reads bux) (holds_at bux) g_ex_expanded (T "S~In") 0 3.
Proof.
  refine (proj2 (C53_exact false g_ex g_ex_expanded g_ex_well_formed C53_ex_ok (reads bux) (holds_at bux) (nth 0 g_ex (mkPr [] [] [])) [(false, T "In")] 0 3 (or_introl eq_refl) eq_refl) _).
  eapply pd; [now left|reflexivity|right; now left|intros g [<-|[]]; now left|].
  eapply pr_cons; [apply pi_params|]. eapply pr_cons; [apply pi_sym, ps_lit; [now left|reflexivity]|]. eapply pr_cons; [eapply pi_con; [apply mn_single|]|].
  { cbn. split; [discriminate|]. intros (ts & [<-|[]] & M). specialize (M 0 _ eq_refl). discriminate. }
  eapply pr_cons; [|constructor]. eapply pi_present, ps_nt with (s' := [(true, T "In")]); [eexists; split; [right; now left|reflexivity]|constructor; [split; reflexivity|constructor]|].
  change (T "U") with (p_lhs (nth 1 g_ex (mkPr [] [] []))). eapply pd; [right; now left|reflexivity|now left|exact I|].
  eapply pr_cons; [apply pi_sym, ps_lit; [now left|reflexivity]|]. eapply pr_cons; [apply pi_sym, ps_named with (s' := []); [|constructor|reflexivity]|constructor]. intros (p & [<-|[<-|[]]] & Q); discriminate.
Qed.
Example C53_ex_not : ~ xder (reads bux) (holds_at bux) g_ex_expanded (T "S+In") 0 3.
Proof.
  intros D. apply (proj1 (C53_exact false g_ex g_ex_expanded g_ex_well_formed C53_ex_ok (reads bux) (holds_at bux) (nth 0 g_ex (mkPr [] [] [])) [(true, T "In")] 0 3 (or_introl eq_refl) eq_refl)) in D.
  inversion D as [p σ r ? pv ? IP E IR GH X EL EE]; subst. destruct IP as [<-|[<-|[]]]; [|discriminate]. destruct IR as [<-|[<-|[]]].
  - inversion X as [|? ? ? pm m ? ? ? X1 X2]; subst. inversion X1; subst; [|match goal with M : means _ _ _ |- _ => inversion M end]. inversion X2 as [|? ? ? pm m ? ? ? X3 X4]; subst. inversion X3 as [| |? ? ? ? ? S| | | | | |? ? ? ? M]; subst; [|inversion M]. inversion S; subst; [discriminate|]. discriminate.
  - specialize (GH (ATilde, T "In") (or_introl eq_refl)). cbn in GH. destruct GH as [GH|[]]. discriminate.
Qed.
Example C53_ex_optional : exists q1 q2, filter (fun q => text_eqb (ex_lhs q) (T "U+In?")) g_ex_expanded = [q1; q2] /\ ex_rhs q1 = [X_NT (T "U+In")] /\ ex_rhs q2 = [].
Proof. vm_compute. do 2 eexists. repeat split. Qed.
(* InputElement_common in a lexical grammar *)
Definition g_lex : list prodn := [mkPr (T "WhiteSpace") [] [alt [R_sym (S_char (T "SP"))]]; mkPr (T "Comment") [] [alt [R_sym (S_lit (T "//"))]]].
Example C53_ex_common : exists ps, simplify_grammar true g_lex = Ok ps /\ map (fun q => (ex_lhs q, ex_rhs q)) ps =
  [(T "Comment", [X_lit (T "/"); X_lit (T "/")]); (T "WhiteSpace", [X_named (T "SP")]);
   (T "InputElement_common", [X_NT (T "WhiteSpace")]); (T "InputElement_common", [X_NT (T "LineTerminator")]); (T "InputElement_common", [X_NT (T "Comment")]); (T "InputElement_common", [X_NT (T "CommonToken")])].
Proof. eexists. split; vm_compute; reflexivity. Qed.
