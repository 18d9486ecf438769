(* What a character of the lexical grammar is, declaratively, and lemmas. *)
From Coq Require Import Ascii String.
From Verif Require Import M_Base L_Base M_HTML M_Shared M_Expand M_Mathnum M_Values M_LexChars.
Open Scope list_scope.
Open Scope nat_scope.
Notation length := List.length.

(* the characters with names: tables of white space and line terminators *)
Inductive named_char : text -> N -> Prop :=
| nc_zwnbsp : named_char (tx "ZWNBSP") 65279
| nc_tab : named_char (tx "TAB") 9
| nc_vt : named_char (tx "VT") 11
| nc_ff : named_char (tx "FF") 12
| nc_lf : named_char (tx "LF") 10
| nc_cr : named_char (tx "CR") 13
| nc_ls : named_char (tx "LS") 8232
| nc_ps : named_char (tx "PS") 8233.

Lemma text_eqb_refl t : text_eqb t t = true. Proof. now apply text_eqb_eq. Qed.
Lemma assoc_some {A} k (d : list (text * A)) a : assoc k d = Some a -> In (k, a) d.
Proof.
  induction d as [|(k', a') d IH]; cbn [assoc]; [discriminate|]. destruct (text_eqb k k') eqn:E.
  - intros H. injection H as <-. apply text_eqb_eq in E. subst. now left.
  - intros H. right. now apply IH.
Qed.
Lemma assoc_none {A} k (d : list (text * A)) : assoc k d = None <-> ~ exists a, In (k, a) d.
Proof.
  induction d as [|(k', a') d IH]; cbn [assoc].
  - split; [intros _ (a & [])|reflexivity].
  - destruct (text_eqb k k') eqn:E.
    + apply text_eqb_eq in E. subst. split; [discriminate|]. intros H. destruct H. exists a'. now left.
    + rewrite IH. split; intros H (a & I); apply H; exists a.
      * destruct I as [I|I]; [|assumption]. injection I as -> ->. now rewrite text_eqb_refl in E.
      * now right.
Qed.
Lemma named_iff n c : named n = Ok c <-> named_char n c.
Proof.
  unfold named. split.
  - destruct (assoc n character_named_) as [d|] eqn:E; [|discriminate]. intros H. injection H as <-. apply assoc_some in E. cbn [character_named_ In] in E.
    repeat (destruct E as [E|E]; [injection E as <- <-; constructor|]). destruct E.
  - intros H. inversion H; subst; vm_compute; reflexivity.
Qed.
Lemma named_err n e : named n = Err e <-> e = KeyError /\ ~ exists c, named_char n c.
Proof.
  split.
  - intros H. split; [unfold named in H; destruct (assoc n character_named_); [discriminate|congruence]|]. intros (c & C). apply named_iff in C. congruence.
  - intros (-> & H). destruct (named n) as [c|e] eqn:E; [destruct H; exists c; now apply named_iff|]. unfold named in E. destruct (assoc n character_named_); congruence.
Qed.

(* ---------- sets of characters and words ---------- *)
Section Sets.
  Variable prods : list exprod.
  (* a text that a nonterminal derives through productions with one symbol *)
  Inductive derives : text -> text -> Prop :=
  | d_lit p c : In p prods -> ex_rhs p = [X_lit c] -> derives (ex_lhs p) c
  | d_named p n c : In p prods -> ex_rhs p = [X_named n] -> named_char n c -> derives (ex_lhs p) [c]
  | d_nt p n t : In p prods -> ex_rhs p = [X_NT n] -> derives n t -> derives (ex_lhs p) t.
  (* the same for literals only *)
  Inductive derives_lit : text -> text -> Prop :=
  | l_lit p c : In p prods -> ex_rhs p = [X_lit c] -> derives_lit (ex_lhs p) c
  | l_nt p n t : In p prods -> ex_rhs p = [X_NT n] -> derives_lit n t -> derives_lit (ex_lhs p) t.

  Lemma with_lhs_ok name ps : with_lhs prods name = Ok ps -> forall p, In p ps <-> In p prods /\ ex_lhs p = name.
  Proof.
    unfold with_lhs. destruct (filter _ prods) as [|q qs] eqn:E; [discriminate|]. intros H. injection H as <-. intros p. rewrite <- E, filter_In, text_eqb_eq. tauto.
  Qed.
  (* one step of the loop: result grows by what a production gives *)
  Definition gives (f : text -> res (list text)) (p : exprod) (t : text) : Prop :=
    ex_rhs p = [X_lit t] \/ (exists n c, ex_rhs p = [X_named n] /\ named_char n c /\ t = [c]) \/ exists n s, ex_rhs p = [X_NT n] /\ f n = Ok s /\ In t s.
  Lemma char_set_ok : forall fuel name s, char_set prods fuel name = Ok s -> forall t, In t s <-> derives name t.
  Proof.
    induction fuel as [|fuel IH]; intros name s H; [discriminate|]. cbn [char_set] in H. destruct (with_lhs prods name) as [ps|] eqn:W; cbn [bind] in H; [|discriminate].
    pose proof (with_lhs_ok name ps W) as PS.
    assert (L : forall ps result s, (fix go (ps : list exprod) (result : list text) : res (list text) :=
         match ps with
         | [] => Ok result
         | p :: ps' =>
           match ex_rhs p with
           | [X_lit c] => go ps' (c :: result)
           | [X_named n] => do c <- named n ;; go ps' ([c] :: result)
           | [X_NT n] => do s <- char_set prods fuel n ;; go ps' (s ++ result)
           | _ => Err AssertionError
           end
         end) ps result = Ok s -> (forall t, In t s <-> In t result \/ exists p, In p ps /\ gives (char_set prods fuel) p t) /\ forall p, In p ps -> (exists c, ex_rhs p = [X_lit c]) \/ (exists n c, ex_rhs p = [X_named n] /\ named_char n c) \/ exists n s, ex_rhs p = [X_NT n] /\ char_set prods fuel n = Ok s).
    { clear. induction ps as [|p ps IHp]; intros result s H.
      - injection H as <-. split; [|intros p []]. intros t. split; [now left|]. intros [I|(p & [] & _)]; assumption.
      - destruct (ex_rhs p) as [|[n|c|n|u|lo hi|c|b| |m tss] [|y l]] eqn:E; try discriminate.
        + destruct (char_set prods fuel n) as [r|] eqn:C; cbn [bind] in H; [|discriminate]. apply IHp in H. destruct H as (H & G). split.
          * intros t. rewrite H, in_app_iff. split.
            -- intros [[I|I]|(q & Q & V)]; [right; exists p; split; [now left|]; right; right; now exists n, r|now left|right; exists q; split; [now right|assumption]].
            -- intros [I|(q & [<-|Q] & V)]; [left; now right| |right; now exists q]. left. left. destruct V as [V|[(a & b & V & _)|(a & b & V & V2 & V3)]]; rewrite E in V; try discriminate. injection V as <-. congruence.
          * intros q [<-|Q]; [right; right; now exists n, r|now apply G].
        + apply IHp in H. destruct H as (H & G). split.
          * intros t. rewrite H. cbn [In]. split.
            -- intros [[<-|I]|(q & Q & V)]; [right; exists p; split; [now left|]; now left|now left|right; exists q; split; [now right|assumption]].
            -- intros [I|(q & [<-|Q] & V)]; [left; now right| |right; now exists q]. left. left. destruct V as [V|[(a & b & V & _)|(a & b & V & _)]]; rewrite E in V; congruence.
          * intros q [<-|Q]; [left; now exists c|now apply G].
        + destruct (named n) as [c|] eqn:C; cbn [bind] in H; [|discriminate]. apply IHp in H. destruct H as (H & G). apply named_iff in C. split.
          * intros t. rewrite H. cbn [In]. split.
            -- intros [[<-|I]|(q & Q & V)]; [right; exists p; split; [now left|]; right; left; now exists n, c|now left|right; exists q; split; [now right|assumption]].
            -- intros [I|(q & [<-|Q] & V)]; [left; now right| |right; now exists q]. left. left. destruct V as [V|[(a & b & V & V2 & ->)|(a & b & V & _)]]; rewrite E in V; try discriminate. injection V as <-. apply named_iff in V2, C. congruence.
          * intros q [<-|Q]; [right; left; now exists n, c|now apply G]. }
    apply L in H. destruct H as (H & G). intros t. rewrite H. split.
    - intros [[]|(p & I & V)]. apply PS in I. destruct I as (I & <-). destruct V as [V|[(n & c & V & C & ->)|(n & r & V & C & R)]].
      + now apply d_lit.
      + now apply d_named with n.
      + apply d_nt with n; try assumption. apply (IH n r C). assumption.
    - intros D. right. inversion D as [p c I V|p n c I V C|p n u I V D']; subst; exists p; (split; [apply PS; now split|]).
      + now left.
      + right. left. now exists n, c.
      + right. right. destruct (G p) as [(c & V')|[(n' & c & V' & _)|(n' & r & V' & C)]]; [apply PS; now split|congruence|congruence|]. rewrite V in V'. injection V' as <-. exists n, r. split; [assumption|]. split; [assumption|]. now apply (IH n r C).
  Qed.

  (* from here everything reached is defined, by single symbols of the right kinds, and nothing leads back to itself *)
  Definition well_defined (rank : text -> nat) (name : text) : Prop :=
    (exists p, In p prods /\ ex_lhs p = name) /\
    forall p, In p prods -> ex_lhs p = name -> (exists c, ex_rhs p = [X_lit c]) \/ (exists n c, ex_rhs p = [X_named n] /\ named_char n c) \/ exists n, ex_rhs p = [X_NT n] /\ rank n < rank name.
  Inductive reach : text -> text -> Prop :=
  | reach_refl a : reach a a
  | reach_step p b c : In p prods -> ex_rhs p = [X_NT b] -> reach b c -> reach (ex_lhs p) c.
  Lemma char_set_total rank : forall fuel name, rank name < fuel -> (forall n, reach name n -> well_defined rank n) -> exists s, char_set prods fuel name = Ok s.
  Proof.
    induction fuel as [|fuel IH]; intros name R W; [lia|]. cbn [char_set]. destruct (W name (reach_refl name)) as ((p0 & I0 & L0) & G).
    destruct (with_lhs prods name) as [ps|e] eqn:E; cbn [bind].
    - pose proof (with_lhs_ok name ps E) as PS. assert (G' : forall p, In p ps -> In p prods /\ ex_lhs p = name) by (intros p I; now apply PS). clear PS E. generalize (@nil text). induction ps as [|p ps IHp]; intros result; [now exists result|].
      destruct (G' p (or_introl eq_refl)) as (I & L). destruct (G p I L) as [(c & V)|[(n & c & V & C)|(n & V & K)]]; rewrite V.
      + apply IHp. intros q Q. apply G'. now right.
      + apply named_iff in C. rewrite C. cbn [bind]. apply IHp. intros q Q. apply G'. now right.
      + destruct (IH n) as (s & S); [lia| |].
        * intros m M. apply W. rewrite <- L. now apply reach_step with n.
        * rewrite S. cbn [bind]. apply IHp. intros q Q. apply G'. now right.
    - exfalso. unfold with_lhs in E. destruct (filter _ prods) as [|q qs] eqn:F; [|discriminate]. assert (X : In p0 (filter (fun p => text_eqb (ex_lhs p) name) prods)) by (apply filter_In; split; [assumption|now apply text_eqb_eq]). rewrite F in X. destruct X.
  Qed.
  Lemma gather_ok fuel names d : gather prods fuel names = Ok d -> (forall n, (exists s, assoc n d = Some s) <-> In n names) /\ forall n s, assoc n d = Some s -> char_set prods fuel n = Ok s.
  Proof.
    revert d. induction names as [|m names IH]; intros d H; cbn [gather] in H.
    - injection H as <-. split; [intros n; split; [intros (s & S); discriminate|intros []]|intros n s S; discriminate].
    - destruct (char_set prods fuel m) as [s|] eqn:C; cbn [bind] in H; [|discriminate]. destruct (gather prods fuel names) as [r|] eqn:G; cbn [bind] in H; [|discriminate]. injection H as <-. destruct (IH r eq_refl) as (A & B). split.
      + intros n. cbn [assoc In]. destruct (text_eqb n m) eqn:E; [apply text_eqb_eq in E; subst; split; [now left|]; intros _; now exists s|]. rewrite A. split; [now right|]. intros [<-|I]; [now rewrite text_eqb_refl in E|assumption].
      + intros n s'. cbn [assoc]. destruct (text_eqb n m) eqn:E; [apply text_eqb_eq in E; subst; intros X; injection X as <-; assumption|apply B].
  Qed.
  Lemma words_ok : forall fuel name s, words prods fuel name = Ok s -> forall t, In t s <-> derives_lit name t.
  Proof.
    induction fuel as [|fuel IH]; intros name s H; [discriminate|]. cbn [words] in H. destruct (with_lhs prods name) as [ps|] eqn:W; cbn [bind] in H; [|discriminate].
    pose proof (with_lhs_ok name ps W) as PS.
    assert (L : forall ps result s, (fix go (ps : list exprod) (result : list text) : res (list text) :=
         match ps with
         | [] => Ok result
         | p :: ps' =>
           match ex_rhs p with
           | [X_NT n] => do s <- words prods fuel n ;; go ps' (s ++ result)
           | [X_lit c] => go ps' (c :: result)
           | [_] => go ps' result
           | _ => Err AssertionError
           end
         end) ps result = Ok s -> (forall t, In t s <-> In t result \/ exists p, In p ps /\ (ex_rhs p = [X_lit t] \/ exists n s, ex_rhs p = [X_NT n] /\ words prods fuel n = Ok s /\ In t s)) /\ forall p n, In p ps -> ex_rhs p = [X_NT n] -> exists s, words prods fuel n = Ok s).
    { clear. induction ps as [|p ps IHp]; intros result s H.
      - injection H as <-. split; [|intros p n []]. intros t. split; [now left|]. intros [I|(p & [] & _)]; assumption.
      - assert (SKIP : (forall c, ex_rhs p <> [X_lit c]) -> (forall n, ex_rhs p <> [X_NT n]) -> ((forall t, In t s <-> In t result \/ exists p, In p ps /\ (ex_rhs p = [X_lit t] \/ exists n s, ex_rhs p = [X_NT n] /\ words prods fuel n = Ok s /\ In t s)) /\ forall p n, In p ps -> ex_rhs p = [X_NT n] -> exists s, words prods fuel n = Ok s) -> (forall t, In t s <-> In t result \/ exists q, In q (p :: ps) /\ (ex_rhs q = [X_lit t] \/ exists n s, ex_rhs q = [X_NT n] /\ words prods fuel n = Ok s /\ In t s)) /\ forall q n, In q (p :: ps) -> ex_rhs q = [X_NT n] -> exists s, words prods fuel n = Ok s).
        { intros N1 N2 (A & B). split.
          - intros t. rewrite A. split; (intros [I|(q & Q & V)]; [now left|right; exists q]); [split; [now right|assumption]|]. destruct Q as [<-|Q]; [|now split]. exfalso. destruct V as [V|(n & r & V & _)]; [now apply (N1 t)|now apply (N2 n)].
          - intros q n [<-|Q] V; [now destruct (N2 n)|now apply (B q)]. }
        destruct (ex_rhs p) as [|[n|c|n|u|lo hi|c|b| |m tss] [|y l]] eqn:E; try discriminate; try (apply SKIP; [intros; congruence|intros; congruence|now apply IHp]).
        + destruct (words prods fuel n) as [r|] eqn:C; cbn [bind] in H; [|discriminate]. apply IHp in H. destruct H as (H & G). split.
          * intros t. rewrite H, in_app_iff. split.
            -- intros [[I|I]|(q & Q & V)]; [right; exists p; split; [now left|]; right; now exists n, r|now left|right; exists q; split; [now right|assumption]].
            -- intros [I|(q & [<-|Q] & V)]; [left; now right| |right; now exists q]. left. left. destruct V as [V|(a & b & V & V2 & V3)]; rewrite E in V; try discriminate. injection V as <-. congruence.
          * intros q n' [<-|Q] V; [|now apply (G q)]. rewrite E in V. injection V as <-. now exists r.
        + apply IHp in H. destruct H as (H & G). split.
          * intros t. rewrite H. cbn [In]. split.
            -- intros [[<-|I]|(q & Q & V)]; [right; exists p; split; [now left|]; now left|now left|right; exists q; split; [now right|assumption]].
            -- intros [I|(q & [<-|Q] & V)]; [left; now right| |right; now exists q]. left. left. destruct V as [V|(a & b & V & _)]; rewrite E in V; congruence.
          * intros q n' [<-|Q] V; [congruence|now apply (G q)]. }
    apply L in H. destruct H as (H & G). intros t. rewrite H. split.
    - intros [[]|(p & I & V)]. apply PS in I. destruct I as (I & <-). destruct V as [V|(n & r & V & C & R)].
      + now apply l_lit.
      + apply l_nt with n; try assumption. apply (IH n r C). assumption.
    - intros D. right. inversion D as [p c I V|p n u I V D']; subst; exists p; (split; [apply PS; now split|]).
      + now left.
      + right. destruct (G p n) as (r & C); [apply PS; now split|assumption|]. exists n, r. split; [assumption|]. split; [assumption|]. now apply (IH n r C).
  Qed.
End Sets.

Lemma any_true {A} (f : A -> res bool) l : any_ f l = Ok true -> exists x, In x l /\ f x = Ok true.
Proof.
  induction l as [|x l IH]; cbn [any_]; [discriminate|]. destruct (f x) as [[|]|] eqn:E; cbn [bind]; [|intros H; destruct (IH H) as (y & I & Y); exists y; split; [now right|assumption]|discriminate]. intros _. exists x. split; [now left|assumption].
Qed.
Lemma any_false {A} (f : A -> res bool) l : any_ f l = Ok false <-> forall x, In x l -> f x = Ok false.
Proof.
  induction l as [|x l IH]; cbn [any_]; [split; [intros _ x []|reflexivity]|]. destruct (f x) as [[|]|] eqn:E; cbn [bind].
  - split; [discriminate|]. intros H. specialize (H x (or_introl eq_refl)). congruence.
  - rewrite IH. split; intros H y I; [destruct I as [<-|I]; [assumption|now apply H]|apply H; now right].
  - split; [discriminate|]. intros H. specialize (H x (or_introl eq_refl)). congruence.
Qed.
Lemma any_iff {A} (f : A -> res bool) l (P : A -> Prop) : (forall x b, In x l -> f x = Ok b -> (b = true <-> P x)) -> forall b, any_ f l = Ok b -> (b = true <-> exists x, In x l /\ P x).
Proof.
  intros H [|] E.
  - split; [intros _|reflexivity]. apply any_true in E. destruct E as (x & I & X). exists x. split; [assumption|]. now apply (H x true).
  - split; [discriminate|]. intros (x & I & X). pose proof (proj1 (any_false f l) E x I) as F. now apply (H x false).
Qed.
Lemma any_total {A} (f : A -> res bool) l : (forall x, In x l -> exists b, f x = Ok b) -> exists b, any_ f l = Ok b.
Proof.
  induction l as [|x l IH]; intros H; cbn [any_]; [now exists false|]. destruct (H x (or_introl eq_refl)) as (b & B). rewrite B. cbn [bind]. destruct b; [now exists true|]. apply IH. intros y I. apply H. now right.
Qed.

Lemma ok_inj {A} (a b : A) : Ok a = Ok b -> a = b.
Proof. congruence. Qed.

(* ---------- single characters ---------- *)
(* the Unicode properties, from the general category and the contributory properties *)
Definition letter (cat : text) : Prop := cat = tx "Lu" \/ cat = tx "Ll" \/ cat = tx "Lt" \/ cat = tx "Lm" \/ cat = tx "Lo" \/ cat = tx "Nl".
Definition mark (cat : text) : Prop := cat = tx "Mn" \/ cat = tx "Mc" \/ cat = tx "Nd" \/ cat = tx "Pc".
Definition Other_ID_Start (c : N) : Prop := (6277 <= c <= 6278 \/ c = 8472 \/ c = 8494 \/ 12443 <= c <= 12444)%N.
Definition Other_ID_Continue (c : N) : Prop := (c = 183 \/ c = 903 \/ 4969 <= c <= 4977 \/ c = 6618 \/ 8204 <= c <= 8205 \/ c = 12539 \/ c = 65381)%N.
Definition Pattern_White_Space (c : N) : Prop := (9 <= c <= 13 \/ c = 32 \/ c = 133 \/ 8206 <= c <= 8207 \/ 8232 <= c <= 8233)%N.
Definition Pattern_Syntax (c : N) : Prop :=
  (33 <= c <= 47 \/ 58 <= c <= 64 \/ 91 <= c <= 94 \/ c = 96 \/ 123 <= c <= 126 \/ 161 <= c <= 167 \/ c = 169 \/ 171 <= c <= 172 \/ c = 174 \/ 176 <= c <= 177 \/ c = 182 \/ c = 187 \/ c = 191 \/ c = 215 \/ c = 247 \/
   8208 <= c <= 8231 \/ 8240 <= c <= 8254 \/ 8257 <= c <= 8275 \/ 8277 <= c <= 8286 \/ 8592 <= c <= 9311 \/ 9472 <= c <= 10101 \/ 10132 <= c <= 11263 \/ 11776 <= c <= 11903 \/ 12289 <= c <= 12291 \/ 12296 <= c <= 12320 \/ c = 12336 \/ 64830 <= c <= 64831 \/ 65093 <= c <= 65094)%N.
Section Props.
  Variable category : N -> text.
  Definition ID_Start (c : N) : Prop := (letter (category c) \/ Other_ID_Start c) /\ ~ Pattern_Syntax c /\ ~ Pattern_White_Space c.
  Definition ID_Continue (c : N) : Prop := (ID_Start c \/ mark (category c) \/ Other_ID_Continue c) /\ ~ Pattern_Syntax c /\ ~ Pattern_White_Space c.
  (* What the Unicode Character Database says of the characters of syntax: but for U+2E2F none of them is a letter or a mark. *)
  Definition ucd : Prop := forall c, Pattern_Syntax c \/ Pattern_White_Space c -> c <> 11823%N -> ~ letter (category c) /\ ~ mark (category c).

  Lemma cmem_iff c l : cmem c l = true <-> In c l.
  Proof. unfold cmem. rewrite existsb_exists. split; [intros (x & I & E); apply N.eqb_eq in E; now subst|intros I; exists c; split; [assumption|apply N.eqb_refl]]. Qed.
  Lemma tmem_iff c l : tmem c l = true <-> In c l.
  Proof. unfold tmem. rewrite existsb_exists. split; [intros (x & I & E); apply text_eqb_eq in E; now subst|intros I; exists c; split; [assumption|now apply text_eqb_eq]]. Qed.
  Lemma letters_iff t : tmem t letters = true <-> letter t.
  Proof. rewrite tmem_iff. unfold letters, letter. cbn [In]. intuition congruence. Qed.
  Lemma marks_iff t : tmem t marks = true <-> mark t.
  Proof. rewrite tmem_iff. unfold marks, mark. cbn [In]. intuition congruence. Qed.
  Lemma lm_iff t : tmem t (letters ++ marks) = true <-> letter t \/ mark t.
  Proof. rewrite <- letters_iff, <- marks_iff, !tmem_iff. apply in_app_iff. Qed.
  Lemma start_iff c : cmem c other_id_start = true <-> Other_ID_Start c.
  Proof. rewrite cmem_iff. unfold other_id_start, Other_ID_Start. cbn [In]. lia. Qed.
  Lemma continue_iff c : cmem c other_id_continue = true <-> Other_ID_Continue c.
  Proof. rewrite cmem_iff. unfold other_id_continue, Other_ID_Continue. cbn [In]. lia. Qed.
  Lemma ustart_iff c : cmem c ucp_other_id_start = true <-> Other_ID_Start c.
  Proof. rewrite cmem_iff. unfold ucp_other_id_start, Other_ID_Start. cbn [In]. lia. Qed.
  Lemma ucontinue_iff c : cmem c ucp_other_id_continue = true <-> Other_ID_Continue c.
  Proof. rewrite cmem_iff. unfold ucp_other_id_continue, Other_ID_Continue. cbn [In]. lia. Qed.
  Lemma white_iff c : cmem c pattern_white_space = true <-> Pattern_White_Space c.
  Proof. rewrite cmem_iff. unfold pattern_white_space, Pattern_White_Space. cbn [In]. lia. Qed.
  Lemma in_ranges_cons c lo hi rs : in_ranges c ((lo, hi) :: rs) = true <-> (lo <= c <= hi)%N \/ in_ranges c rs = true.
  Proof. unfold in_ranges. cbn [existsb fst snd]. rewrite orb_true_iff, andb_true_iff, !N.leb_le. tauto. Qed.
  Lemma in_ranges_nil c : in_ranges c [] = true <-> False.
  Proof. split; [discriminate|intros []]. Qed.
  Lemma syntax_iff c : in_ranges c pattern_syntax = true <-> Pattern_Syntax c.
  Proof.
    unfold pattern_syntax, Pattern_Syntax. rewrite !in_ranges_cons, in_ranges_nil. lia.
  Qed.
  Lemma neg_iff b P : (b = true <-> P) -> (negb b = true <-> ~ P).
  Proof. intros H. rewrite negb_true_iff, <- H. destruct b; split; congruence. Qed.
  Lemma id_start_iff c : id_start category c = true <-> ID_Start c.
  Proof. unfold id_start, ID_Start. rewrite !andb_true_iff, orb_true_iff, letters_iff, ustart_iff, (neg_iff _ _ (syntax_iff c)), (neg_iff _ _ (white_iff c)). tauto. Qed.
  Lemma id_continue_iff c : id_continue category c = true <-> ID_Continue c.
  Proof. unfold id_continue, ID_Continue. rewrite !andb_true_iff, !orb_true_iff, id_start_iff, marks_iff, ucontinue_iff, (neg_iff _ _ (syntax_iff c)), (neg_iff _ _ (white_iff c)). tauto. Qed.
  Lemma others_apart c : Other_ID_Start c \/ Other_ID_Continue c -> ~ Pattern_Syntax c /\ ~ Pattern_White_Space c.
  Proof. unfold Other_ID_Start, Other_ID_Continue, Pattern_Syntax, Pattern_White_Space. lia. Qed.
  Lemma tilde_syntax : Pattern_Syntax 11823. Proof. unfold Pattern_Syntax. lia. Qed.

  Variable sets : text -> text -> Prop.      (* the texts of the sets of characters *)
  (* the characters that a symbol stands for *)
  Inductive stands_for : rsym -> N -> Prop :=
  | sf_lit c : stands_for (RLit [c]) c
  | sf_named n c : named_char n c -> stands_for (RNamed n) c
  | sf_space c : category c = tx "Zs" -> stands_for (RNamed (tx "USP")) c
  | sf_range lo hi c : (lo <= c)%N -> (c <= hi)%N -> stands_for (RRange lo hi) c
  | sf_start c : ID_Start c -> stands_for (RProp (tx "ID_Start")) c
  | sf_tilde : letter (category 11823) -> stands_for (RProp (tx "ID_Start")) 11823      (* not of the property *)
  | sf_continue c : ID_Continue c -> stands_for (RProp (tx "ID_Continue")) c
  | sf_set n c : sets n [c] -> stands_for (RNT n) c.
  (* the symbols about which it can be asked *)
  Inductive askable (names : list text) : rsym -> Prop :=
  | ask_lit c : askable names (RLit [c])
  | ask_named n c : named_char n c -> askable names (RNamed n)
  | ask_space : askable names (RNamed (tx "USP"))
  | ask_goal : askable names (RNamed (tx "_ACCEPTANCE_"))
  | ask_range lo hi : askable names (RRange lo hi)
  | ask_start : askable names (RProp (tx "ID_Start"))
  | ask_continue : askable names (RProp (tx "ID_Continue"))
  | ask_set n : In n names -> askable names (RNT n).

  Variable char_set_ : list (text * list text).
  Variable names : list text.
  Hypothesis known : forall n, (exists s, assoc n char_set_ = Some s) <-> In n names.
  Hypothesis exact : forall n s t, assoc n char_set_ = Some s -> (In t s <-> sets n t).
  Lemma sym_total r c : (exists b, sym_matches category char_set_ r c = Ok b) <-> askable names r.
  Proof.
    split.
    - intros (b & H). destruct r as [s|n|lo hi|p|n|]; cbn [sym_matches] in H.
      + destruct s as [|d [|e s]]; try discriminate. constructor.
      + destruct (text_eqb n (tx "_ACCEPTANCE_")) eqn:E1; [apply text_eqb_eq in E1; subst; constructor|]. destruct (text_eqb n (tx "USP")) eqn:E2; [apply text_eqb_eq in E2; subst; constructor|]. destruct (named n) as [d|] eqn:N; [|discriminate]. apply named_iff in N. now apply ask_named with d.
      + constructor.
      + destruct (text_eqb p (tx "ID_Start")) eqn:E1; [apply text_eqb_eq in E1; subst; constructor|]. destruct (text_eqb p (tx "ID_Continue")) eqn:E2; [apply text_eqb_eq in E2; subst; constructor|]. discriminate.
      + destruct (assoc n char_set_) as [s|] eqn:A; [|discriminate]. constructor. apply known. now exists s.
      + discriminate.
    - intros A. destruct A as [d|n d N| | |lo hi| | |n I]; cbn [sym_matches]; try (eexists; reflexivity).
      + destruct (text_eqb n (tx "_ACCEPTANCE_")); [now exists false|]. destruct (text_eqb n (tx "USP")); [eexists; reflexivity|]. apply named_iff in N. rewrite N. eexists. reflexivity.
      + apply known in I. destruct I as (s & S). rewrite S. eexists. reflexivity.
  Qed.
  Lemma sym_exact r c b : ucd -> sym_matches category char_set_ r c = Ok b -> (b = true <-> stands_for r c).
  Proof.
    intros U H. destruct r as [s|n|lo hi|p|n|]; cbn [sym_matches] in H.
    - destruct s as [|d [|e s]]; try discriminate. injection H as <-. rewrite N.eqb_eq. split; [intros ->; constructor|]. intros S. inversion S. reflexivity.
    - destruct (text_eqb n (tx "_ACCEPTANCE_")) eqn:E1.
      { injection H as <-. apply text_eqb_eq in E1. subst. split; [discriminate|]. intros S. inversion S as [|? ? N| | | | | |]. inversion N. }
      destruct (text_eqb n (tx "USP")) eqn:E2.
      { injection H as <-. apply text_eqb_eq in E2. subst. rewrite text_eqb_eq. split; [apply sf_space|]. intros S. inversion S as [|? ? N|? C| | | | |]; [inversion N|assumption]. }
      destruct (named n) as [d|] eqn:N; cbn [bind] in H; [|discriminate]. injection H as <-. apply named_iff in N. rewrite N.eqb_eq. split; [intros ->; now apply sf_named|]. intros S. inversion S as [|? ? N'|? C| | | | |].
      + apply named_iff in N, N'. congruence.
      + subst n. vm_compute in E2. discriminate.
    - injection H as <-. rewrite andb_true_iff, !N.leb_le. split; [intros (A & B); now constructor|]. intros S. inversion S. tauto.
    - destruct (text_eqb p (tx "ID_Start")) eqn:E1.
      { apply text_eqb_eq in E1. subst p. apply ok_inj in H. subst b. rewrite orb_true_iff, letters_iff, start_iff. split.
        - intros S. destruct (N.eq_dec c 11823) as [->|NE].
          + destruct S as [S|S]; [now apply sf_tilde|]. destruct (others_apart 11823 (or_introl S)) as (Q & _). destruct Q. apply tilde_syntax.
          + apply sf_start. split; [assumption|]. destruct S as [S|S]; [|apply others_apart; now left]. split; intros Q; destruct (U c) as (L & _); tauto.
        - intros S. inversion S as [| | | |? (I & _)|L| |]; subst; [assumption|now left]. }
      destruct (text_eqb p (tx "ID_Continue")) eqn:E2; [|discriminate]. apply text_eqb_eq in E2. subst p. apply ok_inj in H. subst b. rewrite andb_true_iff, !orb_true_iff, lm_iff, start_iff, continue_iff, negb_true_iff, N.eqb_neq. split.
      + intros (S & NE). apply sf_continue. assert (A : ~ Pattern_Syntax c /\ ~ Pattern_White_Space c).
        { destruct S as [[[L|M]|S]|S]; try (apply others_apart; tauto); split; intros Q; destruct (U c) as (L' & M'); tauto. }
        split; [|exact A]. unfold ID_Start. tauto.
      + intros S. inversion S as [| | | | | |? (D & A & B)|]; subst. split.
        * unfold ID_Start in D. tauto.
        * intros ->. apply A. apply tilde_syntax.
    - destruct (assoc n char_set_) as [s|] eqn:A; [|discriminate]. injection H as <-. rewrite tmem_iff, (exact n s [c] A). split; [apply sf_set|]. intros S. now inversion S.
    - discriminate.
  Qed.
End Props.
