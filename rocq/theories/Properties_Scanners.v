(* Properties C06-C08: Tokenizer.py, NodeGrammar.py, mynamedtuple.py. *)
From Verif Require Import M_Base M_Tokenizer L_Tokenizer M_NodeGrammar L_NodeGrammar M_NamedTuple L_NamedTuple.

(* ---------------- C06 ---------------- *)

(* success: the lexemes tile the line, each the unique longest; tokens and counters follow *)
Theorem C06_tokenize_sound : forall (Tok : Type) fuel (specs : list (@tspec Tok)) line cs toks cs',
  within specs line -> tokenize fuel specs line cs = Ok (toks, cs') ->
  exists l, lexes specs line 0 l (length line) /\ concat (pieces line 0 l) = line /\
    toks = responses specs line 0 l /\
    (forall i, nth_error cs' i = match nth_error cs i with Some c => Some (c + uses l i) | None => None end).
Proof. exact @tokenize_sound. Qed.
Print Assumptions C06_tokenize_sound.

Theorem C06_longest_unique : forall (Tok : Type) (specs : list (@tspec Tok)) line off i n i' n',
  longest specs line off i n -> longest specs line off i' n' -> i = i' /\ n = n'.
Proof. exact @longest_fun. Qed.
Print Assumptions C06_longest_unique.

(* a tiling by unique longest matches is found *)
Theorem C06_tokenize_complete : forall (Tok : Type) fuel (specs : list (@tspec Tok)) line l off off',
  lexes specs line off l off' -> length line <= off' -> forall cs acc, length l < fuel ->
  exists cs', tok_loop fuel specs line off cs acc = Ok (acc ++ responses specs line off l, cs').
Proof. exact @tok_loop_complete. Qed.
Print Assumptions C06_tokenize_complete.

(* a failure is a TokenizationError at a reached offset without unique longest match, and conversely *)
Theorem C06_tokenize_error : forall (Tok : Type) fuel (specs : list (@tspec Tok)) line off cs acc e,
  tok_loop fuel specs line off cs acc = Err e -> e <> OutOfFuel ->
  e = UserError /\ exists l off', lexes specs line off l off' /\ off' < length line /\
     (forall i n, ~ longest specs line off' i n).
Proof. exact @tok_loop_err. Qed.
Print Assumptions C06_tokenize_error.

Theorem C06_tokenize_error_complete : forall (Tok : Type) fuel (specs : list (@tspec Tok)) line l off off',
  lexes specs line off l off' -> off' < length line -> (forall i n, ~ longest specs line off' i n) ->
  forall cs acc, length l < fuel -> tok_loop fuel specs line off cs acc = Err UserError.
Proof. exact @tok_loop_stuck. Qed.
Print Assumptions C06_tokenize_error_complete.

Theorem C06_tokenize_terminates : forall (Tok : Type) (specs : list (@tspec Tok)) line,
  (forall s off, In s specs -> ts_match s line off <> Some 0) ->
  forall fuel off cs acc, length line < off + fuel -> 0 < fuel ->
  tok_loop fuel specs line off cs acc <> Err OutOfFuel.
Proof. exact @tok_loop_terminates. Qed.
Print Assumptions C06_tokenize_terminates.

Theorem C06_tokenize_empty_match_loops_refuted : exists (specs : list (@tspec unit)) line,
  within specs line /\ forall fuel cs, tokenize fuel specs line cs = Err OutOfFuel.
Proof. exact tokenize_loops_refuted. Qed.
Print Assumptions C06_tokenize_empty_match_loops_refuted.

(* patterns: "a", "aa", " " (skipped) *)
Definition lit (p : text) (line : text) (off : nat) : option nat :=
  if text_eqb (slice off (off + length p) line) p then Some (length p) else None.
Definition ex_specs : list (@tspec nat) :=
  [mkTS (lit [97]%N) (Some (fun _ off _ => 10 + off)); mkTS (lit [97;97]%N) (Some (fun _ off _ => 20 + off));
   mkTS (lit [32]%N) None].
Example C06_case : within ex_specs [97;97;32;97]%N /\
  tokenize 9 ex_specs [97;97;32;97]%N [0;0;0] = Ok ([20; 13], [1;1;1]) /\
  tokenize 9 ex_specs [97;98]%N [0;0;0] = Err UserError /\
  (forall s off, In s ex_specs -> ts_match s [97;97;32;97]%N off <> Some 0).
Proof.
  repeat split; try reflexivity.
  - assert (forall p : text, p <> [] -> forall off n, lit p [97;97;32;97]%N off = Some n -> off + n <= 4) as H.
    { intros p Hp off n. unfold lit. destruct (text_eqb _ p) eqn:E; [|discriminate].
      intros H; inversion H; subst. apply L_Base.text_eqb_eq in E.
      apply (f_equal (@length N)) in E. unfold slice in E. rewrite firstn_length, skipn_length in E.
      change (length [97;97;32;97]%N) with 4 in E. destruct p; [congruence|]. cbn [length] in *. lia. }
    intros s off n [<-|[<-|[<-|[]]]] Hm; cbn [ts_match] in Hm; revert Hm; apply H; discriminate.
  - assert (forall p : text, p <> [] -> forall off, lit p [97;97;32;97]%N off <> Some 0) as H.
    { intros p Hp off. unfold lit. destruct (text_eqb _ p); [|discriminate]. destruct p; [congruence|]. discriminate. }
    intros s off [<-|[<-|[<-|[]]]]; cbn [ts_match]; apply H; discriminate.
Qed.

(* ---------------- C07 ---------------- *)

(* the style of passing arguments: plain arguments for syntax-directed operations, early errors and changes, the section first for the others *)
Definition style_of (k : section_kind) (style : nat) : Prop :=
  (In k [SK_sdo; SK_early_errors; SK_changes] /\ style = 1) \/ (In k [SK_CallConstruct; SK_function_property; SK_accessor_property; SK_other_property] /\ style = 2).
Lemma style_of_ok k style : style_of k style -> arguments_style k = Ok style.
Proof. intros [[H ->]|[H ->]]; cbn in H; intuition (subst; reflexivity). Qed.
Theorem C07_scan_outcome : forall (R : Type) fuel (us : list (@unit_ R)) k style hnodes,
  no_fuel_proc us -> style_of k style ->
  snd (scan_section fuel us k hnodes) <> Err OutOfFuel ->
  outcome us style hnodes [] (scan_section fuel us k hnodes).
Proof. intros R fuel us k style hnodes N S. apply scan_section_outcome_any; [exact N|now apply style_of_ok]. Qed.
Print Assumptions C07_scan_outcome.

Theorem C07_scan_terminates : forall (R : Type) fuel (us : list (@unit_ R)) k style hnodes,
  no_fuel_proc us -> style_of k style ->
  (forall u, In u us -> u_pattern u <> []) -> length hnodes < fuel ->
  outcome us style hnodes [] (scan_section fuel us k hnodes).
Proof. intros R fuel us k style hnodes N S. apply scan_section_outcome; [exact N|now apply style_of_ok]. Qed.
Print Assumptions C07_scan_terminates.

(* a section of another kind cannot be scanned *)
Theorem C07_other_kinds : forall (R : Type) fuel (us : list (@unit_ R)) name hnodes, scan_section fuel us (SK_other name) hnodes = ([], Err AssertionError).
Proof. reflexivity. Qed.
Print Assumptions C07_other_kinds.

Theorem C07_scan_partition : forall (R : Type) (us : list (@unit_ R)) style hnodes es rs rest,
  scanned us style hnodes es rs rest ->
  exists runs : list (nat * list node), hnodes = concat (map snd runs) ++ rest /\
    Forall (fun r => exists u, nth_error us (fst r) = Some u /\ Forall2 accepts (u_pattern u) (snd r)) runs.
Proof. exact @scanned_partition. Qed.
Print Assumptions C07_scan_partition.

Theorem C07_scan_empty_pattern_loops_refuted : forall (R : Type) (k : section_kind) style (hnodes : list node),
  style_of k style -> hnodes <> [] ->
  forall fuel, snd (scan_section (R:=R) fuel [mkUnit [] PNone] k hnodes) = Err OutOfFuel.
Proof. intros R k style hnodes S. apply (scan_empty_pattern_loops R k style). now apply style_of_ok. Qed.
Print Assumptions C07_scan_empty_pattern_loops_refuted.

Definition ex_p : node := mkNode [112]%N [120]%N 5.
Definition ex_ul : node := mkNode [117;108]%N [121]%N 9.
Definition ex_units : list (@unit_ nat) :=
  [mkUnit [AName [112]%N; AName [117;108]%N] (PCall (fun args => Ok (ROne (length args))));
   mkUnit [ARegex [112]%N (fun t => Some [t])] (PCall (fun args => Ok (RList [7; length args])))].
Example C07_case :
  scan_section 9 ex_units SK_sdo [ex_p; ex_ul; ex_p] =
    ([EMatch 0; ECall 0 [ArgNode ex_p; ArgNode ex_ul]; EMatch 1; ECall 1 [ArgText [120]%N]], Ok [2; 7; 1]) /\
  scan_section 9 ex_units SK_other_property [ex_p; ex_ul; ex_ul] =
    ([EMatch 0; ECall 0 [ArgSection; ArgNode ex_p; ArgNode ex_ul]; EMsg 9], Ok []) /\
  no_fuel_proc ex_units /\ (forall u, In u ex_units -> u_pattern u <> []).
Proof.
  split; [reflexivity|]. split; [reflexivity|]. split.
  - intros u f args [<-|[<-|[]]] H; inversion H; discriminate.
  - intros u [<-|[<-|[]]]; discriminate.
Qed.

(* ---------------- C08 ---------------- *)

Theorem C08_different_types : forall (V : Type) (veq : V -> V -> bool) (vlt : V -> V -> res bool) (inj : text -> V)
  tt1 tt2 (a1 a2 : list V) t1 t2,
  construct tt1 a1 = Ok t1 -> construct tt2 a2 = Ok t2 -> tt_name tt1 <> tt_name tt2 ->
  tup_eq veq inj t1 t2 = false /\
  exists b, tup_lt veq vlt inj t1 t2 = Ok b /\ (b = true <-> name_lt (tt_name tt1) (tt_name tt2)).
Proof. exact @nt_diff_types. Qed.
Print Assumptions C08_different_types.

Theorem C08_same_type : forall (V : Type) (veq : V -> V -> bool) (inj : text -> V) tt (a1 a2 : list V) t1 t2,
  construct tt a1 = Ok t1 -> construct tt a2 = Ok t2 ->
  (tup_eq veq inj t1 t2 = true <-> Forall2 (fun x y => veq x y = true) a1 a2).
Proof. exact @nt_same_type. Qed.
Print Assumptions C08_same_type.

Theorem C08_accessors : forall (V : Type) name fields tt (args : list V) t k f v,
  declare name fields = Ok tt -> construct tt args = Ok t ->
  nth_error fields k = Some f -> nth_error args k = Some v ->
  get_attr tt t f = Ok (EVal v).
Proof. exact @nt_accessor. Qed.
Print Assumptions C08_accessors.

Theorem C08_type_name : forall (V : Type) name fields tt (args : list V) t,
  declare name fields = Ok tt -> construct tt args = Ok t -> ~ In name_T fields ->
  get_attr tt t name_T = Ok (ETag name).
Proof. exact @nt_tag. Qed.
Print Assumptions C08_type_name.

(* items() gives the type name and then each field with its value *)
Theorem C08_items : forall (V : Type) name fields tt (args : list V) t,
  declare name fields = Ok tt -> construct tt args = Ok t -> ~ In name_T fields ->
  items tt t = (name_T, Ok (ETag name)) :: combine fields (map (fun v => Ok (EVal v)) args).
Proof.
  intros V name fields tt args t D C N. assert (F : tt_fields tt = fields) by (unfold declare in D; destruct (has_dup _); [discriminate|]; now injection D as <-).
  assert (L : length args = length fields) by (unfold construct in C; rewrite F in C; destruct (Nat.eqb_spec (length args) (length fields)); [auto|discriminate]).
  unfold items, afield_names. cbn [map]. rewrite (nt_tag _ _ _ _ _ D C N). f_equal. rewrite F.
  assert (A : forall k f v, nth_error fields k = Some f -> nth_error args k = Some v -> get_attr tt t f = Ok (EVal v)) by (intros; eapply nt_accessor; eassumption).
  clear -A L. revert args L A. induction fields as [|f fields IH]; intros [|v args] L A; try discriminate; [reflexivity|]. cbn. rewrite (A 0 f v eq_refl eq_refl). f_equal. apply IH; [now injection L|]. intros k g w H1 H2. apply (A (S k)); assumption.
Qed.
Print Assumptions C08_items.

Theorem C08_type_name_hidden_refuted : forall (V : Type) (v : V), exists name fields tt t,
  declare name fields = Ok tt /\ construct tt [v] = Ok t /\ get_attr tt t name_T = Ok (EVal v).
Proof. exact @nt_tag_hidden_refuted. Qed.
Print Assumptions C08_type_name_hidden_refuted.

Theorem C08_wrong_arity : forall (V : Type) tt (args : list V),
  length args <> length (tt_fields tt) -> construct tt args = Err TypeError.
Proof. exact @nt_wrong_arity. Qed.
Print Assumptions C08_wrong_arity.

Definition ex_A := mkTT [65]%N [[120]%N; [121]%N].
Definition ex_B := mkTT [66]%N [[120]%N].
Example C08_case : declare [65]%N [[120]%N; [121]%N] = Ok ex_A /\
  construct ex_A [1; 2] = Ok [ETag [65]%N; EVal 1; EVal 2] /\
  construct ex_B [1] = Ok [ETag [66]%N; EVal 1] /\
  items ex_A [ETag [65]%N; EVal 1; EVal 2] = [(name_T, Ok (ETag [65]%N)); ([120]%N, Ok (EVal 1)); ([121]%N, Ok (EVal 2))] /\
  (* comparable although the values are not *)
  tup_lt Nat.eqb (fun _ _ => Err TypeError) (fun _ => 0) [ETag [65]%N; EVal 1; EVal 2] [ETag [66]%N; EVal 1] = Ok true /\
  declare [65]%N [[120]%N; [120]%N] = Err UserError.
Proof. repeat split. Qed.
