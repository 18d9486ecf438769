(* C28, C29, C30: what the Earley parser returns. *)
From Verif Require Import M_Base M_Earley L_Earley L_EarleyMain L_EarleyParse L_EarleyTerm L_EarleyLex L_EarleyTrace L_EarleyReplay L_EarleyHalt.

(* the two final terminals occur in no production of the grammar *)
Definition no_final (prods : list prod) : Prop := forall p, In p prods -> ~ In (TM 0) (rhs p) /\ ~ In (TM 1) (rhs p).
(* every nonterminal used has productions *)
Definition defined (prods : list prod) (goal : nat) : Prop :=
  (forall p a, In p prods -> In (NT a) (rhs p) -> exists q, In q prods /\ lhs q = a) /\ (exists q, In q prods /\ lhs q = goal).

(* C28. For every grammar and every source of terminals, with a state of any kind (a place is a text position, tpos, with such a state): the tree
   returned is a derivation from the goal over the terminals that the source has returned one call after the other (ps: the places at which
   the source was asked, rs: its answers), with every constraint satisfied
   at its position, and its leaves are these terminals in order; when all of the input has to be consumed, the next terminal is the end. *)
Theorem C28_sound : forall (place : Type) prods (check : option tree -> place -> nat -> res bool) all goal START tpos gnti kludge n f start t, no_final prods ->
  parse prods check all goal START tpos gnti kludge n f start = Ok t ->
  exists (ps : list place) (rs : list (list (nat * nat))) j,
    nth_error ps 0 = Some start /\ length ps = S (length rs) /\
    (forall k ra, nth_error rs k = Some ra -> exists p p' exp kl, nth_error ps k = Some p /\ nth_error ps (S k) = Some p' /\ tpos p <= tpos p' /\ gnti p exp kl = Ok (Some (ra, p'))) /\
    der prods (fun k u l => exists ra, nth_error rs k = Some ra /\ In (u, l) ra) (fun k prev c => exists p, nth_error ps k = Some p /\ check prev p c = Ok true) 0 goal t j /\
    length (leaves t) = j /\
    (forall k x, nth_error (leaves t) k = Some x -> exists ra, nth_error rs k = Some ra /\ In x ra) /\
    (all = true -> exists l, nth_error rs j = Some [(0, l)]).
Proof.
  intros place prods check all goal START tpos gnti kludge n f start t NF H. destruct (parse_trace prods check all goal START tpos gnti kludge NF n f start t H) as (ps & rs & j & [C1 C2] & P0 & LJ & D & E).
  exists ps, rs, j. repeat (split; [assumption|]). destruct (proj1 (der_leaves _ _ _) _ _ _ _ D) as [L1 L2]. rewrite Nat.sub_0_r in L1. split; [exact L1|]. split; [|exact E].
  intros k [u l] N. exact (L2 k (u, l) N).
Qed.
Print Assumptions C28_sound.

(* the same for text: terminal u matches the character at start + k, and a constraint holds where it stands *)
Theorem C28_text : forall prods check goal START matches text n f start t, no_final prods ->
  parse prods check false goal START (fun p => p) (lexical_gnti matches text) (fun _ => Ok None) n f start = Ok t ->
  exists j, der prods (fun k u l => l = start + k /\ exists c, nth_error text (start + k) = Some c /\ matches u c = true) (fun k prev c => check prev (start + k) c = Ok true) 0 goal t j /\
    length (leaves t) = j /\
    forall k u l, nth_error (leaves t) k = Some (u, l) -> l = start + k /\ exists c, nth_error text (start + k) = Some c /\ matches u c = true.
Proof.
  intros prods check goal START matches text n f start t NF H. destruct (parse_trace _ _ _ _ _ _ _ _ NF n f start t H) as (ps & rs & j & [C1 C2] & P0 & LJ & D & E).
  assert (G : forall p exp kl ra p', lexical_gnti matches text p exp kl = Ok (Some (ra, p')) -> p' = S p /\ forall u l, In (u, l) ra -> l = p /\ exists c, nth_error text p = Some c /\ matches u c = true).
  { intros p exp kl ra p'. unfold lexical_gnti. destruct kl; cbn [assert_ bind]; [discriminate|]. destruct (length text <? p); [discriminate|]. destruct (nth_error text p) as [c|]; [|discriminate].
    destruct (filter (fun r => matches r c) exp) as [|x xs] eqn:F; [discriminate|]. rewrite <- F. intros Q. injection Q as <- <-. split; [auto|]. intros u l I. apply in_map_iff in I as (r & Q & I). injection Q as -> <-.
    apply filter_In in I as [_ M]. eauto. }
  assert (P : forall k p, nth_error ps k = Some p -> p = start + k).
  { induction k as [|k IH]; intros p N; [rewrite N in P0; injection P0 as ->; lia|]. assert (k < length rs) by (assert (S k < length ps) by (apply nth_error_Some; congruence); lia).
    destruct (nth_error rs k) as [ra|] eqn:R; [|apply nth_error_None in R; lia]. destruct (C2 k ra R) as (q & q' & exp & kl & N1 & N2 & _ & GN). apply G in GN as [-> _]. rewrite N in N2. injection N2 as ->. rewrite (IH _ N1). lia. }
  assert (T : forall k u l, returned rs k u l -> l = start + k /\ exists c, nth_error text (start + k) = Some c /\ matches u c = true).
  { intros k u l (ra & R & I). destruct (C2 k ra R) as (q & q' & exp & kl & N1 & N2 & _ & GN). apply G in GN as [_ GN]. specialize (GN _ _ I). rewrite (P _ _ N1) in GN. exact GN. }
  exists j. split; [eapply der_mono; [| |exact D]; [exact T|]|].
  - intros k prev c (p & N & C). rewrite (P _ _ N) in C. exact C.
  - destruct (proj1 (der_leaves _ _ _) _ _ _ _ D) as [L1 L2]. rewrite Nat.sub_0_r in L1. split; [exact L1|]. intros k u l N. apply T. exact (L2 k (u, l) N).
Qed.
Print Assumptions C28_text.

(* C29, C30. For text, whatever the fuel: an error means that no prefix has a derivation; a tree returned is a derivation of a prefix, and no longer
   prefix has one. *)
Theorem C30_longest : forall prods check goal START matches text start, no_final prods -> defined prods goal ->
  (forall c, matches 1 c = false) -> (forall prev p c, exists b, check prev p c = Ok b) -> start <= length text ->
  forall n f, match parse prods check false goal START (fun p => p) (lexical_gnti matches text) (fun _ => Ok None) n f start with
  | Ok t => exists j, der prods (char_at matches text start) (holds_at check start) 0 goal t j /\ forall t' j', der prods (char_at matches text start) (holds_at check start) 0 goal t' j' -> j' <= j
  | Err e => e = OutOfFuel \/ (e = UserError /\ forall t j, ~ der prods (char_at matches text start) (holds_at check start) 0 goal t j)
  end.
Proof.
  intros prods check goal START matches text start NF [D1 D2] HA HC HS n f. pose proof (parse_text_ok prods check goal START matches text start NF HA HC D1 D2 HS n f) as H. cbv beta in H.
  destruct (parse _ _ _ _ _ _ _ _ _ _) as [t|e]; [apply H|tauto].
Qed.
Print Assumptions C30_longest.

(* when no symbol derives itself, the parser comes to an end: with a tree exactly if some prefix has a derivation, and otherwise with ParseError *)
Theorem C29_complete : forall prods check goal START matches text start nul rank, no_final prods -> defined prods goal ->
  (forall c, matches 1 c = false) -> (forall prev p c, exists b, check prev p c = Ok b) -> start <= length text -> acyclic prods nul rank ->
  exists N r, (forall n f, N <= n -> N <= f -> parse prods check false goal START (fun p => p) (lexical_gnti matches text) (fun _ => Ok None) n f start = r) /\
    ((exists t, r = Ok t /\ exists j, der prods (char_at matches text start) (holds_at check start) 0 goal t j) \/
     (r = Err UserError /\ forall t j, ~ der prods (char_at matches text start) (holds_at check start) 0 goal t j)).
Proof.
  intros prods check goal START matches text start nul rank NF [D1 D2] HA HC HS AC.
  destruct (parse_text_halts prods check goal START matches text start HC HS) as (N & r & NE & H).
  { intros i a j. apply (acyclic_finite prods _ _ nul rank AC (char_finite matches text start) (S (j - i)) (S (rank a))); lia. }
  exists N, r. split; [exact H|]. pose proof (parse_text_ok prods check goal START matches text start NF HA HC D1 D2 HS N N) as P. cbv beta in *. rewrite (H N N) in P by auto.
  destruct r as [t|e]; [left; exists t; split; [auto|]; destruct P as [(j & D & _) _]; eauto|]. destruct P as [[-> P]|P]; [auto|congruence].
Qed.
Print Assumptions C29_complete.

(* for any source of terminals that does not depend on what is asked for: no syntax error is reported when there is a derivation of all of the input *)
Theorem C29_complete_all : forall (place : Type) prods (check : option tree -> place -> nat -> res bool) goal START tpos gnti kludge (posf : nat -> place) (tok : nat -> nat -> nat -> Prop) n f, no_final prods -> defined prods goal ->
  (forall k exp kl rats next, exp <> [] -> gnti (posf k) exp kl = Ok (Some (rats, next)) -> next = posf (S k) /\ tpos (posf k) <= tpos next /\ rats <> [] /\ forall t l, In (t, l) rats <-> In t exp /\ tok k t l) ->
  (forall k exp kl t l, exp <> [] -> gnti (posf k) exp kl = Ok None -> In t exp -> ~ tok k t l) ->
  (forall p exp kl, gnti p exp kl <> Err UserError) -> (forall prev p c, check prev p c <> Err UserError) -> (forall its, kludge its <> Err UserError) ->
  (exists t j l, der prods tok (fun k prev c => check prev (posf k) c = Ok true) 0 goal t j /\ tok j 0 l) ->
  parse prods check true goal START tpos gnti kludge n f (posf 0) <> Err UserError.
Proof.
  intros place prods check goal START tpos gnti kludge posf tok n f NF [D1 D2] T1 T2 G C K (t & j & l & D & TK) E.
  assert (T1' : forall k exp kl rats next, exp <> [] -> gnti (posf k) exp kl = Ok (Some (rats, next)) ->
    next = posf (S k) /\ tpos (posf k) <= tpos next /\ rats <> [] /\ (forall t l, In (t, l) rats -> In t exp /\ tok k t l) /\ (forall t l, In t exp -> tok k t l -> In (t, l) rats)).
  { intros k exp kl rats next NE GN. destruct (T1 k exp kl rats next NE GN) as (H1 & H2 & H3 & H4). split; [exact H1|]. split; [exact H2|]. split; [exact H3|]. split; intros u m; [apply H4|]. intros I1 I2. apply H4. auto. }
  pose proof (parse_ok prods check true goal START tpos gnti kludge posf tok NF T1' T2 n f) as P. rewrite E in P.
  destruct P as [[_ P]|[P|[(k & prev & c & P)|[(its & P)|[(k & exp & kl & its & _ & _ & P)|[(_ & p & a & IP & IA & P)|(P & _)]]]]]].
  - exact (P t j l D TK).
  - discriminate.
  - exact (C _ _ _ P).
  - exact (K _ P).
  - exact (G _ _ _ P).
  - destruct IP as [IP| ->].
    + destruct (D1 p a IP IA) as (q & IQ & LQ). exact (P q IQ LQ).
    + cbn in IA. destruct IA as [EA|[EA|[]]]; [|discriminate]. injection EA as <-. destruct D2 as (q & IQ & LQ). exact (P q IQ LQ).
  - discriminate.
Qed.
Print Assumptions C29_complete_all.

(* For any source of terminals, with a state of any kind, that answers with terminals among those it is asked for: when a syntax error is reported, the source has
   been asked at the places ps for the terminals in qs and answered with those in qs; then it was asked for the terminals in final and had none of them (or
   there were none to ask for). No derivation from the goal agrees with the answers and goes on with anything but a terminal in final. *)
Theorem C29_stream : forall (place : Type) prods (check : option tree -> place -> nat -> res bool) goal START tpos gnti kludge n f start, no_final prods -> defined prods goal ->
  (forall prev p c, check prev p c <> Err UserError) -> (forall its, kludge its <> Err UserError) ->
  (forall p exp kl rats next t l, gnti p exp kl = Ok (Some (rats, next)) -> In (t, l) rats -> In t exp) ->
  parse prods check true goal START tpos gnti kludge n f start = Err UserError ->
  exists (ps : list place) (qs : list (list nat * list (nat * nat))) final,
    nth_error ps 0 = Some start /\ length ps = S (length qs) /\
    (forall k e ra, nth_error qs k = Some (e, ra) -> exists p p' kl, nth_error ps k = Some p /\ nth_error ps (S k) = Some p' /\ gnti p e kl = Ok (Some (ra, p'))) /\
    (final = [] \/ exists p kl, nth_error ps (length qs) = Some p /\ (gnti p final kl = Ok None \/ gnti p final kl = Err UserError)) /\
    forall (tok : nat -> nat -> nat -> Prop) (hold : nat -> option tree -> nat -> Prop),
      (forall k e ra t l, nth_error qs k = Some (e, ra) -> tok k t l -> In t e -> In (t, l) ra) ->
      (forall t l, tok (length qs) t l -> ~ In t final) ->
      (forall k p prev c, nth_error ps k = Some p -> hold k prev c -> check prev p c = Ok true) ->
      ~ exists t j l, der prods tok hold 0 goal t j /\ tok j 0 l.
Proof.
  intros place prods check goal START tpos gnti kludge n f start NF DF HC HK HG H. destruct (parse_refused prods check goal START tpos gnti kludge NF DF HC HK HG n f start H) as (ps & qs & final & P0 & [A1 A2] & R & CM).
  exists ps, qs, final. repeat (split; [assumption|]). exact CM.
Qed.
Print Assumptions C29_stream.

(* ... and the parser comes to an end when no symbol derives itself and the source is used up by being asked *)
Theorem C29_halts : forall (place : Type) prods (check : option tree -> place -> nat -> res bool) all goal START tpos gnti kludge nul rank (P : place -> Prop) (left_over : place -> nat) start, acyclic prods nul rank ->
  P start -> (forall p exp kl ra p', P p -> gnti p exp kl = Ok (Some (ra, p')) -> P p' /\ left_over p' < left_over p) ->
  (forall prev p c, P p -> check prev p c <> Err OutOfFuel) -> (forall its, kludge its <> Err OutOfFuel) -> (forall p exp kl, P p -> gnti p exp kl <> Err OutOfFuel) ->
  exists N r, r <> Err OutOfFuel /\ forall n f, N <= n -> N <= f -> parse prods check all goal START tpos gnti kludge n f start = r.
Proof.
  intros place prods check all goal START tpos gnti kludge nul rank P left_over start AC HP HS HC HK HG.
  exact (parse_halts prods check all goal START tpos gnti kludge nul rank AC P left_over HS HC HK HG start HP).
Qed.
Print Assumptions C29_halts.

(* a source whose state is what is left of a list of terminals;  0 -> 0 2 | 3 *)
Definition ls_gnti (p : list nat) (exp : list nat) (kl : option nat) : res (option (list (nat * nat) * list nat)) :=
  let x := hd 0 p in if existsb (Nat.eqb x) exp then Ok (Some ([(x, length p)], tl p)) else Ok None.
Definition ls_parse (p : list nat) : res tree := parse [mkProd 0 [NT 0; TM 2] 0; mkProd 0 [TM 3] 1] (fun _ _ _ => Ok true) true 0 9 (fun _ => 0) ls_gnti (fun _ => Ok None) 20 200 p.
Example C29_stream_case : ls_parse [3; 2] = Ok (Node (mkProd 0 [NT 0; TM 2] 0) [Node (mkProd 0 [TM 3] 1) [Leaf 3 2]; Leaf 2 1]) /\ ls_parse [3; 2; 3] = Err UserError /\ ls_parse [] = Err UserError /\
  (forall p exp kl rats next t l, ls_gnti p exp kl = Ok (Some (rats, next)) -> In (t, l) rats -> In t exp).
Proof.
  split; [|split; [|split]]; try (vm_compute; reflexivity). intros p exp kl rats next t l H I. unfold ls_gnti in H. cbv zeta in H. destruct (existsb _ _) eqn:E; [|discriminate]. injection H as <- <-.
  apply existsb_exists in E as (y & IY & EY). apply Nat.eqb_eq in EY. destruct I as [Q|[]]. injection Q as <- _. congruence.
Qed.

(* when some prefix has infinitely many derivations, the parser does not come to an end *)
Theorem C29_cyclic_loops : forall prods check goal START matches text start j, no_final prods -> defined prods goal ->
  (forall c, matches 1 c = false) -> (forall prev p c, exists b, check prev p c = Ok b) -> start <= length text ->
  (forall trees, exists t, der prods (char_at matches text start) (holds_at check start) 0 goal t j /\ ~ In t trees) ->
  forall n f, parse prods check false goal START (fun p => p) (lexical_gnti matches text) (fun _ => Ok None) n f start = Err OutOfFuel.
Proof.
  intros prods check goal START matches text start j NF [D1 D2] HA HC HS INF n f. pose proof (parse_text_ok prods check goal START matches text start NF HA HC D1 D2 HS n f) as H. cbv beta in H.
  destruct (parse _ _ _ _ _ _ _ _ _ _) as [t|e].
  - destruct H as [_ H]. destruct (H j) as [trees T]. destruct (INF trees) as (t' & D & N). destruct (N (T t' D)).
  - destruct H as [[_ H]| ->]; [|reflexivity]. destruct (INF []) as (t' & D & _). destruct (H t' j D).
Qed.
Print Assumptions C29_cyclic_loops.

(* ---- a number, optionally signed, not followed by a letter:  0 -> 2 1 [no letter],  1 -> 1 digit | digit,  2 -> minus | empty ---- *)
Definition ex_prods : list prod :=
  [mkProd 0 [NT 2; NT 1; CN 7] 0; mkProd 1 [NT 1; TM 2] 1; mkProd 1 [TM 2] 2; mkProd 2 [TM 3] 3; mkProd 2 [] 4].
Definition ex_matches (t : nat) (c : N) : bool :=
  match t with 2 => ((48 <=? c) && (c <=? 57))%N | 3 => (c =? 45)%N | _ => false end.
Definition ex_text : text := [45; 49; 50; 51; 97]%N.  (* -123a *)
Definition ex_check (prev : option tree) (p c : nat) : res bool := Ok match nth_error ex_text p with Some x => negb (97 <=? x)%N | None => true end.
Definition ex_digits (l : list nat) : tree :=
  match l with
  | [] => Leaf 0 0
  | x :: l' => fold_left (fun t y => Node (mkProd 1 [NT 1; TM 2] 1) [t; Leaf 2 y]) l' (Node (mkProd 1 [TM 2] 2) [Leaf 2 x])
  end.
Definition ex_rank (a : nat) : nat := match a with 0 => 2 | 1 => 1 | _ => 0 end.
Example C28_case :
  (* 123 is followed by a letter, so 12 is the longest *)
  parse ex_prods ex_check false 0 9 (fun p => p) (lexical_gnti ex_matches ex_text) (fun _ => Ok None) 9 99 0 =
    Ok (Node (mkProd 0 [NT 2; NT 1; CN 7] 0) [Node (mkProd 2 [TM 3] 3) [Leaf 3 0]; ex_digits [1; 2]]) /\
  (* the empty sign *)
  parse ex_prods ex_check false 0 9 (fun p => p) (lexical_gnti ex_matches ex_text) (fun _ => Ok None) 9 99 2 =
    Ok (Node (mkProd 0 [NT 2; NT 1; CN 7] 0) [Node (mkProd 2 [] 4) []; ex_digits [2]]) /\
  parse ex_prods ex_check false 0 9 (fun p => p) (lexical_gnti ex_matches ex_text) (fun _ => Ok None) 9 99 3 = Err UserError /\
  parse ex_prods ex_check false 0 9 (fun p => p) (lexical_gnti ex_matches ex_text) (fun _ => Ok None) 9 99 4 = Err UserError /\
  leaves (Node (mkProd 0 [NT 2; NT 1; CN 7] 0) [Node (mkProd 2 [TM 3] 3) [Leaf 3 0]; ex_digits [1; 2]]) = [(3, 0); (2, 1); (2, 2)].
Proof. vm_compute. repeat split. Qed.
Example C29_case : no_final ex_prods /\ defined ex_prods 0 /\ (forall c, ex_matches 1 c = false) /\ (forall prev p c, exists b, ex_check prev p c = Ok b) /\
  acyclic ex_prods (fun a => a =? 2) ex_rank.
Proof.
  split; [|split; [|split; [|split; [|split]]]].
  - intros p H. cbn in H. intuition (subst; cbn in *; intuition discriminate).
  - split; [|exists (mkProd 0 [NT 2; NT 1; CN 7] 0); cbn; auto].
    intros p a H I. cbn in H. intuition (subst; cbn in I; intuition (try discriminate)).
    all: match goal with Q : NT _ = NT _ |- _ => injection Q as <- end.
    + exists (mkProd 2 [] 4). cbn. auto 8.
    + exists (mkProd 1 [TM 2] 2). cbn. auto 8.
    + exists (mkProd 1 [TM 2] 2). cbn. auto 8.
  - reflexivity.
  - intros. eexists. reflexivity.
  - intros p H V. cbn in H. intuition (subst; cbn in V |- *; try discriminate; reflexivity).
  - intros p l b r H E VL VR. cbn in H.
    repeat match goal with H : _ \/ _ |- _ => destruct H as [<-|H] | H : False |- _ => destruct H end; cbn in E;
      repeat first [discriminate | destruct l as [|? l]; cbn in E; inversion E; subst; clear E; cbn in VL, VR |- *; try discriminate; try lia |
        match goal with E : ?x = ?l ++ _ |- _ => is_var l; destruct l; cbn in E; inversion E; subst; clear E; cbn in VL, VR |- *; try discriminate; try lia end].
Qed.
(* C29_complete and C30_longest at this grammar: -123a has a derivation of 2 digits, and none of 3 *)
Example C30_case : exists j, der ex_prods (char_at ex_matches ex_text 0) (holds_at ex_check 0) 0 0 (Node (mkProd 0 [NT 2; NT 1; CN 7] 0) [Node (mkProd 2 [TM 3] 3) [Leaf 3 0]; ex_digits [1; 2]]) j /\
  forall t' j', der ex_prods (char_at ex_matches ex_text 0) (holds_at ex_check 0) 0 0 t' j' -> j' <= j.
Proof.
  pose proof (C30_longest ex_prods ex_check 0 9 ex_matches ex_text 0 (proj1 C29_case) (proj1 (proj2 C29_case)) (proj1 (proj2 (proj2 C29_case))) (proj1 (proj2 (proj2 (proj2 C29_case)))) (Nat.le_0_l _) 9 99) as H.
  rewrite (proj1 C28_case) in H. exact H.
Qed.

(* ---- all of the input, from a stream of terminals ending with the end:  0 -> ( 0 ) 0 | empty ---- *)
Definition st_prods : list prod := [mkProd 0 [TM 2; NT 0; TM 3; NT 0] 0; mkProd 0 [] 1].
Definition st_gnti (s : list nat) (p : nat) (exp : list nat) (kl : option nat) : res (option (list (nat * nat) * nat)) :=
  match nth_error s p with
  | None => Ok None
  | Some t => if existsb (Nat.eqb t) exp then Ok (Some ([(t, p)], S p)) else Ok None
  end.
Definition st_empty : tree := Node (mkProd 0 [] 1) [].
Definition st_pair (a : nat) (x : tree) (b : nat) (y : tree) : tree := Node (mkProd 0 [TM 2; NT 0; TM 3; NT 0] 0) [Leaf 2 a; x; Leaf 3 b; y].
Example C29_all_case : forall s, let check := fun (_ : option tree) (_ _ : nat) => Ok true in
  no_final st_prods /\ defined st_prods 0 /\
  (forall k exp kl rats next, exp <> [] -> st_gnti s k exp kl = Ok (Some (rats, next)) -> next = S k /\ k <= next /\ rats <> [] /\ forall t l, In (t, l) rats <-> In t exp /\ (nth_error s k = Some t /\ l = k)) /\
  (forall k exp kl t l, exp <> [] -> st_gnti s k exp kl = Ok None -> In t exp -> ~ (nth_error s k = Some t /\ l = k)) /\
  (forall p exp kl, st_gnti s p exp kl <> Err UserError).
Proof.
  intros s check. split; [|split; [|split; [|split]]].
  - intros p H. cbn in H. intuition (subst; cbn in *; intuition discriminate).
  - split; [|exists (mkProd 0 [] 1); cbn; auto]. intros p a H I. cbn in H. intuition (subst; cbn in I; intuition (try discriminate)).
    all: match goal with Q : NT _ = NT _ |- _ => injection Q as <- end; exists (mkProd 0 [] 1); cbn; auto.
  - intros k exp kl rats next _. unfold st_gnti. destruct (nth_error s k) as [u|] eqn:N; [|discriminate]. destruct (existsb (Nat.eqb u) exp) eqn:X; [|discriminate].
    intros Q. injection Q as <- <-. split; [auto|]. split; [auto|]. split; [discriminate|]. intros t l. split.
    + intros [Q|[]]. injection Q as <- <-. apply existsb_exists in X as (v & I & Q). apply Nat.eqb_eq in Q as <-. auto.
    + intros (I & Q & ->). injection Q as ->. now left.
  - intros k exp kl t l _. unfold st_gnti. intros G I [N ->]. rewrite N in G. destruct (existsb (Nat.eqb t) exp) eqn:X; [discriminate|].
    assert (existsb (Nat.eqb t) exp = true) by (apply existsb_exists; exists t; split; [auto|apply Nat.eqb_refl]). congruence.
  - intros p exp kl. unfold st_gnti. destruct (nth_error s p); [destruct (existsb _ _)|]; discriminate.
Qed.
Example C28_all_case : let check := fun (_ : option tree) (_ _ : nat) => Ok true in
  parse st_prods check true 0 9 (fun p => p) (st_gnti [2; 2; 3; 3; 2; 3; 0]) (fun _ => Ok None) 9 99 0 =
    Ok (st_pair 0 (st_pair 1 st_empty 2 st_empty) 3 (st_pair 4 st_empty 5 st_empty)) /\
  parse st_prods check true 0 9 (fun p => p) (st_gnti [2; 3; 3; 0]) (fun _ => Ok None) 9 99 0 = Err UserError /\
  parse st_prods check true 0 9 (fun p => p) (st_gnti [2; 3; 2; 0]) (fun _ => Ok None) 9 99 0 = Err UserError.
Proof. vm_compute. repeat split. Qed.

(* ---- a symbol that derives itself:  0 -> 0 | a ---- *)
Definition cy_prods : list prod := [mkProd 0 [NT 0] 0; mkProd 0 [TM 2] 1].
Definition cy_matches (t : nat) (c : N) : bool := match t with 2 => (c =? 97)%N | _ => false end.
Fixpoint cy_tree (n : nat) : tree := match n with 0 => Node (mkProd 0 [TM 2] 1) [Leaf 2 0] | S n => Node (mkProd 0 [NT 0] 0) [cy_tree n] end.
Fixpoint cy_depth (t : tree) : nat := match t with Node _ [t'] => S (cy_depth t') | _ => 0 end.
Example C29_cyclic_case : forall n f, parse cy_prods (fun _ _ _ => Ok true) false 0 9 (fun p => p) (lexical_gnti cy_matches [97%N]) (fun _ => Ok None) n f 0 = Err OutOfFuel.
Proof.
  apply (C29_cyclic_loops _ _ _ _ _ _ _ 1).
  - intros p H. cbn in H. intuition (subst; cbn in *; intuition discriminate).
  - split; [|exists (mkProd 0 [TM 2] 1); cbn; auto]. intros p a H I. cbn in H. intuition (subst; cbn in I; intuition (try discriminate)).
    all: match goal with Q : NT _ = NT _ |- _ => injection Q as <- end; exists (mkProd 0 [TM 2] 1); cbn; auto.
  - reflexivity.
  - intros. eexists. reflexivity.
  - cbn. lia.
  - intros trees. exists (cy_tree (S (list_max (map cy_depth trees)))). split.
    + generalize (S (list_max (map cy_depth trees))) as k. induction k as [|k IH]; cbn [cy_tree].
      * apply (der_node _ _ _ _ (mkProd 0 [TM 2] 1)); [cbn; auto|]. cbn. econstructor; [|constructor]. split; [reflexivity|]. exists 97%N. cbn. auto.
      * apply (der_node _ _ _ _ (mkProd 0 [NT 0] 0)); [cbn; auto|]. cbn. econstructor; [exact IH|constructor].
    + intros I. assert (D : forall k, k <= cy_depth (cy_tree k)) by (induction k as [|k IH]; [cbn; lia|change (S k <= S (cy_depth (cy_tree k))); lia]).
      pose proof (list_max_le (map cy_depth trees) (list_max (map cy_depth trees))) as [L _]. specialize (L (le_n _)). rewrite Forall_forall in L.
      specialize (L _ (in_map _ _ _ I)). specialize (D (S (list_max (map cy_depth trees)))). lia.
Qed.
