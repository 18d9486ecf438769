(* The collections of the front matter, read line by line. *)
From Coq Require Import Ascii String.
From Verif Require Import M_Base L_Base M_HTML M_Shared L_Entities M_Layout L_Layout M_Indent M_Refs M_Values L_ValLists M_Validate L_Validate L_ValTree L_ValRest M_Test262 L_Test262.
Open Scope list_scope.
Open Scope nat_scope.
Notation length := List.length.

Definition nonblank (l : line) : bool := match snd l with [] => false | _ => true end.
Lemma nonblank_iff l : nonblank l = true <-> ~ blank l. Proof. unfold nonblank, blank. destruct (snd l); split; intros H; try congruence; try discriminate. Qed.
Lemma nonblank_no l : nonblank l = false <-> blank l. Proof. unfold nonblank, blank. destruct (snd l); split; intros H; try congruence; discriminate. Qed.
Fixpoint cut (ind : nat) (ls : list line) : list line * list (line * list line) :=
  match ls with
  | [] => ([], [])
  | l :: r => let (p, cs) := cut ind r in if nonblank l && (fst l =? ind) then ([], (l, p) :: cs) else (l :: p, cs)
  end.
Fixpoint trimmed (t : list line) : list line :=
  match t with [] => [] | l :: t' => match trimmed t' with [] => if nonblank l then [l] else [] | u => l :: u end end.
Definition flat (cs : list (line * list line)) : list line := flat_map (fun c => fst c :: snd c) cs.
Definition okl (ind : nat) (l : line) : bool := negb (nonblank l) || (ind <=? fst l).

Lemma trimmed_spec t : exists blanks, t = trimmed t ++ blanks /\ Forall blank blanks /\ tight (trimmed t).
Proof.
  induction t as [|l t (bs & E & B & T)]; [exists []; repeat split; [constructor|now left]|]. cbn [trimmed]. destruct (trimmed t) as [|x u] eqn:R.
  - destruct (nonblank l) eqn:N; [exists bs; split; [cbn; now rewrite E|]; split; [assumption|]; right; exists [], l; split; [reflexivity|now apply nonblank_iff]|].
    exists (l :: bs). split; [cbn; now rewrite E|]. split; [constructor; [now apply nonblank_no|assumption]|now left].
  - exists bs. split; [cbn [app]; now rewrite E|]. split; [assumption|]. destruct T as [T|(u' & y & T & Y)]; [discriminate|]. right. exists (l :: u'), y. split; [now rewrite T|assumption].
Qed.
Lemma trimmed_blanks bs : Forall blank bs -> trimmed bs = [].
Proof. induction 1 as [|l bs B _ IH]; [reflexivity|]. cbn [trimmed]. rewrite IH. apply nonblank_no in B. now rewrite B. Qed.
Lemma trimmed_eq body bs : tight body -> Forall blank bs -> trimmed (body ++ bs) = body.
Proof.
  intros [->|(b' & l & -> & N)] B; [now apply trimmed_blanks|]. rewrite <- app_assoc. induction b' as [|x b' IH]; cbn [app trimmed].
  - rewrite trimmed_blanks by assumption. apply nonblank_iff in N. now rewrite N.
  - cbn [app] in IH. rewrite IH. destruct (b' ++ [l]) eqn:E; [now destruct b'|reflexivity].
Qed.

Definition chunk (ind : nat) (c : line * list line) : Prop := fst (fst c) = ind /\ ~ blank (fst c) /\ Forall (deeper ind) (snd c).
Lemma cut_spec ind ls : forallb (okl ind) ls = true -> ls = fst (cut ind ls) ++ flat (snd (cut ind ls)) /\ Forall (deeper ind) (fst (cut ind ls)) /\ Forall (chunk ind) (snd (cut ind ls)).
Proof.
  induction ls as [|l ls IH]; cbn [forallb cut]; intros H; [repeat split; constructor|]. apply andb_true_iff in H. destruct H as (O & H). destruct (IH H) as (E & D & C). destruct (cut ind ls) as (p, cs) eqn:CU. cbn [fst snd] in *.
  destruct (nonblank l) eqn:N; cbn [andb].
  - unfold okl in O. rewrite N in O. cbn [negb orb] in O. apply Nat.leb_le in O. destruct (Nat.eqb_spec (fst l) ind) as [EQ|NE]; cbn [fst snd].
    + split; [unfold flat; cbn; now rewrite E|]. split; [constructor|]. constructor; [|assumption]. split; [assumption|]. split; [now apply nonblank_iff|assumption].
    + split; [cbn; now rewrite E|]. split; [|assumption]. constructor; [|assumption]. right. lia.
  - cbn [fst snd]. split; [cbn; now rewrite E|]. split; [|assumption]. constructor; [|assumption]. left. now apply nonblank_no.
Qed.
Lemma cut_eq ind cs : Forall (chunk ind) cs -> cut ind (flat cs) = ([], cs) /\ forallb (okl ind) (flat cs) = true.
Proof.
  assert (P : forall p r q cs, Forall (deeper ind) p -> cut ind r = (q, cs) -> forallb (okl ind) r = true -> cut ind (p ++ r) = (p ++ q, cs) /\ forallb (okl ind) (p ++ r) = true).
  { intros p r q cs0 D C O. induction D as [|l p D _ (IH & IO)]; [now split|]. cbn [app cut forallb]. rewrite IH, IO. unfold okl. destruct D as [B|L].
    - apply nonblank_no in B. rewrite B. now split.
    - destruct (Nat.eqb_spec (fst l) ind) as [|_]; [lia|]. rewrite andb_false_r. split; [reflexivity|]. rewrite (proj2 (Nat.leb_le ind (fst l))) by lia. now rewrite orb_true_r. }
  induction 1 as [|(h, t) cs (F & N & D) _ (IH & IO)]; [now split|]. cbn [fst snd] in *. unfold flat. cbn [flat_map fst snd]. cbn [app cut forallb]. destruct (P t (flat cs) [] cs D IH IO) as (C & O). fold (flat cs). rewrite C, O. apply nonblank_iff in N. rewrite N, F, Nat.eqb_refl, app_nil_r. split; [reflexivity|]. unfold okl. rewrite F, Nat.leb_refl. now rewrite orb_true_r.
Qed.

Definition head_value (t : text) : res text :=
  match t with
  | x1 :: x2 :: v =>
    do _ <- assert_ ((x1 =? 45) && (x2 =? 32))%N ;;
    match v with
    | [] => Err AssertionError
    | d :: _ => do _ <- assert_ (negb ((d =? 32) || (d =? 91) || (d =? 123))%N) ;; Ok v
    end
  | _ => Err AssertionError
  end.
Fixpoint seq2 (cs : list (line * list line)) (acc : list text) : res data :=
  match cs with
  | [] => Ok (DList acc)
  | (h, t) :: cs' => match trimmed t with [] => do v <- head_value (snd h) ;; seq2 cs' (acc ++ [v]) | _ => Err AssertionError end
  end.
Section Coll.
  Variable uniword : N -> bool.
  Definition value2 (coll : list line -> res data) (rest : text) (body : list line) : res data :=
    match body with
    | [] => flow_value rest
    | _ => if text_eqb rest (tx " |") then Ok (DStr (text_of body)) else if text_eqb rest (tx " >") then Ok (DStr (text_of body))
           else if forallb py_space rest then coll body else Err AssertionError
    end.
  Fixpoint map2 (coll : list line -> res data) (cs : list (line * list line)) (acc : list (text * data)) : res data :=
    match cs with
    | [] => Ok (DMap acc)
    | (h, t) :: cs' =>
      do kr <- key_line uniword (snd h) ;;
      do _ <- assert_ (negb (has_key (fst kr) acc)) ;;
      do v <- value2 coll (snd kr) (trimmed t) ;;
      map2 coll cs' (acc ++ [(fst kr, v)])
    end.
  Definition kind2 (t : text) : res bool :=
    match t with d :: _ => if (d =? 45)%N then Ok true else if text_in (tx ": ") t then Ok false else Err AssertionError | [] => Err AssertionError end.
  Fixpoint coll2 (fuel : nat) (sub : list line) {struct fuel} : res data :=
    match fuel, sub with
    | S f, h :: _ =>
      do sq <- kind2 (snd h) ;;
      if forallb (okl (fst h)) sub then
        let cs := snd (cut (fst h) sub) in
        if (sq : bool) then seq2 cs [] else map2 (coll2 f) cs []
      else Err AssertionError
    | _, _ => Err OutOfFuel
    end.

  (* the positions of the chunks *)
  Fixpoint rngs (j : nat) (cs : list (line * list line)) : list (nat * nat) :=
    match cs with [] => [] | (_, t) :: cs' => (j, j + 1 + length t) :: rngs (j + 1 + length t) cs' end.
  Fixpoint starts (ind i : nat) (ls : list line) : list nat :=
    match ls with [] => [] | l :: r => if nonblank l && (fst l =? ind) then i :: starts ind (S i) r else starts ind (S i) r end.
  Lemma ranges_eq ind : forall ls i, combine (starts ind i ls) (tl (starts ind i ls) ++ [i + length ls]) = rngs (i + length (fst (cut ind ls))) (snd (cut ind ls)) /\ (starts ind i ls = [] -> fst (cut ind ls) = ls /\ snd (cut ind ls) = []).
  Proof.
    induction ls as [|l ls IH]; intros i; [split; [reflexivity|now split]|]. cbn [starts cut length]. destruct (IH (S i)) as (A & B). destruct (cut ind ls) as (p, cs). cbn [fst snd] in *. replace (i + S (length ls)) with (S i + length ls) by lia.
    destruct (nonblank l && (fst l =? ind)); cbn [fst snd].
    - split; [|discriminate]. cbn [tl rngs length]. destruct (starts ind (S i) ls) as [|x st].
      + destruct (B eq_refl) as (-> & ->). cbn [app combine rngs]. rewrite Nat.add_0_r. replace (i + 1 + length ls) with (S i + length ls) by lia. reflexivity.
      + cbn [tl] in A. change (combine (i :: x :: st) ((x :: st) ++ [S i + length ls])) with ((i, x) :: combine (x :: st) (st ++ [S i + length ls])). rewrite A. destruct cs as [|(h', t') cs]; [destruct (st ++ _) eqn:E in A; [now destruct st|discriminate]|]. cbn [rngs] in *.
        assert (X : x = S i + length p) by (destruct (st ++ _) in A; [discriminate|]; cbn [combine] in A; now injection A). rewrite Nat.add_0_r. replace (i + 1 + length p) with (S i + length p) by lia. now rewrite X.
    - cbn [length]. replace (i + S (length p)) with (S i + length p) by lia. split; [assumption|]. intros H. destruct (B H) as (-> & ->). now split.
  Qed.

  Section Whole.
    Variable ls : list line.
    Notation fm := (text_of ls).
    Notation L := (posns 0 ls).
    Lemma child_starts_eq ind : forall rest l1 l2, ls = l1 ++ rest ++ l2 -> child_starts L ind (length l1) (length rest) = if forallb (okl ind) rest then Ok (starts ind (length l1) rest) else Err AssertionError.
    Proof.
      induction rest as [|l rest IH]; intros l1 l2 E; [reflexivity|]. cbn [length child_starts forallb starts]. destruct (nth_L ls l1 l (rest ++ l2) E) as (a & b & c & NT & I & (AB & BC) & BL & _). rewrite NT. cbn [bind].
      rewrite (proj2 (Nat.leb_le a b) AB), (proj2 (Nat.leb_le b c) BC). cbn [andb assert_ bind]. rewrite I.
      assert (IH' : child_starts L ind (S (length l1)) (length rest) = (if forallb (okl ind) rest then Ok (starts ind (S (length l1)) rest) else Err AssertionError)).
      { specialize (IH (l1 ++ [l]) l2). rewrite app_length in IH. cbn [length] in IH. rewrite Nat.add_1_r in IH. apply IH. rewrite E, <- app_assoc. reflexivity. }
      unfold okl at 1. destruct (Nat.eqb_spec b c) as [BC'|NE].
      - apply BL, nonblank_no in BC'. rewrite BC'. cbn [negb orb andb]. exact IH'.
      - assert (NB : nonblank l = true) by (apply nonblank_iff; tauto). rewrite NB. cbn [negb orb andb]. destruct (ind <=? fst l); [|reflexivity]. cbn [assert_ bind andb]. rewrite IH'. destruct (forallb (okl ind) rest); cbn [bind]; [|reflexivity]. now destruct (fst l =? ind).
    Qed.
    Lemma trim_eq : forall n t l1 h l2, length t = n -> ls = l1 ++ h :: t ++ l2 -> ~ blank h -> trim_end L (length l1 + 1 + length t) = Ok (length l1 + 1 + length (trimmed t)).
    Proof.
      induction n as [|n IH]; intros t l1 h l2 LEN E N.
      - destruct t; [|discriminate]. cbn [length trimmed]. replace (length l1 + 1 + 0) with (S (length l1)) by lia. cbn [trim_end]. destruct (nth_L ls l1 h l2 E) as (a & b & c & NT & _ & _ & BL & _). rewrite NT. cbn [bind]. destruct (Nat.eqb_spec b c); [tauto|reflexivity].
      - destruct (exists_last (l := t)) as (t' & x & T); [intros ->; discriminate|]. subst t. rewrite app_length in *. cbn [length] in *. replace (length l1 + 1 + (length t' + 1)) with (S (length l1 + 1 + length t')) by lia. cbn [trim_end].
        assert (E2 : ls = (l1 ++ h :: t') ++ x :: l2) by (rewrite E, <- !app_assoc; reflexivity). destruct (nth_L ls _ _ _ E2) as (a & b & c & NT & _ & _ & BL & _). rewrite app_length in NT. cbn [length] in NT. replace (length l1 + S (length t')) with (length l1 + 1 + length t') in NT by lia. rewrite NT. cbn [bind].
        destruct (Nat.eqb_spec b c) as [EQ|NE].
        + apply BL in EQ. rewrite (IH t' l1 h ([x] ++ l2)) by (try assumption; try lia; rewrite E, <- app_assoc; reflexivity). do 2 f_equal. f_equal. destruct (trimmed_spec t') as (bs & T & B & TI). rewrite T at 2. rewrite <- app_assoc, trimmed_eq; [reflexivity|assumption|]. apply Forall_app. split; [assumption|]. now constructor.
        + rewrite <- (app_nil_r (t' ++ [x])), trimmed_eq; [rewrite app_length; cbn; f_equal; lia| |constructor]. right. exists t', x. split; [reflexivity|]. tauto.
    Qed.
    Definition seq_items :=
        (fix items (rs : list (nat * nat)) (acc : list text) : res data :=
           match rs with
           | [] => Ok (DList acc)
           | (s1, e0) :: rs' =>
             do e1 <- trim_end L e0 ;;
             do _ <- assert_ (1 <=? e1 - s1) ;;
             do v <- seq_item fm L s1 e1 ;;
             items rs' (acc ++ [v])
           end).
    Definition map_items (coll : nat -> nat -> res data) :=
        (fix items (rs : list (nat * nat)) (acc : list (text * data)) : res data :=
           match rs with
           | [] => Ok (DMap acc)
           | (s1, e0) :: rs' =>
             do e1 <- trim_end L e0 ;;
             do _ <- assert_ (1 <=? e1 - s1) ;;
             do y <- nth_line L s1 ;;
             let '(_, b1, c1) := y in
             do kr <- key_line uniword (slice b1 c1 fm) ;;
             let (key, rest) := kr in
             do _ <- assert_ (negb (has_key key acc)) ;;
             do v <- (if e1 - s1 =? 1 then flow_value rest
                      else if text_eqb rest (tx " |") then block_text fm L s1 e1
                      else if text_eqb rest (tx " >") then block_text fm L s1 e1
                      else if forallb py_space rest then coll (s1 + 1) e1
                      else Err AssertionError) ;;
             items rs' (acc ++ [(key, v)])
           end).
    Lemma collection_S f s e : collection uniword fm L (S f) s e =
      (do x <- nth_line L s ;;
      let '(a, b, c) := x in
      let first := b - a in
      do _ <- assert_ (b <? c) ;;
      do sequence <- (match slice b c fm with
                      | d :: _ => if (d =? 45)%N then Ok true
                                  else if text_in (tx ": ") (slice b c fm) then Ok false else Err AssertionError
                      | [] => Err IndexError
                      end) ;;
      do starts <- child_starts L first s (e - s) ;;
      let ranges := combine starts (tl starts ++ [e]) in
      if (sequence : bool) then seq_items ranges [] else map_items (collection uniword fm L f) ranges []).
    Proof. reflexivity. Qed.
    Lemma seq_items_eq : forall cs l1 l2 acc, ls = l1 ++ flat cs ++ l2 -> Forall (fun c => ~ blank (fst c)) cs -> seq_items (rngs (length l1) cs) acc = seq2 cs acc.
    Proof.
      induction cs as [|(h, t) cs IH]; intros l1 l2 acc E C; [reflexivity|]. inversion C as [|? ? N C']; subst. cbn [fst] in N. cbn [rngs seq_items seq2]. assert (E1 : ls = l1 ++ h :: t ++ (flat cs ++ l2)) by (rewrite E; unfold flat; cbn [flat_map fst snd]; cbn [app]; now rewrite <- app_assoc).
      rewrite (trim_eq (length t) t l1 h (flat cs ++ l2) eq_refl E1 N). cbn [bind]. replace (length l1 + 1 + length (trimmed t) - length l1) with (S (length (trimmed t))) by lia. cbn [Nat.leb assert_ bind]. unfold seq_item. destruct (nth_L ls l1 h _ E1) as (a & b & c & NT & _ & _ & _ & SL). rewrite NT. cbn [bind]. replace (length l1 + 1 + length (trimmed t) - length l1) with (S (length (trimmed t))) by lia. rewrite SL.
      fold seq_items. specialize (IH (l1 ++ h :: t) l2). rewrite app_length in IH. cbn [length] in IH. replace (length l1 + S (length t)) with (length l1 + 1 + length t) in IH by lia.
      destruct (trimmed t) as [|x u]; [|reflexivity]. cbn [length Nat.eqb assert_ bind]. match goal with |- bind ?X _ = _ => change X with (head_value (snd h)) end. destruct (head_value (snd h)) as [v|]; [|reflexivity]. cbn [bind]. apply IH; [|assumption]. rewrite E1, <- app_assoc. reflexivity.
    Qed.
    Lemma map_items_eq coll coll' : forall cs l1 l2 acc, ls = l1 ++ flat cs ++ l2 -> Forall (fun c => ~ blank (fst c)) cs ->
      (forall m1 body m2 h t, In (h, t) cs -> (exists bs, t = body ++ bs) -> ls = m1 ++ body ++ m2 -> body <> [] -> coll (length m1) (length m1 + length body) = coll' body) ->
      map_items coll (rngs (length l1) cs) acc = map2 coll' cs acc.
    Proof.
      induction cs as [|(h, t) cs IH]; intros l1 l2 acc E C CO; [reflexivity|]. inversion C as [|? ? N C']; subst. cbn [fst] in N. cbn [rngs map_items map2]. assert (E1 : ls = l1 ++ h :: t ++ (flat cs ++ l2)) by (rewrite E; unfold flat; cbn [flat_map fst snd]; cbn [app]; now rewrite <- app_assoc).
      rewrite (trim_eq (length t) t l1 h (flat cs ++ l2) eq_refl E1 N). cbn [bind]. replace (length l1 + 1 + length (trimmed t) - length l1) with (S (length (trimmed t))) by lia. cbn [Nat.leb assert_ bind]. destruct (nth_L ls l1 h _ E1) as (a & b & c & NT & _ & _ & _ & SL). rewrite NT. cbn [bind]. rewrite SL.
      fold (map_items coll). specialize (IH (l1 ++ h :: t) l2). rewrite app_length in IH. cbn [length] in IH. replace (length l1 + S (length t)) with (length l1 + 1 + length t) in IH by lia.
      destruct (key_line uniword (snd h)) as [(k, rest)|]; [|reflexivity]. cbn [bind fst snd]. destruct (has_key k acc); cbn [negb assert_ bind]; [reflexivity|].
      assert (IH' : forall acc, map_items coll (rngs (length l1 + 1 + length t) cs) acc = map2 coll' cs acc).
      { intros acc'. apply IH; [rewrite E1, <- app_assoc; reflexivity|assumption|]. intros m1 body m2 h' t' IN. apply (CO m1 body m2 h' t'). now right. }
      destruct (trimmed_spec t) as (bs & T & B & _).
      assert (V : (if S (length (trimmed t)) =? 1 then flow_value rest else if text_eqb rest (tx " |") then block_text fm L (length l1) (length l1 + 1 + length (trimmed t)) else if text_eqb rest (tx " >") then block_text fm L (length l1) (length l1 + 1 + length (trimmed t)) else if forallb py_space rest then coll (length l1 + 1) (length l1 + 1 + length (trimmed t)) else Err AssertionError) = value2 coll' rest (trimmed t)).
      { unfold value2. destruct (trimmed t) as [|x u] eqn:TR; [reflexivity|]. change (S (length (x :: u)) =? 1) with false. cbv iota. assert (E2 : ls = l1 ++ h :: (x :: u) ++ (bs ++ flat cs ++ l2)) by (rewrite E1, T; now rewrite <- app_assoc).
        rewrite (block_text_of ls l1 h (x :: u) _ E2) by discriminate. destruct (text_eqb rest _); [reflexivity|]. destruct (text_eqb rest _); [reflexivity|]. destruct (forallb py_space rest); [|reflexivity].
        specialize (CO (l1 ++ [h]) (x :: u) (bs ++ flat cs ++ l2) h t (or_introl eq_refl)). rewrite app_length in CO. apply CO; [now exists bs|rewrite E2, <- app_assoc; reflexivity|discriminate]. }
      rewrite V. destruct (value2 coll' rest (trimmed t)) as [v|]; [|reflexivity]. cbn [bind]. apply IH'.
    Qed.
    Lemma in_flat (h : line) t cs : In (h, t) cs -> length t < length (flat cs).
    Proof. induction cs as [|(h', t') cs IH]; [intros []|]. unfold flat in *. cbn [flat_map fst snd length]. cbn [app length]. rewrite app_length. intros [E|I]; [injection E as -> ->; lia|]. specialize (IH I). lia. Qed.
    Lemma coll_eq : forall f sub l1 l2, ls = l1 ++ sub ++ l2 -> sub <> [] -> length sub <= f -> collection uniword fm L f (length l1) (length l1 + length sub) = coll2 f sub.
    Proof.
      induction f as [|f IH]; intros sub l1 l2 E N F; [destruct sub; [congruence|cbn in F; lia]|]. rewrite collection_S. destruct sub as [|h sub]; [congruence|]. destruct (nth_L ls l1 h (sub ++ l2) E) as (a & b & c & NT & I & (_ & BC) & BL & SL). rewrite NT. cbn [bind]. rewrite SL, I. cbn [coll2]. unfold kind2.
      destruct (snd h) as [|d r] eqn:SH.
      - assert (b = c) by (apply BL; exact SH). destruct (Nat.ltb_spec b c); [lia|]. reflexivity.
      - assert (b <> c) by (intros X; apply BL in X; unfold blank in X; congruence). destruct (Nat.ltb_spec b c); [|lia]. cbn [assert_ bind].
        replace (length l1 + length (h :: sub) - length l1) with (length (h :: sub)) by lia. rewrite (child_starts_eq (fst h) (h :: sub) l1 l2 E).
        assert (K : forall sq : bool, (do starts0 <- (if forallb (okl (fst h)) (h :: sub) then Ok (starts (fst h) (length l1) (h :: sub)) else Err AssertionError) ;; (if sq then seq_items (combine starts0 (tl starts0 ++ [length l1 + length (h :: sub)])) [] else map_items (collection uniword fm L f) (combine starts0 (tl starts0 ++ [length l1 + length (h :: sub)])) [])) = (if forallb (okl (fst h)) (h :: sub) then (if sq then seq2 (snd (cut (fst h) (h :: sub))) [] else map2 (coll2 f) (snd (cut (fst h) (h :: sub))) []) else Err AssertionError)).
        { intros sq. destruct (forallb (okl (fst h)) (h :: sub)) eqn:OK; [|reflexivity]. cbn [bind]. destruct (ranges_eq (fst h) (h :: sub) (length l1)) as (RG & _). rewrite RG. destruct (cut_spec _ _ OK) as (FL & _ & CH).
          assert (P : fst (cut (fst h) (h :: sub)) = []).
          { cbn [cut]. destruct (cut (fst h) sub) as (p, cs). assert (NB : nonblank h = true) by (unfold nonblank; now rewrite SH). rewrite NB, Nat.eqb_refl. reflexivity. }
          rewrite P in *. cbn [length app] in *. rewrite Nat.add_0_r. remember (snd (cut (fst h) (h :: sub))) as cs eqn:CS. clear CS.
          assert (E3 : ls = l1 ++ flat cs ++ l2) by (rewrite <- FL; exact E). assert (NB : Forall (fun c => ~ blank (fst c)) cs) by (eapply Forall_impl; [|exact CH]; intros c' (_ & X & _); exact X).
          destruct sq; [eapply seq_items_eq; eassumption|]. eapply map_items_eq; [eassumption|assumption|]. intros m1 body m2 h' t' IN (bs & T) EB NE. apply (IH body m1 m2 EB NE). apply in_flat in IN. rewrite <- FL in IN. subst t'. rewrite app_length in IN. cbn [length] in *. lia. }
        destruct (d =? 45)%N; cbn [bind]; [exact (K true)|]. destruct (text_in (tx ": ") (d :: r)); cbn [bind]; [exact (K false)|reflexivity].
    Qed.
  End Whole.
End Coll.
