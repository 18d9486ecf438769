(* The lines of the front matter: specification and lemmas. *)
From Coq Require Import Ascii String.
From Verif Require Import M_Base L_Base M_HTML M_Shared L_Entities M_Layout L_Layout M_Indent M_Refs M_Values L_ValLists M_Validate L_Validate L_ValTree L_ValRest M_Test262.
Open Scope list_scope.
Open Scope nat_scope.
Notation length := List.length.

(* a line: how far it is indented, and what follows *)
Definition line : Type := (nat * text)%type.
Definition blank (l : line) : Prop := snd l = [].
Definition written (l : line) : Prop := ~ In 10%N (snd l) /\ match snd l with c :: _ => c <> 32%N | [] => True end.
Definition render (l : line) : text := repeat 32%N (fst l) ++ snd l.
Fixpoint text_of (ls : list line) : text :=
  match ls with [] => [] | [l] => render l | l :: ls' => render l ++ 10%N :: text_of ls' end.

Section Meaning.
  Variable uniword : N -> bool.
  (* a list between brackets: texts with commas between them, any number of spaces after each comma *)
  Inductive listed : text -> list text -> Prop :=
  | li_one x : ~ In 44%N x -> listed x [x]
  | li_more x k u xs : ~ In 44%N x -> match u with c :: _ => c <> 32%N | [] => True end -> listed u xs -> listed (x ++ tx "," ++ repeat 32%N k ++ u) (x :: xs).
  (* what follows the colon, if the value is on the same line *)
  Inductive flow : text -> data -> Prop :=
  | f_empty k : flow (tx " [" ++ repeat 32%N k ++ tx "]") (DList [])
  | f_list u xs : (~ exists k, u = repeat 32%N k) -> listed u xs -> flow (tx " [" ++ u ++ tx "]") (DList xs)
  | f_str v : match v with c :: _ => c <> 91%N /\ c <> 123%N | [] => True end -> flow (tx " " ++ v) (DStr v).
  Definition a_key (k : text) : Prop := k <> [] /\ Forall (word uniword) k.
  Definition deeper (ind : nat) (l : line) : Prop := blank l \/ ind < fst l.
  (* no empty lines at the end *)
  Definition tight (ls : list line) : Prop := ls = [] \/ exists ls' l, ls = ls' ++ [l] /\ ~ blank l.

  Inductive block : list line -> data -> Prop :=
  | b_seq l ls vs : (exists v, snd l = tx "-" ++ v) -> seq_entries (fst l) (l :: ls) vs -> block (l :: ls) (DList vs)
  | b_map l ls m : (~ exists v, snd l = tx "-" ++ v) -> (exists u w, snd l = u ++ tx ": " ++ w) -> map_entries (fst l) (l :: ls) m -> NoDup (map fst m) -> block (l :: ls) (DMap m)
  with seq_entries : nat -> list line -> list text -> Prop :=
  | se_nil ind : seq_entries ind [] []
  | se_cons ind v blanks ls vs : match v with c :: _ => c <> 32%N /\ c <> 91%N /\ c <> 123%N | [] => False end -> Forall blank blanks -> seq_entries ind ls vs ->
      seq_entries ind ((ind, tx "- " ++ v) :: blanks ++ ls) (v :: vs)
  with map_entries : nat -> list line -> list (text * data) -> Prop :=
  | me_nil ind : map_entries ind [] []
  | me_cons ind k rest body blanks ls v m : a_key k -> Forall (deeper ind) body -> tight body -> Forall blank blanks -> entry rest body v -> map_entries ind ls m ->
      map_entries ind ((ind, k ++ tx ":" ++ rest) :: body ++ blanks ++ ls) ((k, v) :: m)
  with entry : text -> list line -> data -> Prop :=
  | e_flow rest v : flow rest v -> entry rest [] v
  | e_text rest body : rest = tx " |" \/ rest = tx " >" -> body <> [] -> entry rest body (DStr (text_of body))
  | e_block rest body v : Forall space_char rest -> body <> [] -> block body v -> entry rest body v.
End Meaning.

(* ---------- lines and their positions ---------- *)
Definition pre (ls : list line) : text := flat_map (fun l => render l ++ [10%N]) ls.
Lemma text_of_cons l ls : ls <> [] -> text_of (l :: ls) = render l ++ 10%N :: text_of ls.
Proof. destruct ls; [congruence|reflexivity]. Qed.
Lemma text_of_app l1 l2 : l2 <> [] -> text_of (l1 ++ l2) = pre l1 ++ text_of l2.
Proof.
  intros N. induction l1 as [|l l1 IH]; [reflexivity|]. cbn [app]. rewrite text_of_cons by (destruct l1; [assumption|discriminate]). rewrite IH. unfold pre. cbn [flat_map]. now rewrite <- !app_assoc.
Qed.
Lemma text_of_split mid l2 : mid <> [] -> exists r, text_of (mid ++ l2) = text_of mid ++ r.
Proof.
  intros N. induction mid as [|l mid IH]; [congruence|]. destruct mid as [|l' mid].
  - destruct l2 as [|y l2]; [exists []; cbn; now rewrite app_nil_r|]. exists (10%N :: text_of (y :: l2)). reflexivity.
  - destruct IH as (r & E); [discriminate|]. exists r. cbn [app] in *. rewrite (text_of_cons l (l' :: mid ++ l2)), (text_of_cons l (l' :: mid)) by discriminate. rewrite E. rewrite <- app_assoc. reflexivity.
Qed.
Fixpoint posns (a : nat) (ls : list line) : list (nat * nat * nat) :=
  match ls with [] => [] | l :: ls' => (a, a + fst l, a + length (render l)) :: posns (a + length (render l) + 1) ls' end.
Lemma count_spaces n v : match v with c :: _ => c <> 32%N | [] => True end -> count_while is_space (repeat 32%N n ++ v) = n.
Proof.
  intros H. induction n as [|n IH]; [|cbn; now rewrite IH]. destruct v as [|c v]; [reflexivity|]. cbn [repeat app count_while]. unfold is_space. now destruct (N.eqb_spec c 32).
Qed.
Lemma count_line u r : ~ In 10%N u -> count_while not_nl (u ++ 10%N :: r) = length u /\ count_while not_nl u = length u.
Proof.
  induction u as [|c u IH]; intros N; [split; reflexivity|]. destruct IH as (I1 & I2); [intros I; apply N; now right|]. cbn [app count_while length]. unfold not_nl at 1 3. destruct (N.eqb_spec c 10) as [->|]; [exfalso; apply N; now left|]. cbn [negb]. now rewrite I1, I2.
Qed.
Lemma render_nl l : written l -> ~ In 10%N (render l).
Proof. intros (W & _) I. unfold render in I. apply in_app_iff in I. destruct I as [I|I]; [apply repeat_spec in I; discriminate|contradiction]. Qed.
Lemma count_indent l r : written l -> match r with c :: _ => c <> 32%N | [] => True end -> count_while is_space (render l ++ r) = fst l.
Proof.
  intros (_ & W) R. unfold render. rewrite <- app_assoc. apply count_spaces. destruct (snd l); [exact R|exact W].
Qed.
Lemma skip_all {A} (u : list A) r : skipn (length u) (u ++ r) = r.
Proof. rewrite skipn_app, skipn_all, Nat.sub_diag. reflexivity. Qed.
Lemma line_posns_of : forall ls a f, ls <> [] -> Forall written ls -> length (text_of ls) < f -> line_posns_from f a (text_of ls) = posns a ls.
Proof.
  induction ls as [|l ls IH]; intros a f N W F; [congruence|]. inversion W as [|? ? W1 W2]; subst. destruct f as [|f]; [lia|]. destruct ls as [|l' ls].
  - cbn [text_of] in *. cbn [line_posns_from posns]. pose proof (count_indent l [] W1 I) as C. rewrite app_nil_r in C. rewrite C. destruct (count_line (render l) [] (render_nl _ W1)) as (_ & ->). rewrite skipn_all. reflexivity.
  - rewrite text_of_cons in * by discriminate. rewrite app_length in F. cbn [length] in F. cbn [line_posns_from]. rewrite (count_indent l (10%N :: text_of (l' :: ls)) W1) by discriminate. destruct (count_line (render l) (text_of (l' :: ls)) (render_nl _ W1)) as (-> & _). rewrite skip_all. cbn [posns]. f_equal. apply IH; [discriminate|assumption|lia].
Qed.
(* every text consists of lines *)
Lemma take_indent u : ~ In 10%N u -> exists l, written l /\ render l = u.
Proof.
  intros N. induction u as [|c u IH]; [exists (0, []); split; [split; [intros []|exact I]|reflexivity]|]. destruct (N.eq_dec c 32) as [->|NE].
  - destruct IH as ((k & v) & W & R); [intros I; apply N; now right|]. exists (S k, v). split; [exact W|]. unfold render in *. cbn [fst snd repeat app] in *. now rewrite R.
  - exists (0, c :: u). split; [split; [exact N|exact NE]|reflexivity].
Qed.
Lemma lines_exist s : exists ls, ls <> [] /\ Forall written ls /\ s = text_of ls.
Proof.
  assert (G : exists u r, ~ In 10%N u /\ exists ls, Forall written ls /\ (s = u /\ r = [] /\ ls = [] \/ s = u ++ 10%N :: r /\ ls <> [] /\ r = text_of ls)).
  { induction s as [|c s (u & r & N & ls & W & H)]; [exists [], []; split; [intros []|]; exists []; split; [constructor|now left]|]. destruct (N.eq_dec c 10) as [->|NE].
    - destruct (take_indent u N) as (l & WL & RL). exists [], s. split; [intros []|]. destruct H as [(-> & -> & ->)|(-> & NL & ->)].
      + exists [l]. split; [now constructor|]. right. split; [reflexivity|]. split; [discriminate|now rewrite <- RL].
      + exists (l :: ls). split; [now constructor|]. right. split; [reflexivity|]. split; [discriminate|]. rewrite text_of_cons by assumption. now rewrite RL.
    - exists (c :: u), r. split; [intros [E|I]; [congruence|contradiction]|]. exists ls. split; [assumption|]. destruct H as [(-> & -> & ->)|(-> & NL & ->)]; [now left|right; now split]. }
  destruct G as (u & r & N & ls & W & H). destruct (take_indent u N) as (l & WL & RL). exists (l :: ls). split; [discriminate|]. split; [now constructor|]. destruct H as [(-> & -> & ->)|(-> & NL & ->)]; [now rewrite <- RL|]. rewrite text_of_cons by assumption. now rewrite RL.
Qed.
Lemma lines_unique : forall ls ls', ls <> [] -> ls' <> [] -> Forall written ls -> Forall written ls' -> text_of ls = text_of ls' -> ls = ls'.
Proof.
  assert (R : forall l l', written l -> written l' -> render l = render l' -> l = l').
  { intros (k & v) (k' & v') (_ & W) (_ & W') E. pose proof (count_spaces k v W) as C. pose proof (count_spaces k' v' W') as C'. unfold render in E. cbn [fst snd] in *. rewrite E, C' in C. subst k'. apply app_inv_head in E. now subst. }
  assert (CUT : forall u u' r r', ~ In 10%N u -> ~ In 10%N u' -> u ++ 10%N :: r = u' ++ 10%N :: r' -> u = u' /\ r = r').
  { induction u as [|c u IH]; intros [|d u'] r r' N N' E; cbn [app] in E; [injection E as ->; auto|injection E as <- _; exfalso; apply N'; now left|injection E as -> _; exfalso; apply N; now left|]. injection E as -> E. destruct (IH u' r r') as (-> & ->); [intros I; apply N; now right|intros I; apply N'; now right|assumption|auto]. }
  induction ls as [|l ls IH]; intros [|l' ls'] N N' W W' E; try congruence. inversion W as [|? ? W1 W2]; inversion W' as [|? ? W1' W2']; subst. pose proof (render_nl _ W1) as NL. pose proof (render_nl _ W1') as NL'.
  destruct ls as [|x ls], ls' as [|x' ls'].
  - cbn [text_of] in E. now rewrite (R _ _ W1 W1' E).
  - rewrite (text_of_cons l') in E by discriminate. cbn [text_of] in E. exfalso. apply NL. rewrite E. apply in_app_iff. right. now left.
  - rewrite (text_of_cons l) in E by discriminate. cbn [text_of] in E. exfalso. apply NL'. rewrite <- E. apply in_app_iff. right. now left.
  - rewrite !text_of_cons in E by discriminate. destruct (CUT _ _ _ _ NL NL' E) as (E1 & E2). rewrite (R _ _ W1 W1' E1). f_equal. apply IH; try assumption; discriminate.
Qed.
Lemma posns_length : forall ls a, length (posns a ls) = length ls. Proof. induction ls as [|l ls IH]; intros a; [reflexivity|]. cbn [posns length]. now rewrite IH. Qed.
Lemma posns_at : forall l1 l l2 a, nth_error (posns a (l1 ++ l :: l2)) (length l1) = Some (a + length (pre l1), a + length (pre l1) + fst l, a + length (pre l1) + length (render l)).
Proof.
  induction l1 as [|x l1 IH]; intros l l2 a; cbn [app posns length nth_error].
  - unfold pre. cbn [flat_map length]. now rewrite Nat.add_0_r.
  - rewrite IH. unfold pre. cbn [flat_map]. rewrite !app_length. cbn [length]. replace (a + (length (render x) + 1 + length (flat_map (fun l0 => render l0 ++ [10%N]) l1))) with (a + length (render x) + 1 + length (flat_map (fun l0 => render l0 ++ [10%N]) l1)) by lia. reflexivity.
Qed.
Lemma slice_mid (u v w : text) : slice (length u) (length u + length v) (u ++ v ++ w) = v.
Proof. unfold slice. rewrite skip_all. replace (length u + length v - length u) with (length v) by lia. rewrite firstn_app, Nat.sub_diag, firstn_all. cbn [firstn]. apply app_nil_r. Qed.
Lemma render_length l : length (render l) = fst l + length (snd l). Proof. unfold render. now rewrite app_length, repeat_length. Qed.

Section Lines.
  Variable ls : list line.
  Hypothesis WR : Forall written ls.
  Let fm := text_of ls.
  Let L := posns 0 ls.
  Lemma nth_L l1 l l2 : ls = l1 ++ l :: l2 -> exists a b c, nth_line L (length l1) = Ok (a, b, c) /\ b - a = fst l /\ a <= b <= c /\ (b = c <-> blank l) /\ slice b c fm = snd l.
  Proof.
    intros E. unfold nth_line, L, fm. rewrite E, posns_at. eexists. eexists. eexists. split; [reflexivity|]. rewrite render_length. split; [lia|]. split; [lia|]. split; [unfold blank; destruct (snd l); cbn [length]; split; intros H; try discriminate; try reflexivity; lia|].
    destruct (text_of_split [l] l2) as (r & R); [discriminate|]. rewrite text_of_app by discriminate. change (l :: l2) with ([l] ++ l2). rewrite R. cbn [text_of]. unfold render at 1. cbn [plus].
    replace (pre l1 ++ (repeat 32%N (fst l) ++ snd l) ++ r) with ((pre l1 ++ repeat 32%N (fst l)) ++ snd l ++ r) by now rewrite <- !app_assoc.
    replace (length (pre l1) + fst l) with (length (pre l1 ++ repeat 32%N (fst l))) by (rewrite app_length, repeat_length; lia).
    replace (length (pre l1) + (fst l + length (snd l))) with (length (pre l1 ++ repeat 32%N (fst l)) + length (snd l)) by (rewrite app_length, repeat_length; lia). apply slice_mid.
  Qed.
  Lemma block_text_of l1 h body l2 : ls = l1 ++ h :: body ++ l2 -> body <> [] -> block_text fm L (length l1) (length l1 + 1 + length body) = Ok (DStr (text_of body)).
  Proof.
    intros E N. unfold block_text. destruct body as [|x body]; [congruence|]. clear N. destruct (exists_last (l := x :: body)) as (body' & y & B); [discriminate|].
    assert (E1 : ls = (l1 ++ [h]) ++ x :: body ++ l2) by (rewrite E, <- app_assoc; reflexivity). assert (E2 : ls = (l1 ++ h :: body') ++ y :: l2) by (rewrite E, B, <- !app_assoc; reflexivity).
    unfold nth_line. unfold L. rewrite E1 at 1. pose proof (posns_at (l1 ++ [h]) x (body ++ l2) 0) as P1. rewrite app_length in P1. cbn [length] in P1. rewrite P1. cbn [bind].
    rewrite E2 at 1. pose proof (posns_at (l1 ++ h :: body') y l2 0) as P2. assert (LEN : length (x :: body) = length body' + 1) by (rewrite B, app_length; reflexivity). replace (length l1 + 1 + length (x :: body) - 1) with (length (l1 ++ h :: body')) by (rewrite app_length; cbn [length]; cbn [length] in LEN; lia). rewrite P2. cbn [bind plus].
    do 2 f_equal. unfold fm. rewrite E1. change (x :: body ++ l2) with ((x :: body) ++ l2). rewrite text_of_app by discriminate. destruct (text_of_split (x :: body) l2) as (r & R); [discriminate|]. rewrite R.
    replace (length (pre (l1 ++ h :: body')) + length (render y)) with (length (pre (l1 ++ [h])) + length (text_of (x :: body))); [apply slice_mid|].
    rewrite B, text_of_app by discriminate. cbn [text_of]. unfold pre. rewrite !flat_map_app. cbn [flat_map]. rewrite !app_length. cbn [length]. lia.
  Qed.
End Lines.
