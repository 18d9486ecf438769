(* Specification side of the static type analysis: what it means to run the commands. *)
From Verif Require Import M_Base M_Dict M_Types L_Hier L_Types M_Env L_Env M_STA.

(* a value is a leaf of the type hierarchy; 14: the variable is not set; 15: the argument is not passed; 16: nothing is returned *)
Notation store := (nat -> nat).
Definition upd (s : store) (x v : nat) : store := fun y => if y =? x then v else s y.
Inductive outcome := Next (s : store) | Ret (v : nat) (s : store) | Wrong.
(* the variables that were not set before the body of a loop are not visible after it *)
Definition leave (s s1 : store) : store := fun x => if s x =? 14 then 14 else s1 x.

(* the runs of a loop: whether to go on or stop is decided before each run of the body *)
Inductive iter (enter : store -> store -> Prop) (exit bad : store -> Prop) (body : store -> outcome -> Prop) : store -> outcome -> Prop :=
| it_exit s : exit s -> iter enter exit bad body s (Next s)
| it_bad s : bad s -> iter enter exit bad body s Wrong
| it_stop s s0 o : enter s s0 -> body s0 o -> (forall s', o <> Next s') -> iter enter exit bad body s o
| it_next s s0 s1 o : enter s s0 -> body s0 (Next s1) -> iter enter exit bad body (leave s s1) o -> iter enter exit bad body s o.

(* a condition that the analysis can settle: a test for exactly a type, all of several, the last of several *)
Fixpoint exact (c : cond) : Prop :=
  match c with
  | TypeTest _ _ _ a b => a = b
  | Opaque _ | Never | NotBoth _ _ => False
  | And l => (fix all l := match l with [] => True | c :: l' => exact c /\ all l' end) l
  | Or l => (fix last l := match l with [] => False | [c] => exact c | _ :: l' => last l' end) l
  end.

Section Run.
  Variable h : hier.
  Variable params_of : nat -> list ty.
  (* the truth of "v is an X", for each test *)
  Variable inside : nat -> nat -> bool.
  (* the result of an operation; None: something goes wrong in it *)
  Variable den : nat -> list nat -> option nat -> Prop.

  (* the arguments, with not_passed for those missing *)
  Definition pad (op : nat) (vs : list nat) : list nat := vs ++ repeat 15 (length (params_of op) - length vs).
  Definition args_ok (op : nat) (vs : list nat) : Prop := Forall2 (hmem h) vs (params_of op).

  (* an operation applied to arguments that are not of its parameter types is wrong *)
  Definition eval (e : expr) (s : store) (r : option nat) : Prop :=
    match e with
    | EVar x => r = Some (s x)
    | EOp _ op args =>
      let vs := pad op (map s args) in
      (args_ok op vs /\ den op vs r) \/ (~ args_ok op vs /\ r = None)
    end.

  (* None: evaluating the condition goes wrong *)
  Fixpoint ceval (c : cond) (s : store) (r : option bool) : Prop :=
    match c with
    | TypeTest id e cop _ _ =>
      exists ov, eval e s ov /\
        r = match ov with
            | None => None
            | Some v => Some (match cop with is_a => inside id v | isnt_a => negb (inside id v) | other_copula => false end)
            end
    | Opaque _ => exists b, r = Some b
    | Never => r = Some false
    | And l =>
      (fix all (l : list cond) : Prop :=
         match l with
         | [] => r = Some true
         | c :: l' => (ceval c s (Some true) /\ all l') \/ (ceval c s (Some false) /\ r = Some false) \/ (ceval c s None /\ r = None)
         end) l
    | Or l =>
      (fix some (l : list cond) : Prop :=
         match l with
         | [] => r = Some false
         | c :: l' => (ceval c s (Some false) /\ some l') \/ (ceval c s (Some true) /\ r = Some true) \/ (ceval c s None /\ r = None)
         end) l
    | NotBoth a b =>
      (ceval a s (Some false) /\ r = Some true) \/ (ceval a s None /\ r = None) \/
      (ceval a s (Some true) /\ exists rb, ceval b s rb /\ r = match rb with Some x => Some (negb x) | None => None end)
    end.

  (* an assertion of an exact condition that is false is wrong; one that the analysis has no way to settle is taken to hold *)
  Definition asserts (c : cond) (s : store) (o : outcome) : Prop :=
    (ceval c s (Some true) /\ o = Next s) \/ (ceval c s (Some false) /\ exact c /\ o = Wrong) \/ (ceval c s None /\ o = Wrong).
  Definition with_value (e : expr) (s : store) (k : nat -> outcome) (o : outcome) : Prop :=
    exists r, eval e s r /\ o = match r with Some v => k v | None => Wrong end.

  Fixpoint exec (c : cmd) (s : store) (o : outcome) : Prop :=
    match c with
    | Let x e => with_value e s (fun v => Next (upd s x v)) o
    | SetV x e => with_value e s (fun v => Next (upd s x v)) o
    | Perform e => with_value e s (fun _ => Next s) o
    | Return e => with_value e s (fun v => Ret v s) o
    | Note => o = Next s
    | Seq c1 c2 => (exists s1, exec c1 s (Next s1) /\ exec c2 s1 o) \/ (exec c1 s o /\ forall s', o <> Next s')
    | Assert c => asserts c s o
    | AssertIf c1 c2 => (ceval c1 s (Some true) /\ asserts c2 s o) \/ (ceval c1 s (Some false) /\ o = Next s) \/ (ceval c1 s None /\ o = Wrong)
    | IfClosed c c1 c2 => (ceval c s (Some true) /\ exec c1 s o) \/ (ceval c s (Some false) /\ exec c2 s o) \/ (ceval c s None /\ o = Wrong)
    | IfOther c c1 t => (ceval c s (Some true) /\ exec c1 s o) \/ (ceval c s (Some false) /\ exec_tail t s o) \/ (ceval c s None /\ o = Wrong)
    | RepeatCond until c body => iter (fun s s0 => s0 = s /\ ceval c s (Some (negb until))) (fun s => ceval c s (Some until)) (fun s => ceval c s None) (exec body) s o
    | Repeat body => iter (fun s s0 => s0 = s) (fun _ => False) (fun _ => False) (exec body) s o
    | ForEach x item_t coll coll_t body =>
      iter (fun s s0 => hmem h (s coll) coll_t /\ exists v, leaf h v /\ hmem h v item_t /\ s0 = upd s x v)
           (fun s => hmem h (s coll) coll_t) (fun s => ~ hmem h (s coll) coll_t) (exec body) s o
    end
  with exec_tail (t : tail) (s : store) (o : outcome) : Prop :=
    match t with
    | ElseIf c c1 t' => (ceval c s (Some true) /\ exec c1 s o) \/ (ceval c s (Some false) /\ exec_tail t' s o) \/ (ceval c s None /\ o = Wrong)
    | Else c1 => exec c1 s o
    | NoElse => o = Next s
    end.

  (* running the body of an operation; None: something goes wrong *)
  Definition returns (c : cmd) (s : store) (r : option nat) : Prop :=
    exists o, exec c s o /\ r = match o with Next _ => Some 16 | Ret v _ => Some v | Wrong => None end.
End Run.

(* ---- programs ---- *)
Section Wf.
  Variable h : hier.
  Variable isvar : nat -> bool.        (* the texts that are variables *)
  Variable inside : nat -> nat -> bool.

  Definition wf_expr (e : expr) : Prop :=
    match e with EVar x => isvar x = true | EOp k _ args => isvar k = false /\ forall x, In x args -> isvar x = true end.
  (* type tests are made of variables; the types of a test bracket its truth *)
  Fixpoint wf_cond (c : cond) : Prop :=
    match c with
    | TypeTest id e _ a b =>
      (exists x, e = EVar x /\ isvar x = true) /\ htype h a /\ htype h b /\
      (forall v, leaf h v -> hmem h v a -> inside id v = true) /\ (forall v, leaf h v -> inside id v = true -> hmem h v b)
    | Opaque _ | Never => True
    | And l | Or l => (fix all l := match l with [] => True | c :: l' => wf_cond c /\ all l' end) l
    | NotBoth a b => wf_cond a /\ wf_cond b
    end.
  Fixpoint wf_cmd (c : cmd) : Prop :=
    match c with
    | Let x e | SetV x e => isvar x = true /\ wf_expr e
    | Perform e | Return e => wf_expr e
    | Note => True
    | Seq c1 c2 => wf_cmd c1 /\ wf_cmd c2
    | Assert c => wf_cond c
    | AssertIf c1 c2 => wf_cond c1 /\ wf_cond c2
    | IfClosed c c1 c2 => wf_cond c /\ wf_cmd c1 /\ wf_cmd c2
    | IfOther c c1 t => wf_cond c /\ wf_cmd c1 /\ wf_tail t
    | RepeatCond _ c body => wf_cond c /\ wf_cmd body
    | Repeat body => wf_cmd body
    | ForEach x it co ct body => isvar x = true /\ isvar co = true /\ htype h it /\ htype h ct /\ wf_cmd body
    end
  with wf_tail (t : tail) : Prop :=
    match t with
    | ElseIf c c1 t' => wf_cond c /\ wf_cmd c1 /\ wf_tail t'
    | Else c1 => wf_cmd c1
    | NoElse => True
    end.
End Wf.

(* ---- a program: operations with bodies that invoke each other, and given ones ---- *)
Section Program.
  Variable h : hier.
  Variable params_of : nat -> list ty.
  Variable return_of : nat -> ty.
  Variable inside : nat -> nat -> bool.
  Variable bodies : nat -> option (list nat * list cmd).     (* parameter names; the definitions, one of which is chosen at each invocation *)
  Variable given : nat -> list nat -> option nat -> Prop.

  (* the store at the start; *return* (text 0) is no variable, but its place is filled too *)
  Definition start (ps vs : list nat) (v0 : nat) : store := upd (fold_left (fun s p => upd s (fst p) (snd p)) (combine ps vs) (fun _ => 14)) 0 v0.
  (* the result of an invocation whose nesting is at most n deep *)
  Fixpoint call (n op : nat) (vs : list nat) (r : option nat) : Prop :=
    match bodies op with
    | None => given op vs r
    | Some (ps, cs) =>
      match n with
      | 0 => False
      | S m => exists v0 c, leaf h v0 /\ hmem h v0 (return_of op) /\ In c cs /\ returns h params_of inside (call m) c (start ps vs v0) r
      end
    end.
End Program.

(* the errors that say that a type is wrong; the others only find fault with the style of the algorithm *)
Definition serious (e : perr) : bool :=
  match e with
  | NotDefined _ | WrongType _ | NoArg | WrongArg _ | BadReturn => true
  | TypeTestErr CantBe | TypeTestErr FailsToConfirm | TypeTestErr CantConfirmNot => true
  | _ => false
  end.
Definition fine (l : list perr) : Prop := forall e, In e l -> serious e = false.
