(* Model of the Earley parser, es_parser.py. *)
From Verif Require Import M_Base.

(* right-hand-side things: nonterminals, terminals (T_...), constraints (C_...); names and kinds are numbered *)
Inductive rthing := NT (n : nat) | TM (t : nat) | CN (c : nat).
(* es_parser.py:409  ExProd; the og_... fields are one number *)
Record prod := mkProd { lhs : nat; rhs : list rthing; og : nat }.
(* es_parser.py:1944-2020  ES_ParseNode: a terminal instance (symbol, and which instance), or a nonterminal node. The positions and option
   bits of a node are determined by its children and the set it starts from. *)
Inductive tree := Leaf (t l : nat) | Node (p : prod) (ch : list tree).
Definition rthing_eqb (a b : rthing) : bool :=
  match a, b with NT m, NT n | TM m, TM n | CN m, CN n => m =? n | _, _ => false end.
Definition list_eqb {A} (f : A -> A -> bool) : list A -> list A -> bool :=
  fix go a b := match a, b with [], [] => true | x :: a', y :: b' => f x y && go a' b' | _, _ => false end.
Definition prod_eqb (a b : prod) : bool := (lhs a =? lhs b) && list_eqb rthing_eqb (rhs a) (rhs b) && (og a =? og b).
Fixpoint tree_eqb (a b : tree) : bool :=
  match a, b with
  | Leaf t l, Leaf t' l' => (t =? t') && (l =? l')
  | Node p ch, Node p' ch' => prod_eqb p p' && list_eqb tree_eqb ch ch'
  | _, _ => false
  end.
Definition opt_eqb {A} (f : A -> A -> bool) (a b : option A) : bool :=
  match a, b with Some x, Some y => f x y | None, None => true | _, _ => false end.

(* es_parser.py:479-523  Item, with its Point. The chain of causes is flattened: the number of the set it starts from (None for the initial
   item), the production, and the transit nodes, latest first; the dot is as far as there are transit nodes.
   In the code nodes are compared by identity: but a node is made once for each completed item, so it is determined by its production,
   its children and the set it starts from, and the latter is determined by what comes before it in the item. *)
Record item := mkItem { origin : option nat; pr : prod; trans : list (option tree) }.
Definition item_eqb (a b : item) : bool :=
  opt_eqb Nat.eqb (origin a) (origin b) && prod_eqb (pr a) (pr b) && list_eqb (opt_eqb tree_eqb) (trans a) (trans b).
(* es_parser.py:492-499, 531-536 *)
Definition after (i : item) : option rthing := nth_error (rhs (pr i)) (length (trans i)).
Definition transit (i : item) : option tree := match trans i with x :: _ => x | [] => None end.
(* es_parser.py:526-529 *)
Definition advance (i : item) (n : option tree) : item := mkItem (origin i) (pr i) (n :: trans i).
(* es_parser.py:621-634, 647  the node of a completed item; constraints have no nodes *)
Fixpoint somes {A} (l : list (option A)) : list A := match l with [] => [] | Some a :: l' => a :: somes l' | None :: l' => somes l' end.
Definition node_of (i : item) : tree := Node (pr i) (rev (somes (trans i))).
Definition expects (r : rthing) (i : item) : bool := match after i with Some r' => rthing_eqb r' r | None => false end.
(* es_parser.py:680-686  EarleySet: the items in the order they were added; items_with_dot_before_[r] is (expecting r items) *)
Definition expecting (r : rthing) (its : list item) : list item := filter (expects r) its.
Record eset := mkSet { items : list item; nulls : list (nat * tree) }.

Section Earley.
  Variable prods : list prod.
  (* where the parser is: the text position, with the state of the terminal instance provider (tip) at that time *)
  Context {place : Type}.
  (* es_parser.py:1447-1480, 1846-1917  tip.check_constraint, which does not change the tip *)
  Variable check : option tree -> place -> nat -> res bool.
  Definition prods_of (a : nat) : list prod := filter (fun p => lhs p =? a) prods.

  Section Close.
    (* the sets before, the number of the set under construction, and its place *)
    Variable before : list (list item).
    Variable pos : place.
    Definition cur : nat := length before.
    Inductive task :=
    | Add (i : item)                        (* 704-721  _add_and_recurse *)
    | Feed (is : list item)                 (* add these *)
    | Nulls (i : item) (a k : nat)          (* 713-717, from the k-th of the nullables; the list may grow meanwhile *)
    | Back (a : nat) (n : tree) (k : nat).  (* 669-675, in the set under construction, from the k-th of its items; the list may grow meanwhile *)
    Definition step (rec : task -> eset -> res eset) (t : task) (s : eset) : res eset :=
      match t with
      | Feed [] => Ok s
      | Feed (i :: is) => do s' <- rec (Add i) s ;; rec (Feed is) s'
      | Add i =>
        if existsb (item_eqb i) (items s) then Ok s
        else
          let s1 := mkSet (items s ++ [i]) (nulls s) in
          match after i with
          | Some (NT a) =>
            do s2 <- rec (Nulls i a 0) s1 ;;
            (* 551-563; 468-476 *)
            match prods_of a with
            | [] => Err UserError
            | ps => rec (Feed (map (fun p => mkItem (Some cur) p []) ps)) s2
            end
          | Some (TM _) => Ok s1
          (* 569-577 *)
          | Some (CN c) => do b <- check (transit i) pos c ;; if b then rec (Add (advance i None)) s1 else Ok s1
          (* 615-675  reduce *)
          | None =>
            match origin i with
            | None => Err AssertionError
            | Some o =>
              let a := lhs (pr i) in
              if o =? cur then
                do _ <- assert_ (negb (match expecting (NT a) (items s1) with [] => true | _ => false end)) ;;
                rec (Back a (node_of i) 0) (mkSet (items s1) (nulls s1 ++ [(a, node_of i)]))
              else
                match nth_error before o with
                | None => Err IndexError
                | Some old =>
                  do _ <- assert_ (negb (match expecting (NT a) old with [] => true | _ => false end)) ;;
                  rec (Feed (map (fun b => advance b (Some (node_of i))) (expecting (NT a) old))) s1
                end
            end
          end
      | Nulls i a k =>
        match nth_error (nulls s) k with
        | None => Ok s
        | Some (b, n) => do s' <- (if b =? a then rec (Add (advance i (Some n))) s else Ok s) ;; rec (Nulls i a (S k)) s'
        end
      | Back a n k =>
        match nth_error (expecting (NT a) (items s)) k with
        | None => Ok s
        | Some b => do s' <- rec (Add (advance b (Some n))) s ;; rec (Back a n (S k)) s'
        end
      end.
    Fixpoint run (n : nat) (t : task) (s : eset) : res eset :=
      match n with 0 => Err OutOfFuel | S n => step (run n) t s end.
    (* 698-702  close *)
    Definition close (n : nat) (kernel : list item) : res (list item) :=
      do s <- run n (Feed kernel) (mkSet [] []) ;; Ok (items s).
  End Close.

  (* es_parser.py:723-733  get_expected_terminals *)
  Fixpoint terminals (its : list item) (acc : list nat) : list nat :=
    match its with
    | [] => acc
    | i :: its' => terminals its' match after i with Some (TM t) => if existsb (Nat.eqb t) acc then acc else acc ++ [t] | _ => acc end
    end.

  (* how_much_to_consume *)
  Variable all : bool.
  (* END_OF_INPUT or ACCEPTANCE, 788-794 *)
  Definition END : nat := 0.
  Definition ACC : nat := 1.
  Variable goal : nat.
  (* 796-806  the *START* production and the initial item *)
  Variable START : nat.
  Definition start_prod : prod := mkProd START [NT goal; TM (if all then END else ACC)] 0.
  Definition initial : item := mkItem None start_prod [].
  (* tip.get_next_terminal_instances: (expected terminal, instance) pairs and the next place; 857-868 ASI_kludge *)
  Variable tpos : place -> nat.
  Variable gnti : place -> list nat -> option nat -> res (option (list (nat * nat) * place)).
  Variable kludge : list item -> res (option nat).

  (* 741-774  cannot_continue *)
  Definition cannot_continue (latest : option tree) : res tree :=
    if all then Err UserError
    else match latest with None => Err UserError | Some n => match n with Node p _ => do _ <- assert_ (lhs p =? goal) ;; Ok n | Leaf _ _ => Err AttributeError end end.
  (* 899-911 *)
  Fixpoint next_kernel (its : list item) (rats : list (nat * nat)) : res (list item) :=
    match rats with
    | [] => Ok []
    | (t, l) :: rats' =>
      do _ <- assert_ (negb (match expecting (TM t) its with [] => true | _ => false end) || (t =? ACC)) ;;
      do k <- next_kernel its rats' ;;
      Ok (map (fun i => advance i (Some (Leaf t l))) (expecting (TM t) its) ++ k)
    end.
  (* 931-940  the goal node of an item that has seen the end *)
  Definition goal_node (i : item) : res tree :=
    match trans i with
    | _ :: Some (Node p ch) :: _ => do _ <- assert_ (lhs p =? goal) ;; Ok (Node p ch)
    | _ => Err AttributeError
    end.
  Fixpoint goal_nodes (is : list item) : res (list tree) :=
    match is with [] => Ok [] | i :: is' => do n <- goal_node i ;; do ns <- goal_nodes is' ;; Ok (n :: ns) end.
  (* 815-956  the main loop; f is the fuel for closing a set *)
  Fixpoint main (n f : nat) (before : list (list item)) (kernel : list item) (pos : place) (latest : option tree) : res tree :=
    match n with
    | 0 => Err OutOfFuel
    | S n =>
      do its <- close before pos f kernel ;;
      let exp := terminals its [] in
      match exp with
      | [] => cannot_continue latest
      | _ =>
        let latest := if all then latest else match expecting (TM ACC) its with [] => latest | i :: _ => transit i end in
        do kl <- kludge its ;;
        do r <- gnti pos exp kl ;;
        match r with
        | None => cannot_continue latest
        | Some (rats, next) =>
          do _ <- assert_ (tpos pos <=? tpos next) ;;
          do k <- next_kernel its rats ;;
          do _ <- assert_ (negb (match k with [] => true | _ => false end)) ;;
          match rats with
          | [(t, _)] =>
            if t =? END then do ns <- goal_nodes k ;; match ns with [] => Err AssertionError | g :: _ => Ok g end
            else main n f (before ++ [its]) k next latest
          | _ => main n f (before ++ [its]) k next latest
          end
        end
      end
    end.
  Definition parse (n f : nat) (start : place) : res tree := main n f [] [initial] start None.
End Earley.

(* es_parser.py:1798-1842  LexicalTIP.get_next_terminal_instances; an instance is identified by its position *)
Definition lexical_gnti (matches : nat -> N -> bool) (t : text) (pos : nat) (exp : list nat) (kl : option nat) : res (option (list (nat * nat) * nat)) :=
  do _ <- assert_ (match kl with None => true | Some _ => false end) ;;
  if length t <? pos then Err AssertionError
  else match nth_error t pos with
       | None => Ok None
       | Some c =>
         match filter (fun r => matches r c) exp with
         | [] => Ok None
         | rs => Ok (Some (map (fun r => (r, pos)) rs, S pos))
         end
       end.
