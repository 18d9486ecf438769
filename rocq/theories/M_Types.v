(* Model of the static types, static_types.py. *)
From Verif Require Import M_Base.

(* Names of hierarchy types, record schemas and fields are numbered. *)

(* static_types.py:385-631  the classes derived from Type.  The members of a UnionType are a frozenset: the
   list gives them in iteration order, which is arbitrary. *)
Inductive ty :=
| TBD
| Hier (name : nat)
| ListT (element_type : ty)
| RecT (schema_name : nat) (fields_info : list (nat * ty))
| ProcT (param_types : list ty) (return_type : ty)
| UnionT (member_types : list ty).

(* == on these frozen dataclasses *)
Fixpoint ty_eqb (a b : ty) {struct a} : bool :=
  match a, b with
  | TBD, TBD => true
  | Hier m, Hier n => m =? n
  | ListT x, ListT y => ty_eqb x y
  | RecT s fs, RecT s' fs' => (s =? s') &&
    (fix go (fs fs' : list (nat * ty)) : bool :=
       match fs, fs' with
       | [], [] => true
       | (n, t) :: r, (n', t') :: r' => (n =? n') && ty_eqb t t' && go r r'
       | _, _ => false
       end) fs fs'
  | ProcT ps r, ProcT ps' r' =>
    (fix go (ps ps' : list ty) : bool :=
       match ps, ps' with
       | [], [] => true
       | t :: q, t' :: q' => ty_eqb t t' && go q q'
       | _, _ => false
       end) ps ps' && ty_eqb r r'
  | UnionT ms, UnionT ms' =>
    forallb (fun x => existsb (ty_eqb x) ms') ms && forallb (fun y => existsb (fun x => ty_eqb x y) ms) ms'
  | _, _ => false
  end.

(* numbers of some names that the code mentions *)
Definition T_Top_ := 0.
Definition T_Normal := 1.
Definition T_List := 2.
Definition T_Record := 3.
Definition T_proc_ := 4.
Definition T_other_ := 5.
Definition T_String := 6.
Definition T_Undefined := 7.
Definition T_tilde_normal_ := 8.
Definition T_tilde_break_ := 9.
Definition T_tilde_continue_ := 10.
Definition T_tilde_return_ := 11.
Definition T_tilde_throw_ := 12.
Definition anonymous_schema := 0.        (* '' *)
Definition Completion_Record_schema := 1. (* 'Completion Record' *)
Definition Type_field := 0.              (* '[[Type]]' *)
Definition Value_field := 1.             (* '[[Value]]' *)

(* static_types.py:1187 *)
Definition T_0 : ty := UnionT [].
(* static_types.py:1195-1204 *)
Definition T_Completion_Record : ty := RecT Completion_Record_schema [].
Definition CompletionType (t : ty) : ty := RecT Completion_Record_schema [(Type_field, t)].
Definition ts_in_CR : list ty :=                                          (* 196-202 *)
  [CompletionType (Hier T_tilde_normal_); CompletionType (Hier T_tilde_break_); CompletionType (Hier T_tilde_continue_);
   CompletionType (Hier T_tilde_return_); CompletionType (Hier T_tilde_throw_)].

(* ---- sets of types ---- *)

Definition tmem (x : ty) (s : list ty) : bool := existsb (ty_eqb x) s.
Definition tadd (x : ty) (s : list ty) : list ty := if tmem x s then s else s ++ [x].
Definition tset (l : list ty) : list ty := fold_left (fun s x => tadd x s) l [].
Definition tdiscard (x : ty) (s : list ty) : list ty := filter (fun y => negb (ty_eqb x y)) s.
Definition tsubset (a b : list ty) : bool := forallb (fun x => tmem x b) a.

(* static_types.py:28-29 *)
Definition set_of_types (t : ty) : list ty := match t with UnionT ms => ms | _ => [t] end.

(* ---- the hierarchy, static_types.py:1019-1050 ---- *)

(* TNode: type, type of the parent, level; the children of a node are the later nodes that name it as parent *)
Record tnode := mkT { tn_type : nat; tn_parent : option nat; tn_level : nat }.
Notation hier := (list tnode).
(* _tnode_for_type_[a] *)
Definition tnode_for (h : hier) (a : nat) : res tnode :=
  match find (fun t => tn_type t =? a) h with Some t => Ok t | None => Err KeyError end.
(* static_types.py:1022-1037 *)
Definition new_TNode (h : hier) (a : nat) (parent : option nat) : res hier :=
  do lev <- match parent with
            | None => Ok 0
            | Some p => do t <- tnode_for h p ;; Ok (S (tn_level t))
            end ;;
  do _ <- assert_ (negb (existsb (fun t => tn_type t =? a) h)) ;;
  Ok (h ++ [mkT a parent lev]).
Definition children (h : hier) (a : nat) : list nat :=
  map tn_type (filter (fun t => match tn_parent t with Some p => p =? a | None => false end) h).

(* all(...) and any(...) over calls that may raise *)
Section AllAny.
  Context {A : Type} (f : A -> res bool).
  Fixpoint all_r (l : list A) : res bool :=
    match l with
    | [] => Ok true
    | x :: l' => do b <- f x ;; if b then all_r l' else Ok false
    end.
  Fixpoint any_r (l : list A) : res bool :=
    match l with
    | [] => Ok false
    | x :: l' => do b <- f x ;; if b then Ok true else any_r l'
    end.
  Fixpoint filter_r (l : list A) : res (list A) :=
    match l with
    | [] => Ok []
    | x :: l' => do b <- f x ;; do r <- filter_r l' ;; Ok (if b then x :: r else r)
    end.
End AllAny.

Definition is_TBD (t : ty) : bool := match t with TBD => true | _ => false end.

Section Types.
  Variable h : hier.                             (* the type hierarchy *)
  Variable schemas : list (nat * option nat).    (* spec.RecordSchema_for_name_: name, name of the super-schema (None: the root) *)

  (* records.py:280-286 *)
  Fixpoint self_and_supers (fuel s : nat) : res (list nat) :=
    match fuel with
    | O => Err OutOfFuel
    | S f =>
      match find (fun e => fst e =? s) schemas with
      | None => Err KeyError
      | Some (_, None) => Ok [s]
      | Some (_, Some p) => do r <- self_and_supers f p ;; Ok (s :: r)
      end
    end.

  (* static_types.py:258-259  going up n parents *)
  Fixpoint up (n : nat) (t : tnode) : res tnode :=
    match n with
    | O => Ok t
    | S n' => match tn_parent t with
              | Some p => do t' <- tnode_for h p ;; up n' t'
              | None => Err AttributeError
              end
    end.

  (* static_types.py:241-263  two different hierarchy types *)
  Definition hsub (a b : nat) : res bool :=
    do ta <- tnode_for h a ;;
    do tb <- tnode_for h b ;;
    if tn_level ta <? tn_level tb then Ok false
    else if tn_level ta =? tn_level tb then Ok false
    else
      do t <- up (tn_level ta - tn_level tb) ta ;;
      do _ <- assert_ (tn_level t =? tn_level tb) ;;
      Ok (tn_type t =? tn_type tb).

  (* T_x.is_a_subtype_of_or_equal_to(B) for two hierarchy types, from 55-101 *)
  Definition hier_sub (a b : nat) : res bool :=
    if b =? T_Top_ then Ok true else if a =? b then Ok true else hsub a b.

  (* static_types.py:65-87 on the member sets of A and B, with f for member_is_a_subtype_or_equal *)
  Definition sub_members (f : ty -> ty -> res bool) (As Bs : list ty) : res bool :=
    if existsb is_TBD As || existsb is_TBD Bs then Ok false
    else if tsubset As Bs then Ok true
    else all_r (fun a => any_r (fun b => f a b) Bs) As.
  Definition sub_member (f : ty -> ty -> res bool) (A : ty) (Bs : list ty) : res bool :=
    if is_TBD A || existsb is_TBD Bs then Ok false
    else if tmem A Bs then Ok true
    else any_r (fun b => f A b) Bs.
  (* static_types.py:55-101  is_a_subtype_of_or_equal_to (without the memo, which only remembers results) *)
  Definition sub_with (f : ty -> ty -> res bool) (A B : ty) : res bool :=
    if ty_eqb B (Hier T_Top_) then Ok true
    else match A with
         | UnionT ms => sub_members f ms (set_of_types B)
         | _ => sub_member f A (set_of_types B)
         end.

  (* static_types.py:234-380 *)
  Fixpoint member_sub (A B : ty) {struct A} : res bool :=
    match B with
    | UnionT _ | TBD => Err AssertionError
    | _ =>
      if ty_eqb A B then Ok true else
      match A with
      | UnionT _ | TBD => Err AssertionError
      | Hier a => match B with Hier b => hsub a b | _ => Ok false end
      | ListT e =>
        match B with
        | ListT e' => sub_with member_sub e e'
        | Hier b => hier_sub T_List b
        | RecT _ _ => Ok false
        | _ => Err AssertionError
        end
      | RecT s fs =>
        match B with
        | RecT s' fs' =>
          if (s =? anonymous_schema) && (s' =? anonymous_schema) then            (* 283-296 *)
            if forallb (fun e => existsb (fun e' => fst e =? fst e') fs') fs && forallb (fun e' => existsb (fun e => fst e =? fst e') fs) fs'
            then
              (fix go (fs : list (nat * ty)) : res bool :=
                 match fs with
                 | [] => Ok true
                 | (n, t) :: fs0 =>
                   match find (fun e => fst e =? n) (rev fs') with
                   | None => Err KeyError
                   | Some (_, t') => do b <- sub_with member_sub t t' ;; if b then go fs0 else Ok false
                   end
                 end) fs
            else Err AssertionError
          else if (s =? anonymous_schema) || (s' =? anonymous_schema) then Ok false    (* 297-300 *)
          else
            do _ <- match find (fun e => fst e =? s') schemas with None => Err KeyError | Some _ => Ok tt end ;;
            do sup <- self_and_supers (S (length schemas)) s ;;
            if existsb (Nat.eqb s') sup then                                        (* 309-317 *)
              all_r (fun (e' : nat * ty) =>                                         (* 331-350 *)
                (fix go (fs : list (nat * ty)) : res bool :=
                   match fs with
                   | [] => Ok false
                   | (n, t) :: fs0 => if n =? fst e' then sub_with member_sub t (snd e') else go fs0
                   end) fs) fs'
            else Ok false
        | Hier b =>                                                                 (* 354-360; B, a HierType, is never T_Completion_Record *)
          hier_sub T_Record b
        | ListT _ | ProcT _ _ => Ok false
        | _ => Err AssertionError
        end
      | ProcT ps r =>
        match B with
        | ProcT ps' r' =>
          do _ <- assert_ (length ps =? length ps') ;;
          (* 371-378  the generator expression is never consumed: an object, hence true *)
          sub_with member_sub r r'
        | Hier b => hier_sub T_proc_ b
        | ListT _ | RecT _ _ => Ok false
        | _ => Err AssertionError
        end
      end
    end.

  (* static_types.py:55-101 *)
  Definition is_a_subtype_of_or_equal_to (A B : ty) : res bool := sub_with member_sub A B.

  (* ---- union, static_types.py:636-869 ---- *)

  (* 859-862 *)
  Fixpoint rm_all_descendants_of (fuel n : nat) (s : list nat) : res (list nat) :=
    match fuel with
    | O => Err OutOfFuel
    | S f =>
      (fix go (cs : list nat) (s : list nat) : res (list nat) :=
         match cs with
         | [] => Ok s
         | c :: cs' => do s' <- rm_all_descendants_of f c (filter (fun x => negb (x =? c)) s) ;; go cs' s'
         end) (children h n) s
    end.
  (* 834-857 *)
  Fixpoint union_recurse (fuel n : nat) (s : list nat) : res (list nat) :=
    match fuel with
    | O => Err OutOfFuel
    | S f =>
      match children h n with
      | [] => Ok s
      | cs =>
        if existsb (Nat.eqb n) s then rm_all_descendants_of (S (length h)) n s
        else
          do s1 <- (fix go (cs : list nat) (s : list nat) : res (list nat) :=
                      match cs with
                      | [] => Ok s
                      | c :: cs' => do s' <- union_recurse f c s ;; go cs' s'
                      end) cs s ;;
          if forallb (fun c => existsb (Nat.eqb c) s1) cs
          then Ok (filter (fun x => negb (existsb (Nat.eqb x) cs)) s1 ++ [n])
          else Ok s1
      end
    end.
  (* 824-869 *)
  Definition union_of_hier_memtypes (l : list nat) : res (list nat) :=
    if length l <=? 1 then Ok l else union_recurse (S (length h)) T_Top_ l.

  (* 740-742  grouping by a key, in order of first appearance *)
  Fixpoint group_add (k : nat) (x : ty) (g : list (nat * list ty)) : list (nat * list ty) :=
    match g with
    | [] => [(k, [x])]
    | (k', xs) :: g' => if k =? k' then (k', xs ++ [x]) :: g' else (k', xs) :: group_add k x g'
    end.

  (* 755-776  completion record types by [[Type]]; Some t: broken off at t, which has no constraint *)
  Fixpoint cr_group (crs : list ty) (g : list (nat * list ty)) : res (option ty * list (nat * list ty)) :=
    match crs with
    | [] => Ok (None, g)
    | RecT s [] :: _ => Ok (Some (RecT s []), g)
    | RecT s ((fn, ft) :: rest) :: crs' =>
      do _ <- assert_ (fn =? Type_field) ;;
      match ft with
      | Hier n => cr_group crs' (group_add n (RecT s ((fn, ft) :: rest)) g)
      | UnionT ms =>
        do g' <- (fix go (ms : list ty) (g : list (nat * list ty)) : res (list (nat * list ty)) :=
                    match ms with
                    | [] => Ok g
                    | Hier n :: ms' => go ms' (group_add n (RecT s ((Type_field, Hier n) :: rest)) g)
                    | _ :: _ => Err AssertionError
                    end) ms g ;;
        cr_group crs' g'
      | _ => Err AssertionError
      end
    | _ => Err AssertionError
    end.
  (* 789-799; inl t: broken off at t, which has only a [[Type]] constraint *)
  Fixpoint cr_values (crs : list ty) (acc : list ty) : res (ty + list ty) :=
    match crs with
    | [] => Ok (inr acc)
    | RecT s fs :: crs' =>
      match fs with
      | [] => Err AssertionError
      | [_] => Ok (inl (RecT s fs))
      | _ :: (fn, ft) :: _ => do _ <- assert_ (fn =? Value_field) ;; cr_values crs' (acc ++ [ft])
      end
    | _ => Err AssertionError
    end.

  Definition is_list_memtype (t : ty) : bool := match t with ListT _ => true | Hier n => n =? T_List | _ => false end.
  Definition is_record_memtype (t : ty) : bool := match t with RecT _ _ => true | _ => false end.
  Definition is_proc_memtype (t : ty) : bool := match t with ProcT _ _ => true | _ => false end.
  Definition is_union (t : ty) : bool := match t with UnionT _ => true | _ => false end.
  Definition hier_names (l : list ty) : list nat :=
    flat_map (fun t => match t with Hier n => if n =? T_List then [] else [n] | _ => [] end) l.

  Section Parts.
    Variable rec : list ty -> res ty.        (* union_of_types, called recursively *)

    (* 718-721 *)
    Fixpoint element_types (lm : list ty) : res (list ty) :=
      match lm with
      | [] => Ok []
      | ListT e :: lm' => do es <- element_types lm' ;; Ok (e :: es)
      | _ :: _ => Err AttributeError
      end.
    (* 702-725 *)
    Definition union_of_list_memtypes (lm : list ty) : res (list ty) :=
      if length lm <=? 1 then Ok lm
      else
        let lm' := tdiscard (Hier T_List) lm in
        if length lm' =? 1 then Ok lm'
        else
          do es <- element_types lm' ;;
          do e <- rec es ;;
          Ok [ListT e].

    (* 781-808 *)
    Fixpoint cr_result (s : nat) (cg : list (nat * list ty)) : res (list ty) :=
      match cg with
      | [] => Ok []
      | (n, crs) :: cg' =>
        do r1 <- (if length crs =? 1 then Ok crs
                  else
                    do vs <- cr_values crs [] ;;
                    match vs with
                    | inl t => Ok [t]
                    | inr vts => do v <- rec vts ;; Ok [RecT s [(Type_field, Hier n); (Value_field, v)]]
                    end) ;;
        do r2 <- cr_result s cg' ;; Ok (r1 ++ r2)
      end.
    (* 746-811 *)
    Fixpoint record_groups (g : list (nat * list ty)) : res (list ty) :=
      match g with
      | [] => Ok []
      | (s, ms) :: g' =>
        do r <- (if length ms =? 1 then Ok ms
                 else if s =? anonymous_schema then Ok ms
                 else if s =? Completion_Record_schema then
                   do (brk, cg) <- cr_group ms [] ;;
                   match brk with
                   | Some t => Ok [t]
                   | None => cr_result s cg
                   end
                 else Err AssertionError) ;;
        do r' <- record_groups g' ;; Ok (r ++ r')
      end.
    (* 729-811 *)
    Definition union_of_record_memtypes (rm : list ty) : res (list ty) :=
      if length rm <=? 1 then Ok rm
      else record_groups (fold_left (fun g t => match t with RecT s _ => group_add s t g | _ => g end) rm []).
    (* 815-820 *)
    Definition union_of_proc_memtypes (pm : list ty) : res (list ty) :=
      if length pm <=? 1 then Ok pm else Err AssertionError.

    (* 652-698 *)
    Definition union_rest (types1 : list ty) : res ty :=
      do _ <- assert_ (forallb (fun t => forallb (fun m => negb (is_union m)) (set_of_types t)) types1) ;;     (* 656 *)
      let memtypes := tdiscard TBD (tset (flat_map set_of_types types1)) in
      do _ <- assert_ (0 <? length memtypes) ;;
      do ls <- union_of_list_memtypes (filter is_list_memtype memtypes) ;;
      do rs <- union_of_record_memtypes (filter is_record_memtype memtypes) ;;
      do ps <- union_of_proc_memtypes (filter is_proc_memtype memtypes) ;;
      do hs <- union_of_hier_memtypes (hier_names memtypes) ;;
      let result := ls ++ rs ++ ps ++ map Hier hs in
      do _ <- assert_ (0 <? length result) ;;
      match result with
      | [t] => Ok t
      | _ => do _ <- assert_ (negb (length (tset result) =? 1)) ;; Ok (UnionT (tset result))        (* 594 *)
      end.
  End Parts.

  (* 636-698 *)
  Fixpoint union_of_types (fuel : nat) (types : list ty) : res ty :=
    match fuel with
    | O => Err OutOfFuel
    | S f =>
      match types with
      | [] => Ok T_0
      | _ =>
        let types1 := tset types in
        match types1 with
        | [t] => Ok t
        | _ =>
          let types1 := tdiscard T_0 types1 in
          match types1 with
          | [t] => Ok t
          | _ =>
            let types1 := tdiscard TBD types1 in
            match types1 with
            | [t] => Ok t
            | _ => union_rest (union_of_types f) types1
            end
          end
        end
      end
    end.

  (* ---- splitting, static_types.py:105-231 ---- *)

  (* 147-217; one element of the loop, then the rest; [fuel] bounds the depth of the descent *)
  Fixpoint split_recurse (fuel : nat) (B : ty) (As Bs : list ty) (io : list ty * list ty) : res (list ty * list ty) :=
    match fuel with
    | O => Err OutOfFuel
    | S f =>
      (fix loop (As : list ty) (io : list ty * list ty) : res (list ty * list ty) :=
         match As with
         | [] => Ok io
         | a0 :: As' =>
           let a := if is_TBD a0 then Hier T_Top_ else a0 in
           do io' <-
             (if ty_eqb a (Hier T_Normal) && ty_eqb B T_Completion_Record then Ok (fst io, tadd a (snd io))
              else
                do s <- is_a_subtype_of_or_equal_to a B ;;
                if s then Ok (tadd a (fst io), snd io)
                else
                  do bs <- filter_r (fun b => is_a_subtype_of_or_equal_to b a) Bs ;;
                  match bs with
                  | [] => Ok (fst io, tadd a (snd io))
                  | _ =>
                    match a with
                    | Hier n =>
                      if n =? T_List then
                        match bs with
                        | [ListT e] => Ok (tadd (ListT e) (fst io), tadd (ListT (Hier T_other_)) (snd io))
                        | _ => Err AssertionError
                        end
                      else
                        do _ <- tnode_for h n ;;
                        split_recurse f B (map Hier (children h n)) bs io
                    | ListT e =>
                      if ty_eqb a (ListT (UnionT [Hier T_String; Hier T_Undefined])) &&
                         match bs with [b] => ty_eqb b (ListT (Hier T_String)) | _ => false end
                      then Ok (tadd (ListT (Hier T_String)) (fst io), tadd (ListT (UnionT [Hier T_String; Hier T_Undefined])) (snd io))
                      else Err AssertionError
                    | RecT _ _ =>
                      if ty_eqb a T_Completion_Record && tsubset bs ts_in_CR
                      then Ok (fold_left (fun io t => if tmem t bs then (tadd t (fst io), snd io) else (fst io, tadd t (snd io))) ts_in_CR io)
                      else Err AssertionError
                    | _ => Err KeyError
                    end
                  end) ;;
           loop As' io'
         end) As io
    end.

  Definition same_set (a b : list ty) : bool := tsubset a b && tsubset b a.
  (* 105-231, without the memo; [uf]: fuel for the unions *)
  Definition split_by (uf : nat) (A B : ty) : res (ty * ty) :=
    if same_set (set_of_types A) (set_of_types B) then Ok (A, T_0)
    else
      do io <- split_recurse (S (S (length h))) B (set_of_types A) (set_of_types B) ([], []) ;;
      do i <- union_of_types uf (fst io) ;;
      do o <- union_of_types uf (snd io) ;;
      Ok (i, o).
End Types.
