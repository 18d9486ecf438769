(* Python dicts with insertion order, keys numbered. *)
From Verif Require Import M_Base.

Section Dict.
  Context {V : Type}.
  (* d.get(k) *)
  Fixpoint nget (d : list (nat * V)) (k : nat) : option V :=
    match d with
    | [] => None
    | (k', v) :: d' => if k' =? k then Some v else nget d' k
    end.
  (* d[k] = v *)
  Fixpoint nset (d : list (nat * V)) (k : nat) (v : V) : list (nat * V) :=
    match d with
    | [] => [(k, v)]
    | (k', v') :: d' => if k' =? k then (k', v) :: d' else (k', v') :: nset d' k v
    end.
  (* d[k] *)
  Definition nidx (d : list (nat * V)) (k : nat) : res V :=
    match nget d k with Some v => Ok v | None => Err KeyError end.
  (* del d[k] *)
  Definition ndel (d : list (nat * V)) (k : nat) : list (nat * V) := filter (fun e => negb (fst e =? k)) d.
End Dict.
(* k in l, for numbered things *)
Definition nmem (k : nat) (l : list nat) : bool := existsb (Nat.eqb k) l.
(* s.add(k), for a set kept in order of insertion *)
Definition nadd (k : nat) (l : list nat) : list nat := if nmem k l then l else l ++ [k].
