(* Model of DecoratedFuncDict.py. *)
From Verif Require Import M_Base.

Section FuncDict.
  Context {K F : Type} (keq : K -> K -> bool).

  (* DecoratedFuncDict.py:19-24  __init__: two dicts with the same keys *)
  Record fdict := mkFD { funcs : list (K * F); counts : list (K * nat) }.
  Definition fd_init : fdict := mkFD [] [].

  (* Python dict lookup and assignment (insertion order kept), as used by
     DecoratedFuncDict.py:33-42 *)
  Fixpoint dget {V} (d : list (K * V)) (k : K) : option V :=
    match d with
    | [] => None
    | (k', v) :: d' => if keq k' k then Some v else dget d' k
    end.
  Fixpoint dset {V} (d : list (K * V)) (k : K) (v : V) : list (K * V) :=
    match d with
    | [] => [(k, v)]
    | (k', v') :: d' => if keq k' k then (k', v) :: d' else (k', v') :: dset d' k v
    end.

  (* The operations of the API. Put is both `foo[key] = func` (32-35,
     __setitem__) and the decorator `@foo.put(key)` (26-30), which calls it. *)
  Inductive op := Put (k : K) (f : F) | Contains (k : K) | Get (k : K).
  Inductive out := OUnit | OBool (b : bool) | OFunc (f : F).

  (* DecoratedFuncDict.py:32-43 *)
  Definition step (s : fdict) (o : op) : fdict * res out :=
    match o with
    | Put k f =>                                               (* 32-35 *)
      match dget (funcs s) k with
      | Some _ => (s, Err AssertionError)
      | None => (mkFD (dset (funcs s) k f) (dset (counts s) k 0), Ok OUnit)
      end
    | Contains k =>                                            (* 37-38 *)
      (s, Ok (OBool (match dget (funcs s) k with Some _ => true | None => false end)))
    | Get k =>                                                 (* 40-43 *)
      match dget (funcs s) k with
      | None => (s, Err KeyError)
      | Some f =>
        match dget (counts s) k with
        | None => (s, Err KeyError)
        | Some n => (mkFD (funcs s) (dset (counts s) k (n + 1)), Ok (OFunc f))
        end
      end
    end.

  (* a history of calls, with the result of each call *)
  Fixpoint run (s : fdict) (h : list op) : fdict * list (res out) :=
    match h with
    | [] => (s, [])
    | o :: h' => let (s1, r) := step s o in let (s2, rs) := run s1 h' in (s2, r :: rs)
    end.

  (* 45-46  access_counts *)
  Definition access_counts (s : fdict) : list (K * nat) := counts s.
End FuncDict.
