(** Programs that call stores on one tree.

    A program is a list of calls, each with the store it goes through as that store is at the time of the call: its view
    of the trie, its loading flag, its handlers and its parents.  Handlers that call the store back are not modelled. *)
From Coq Require Import List NArith ZArith Bool Arith.
From Verif Require Import GoStr Utf8 Node Trie Store.
Import ListNotations.

(** the calls: Set, store.go:246-260, Remove, store.go:392-401, Get, MustGet and Has, store.go:227-243 and 414-416 *)
Inductive scall :=
| SSet (path : gostring) (v : gval)
| SRemove (path : gostring)
| SGet (path : gostring)
| SMust (path : gostring)
| SHas (path : gostring).
(** what the caller and the handlers see *)
Inductive sans :=
| ASet (old : gval) (es : list ev)
| ARem (removed : bool) (es : list ev)
| AGet (v : gval) (found : bool)
| AMust (v : gval)
| AHas (found : bool).

Definition st_call (rf : nat) (s : store) (t : tr) (c : scall) : res (tr * sans) :=
  match c with
  | SSet path v => do (t', _, old, es) <- st_Set rf s t path v; Ok (t', ASet old es)
  | SRemove path => do (t', b, es) <- st_Remove rf s t path; Ok (t', ARem b es)
  | SGet path => do (v, b) <- st_Get rf s t path; Ok (t, AGet v b)
  | SMust path => do v <- st_MustGet rf s t path; Ok (t, AMust v)
  | SHas path => do b <- st_Has rf s t path; Ok (t, AHas b)
  end.
Fixpoint st_run (rf : nat) (prog : list (store * scall)) (t : tr) : res (tr * list sans) :=
  match prog with
  | [] => Ok (t, [])
  | (s, c) :: prog' => do (t1, a) <- st_call rf s t c; do (t2, l) <- st_run rf prog' t1; Ok (t2, a :: l)
  end.
