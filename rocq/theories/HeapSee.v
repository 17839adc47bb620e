(** Walk on the tree in memory (radix/node.go:586-591, trie.go:861-876) with a callback that looks at the node it gets, as
    GetM and GetR do (radix/cvter.go:357-361, 427-442): a program of single memory accesses.

    The locks are left out (see Locks.v); walk itself takes none. *)
From Coq Require Import List NArith Bool Arith.
From Verif Require Import GoStr Utf8 Node Trie Heap HeapGet.
Import ListNotations.
Open Scope nat_scope.

(** what the callback gets, and what it reads from the node: IsBranch and Data *)
Record shown := Shown { sw_at : nat; sw_key : gostring; sw_frag : list rune; sw_branch : bool; sw_data : gval }.
Definition show (n : node) : shown := Shown (nid n) (npathS n) (npath n) (isBranch n) (ndata n).

(** cb(s.pathS, string(s.path), s), node.go:587 *)
Definition p_show (a : nat) : prog shown :=
  GetN a (fun n1 => GetN a (fun n2 => GetN a (fun n3 => GetN a (fun n4 =>
  Ret (Shown a (hpathS n1) (hpath n2) (isBranch (view a n3)) (hdata n4)))))).
(** the range loop, node.go:588-590, over the [k] elements from [i] on *)
Fixpoint p_tours (tour : nat -> prog (list shown)) (r i k : nat) : prog (list shown) :=
  match k with
  | O => Ret []
  | S k =>
      GetA r i (fun c =>
      let* l1 := tour c in
      let* l2 := p_tours tour r (S i) k in
      Ret (l1 ++ l2))
  end.
Fixpoint p_tour (fuel : nat) (s : nat) : prog (list shown) :=
  match fuel with
  | O => Spin
  | S f =>
      let* x := p_show s in
      GetN s (fun n =>
      let* l := p_tours (p_tour f) (sl_arr (hkids n)) 0 (sl_len (hkids n)) in
      Ret (x :: l))
  end.
(** Walk, trie.go:861-876 *)
Definition p_Walk (rf depth : nat) (h : hdl) (rt : nat) (path : gostring) : prog (list shown) :=
  if is_nil path then p_tour depth rt
  else
    let* r := p_search rf depth h rt path in
    let start := if hs_partial r then Some rt
                 else if (last (runes path) 0 =? hdelim h)%N then hs_node r
                 else hs_parent r in
    match start with Some a => p_tour depth a | None => Ret [] end.
