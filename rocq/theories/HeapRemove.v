(** RemoveEx on the tree in memory (radix/trie.go:568-587) as a program of single memory accesses.  The warning of
    trie.go:583 is left out. *)
From Coq Require Import List NArith Bool Arith.
From Verif Require Import GoStr Utf8 Node Trie Heap HeapGet.
Import ListNotations.
Open Scope nat_scope.

Definition p_removeEx (grow : nat -> nat) (rf depth : nat) (h : hdl) (rt : nat) (path : gostring) : prog bool :=
  let* r := p_search rf depth h rt (full h path) in
  match hs_node r, hs_partial r with
  | Some a, false => match hs_parent r with Some p => p_remove grow p a | None => Ret false end
  | _, _ => Ret false
  end.
