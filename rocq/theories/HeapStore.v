(** Set and Remove of the store on the tree in memory (store.go:246-260, 329-346, 392-401) as programs of single memory
    accesses.

    [inLoading] reads a flag of the handle that nobody changes here; the handler lists are not changed either.  The
    handlers are called after the last access; the calls are in the result. *)
From Coq Require Import List NArith Bool Arith.
From Verif Require Import GoStr Utf8 Node Trie Store Heap HeapWalk HeapGet.
Import ListNotations.
Open Scope nat_scope.

(** SetModified(true), radix/node.go:77-83: nType is read and then written *)
Definition p_setModified (a : nat) : prog unit :=
  GetN a (fun n => UpdN a (w_type (N.lor (htype n) NTModified)) (Ret tt)).

Section Store.
Variable grow : nat -> nat.
Variable rf : nat.

(** setKV without a callback, store.go:329-346: the old value and the calls of handlers *)
Definition p_setKV (s : store) (rt : nat) (path : gostring) (data : gval) (create : bool) : prog (gval * list ev) :=
  let* r := p_set grow rt (replace_byte 32 45 (full (so_h s) path)) data in
  let '(a, old, _) := r in
  let user := negb (so_loading s) in
  let create := if user then if gval_is_nil old then create else false else create in
  let* _ := (if user then p_setModified a else Ret tt) in
  Ret (old, tryOnSet s path user old data create).
(** Set, store.go:246-260 *)
Definition p_storeSet (dep : nat) (s : store) (rt : nat) (path : gostring) (data : gval) : prog (gval * list ev) :=
  let* q := p_query rf dep (so_h s) rt path in p_setKV s rt path data (negb (q_found q)).
(** a goroutine that sets keys, one after the other, each by some handle *)
Fixpoint p_storeSets (dep rt : nat) (job : list (store * gostring * gval)) : prog (list (gval * list ev)) :=
  match job with
  | [] => Ret []
  | (s, path, v) :: job =>
      let* x := p_storeSet dep s rt path v in
      let* l := p_storeSets dep rt job in
      Ret (x :: l)
  end.

(** Remove, store.go:392-401, with RemoveEx of the trie, radix/trie.go:568-587; the value is read after the node is gone *)
Definition p_storeRemove (dep : nat) (s : store) (rt : nat) (path : gostring) : prog (bool * list ev) :=
  let* r := p_search rf dep (so_h s) rt (full (so_h s) path) in
  match hs_node r, hs_partial r with
  | Some a, false =>
      match hs_parent r with
      | Some p =>
          let* b := p_remove grow p a in
          if b then GetN a (fun n => Ret (true, tryOnDelete s path (negb (so_loading s)) (hdata n))) else Ret (false, [])
      | None => Ret (false, [])
      end
  | _, _ => Ret (false, [])
  end.
End Store.
