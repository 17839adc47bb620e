(** Reading the tree in memory: search and Query (radix/node.go:346-468, trie.go:702-758) as programs of single memory
    accesses.

    The loops re-read the path of the node for each rune, as the code does; the block for patterns (node.go:370-434) reads
    the node once, which makes a difference only if the path is changed meanwhile.  The locks are left out (see Locks.v). *)
From Coq Require Import List NArith Bool Arith.
From Verif Require Import GoStr Utf8 Node Trie Heap.
Import ListNotations.
Open Scope nat_scope.

(** the fields of a node as read; the children are place holders *)
Definition hold (a : nat) : node := mkNode a [] [] [] GNil [] [] GNil 0%N.
Definition view (a : nat) (n : hnode) : node :=
  mkNode a (hpath n) (hpathS n) (repeat (hold 0) (sl_len (hkids n))) (hdata n) (hdesc n) (hcmt n) (htag n) (htype n).

(** the results of matchR: nodes are addresses *)
Record hmres := HM { hm_matched : bool; hm_partial : bool; hm_child : option nat; hm_parent : option nat; hm_kv : kvs }.
Inductive hexit :=
| HReturn (r : hmres)
| HBreak (src dst : nat) (lrd matched partial : bool) (kv : kvs).
Definition hids (r : mres) : hmres :=
  HM (m_matched r) (m_partial r) (option_map nid (m_child r)) (option_map nid (m_parent r)) (m_kv r).
Definition hexit_of (x : rexit) : hexit :=
  match x with RReturn r => HReturn (hids r) | RBreak s d l m p kv => HBreak s d l m p kv end.

(** the comparing loop, node.go:355-361, over the indices from [i] on, [k] of them; [word] from [i] on.  The rune of the
    path that differs is the third result. *)
Fixpoint p_scan (a : nat) (d : rune) (word : list rune) (i k : nat) (lrd : bool) {struct k} : prog (nat * bool * rune) :=
  match k with
  | O => Ret (i, lrd, 0%N)
  | S k =>
      GetN a (fun n =>
      match nth_error (hpath n) i, word with
      | Some c, w :: word => if (c =? w)%N then p_scan a d word (S i) k (c =? d)%N else Ret (i, lrd, c)
      | _, _ => Die                                   (* index out of range *)
      end)
  end.
(** node.go:442-448; [l] is the length of the path as it was at the start *)
Definition p_after (d : rune) (a l wl : nat) (parent : option nat) (src : nat) (matched partial : bool)
  : prog (bool * bool * option nat * option nat) :=
  let minL := Nat.min l wl in
  let child0 := if matched then Some a else None in
  let parent0 := if matched then parent else None in
  let rest :=
    if (minL <? l) && (src =? minL) then (matched, true, Some a, parent)
    else if (l <=? minL) && ((src =? minL) && ((0 <? minL) && ((0 <? src) && negb partial))) then (true, partial, Some a, parent)
    else (matched, partial, child0, parent0) in
  if S src =? l then
    GetN a (fun n => match nth_error (hpath n) src with
                     | Some c => Ret (if (c =? d)%N then (true, partial, Some a, parent) else rest)
                     | None => Die
                     end)
  else Ret rest.
(** the loop over the children, node.go:460-465, over the [k] elements from [i] on *)
Fixpoint p_each (go : nat -> kvs -> prog hmres) (r i k : nat) (last : hmres) : prog hmres :=
  match k with
  | O => Ret last
  | S k =>
      GetA r i (fun c =>
      let* x := go c (hm_kv last) in
      if hm_matched x || hm_partial x then Ret x else p_each go r (S i) k x)
  end.

Section Search.
Variable rf : nat.     (* bound for the jumps in the block for patterns *)

(** matchR, node.go:346-468 *)
Fixpoint p_matchR (fuel : nat) (d : rune) (a : nat) (word : list rune) (lrd : bool) (parent : option nat) (kv : kvs)
  : prog hmres :=
  match fuel with
  | O => Spin
  | S f =>
      let wl := length word in
      GetN a (fun n0 =>
      let l := length (hpath n0) in
      if wl =? 0 then Ret (HM true false (Some a) parent kv)
      else
        let minL := Nat.min l wl in
        let* sc := p_scan a d word 0 minL lrd in
        let '(i, lrd1, ch) := sc in
        let* ex := (if i <? minL
                    then GetN a (fun n => match retriever rf d (view a n) word (option_map hold parent) ch i i lrd1 kv with
                                          | Ok ex => Ret (hexit_of ex)
                                          | Panic => Die
                                          | Fuel => Spin
                                          end)
                    else Ret (HBreak i 0 lrd1 false false kv)) in
        match ex with
        | HReturn r => Ret r
        | HBreak src dst lrd2 mt pt kv2 =>
            let* af := p_after d a l wl parent src mt pt in
            let '(matched, partial, child, parent2) := af in
            if minL <? wl then
              GetN a (fun n1 =>
              if sl_len (hkids n1) =? 0 then Ret (HM false true child parent2 kv2)
              else
                GetN a (fun n2 =>
                p_each (fun c kv => p_matchR f d c (skipn (if dst =? 0 then minL else dst) word) lrd2 (Some a) kv)
                  (sl_arr (hkids n2)) 0 (sl_len (hkids n2)) (HM matched partial child parent2 kv2)))
            else Ret (HM matched partial child parent2 kv2)
        end)
  end.

Record hsres := HS { hs_node : option nat; hs_parent : option nat; hs_partial : bool; hs_kv : kvs }.
Definition hs_of (r : hmres) : hsres := HS (hm_child r) (hm_parent r) (hm_partial r) (hm_kv r).
(** the retry loop, trie.go:742-753 *)
Fixpoint p_climb (depth : nat) (fuel : nat) (d : rune) (rt : nat) (w : gostring) (kv : kvs) : prog hsres :=
  match fuel with
  | O => Spin
  | S f =>
      let a := split_str w (enc1 d) in
      if 2 <? length a then
        let w' := join_str (firstn (length a - 2) a ++ skipn (length a - 1) a) (enc1 d) in
        let* r := p_matchR depth d rt (runes w') false None kv in
        if hm_matched r || hm_partial r then Ret (hs_of r) else p_climb depth f d rt w' (hm_kv r)
      else Ret (HS None None false kv)
  end.
(** search, trie.go:731-758 *)
Definition p_search (depth : nat) (h : hdl) (rt : nat) (word : gostring) : prog hsres :=
  let d := hdelim h in
  let* r := p_matchR depth d rt (runes word) false None [] in
  if hm_matched r || hm_partial r then Ret (hs_of r)
  else match hmode h with
       | ModeUp => if contains (enc1 d) word then p_climb depth (S (length word)) d rt word (hm_kv r)
                   else Ret (HS None None false (hm_kv r))
       | _ => Ret (HS None None false (hm_kv r))
       end.
(** Query, trie.go:702-726 *)
Definition p_query (depth : nat) (h : hdl) (rt : nat) (path : gostring) : prog qres :=
  let* r := p_search depth h rt (full h path) in
  match hs_node r, hs_partial r with
  | Some a, false =>
      GetN a (fun n1 =>
      let branch := isBranch (view a n1) in
      let* found := (if branch then GetN a (fun n2 => Ret (endsWith (view a n2) (hdelim h))) else Ret true) in
      GetN a (fun n3 =>
      if hasData (view a n3) then GetN a (fun n4 => Ret (QRes (hdata n4) branch found (hs_kv r)))
      else Ret (QRes GNil branch found (hs_kv r))))
  | _, _ => Ret (QRes GNil false false (hs_kv r))
  end.
End Search.
