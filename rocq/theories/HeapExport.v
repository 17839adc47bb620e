(** GetR, GetM and To (radix/cvter.go:342-574) on the tree in memory: programs of single memory accesses.

    The map that is built belongs to the goroutine alone, so the programs collect what is put and build the map at the end; a
    panic of the slice expression path[prelen+1:] is part of the result.  The locks are left out (see Locks.v); GetR and GetM
    take none. *)
From Coq Require Import List NArith Bool Arith.
From Verif Require Import GoStr Utf8 Node Trie Heap HeapGet HeapSee Cvter.
Import ListNotations.
Open Scope nat_scope.

(** what the callback gets and takes: path, fragment and node.Data() *)
Record item := Item { it_key : gostring; it_frag : list rune; it_data : gval }.
(** one call of the callback, node.go:587 and cvter.go:357-361, 369-394, 427-440, 461-477: the two arguments, then the tests,
    then the filter, which looks at the node on its own, then node.Data() *)
Definition p_take (d : rune) (flt : option (shown -> bool)) (a : nat) : prog (option item) :=
  GetN a (fun n1 => GetN a (fun n2 =>
  if simpleEndsWith (hpathS n1) d then Ret None
  else GetN a (fun n3 =>
    if isBranch (view a n3) then Ret None
    else
      let* ok := match flt with
                 | None => Ret true
                 | Some f => let* x := p_show a in Ret (f x)
                 end in
      if ok then GetN a (fun n4 => Ret (Some (Item (hpathS n1) (hpath n2) (hdata n4)))) else Ret None))).
(** the walk, node.go:586-591 *)
Fixpoint p_picks (pick : nat -> prog (list (option item))) (r i k : nat) : prog (list (option item)) :=
  match k with
  | O => Ret []
  | S k =>
      GetA r i (fun c =>
      let* l1 := pick c in
      let* l2 := p_picks pick r (S i) k in
      Ret (l1 ++ l2))
  end.
Fixpoint p_pick (d : rune) (flt : option (shown -> bool)) (fuel : nat) (s : nat) : prog (list (option item)) :=
  match fuel with
  | O => Spin
  | S f =>
      let* x := p_take d flt s in
      GetN s (fun n =>
      let* l := p_picks (p_pick d flt f) (sl_arr (hkids n)) 0 (sl_len (hkids n)) in
      Ret (x :: l))
  end.

(** Locate, trie.go:504-515: the search and node.isBranch() *)
Definition p_locate (rf depth : nat) (h : hdl) (rt : nat) (path : gostring) : prog (option nat * bool * bool) :=
  let* r := p_search rf depth h rt (full h path) in
  match hs_node r with
  | Some a => GetN a (fun _ => Ret (Some a, hs_partial r, negb (hs_partial r)))
  | None => Ret (None, hs_partial r, false)
  end.

(** the assignments of GetR, cvter.go:359, 392 *)
Definition put_items (l : list (option item)) : gmap :=
  fold_left (fun m x => match x with Some x => mset m (it_key x) (it_data x) | None => m end) l [].
Definition p_GetR (rf depth : nat) (h : hdl) (rt : nat) (path : gostring) (defs : list (option gmap)) : prog (res (option gmap)) :=
  if is_root_path path then let* l := p_pick (hdelim h) None depth rt in Ret (Ok (Some (put_items l)))
  else
    let* r := p_locate rf depth h rt path in
    let '(n, partial, found) := r in
    if found || partial then
      match n with
      | Some a => let* l := p_pick (hdelim h) None depth a in Ret (Ok (Some (put_items l)))
      | None => Ret Panic
      end
    else Ret (Ok (last_default None defs)).

(** the options with a filter that looks at the node in memory *)
Record hopts := HOpts { ho_keep : bool; ho_noflat : bool; ho_filter : option (shown -> bool) }.
(** cvter.go:434-438 and 469-475 *)
Definition root_item (keep : bool) (pre1 : nat) (m : gmap) (x : option item) : res gmap :=
  match x with
  | None => Ok m
  | Some x =>
      if keep then Ok (mset m (it_key x) (it_data x))
      else if pre1 <=? S (length (it_key x)) then
        do k <- slice_from pre1 (it_key x); Ok (mset m k (it_data x))
      else Ok m
  end.
Definition path_item (d : rune) (keep : bool) (pre : list gostring) (prelen : nat) (m : gmap) (x : option item) : res gmap :=
  match x with
  | None => Ok m
  | Some x =>
      if keep then Ok (Cvter.put true pre m (it_key x) (enc1 d) (it_data x))
      else if prelen + 1 =? length (it_key x) then
        Ok (Cvter.put false pre m (of_runes (it_frag x)) (enc1 d) (it_data x))
      else if prelen <? length (it_key x) then
        do k <- slice_from (prelen + 1) (it_key x);
        Ok (Cvter.put false pre m k (enc1 d) (it_data x))
      else Ok m
  end.
Definition p_GetM (order : gmap -> gmap) (rf depth : nat) (h : hdl) (rt : nat) (path : gostring) (o : hopts) : prog (res (option gmap)) :=
  let d := hdelim h in
  let fin m := Some (if ho_noflat o then splitCompactKeys d (order m) else m) in
  if is_root_path path then
    let pre1 := if is_nil (hprefix h) then 0 else length (hprefix h) + 2 in
    let* l := p_pick d (ho_filter o) depth rt in
    Ret (do m <- foldM (root_item (ho_keep o) pre1) l []; Ok (fin m))
  else
    let* r := p_locate rf depth h rt path in
    let '(n, partial, found) := r in
    if found || partial then
      match n with
      | Some a =>
          let pre := split_str (Join d [hprefix h; path]) (enc1 d) in
          let* l := p_pick d (ho_filter o) depth a in
          Ret (do m <- foldM (path_item d (ho_keep o) pre (getM_prelen h path)) l []; Ok (fin m))
      | None => Ret Panic
      end
    else Ret (Ok None).
(** To, cvter.go:551-574 *)
Definition p_To (order : gmap -> gmap) (rf depth : nat) (h : hdl) (rt : nat) (path : gostring) (o : hopts) : prog (res (option gmap)) :=
  let* r := p_GetM order rf depth h rt path o in
  match r with
  | Ok (Some m) => Ret (Ok (Some (splitCompactKeys (hdelim h) (order m))))
  | Ok None =>
      let* r2 := p_GetR rf depth h rt path [] in
      Ret (do r2 <- r2; Ok (match r2 with Some m => Some (splitCompactKeys (hdelim h) (order m)) | None => None end))
  | Panic => Ret Panic
  | Fuel => Ret Fuel
  end.

(** one of the three calls *)
Inductive ask := AskR (path : gostring) (defs : list (option gmap)) | AskM (path : gostring) (o : hopts) | AskTo (path : gostring) (o : hopts).
Definition ask_path (q : ask) : gostring := match q with AskR p _ | AskM p _ | AskTo p _ => p end.
Definition p_ask (order : gmap -> gmap) (rf depth : nat) (h : hdl) (rt : nat) (q : ask) : prog (res (option gmap)) :=
  match q with
  | AskR p defs => p_GetR rf depth h rt p defs
  | AskM p o => p_GetM order rf depth h rt p o
  | AskTo p o => p_To order rf depth h rt p o
  end.
(** the same on a tree; the filter looks at the nodes of that tree *)
Definition opts_on (o : hopts) : mopts := MOpts (ho_keep o) (ho_noflat o) (option_map (fun flt n => flt (show n)) (ho_filter o)).
Definition ask_on (order : gmap -> gmap) (rf : nat) (h : hdl) (t : tr) (q : ask) : res (option gmap) :=
  match q with
  | AskR p defs => GetR rf h t p defs
  | AskM p o => GetM rf order h t p (opts_on o)
  | AskTo p o => To rf order h t p (opts_on o)
  end.
(** the filter, if there is one, does not look at the addresses of the nodes *)
Definition blind (q : ask) : Prop :=
  match q with
  | AskR _ _ => True
  | AskM _ o | AskTo _ o =>
      match ho_filter o with
      | None => True
      | Some f => forall a b key frag branch v, f (Shown a key frag branch v) = f (Shown b key frag branch v)
      end
  end.
