(** Model of /repo/radix/trie.go and of the view constructors in /repo/radix/load.go.

    A Go [*trieS[T]] is split into the shared tree ([tr]: root node plus the supply of
    fresh identities) and the per-handle settings ([hdl]: prefix, delimiter, mode).
    Handles made by WithPrefix, N, R, BR, ... share the same tree. *)
From Coq Require Import List NArith Bool Arith Lia.
From Verif Require Import GoStr Node.
Import ListNotations.
Open Scope nat_scope.

(** RecusiveMode, trie.go:50-56 *)
Inductive rmode := ModeNone | ModeUp | ModeDown.

Record tr := Tr { root : node; next : nat }.
Record hdl := Hdl { hprefix : gostring; hdelim : rune; hmode : rmode }.

Definition empty_node (id : nat) : node := mkNode id [] [] [] GNil [] [] GNil NTBranch.
(** newTrie, trie.go:30-32: an empty root; the default delimiter is '.' *)
Definition newTrie : tr := Tr (empty_node 0) 1.
Definition dotChar : rune := 46%N.
Definition defaultHdl : hdl := Hdl [] dotChar ModeNone.

(** byte(s.delimiter): conversion rune -> byte truncates *)
Definition delim_byte (d : rune) : N := (d mod 256)%N.

(** the loop of Join, trie.go:352-362; [wrote] is [bytes > 0] *)
Fixpoint join_loop (d : rune) (wrote : bool) (args : list gostring) : gostring :=
  match args with
  | [] => []
  | it :: rest =>
      if is_nil it then join_loop d wrote rest
      else (if wrote then [delim_byte d] else []) ++ it ++ join_loop d true rest
  end.

(** Join, trie.go:340-377 (storeS.join, store.go:191-216, is the same function) *)
Fixpoint Join (d : rune) (args : list gostring) : gostring :=
  match args with
  | [] => []
  | [a] => a
  | a :: rest => if is_nil a then Join d rest else join_loop d false args
  end.

(** join1, trie.go:316-338 *)
Definition join1 (d : rune) (pre : gostring) (args : list gostring) : gostring :=
  if is_nil pre then Join d args
  else if is_nil args then pre
  else pre ++ join_loop d true args.

(** the common prologue of all methods: if s.prefix != "" { path = s.Join(s.prefix, path) } *)
Definition full (h : hdl) (path : gostring) : gostring :=
  if is_nil (hprefix h) then path else Join (hdelim h) [hprefix h; path].

(** view constructors, load.go:15-57 *)
Definition withPrefix (h : hdl) (prefix : list gostring) : hdl :=
  Hdl (join1 (hdelim h) (hprefix h) prefix) (hdelim h) (hmode h).
Definition withPrefixReplaced (h : hdl) (newPrefix : list gostring) : hdl :=
  Hdl (Join (hdelim h) newPrefix) (hdelim h) (hmode h).
(** SetPrefix, load.go:35-37, is the same assignment on the receiver *)
Definition setPrefix (h : hdl) (newPrefix : list gostring) : hdl :=
  Hdl (Join (hdelim h) newPrefix) (hdelim h) (hmode h).
Definition viewN (h : hdl) : hdl := Hdl (hprefix h) (hdelim h) ModeNone.
Definition viewR (h : hdl) : hdl := Hdl (hprefix h) (hdelim h) ModeDown.
Definition viewBR (h : hdl) : hdl := Hdl (hprefix h) (hdelim h) ModeUp.
(** SetDelimiter, trie.go:824 *)
Definition setDelimiter (h : hdl) (d : rune) : hdl := Hdl (hprefix h) d (hmode h).

(** In-place modification of the node with identity [id] (assignment through a pointer). *)
Fixpoint upd (id : nat) (f : node -> node) (n : node) : node :=
  let n' := if nid n =? id then f n else n in
  set_kids n' (map (upd id f) (nkids n)).

(** parent.remove(node): the child [id] of the node [pid] is dropped *)
Fixpoint rem_child (pid id : nat) (n : node) : node :=
  let ks := map (rem_child pid id) (nkids n) in
  if nid n =? pid then set_kids n (snd (remove_id id ks)) else set_kids n ks.

(** insertion at the root, as called by all setters *)
Definition insert_root (t : tr) (path : gostring) (data : gval) : res (tr * ires) :=
  let word := runes path in
  do ir <- insertInternal (S (S (length word))) (root t) word path data (next t);
  Ok (Tr (ir_node ir) (ir_next ir), ir).

(** Set, trie.go:388-396; strings.ReplaceAll(path, " ", "-") is a byte-wise map, so the
    preceding strings.Contains test is redundant.  Returns node identity and oldData.
    Insert, trie.go:379-382, only drops the node. *)
Definition Set_ (h : hdl) (t : tr) (path : gostring) (data : gval) : res (tr * nat * gval) :=
  let path := replace_byte 32 45 (full h path) in
  do (t', ir) <- insert_root t path data; Ok (t', ir_id ir, ir_old ir).

(** SetEx, trie.go:400-406; returns oldData and the logged callback calls *)
Definition SetEx (h : hdl) (t : tr) (path : gostring) (data : gval)
  : res (tr * gval * list cbcall) :=
  do (t', ir) <- insert_root t (full h path) data; Ok (t', ir_old ir, ir_calls ir).

(** the switch of SetNode, trie.go:414-423 *)
Definition apply_dc (dc : list gostring) (n : node) : node :=
  match dc with
  | [] => n
  | [a] => setComment a (ncmt n) n
  | [a; b] => setComment a b n
  | a :: rest => setComment a (join_str rest [10%N]) n
  end.

(** SetNode, trie.go:409-426.  The parameter [tag] is not used by the code. *)
Definition SetNode (h : hdl) (t : tr) (path : gostring) (data : gval) (tag : gval)
    (dc : list gostring) : res (tr * nat * gval) :=
  do (t', ir) <- insert_root t (full h path) data;
  Ok (Tr (upd (ir_id ir) (apply_dc dc) (root t')) (next t'), ir_id ir, ir_old ir).

(** SetEmpty, trie.go:429-437 *)
Definition SetEmpty (h : hdl) (t : tr) (path : gostring) : res (tr * gval) :=
  do (t', ir) <- insert_root t (full h path) GNil;
  Ok (Tr (upd (ir_id ir) setEmpty (root t')) (next t'), ir_old ir).

(** Update, trie.go:439-446.  The callback acts on the node through its Node methods,
    modelled as a function [cb old] on the node. *)
Definition Update (h : hdl) (t : tr) (path : gostring) (cb : gval -> node -> node)
  : res tr :=
  do (t', ir) <- insert_root t (full h path) GNil;
  Ok (Tr (upd (ir_id ir) (cb (ir_old ir)) (root t')) (next t')).

Section WithFuel.
(** bound for the [goto retriever] jumps in matchR; irrelevant for pattern-free trees *)
Variable rf : nat.

(** one probe of search: found.search(mctx, []rune(w), false, nil, kvpair) *)
Definition probe (d : rune) (t : tr) (w : gostring) (kv : kvs) : res mres :=
  matchR rf d (root t) (runes w) false None kv.

Record sres := SRes {
  s_node : option node;
  s_parent : option node;
  s_partial : bool;
  s_kv : kvs }.

(** the retry loop of search, trie.go:742-753 *)
Fixpoint climb (fuel : nat) (d : rune) (t : tr) (w : gostring) (kv : kvs) : res sres :=
  match fuel with
  | O => Fuel
  | S f =>
      let a := split_str w (enc1 d) in
      if 2 <? length a then
        let a' := firstn (length a - 2) a ++ skipn (length a - 1) a in
        let w' := join_str a' (enc1 d) in
        do r <- probe d t w' kv;
        if m_matched r || m_partial r
        then Ok (SRes (m_child r) (m_parent r) (m_partial r) (m_kv r))
        else climb f d t w' (m_kv r)
      else Ok (SRes None None false kv)
  end.

(** search, trie.go:731-758.  [word] already contains the prefix. *)
Definition search (h : hdl) (t : tr) (word : gostring) : res sres :=
  let d := hdelim h in
  do r <- probe d t word [];
  if m_matched r || m_partial r
  then Ok (SRes (m_child r) (m_parent r) (m_partial r) (m_kv r))
  else match hmode h with
       | ModeUp =>
           if contains (enc1 d) word
           then climb (S (length word)) d t word (m_kv r)
           else Ok (SRes None None false (m_kv r))
       | _ => Ok (SRes None None false (m_kv r))
       end.

(** node != nil && !partialMatched *)
Definition s_found (r : sres) : bool :=
  match s_node r with Some _ => negb (s_partial r) | None => false end.

(** SetComment, trie.go:451-460, and SetTag, trie.go:465-474 *)
Definition SetComment (h : hdl) (t : tr) (path desc cmt : gostring) : res (tr * bool) :=
  do r <- search h t (full h path);
  match s_node r with
  | Some n => Ok (Tr (upd (nid n) (setComment desc cmt) (root t)) (next t), true)
  | None => Ok (t, false)
  end.
Definition SetTag (h : hdl) (t : tr) (path : gostring) (tag : gval) : res (tr * bool) :=
  do r <- search h t (full h path);
  match s_node r with
  | Some n => Ok (Tr (upd (nid n) (setTag tag) (root t)) (next t), true)
  | None => Ok (t, false)
  end.

(** Search, trie.go:494-501, and Has, trie.go:534-541 *)
Definition Search_ (h : hdl) (t : tr) (path : gostring) : res bool :=
  do r <- search h t (full h path); Ok (s_found r).
Definition Has (h : hdl) (t : tr) (path : gostring) : res bool :=
  do r <- search h t (full h path); Ok (s_found r).

(** Locate, trie.go:504-515: node, branch, partialMatched, found and the bindings *)
Definition Locate (h : hdl) (t : tr) (path : gostring)
  : res (option node * bool * bool * bool * kvs) :=
  do r <- search h t (full h path);
  match s_node r with
  | Some n => Ok (Some n, isBranch n, s_partial r, negb (s_partial r), s_kv r)
  | None => Ok (None, false, s_partial r, false, s_kv r)
  end.

(** HasPart, trie.go:546-556 *)
Definition HasPart (h : hdl) (t : tr) (path : gostring) : res bool :=
  let path := full h path in
  do r <- search h t path;
  match s_node r with
  | Some n => Ok (if s_partial r then has_prefix path (npathS n) else true)
  | None => Ok (s_partial r)
  end.

(** RemoveEx, trie.go:568-585: the removed node (with its subtree), its parent, removed *)
Definition RemoveEx (h : hdl) (t : tr) (path : gostring)
  : res (tr * option node * option node * bool) :=
  do r <- search h t (full h path);
  match s_node r, s_partial r with
  | Some n, false =>
      match s_parent r with
      | Some p =>
          if fst (remove_id (nid n) (nkids p))
          then Ok (Tr (rem_child (nid p) (nid n) (root t)) (next t), Some n, Some p, true)
          else Ok (t, None, None, false)
      | None => Ok (t, None, None, false)
      end
  | _, _ => Ok (t, None, None, false)
  end.

(** Remove, trie.go:562-565 *)
Definition Remove (h : hdl) (t : tr) (path : gostring) : res (tr * bool) :=
  do (t', _, _, b) <- RemoveEx h t path; Ok (t', b).

Record qres := QRes { q_data : gval; q_branch : bool; q_found : bool; q_kv : kvs }.

(** the body shared by Query, trie.go:702-726, and getNode, trie.go:612-636; the error is
    errors.NotFound exactly if found is false *)
Definition query_of (d : rune) (r : sres) : qres :=
  match s_node r, s_partial r with
  | Some n, false =>
      QRes (if hasData n then ndata n else GNil)
           (isBranch n)
           (if isBranch n then endsWith n d else true)
           (s_kv r)
  | _, _ => QRes GNil false false (s_kv r)
  end.
Definition Query (h : hdl) (t : tr) (path : gostring) : res qres :=
  do r <- search h t (full h path); Ok (query_of (hdelim h) r).

(** MustGet, trie.go:590-597, and Get, trie.go:600-603 *)
Definition MustGet (h : hdl) (t : tr) (path : gostring) : res gval :=
  do q <- Query h t path;
  Ok (if negb (q_found q) && negb (q_branch q) then GNil else q_data q).
Definition Get (h : hdl) (t : tr) (path : gostring) : res (gval * bool) :=
  do q <- Query h t path; Ok (q_data q, q_found q).

(** GetEx, trie.go:605-610, with getNode: [kvpair] is a nil map, so the callback always
    receives no bindings.  The result is the argument list of the callback, if called. *)
Definition GetEx (h : hdl) (t : tr) (path : gostring)
  : res (option (option node * gval * bool * kvs)) :=
  do r <- search h t (full h path);
  let q := query_of (hdelim h) r in
  Ok (if q_found q then Some (s_node r, q_data q, q_branch q, []) else None).

(** getNodeFast, trie.go:638-655: the node, if err == nil *)
Definition getNodeFast (h : hdl) (t : tr) (path : gostring) : res (option node) :=
  do r <- search h t (full h path);
  Ok (match s_node r, s_partial r with
      | Some n, false =>
          if isBranch n then if endsWith n (hdelim h) then Some n else None else Some n
      | _, _ => None
      end).
(** GetDesc / GetTag / GetComment, trie.go:657-694: value and err == nil *)
Definition GetDesc (h : hdl) (t : tr) (path : gostring) : res (gostring * bool) :=
  do o <- getNodeFast h t path;
  Ok (match o with Some n => (ndesc n, true) | None => ([], false) end).
Definition GetTag (h : hdl) (t : tr) (path : gostring) : res (gval * bool) :=
  do o <- getNodeFast h t path;
  Ok (match o with Some n => (ntag n, true) | None => (GNil, false) end).
Definition GetComment (h : hdl) (t : tr) (path : gostring) : res (gostring * bool) :=
  do o <- getNodeFast h t path;
  Ok (match o with Some n => (ncmt n, true) | None => ([], false) end).

(** trie-level StartsWith / EndsWith, cvter.go:326-340 *)
Definition StartsWith (h : hdl) (t : tr) (path : gostring) (r : rune) : res bool :=
  do (n, _, _, found, _) <- Locate h t path;
  Ok (match n with Some n => if found : bool then startsWith n r else false | None => false end).
Definition EndsWith (h : hdl) (t : tr) (path : gostring) (r : rune) : res bool :=
  do (n, _, _, found, _) <- Locate h t path;
  Ok (match n with Some n => if found : bool then endsWith n r else false | None => false end).

(** Walk, trie.go:861-876: the visited nodes.  The prefix is not applied to [path]. *)
Definition Walk (h : hdl) (t : tr) (path : gostring) : res (list node) :=
  if is_nil path then Ok (walk (root t))
  else
    do r <- search h t path;
    let rt := if s_partial r then Some (root t)
              else if (last (runes path) 0 =? hdelim h)%N then s_node r
              else s_parent r in
    Ok (match rt with Some n => walk n | None => [] end).
End WithFuel.

(** Dup, trie.go:855-857: a new tree; the settings are those of the receiver *)
Definition Dup (clone : gval -> gval) (t : tr) : tr :=
  let '(r, nx) := dupNode clone (root t) (next t) in Tr r nx.
