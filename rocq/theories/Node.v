(** Model of /repo/radix/node.go (and radix/insert.go).

    A Go [*nodeS[T]] is modelled by value; [nid] is the identity of the pointer. *)
From Coq Require Import List NArith Bool Arith Lia.
From Verif Require Import GoStr.
Import ListNotations.
Open Scope nat_scope.

(** node.go:15-21.  NTData = 1 << iota with iota = 2, NTModified = 1 << 3. *)
Definition NTBranch : N := 0%N.
Definition NTLeaf : N := 1%N.
Definition NTData : N := 4%N.
Definition NTModified : N := 8%N.
Definition NTMask : N := NTLeaf.

(** node.go:23-33, without the lock [rw].  [T] is [any]. *)
Inductive node : Type := mkNode {
  nid : nat;
  npath : list rune;
  npathS : gostring;
  nkids : list node;
  ndata : gval;
  ndesc : gostring;
  ncmt : gostring;
  ntag : gval;
  ntype : N }.

(** node.go:39-51 *)
Definition isBranch (n : node) : bool := (N.land (ntype n) NTMask =? NTBranch)%N.
Definition isLeaf (n : node) : bool := (N.land (ntype n) NTMask =? NTLeaf)%N.
Definition hasData (n : node) : bool := negb (N.land (ntype n) NTData =? 0)%N.
Definition isEmpty (n : node) : bool := (N.land (ntype n) NTData =? 0)%N.
Definition modified (n : node) : bool := negb (N.land (ntype n) NTModified =? 0)%N.
(** Key(), node.go:46, and KeyPiece(), node.go:47 *)
Definition key (n : node) : gostring := npathS n.
Definition keyPiece (n : node) : gostring := of_runes (npath n).

Definition set_type (n : node) (t : N) : node :=
  mkNode (nid n) (npath n) (npathS n) (nkids n) (ndata n) (ndesc n) (ncmt n) (ntag n) t.
Definition set_kids (n : node) (ks : list node) : node :=
  mkNode (nid n) (npath n) (npathS n) ks (ndata n) (ndesc n) (ncmt n) (ntag n) (ntype n).

(** node.go:77-98 *)
Definition setModified (b : bool) (n : node) : node :=
  set_type n (if b then N.lor (ntype n) NTModified else N.ldiff (ntype n) NTModified).
Definition toggleModified (n : node) : node := set_type n (N.lxor (ntype n) NTModified).
Definition resetModified (n : node) : node := set_type n (N.ldiff (ntype n) NTModified).

(** SetData, node.go:111-118 *)
Definition setData (v : gval) (n : node) : node :=
  mkNode (nid n) (npath n) (npathS n) (nkids n) v (ndesc n) (ncmt n) (ntag n)
         (N.lor (ntype n) NTData).
(** SetEmpty, node.go:127-136: data and tag zeroed, NTData kept *)
Definition setEmpty (n : node) : node :=
  mkNode (nid n) (npath n) (npathS n) (nkids n) GNil (ndesc n) (ncmt n) GNil (ntype n).
(** SetComment, node.go:139-144 *)
Definition setComment (desc cmt : gostring) (n : node) : node :=
  mkNode (nid n) (npath n) (npathS n) (nkids n) (ndata n) desc cmt (ntag n) (ntype n).
(** SetTag, node.go:149-154 *)
Definition setTag (tag : gval) (n : node) : node :=
  mkNode (nid n) (npath n) (npathS n) (nkids n) (ndata n) (ndesc n) (ncmt n) tag (ntype n).

(** StartsWith / EndsWith / endsWith, node.go:156-177 *)
Definition startsWith (n : node) (ch : rune) : bool :=
  match npath n with [] => false | c :: _ => (c =? ch)%N end.
Definition endsWith (n : node) (ch : rune) : bool :=
  match rev (npath n) with [] => false | c :: _ => (c =? ch)%N end.

(** remove, node.go:183-195: drops the first child that is the same pointer *)
Fixpoint remove_id (id : nat) (ks : list node) : bool * list node :=
  match ks with
  | [] => (false, [])
  | k :: t => if nid k =? id then (true, t)
              else let '(b, t') := remove_id id t in (b, k :: t')
  end.

(** findCommonPrefixLength, node.go:197-203 *)
Fixpoint cpl_len (word path : list rune) : nat :=
  match word, path with
  | a :: w, b :: p => if (a =? b)%N then S (cpl_len w p) else 0
  | _, _ => 0
  end.

(** insertAsLeaf, node.go:296-306.  Returns the updated receiver; the new node is [nx]. *)
Definition new_leaf (word : list rune) (fullPath : gostring) (data : gval) (nx : nat) : node :=
  mkNode nx word fullPath [] data [] [] GNil (N.lor NTLeaf NTData).
Definition insertAsLeaf (s : node) (word : list rune) (fullPath : gostring) (data : gval)
    (nx : nat) : node :=
  set_kids s (nkids s ++ [new_leaf word fullPath data nx]).

(** split, node.go:258-294.  [s.pathS[:len(s.pathS)-d]] cuts bytes by a rune count;
    it panics when d exceeds the byte length. *)
Definition split (s : node) (pos : nat) (nx : nat) : res node :=
  let d := length (npath s) - pos in
  let newNode := mkNode nx (skipn pos (npath s)) (npathS s) (nkids s) (ndata s) (ndesc s)
                        (ncmt s) (ntag s) (ntype s) in
  if d <=? length (npathS s) then
    Ok (mkNode (nid s) (firstn pos (npath s)) (firstn (length (npathS s) - d) (npathS s))
               [newNode] GNil [] [] GNil NTBranch)
  else Panic.

(** matchChildren, node.go:308-321.  The first child whose first rune is word[0], given
    with its left and right siblings; panics on child.path[0] or word[0] out of range. *)
Fixpoint matchChildren (word : list rune) (ks : list node)
  : res (option (list node * node * list node)) :=
  match ks with
  | [] => Ok None
  | k :: t =>
      match npath k, word with
      | c :: _, w :: _ =>
          if (c =? w)%N then Ok (Some ([], k, t))
          else do m <- matchChildren word t;
               match m with
               | Some (l, x, r) => Ok (Some (k :: l, x, r))
               | None => Ok None
               end
      | _, _ => Panic
      end
  end.

(** One call of the OnSetEx callback: cb(fullPath, oldData, node, trie); the node is
    recorded by identity. *)
Definition cbcall := (gostring * gval * nat)%type.

Record ires := IRes {
  ir_node : node;          (* the receiver after the call *)
  ir_next : nat;           (* next fresh identity *)
  ir_id : nat;             (* identity of the returned node *)
  ir_old : gval;           (* oldData *)
  ir_calls : list cbcall   (* calls of cb, in order (if cb is not nil) *)
}.

(** insertInternal, node.go:205-256 (= insert, insert.go:6-8).  The recursion descends
    into a child, so it is bounded by explicit fuel.  The callback is assumed not to
    modify the tree while the insertion is running; its calls are logged. *)
Fixpoint insertInternal (fuel : nat) (s : node) (word : list rune) (fullPath : gostring)
    (data : gval) (nx : nat) : res ires :=
  match fuel with
  | O => Fuel
  | S f =>
      let ourLen := length (npath s) in
      let wordLen := length word in
      (* 207-212 *)
      if (ourLen =? 0) && ((0 <? wordLen) && (length (nkids s) =? 0)) then
        Ok (IRes (insertAsLeaf s word fullPath data nx) (S nx) nx GNil [])
      else
        (* 215-218 *)
        let cpl := if (0 <? ourLen) && (0 <? wordLen) then cpl_len word (npath s) else 0 in
        (* 220-224 *)
        do (base, nx1) <- (if cpl <? ourLen
                           then do b <- split s cpl nx; Ok (b, S nx)
                           else Ok (s, nx));
        if cpl <? wordLen then
          (* 228-230 *)
          let word' := if 0 <? cpl then skipn cpl word else word in
          do m <- matchChildren word' (nkids base);
          match m with
          | Some (l, child, r) =>
              (* 232-240 *)
              do ir <- insertInternal f child word' fullPath data nx1;
              Ok (IRes (set_kids base (l ++ ir_node ir :: r)) (ir_next ir) (ir_id ir)
                       (ir_old ir) (ir_calls ir ++ [(fullPath, ir_old ir, ir_id ir)]))
          | None =>
              (* 241-246 *)
              Ok (IRes (insertAsLeaf base word' fullPath data nx1) (S nx1) nx1 GNil
                       [(fullPath, GNil, nx1)])
          end
        else
          (* 247-254: hit this node *)
          Ok (IRes (setData data base) nx1 (nid base) (ndata base)
                   [(fullPath, ndata base, nid base)])
  end.

(** extractor, node.go:323-337, with to = len(src).  For from >= to the loop body never
    runs and the zero values ("", 0, false) are returned. *)
Fixpoint extract_go (d : rune) (src : list rune) (i : nat) (acc : list rune)
  : gostring * nat * bool :=
  match src with
  | [] => ([], 0, false)
  | c :: t =>
      if (c =? d)%N then (of_runes (rev acc), i, false)
      else match t with
           | [] => (of_runes (rev (c :: acc)), S i, true)
           | _ => extract_go d t (S i) (c :: acc)
           end
  end.
Definition extractor (from : nat) (src : list rune) (d : rune) : gostring * nat * bool :=
  extract_go d (skipn from src) from [].

(** assignments kvpair[id] = val in execution order (a later one overrides an earlier) *)
Definition kvs := list (gostring * gostring).

Record mres := MRes {
  m_matched : bool;
  m_partial : bool;
  m_child : option node;
  m_parent : option node;
  m_kv : kvs
}.

(** first comparing loop of matchR, node.go:355-361: number of equal leading runes and
    the flag lastRuneIsDelimiter afterwards *)
Fixpoint scan (d : rune) (path word : list rune) (i : nat) (lrd : bool) : nat * bool :=
  match path, word with
  | c :: p, c1 :: w => if (c =? c1)%N then scan d p w (S i) (c =? d)%N else (i, lrd)
  | _, _ => (i, lrd)
  end.

(** sub-comparing loop, node.go:410-418 *)
Fixpoint subscan (d : rune) (p w : list rune) (src dst : nat) (lrd : bool) (ch : rune)
  : nat * nat * bool * rune :=
  match p, w with
  | c :: p', c1 :: w' =>
      if (c =? c1)%N then subscan d p' w' (S src) (S dst) (c =? d)%N c
      else (src, dst, lrd, c)
  | _, _ => (src, dst, lrd, ch)
  end.

(** how the block at the label [retriever] is left *)
Inductive rexit :=
| RReturn (r : mres)                                   (* return *)
| RBreak (src dst : nat) (lrd matched partial : bool) (kv : kvs).  (* break masterLoop *)

Definition colon : rune := 58%N.
Definition star : rune := 42%N.

(** the block node.go:370-434; every [goto retriever] consumes fuel *)
Fixpoint retriever (rf : nat) (d : rune) (s : node) (word : list rune)
    (parentNode : option node) (ch : rune) (src dst : nat) (lrd : bool) (kv : kvs)
  : res rexit :=
  match rf with
  | O => Fuel
  | S f =>
      let l := length (npath s) in
      let wl := length word in
      if lrd && (ch =? star)%N then
        (* 373-387 *)
        let '(id, _, _) := extractor (S src) (npath s) d in
        Ok (RReturn (MRes true false (Some s) parentNode
                          (kv ++ [(id, of_runes (skipn dst word))])))
      else if lrd && (ch =? colon)%N then
        (* 389-400 *)
        let '(id, src1, srcEnd) := extractor (S src) (npath s) d in
        let '(val, dst1, dstEnd) := extractor dst word d in
        let kv1 := kv ++ [(id, val)] in
        if srcEnd then
          if dstEnd then Ok (RReturn (MRes true false (Some s) parentNode kv1))
          else Ok (RBreak src1 dst1 lrd false false kv1)
        else if negb dstEnd then
          (* 410-428 *)
          let '(src2, dst2, lrd2, ch2) :=
            subscan d (skipn src1 (npath s)) (skipn dst1 word) src1 dst1 lrd ch in
          if (src2 =? l) && (dst2 =? wl) then Ok (RBreak src2 dst2 lrd2 true false kv1)
          else if (src2 =? l) && ((dst2 <? wl) && (0 <? length (nkids s)))
          then Ok (RBreak src2 dst2 lrd2 false true kv1)
          else retriever f d s word parentNode ch2 src2 dst2 lrd2 kv1
        else Ok (RReturn (MRes false false None None kv1))
      else (* 434 *)
        Ok (RReturn (MRes false false None None kv))
  end.

(** node.go:442-448: the result flags computed after the master loop *)
Definition after_loop (d : rune) (s : node) (word : list rune) (parentNode : option node)
    (src : nat) (matched partial : bool) : bool * bool * option node * option node :=
  let l := length (npath s) in
  let minL := Nat.min l (length word) in
  let child0 := if matched then Some s else None in
  let parent0 := if matched then parentNode else None in
  if (S src =? l) && (nth src (npath s) 0 =? d)%N then (true, partial, Some s, parentNode)
  else if (minL <? l) && (src =? minL) then (matched, true, Some s, parentNode)
  else if (l <=? minL) && ((src =? minL) && ((0 <? minL) && ((0 <? src) && negb partial)))
  then (true, partial, Some s, parentNode)
  else (matched, partial, child0, parent0).

(** matchR, node.go:346-468.  [rf] bounds the number of [goto retriever] jumps per node. *)
Fixpoint matchR (rf : nat) (d : rune) (s : node) (word : list rune) (lrd : bool)
    (parentNode : option node) (kv : kvs) {struct s} : res mres :=
  let l := length (npath s) in
  let wl := length word in
  if wl =? 0 then Ok (MRes true false (Some s) parentNode kv)
  else
    let minL := Nat.min l wl in
    let '(i, lrd1) := scan d (npath s) word 0 lrd in
    do ex <- (if i <? minL
              then retriever rf d s word parentNode (nth i (npath s) 0%N) i i lrd1 kv
              else Ok (RBreak i 0 lrd1 false false kv));
    match ex with
    | RReturn r => Ok r
    | RBreak src dst lrd2 mt pt kv2 =>
        let '(matched, partial, child, parent) := after_loop d s word parentNode src mt pt in
        if minL <? wl then
          match nkids s with
          | [] => Ok (MRes false true child parent kv2)
          | ks =>
              let dst' := if dst =? 0 then minL else dst in
              let rest := skipn dst' word in
              (fix loop (cs : list node) (last : mres) : res mres :=
                 match cs with
                 | [] => Ok last
                 | c :: cs' =>
                     do r <- matchR rf d c rest lrd2 (Some s) (m_kv last);
                     if m_matched r || m_partial r then Ok r else loop cs' r
                 end) ks (MRes matched partial child parent kv2)
          end
        else Ok (MRes matched partial child parent kv2)
    end.

(** walk, node.go:586-591: the visited nodes in callback order; the callback gets
    (npathS, of_runes npath, node) *)
Fixpoint walk (n : node) : list node :=
  n :: flat_map walk (nkids n).

(** Dup, node.go:559-579: new identities from [nx] in creation order; description,
    comment and tag are not copied.  [clone] stands for evendeep.MakeClone plus the
    type switch. *)
Fixpoint dupNode (clone : gval -> gval) (n : node) (nx : nat) : node * nat :=
  let '(ks, nx') :=
    (fix go (cs : list node) (x : nat) : list node * nat :=
       match cs with
       | [] => ([], x)
       | c :: cs' => let '(c', x1) := dupNode clone c x in
                     let '(cs'', x2) := go cs' x1 in (c' :: cs'', x2)
       end) (nkids n) (S nx) in
  (mkNode nx (npath n) (npathS n) ks (clone (ndata n)) [] [] GNil (ntype n), nx').
