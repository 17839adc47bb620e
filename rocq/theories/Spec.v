(** Specification of the trie's API, independent of the tree: a finite map from keys
    (sequences of runes) to attributes, with the operations a user can call.

    Nothing here mentions nodes, fragments, splitting or searching. *)
From Coq Require Import List NArith Bool Arith.
From Verif Require Import GoStr.
Import ListNotations.
Open Scope nat_scope.

Definition skey := list rune.

Record attr := Attr {
  a_data : gval;
  a_desc : gostring;
  a_cmt : gostring;
  a_tag : gval;
  a_leaf : bool;      (* IsLeaf *)
  a_has : bool;       (* HasData *)
  a_mod : bool        (* Modified *)
}.

(** the map; the first binding of a key counts *)
Definition smap := list (skey * attr).
Fixpoint sget (m : smap) (k : skey) : option attr :=
  match m with
  | [] => None
  | (k', a) :: t => if str_eqb k' k then Some a else sget t k
  end.
Definition skeys (m : smap) : list skey := map fst m.
Definition smem (m : smap) (k : skey) : bool := existsb (fun k' => str_eqb k' k) (skeys m).

(** longest common prefix *)
Fixpoint common (a b : skey) : skey :=
  match a, b with
  | x :: a', y :: b' => if (x =? y)%N then x :: common a' b' else []
  | _, _ => []
  end.
(** [p] is a proper prefix of [k] *)
Definition sprefix (p k : skey) : bool := has_prefix p k && negb (str_eqb p k).

Definition bare (leaf has : bool) (v : gval) : attr := Attr v [] [] GNil leaf has false.

(** the empty store: only the root, key [] *)
Definition s_init : smap := [([], bare false false GNil)].

(** Branch points: wherever the new key parts from a stored one there is a branch node;
    it carries no data unless something was stored at it. *)
Definition forks (w : skey) (m : smap) : smap :=
  map (fun k => (common w k, bare false false GNil))
      (filter (fun k => negb (smem m (common w k))) (skeys m)).

(** storing [v] at [w] *)
Definition s_set (w : skey) (v : gval) (m : smap) : smap :=
  let new := match sget m w with
             | Some a => Attr v (a_desc a) (a_cmt a) (a_tag a) (a_leaf a) true (a_mod a)
             | None => bare (negb (existsb (sprefix w) (skeys m))) true v
             end in
  (w, new) :: forks w m ++ m.

(** the value stored before, nil if there was none *)
Definition s_old (w : skey) (m : smap) : gval :=
  match sget m w with Some a => a_data a | None => GNil end.

(** changing the attributes of one present key *)
Definition s_upd (w : skey) (f : attr -> attr) (m : smap) : smap :=
  match sget m w with Some a => (w, f a) :: m | None => m end.

(** which key a query for [w] refers to: [w] itself, else [w] plus a delimiter *)
Definition s_find (d : rune) (m : smap) (w : skey) : option skey :=
  if is_nil w then Some []
  else if smem m w then Some w
  else if smem m (w ++ [d]) then Some (w ++ [d])
  else None.

(** ** queries that miss *)
(** the shortest of some keys *)
Fixpoint shortest (ks : list skey) : option skey :=
  match ks with
  | [] => None
  | k :: t => match shortest t with
              | Some k' => Some (if length k <=? length k' then k else k')
              | None => Some k
              end
  end.

Inductive sres :=
| SFound (k : skey)    (* the query refers to the key k *)
| SPart (k : skey)     (* "partial match": k is the nearest key *)
| SMiss.

(** A query that finds no key is a partial match if it ends inside a longer key (then the
    shortest such key is the nearest), or if it runs past a key nothing is stored below. *)
Definition s_probe (d : rune) (m : smap) (w : skey) : sres :=
  match s_find d m w with
  | Some k => SFound k
  | None =>
      match shortest (filter (sprefix w) (skeys m)) with
      | Some k => SPart k
      | None =>
          match filter (fun k => sprefix k w && negb (existsb (sprefix k) (skeys m))) (skeys m) with
          | k :: _ => SPart k
          | [] => SMiss
          end
      end
  end.

(** ** looking up through a view *)
(** On a view of BR() a query that misses is retried with ever shorter owners: of the
    segments a1 ... an the last one is kept, and a1 ... ai for i = n-2, ..., 1. *)
Definition s_ups (d : rune) (word : gostring) : list gostring :=
  let segs := split_str word (enc1 d) in
  map (fun i => join_str (firstn i segs ++ [last segs []]) (enc1 d))
      (rev (seq 1 (length segs - 2))).

Fixpoint s_first (d : rune) (m : smap) (words : list gostring) : sres :=
  match words with
  | [] => SMiss
  | w :: rest => match s_probe d m (runes w) with SMiss => s_first d m rest | r => r end
  end.

(** the result of looking up the full path [word]; [up]: on a view of BR() *)
Definition s_search (d : rune) (up : bool) (m : smap) (word : gostring) : sres :=
  s_first d m (word :: if up then s_ups d word else []).

Definition s_hit (r : sres) : option skey := match r with SFound k => Some k | _ => None end.
Definition s_has (r : sres) : bool := match r with SFound _ => true | _ => false end.

(** Query: data, branch?, found? *)
Definition ends_with (d : rune) (k : skey) : bool :=
  match rev k with [] => false | c :: _ => (c =? d)%N end.
Definition s_query (d : rune) (m : smap) (r : sres) : gval * bool * bool :=
  match s_hit r with
  | Some k =>
      match sget m k with
      | Some a => (if a_has a then a_data a else GNil,
                   negb (a_leaf a),
                   a_leaf a || ends_with d k)
      | None => (GNil, false, false)
      end
  | None => (GNil, false, false)
  end.

(** removing: the key a query finds goes with everything below it; the root stays *)
Definition s_remove (m : smap) (r : sres) : smap * bool :=
  match s_hit r with
  | Some (c :: k) => (filter (fun e => negb (has_prefix (c :: k) (fst e))) m, true)
  | _ => (m, false)
  end.

(** ** the API as a machine *)
(** what a callback can do with a node *)
Inductive nodeop :=
| NSetData (v : gval)
| NSetComment (desc cmt : gostring)
| NSetTag (v : gval)
| NSetEmpty
| NSetModified (b : bool)
| NToggleModified
| NResetModified.

Definition s_nodeop (o : nodeop) (a : attr) : attr :=
  match o with
  | NSetData v => Attr v (a_desc a) (a_cmt a) (a_tag a) (a_leaf a) true (a_mod a)
  | NSetComment x y => Attr (a_data a) x y (a_tag a) (a_leaf a) (a_has a) (a_mod a)
  | NSetTag v => Attr (a_data a) (a_desc a) (a_cmt a) v (a_leaf a) (a_has a) (a_mod a)
  | NSetEmpty => Attr GNil (a_desc a) (a_cmt a) GNil (a_leaf a) (a_has a) (a_mod a)
  | NSetModified b => Attr (a_data a) (a_desc a) (a_cmt a) (a_tag a) (a_leaf a) (a_has a) b
  | NToggleModified =>
      Attr (a_data a) (a_desc a) (a_cmt a) (a_tag a) (a_leaf a) (a_has a) (negb (a_mod a))
  | NResetModified => Attr (a_data a) (a_desc a) (a_cmt a) (a_tag a) (a_leaf a) (a_has a) false
  end.

(** SetNode's extra arguments *)
Definition s_descs (dc : list gostring) (a : attr) : attr :=
  match dc with
  | [] => a
  | [x] => s_nodeop (NSetComment x (a_cmt a)) a
  | x :: rest => s_nodeop (NSetComment x (join_str rest [10%N])) a
  end.

Inductive op :=
| OSet (path : gostring) (v : gval)
| OSetEx (path : gostring) (v : gval)
| OSetNode (path : gostring) (v tag : gval) (dc : list gostring)
| OSetEmpty (path : gostring)
| OUpdate (path : gostring) (f : gval -> list nodeop)
| OSetWith (path : gostring) (v : gval) (f : gval -> list nodeop)   (* Set, then methods of the node it returns *)
| OSetComment (path desc cmt : gostring)
| OSetTag (path : gostring) (tag : gval)
| ORemove (path : gostring)
| OGet (path : gostring)
| OMustGet (path : gostring)
| OQuery (path : gostring)
| OHas (path : gostring)
| OSearch (path : gostring)
| OLocate (path : gostring)
| OGetEx (path : gostring)
| OGetDesc (path : gostring)
| OGetComment (path : gostring)
| OGetTag (path : gostring).

Inductive out :=
| RUnit
| ROld (v : gval)
| RBool (b : bool)
| RGet (v : gval) (ok : bool)
| RMust (v : gval)
| RQuery (v : gval) (branch found : bool)
| RLocate (node : option attr) (branch partial found : bool)
| RGetEx (args : option (gval * bool))
| RStr (s : gostring) (ok : bool)
| RTag (v : gval) (ok : bool).

(** GetDesc, GetComment, GetTag answer only for what Query reports as found *)
Definition s_attr (d : rune) (m : smap) (r : sres) : option attr :=
  match s_hit r with
  | Some k => match sget m k with
              | Some a => if a_leaf a || ends_with d k then Some a else None
              | None => None
              end
  | None => None
  end.

(** A view of the store: its delimiter, how it completes the caller's path, and whether it
    was made by BR(). *)
Record sview := View { v_delim : rune; v_pfx : gostring -> gostring; v_up : bool }.

Definition s_step (v : sview) (m : smap) (o : op) : smap * out :=
  let d := v_delim v in
  let pfx := v_pfx v in
  let K path := runes (pfx path) in
  let L path := s_search d (v_up v) m (pfx path) in
  match o with
  | OSet path v =>
      let w := runes (replace_byte 32 45 (pfx path)) in (s_set w v m, ROld (s_old w m))
  | OSetEx path v => (s_set (K path) v m, ROld (s_old (K path) m))
  | OSetNode path v tag dc =>
      (s_upd (K path) (s_descs dc) (s_set (K path) v m), ROld (s_old (K path) m))
  | OSetEmpty path =>
      (s_upd (K path) (s_nodeop NSetEmpty) (s_set (K path) GNil m), ROld (s_old (K path) m))
  | OUpdate path f =>
      (s_upd (K path) (fun a => fold_left (fun a o => s_nodeop o a) (f (s_old (K path) m)) a)
             (s_set (K path) GNil m), RUnit)
  | OSetWith path v f =>
      let w := runes (replace_byte 32 45 (pfx path)) in
      (s_upd w (fun a => fold_left (fun a o => s_nodeop o a) (f (s_old w m)) a) (s_set w v m), ROld (s_old w m))
  | OSetComment path x y =>
      match L path with
      | SFound k => (s_upd k (s_nodeop (NSetComment x y)) m, RBool true)
      | SPart (c :: k) => (s_upd (c :: k) (s_nodeop (NSetComment x y)) m, RBool true)
      | _ => (m, RBool false)
      end
  | OSetTag path v =>
      match L path with
      | SFound k => (s_upd k (s_nodeop (NSetTag v)) m, RBool true)
      | SPart (c :: k) => (s_upd (c :: k) (s_nodeop (NSetTag v)) m, RBool true)
      | _ => (m, RBool false)
      end
  | ORemove path => let '(m', b) := s_remove m (L path) in (m', RBool b)
  | OGet path => let '(v, br, ok) := s_query d m (L path) in (m, RGet v ok)
  | OMustGet path =>
      let '(v, br, ok) := s_query d m (L path) in
      (m, RMust (if negb ok && negb br then GNil else v))
  | OQuery path => let '(v, br, ok) := s_query d m (L path) in (m, RQuery v br ok)
  | OHas path => (m, RBool (s_has (L path)))
  | OSearch path => (m, RBool (s_has (L path)))
  | OLocate path =>
      let ans k found := match sget m k with
                         | Some a => RLocate (Some a) (negb (a_leaf a)) (negb found) found
                         | None => RLocate None false (negb found) false
                         end in
      (m, match L path with
          | SFound k => ans k true
          | SPart (c :: k) => ans (c :: k) false
          | SPart [] => RLocate None false true false
          | SMiss => RLocate None false false false
          end)
  | OGetEx path =>
      let '(v, br, ok) := s_query d m (L path) in
      (m, RGetEx (if ok then Some (v, br) else None))
  | OGetDesc path =>
      (m, match s_attr d m (L path) with Some a => RStr (a_desc a) true | None => RStr [] false end)
  | OGetComment path =>
      (m, match s_attr d m (L path) with Some a => RStr (a_cmt a) true | None => RStr [] false end)
  | OGetTag path =>
      (m, match s_attr d m (L path) with Some a => RTag (a_tag a) true | None => RTag GNil false end)
  end.

(** a history: every call through a view of its own *)
Fixpoint s_run (hist : list (sview * op)) (m : smap) : smap * list out :=
  match hist with
  | [] => (m, [])
  | (v, o) :: rest =>
      let '(m1, r) := s_step v m o in
      let '(m2, rs) := s_run rest m1 in (m2, r :: rs)
  end.
