(** Models of codecs/hcl (Marshal) and codecs/hjson (UnmarshalEx). *)
From Coq Require Import List NArith ZArith Bool Arith.
From Verif Require Import GoStr Trie Cvter.
Import ListNotations.

(** ** codecs/hcl *)
(** the values of go-cty that occur; CEmpty is ListValEmpty(cty.Type{}), CNull the zero Value *)
Inductive cval := CStr (s : gostring) | CNum (z : Z) | CBool (b : bool) | CList (l : list cval) | CEmpty | CNull.
Inductive ctype := TStr | TNum | TBool | TList (t : ctype) | TNone.
Fixpoint ctype_of (c : cval) : ctype :=
  match c with
  | CStr _ => TStr | CNum _ => TNum | CBool _ => TBool
  | CList (x :: _) => TList (ctype_of x)
  | CList [] => TList TNone
  | CEmpty => TList TNone
  | CNull => TNone
  end.
Fixpoint ctype_eqb (a b : ctype) : bool :=
  match a, b with
  | TStr, TStr | TNum, TNum | TBool, TBool | TNone, TNone => true
  | TList a, TList b => ctype_eqb a b
  | _, _ => false
  end.
(** cty.ListVal panics without elements and with elements of different types *)
Definition ListVal (l : list cval) : res cval :=
  match l with
  | [] => Panic
  | x :: r => if forallb (fun y => ctype_eqb (ctype_of x) (ctype_of y)) r then Ok (CList l) else Panic
  end.

Section Hcl.
(** the dynamic values the model does not look into: fmt.Stringer, sized integers, typed slices; None is the error *)
Variable opaque : N -> option cval.
(** ctyValue, hcl.go:56-108; None: the error, with the zero Value.  Elements of a slice that have no value
    are left out: the error made for them in the inner scope is dropped.  The elements of a []map have none. *)
Fixpoint ctyValue (v : gval) : res (option cval) :=
  match v with
  | GBool b => Ok (Some (CBool b))
  | GStr s => Ok (Some (CStr s))
  | GInt z => Ok (Some (CNum z))
  | GOther n => Ok (opaque n)
  | GList [] | GMaps [] | GAMaps [] => Ok (Some CEmpty)
  | GList l =>
      do vs <- (fix go (l : list gval) : res (list cval) :=
                  match l with
                  | [] => Ok []
                  | x :: r => do o <- ctyValue x; do vs <- go r;
                              Ok (match o with Some c => c :: vs | None => vs end)
                  end) l;
      do c <- ListVal vs; Ok (Some c)
  | GMaps _ | GAMaps _ => do c <- ListVal []; Ok (Some c)
  | GNil | GMap _ | GAMap _ | GPkg _ _ _ _ => Ok None
  end.
(** hclwrite.Body: attributes and blocks, in the order of writing *)
Inductive item := IAttr (k : gostring) (c : cval) | IBlock (k : gostring) (b : list item).
(** fill, hcl.go:110-130: the error of ctyValue is dropped, the attribute gets the zero Value *)
Fixpoint fill (k : gostring) (v : gval) : res item :=
  match v with
  | GMap m =>
      do b <- (fix go (m : list (gostring * gval)) : res (list item) :=
                 match m with
                 | [] => Ok []
                 | (k, v) :: r => do i <- fill k v; do is <- go r; Ok (i :: is)
                 end) m;
      Ok (IBlock k b)
  | _ => do o <- ctyValue v; Ok (IAttr k (match o with Some c => c | None => CNull end))
  end.
(** Marshal, hcl.go:132-178: [m] in iteration order; the error is always nil *)
Fixpoint hcl_Marshal (m : gmap) : res (list item) :=
  match m with
  | [] => Ok []
  | (k, v) :: r => do i <- fill k v; do is <- hcl_Marshal r; Ok (i :: is)
  end.
End Hcl.

(** ** codecs/hjson *)
(** a hjson.Node: its value and its comments (before, key, after).  The keys of an object are distinct. *)
Inductive hnode := HN (v : hval) (before ckey after : gostring)
with hval := HNull | HStr (s : gostring) | HScalar (v : gval) | HObj (l : list (gostring * hnode)) | HArr (l : list hnode).
Definition hn_val (n : hnode) : hval := match n with HN v _ _ _ => v end.
Definition hn_desc (n : hnode) : gostring := match n with HN _ b _ _ => b end.
Definition hn_cmt (n : hnode) : gostring := match n with HN _ _ k a => k ++ a end.
(** the value as it is *)
Fixpoint hraw (n : hnode) : gval :=
  match hn_val n with
  | HNull => GNil
  | HStr s => GStr s
  | HScalar v => v
  | HObj l => GMap ((fix go (l : list (gostring * hnode)) := match l with [] => [] | (k, n) :: r => (k, hraw n) :: go r end) l)
  | HArr l => GList ((fix go (l : list hnode) := match l with [] => [] | n :: r => hraw n :: go r end) l)
  end.
(** decode, hjson.go:61-111, into an empty map; [flat] is flattenSlice.  AtIndex answers the key "" for the
    elements of an array. *)
Fixpoint hdecode (flat : bool) (n : hnode) : gmap :=
  let entry (c : hnode) : gval :=
    GPkg (match hn_val c with
          | HObj _ => GMap (hdecode flat c)
          | HArr _ => if flat then GMap (hdecode flat c) else hraw c
          | _ => hraw c
          end) (hn_desc c) (hn_cmt c) GNil in
  match n with
  | HN v _ _ _ =>
    match v with
    | HNull => []
    | HStr s => [(s, GPkg (GStr s) (hn_desc n) (hn_cmt n) GNil)]
    | HScalar _ => []
    | HObj l => (fix go (l : list (gostring * hnode)) (m : gmap) := match l with [] => m | (k, c) :: r => go r (mset m k (entry c)) end) l []
    | HArr l => (fix go (l : list hnode) (m : gmap) := match l with [] => m | c :: r => go r (mset m [] (entry c)) end) l []
    end
  end.
(** UnmarshalEx, hjson.go:50-59, from the parsed document *)
Definition hjson_UnmarshalEx (flat : bool) (doc : hnode) : gmap := hdecode flat doc.
