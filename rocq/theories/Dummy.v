(** Model of dummy.go: the store that does nothing. *)
From Coq Require Import String.
From Coq Require Import List NArith Bool.
From Verif Require Import GoStr Node Trie Cvter Store.
Import ListNotations.
Open Scope list_scope.

(** dummyS, dummy.go:14 *)
Record dummy := Dum { du_p : gostring }.
(** NewDummyStore, dummy.go:12 *)
Definition newDummy : dummy := Dum [].
(** Get, MustGet, Has, Remove, RemoveEx, Locate, GetEx (the callback is not called): dummy.go:23-52;
    the arguments are ignored *)
Definition du_Get (s : dummy) (path : gostring) : gval * bool := (GNil, false).
Definition du_MustGet (s : dummy) (path : gostring) : gval := GNil.
Definition du_Has (s : dummy) (path : gostring) : bool := false.
Definition du_Remove (s : dummy) (path : gostring) : dummy * bool := (s, false).
Definition du_RemoveEx (s : dummy) (path : gostring) : dummy * option node * option node * bool := (s, None, None, false).
Definition du_Locate (s : dummy) (path : gostring) : option node * bool * bool * bool * kvs := (None, false, false, false, []).
Definition du_GetEx (s : dummy) (path : gostring) : option (option node * gval * bool * kvs) := None.
(** Set, SetEx, Merge, Update, dummy.go:25-47 *)
Definition du_Set (s : dummy) (path : gostring) (data : gval) : dummy * option nat * gval := (s, None, GNil).
(** SetComment and SetTag: not ok, dummy.go:26-27 *)
Definition du_SetComment (s : dummy) (path desc cmt : gostring) : dummy * bool := (s, false).
Definition du_SetTag (s : dummy) (path : gostring) (tag : gval) : dummy * bool := (s, false).
(** GetDesc, GetTag, GetComment: no error, dummy.go:34-39 *)
Definition du_GetDesc (s : dummy) (path : gostring) : gostring * bool := ([], true).
Definition du_GetTag (s : dummy) (path : gostring) : gval * bool := (GNil, true).
Definition du_GetComment (s : dummy) (path : gostring) : gostring * bool := ([], true).
(** all Get... and Must... of a type, GetR and GetM, dummy.go:54-328: zero, no error; the defaults are ignored *)
Definition du_GetX {A} (zero : A) (s : dummy) (path : gostring) (defs : list A) : A * bool := (zero, true).
Definition du_MustX {A} (zero : A) (s : dummy) (path : gostring) (defs : list A) : A := zero.
(** Walk: the nodes visited, dummy.go:335 *)
Definition du_Walk (s : dummy) (path : gostring) : list node := [].
(** WithPrefix and WithPrefixReplaced: the store itself, unchanged, dummy.go:336-337 *)
Definition du_WithPrefix (s : dummy) (p : list gostring) : dummy := s.
(** SetPrefix, Prefix, Delimiter, SetDelimiter, dummy.go:338-341; the prefix is strings.Join(prefix, ".") *)
Definition du_SetPrefix (s : dummy) (p : list gostring) : dummy := Dum (join_str p (s2b "."%string)).
Definition du_Prefix (s : dummy) : gostring := du_p s.
Definition du_SetDelimiter (s : dummy) (d : rune) : dummy := s.
Definition du_Delimiter (s : dummy) : rune := dotChar.
(** Dup, Clone: a nil Store, dummy.go:333-334 *)
Definition du_Dup (s : dummy) : option dummy := None.
(** RecursiveMode, dummy.go:350 *)
Definition du_RecursiveMode (s : dummy) : rmode := ModeNone.
