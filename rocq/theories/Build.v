(** Making stores: New with its options and the environment (store.go:13-83, new.go:19), Dup and Clone of a store
    (store.go:428-441), the registry of codecs by extension (codecs/all/all.go) and the pretty option of the json codec
    (codecs/json/json.go:10-50). *)
From Coq Require Import String.
From Coq Require Import List NArith ZArith Bool Arith.
From Verif Require Import GoStr Node Trie Cvter Store Provider.
Import ListNotations.
Open Scope N_scope.
Open Scope list_scope.

(** ** New *)
(** the options of New, store.go:25-83 *)
Inductive nopt :=
| NDelimiter (d : rune)
| NPrefix (p : gostring)
| NOnChange (hs : list (option nat))
| NOnNew (hs : list (option nat))
| NOnDelete (hs : list (option nat))
| NFlatten (b : bool)
| NWatch (b : bool).
Definition apply_nopt (s : store) (o : nopt) : store :=
  let 'Sto h ld cl ch nw dl pa fl wt := s in
  match o with
  | NDelimiter d => Sto (setDelimiter h d) ld cl ch nw dl pa fl wt
  | NPrefix p => Sto (setPrefix h [p]) ld cl ch nw dl pa fl wt
  | NOnChange hs => Sto h ld cl (ch ++ hs) nw dl pa fl wt
  | NOnNew hs => Sto h ld cl ch (nw ++ hs) dl pa fl wt
  | NOnDelete hs => Sto h ld cl ch nw (dl ++ hs) pa fl wt
  | NFlatten b => Sto h ld cl ch nw dl pa b wt
  | NWatch b => Sto h ld cl ch nw dl pa fl b
  end.
(** &storeS{Trie: radix.NewTrie[any]()}, store.go:15-17 *)
Definition bareStore : store := Sto defaultHdl false [] [] [] [] None false false.
(** os.Setenv: the entry of the name in its place, or a new one at the end; [env]: what os.Environ() lists *)
Fixpoint setenv (k v : gostring) (env : list gostring) : list gostring :=
  match env with
  | [] => [k ++ s2b "="%string ++ v]
  | p :: r => match cut_eq p with
              | Some (k', _) => if str_eqb k' k then (k ++ s2b "="%string ++ v) :: r else p :: setenv k v r
              | None => p :: setenv k v r
              end
  end.
Definition versionName : gostring := s2b "STORE_VERSION"%string.
(** doc.go:112 *)
Definition version : gostring := s2b "v1.4.3"%string.
(** newStore, store.go:13-22: the environment afterwards, the store and its tree *)
Definition newStore (env : list gostring) (os : list nopt) : list gostring * store * tr :=
  (setenv versionName version env, fold_left apply_nopt os bareStore, newTrie).

(** ** Dup and Clone, store.go:428-441: a view with the same settings on the copied tree *)
Definition st_Dup (clone : gval -> gval) (s : store) (t : tr) : store * tr := (dupS s (so_h s), Dup clone t).

(** ** codecs/all/all.go *)
(** what a getter makes: New of one of the packages, or of the user's own *)
Inductive codec := CToml | CYaml | CGob | CJson | CHjson | CHcl | CNestext | COwn (n : nat).
(** func() store.Codec, maybe nil *)
Definition cgetter := option codec.
Definition registry := list (gostring * cgetter).
(** suffixCodecMap, all.go:14-28 *)
Definition suffixCodecMap : registry :=
  [(s2b "toml"%string, Some CToml); (s2b "yaml"%string, Some CYaml); (s2b "yml"%string, Some CYaml); (s2b "gob"%string, Some CGob);
   (s2b "json"%string, Some CJson); (s2b "hjson"%string, Some CHjson); (s2b "tf"%string, Some CHcl); (s2b "hcl"%string, Some CHcl);
   (s2b "nestedtext"%string, Some CNestext); (s2b "txt"%string, Some CNestext); (s2b "conf"%string, Some CNestext);
   ([], Some CNestext)].
Fixpoint reg_get (m : registry) (e : gostring) : option cgetter :=
  match m with [] => None | (e', g) :: r => if str_eqb e' e then Some g else reg_get r e end.
Fixpoint reg_set (m : registry) (e : gostring) (g : cgetter) : registry :=
  match m with [] => [(e, g)] | (e', g') :: r => if str_eqb e' e then (e, g) :: r else (e', g') :: reg_set r e g end.
Fixpoint reg_del (m : registry) (e : gostring) : registry :=
  match m with [] => [] | (e', g') :: r => if str_eqb e' e then reg_del r e else (e', g') :: reg_del r e end.
(** Register and Deregister, all.go:30-36; ExtCodecMap (all.go:38) hands out the map itself, so writing to and deleting from
    what it returned are the same assignments *)
Inductive rop := Register (e : gostring) (g : cgetter) | Deregister (e : gostring).
Definition reg_op (m : registry) (o : rop) : registry :=
  match o with Register e g => reg_set m e g | Deregister e => reg_del m e end.
(** Codec, all.go:40-43 *)
Definition Codec (m : registry) (e : gostring) : cgetter * bool :=
  match reg_get m e with Some g => (g, true) | None => (None, false) end.
(** MustCodec, all.go:45-47, and a call of what it returns: a nil func panics *)
Definition MustCodec (m : registry) (e : gostring) : cgetter := match reg_get m e with Some g => g | None => None end.
Definition call (g : cgetter) : res codec := match g with Some c => Ok c | None => Panic end.
(** filepath.Ext of the standard library: from the last dot of the last element of the path on; the text is scanned from the
    back, [acc] is what was passed *)
Fixpoint ext_back (r acc : gostring) : gostring :=
  match r with
  | [] => []
  | c :: t => if c =? 47 then [] else if c =? 46 then c :: acc else ext_back t (c :: acc)
  end.
Definition Ext (name : gostring) : gostring := ext_back (rev name) [].

(** ** codecs/json/json.go: New, WithPretty, Marshal *)
Definition json_New (opts : list bool) : bool := fold_left (fun _ p => p) opts true.
(** Marshal, json.go:45-50: the result of MarshalIndent is dropped; [indent] and [compact]: the two functions of encoding/json *)
Definition json_Marshal (indent compact : gmap -> gostring + nat) (pretty : bool) (m : gmap) : gostring + nat :=
  let _ := if pretty then Some (indent m) else None in compact m.
