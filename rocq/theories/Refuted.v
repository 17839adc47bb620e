(** Concrete histories that violate the full statement of a property (findings). *)
From Coq Require Import List NArith ZArith Bool Arith String.
From Verif Require Import GoStr Utf8 Node Trie Spec Refine ApiRefine Reach Derived Derived2 Derived4.
Import ListNotations.
Open Scope nat_scope.
Open Scope list_scope.

Definition h0 : hdl := defaultHdl.
Definition i (z : Z) : gval := GInt z.
(** the trie after some calls on the empty one *)
Definition after (hist : list (hdl * op)) (t : tr) : Prop :=
  exists outs, t_run 1 hist newTrie = Ok (t, outs).

Ltac run := vm_compute; reflexivity.

(** C01: Set("apple",1); Set("app",2): Get("app") says not found *)
Theorem C01_refuted :
  exists hist t path v t' id old,
    after hist t /\ Set_ h0 t path v = Ok (t', id, old) /\ path <> [] /\
    Get 1 h0 t' path = Ok (v, false).
Proof.
  exists [(h0, OSet "apple"%string (i 1))]. eexists. exists ("app"%string : gostring), (i 2). do 3 eexists.
  split; [eexists; run|]. split; [run|]. split; [discriminate|].
  run.
Qed.
(** ... and Set("",v): Get("") says not found *)
Theorem C01_refuted_empty :
  exists v t' id old, Set_ h0 newTrie [] v = Ok (t', id, old) /\ Get 1 h0 t' [] = Ok (v, false).
Proof. exists (i 1). do 3 eexists. split; [run..]. Qed.

(** C02: only "a." was Set, yet Get("a") returns its value *)
Theorem C02_refuted :
  exists hist t path v, after hist t /\ no_remove hist /\
    last_write hist (runes (full h0 path)) None = None /\ v <> GNil /\ Get 1 h0 t path = Ok (v, true).
Proof.
  exists [(h0, OSet "a."%string (i 1))]. eexists. exists ("a"%string : gostring), (i 1).
  split; [eexists; run|]. split; [repeat constructor|].
  split; [run|]. split; [discriminate|]. run.
Qed.

(** C08: after Set("app.logging"), Set("app.level"): Has("app.l") *)
Theorem C08_refuted_prefix :
  exists t, after [(h0, OSet "app.logging"%string (i 1)); (h0, OSet "app.level"%string (i 2))] t /\
    Has 1 h0 t "app.l"%string = Ok true.
Proof. eexists. split; [eexists; run|]. run. Qed.
(** ... and an ancestor path of the only key does not exist *)
Theorem C08_refuted_ancestor :
  exists t, after [(h0, OSet "app.logging.file"%string (i 1))] t /\
    Has 1 h0 t "app.logging"%string = Ok false.
Proof. eexists. split; [eexists; run|]. run. Qed.

(** C09: HasPart of anything is true on an empty store *)
Theorem C09_refuted : exists p, p <> [] /\ HasPart 1 h0 newTrie p = Ok true.
Proof. exists ("x"%string : gostring). split; [discriminate|]. run. Qed.
(** C10: Remove("app") removes "apple" *)
Theorem C10_refuted :
  exists t t', after [(h0, OSet "apple"%string (i 1)); (h0, OSet "app"%string (i 2))] t /\
    Remove 1 h0 t "app"%string = Ok (t', true) /\
    Get 1 h0 t "apple"%string = Ok (i 1, true) /\ Get 1 h0 t' "apple"%string = Ok (GNil, false).
Proof.
  do 2 eexists. split; [eexists; run|].
  split; [run|]. split; [run..].
Qed.
(** C11: both keys below "a.b" removed, "a.b" still exists *)
Theorem C11_refuted :
  exists t, after [(h0, OSet "a.b.c"%string (i 1)); (h0, OSet "a.b.d"%string (i 2));
            (h0, ORemove "a.b.c"%string); (h0, ORemove "a.b.d"%string)] t /\
    Has 1 h0 t "a.b"%string = Ok true.
Proof. eexists. split; [eexists; run|]. run. Qed.

(** C12: the branch 日 of 日本 and 日月 reports a key of seven bytes ... *)
Theorem C12_refuted :
  exists hist t l n, after hist t /\ valid_hist hist /\ chain (root t) l n /\ key n <> pieces l.
Proof.
  exists [(h0, OSet [0xE6; 0x97; 0xA5; 0xE6; 0x9C; 0xAC]%N (i 1));
          (h0, OSet [0xE6; 0x97; 0xA5; 0xE6; 0x9C; 0x88]%N (i 2))].
  eexists. eexists. eexists. split; [eexists; run|].
  split; [repeat constructor|]. split.
  - eapply chain_kid; [left; reflexivity|apply chain_here].
  - vm_compute. discriminate.
Qed.

(** C13: two different (invalid UTF-8) strings are the same key *)
Theorem C13_refuted :
  exists a b t v, a <> b /\ after [(h0, OSet a v)] t /\ v <> GNil /\ Get 1 h0 t b = Ok (v, true).
Proof.
  exists [0xFF]%N, [0xFE]%N. eexists. exists (i 1). split; [discriminate|].
  split; [eexists; run|]. split; [discriminate|]. run.
Qed.
(** C14 *)
Theorem C14_refuted :
  exists p t v, after [(h0, OSet p v)] t /\ v <> GNil /\ Get 1 h0 t p = Ok (GNil, false).
Proof.
  exists ("a b"%string : gostring). eexists. exists (i 1).
  split; [eexists; run|]. split; [discriminate|]. run.
Qed.
(** C16: with a delimiter outside ASCII (here U+2192) the parts are not separated by it *)
Theorem C16_refuted :
  exists d a b, Join d [a; b] <> a ++ enc1 d ++ b.
Proof. exists 0x2192%N, [97%N], [98%N]. vm_compute. discriminate. Qed.
(** C17: comment and tag are lost by Dup *)
Theorem C17_refuted :
  exists t, after [(h0, OSet "a"%string (i 1)); (h0, OSetComment "a"%string "d"%string "c"%string);
            (h0, OSetTag "a"%string (i 7))] t /\
    GetComment 1 h0 t "a"%string = Ok ("c"%string : gostring, true) /\
    GetTag 1 h0 t "a"%string = Ok (i 7, true) /\
    GetComment 1 h0 (Dup (fun v => v) t) "a"%string = Ok ([], true) /\
    GetTag 1 h0 (Dup (fun v => v) t) "a"%string = Ok (GNil, true).
Proof.
  eexists. split; [eexists; run|].
  repeat split; [run..].
Qed.
(** C18: SetComment of an unknown path changes another key *)
Theorem C18_refuted :
  exists t t', after [(h0, OSet "app.name"%string (i 1))] t /\
    Has 1 h0 t "app.na"%string = Ok false /\
    SetComment 1 h0 t "app.na"%string "d"%string "c"%string = Ok (t', true) /\
    GetComment 1 h0 t "app.name"%string = Ok ([], true) /\
    GetComment 1 h0 t' "app.name"%string = Ok ("c"%string : gostring, true).
Proof.
  do 2 eexists. split; [eexists; run|].
  repeat split; [run..].
Qed.
(** C19: the tag is not stored *)
Theorem C19_refuted :
  exists p v tag dc t' id old, SetNode h0 newTrie p v tag dc = Ok (t', id, old) /\ tag <> GNil /\
    GetTag 1 h0 t' p = Ok (GNil, true).
Proof.
  exists ("a"%string : gostring), (i 1), (i 2), []. do 3 eexists.
  split; [run|]. split; [discriminate|]. run.
Qed.
(** C20: HasData() is true after SetEmpty *)
Theorem C20_refuted :
  exists p t' old, SetEmpty h0 newTrie p = Ok (t', old) /\
    exists a, t_get t' (runes p) = Some a /\ a_has a = true.
Proof.
  exists ("a"%string : gostring). do 2 eexists. split; [run|].
  eexists. split; [run..].
Qed.
(** C21: a callback that does nothing loses the value *)
Theorem C21_refuted :
  exists p v t t', v <> GNil /\ after [(h0, OSet p v)] t /\
    Update h0 t p (fun _ n => n) = Ok t' /\ Get 1 h0 t' p = Ok (GNil, true).
Proof.
  exists ("a"%string : gostring), (i 1). do 2 eexists. split; [discriminate|].
  split; [eexists; run|]. split; [run..].
Qed.
(** C22: no call at all for the first key, two calls later *)
Theorem C22_refuted_none :
  exists p v t' old, SetEx h0 newTrie p v = Ok (t', old, []).
Proof. exists ("a"%string : gostring), (i 1). do 2 eexists. run. Qed.
Theorem C22_refuted_twice :
  exists t p v t' old c, after [(h0, OSet p v)] t /\ SetEx h0 t p v = Ok (t', old, [c; c]).
Proof.
  eexists. exists ("a"%string : gostring), (i 1). do 3 eexists. split; [eexists; run|].
  run.
Qed.
(** C27: "path.mid-name" exists and is the nearest owner of path.to.mid-name, but is not found
    because "path.to" is a leaf the query runs past *)
Theorem C27_refuted_partial :
  exists t, after [(h0, OSet "path.mid-name"%string (i 1)); (h0, OSet "path.to"%string (i 2))] t /\
    Get 1 h0 t "path.mid-name"%string = Ok (i 1, true) /\
    Get 1 (viewBR h0) t "path.to.mid-name"%string = Ok (GNil, false).
Proof.
  eexists. split; [eexists; run|]. split; [run..].
Qed.
(** ... and the top-level key is never tried *)
Theorem C27_refuted_top :
  exists t, after [(h0, OSet "key"%string (i 1)); (h0, OSet "other"%string (i 2))] t /\
    Get 1 h0 t "key"%string = Ok (i 1, true) /\
    Get 1 (viewBR h0) t "a.b.key"%string = Ok (GNil, false) /\
    Get 1 (viewBR h0) t "a.key"%string = Ok (GNil, false).
Proof.
  eexists. split; [eexists; run|]. repeat split; [run..].
Qed.
(** C53: found changes with the delimiter *)
Theorem C53_refuted :
  exists t, after [(h0, OSet "a.b"%string (i 1)); (h0, OSet "a."%string (i 2))] t /\
    Get 1 h0 t "a."%string = Ok (i 2, true) /\
    Get 1 (setDelimiter h0 47%N) t "a."%string = Ok (i 2, false).
Proof.
  eexists. split; [eexists; run|]. split; [run..].
Qed.
(** C57: found depends on the insertion order *)
Theorem C57_refuted :
  exists a b t t', after [a; b] t /\ after [b; a] t' /\
    a = (h0, OSet "app"%string (i 1)) /\ b = (h0, OSet "apple"%string (i 2)) /\
    Get 1 h0 t "app"%string = Ok (i 1, true) /\ Get 1 h0 t' "app"%string = Ok (i 1, false).
Proof.
  do 4 eexists. split; [|split; [|split; [reflexivity|split; [reflexivity|]]]].
  1: eexists; run. 1: eexists; run.
  split; [run..].
Qed.
