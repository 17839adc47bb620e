(** The properties of typed getters asked for a section (C215, C216): only statements.

    [GetX conv zero h t path defs] is the shape all GetT of the store have, with the conversion [conv]: the value and whether the path
    was found (if not, the caller gets a NotFound error).  [MustX] is the shape of the MustT.  A section is a path that is no key, with
    keys behind it and the delimiter. *)
From Coq Require Import String.
From Coq Require Import List NArith ZArith Bool Arith Lia.
From Verif Require Import GoStr Utf8 Node Trie Spec Refine ApiRefine Reach Derived Derived2 Derived3 Cvter CvterProofs Samples Sections.
Import ListNotations.
Open Scope nat_scope.
Open Scope list_scope.

(** two keys below "app.dump", and one below "path" *)
Definition sec_hist : list (hdl * op) :=
  [(hd0, OSet (s2b "app.dump.to") (GInt 1)); (hd0, OSet (s2b "app.dump.from") (GInt 2)); (hd0, OSet (s2b "path.to") (GInt 3))].
Definition sec_t : tr := Eval vm_compute in match t_run 1 sec_hist newTrie with Ok (t, _) => t | _ => newTrie end.
Definition sec_outs : list out := Eval vm_compute in match t_run 1 sec_hist newTrie with Ok (_, o) => o | _ => [] end.
Lemma sec_run : t_run 1 sec_hist newTrie = Ok (sec_t, sec_outs).
Proof. vm_compute. reflexivity. Qed.
Lemma sec_plain : plain_reach dotD sec_t.
Proof. apply (plain_reach_hist dotD 0 sec_hist sec_t sec_outs); [plains|exact sec_run]. Qed.

(** ** C215: the typed getters report NotFound for a path that was never written (the comment of ErrorIsNotFound shows
    GetFloat64("app.dump.")) *)
Theorem C215_refuted : exists hist t outs path,
  t_run 1 hist newTrie = Ok (t, outs) /\
  (forall h o, In (h, o) hist -> exists p v, o = OSet p v /\ p <> path /\ p <> path ++ s2b ".") /\
  forall A (conv : gval -> A) zero dflt,
    GetX 1 conv zero hd0 t path [dflt] = Ok (conv GNil, true) /\ MustX 1 conv zero hd0 t path [dflt] = Ok (conv GNil) /\
    GetX 1 conv zero hd0 t (path ++ s2b ".") [dflt] = Ok (conv GNil, true) /\
    GetX 1 conv zero hd0 t (s2b "path") [dflt] = Ok (dflt, false).
Proof.
  exists sec_hist, sec_t, sec_outs, (s2b "app.dump"). split; [exact sec_run|]. split.
  - intros h o I. repeat (destruct I as [I|I]; [inversion I; subst; do 2 eexists; split; [reflexivity|split; discriminate]|]). destruct I.
  - intros A conv zero dflt. repeat split; vm_compute; reflexivity.
Qed.
Print Assumptions C215_refuted.

(** ** C216: what the typed getters answer for sections *)
Theorem C216_section D rf {A} (conv : gval -> A) zero h t path defs c1 y1 c2 y2 :
  plain_reach D t -> D (hdelim h) -> full h path <> [] -> t_get t (runes (full h path)) = None ->
  t_get t (runes (full h path) ++ hdelim h :: c1 :: y1) <> None -> t_get t (runes (full h path) ++ hdelim h :: c2 :: y2) <> None ->
  c1 <> c2 ->
  exists a, t_get t (runes (full h path) ++ [hdelim h]) = Some a /\
    GetX (S rf) conv zero h t path defs = Ok (conv (if a_has a then a_data a else GNil), true) /\
    MustX (S rf) conv zero h t path defs = Ok (conv (if a_has a then a_data a else GNil)).
Proof. exact (getX_section D rf conv zero h t path defs c1 y1 c2 y2). Qed.
Print Assumptions C216_section.
Theorem C216_branch D rf {A} (conv : gval -> A) zero h t path defs a :
  plain_reach D t -> D (hdelim h) -> full h path <> [] -> t_get t (runes (full h path)) = Some a -> a_leaf a = false ->
  GetX (S rf) conv zero h t path defs =
    Ok (if ends_with (hdelim h) (runes (full h path)) then (conv (if a_has a then a_data a else GNil), true)
        else (last defs zero, false)).
Proof. exact (getX_branch D rf conv zero h t path defs a). Qed.
Print Assumptions C216_branch.
(** a path that was never written, after writes: [common x y] is the beginning that [x] and [y] share, [stored_keys hist] the keys that
    were written *)
Theorem C216_unwritten D rf {A} (conv : gval -> A) zero h hist t outs path defs :
  plain_hist D hist -> t_run (S rf) hist newTrie = Ok (t, outs) -> no_remove hist -> D (hdelim h) -> hmode h <> ModeUp ->
  full h path <> [] -> ends_with (hdelim h) (runes (full h path)) = false ->
  ~ In (runes (full h path)) (stored_keys hist) -> ~ In (runes (full h path) ++ [hdelim h]) (stored_keys hist) ->
  (GetX (S rf) conv zero h t path defs = Ok (conv GNil, true) /\
   (exists x y, In x (stored_keys hist) /\ In y (stored_keys hist) /\ common x y = runes (full h path) ++ [hdelim h]) /\
   (forall x y, In x (stored_keys hist) -> In y (stored_keys hist) -> common x y <> runes (full h path))) \/
  (GetX (S rf) conv zero h t path defs = Ok (last defs zero, false) /\
   ((forall x y, In x (stored_keys hist) -> In y (stored_keys hist) -> common x y <> runes (full h path) ++ [hdelim h]) \/
    (exists x y, In x (stored_keys hist) /\ In y (stored_keys hist) /\ common x y = runes (full h path)))).
Proof. exact (getX_unwritten D rf conv zero h hist t outs path defs). Qed.
Print Assumptions C216_unwritten.
(** a further key beside the section turns the answer round *)
Definition sec_hist2 : list (hdl * op) := sec_hist ++ [(hd0, OSet (s2b "app.dumper") (GInt 4))].
Definition sec_t2 : tr := Eval vm_compute in match t_run 1 sec_hist2 newTrie with Ok (t, _) => t | _ => newTrie end.
Example C216_turned : plain_hist dotD sec_hist /\ plain_hist dotD sec_hist2 /\ no_remove sec_hist /\ no_remove sec_hist2 /\
  (exists outs, t_run 1 sec_hist2 newTrie = Ok (sec_t2, outs)) /\
  (forall conv : gval -> nat, GetX 1 conv 0 hd0 sec_t (s2b "app.dump") [7] = Ok (conv GNil, true) /\
     GetX 1 conv 0 hd0 sec_t2 (s2b "app.dump") [7] = Ok (7, false)) /\
  ~ In (runes (s2b "app.dump")) (stored_keys sec_hist) /\ ~ In (runes (s2b "app.dump") ++ [46%N]) (stored_keys sec_hist).
Proof.
  split; [plains|]. split; [plains|]. split; [repeat constructor|]. split; [repeat constructor|].
  split; [eexists; vm_compute; reflexivity|]. split; [intros conv; split; vm_compute; reflexivity|]. split; notin.
Qed.
Example C216_case : plain_reach dotD sec_t /\ t_get sec_t (runes (s2b "app.dump")) = None /\
  t_get sec_t (runes (s2b "app.dump") ++ 46%N :: runes (s2b "to")) <> None /\
  t_get sec_t (runes (s2b "app.dump") ++ 46%N :: runes (s2b "from")) <> None /\
  (exists a, t_get sec_t (runes (s2b "app.dump.")) = Some a /\ a_leaf a = false /\ a_has a = false).
Proof.
  split; [exact sec_plain|]. split; [vm_compute; reflexivity|]. split; [vm_compute; discriminate|]. split; [vm_compute; discriminate|].
  vm_compute. eexists. repeat split.
Qed.
