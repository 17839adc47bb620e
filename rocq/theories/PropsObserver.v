(** The properties of observers of a store and of changes through recursive handles (C217 - C219): only statements.

    [so_run rf s t l]: the calls [l] of Set and Remove on the store [s] with the tree [t]; the tree afterwards and, for each call, the
    handlers it called.  [learns h n c d f es]: what an observer that has the handlers [n] on new keys, [c] on changes and [d] on
    removals knows after the calls [es], if it knew [f] before: it assigns the value it is told to the key of the path it is told, and
    forgets, when told of a removal, every key that begins with that path.  [agree t f]: the tree holds exactly what [f] says. *)
From Coq Require Import String.
From Coq Require Import List NArith ZArith Bool Arith Lia.
From Verif Require Import GoStr Utf8 Node Trie Spec Refine Climb ApiRefine Reach Derived Derived2 Derived3 Cvter CvterProofs Store StoreProofs Follow
  Samples Observer.
Import ListNotations.
Open Scope nat_scope.
Open Scope list_scope.

(** ** C217: the handlers tell all that Set and Remove do *)
Theorem C217_learns (D : rune -> Prop) rf s n c d l t f :
  D (hdelim (so_h s)) -> hmode (so_h s) <> ModeUp ->
  In n (listeners so_new s) -> In c (listeners so_chg s) -> In d (listeners so_del s) ->
  plain_reach D t -> agree t f -> Forall (sop_plain D (so_h s)) l ->
  exists t' es, so_run (S rf) s t l = Ok (t', es) /\ plain_reach D t' /\
    agree t' (learns (so_h s) n c d f (concat es)) /\
    forall before e after i p v old u, es = before ++ e :: after -> In (EChange i p v old u) e ->
      old = oldv (learns (so_h s) n c d f (concat before) (wkey (so_h s) p)).
Proof. intros H1 H2 H3 H4 H5. exact (observed D rf s n c d H1 H2 H3 H4 H5 l t f). Qed.
Print Assumptions C217_learns.
Definition s217 : store := Sto hd0 false [] [Some 1] [None; Some 2] [Some 3] None false true.
Definition l217 : list sop :=
  [SSet (s2b "app.dump.to") (GInt 1); SSet (s2b "app.dump.from") (GInt 2); SSet (s2b "app.dump.to") (GInt 5); SSet (s2b "zoo") (GInt 3);
   SRem (s2b "app.dump"); SRem (s2b "zo"); SSet (s2b "app.x") (GInt 4)].
Example C217_case : Forall (sop_plain dotD (so_h s217)) l217 /\
  match so_run 1 s217 newTrie l217 with
  | Ok (t, es) => map (fun k => (data_at t (runes k), learns hd0 2 1 3 (fun _ => None) (concat es) (runes k)))
                      [s2b "app.dump.to"; s2b "app.dump.from"; s2b "zoo"; s2b "app.x"]
  | _ => []
  end = [(None, None); (None, None); (Some (GInt 3), Some (GInt 3)); (Some (GInt 4), Some (GInt 4))].
Proof. split; [repeat (apply Forall_cons; [dots || exact I|]); apply Forall_nil|run]. Qed.

(** ** C218: the recursive mode is for Get, Query, Locate and the getters only (the comment of BR) *)
Theorem C218_refuted : exists t path t1 t2 t3,
  plain_reach dotD t /\ Query 1 hd0 t path = Ok (QRes GNil false false []) /\
  Remove 1 hd0 t path = Ok (t, false) /\ SetTag 1 hd0 t path (GInt 8) = Ok (t, false) /\ SetComment 1 hd0 t path [] [] = Ok (t, false) /\
  Remove 1 (viewBR hd0) t path = Ok (t1, true) /\
  SetTag 1 (viewBR hd0) t path (GInt 8) = Ok (t2, true) /\
  SetComment 1 (viewBR hd0) t path (s2b "x") (s2b "y") = Ok (t3, true) /\
  data_at t (runes (s2b "app.level")) = Some (GInt 2) /\ data_at t1 (runes (s2b "app.level")) = None /\
  option_map a_tag (t_get t2 (runes (s2b "app.level"))) = Some (GInt 8) /\
  option_map a_desc (t_get t3 (runes (s2b "app.level"))) = Some (s2b "x").
Proof.
  exists t1, (s2b "app.x.y.level"). do 3 eexists. split; [exact t1_plain|].
  repeat (split; [vm_compute; reflexivity|]). vm_compute. reflexivity.
Qed.
Print Assumptions C218_refuted.

(** ** C219: what Remove, SetTag and SetComment change through a recursive handle.  The candidates are the path and those it is
    looked up as further up (C27); [before] are those that are missed, [w] is the first that is a key *)
Theorem C219_remove D rf h t p before w after a :
  plain_reach D t -> D (hdelim h) -> hmode h = ModeUp -> full h p :: s_ups (hdelim h) (full h p) = before ++ w :: after ->
  (forall x, In x before -> s_probe (hdelim h) (entries t) (runes x) = SMiss) -> runes w <> [] -> t_get t (runes w) = Some a ->
  exists t', Remove (S rf) h t p = Ok (t', true) /\
    forall k, t_get t' k = if has_prefix (runes w) k then None else t_get t k.
Proof. exact (remove_up D rf h t p before w after a). Qed.
Print Assumptions C219_remove.
Theorem C219_tag D rf h t p before w after a v :
  plain_reach D t -> D (hdelim h) -> hmode h = ModeUp -> full h p :: s_ups (hdelim h) (full h p) = before ++ w :: after ->
  (forall x, In x before -> s_probe (hdelim h) (entries t) (runes x) = SMiss) -> runes w <> [] -> t_get t (runes w) = Some a ->
  exists t', SetTag (S rf) h t p v = Ok (t', true) /\
    t_get t' (runes w) = Some (Attr (a_data a) (a_desc a) (a_cmt a) v (a_leaf a) (a_has a) (a_mod a)) /\
    forall k, k <> runes w -> t_get t' k = t_get t k.
Proof. intros. eapply tag_up; eauto. Qed.
Print Assumptions C219_tag.
Theorem C219_comment D rf h t p before w after a x y :
  plain_reach D t -> D (hdelim h) -> hmode h = ModeUp -> full h p :: s_ups (hdelim h) (full h p) = before ++ w :: after ->
  (forall x, In x before -> s_probe (hdelim h) (entries t) (runes x) = SMiss) -> runes w <> [] -> t_get t (runes w) = Some a ->
  exists t', SetComment (S rf) h t p x y = Ok (t', true) /\
    t_get t' (runes w) = Some (Attr (a_data a) x y (a_tag a) (a_leaf a) (a_has a) (a_mod a)) /\
    forall k, k <> runes w -> t_get t' k = t_get t k.
Proof. intros. eapply comment_up; eauto. Qed.
Print Assumptions C219_comment.
Example C219_case : let h := viewBR hd0 in
  full h (s2b "app.x.y.level") :: s_ups (hdelim h) (full h (s2b "app.x.y.level")) =
    [s2b "app.x.y.level"; s2b "app.x.level"] ++ s2b "app.level" :: [] /\
  (forall x, In x [s2b "app.x.y.level"; s2b "app.x.level"] -> s_probe (hdelim h) (entries t1) (runes x) = SMiss) /\
  t_get t1 (runes (s2b "app.level")) <> None.
Proof.
  split; [vm_compute; reflexivity|]. split; [|vm_compute; discriminate]. intros x [<-|[<-|[]]]; vm_compute; reflexivity.
Qed.
