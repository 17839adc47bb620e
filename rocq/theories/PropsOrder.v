(** The properties of the order in which Walk visits the nodes (C229 - C232): only statements.

    [order t]: the full key of every node of the tree, in the order of Walk.  [sub a b]: the list [a] is [b] without some of
    its elements.  [before l a b]: [a] comes before [b] in [l].  [stored_keys hist]: the keys that the writing calls of a
    history store, in turn; [no_remove hist]: Remove is not called.  [t_step], [t_run]: one call, all calls of a history,
    through any handles. *)
From Coq Require Import String.
From Coq Require Import List NArith ZArith Bool Arith Lia.
From Verif Require Import GoStr Utf8 Node NodeWf Trie Spec Refine ApiRefine Reach Derived Derived2 Samples Order.
Import ListNotations.
Open Scope nat_scope.
Open Scope list_scope.

Ltac run := vm_compute; reflexivity.
Definition ob (s : string) : gostring := s2b s.
Definition o_sets : list (hdl * op) := sets defaultHdl
  [(ob "zoo.b", GInt 1); (ob "app.x", GInt 2); (ob "zoo.a", GInt 3); (ob "app", GInt 4); (ob "zoo.bar", GInt 5)].
Definition o_t : tr := Eval vm_compute in match t_run 1 o_sets newTrie with Ok (t, _) => t | _ => newTrie end.

(** C229: Walk visits every node once; a node before all below it, and the nodes of a section one right after the other *)
Theorem C229_walk t : reached t ->
  exists ns, (forall rf h, Walk rf h t [] = Ok ns) /\ NoDup (order t) /\
    (forall k, In k (order t) <-> exists a, t_get t k = Some a) /\
    forall k a, t_get t k = Some a <-> exists n, In (k, n) (combine (order t) ns) /\ a = Attr (ndata n) (ndesc n) (ncmt n) (ntag n) (isLeaf n) (hasData n) (modified n).
Proof. exact (@walk_order t). Qed.
Print Assumptions C229_walk.
Theorem C229_above t a b : reached t -> In a (order t) -> In b (order t) -> (exists c y, b = a ++ c :: y) -> before (order t) a b.
Proof. intros R. exact (@above_before [] (root t) a b (proj1 (proj2 (proj1 (reached_wf t R))))). Qed.
Print Assumptions C229_above.
Theorem C229_section t q : reached t ->
  exists l1 l2 l3, order t = l1 ++ l2 ++ l3 /\ (forall k, In k l2 -> exists y, k = q ++ y) /\ (forall k, In k (l1 ++ l3) -> ~ exists y, k = q ++ y).
Proof. intros R. exact (@section_node q (root t) [] (proj1 (proj2 (proj1 (reached_wf t R))))). Qed.
Print Assumptions C229_section.
Example C229_case : t_run 1 o_sets newTrie = Ok (o_t, [ROld GNil; ROld GNil; ROld GNil; ROld GNil; ROld GNil]) /\
  order o_t = [[]; ob "zoo."; ob "zoo.b"; ob "zoo.bar"; ob "zoo.a"; ob "app"; ob "app.x"].
Proof. split; run. Qed.

(** C230: no call changes the order of the keys that are there before and after it *)
Theorem C230_step rf h t o t' r : reached t -> t_step rf h t o = Ok (t', r) ->
  match o with ORemove _ => sub (order t') (order t) | _ => sub (order t) (order t') end.
Proof. intros R. exact (@step_order rf h t o t' r (reached_wf t R)). Qed.
Print Assumptions C230_step.
Theorem C230_run rf hist t t' outs : reached t -> t_run rf hist t = Ok (t', outs) -> no_remove hist -> sub (order t) (order t').
Proof. intros R. exact (@run_order rf hist t t' outs (reached_wf t R)). Qed.
Print Assumptions C230_run.
(** what [sub] and [before] mean *)
Theorem C230_sub A (l l' : list A) a b : sub l l' -> before l a b -> before l' a b.
Proof. intros S B. exact (@sub_trans A l l' S [a; b] B). Qed.
Print Assumptions C230_sub.
Theorem C230_before A (l : list A) a b : before l a b <-> exists x y z, l = x ++ a :: y ++ b :: z.
Proof. exact (@before_iff A l a b). Qed.
Print Assumptions C230_before.
Example C230_case : match t_step 1 defaultHdl o_t (ORemove (ob "zoo.b")) with Ok (t, _) => order t | _ => [] end =
    [[]; ob "zoo."; ob "zoo.a"; ob "app"; ob "app.x"] /\
  match t_step 1 defaultHdl o_t (OSet (ob "zoo.a") GNil) with Ok (t, _) => order t | _ => [] end = order o_t.
Proof. split; run. Qed.

(** C231: of two sections below a common prefix the one that had a key first is visited first *)
Theorem C231_first rf hist t outs c ra rb u w v :
  t_run rf hist newTrie = Ok (t, outs) -> no_remove hist -> ra <> rb ->
  stored_keys hist = u ++ w :: v -> (exists y, w = (c ++ [ra]) ++ y) -> (forall x, In x u -> ~ exists y, x = (c ++ [rb]) ++ y) ->
  forall a b, In a (order t) -> In b (order t) -> (exists y, a = (c ++ [ra]) ++ y) -> (exists y, b = (c ++ [rb]) ++ y) -> before (order t) a b.
Proof. exact (@first_first rf hist t outs c ra rb u w v). Qed.
Print Assumptions C231_first.
(** a section that has no key when another has one comes behind it, also if it had keys before that were removed *)
Theorem C231_later rf hist t t' outs c ra rb : reached t -> t_run rf hist t = Ok (t', outs) -> no_remove hist -> ra <> rb ->
  (exists a y, In a (order t) /\ a = (c ++ [ra]) ++ y) -> (forall k, In k (order t) -> ~ exists y, k = (c ++ [rb]) ++ y) ->
  forall a b, In a (order t') -> In b (order t') -> (exists y, a = (c ++ [ra]) ++ y) -> (exists y, b = (c ++ [rb]) ++ y) -> before (order t') a b.
Proof. exact (@later_later rf hist t t' outs c ra rb). Qed.
Print Assumptions C231_later.
Example C231_again : match t_run 1 [(defaultHdl, ORemove (ob "zoo.b")); (defaultHdl, OSet (ob "zoo.b") GNil)] o_t with Ok (t, _) => order t | _ => [] end =
  [[]; ob "zoo."; ob "zoo.a"; ob "zoo.b"; ob "app"; ob "app.x"].
Proof. run. Qed.
Example C231_case : no_remove o_sets /\
  stored_keys o_sets = [] ++ ob "zoo.b" :: [ob "app.x"; ob "zoo.a"; ob "app"; ob "zoo.bar"] /\
  In (ob "zoo.bar") (order o_t) /\ In (ob "app") (order o_t) /\ (exists y, ob "zoo.bar" = ([] ++ ob "z") ++ y) /\ exists y, ob "app" = ([] ++ ob "a") ++ y.
Proof.
  split; [repeat constructor|]. split; [run|]. split; [vm_compute; tauto|]. split; [vm_compute; tauto|].
  split; [now exists (ob "oo.bar")|now exists (ob "pp")].
Qed.

(** C232: so the order of Walk is not a matter of the keys alone: any two Sets with different first runes, made in the
    other order, are visited in the other order *)
Theorem C232_refuted rf h a b va vb ra rb x y :
  runes (replace_byte 32 45 (full h a)) = ra :: x -> runes (replace_byte 32 45 (full h b)) = rb :: y -> ra <> rb ->
  exists t o t' o', t_run rf [(h, OSet a va); (h, OSet b vb)] newTrie = Ok (t, o) /\ t_run rf [(h, OSet b vb); (h, OSet a va)] newTrie = Ok (t', o') /\
    before (order t) (ra :: x) (rb :: y) /\ before (order t') (rb :: y) (ra :: x) /\ order t <> order t'.
Proof. exact (@order_differs rf h a b va vb ra rb x y). Qed.
Print Assumptions C232_refuted.
Example C232_case : runes (replace_byte 32 45 (full defaultHdl (ob "app"))) = 97%N :: ob "pp" /\
  runes (replace_byte 32 45 (full defaultHdl (ob "zoo"))) = 122%N :: ob "oo".
Proof. split; run. Qed.
