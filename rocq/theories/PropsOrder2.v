(** The properties of the order of Walk as a matter of the keys written (C233 - C235): only statements.

    [order t]: the full key of every node of the tree, in the order of Walk.  [stored_keys hist]: the keys that the writing
    calls of a history store, in turn.  [leads A B l]: the first of the keys [l] that begins with [A] or with [B] begins with
    [A].  [firsts l]: the keys of [l], each where it is for the first time. *)
From Coq Require Import String.
From Coq Require Import List NArith ZArith Bool Arith Lia.
From Verif Require Import GoStr Utf8 Node NodeWf Trie Spec Refine ApiRefine Reach Derived Derived2 Samples Order PropsOrder Order2.
Import ListNotations.
Open Scope nat_scope.
Open Scope list_scope.

(** C233: which of two nodes Walk visits first, from the keys written alone *)
Theorem C233_exact rf hist t outs a b : t_run rf hist newTrie = Ok (t, outs) -> no_remove hist ->
  In a (order t) -> In b (order t) ->
  (before (order t) a b <-> (exists r y, b = a ++ r :: y) \/
    exists c ra rb x y, ra <> rb /\ a = c ++ ra :: x /\ b = c ++ rb :: y /\ leads (c ++ [ra]) (c ++ [rb]) (stored_keys hist) = true).
Proof. exact (@order_exact rf hist t outs a b). Qed.
Print Assumptions C233_exact.
Example C233_case : leads (ob "zoo." ++ ob "b") (ob "zoo." ++ ob "a") (stored_keys o_sets) = true /\
  leads (ob "zoo." ++ ob "a") (ob "zoo." ++ ob "b") (stored_keys o_sets) = false /\
  before (order o_t) (ob "zoo.bar") (ob "zoo.a") /\ ~ before (order o_t) (ob "zoo.a") (ob "zoo.bar").
Proof.
  split; [run|]. split; [run|].
  assert (E : t_run 1 o_sets newTrie = Ok (o_t, [ROld GNil; ROld GNil; ROld GNil; ROld GNil; ROld GNil])) by run.
  assert (B : before (order o_t) (ob "zoo.bar") (ob "zoo.a")).
  { apply (C233_exact 1 o_sets o_t _ _ _ E); [repeat constructor|vm_compute; tauto|vm_compute; tauto|].
    right. exists (ob "zoo."), 98%N, 97%N, (ob "ar"), []. split; [discriminate|]. repeat split. }
  split; [exact B|]. intros B'. refine (before_asym _ _ _ (order_nodup o_t _) B B').
  exact (run_wf 1 o_sets newTrie o_t _ newTrie_wf E).
Qed.

(** C234: only the order in which the keys are written for the first time counts *)
Theorem C234_firsts rf rf' hist hist' t t' outs outs' :
  t_run rf hist newTrie = Ok (t, outs) -> t_run rf' hist' newTrie = Ok (t', outs') -> no_remove hist -> no_remove hist' ->
  firsts (stored_keys hist) = firsts (stored_keys hist') -> order t = order t'.
Proof. exact (@order_firsts rf rf' hist hist' t t' outs outs'). Qed.
Print Assumptions C234_firsts.
Definition o_more : list (hdl * op) := o_sets ++ sets defaultHdl [(ob "app", GNil); (ob "zoo.b", GInt 9)].
Example C234_case : no_remove o_more /\ firsts (stored_keys o_more) = firsts (stored_keys o_sets) /\ stored_keys o_more <> stored_keys o_sets /\
  match t_run 1 o_more newTrie with Ok (t, _) => order t | _ => [] end = order o_t.
Proof. split; [repeat constructor|]. split; [run|]. split; [discriminate|run]. Qed.

(** C235: a call that writes a key which is a node already, or that does not write, leaves the order as it is *)
Theorem C235_again rf h t o t' r : reached t -> t_step rf h t o = Ok (t', r) -> (forall path, o <> ORemove path) ->
  (forall p, stored h o = Some p -> In (runes p) (order t)) -> order t' = order t.
Proof. exact (@step_again rf h t o t' r). Qed.
Print Assumptions C235_again.
(** also for a branching point that gets data: "zoo." *)
Example C235_case : stored defaultHdl (OSet (ob "zoo.") (GInt 7)) = Some (ob "zoo.") /\ In (runes (ob "zoo.")) (order o_t) /\
  match t_step 1 defaultHdl o_t (OSet (ob "zoo.") (GInt 7)) with Ok (t, _) => order t | _ => [] end = order o_t.
Proof. split; [run|]. split; [vm_compute; tauto|run]. Qed.
