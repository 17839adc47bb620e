(** The order of Walk computed from the keys written (C236): only statements.

    [put_key w l]: the list of keys [l] after [w] is written: the keys of [l] that share the longest text with [w] stand
    together, this text comes in front of them and [w] behind them, unless they are there ([deepest]: the text; [part]: the
    elements up to the first that does not satisfy a condition, and the others). *)
From Coq Require Import String.
From Coq Require Import List NArith ZArith Bool Arith Lia.
From Verif Require Import GoStr Utf8 Node NodeWf Trie Spec Refine ApiRefine Reach Derived Derived2 Samples Order PropsOrder Order3.
Import ListNotations.
Open Scope nat_scope.
Open Scope list_scope.

(** C236: the list of the keys of all nodes in the order of Walk, computed without a tree *)
Theorem C236_step rf h t o t' r : reached t -> t_step rf h t o = Ok (t', r) -> (forall path, o <> ORemove path) ->
  order t' = match stored h o with Some p => put_key (runes p) (order t) | None => order t end.
Proof. exact (@step_put rf h t o t' r). Qed.
Print Assumptions C236_step.
Theorem C236_run rf hist t t' outs : reached t -> t_run rf hist t = Ok (t', outs) -> no_remove hist ->
  order t' = fold_left (fun l w => put_key w l) (stored_keys hist) (order t).
Proof. intros R. exact (@run_put rf hist t t' outs (reached_wf t R)). Qed.
Print Assumptions C236_run.
(** a new store has the root only *)
Theorem C236_new rf hist t outs : t_run rf hist newTrie = Ok (t, outs) -> no_remove hist ->
  order t = fold_left (fun l w => put_key w l) (stored_keys hist) [[]].
Proof. exact (@run_put rf hist newTrie t outs newTrie_wf). Qed.
Print Assumptions C236_new.
(** and Remove, of whatever it finds by the path, leaves out the keys that are gone *)
Theorem C236_remove rf h t path t' r : reached t -> t_step rf h t (ORemove path) = Ok (t', r) ->
  order t' = filter (fun k => match t_get t' k with Some _ => true | None => false end) (order t).
Proof. exact (@step_gone rf h t path t' r). Qed.
Print Assumptions C236_remove.
Example C236_case : fold_left (fun l w => put_key w l) (stored_keys o_sets) [[]] =
    [[]; ob "zoo."; ob "zoo.b"; ob "zoo.bar"; ob "zoo.a"; ob "app"; ob "app.x"] /\
  put_key (ob "zoo.bat") (order o_t) = [[]; ob "zoo."; ob "zoo.b"; ob "zoo.ba"; ob "zoo.bar"; ob "zoo.bat"; ob "zoo.a"; ob "app"; ob "app.x"] /\
  put_key (ob "zo") (order o_t) = [[]; ob "zo"; ob "zoo."; ob "zoo.b"; ob "zoo.bar"; ob "zoo.a"; ob "app"; ob "app.x"].
Proof. split; [run|]. split; run. Qed.
