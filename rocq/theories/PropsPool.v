(** The pools of buffers and of match contexts (C139 - C140): only statements.

    [happens fresh es (begin fresh ps)]: the goroutines [ps] after the events [es]: [Go i c], goroutine [i] takes one step
    ([c] chooses what Get takes from the pool, or says what Cap answers), [Drop c], the collector drops an object from the
    pool.  [p_all f l]: the jobs of [l], one after the other; its result is the list of results.  [p_job j]: Join, the join of
    WithPrefix, UsePool with a function that writes; [job_gives j]: what it should give.  [p_storeJoin]: join of the store.
    [p_searchJob (w, d, us)]: what a search for [w] does with its match context; its result is the list of delimiters that it
    reads.  [turns i es]: the number of steps of goroutine [i]. *)
From Coq Require Import String.
From Coq Require Import List NArith ZArith Bool Arith Lia.
From Verif Require Import GoStr Utf8 Node Trie Pools PoolProofs.
Import ListNotations.
Open Scope nat_scope.
Open Scope list_scope.

Ltac run := vm_compute; reflexivity.
Definition b (s : string) : gostring := s2b s.
Definition dot : rune := 46%N.

(** ** C139: joins in parallel *)
(** in the tree: whatever the pool does, each goroutine gets the joins of its own arguments, after a bounded number of its
    own steps; the buffers in the pool are empty and no buffer is there twice *)
Theorem C139_radix jobs es : let w := happens [] es (begin [] (map (p_all p_job) jobs)) in
  (forall o, In o (w_pool w) -> w_mem w o = []) /\ NoDup (w_pool w) /\
  (forall i js x, nth_error jobs i = Some js -> nth_error (w_procs w) i = Some (PRet x) -> x = map job_gives js) /\
  (forall i js, nth_error jobs i = Some js -> list_sum (map job_cost js) <= turns i es ->
     nth_error (w_procs w) i = Some (PRet (map job_gives js))).
Proof. exact (@radix_joins jobs es). Qed.
Print Assumptions C139_radix.
(** the same in the store *)
Theorem C139_store (jobs : list (list (rune * list gostring))) es :
  let w := happens [] es (begin [] (map (p_all (fun j => p_storeJoin (fst j) (snd j))) jobs)) in
  (forall o, In o (w_pool w) -> w_mem w o = []) /\ NoDup (w_pool w) /\
  (forall i js x, nth_error jobs i = Some js -> nth_error (w_procs w) i = Some (PRet x) -> x = map (fun j => Join (fst j) (snd j)) js) /\
  (forall i js, nth_error jobs i = Some js -> list_sum (map (fun j => 4 + length (Join (fst j) (snd j))) js) <= turns i es ->
     nth_error (w_procs w) i = Some (PRet (map (fun j => Join (fst j) (snd j)) js))).
Proof. exact (store_joins jobs es). Qed.
Print Assumptions C139_store.
(** two goroutines, in turn; the first buffer is used by both, one after the other *)
Definition jobs : list (list job) := [[JJoin dot [b "a"; b "b"]; JJoin1 dot (b "x") [b "y"]]; [JJoin dot [[]; b "c"; b "d"]; JUse [b "p"; b "q"]]].
Definition results {V A} (w : world V A) : list (option A) := map (fun p => match p with PRet x => Some x | _ => None end) (w_procs w).
Definition es : list event := flat_map (fun _ => [Go 0 0; Go 1 0]) (seq 0 20).
Example C139_ex : map (map job_gives) jobs = [[b "a.b"; b "x.y"]; [b "c.d"; b "pq"]] /\
  map (fun js => list_sum (map job_cost js)) jobs = [16; 15] /\ turns 0 es = 20 /\ turns 1 es = 20 /\
  results (happens [] es (begin [] (map (p_all p_job) jobs))) = [Some [b "a.b"; b "x.y"]; Some [b "c.d"; b "pq"]] /\
  w_next (happens [] es (begin [] (map (p_all p_job) jobs))) = 2 /\
  w_next (happens [] (repeat (Go 0 0) 20 ++ repeat (Go 1 0) 20) (begin [] (map (p_all p_job) jobs))) = 1.
Proof. repeat split; run. Qed.

(** ** C140: searches in parallel *)
(** each search reads its own delimiter, whatever the context it gets was used for *)
Theorem C140_contexts (jobs : list (list search_job)) es : let fresh := Ctx [] 0%N in
  let w := happens fresh es (begin fresh (map (p_all p_searchJob) jobs)) in
  NoDup (w_pool w) /\
  (forall i js x, nth_error jobs i = Some js -> nth_error (w_procs w) i = Some (PRet x) -> x = map search_gives js) /\
  (forall i js, nth_error jobs i = Some js -> list_sum (map search_cost js) <= turns i es ->
     nth_error (w_procs w) i = Some (PRet (map search_gives js))).
Proof. exact (contexts_safe jobs es). Qed.
Print Assumptions C140_contexts.
Definition searches : list (list search_job) :=
  [[(b "a.b", dot, [UseDelim; UseDelim; SetPath (b "b"); UseDelim])]; [(b "a/b", 47%N, [UseDelim]); (b "c", dot, [UseDelim])]].
Example C140_ex : map (map search_gives) searches = [[[dot; dot; dot]]; [[47%N]; [dot]]] /\
  results (happens (Ctx [] 0%N) es (begin (Ctx [] 0%N) (map (p_all p_searchJob) searches))) = [Some [[dot; dot; dot]]; Some [[47%N]; [dot]]] /\
  w_next (happens (Ctx [] 0%N) (repeat (Go 0 0) 20 ++ repeat (Go 1 0) 20) (begin (Ctx [] 0%N) (map (p_all p_searchJob) searches))) = 1.
Proof. repeat split; run. Qed.
