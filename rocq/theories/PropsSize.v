(** How large the tree gets and what a lookup costs (C188 - C196): only statements.

    [written hist]: the keys the calls of a history write.  [walk (root t)]: the nodes of the tree; [depth]: the number of nodes
    on the longest way down.  [t_get t k]: the attributes of the node with the key [k].  [accesses p h]: how often the program [p]
    alone on the memory [h] reads or writes a field of a node or an element of an array.  [fan F R]: no node has more than [F]
    children.  [tries h w]: [w] and, for a handle of BR(), the shorter paths it is retried with.  [mass R]: the
    number of nodes of [R], times six, and the number of runes in their fragments. *)
From Coq Require Import String.
From Coq Require Import List NArith ZArith Bool Arith Lia.
From Verif Require Import GoStr Utf8 Node NodeWf MatchProofs Trie TreeOps Spec Refine ApiRefine Reach Effect Derived Heap HeapProofs HeapWalk HeapRace
  HeapGet HeapGetProofs HeapRemove Size Leak Cost CostSet CostRemove CostAll Maze MazeCost SizeText PropsHeapSect.
Import ListNotations.
Open Scope nat_scope.
Open Scope list_scope.

Definition b (s : string) : gostring := s2b s.

(** ** C188: at most two nodes for each key ever written *)
(** [K]: any list that has all keys written, for instance each of them once *)
Theorem C188_nodes rf hist t outs K : t_run rf hist newTrie = Ok (t, outs) -> incl (written hist) K ->
  length (walk (root t)) <= S (2 * length K - 1).
Proof. exact (@nodes_bound rf hist t outs K). Qed.
Print Assumptions C188_nodes.
Theorem C188_depth rf hist t outs L : t_run rf hist newTrie = Ok (t, outs) -> Forall (fun w => length w <= L) (written hist) ->
  depth (root t) <= S L.
Proof. exact (@depth_bound rf hist t outs L). Qed.
Print Assumptions C188_depth.
(** three keys, one of them written twice and one removed and written again: five nodes, six would be allowed; with the keys
    ab and ac alone both bounds are met *)
Example C188_ex :
  let s k v := (defaultHdl, OSet k (GInt v)) in
  let hist := [s (b "ab") 1%Z; s (b "ac") 2%Z; s (b "ab") 3%Z; (defaultHdl, ORemove (b "ac")); s (b "abd") 4%Z; s (b "ac") 5%Z] in
  let K := [b "ab"; b "ac"; b "abd"] in
  (exists t outs, t_run 1 hist newTrie = Ok (t, outs) /\ incl (written hist) K /\ length (walk (root t)) = 5) /\
  (exists t outs, t_run 1 (firstn 2 hist) newTrie = Ok (t, outs) /\ length (walk (root t)) = S (2 * 2 - 1) /\ depth (root t) = 3 /\
     Forall (fun w => length w <= 2) (written (firstn 2 hist))).
Proof.
  cbv zeta. split.
  - eexists. eexists. split; [run|]. split; [|run]. intros w H. vm_compute in H. vm_compute. tauto.
  - eexists. eexists. split; [run|]. split; [run|]. split; [run|]. repeat constructor.
Qed.

(** ** C189: removing does not give the nodes back *)
(** There is no bound on the nodes left after all keys that were written have been removed again, although never more than two
    keys are there at a time: [churn n] writes and removes two keys, [n] times. *)
Theorem C189_refuted n : exists hist t outs, t_run 1 hist newTrie = Ok (t, outs) /\
  (forall w, In w (written hist) -> t_get t w = None) /\
  (forall k a, t_get t k = Some a -> a = bare false false GNil) /\
  n < length (walk (root t)).
Proof. exists (churn n). exact (@leak n). Qed.
Print Assumptions C189_refuted.
Example C189_ex : churn 1 =
  [(defaultHdl, OSet (b "ca") (GInt 0)); (defaultHdl, OSet (b "cb") (GInt 1)); (defaultHdl, ORemove (b "ca")); (defaultHdl, ORemove (b "cb"))] /\
  match t_run 1 (churn 3) newTrie with
  | Ok (t, outs) => map npath (walk (root t)) = [[]; b "c"; b "c"; b "c"] /\
      outs = concat (repeat [ROld GNil; ROld GNil; RBool true; RBool true] 3)
  | _ => False
  end.
Proof. split; [run|]. vm_compute. split; reflexivity. Qed.

(** ** C190: a lookup costs no more the more keys there are elsewhere *)
Theorem C190_query D h0 rf t h p dep F :
  plain_reach D t -> D (hdelim h) -> tree_in h0 (root t) -> fan F (root t) -> depth (root t) <= dep ->
  exists q, Heap.run (p_query (S rf) dep h (nid (root t)) p) h0 = Ok (h0, q) /\
    accesses (p_query (S rf) dep h (nid (root t)) p) h0 <=
      fold_right (fun w n => (2 + length (runes w)) * (4 * F + 6) + n) 4 (tries h (full h p)).
Proof. exact (@query_cost' D h0 rf t h p dep F). Qed.
Print Assumptions C190_query.
(** a handle that is not of BR(): one search *)
Theorem C190_plain D h0 rf t h p dep F :
  plain_reach D t -> D (hdelim h) -> tree_in h0 (root t) -> fan F (root t) -> depth (root t) <= dep -> hmode h <> ModeUp ->
  accesses (p_query (S rf) dep h (nid (root t)) p) h0 <= (2 + length (runes (full h p))) * (4 * F + 6) + 4.
Proof. exact (@query_cost_one D h0 rf t h p dep F). Qed.
Print Assumptions C190_plain.
Example C190_ex : exists t, plain_reach (fun d => d = dotChar) t /\ tree_in h_cfg (root t) /\ fan 2 (root t) /\ depth (root t) <= 3 /\
  accesses (p_query 1 3 defaultHdl (nid (root t)) (b "client.name")) h_cfg = 31 /\
  tries (Hdl [] dotChar ModeUp) (b "a.b.c.d") = [b "a.b.c.d"; b "a.b.d"; b "a.d"].
Proof.
  exists (match t_run 1 (map (fun e => (defaultHdl, OSetEx (fst e) (snd e))) cfg) newTrie with Ok (t, _) => t | _ => newTrie end).
  split; [|split; [|split; [|split; [|split]]]].
  - eapply plain_reach_hist with (rf := 0) (hist := map (fun e => (defaultHdl, OSetEx (fst e) (snd e))) cfg);
      [|vm_compute; reflexivity].
    repeat apply Forall_cons; try apply Forall_nil; split; try reflexivity; intros d ->; vm_compute; reflexivity.
  - replace (root _) with r_cfg by run. exact cfg_in.
  - unfold fan. apply Forall_forall. intros m Hm. vm_compute in Hm. repeat (destruct Hm as [<-|Hm]; [vm_compute; lia|]). destruct Hm.
  - vm_compute. lia.
  - run.
  - run.
Qed.

(** ** C191: so does Set *)
Theorem C191_set grow h0 R k v F : tree_in h0 R -> fan F R ->
  accesses (p_set grow (nid R) k v) h0 <= (2 + length (runes k)) * (2 * F + 2) + F + 20.
Proof. exact (@set_cost grow h0 R k v F). Qed.
Print Assumptions C191_set.
(** overwriting, a new leaf and a split *)
Example C191_ex : tree_in h_cfg r_cfg /\ fan 2 r_cfg /\
  map (fun k => accesses (p_set no_room (nid r_cfg) k (GInt 7)) h_cfg) [b "client.id"; b "client.tls"; b "server.path"] = [15; 19; 29].
Proof.
  split; [exact cfg_in|]. split; [|run].
  unfold fan. apply Forall_forall. intros m Hm. vm_compute in Hm. repeat (destruct Hm as [<-|Hm]; [vm_compute; lia|]). destruct Hm.
Qed.

(** ** C192: and Remove *)
Theorem C192_remove D grow h0 rf t h p dep F :
  plain_reach D t -> D (hdelim h) -> tree_in h0 (root t) -> fan F (root t) -> depth (root t) <= dep ->
  accesses (p_removeEx grow (S rf) dep h (nid (root t)) p) h0 <=
    fold_right (fun w n => (2 + length (runes w)) * (4 * F + 6) + n) (2 * F + 6) (tries h (full h p)).
Proof. exact (@removeEx_cost D grow h0 rf t h p dep F). Qed.
Print Assumptions C192_remove.
Definition hist_of : list (hdl * op) := map (fun e => (defaultHdl, OSetEx (fst e) (snd e))) cfg.
Definition outs_of : list out := match t_run 1 hist_of newTrie with Ok (_, o) => o | _ => [] end.
Definition t_of : tr := match t_run 1 hist_of newTrie with Ok (t, _) => t | _ => newTrie end.
Lemma of_run : t_run 1 hist_of newTrie = Ok (t_of, outs_of).
Proof. run. Qed.
Lemma of_plain : plain_hist (fun d => d = dotChar) hist_of.
Proof. repeat apply Forall_cons; try apply Forall_nil; split; try reflexivity; intros d ->; vm_compute; reflexivity. Qed.
Lemma of_in : tree_in h_cfg (root t_of).
Proof. replace (root t_of) with r_cfg by run. exact cfg_in. Qed.
(** the bound for client.id is 164 *)
Example C192_ex : plain_reach (fun d => d = dotChar) t_of /\ tree_in h_cfg (root t_of) /\ fan 2 (root t_of) /\ depth (root t_of) <= 3 /\
  map (fun k => accesses (p_removeEx no_room 1 3 defaultHdl (nid (root t_of)) k) h_cfg) [b "client.id"; b "client."; b "c"] = [31; 24; 10].
Proof.
  split; [exact (plain_reach_hist _ 0 _ _ _ of_plain of_run)|]. split; [exact of_in|]. split; [|split; [vm_compute; lia|run]].
  unfold fan. apply Forall_forall. intros m Hm. vm_compute in Hm. repeat (destruct Hm as [<-|Hm]; [vm_compute; lia|]). destruct Hm.
Qed.

(** ** C193: none of them costs more the more keys there are *)
(** no node has more children than there are different runes in the keys *)
Theorem C193_fan rf hist t outs A : t_run rf hist newTrie = Ok (t, outs) -> Forall (fun w => incl w A) (written hist) ->
  fan (length A) (root t).
Proof. exact (@fan_bound rf hist t outs A). Qed.
Print Assumptions C193_fan.
(** the bounds have nothing to do with the length of the history *)
Theorem C193_calls D rf hist t outs A h0 h p v grow dep : plain_hist D hist -> t_run (S rf) hist newTrie = Ok (t, outs) ->
  Forall (fun w => incl w A) (written hist) -> D (hdelim h) -> hmode h <> ModeUp -> tree_in h0 (root t) -> depth (root t) <= dep ->
  accesses (p_query (S rf) dep h (nid (root t)) p) h0 <= (2 + length (runes (full h p))) * (4 * length A + 6) + 4 /\
  accesses (p_set grow (nid (root t)) (full h p) v) h0 <= (2 + length (runes (full h p))) * (2 * length A + 2) + length A + 20 /\
  accesses (p_removeEx grow (S rf) dep h (nid (root t)) p) h0 <= (2 + length (runes (full h p))) * (4 * length A + 6) + (2 * length A + 6).
Proof. exact (@any_size D rf hist t outs A h0 h p v grow dep). Qed.
Print Assumptions C193_calls.
(** the four keys of [cfg] have 16 different runes; with keys of one rune each the bound on the children is met *)
Example C193_ex : plain_hist (fun d => d = dotChar) hist_of /\ t_run 1 hist_of newTrie = Ok (t_of, outs_of) /\
  Forall (fun w => incl w (runes (b "serv.pothclidnam"))) (written hist_of) /\ tree_in h_cfg (root t_of) /\ depth (root t_of) <= 3 /\
  (exists t outs, t_run 1 (map (fun k => (defaultHdl, OSet k GNil)) [b "x"; b "y"; b "z"]) newTrie = Ok (t, outs) /\
     length (nkids (root t)) = 3).
Proof.
  split; [exact of_plain|]. split; [exact of_run|]. split.
  { apply Forall_forall. intros w Hw. vm_compute in Hw. repeat (destruct Hw as [<-|Hw]; [intros r Hr; vm_compute in Hr; vm_compute; tauto|]). destruct Hw. }
  split; [exact of_in|]. split; [vm_compute; lia|]. eexists. eexists. split; run.
Qed.

(** ** C194: with patterns a lookup may have to read all of the tree, but nothing twice *)
(** The bound of C193 does not hold with patterns: a section that begins both with a name and with a pattern is searched twice over.
    Here all paths of six segments that are "a" or a pattern are written; a path that is not there is searched in all 64 of them. *)
Fixpoint paths (n : nat) : list gostring := match n with O => [b "z"] | S n => map (app (b "a.")) (paths n) ++ map (app (b ":.")) (paths n) end.
Definition maze : list (gostring * gval) := map (fun k => (k, GInt 1)) (paths 6).
Definition h_maze : heap := match Heap.run (p_sets no_room 0 maze) newHeap with Ok (h, _) => h | _ => newHeap end.
Definition t_maze : tr := match t_sets maze newTrie with Ok t => t | _ => newTrie end.
Definition hist_maze : list (hdl * op) := map (fun e => (defaultHdl, OSetEx (fst e) (snd e))) maze.
Definition outs_maze : list out := match t_run 2 hist_maze newTrie with Ok (_, o) => o | _ => [] end.
Lemma maze_in : tree_in h_maze (root t_maze).
Proof.
  destruct (sets_tree no_room maze newHeap newTrie tree_in_new eq_refl) as (h & t & E & RUN & _ & G & _).
  unfold h_maze, t_maze. change 0 with (nid (root newTrie)). rewrite RUN, E. exact G.
Qed.
Lemma maze_run : t_run 2 hist_maze newTrie = Ok (t_maze, outs_maze).
Proof. run. Qed.
Theorem C194_refuted : exists rf hist t outs A h0 h p dep, t_run (S rf) hist newTrie = Ok (t, outs) /\
  Forall (fun w => incl w A) (written hist) /\ hmode h <> ModeUp /\ tree_in h0 (root t) /\ depth (root t) <= dep /\
  (exists q, Heap.run (p_query (S rf) dep h (nid (root t)) p) h0 = Ok (h0, q)) /\
  (2 + length (runes (full h p))) * (4 * length A + 6) + 4 < accesses (p_query (S rf) dep h (nid (root t)) p) h0.
Proof.
  exists 1, hist_maze, t_maze, outs_maze, (runes (b "a.:z")), h_maze, defaultHdl, (b "a.a.a.a.a.a.:"), 8.
  split; [exact maze_run|]. split.
  { apply Forall_forall. intros w Hw. assert (X : forallb (forallb (fun r => existsb (N.eqb r) (runes (b "a.:z")))) (written hist_maze) = true) by run.
    rewrite forallb_forall in X. specialize (X w Hw). rewrite forallb_forall in X. intros r Hr. specialize (X r Hr).
    apply existsb_exists in X. destruct X as (y & Hy & Ey). apply N.eqb_eq in Ey. now subst. }
  split; [discriminate|]. split; [exact maze_in|]. split; [vm_compute; lia|]. split; [eexists; run|]. apply Nat.ltb_lt. run.
Qed.
Print Assumptions C194_refuted.
(** in any tree, whatever the fuel: the nodes are read once for each path that is tried *)
Theorem C194_query h0 rf R h p dep : tree_in h0 R ->
  accesses (p_query rf dep h (nid R) p) h0 <= length (tries h (full h p)) * mass R + 4.
Proof. exact (@query_cost_any h0 rf R h p dep). Qed.
Print Assumptions C194_query.
(** in numbers of keys: [K] has all keys written, none is longer than [L] *)
Theorem C194_hist rf hist t outs K L h0 rf' h p dep : t_run rf hist newTrie = Ok (t, outs) ->
  incl (written hist) K -> Forall (fun w => length w <= L) K -> tree_in h0 (root t) ->
  accesses (p_query rf' dep h (nid (root t)) p) h0 <= length (tries h (full h p)) * (S (2 * length K - 1) * (L + 6)) + 4.
Proof. exact (@query_cost_hist rf hist t outs K L h0 rf' h p dep). Qed.
Print Assumptions C194_hist.
(** Remove, when its search comes to an end (C07 has patterns with which it does not) *)
Theorem C194_remove grow h0 rf t h p dep F x : tree_in h0 (root t) -> fan F (root t) -> depth (root t) <= dep ->
  RemoveEx rf h t p = Ok x ->
  accesses (p_removeEx grow rf dep h (nid (root t)) p) h0 <= length (tries h (full h p)) * mass (root t) + (2 * F + 6).
Proof. exact (@removeEx_cost_any grow h0 rf t h p dep F x). Qed.
Print Assumptions C194_remove.
Example C194_ex : tree_in h_maze (root t_maze) /\ mass (root t_maze) = 1078 /\ length (written hist_maze) = 64 /\
  accesses (p_query 2 8 defaultHdl (nid (root t_maze)) (b "a.a.a.a.a.a.:")) h_maze = 353 /\
  fan 2 (root t_maze) /\ depth (root t_maze) <= 8 /\ (exists x, RemoveEx 2 defaultHdl t_maze (b "a.a.a.a.a.:.z") = Ok x) /\
  accesses (p_removeEx no_room 2 8 defaultHdl (nid (root t_maze)) (b "a.a.a.a.a.:.z")) h_maze = 50.
Proof.
  split; [exact maze_in|]. split; [run|]. split; [run|]. split; [run|]. split.
  - assert (X : forallb (fun m => length (nkids m) <=? 2) (walk (root t_maze)) = true) by run. rewrite forallb_forall in X.
    apply Forall_forall. intros m Hm. apply Nat.leb_le, X, Hm.
  - split; [vm_compute; lia|]. split; [eexists; run|run].
Qed.

(** ** C195: no polynomial bounds what a lookup costs when there are patterns *)
(** Not by the length of the path and the number of runes, whatever the polynomial, even when no key is longer or shorter than the path *)
Theorem C195_refuted c d : exists rf hist t outs A h0 h p dep, t_run (S rf) hist newTrie = Ok (t, outs) /\
  Forall (fun w => incl w A /\ length w = length (runes (full h p))) (written hist) /\ hmode h <> ModeUp /\
  tree_in h0 (root t) /\ depth (root t) <= dep /\
  (exists q, Heap.run (p_query (S rf) dep h (nid (root t)) p) h0 = Ok (h0, q)) /\
  c * (length (runes (full h p)) + length A) ^ d < accesses (p_query (S rf) dep h (nid (root t)) p) h0.
Proof. exact (maze_poly c d). Qed.
Print Assumptions C195_refuted.
(** The keys of [load n]: [n] segments that are "a" or ":", and "z".  There are 2^n of them. *)
Theorem C195_keys n : length (load n) = 2 ^ n /\
  Forall (fun k => ascii k = true /\ incl k four /\ length k = 2 * n + 1) (map fst (load n)) /\ length (nam ++ dead n) = 2 * n + 3.
Proof. exact (maze_keys n). Qed.
Print Assumptions C195_keys.
(** After 2^(n+1) of them are written, however the arrays grow and whatever the fuel, a path of 2n+3 runes is not found and the lookup
    has made 2^n accesses or more *)
Theorem C195_doubles n grow rf : exists t outs h0, t_run (S (S rf)) (MazeCost.hist_of (load (S n))) newTrie = Ok (t, outs) /\
  Heap.run (p_sets grow 0 (load (S n))) newHeap = Ok (h0, tt) /\ tree_in h0 (root t) /\
  forall dep, depth (root t) <= dep ->
    (exists kv, Heap.run (p_query (S (S rf)) dep defaultHdl (nid (root t)) (nam ++ dead n)) h0 = Ok (h0, QRes GNil false false kv)) /\
    2 ^ n <= accesses (p_query (S (S rf)) dep defaultHdl (nid (root t)) (nam ++ dead n)) h0.
Proof. exact (maze_cost n grow rf). Qed.
Print Assumptions C195_doubles.
Example C195_ex : map fst (load 1) = [b "a.z"; b ":.z"] /\ nam ++ dead 2 = b "a.a.a.:" /\ map fst (load 6) = map fst maze /\
  nam ++ dead 5 = b "a.a.a.a.a.a.:" /\ 2 ^ 5 <= 353.
Proof. repeat split; try run; apply Nat.leb_le; run. Qed.

(** ** C196: the fragments of all nodes together are not longer than the keys written *)
(** [total f l]: the sum of [f] over [l].  A rune is stored once for each prefix, however many keys have the prefix; [P]: any list that has
    all prefixes of the keys *)
Theorem C196_prefixes rf hist t outs P : t_run rf hist newTrie = Ok (t, outs) ->
  (forall w k, In w (written hist) -> prefix k w -> k <> [] -> In k P) ->
  total (fun m => length (npath m)) (walk (root t)) <= length P.
Proof. exact (@text_prefixes rf hist t outs P). Qed.
Print Assumptions C196_prefixes.
(** [K]: any list that has all keys written, for instance each of them once *)
Theorem C196_keys rf hist t outs K : t_run rf hist newTrie = Ok (t, outs) -> incl (written hist) K ->
  total (fun m => length (npath m)) (walk (root t)) <= total (@length rune) K.
Proof. exact (@text_bound rf hist t outs K). Qed.
Print Assumptions C196_keys.
(** the four keys of [cfg], 42 runes, are stored in 28; keys without a common first rune meet the bound *)
Example C196_ex : t_run 1 hist_of newTrie = Ok (t_of, outs_of) /\ total (@length rune) (written hist_of) = 42 /\
  total (fun m => length (npath m)) (walk (root t_of)) = 28 /\
  (exists t outs, t_run 1 (map (fun k => (defaultHdl, OSet k GNil)) [b "ab"; b "cd"; b "ab"]) newTrie = Ok (t, outs) /\
     total (fun m => length (npath m)) (walk (root t)) = 4).
Proof. split; [exact of_run|]. split; [run|]. split; [run|]. eexists. eexists. split; run. Qed.
