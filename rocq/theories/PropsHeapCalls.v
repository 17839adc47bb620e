(** Goroutines that use the store in sections of their own (C177): only statements.

    [scall]: a call of the trie ([It]), Set of the store ([StSet s p v]) or Remove of the store ([StRm s p]) by the handle [s], which
    has its own prefix, delimiter, handlers and flag for loading.  [p_calls]: the calls of one goroutine, in memory.  [does_cs]: the same on the
    tree, one call after the other.  [Told old es]: Set gave the old value and called the handlers with [es]; [Gone b es]: Remove. *)
From Coq Require Import String.
From Coq Require Import List NArith ZArith Bool Arith Lia Permutation.
From Verif Require Import GoStr Utf8 Node NodeWf MatchProofs Trie TreeOps Spec Refine Reach Effect Store Heap HeapProofs HeapWalk
  HeapRace HeapGet HeapGetProofs HeapOwn HeapDup NoId HeapSect HeapFair PropsHeapSect HeapStore HeapLin HeapWork HeapWorkProofs PropsHeapWork
  HeapStoreProofs HeapCalls HeapCallsProofs.
Import ListNotations.
Open Scope nat_scope.
Open Scope list_scope.

Ltac run := vm_compute; reflexivity.

(** ** C177: the store in sections of one's own *)
(** in any interleaving nobody panics, everybody gets the replies, and its handlers the calls, that it would get alone, and when all
    are done the tree, with its marks, is up to addresses what it is when the goroutines work one after the other, in whatever order *)
Theorem C177_calls grow rf dep h0 R gs gs' sch : tree_in h0 R -> Forall (ckeeps R) gs -> capart gs -> Forall (calone (S rf) (Tr R (nn h0))) gs ->
  Forall (fun g => depth R + 2 * length (snd (fst g)) <= dep) gs -> Permutation gs gs' ->
  let out := schedule sch (map (fun g => p_calls grow (S rf) dep (nid R) (snd (fst g))) gs) h0 in
  (forall p, In p (fst out) -> p <> Die /\ p <> Spin) /\
  (forall i ys, nth_error (fst out) i = Some (Ret ys) -> option_map snd (nth_error gs i) = Some ys) /\
  (Forall (fun p => exists ys, p = Ret ys) (fst out) -> exists R' t', tree_in (snd out) R' /\ nid R' = nid R /\
     does_cs (S rf) (Tr R (nn h0)) (concat (map (fun g => snd (fst g)) gs')) t' (concat (map snd gs')) /\ wf_tr t' /\ noid R' = noid (root t')).
Proof. exact (@race_calls grow rf dep h0 R gs gs' sch). Qed.
Print Assumptions C177_calls.
(** if everybody gets a turn again and again, all come to an end, with these replies *)
Theorem C177_ends grow rf dep h0 R gs f : tree_in h0 R -> Forall (ckeeps R) gs -> capart gs -> Forall (calone (S rf) (Tr R (nn h0))) gs ->
  Forall (fun g => depth R + 2 * length (snd (fst g)) <= dep) gs -> fair (length gs) f ->
  exists n, fst (schedule (map f (seq 0 n)) (map (fun g => p_calls grow (S rf) dep (nid R) (snd (fst g))) gs) h0) = map (fun g => Ret (snd g)) gs.
Proof. exact (@calls_end grow rf dep h0 R gs f). Qed.
Print Assumptions C177_ends.
(** calls that set no patterns, on a tree without patterns, have replies when they run alone *)
Theorem C177_alone rf (D : rune -> Prop) cs t : wf_tr t -> (forall d, D d -> plain_tree d [] (root t)) -> Forall (ctame D) cs ->
  exists t' ys, does_cs (S rf) t cs t' ys.
Proof. exact (@calls_alone rf D cs t). Qed.
Print Assumptions C177_alone.

(** one goroutine works at the server with a handle that is not loading, the other at the client with one that is *)
Definition at_server : list scall :=
  [StSet (sto 1 false) (s2b "server.path") (GInt 7); StSet (sto 1 false) (s2b "server.port") (GInt 81); StRm (sto 1 false) (s2b "server.host");
   It (Op (DoHas dh (s2b "server.host")))].
Definition at_client : list scall :=
  [StSet (sto 2 true) (s2b "client.id") (GInt 50); It (Op (DoTag dh (s2b "client.name") (GInt 2))); StRm (sto 2 true) (s2b "client.name");
   StSet (sto 2 true) (s2b "client.ip") (GInt 4)].
Definition two : list (key_t * list scall * list sreply) :=
  [(runes (s2b "server."), at_server, match run_cs 1 (Tr r_cfg (nn h_cfg)) at_server with Ok (_, ys) => ys | _ => [] end);
   (runes (s2b "client."), at_client, match run_cs 1 (Tr r_cfg (nn h_cfg)) at_client with Ok (_, ys) => ys | _ => [] end)].
(** the marks of the nodes, by address; in the end "ort" and "ath" are 7 and 8 *)
Definition marks (h : heap) : list bool := map (fun a => match is_marked h a with Some b => b | None => false end) (seq 0 (nn h)).
Example C177_ex : tree_in h_cfg r_cfg /\ Forall (ckeeps r_cfg) two /\ capart two /\
  Forall (calone 1 (Tr r_cfg (nn h_cfg))) two /\ Forall (fun g => depth r_cfg + 2 * length (snd (fst g)) <= 16) two /\
  Forall (ctame (eq (hdelim dh))) (at_server ++ at_client) /\
  map snd two =
    [[Told GNil [ENew 1 (s2b "server.path") (GInt 7) true]; Told (GInt 80) [EChange 1 (s2b "server.port") (GInt 81) (GInt 80) true];
      Gone true [EDelete 1 (s2b "server.host") (GInt 1) true]; Rep (Yes false)];
     [Told (GInt 5) [EChange 2 (s2b "client.id") (GInt 50) (GInt 5) false]; Rep (Yes true);
      Gone true [EDelete 2 (s2b "client.name") (GInt 6) false]; Told GNil [ENew 2 (s2b "client.ip") (GInt 4) false]]] /\
  (let out := schedule (turns 400) (map (fun g => p_calls no_room 1 16 (nid r_cfg) (snd (fst g))) two) h_cfg in
   fst out = map (fun g => Ret (snd g)) two /\
   tree_at (snd out) (nid r_cfg) = Some
     [([], true, GNil); (s2b "server.", true, GNil); (s2b "server.p", true, GNil); (s2b "server.port", false, GInt 81);
      (s2b "server.path", false, GInt 7); (s2b "client.", true, GNil); (s2b "client.i", true, GNil); (s2b "client.id", false, GInt 50);
      (s2b "client.ip", false, GInt 4)] /\
   marks (snd out) = [false; false; false; false; false; false; false; true; true; false; false]).
Proof.
  split; [exact cfg_in|]. split; [|split; [|split; [|split; [|split; [|split; [run|split; [run|split; run]]]]]]].
  - constructor; [|constructor; [|constructor]]; (split; [|repeat apply Forall_cons; try apply Forall_nil; repeat split; try discriminate; try exact cfg_plain]).
      all: try (lazymatch goal with |- (exists rest, _ = _ /\ _) \/ _ => left; cbn [fst]; eexists; split; [run|discriminate] end).
    + eexists. vm_compute. right. now left.
    + eexists. vm_compute. do 4 right. now left.
  - intros i j g g' N A B [z E]. apply (map_nth_error (fun g => fst (fst g))) in A, B. change (map (fun g => fst (fst g)) two) with [runes (s2b "server."); runes (s2b "client.")] in A, B.
    revert E. generalize dependent (fst (fst g)). generalize dependent (fst (fst g')). intros k' B k A E.
    destruct i as [|[|i]]; [| |destruct i; discriminate]; injection A as <-;
      (destruct j as [|[|j]]; [| |destruct j; discriminate]); injection B as <-; try tauto; cbn in E; discriminate.
  - constructor; [|constructor; [|constructor]]; eexists; apply run_cs_does; run.
  - repeat constructor.
  - repeat apply Forall_cons; try apply Forall_nil; repeat split; intros _ d <-; run.
Qed.
