(** Goroutines that read, set, update, tag, comment and remove keys in sections of their own (C176): only statements.

    A goroutine is the key of a node, the calls that it makes one after the other, and the replies that it gets when it works
    alone on the tree at the start ([alone]).  [keeps_to R g]: the tree has that node, and all calls are about keys at or below it
    (what is removed is below it, and a key
    that is only looked up or exported may also end inside the fragment of that node: section server., key server).  [apart gs]: of the keys of two goroutines none begins with the other. *)
From Coq Require Import String.
From Coq Require Import List NArith ZArith Bool Arith Lia Permutation.
From Verif Require Import GoStr Utf8 Node NodeWf MatchProofs Trie TreeOps Spec Refine Reach Effect Heap HeapProofs HeapWalk
  HeapRace HeapGet HeapGetProofs HeapOwn HeapDup NoId HeapSect HeapFair PropsHeapSect HeapLin HeapWork HeapWorkProofs.
Import ListNotations.
Open Scope nat_scope.
Open Scope list_scope.

Ltac run := vm_compute; reflexivity.

(** ** C176: whole jobs in sections of one's own *)
(** in any interleaving nobody panics, everybody gets the replies that it would get alone, and when all are done the tree is, up to
    addresses, what it is when the goroutines work one after the other, in whatever order *)
Theorem C176_work grow rf dep h0 R gs gs' sch : tree_in h0 R -> Forall (fun g => keeps_to R (fst g)) gs -> apart (map fst gs) ->
  Forall (alone (S rf) (Tr R (nn h0))) gs -> Forall (fun g => depth R + length (snd (fst g)) <= dep) gs -> Permutation gs gs' ->
  let out := schedule sch (map (fun g => p_work grow (S rf) dep (nid R) (snd (fst g))) gs) h0 in
  (forall p, In p (fst out) -> p <> Die /\ p <> Spin) /\
  (forall i xs, nth_error (fst out) i = Some (Ret xs) -> option_map snd (nth_error gs i) = Some xs) /\
  (Forall (fun p => exists xs, p = Ret xs) (fst out) -> exists R' t', tree_in (snd out) R' /\ nid R' = nid R /\
     does_all (S rf) (Tr R (nn h0)) (concat (map (fun g => snd (fst g)) gs')) t' (concat (map snd gs')) /\ wf_tr t' /\ noid R' = noid (root t')).
Proof. exact (@race_work grow rf dep h0 R gs gs' sch). Qed.
Print Assumptions C176_work.
(** if everybody gets a turn again and again, all come to an end, with these replies *)
Theorem C176_ends grow rf dep h0 R gs f : tree_in h0 R -> Forall (fun g => keeps_to R (fst g)) gs -> apart (map fst gs) ->
  Forall (alone (S rf) (Tr R (nn h0))) gs -> Forall (fun g => depth R + length (snd (fst g)) <= dep) gs -> fair (length gs) f ->
  exists n, fst (schedule (map f (seq 0 n)) (map (fun g => p_work grow (S rf) dep (nid R) (snd (fst g))) gs) h0) = map (fun g => Ret (snd g)) gs.
Proof. exact (@work_ends grow rf dep h0 R gs f). Qed.
Print Assumptions C176_ends.
(** every job whose calls set no patterns, on a tree without patterns, has replies when it runs alone *)
Theorem C176_alone rf (D : rune -> Prop) job t : wf_tr t -> (forall d, D d -> plain_tree d [] (root t)) -> Forall (tame D) job ->
  exists t' xs, does_all (S rf) t job t' xs.
Proof. intros W P F. exact (tame_all rf D job t W P F). Qed.
Print Assumptions C176_alone.

(** one goroutine works at the server, the other at the client *)
Definition dh : hdl := defaultHdl.
Definition serve : list item :=
  [Op (DoSet dh (s2b "server.path") (GInt 7)); Op (DoGet dh (s2b "server.port")); Rm dh (s2b "server.host"); Op (DoHas dh (s2b "server.host"));
   Op (DoHasPart dh (s2b "server.pa"));
   Wr (WNode (GInt 9) GNil [s2b "d"; s2b "c"; s2b "e"]) dh (s2b "server.user"); Op (DoAttr Comm dh (s2b "server.user")); Wr WEmpty dh (s2b "server.user");
   Wr (WUpdate (fun old => [NSetTag old; NSetModified true])) dh (s2b "server.path"); Op (DoAttr Tag dh (s2b "server.path"))].
Definition more (v : gval) : gval := match v with GInt z => GInt (z + 1) | _ => GInt 0 end.
Definition tend : list item :=
  [Op (DoSetEx dh (s2b "client.id") (GInt 50)); Op (DoTag dh (s2b "client.name") (GInt 2)); Op (DoAttr Tag dh (s2b "client.name"));
   Op (DoComment dh (s2b "client.id") (s2b "d") (s2b "c")); Op (DoUpdate dh (s2b "client.id") more); Op (DoUpdate dh (s2b "client.no") more);
   Rm dh (s2b "client.name"); Op (DoHas dh (s2b "client.name"));
   Op (DoAttr Desc dh (s2b "client.id"))].
Definition both : list (key_t * list item * list reply) :=
  [(runes (s2b "server."), serve, match run_all 1 (Tr r_cfg (nn h_cfg)) serve with Ok (_, xs) => xs | _ => [] end);
   (runes (s2b "client."), tend, match run_all 1 (Tr r_cfg (nn h_cfg)) tend with Ok (_, xs) => xs | _ => [] end)].
Lemma cfg_plain : plain_tree (hdelim dh) [] r_cfg.
Proof.
  intros k [n H]. assert (A : forallb (fun x => plainb (hdelim dh) false (fst x)) (ents [] r_cfg) = true) by run.
  rewrite forallb_forall in A. exact (A _ H).
Qed.
Example C176_ex : tree_in h_cfg r_cfg /\ Forall (fun g => keeps_to r_cfg (fst g)) both /\ apart (map fst both) /\
  Forall (alone 1 (Tr r_cfg (nn h_cfg))) both /\ Forall (fun g => depth r_cfg + length (snd (fst g)) <= 14) both /\
  Forall (tame (eq (hdelim dh))) (serve ++ tend) /\
  map snd both =
    [[Stored; Value (QRes (GInt 80) false true []); Yes true; Yes false; Yes true; Old GNil; Is (GStr (s2b ("c" ++ String (Ascii.ascii_of_nat 10) "e"))) true; Old (GInt 9);
      Stored; Is (GInt 7) true];
     [Old (GInt 5); Yes true; Is (GInt 2) true; Yes true; Stored; Stored; Yes true; Yes false; Is (GStr (s2b "d")) true]] /\
  (let out := schedule (turns 500) (map (fun g => p_work no_room 1 14 (nid r_cfg) (snd (fst g))) both) h_cfg in
   fst out = map (fun g => Ret (snd g)) both /\
   tree_at (snd out) (nid r_cfg) = Some
     [([], true, GNil); (s2b "server.", true, GNil); (s2b "server.p", true, GNil); (s2b "server.port", false, GInt 80);
      (s2b "server.path", false, GNil); (s2b "server.user", false, GNil); (s2b "client.", true, GNil); (s2b "client.id", false, GInt 51); (s2b "client.n", true, GNil); (s2b "client.no", false, GInt 0)]).
Proof.
  split; [exact cfg_in|]. split; [|split; [|split; [|split; [|split; [|split; [run|split; run]]]]]].
  - repeat constructor; try discriminate; try exact cfg_plain.
    + eexists. vm_compute. right. now left.
    + eexists. split; [run|discriminate].
    + eexists. split; [run|discriminate].
    + eexists. split; [run|discriminate].
    + eexists. split; [run|discriminate].
    + eexists. split; [run|discriminate].
    + eexists. split; [run|discriminate].
    + eexists. split; [run|discriminate].
    + eexists. split; [run|discriminate].
    + eexists. split; [run|discriminate].
    + eexists. split; [run|discriminate].
    + eexists. vm_compute. do 4 right. now left.
    + eexists. split; [run|discriminate].
    + eexists. split; [run|discriminate].
    + eexists. split; [run|discriminate].
    + eexists. split; [run|discriminate].
    + eexists. split; [run|discriminate].
    + eexists. split; [run|discriminate].
    + eexists. split; [run|discriminate].
    + eexists. split; [run|discriminate].
    + eexists. split; [run|discriminate].
  - intros i j g g' N A B [z E]. destruct i as [|[|i]]; [| |destruct i; discriminate]; cbn in A; injection A as <-;
      (destruct j as [|[|j]]; [| |destruct j; discriminate]); cbn in B; injection B as <-; try tauto; cbn in E; discriminate.
  - repeat constructor; unfold alone; eexists; apply run_does; run.
  - repeat constructor.
  - repeat constructor; intros _ d <-; run.
Qed.
