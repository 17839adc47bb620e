(** Dup while other goroutines work on the tree (C150 - C152): only statements.

    [overwriting grow rt job]: the goroutine sets the keys and values of [job] one after the other on the tree whose root is at
    the address [rt]; [copying grow clone dep rt]: the goroutine calls Dup; [schedule sch ps h]: the programs [ps] take single
    memory accesses in the order [sch].  [tree_in m R]: the tree [R] is in the memory [m]; [apart R' R]: they share no node. *)
From Coq Require Import String.
From Coq Require Import List NArith ZArith Bool Arith Lia.
From Verif Require Import GoStr Utf8 Node NodeWf Trie TreeOps Spec Refine Reach Effect Heap HeapProofs HeapWalk
  HeapRace HeapGet HeapGetProofs HeapSee HeapSeeProofs HeapOwn HeapDup.
Import ListNotations.
Open Scope nat_scope.
Open Scope list_scope.

Ltac run := vm_compute; reflexivity.

(** ** C150: copies made while values are overwritten *)
(** the tree keeps its shape, nobody panics, and every copy has the shape of the tree, shares nothing with it or with the
    other copies, and each of its values is the old one or one that was set *)
Theorem C150_copies grow clone h0 R jobs c dep sch : tree_in h0 R -> unborn h0 -> depth R <= dep ->
  (forall job k v, In job jobs -> In (k, v) job -> exists a, key_at R k a) ->
  let (ps, m) := schedule sch (map (overwriting grow (nid R)) jobs ++ repeat (copying grow clone dep (nid R)) c) h0 in
  (exists R1, tree_in m R1 /\ twin (same1 (some_set jobs R)) R R1) /\
  (forall p, In p ps -> p <> Die /\ p <> Spin) /\
  (forall i x, i < c -> nth_error ps (List.length jobs + i) = Some (Ret x) -> exists R', x = Copy (nid R') /\
     tree_in m R' /\ copied (some_set jobs R) clone R R' /\ apart R' R /\
     (forall j y, j < c -> j <> i -> nth_error ps (List.length jobs + j) = Some (Ret y) ->
        exists R'', y = Copy (nid R'') /\ tree_in m R'' /\ copied (some_set jobs R) clone R R'' /\ apart R' R'')).
Proof. exact (@race_dup grow clone h0 R jobs c dep sch). Qed.
Print Assumptions C150_copies.
(** the same by keys *)
Theorem C150_keys grow clone h0 t jobs c dep sch : tree_in h0 (root t) -> wf_tr t -> unborn h0 -> depth (root t) <= dep ->
  (forall job k v, In job jobs -> In (k, v) job -> exists a, key_at (root t) k a) ->
  let (ps, m) := schedule sch (map (overwriting grow (nid (root t))) jobs ++ repeat (copying grow clone dep (nid (root t))) c) h0 in
  (forall p, In p ps -> p <> Die /\ p <> Spin) /\
  (forall i x, i < c -> nth_error ps (List.length jobs + i) = Some (Ret x) -> exists t', x = Copy (nid (root t')) /\
     tree_in m (root t') /\ wf_tr t' /\ apart (root t') (root t) /\
     forall k, match t_get t k, t_get t' k with
               | Some a, Some b => copied_at clone jobs k a b
               | None, None => True
               | _, _ => False
               end).
Proof. exact (@race_dup_keys grow clone h0 t jobs c dep sch). Qed.
Print Assumptions C150_keys.
(** memory that is not allocated is empty to begin with and stays so *)
Theorem C150_unborn : unborn newHeap /\
  forall A (p : prog A) h h' x, unborn h -> Heap.run p h = Ok (h', x) -> unborn h'.
Proof. split; [exact unborn_new|exact @run_unborn]. Qed.
Print Assumptions C150_unborn.
Definition jobs : list (list (gostring * gval)) := [[(s2b "a", GInt 7); (s2b "b", GInt 8)]; [(s2b "b", GInt 9)]].
Lemma abc_unborn : unborn h_abc.
Proof.
  unfold h_abc. destruct (Heap.run (p_sets no_room 0 abc) newHeap) as [[h []]| |] eqn:E; try apply unborn_new.
  exact (run_unborn _ _ _ _ unborn_new E).
Qed.
(** two writers and two Dups; the copies are at the nodes 4 and 6 and differ *)
Definition both := schedule (repeat 2 9 ++ repeat 0 17 ++ repeat 3 60 ++ repeat 1 60 ++ repeat 0 60 ++ repeat 2 60)
  (map (overwriting no_room (nid r_abc)) jobs ++ repeat (copying no_room (fun v => v) 5 (nid r_abc)) 2) h_abc.
Definition copies (ps : list (prog outcome)) (m : heap) : list (option (list (gostring * bool * gval))) :=
  map (fun p => match p with Ret (Copy x) => tree_at m x | _ => None end) (skipn 2 ps).
Example C150_ex : tree_in h_abc r_abc /\ unborn h_abc /\ depth r_abc <= 5 /\
  (forall job k v, In job jobs -> In (k, v) job -> exists a, key_at r_abc k a) /\
  copies (fst both) (snd both) =
    [ltree [(s2b "a", false, GInt 7); (s2b "b", false, GInt 8); lfv "c" 51%N];
     ltree [(s2b "a", false, GInt 7); lfv "b" 50%N; lfv "c" 51%N]].
Proof.
  split; [exact abc_in|]. split; [exact abc_unborn|]. split; [vm_compute; lia|]. split; [|run].
  intros job k v H1 H2. destruct H1 as [<-|[<-|[]]].
  - destruct H2 as [X|[X|[]]]; injection X as <- <-; eexists; eexists; (split; [|reflexivity]); vm_compute; auto.
  - destruct H2 as [X|[]]; injection X as <- <-; eexists; eexists; (split; [|reflexivity]); vm_compute; auto.
Qed.

(** ** C151: Dup gives the tree as it was at one moment *)
(** one goroutine sets a, then b; the copy has the new b and the old a, as the tree never had *)
Theorem C151_refuted : exists i j l after, copy_beside over_ab h_abc i j = Some (ltree l, after) /\ ~ In (ltree l) (moments over_ab h_abc i j).
Proof. do 4 eexists. split; [exact mixed_copy|exact mixed_never]. Qed.
Print Assumptions C151_refuted.
(** the moments are not empty of meaning: the tree before, between and after the two Sets is among them *)
Example C151_ex : Forall (fun l => In (ltree l) (moments over_ab h_abc 10 90))
  [[lfv "a" 49%N; lfv "b" 50%N; lfv "c" 51%N]; [lfv "a" 55%N; lfv "b" 50%N; lfv "c" 51%N]; [lfv "a" 55%N; lfv "b" 56%N; lfv "c" 51%N]].
Proof.
  assert (X : forall n l, nth_error (moments over_ab h_abc 10 90) n = Some l -> In l (moments over_ab h_abc 10 90))
    by (intros n l E; exact (nth_error_In _ n E)).
  apply Forall_cons; [apply (X 0); run|]. apply Forall_cons; [apply (X 19); run|]. apply Forall_cons; [apply (X 100); run|]. apply Forall_nil.
Qed.

(** ** C152: a key that nobody touches is in the copy as it is in the tree *)
(** apple is there, another goroutine sets apricot: the copy has apple without its value *)
Theorem C152_refuted_nil : exists i j after, copy_beside new_apricot h_apple i j = Some (ltree [(s2b "apple", false, GNil)], after) /\
  exists l, after = ltree l /\ In (lfv "apple" 49%N) l.
Proof. do 3 eexists. split; [exact empty_copy|]. eexists. split; [reflexivity|]. right. now left. Qed.
Print Assumptions C152_refuted_nil.
(** the copy has ap, which is no key, with the value of apple; apple is not in it *)
Theorem C152_refuted_phantom : exists i j after, copy_beside new_apricot h_apple i j = Some (ltree [lfv "ap" 49%N], after).
Proof. do 3 eexists. exact phantom_copy. Qed.
Print Assumptions C152_refuted_phantom.
(** another goroutine removes a: b is not in the copy, and c is in it twice *)
Theorem C152_refuted_twice : exists i j after, copy_beside gone_a h_abc i j =
  Some (ltree [lfv "a" 49%N; lfv "c" 51%N; lfv "c" 51%N], after) /\ after = ltree [lfv "b" 50%N; lfv "c" 51%N].
Proof. do 3 eexists. split; [exact double_copy|reflexivity]. Qed.
Print Assumptions C152_refuted_twice.
(** in that copy c is still there after a Remove of c that reports success *)
Theorem C152_refuted_stays : exists l, double_remove = Some (true, ltree l) /\ In (lfv "c" 51%N) l.
Proof. eexists. split; [exact double_stays|]. right. now left. Qed.
Print Assumptions C152_refuted_stays.
(** if the one comes after the other, all is well *)
Theorem C152_before_after : copy_beside gone_a h_abc 90 90 =
    Some (ltree [lfv "a" 49%N; lfv "b" 50%N; lfv "c" 51%N], ltree [lfv "b" 50%N; lfv "c" 51%N]) /\
  copy_beside gone_a h_abc 0 90 = Some (ltree [lfv "b" 50%N; lfv "c" 51%N], ltree [lfv "b" 50%N; lfv "c" 51%N]) /\
  copy_beside new_apricot h_apple 90 90 =
    Some (ltree [lfv "apple" 49%N], ltree [(s2b "ap", true, GNil); lfv "apple" 49%N; lfv "apricot" 50%N]).
Proof. exact calm_copy. Qed.
Print Assumptions C152_before_after.
