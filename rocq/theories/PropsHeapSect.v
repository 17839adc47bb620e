(** Goroutines that set keys in sections of their own (C153, C154): only statements.

    A goroutine is a pair of the key of a node and a list of keys and values that it sets one after the other.
    [below_node R g]: the tree has that node, and all keys the goroutine sets begin with its key; [separate gs]: of the keys of two
    goroutines none begins with the other.  [noid] forgets the addresses of nodes. *)
From Coq Require Import String.
From Coq Require Import List NArith ZArith Bool Arith Lia Permutation.
From Verif Require Import GoStr Utf8 Node NodeWf Trie TreeOps Spec Refine Reach Effect Heap HeapProofs HeapWalk
  HeapRace HeapGet HeapGetProofs HeapOwn HeapDup NoId HeapSect HeapFair.
Import ListNotations.
Open Scope nat_scope.
Open Scope list_scope.

Ltac run := vm_compute; reflexivity.

(** ** C153: sections of one's own *)
(** in any interleaving nobody panics; when all are done the tree is, up to addresses, what it is when the goroutines work one
    after the other, in whatever order *)
Theorem C153_sections grow h0 R gs gs' sch : tree_in h0 R -> Forall (below_node R) gs -> separate gs -> Permutation gs gs' ->
  let out := schedule sch (map (fun g => p_sets grow (nid R) (snd g)) gs) h0 in
  (forall p, In p (fst out) -> p <> Die /\ p <> Spin) /\
  (Forall (eq (Ret tt)) (fst out) -> exists R' t', tree_in (snd out) R' /\ nid R' = nid R /\
     t_sets (concat (map snd gs')) (Tr R (nn h0)) = Ok t' /\ wf_tr t' /\ noid R' = noid (root t')).
Proof. exact (@race_sections grow h0 R gs gs' sch). Qed.
Print Assumptions C153_sections.
(** trees that are the same up to addresses hold the same values, descriptions, comments and tags *)
Theorem C153_keys t t' : noid (root t) = noid (root t') -> forall k, t_get t k = t_get t' k.
Proof. intros E k. exact (noid_get t t' k E). Qed.
Print Assumptions C153_keys.
(** if everybody gets a turn again and again, all come to an end *)
Theorem C153_ends grow h0 R gs f : tree_in h0 R -> Forall (below_node R) gs -> separate gs -> fair (length gs) f ->
  exists n, Forall (eq (Ret tt)) (fst (schedule (map f (seq 0 n)) (map (fun g => p_sets grow (nid R) (snd g)) gs) h0)).
Proof. exact (@sections_end grow h0 R gs f). Qed.
Print Assumptions C153_ends.

Definition cfg : list (gostring * gval) :=
  [(s2b "server.port", GInt 80); (s2b "server.host", GInt 1); (s2b "client.id", GInt 5); (s2b "client.name", GInt 6)].
Definition h_cfg : heap := match Heap.run (p_sets no_room 0 cfg) newHeap with Ok (h, _) => h | _ => newHeap end.
Definition r_cfg : node := match t_sets cfg newTrie with Ok t => root t | _ => root newTrie end.
Lemma cfg_in : tree_in h_cfg r_cfg.
Proof.
  destruct (sets_tree no_room cfg newHeap newTrie tree_in_new eq_refl) as (h & t & E & RUN & _ & G & _).
  unfold h_cfg, r_cfg. change 0 with (nid (root newTrie)). rewrite RUN, E. exact G.
Qed.
(** new keys, splits and values that are overwritten, in both sections *)
Definition busy : list (key_t * list (gostring * gval)) :=
  [(runes (s2b "server."), [(s2b "server.path", GInt 7); (s2b "server.port", GInt 81); (s2b "server.tls.on", GInt 8)]);
   (runes (s2b "client."), [(s2b "client.tls", GInt 9); (s2b "client.idle", GInt 3)])].
Fixpoint turns (n : nat) : list nat := match n with O => [] | S n => 0 :: 1 :: turns n end.
Example C153_ex : tree_in h_cfg r_cfg /\ Forall (below_node r_cfg) busy /\ separate busy /\
  (let out := schedule (turns 120) (map (fun g => p_sets no_room (nid r_cfg) (snd g)) busy) h_cfg in
   fst out = [Ret tt; Ret tt] /\
   tree_at (snd out) (nid r_cfg) = Some
     [([], true, GNil); (s2b "server.", true, GNil); (s2b "server.p", true, GNil); (s2b "server.port", false, GInt 81);
      (s2b "server.path", false, GInt 7); (s2b "server.host", false, GInt 1); (s2b "server.tls.on", false, GInt 8);
      (s2b "client.", true, GNil); (s2b "client.id", false, GInt 5); (s2b "client.idle", false, GInt 3); (s2b "client.name", false, GInt 6); (s2b "client.tls", false, GInt 9)]).
Proof.
  split; [exact cfg_in|]. split.
  - repeat constructor.
    + eexists. vm_compute. right. now left.
    + intros k v H. repeat destruct H as [H|H]; try easy; injection H as <- <-; eexists; cbn [fst]; run.
    + eexists. vm_compute. do 4 right. now left.
    + intros k v H. repeat destruct H as [H|H]; try easy; injection H as <- <-; eexists; cbn [fst]; run.
  - split; [|split; run]. intros i j g g' N A B [z E]. destruct i as [|[|i]]; [| |destruct i; discriminate]; cbn in A; injection A as <-;
      (destruct j as [|[|j]]; [| |destruct j; discriminate]); cbn in B; injection B as <-; try tauto; cbn in E; discriminate.
Qed.

(** ** C154: sections of one's own that are new *)
(** the store has server.port only; one goroutine sets client.id, the other db.url; both return, and client.id or db.url is lost *)
Definition fresh_sections : list (list (gostring * gval)) := [[(s2b "client.id", GInt 5)]; [(s2b "db.url", GInt 6)]].
Definition small : list (gostring * gval) := [(s2b "server.port", GInt 80)].
Definition h_small : heap := match Heap.run (p_sets no_room 0 small) newHeap with Ok (h, _) => h | _ => newHeap end.
Definition r_small : node := match t_sets small newTrie with Ok t => root t | _ => root newTrie end.
Theorem C154_refuted : exists h0 R sch, tree_in h0 R /\
  let out := schedule sch (map (p_sets no_room (nid R)) fresh_sections) h0 in
  fst out = [Ret tt; Ret tt] /\
  tree_at (snd out) (nid R) = Some [([], true, GNil); (s2b "server.port", false, GInt 80); (s2b "client.id", false, GInt 5)].
Proof.
  exists h_small, r_small, (repeat 0 7 ++ repeat 1 60 ++ repeat 0 60). split; [|split; run].
  destruct (sets_tree no_room small newHeap newTrie tree_in_new eq_refl) as (h & t & E & RUN & _ & G & _).
  unfold h_small, r_small. change 0 with (nid (root newTrie)). rewrite RUN, E. exact G.
Qed.
Print Assumptions C154_refuted.
(** one after the other nothing is lost *)
Example C154_ex : let out := schedule (repeat 0 60 ++ repeat 1 60) (map (p_sets no_room (nid r_small)) fresh_sections) h_small in
  fst out = [Ret tt; Ret tt] /\
  tree_at (snd out) (nid r_small) =
    Some [([], true, GNil); (s2b "server.port", false, GInt 80); (s2b "client.id", false, GInt 5); (s2b "db.url", false, GInt 6)].
Proof. split; run. Qed.
