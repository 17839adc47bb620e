(** Walk on the tree in memory (C135 - C138): only statements.

    [run p h]: the program [p] alone, on the memory [h].  [schedule sch ps h]: the programs [ps] together, one access at a
    time, in the order [sch].  [p_Walk rf dep h rt p]: Walk of the path [p] by the handle [h] on the tree with the root at
    [rt], with a callback that notes what it gets ([shown]); [show n]: what it should note for the node [n].  [setting],
    [removing], [listing]: goroutines that Set the keys of a list, remove a path, and walk from a path; they end with
    [Finished] or [Listed l].  [key_at R k a]: the key [k] of [R] is at address [a].  [some_set jobs R a v]: some goroutine
    sets the key at [a] to [v].  [saw may n s]: [s] is [show n], but for a value that may be at [n].  [spied jobs k a s]: [s]
    fits the attributes [a] of the key [k], but for a value that some goroutine sets [k] to.  [may_list t p l]: [l] is empty,
    or starts with a node of [t] (the root if [p] is empty) and goes on with nodes of [t] below that, shown as they are in
    [t].  [list_beside w h i j]: what the callback is shown if the walk takes [i] steps, [w] takes [j], then the walk goes on. *)
From Coq Require Import String.
From Coq Require Import List NArith ZArith Bool Arith Lia.
From Verif Require Import GoStr Utf8 Node NodeWf Trie TreeOps Spec Refine ApiRefine Reach Effect Derived Heap HeapProofs HeapWalk HeapRace
  HeapGet HeapGetProofs HeapRemove HeapRemoveProofs HeapSee HeapSeeProofs.
Import ListNotations.
Open Scope nat_scope.
Open Scope list_scope.

Ltac run := vm_compute; reflexivity.
Definition b (s : string) : gostring := s2b s.

(** ** C135: Walk on the tree in memory, alone and while other goroutines overwrite keys that exist *)
(** alone, access by access, it shows what Walk on the tree of the model visits, and changes nothing *)
Theorem C135_alone h0 rf h R nx dep p ns : hwf h0 -> repr h0 R -> depth R <= dep ->
  Walk rf h (Tr R nx) p = Ok ns -> run (p_Walk rf dep h (nid R) p) h0 = Ok (h0, map show ns).
Proof. exact (@walk_run h0 rf h R nx dep p ns). Qed.
Print Assumptions C135_alone.
(** beside others that overwrite: the same nodes in the same order, each with its value or one that is written to it *)
Theorem C135_any grow rf h0 R nx jobs walks dep sch : tree_in h0 R -> depth R <= dep ->
  (forall job k v, In job jobs -> In (k, v) job -> exists a, key_at R k a) ->
  (forall h p, In (h, p) walks -> exists ns, Walk rf h (Tr R nx) p = Ok ns) ->
  let (ps, m) := schedule sch (map (setting grow (nid R)) jobs ++ map (listing rf dep (nid R)) walks) h0 in
  (exists R', repr m R' /\ map shape (ents [] R') = map shape (ents [] R)) /\
  (forall p, In p ps -> p <> Die /\ p <> Spin) /\
  (forall i h p ns x, nth_error walks i = Some (h, p) -> Walk rf h (Tr R nx) p = Ok ns ->
     nth_error ps (length jobs + i) = Some (Ret x) -> exists l, x = Listed l /\ Forall2 (saw (some_set jobs R)) ns l).
Proof. exact (@race_walk grow rf h0 R nx jobs walks dep sch). Qed.
Print Assumptions C135_any.
(** the whole tree, in terms of keys: each key once *)
Theorem C135_keys grow rf h0 t jobs hs dep sch : tree_in h0 (root t) -> reached t -> depth (root t) <= dep ->
  (forall job k v, In job jobs -> In (k, v) job -> exists a, key_at (root t) k a) ->
  let (ps, m) := schedule sch (map (setting grow (nid (root t))) jobs ++ map (listing rf dep (nid (root t))) (map (fun h => (h, [])) hs)) h0 in
  (forall p, In p ps -> p <> Die /\ p <> Spin) /\
  (forall i x, i < length hs -> nth_error ps (length jobs + i) = Some (Ret x) -> exists l ks, x = Listed l /\
     length ks = length l /\ NoDup ks /\ NoDup (map sw_at l) /\
     (forall k, In k ks <-> t_get t k <> None) /\
     (forall k s, In (k, s) (combine ks l) -> exists a, t_get t k = Some a /\ spied jobs k a s)).
Proof. exact (@race_walk_keys grow rf h0 t jobs hs dep sch). Qed.
Print Assumptions C135_keys.
Definition dotD : rune -> Prop := fun c => c = 46%N.
Definition t_abc : tr := Tr r_abc 4.
Definition hist : list (hdl * op) := map (fun kv => (defaultHdl, OSet (fst kv) (snd kv))) abc.
Definition jobs : list (list (gostring * gval)) := [[(b "a", GInt 7); (b "b", GInt 8)]; [(b "a", GInt 9)]].
Lemma abc_plain : plain_reach dotD t_abc.
Proof.
  destruct (t_run 1 hist newTrie) as [[t outs]| |] eqn:E; [|vm_compute in E; discriminate..].
  apply (plain_reach_hist dotD 0 hist t_abc outs).
  - repeat (apply Forall_cons; [split; [reflexivity|intros d Hd; unfold dotD in Hd; subst d; vm_compute; reflexivity || exact I]|]).
    apply Forall_nil.
  - rewrite E. vm_compute in E. injection E as <- <-. reflexivity.
Qed.
(** the walk sees the new value of b only, as it has been at a before *)
Example C135_ex : tree_in h_abc (root t_abc) /\ reached t_abc /\ depth (root t_abc) <= 5 /\
  (forall job k v, In job jobs -> In (k, v) job -> exists a, key_at (root t_abc) k a) /\
  Walk 1 defaultHdl t_abc [] = Ok (walk (root t_abc)) /\
  list_beside (setting no_room 0 [(b "a", GInt 7); (b "b", GInt 8)]) h_abc 10 60 =
    Some [rt0; lf "a" 49%N; (b "b", false, GInt 8); lf "c" 51%N].
Proof.
  split; [exact abc_in|]. split; [exact (plain_reach_reached dotD _ abc_plain)|]. split; [vm_compute; lia|]. split; [|split; run].
  intros job k v H1 H2. destruct H1 as [<-|[<-|[]]].
  - destruct H2 as [X|[X|[]]]; injection X as <- <-; eexists; eexists; (split; [|reflexivity]); vm_compute; auto.
  - destruct H2 as [X|[]]; injection X as <- <-; eexists; eexists; (split; [|reflexivity]); vm_compute; auto.
Qed.

(** ** C136: Walk while another goroutine sets a new key *)
(** apple is there and apricot is set: apple is visited twice *)
Theorem C136_refuted_twice : exists i j, list_beside set_apricot h_apple i j = Some [rt0; lf "apple" 49%N; lf "apple" 49%N; lf "apricot" 50%N].
Proof. do 2 eexists. exact list_twice. Qed.
Print Assumptions C136_refuted_twice.
(** ap, which is no key, is visited as a leaf, with the value of apple; apple is not visited *)
Theorem C136_refuted_phantom : exists i j, list_beside set_apricot h_apple i j = Some [rt0; lf "ap" 49%N].
Proof. do 2 eexists. exact list_phantom. Qed.
Print Assumptions C136_refuted_phantom.
(** apple is visited as a leaf without its value *)
Theorem C136_refuted_nil : exists i j, list_beside set_apricot h_apple i j =
  Some [rt0; (b "apple", false, GNil); lf "apple" 49%N; lf "apricot" 50%N].
Proof. do 2 eexists. exact list_nil. Qed.
Print Assumptions C136_refuted_nil.
(** before and after all is as it should be *)
Theorem C136_before_after : list_beside set_apricot h_apple 0 0 = Some [rt0; lf "apple" 49%N] /\
  list_beside set_apricot h_apple 0 60 = Some [rt0; (b "ap", true, GNil); lf "apple" 49%N; lf "apricot" 50%N].
Proof. exact list_set. Qed.

(** ** C137: Walk while another goroutine removes a key *)
(** a is removed: b, which nobody removes, is not visited, and c is visited twice *)
Theorem C137_refuted_skips : exists i j, list_beside remove_a h_abc i j = Some [rt0; lf "a" 49%N; lf "c" 51%N; lf "c" 51%N].
Proof. do 2 eexists. exact list_skips. Qed.
Print Assumptions C137_refuted_skips.
Theorem C137_before_after : list_beside remove_a h_abc 0 0 = Some [rt0; lf "a" 49%N; lf "b" 50%N; lf "c" 51%N] /\
  list_beside remove_a h_abc 0 60 = Some [rt0; lf "b" 50%N; lf "c" 51%N].
Proof. exact list_remove. Qed.

(** ** C138: what Walk may show beside any number of Removes *)
Theorem C138_removes grow rf D h0 t rems walks dep sch : tree_in h0 (root t) -> plain_reach D t -> depth (root t) <= dep ->
  (forall h p, In (h, p) (rems ++ walks) -> D (hdelim h) /\ hmode h <> ModeUp) ->
  let (ps, m) := schedule sch (map (removing grow (S rf) dep (nid (root t))) rems ++ map (listing (S rf) dep (nid (root t))) walks) h0 in
  (forall p, In p ps -> p <> Spin) /\
  (forall i h p x, nth_error walks i = Some (h, p) -> nth_error ps (length rems + i) = Some x ->
     x <> Die /\ forall y, x = Ret y -> exists l, y = Listed l /\ may_list t p l).
Proof. exact (@race_walk_remove grow rf D h0 t rems walks dep sch). Qed.
Print Assumptions C138_removes.
Example C138_ex : tree_in h_abc (root t_abc) /\ plain_reach dotD t_abc /\ depth (root t_abc) <= 5 /\
  (forall h p, In (h, p) ([key "a"; key "b"] ++ [(defaultHdl, []); key "c"]) -> dotD (hdelim h) /\ hmode h <> ModeUp) /\
  list_beside remove_a h_abc 6 60 <> None.
Proof.
  split; [exact abc_in|]. split; [exact abc_plain|]. split; [vm_compute; lia|]. split; [|rewrite list_skips; discriminate].
  intros h p H. assert (X : h = defaultHdl) by (destruct H as [X|[X|[X|[X|[]]]]]; now injection X). subst h. split; [reflexivity|discriminate].
Qed.
