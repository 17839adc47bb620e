(** Set and Remove of the store in memory, alone and beside each other (C171-C175): only statements.

    [p_storeSet grow rf dep s rt p v], [p_storeRemove grow rf dep s rt p]: Set and Remove by the handle [s] on the tree with the
    root at [rt]; they give the old value (whether something was removed) and the calls of handlers.  [p_storeSets]: a goroutine
    that does several Sets.  [schedule sch ps h]: the goroutines [ps] take turns in the order [sch].  [skey s p]: the key that Set
    writes to.  [some_put jobs R a v]: some goroutine sets the key of the node at [a] to [v].  [some_load]: so does one
    whose handle is within loading.  [told]: an old value that the node
    had or that was put there, and the calls [tryOnSet] makes for it. *)
From Coq Require Import String.
From Coq Require Import List NArith ZArith Bool Arith Lia.
From Verif Require Import GoStr Utf8 Node NodeWf Trie TreeOps Spec Refine ApiRefine Reach Effect Derived Store StoreProofs Heap HeapProofs
  HeapWalk HeapRace HeapGet HeapGetProofs HeapRemoveProofs HeapFair HeapEnds HeapStore HeapStoreProofs.
Import ListNotations.
Open Scope nat_scope.
Open Scope list_scope.

(** ** C171 alone they do in memory what they do to the tree *)
Theorem C171_set grow rf s t h0 path v dep t' id old es : tree_in h0 (root t) -> next t = nn h0 -> depth (root t) <= dep ->
  st_Set rf s t path v = Ok (t', id, old, es) ->
  exists h', run (p_storeSet grow rf dep s (nid (root t)) path v) h0 = Ok (h', (old, es)) /\ tree_in h' (root t') /\ next t' = nn h'.
Proof. exact (@storeSet_run grow rf s t h0 path v dep t' id old es). Qed.
Print Assumptions C171_set.
Theorem C171_remove grow rf s t h0 path dep t' b es : tree_in h0 (root t) -> depth (root t) <= dep ->
  st_Remove rf s t path = Ok (t', b, es) ->
  exists h', run (p_storeRemove grow rf dep s (nid (root t)) path) h0 = Ok (h', (b, es)) /\ tree_in h' (root t').
Proof. exact (@storeRemove_run grow rf s t h0 path dep t' b es). Qed.
Print Assumptions C171_remove.
Definition t_abc : tr := Tr r_abc (nn h_abc).
Example C171_case : exists h' t' id, st_Set 1 (sto 7 false) t_abc (s2b "bx") (GStr [57%N]) =
    Ok (t', id, GNil, [ENew 7 (s2b "bx") (GStr [57%N]) true]) /\
  run (p_storeSet no_room 1 5 (sto 7 false) 0 (s2b "bx") (GStr [57%N])) h_abc =
    Ok (h', (GNil, [ENew 7 (s2b "bx") (GStr [57%N]) true])) /\ tree_in h' (root t') /\ is_marked h' id = Some true.
Proof.
  destruct (st_Set 1 (sto 7 false) t_abc (s2b "bx") (GStr [57%N])) as [[[[t' id] old] es]| |] eqn:E;
    [|vm_compute in E; discriminate|vm_compute in E; discriminate].
  destruct (C171_set no_room 1 (sto 7 false) t_abc h_abc (s2b "bx") (GStr [57%N]) 5 t' id old es abc_in eq_refl) as (h' & RUN & T & _);
    [cbn; lia|exact E|].
  assert (M : match run (p_storeSet no_room 1 5 (sto 7 false) 0 (s2b "bx") (GStr [57%N])) h_abc with
              | Ok (h, _) => is_marked h id = Some true | _ => False end).
  { replace id with 4 by (vm_compute in E; congruence). vm_compute. reflexivity. }
  change (nid (root t_abc)) with 0 in RUN. rewrite RUN in M.
  assert (old = GNil /\ es = [ENew 7 (s2b "bx") (GStr [57%N]) true]) as [-> ->] by (vm_compute in E; split; vm_compute; congruence).
  exists h', t', id. auto.
Qed.

(** ** C172 Sets of keys that exist, beside each other *)
Theorem C172_race grow rf h0 R nx jobs dep sch : tree_in h0 R -> depth R <= dep ->
  (forall job s p v, In job jobs -> In (s, p, v) job -> (exists a, key_at R (skey s p) a) /\
     exists q, Query rf (so_h s) (Tr R nx) p = Ok q) ->
  let (ps, h) := schedule sch (map (p_storeSets grow rf dep (nid R)) jobs) h0 in
  (forall p, In p ps -> p <> Die /\ p <> Spin) /\
  (forall i job xs, nth_error jobs i = Some job -> nth_error ps i = Some (Ret xs) -> Forall2 (told rf (some_put jobs R) R nx) job xs) /\
  exists R', repr h R' /\ map shape (ents [] R') = map shape (ents [] R) /\
    (forall k m', In (k, m') (ents [] R') -> exists m, In (k, m) (ents [] R) /\ nid m' = nid m /\
       (ndata m' = ndata m \/ some_put jobs R (nid m) (ndata m')) /\
       ((forall v, ~ some_put jobs R (nid m) v) -> ndata m' = ndata m /\ ntype m' = ntype m) /\
       ((forall p, In p ps -> exists x, p = Ret x) -> (exists v, some_put jobs R (nid m) v) ->
          some_put jobs R (nid m) (ndata m') /\ hasData m' = true /\
          (modified m' = true \/ some_load jobs R (nid m) (ndata m')))).
Proof. exact (@race_store grow rf h0 R nx jobs dep sch). Qed.
Print Assumptions C172_race.
(** in a tree without patterns, for keys that are leaves *)
Theorem C172_leaves grow rf D h0 t jobs dep sch : tree_in h0 (root t) -> plain_reach D t -> depth (root t) <= dep ->
  (forall job s p v, In job jobs -> In (s, p, v) job -> so_loading s = false /\ D (hdelim (so_h s)) /\ blank_free (full (so_h s) p) /\
     exists a, t_get t (runes (full (so_h s) p)) = Some a /\ a_leaf a = true) ->
  let (ps, h) := schedule sch (map (p_storeSets grow (S rf) dep (nid (root t))) jobs) h0 in
  (forall p, In p ps -> p <> Die /\ p <> Spin) /\
  (forall i job xs, nth_error jobs i = Some job -> nth_error ps i = Some (Ret xs) ->
     Forall2 (fun e x => let '(s, p, v) := e in exists a, t_get t (runes (full (so_h s) p)) = Some a /\
        (fst x = a_data a \/ exists job' s' p', In job' jobs /\ In (s', p', fst x) job' /\
           runes (full (so_h s') p') = runes (full (so_h s) p)) /\
        snd x = map (fun i => EChange i p v (fst x) true) (listeners so_chg s)) job xs) /\
  exists R', repr h R' /\ map shape (ents [] R') = map shape (ents [] (root t)) /\
    ((forall p, In p ps -> exists x, p = Ret x) -> forall job s p v, In job jobs -> In (s, p, v) job ->
       exists m' job' s' p', In (runes (full (so_h s) p), m') (ents [] R') /\ modified m' = true /\ hasData m' = true /\
         In job' jobs /\ In (s', p', ndata m') job' /\ runes (full (so_h s') p') = runes (full (so_h s) p)).
Proof. exact (@race_leaves grow rf D h0 t jobs dep sch). Qed.
Print Assumptions C172_leaves.
Theorem C172_ends grow rf h0 R nx jobs dep f : tree_in h0 R -> depth R <= dep ->
  (forall job s p v, In job jobs -> In (s, p, v) job -> (exists a, key_at R (skey s p) a) /\
     exists q, Query rf (so_h s) (Tr R nx) p = Ok q) -> fair (length jobs) f ->
  exists n, forall p, In p (fst (schedule (map f (seq 0 n)) (map (p_storeSets grow rf dep (nid R)) jobs) h0)) -> exists x, p = Ret x.
Proof. exact (@store_ends grow rf h0 R nx jobs dep f). Qed.
Print Assumptions C172_ends.
Definition two_jobs : list (list (store * gostring * gval)) :=
  [[(sto 7 false, s2b "a", GStr [57%N]); (sto 7 false, s2b "b", GStr [58%N])]; [(sto 8 true, s2b "b", GStr [59%N])]].
Example C172_case : tree_in h_abc r_abc /\ depth r_abc <= 5 /\
  (forall job s p v, In job two_jobs -> In (s, p, v) job -> (exists a, key_at r_abc (skey s p) a) /\
     exists q, Query 1 (so_h s) (Tr r_abc (nn h_abc)) p = Ok q).
Proof.
  split; [exact abc_in|]. split; [cbn; lia|]. intros job s p v [<-|[<-|[]]] HI; cbn [In] in HI;
  repeat (destruct HI as [X|HI]; [injection X as <- <- <-; split;
    [eexists; eexists; split; [vm_compute; first [left; reflexivity|right; left; reflexivity|right; right; left; reflexivity|right; right; right; left; reflexivity]|reflexivity]
    |eexists; vm_compute; reflexivity]|]); destruct HI.
Qed.

(** ** C173 two Sets of a new key: both call the handlers for new keys *)
Theorem C173_refuted : exists sch, fst (schedule sch [setting_k 7 false "d" 49; setting_k 8 false "d" 50] h_abc) =
  [Ret [(GNil, [ENew 7 (s2b "d") (GStr [49%N]) true])]; Ret [(GNil, [ENew 8 (s2b "d") (GStr [50%N]) true])]].
Proof. exact new_twice. Qed.
Print Assumptions C173_refuted.
Example C173_in_turn : fst (schedule (cut_in 0) [setting_k 7 false "d" 49; setting_k 8 false "d" 50] h_abc) =
  [Ret [(GNil, [ENew 7 (s2b "d") (GStr [49%N]) true])];
   Ret [(GStr [49%N], [EChange 8 (s2b "d") (GStr [50%N]) (GStr [49%N]) true])]].
Proof. vm_compute. reflexivity. Qed.

(** ** C174 two Removes of one key: both report it, another key goes unreported *)
Theorem C174_refuted : exists sch, let (ps, h) := schedule sch [removing_k 7 "a"; removing_k 8 "a"] h_abc in
  ps = [Ret (true, [EDelete 7 (s2b "a") (GStr [49%N]) true]); Ret (true, [EDelete 8 (s2b "a") (GStr [49%N]) true])] /\
  found_in h_abc "b" = Some true /\ found_in h "b" = Some false.
Proof. exact delete_twice. Qed.
Print Assumptions C174_refuted.
Example C174_in_turn : let (ps, h) := schedule (cut_in 0) [removing_k 7 "a"; removing_k 8 "a"] h_abc in
  ps = [Ret (true, [EDelete 7 (s2b "a") (GStr [49%N]) true]); Ret (false, [])] /\ found_in h "b" = Some true.
Proof. vm_compute. auto. Qed.

(** ** C175 a Set within loading beside one by a user: the mark is lost *)
Theorem C175_refuted : exists sch, let (ps, h) := schedule sch [setting_k 7 false "a" 49; setting_k 8 true "a" 50] h_abc in
  ps = [Ret [(GStr [49%N], [EChange 7 (s2b "a") (GStr [49%N]) (GStr [49%N]) true])];
        Ret [(GStr [49%N], [EChange 8 (s2b "a") (GStr [50%N]) (GStr [49%N]) false])]] /\ is_marked h 1 = Some false.
Proof. exact mark_lost. Qed.
Print Assumptions C175_refuted.
(** one after the other, in either order, the mark stays; in any order of turns it is lost only where a loaded value is left
    (C172_race) *)
Example C175_in_turn : map (fun sch => is_marked (snd (schedule sch [setting_k 7 false "a" 49; setting_k 8 true "a" 50] h_abc)) 1)
  [cut_in 0; cut_in 60] = [Some true; Some true].
Proof. vm_compute. reflexivity. Qed.
