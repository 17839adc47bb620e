(** The properties of the tree in memory (C117 - C121): only statements.

    [run p h]: the program [p] alone, on the memory [h].  [schedule sch ps h]: the programs [ps] together, one access at a
    time, in the order [sch].  [p_set grow root k v], [p_sets]: Set on the tree with the root at address [root]; [grow]: the
    spare room append allocates.  [p_remove grow p c]: the node at [p] drops its child at [c].  [p_dup]: Dup.
    [p_walk cb fuel s]: walk from [s]; its value are the nodes the callback was called with.
    [repr h n]: what lies at the address [nid n] of [h] and below is the tree [n].  [tree_in h R]: [h] holds the well-formed tree
    [R] and no two nodes share children.  [ids n]: the addresses of the nodes of [n].  [apart n m]: no common address.
    [acts f g]: [f] assigns to fields of a node in memory what [g] changes in a node of a tree.  [key_at R k a]: the key [k]
    of [R] is at address [a].  [shape e]: path, node address, fragment and attributes, all but value and type. *)
From Coq Require Import String.
From Coq Require Import List NArith ZArith Bool Arith Lia.
From Verif Require Import GoStr Utf8 Node NodeWf Trie TreeOps Refine ApiRefine Heap HeapProofs HeapWalk HeapRace.
Import ListNotations.
Open Scope nat_scope.
Open Scope list_scope.

Ltac run := vm_compute; reflexivity.
Definition b (s : string) : gostring := s2b s.

(** ** C117: the tree behind pointers and slices is the tree of the model *)
Theorem C117_new : tree_in newHeap (root newTrie).
Proof. exact (@tree_in_new ). Qed.
Print Assumptions C117_new.
Theorem C117_set grow  h R k v : tree_in h R -> exists h' t' ir, insert_root (Tr R (nn h)) k v = Ok (t', ir) /\
  run (p_set grow (nid R) k v) h = Ok (h', (ir_id ir, ir_old ir, ir_calls ir)) /\ next t' = nn h' /\
  grown h R h' (root t') /\ frame h h' (fun a => In a (ids R)).
Proof. exact (@set_grown grow h R k v). Qed.
Print Assumptions C117_set.
Theorem C117_sets grow l : forall h t, tree_in h (root t) -> next t = nn h ->
  exists h' t', t_sets l t = Ok t' /\ run (p_sets grow (nid (root t)) l) h = Ok (h', tt) /\ next t' = nn h' /\
    grown h (root t) h' (root t').
Proof. exact (@sets_tree grow l). Qed.
Print Assumptions C117_sets.
Theorem C117_attr f g a h n : acts f g -> hwf h -> repr h n -> In a (ids n) ->
  exists h', run (UpdN a f (Ret tt)) h = Ok (h', tt) /\ hwf h' /\ nn h' = nn h /\ repr h' (upd a g n) /\
    frame h h' (fun b => b = a) /\ snaps h h'.
Proof. exact (@attr_spec f g a h n). Qed.
Print Assumptions C117_attr.
Theorem C117_data v : acts (fun s => w_data v (w_type (N.lor (htype s) NTData) s)) (setData v).
Proof. exact (@set_data_acts v). Qed.
Print Assumptions C117_data.
Theorem C117_comment d c : acts (fun s => w_cmt c (w_desc d s)) (setComment d c).
Proof. exact (@set_comment_acts d c). Qed.
Print Assumptions C117_comment.
Theorem C117_tag v : acts (w_tag v) (setTag v).
Proof. exact (@set_tag_acts v). Qed.
Print Assumptions C117_tag.
Theorem C117_empty : acts (fun s => w_tag GNil (w_data GNil s)) setEmpty.
Proof. exact (@set_empty_acts ). Qed.
Print Assumptions C117_empty.
Theorem C117_remove grow h R p c : tree_in h R -> In p (ids R) -> wf_tr (Tr (rem_child p c R) (nn h)) ->
  exists h' b, run (p_remove grow p c) h = Ok (h', b) /\ tree_in h' (rem_child p c R) /\
    forall Q, repr h Q -> apart R Q -> repr h' Q.
Proof. exact (@remove_in grow h R p c). Qed.
Print Assumptions C117_remove.
Theorem C117_dup grow clone f h R : tree_in h R -> depth R <= f ->
  exists h' R', run (p_dup grow clone f (nid R)) h = Ok (h', nid R') /\ R' = fst (dupNode clone R (nn h)) /\
    tree_in h' R /\ tree_in h' R' /\ apart R R' /\ apart R' R.
Proof. exact (@dup_apart grow clone f h R). Qed.
Print Assumptions C117_dup.
Theorem C117_apart grow l h R Q h' : tree_in h R -> repr h Q -> apart R Q ->
  run (p_sets grow (nid R) l) h = Ok (h', tt) -> repr h' Q.
Proof. exact (@sets_apart grow l h R Q h'). Qed.
Print Assumptions C117_apart.
Theorem C117_own h R a b s t : tree_in h R -> hn h a = Some s -> hn h b = Some t -> a <> b ->
  0 < sl_len (hkids s) -> sl_arr (hkids s) <> sl_arr (hkids t).
Proof. exact (@own_kids h R a b s t). Qed.
Print Assumptions C117_own.
Theorem C117_walk f : forall h n, hwf h -> repr h n -> depth n <= f ->
  run (p_walk (fun _ => Ret tt) f (nid n)) h = Ok (h, map nid (walk n)).
Proof. exact (@walk_quiet f). Qed.
Print Assumptions C117_walk.
(** apple, app, apricot: two splits *)
Definition fruit : list (gostring * gval) := [(b "apple", GInt 1); (b "app", GInt 2); (b "apricot", GInt 3)].
Example C117_ex : exists h t, run (p_sets no_room 0 fruit) newHeap = Ok (h, tt) /\ t_sets fruit newTrie = Ok t /\
  tree_in h (root t) /\ map key (walk (root t)) = [[]; b "ap"; b "app"; b "apple"; b "apricot"] /\ ids (root t) = [0; 1; 3; 2; 4] /\
  wf_tr (Tr (rem_child 1 3 (root t)) (nn h)) /\ depth (root t) <= 4.
Proof.
  destruct (sets_tree no_room fruit newHeap newTrie tree_in_new eq_refl) as (h & t & E & RUN & N & G & _).
  exists h, t. split; [exact RUN|]. split; [exact E|]. split; [exact G|]. vm_compute in E. injection E as <-.
  split; [run|]. split; [run|]. split; [|vm_compute; lia].
  split; [split; [reflexivity|split]|].
  - vm_compute. repeat match goal with
      | |- wfn _ => constructor; cbn [nkids map]
      | |- NoDup _ => constructor
      | |- Forall _ _ => constructor
      | |- _ /\ _ => split
      | |- ~ In _ _ => vm_compute; intuition discriminate
      | |- _ <> _ => discriminate
      end.
  - intros k m H. vm_compute in H. intuition (match goal with X : (_, _) = _ |- _ => injection X as <- <- end; vm_compute; lia).
  - rewrite <- N. split; [vm_compute; repeat constructor; cbn; intuition discriminate|vm_compute; repeat constructor].
Qed.

(** ** C118: keys may be removed while the tree is walked *)
Theorem C118_refuted : exists h R p c f h' l R', tree_in h R /\ In p (ids R) /\ In c (ids R) /\
  run (p_walk (fun a => if a =? c then let* _ := p_remove no_room p c in Ret tt else Ret tt) f (nid R)) h = Ok (h', l) /\
  repr h' R' /\ R' = rem_child p c R /\
  (exists b, In b (ids R') /\ ~ In b l) /\ (exists b, In b (ids R') /\ count_occ Nat.eq_dec l b = 2).
Proof. exact walk_remove_misses. Qed.
Print Assumptions C118_refuted.

(** ** C119: keys may be set while the tree is walked *)
Theorem C119_walk grow  h R choose f : tree_in h R ->
  match run (p_walk_set grow (nid R) choose f) h with
  | Ok (h', l) => (exists R', grown h R h' R') /\ filter (fun a => a <? nn h) l = map nid (walk R)
  | Panic => False
  | Fuel => True
  end.
Proof. exact (@walk_sets grow h R choose f). Qed.
Print Assumptions C119_walk.
Theorem C119_any : forall rt cb,
  (forall a h R, tree_in h R -> nid R = rt -> In a (ids R) -> exists h' R', run (cb a) h = Ok (h', tt) /\ grown h R h' R') ->
  forall f h R m, tree_in h R -> nid R = rt -> sub R m ->
  match run (p_walk cb f (nid m)) h with
  | Ok (h', l) => (exists R', grown h R h' R') /\ old_ids (nn h) l = old_ids (nn h) (ids m)
  | Panic => False
  | Fuel => True
  end.
Proof. exact walk_grown. Qed.
Print Assumptions C119_any.
(** the callback sets ax when it sees a, and bcd and bce when it sees b *)
Definition busy (_ : nat) (n : hnode) : list (gostring * gval) :=
  if str_eqb (hpathS n) (b "a") then [(b "ax", GInt 1)]
  else if str_eqb (hpathS n) (b "b") then [(b "bcd", GInt 1); (b "bce", GInt 1)] else [].
Example C119_ex : tree_in h_abc r_abc /\ map nid (walk r_abc) = [0; 1; 2; 3] /\
  match run (p_walk_set no_room (nid r_abc) busy 9) h_abc with Ok (_, l) => l = [0; 1; 4; 2; 5; 6; 7; 3] | _ => False end.
Proof. split; [exact abc_in|]. split; [run|]. run. Qed.

(** ** C120: goroutines may set different keys at the same time *)
Theorem C120_refuted : forall grow, exists sch ps h R',
  schedule sch [p_set grow 0 (b "a") (GStr [49%N]); p_set grow 0 (b "b") (GStr [50%N])] newHeap = (ps, h) /\
  (forall p, In p ps -> exists x, p = Ret x) /\ repr h R' /\ wfn R' /\ nid R' = 0 /\
  (exists a, key_at R' (b "a") a) /\ ~ (exists a, key_at R' (b "b") a).
Proof. exact race_loses. Qed.
Print Assumptions C120_refuted.

(** ** C121: goroutines that overwrite keys that exist *)
Theorem C121_overwrite grow  h0 R jobs sch : tree_in h0 R ->
  (forall job k v, In job jobs -> In (k, v) job -> exists a, key_at R k a) ->
  let (ps, h) := schedule sch (map (p_sets grow (nid R)) jobs) h0 in
  exists R', repr h R' /\ map shape (ents [] R') = map shape (ents [] R) /\
    (forall p, In p ps -> p <> Die /\ p <> Spin) /\
    (forall k m', In (k, m') (ents [] R') -> exists m, In (k, m) (ents [] R) /\
       (ndata m' = ndata m \/ some_set jobs R (nid m) (ndata m')) /\
       ((forall p, In p ps -> p = Ret tt) -> (exists v, some_set jobs R (nid m) v) -> some_set jobs R (nid m) (ndata m'))).
Proof. exact (@race_overwrite grow h0 R jobs sch). Qed.
Print Assumptions C121_overwrite.
Definition two_jobs : list (list (gostring * gval)) := [[(b "a", GInt 7); (b "b", GInt 8)]; [(b "a", GInt 9)]].
Example C121_ex : tree_in h_abc r_abc /\
  (forall job k v, In job two_jobs -> In (k, v) job -> exists a, key_at r_abc k a) /\
  (let (ps, h) := schedule [0;1;0;1;0;1;0;1;0;1;0;1;0;1;0;1;0;1;0;1;0;1;0;1;0;1;0;1;0;1;0;1;0;1;0;1;0;1;0;1] (map (p_sets no_room (nid r_abc)) two_jobs) h_abc in
   ps = [Ret tt; Ret tt] /\ option_map hdata (hn h 1) = Some (GInt 9) /\ option_map hdata (hn h 2) = Some (GInt 8)).
Proof.
  split; [exact abc_in|]. split.
  - assert (A : key_at r_abc (b "a") 1) by (eexists; split; [vm_compute; auto|reflexivity]).
    assert (B : key_at r_abc (b "b") 2) by (eexists; split; [vm_compute; auto|reflexivity]).
    intros job k v [<-|[<-|[]]] H; [destruct H as [X|[X|[]]]|destruct H as [X|[]]]; injection X as <- <-; eauto.
  - vm_compute. auto.
Qed.
