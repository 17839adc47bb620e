(** The properties of the tree API (C01-C22, C27, C53, C56-C58, C60): only statements.

    [plain_reach D t]: [t] was built from the empty store by any sequence of API calls
    through any handles whose delimiters are in [D], no stored key having ':' or '*' at the
    start of a segment.  [reached t]: built by any sequence of API calls whatsoever.
    [t_get t k]: value and attributes stored in the tree under the key [k].
    [full h p]: the path [p] with the prefix of the view [h] in front.
    The [S rf] says that any positive bound on the jumps inside a lookup gives the same. *)
From Coq Require Import String.
From Coq Require Import List NArith ZArith Bool Arith Lia Permutation.
From Verif Require Import GoStr Utf8 Node NodeWf MatchProofs Trie Spec TreeOps Refine Climb ApiRefine Reach.
From Verif Require Import Effect Derived Derived2 Derived3 Derived4 Derived5 Derived6 Samples.
Import ListNotations.
Open Scope nat_scope.
Open Scope list_scope.

(** ** Every history of calls behaves like the map specification of Spec.v *)
Theorem C00_refinement rf D hist : forall t m,
  wf_tr t -> abs (root t) m -> plain_all D m -> plain_hist D hist ->
  exists t', t_run (S rf) hist t = Ok (t', snd (s_run (views hist) m)) /\
             wf_tr t' /\ abs (root t') (fst (s_run (views hist) m)) /\
             plain_all D (fst (s_run (views hist) m)).
Proof. exact (@run_refines rf D hist). Qed.
Print Assumptions C00_refinement.
Example C00_refinement_ex :
  wf_tr newTrie /\ abs (root newTrie) s_init /\ plain_all dotD s_init /\ plain_hist dotD hist1.
Proof. split; [apply newTrie_wf|]. split; [apply newTrie_abs|]. split; [intros d _; apply plain_init|apply hist1_plain]. Qed.

(** ** C01 *)
Theorem C01_set_get D rf h t path v :
  plain_reach D t -> D (hdelim h) -> op_plain D (full h) (OSet path v) -> blank_free (full h path) ->
  exists t' id old q, Set_ h t path v = Ok (t', id, old) /\ Query (S rf) h t' path = Ok q /\
    q_data q = v /\
    q_found q = (match t_get t (runes (full h path)) with
                 | Some a => a_leaf a
                 | None => negb (existsb (sprefix (runes (full h path))) (skeys (entries t)))
                 end || ends_with (hdelim h) (runes (full h path))).
Proof. exact (@set_get D rf h t path v). Qed.
Print Assumptions C01_set_get.
Example C01_set_get_ex :
  plain_reach dotD t1 /\ dotD (hdelim hApp) /\ op_plain dotD (full hApp) (OSet "logging.level"%string (GInt 7)) /\
  blank_free (full hApp "logging.level"%string) /\
  exists t' id old, Set_ hApp t1 "logging.level"%string (GInt 7) = Ok (t', id, old) /\
    Get 1 hApp t' "logging.level"%string = Ok (GInt 7, true).
Proof.
  split; [apply t1_plain|]. split; [reflexivity|]. split; [dots|]. split; [notin|].
  do 3 eexists. split; [run..].
Qed.
Theorem C01_set_get_found D rf hist t outs h path v :
  plain_hist D hist -> no_remove hist -> t_run (S rf) hist newTrie = Ok (t, outs) ->
  D (hdelim h) -> op_plain D (full h) (OSet path v) -> blank_free (full h path) ->
  full h path <> [] ->
  (forall p, In p (stored_keys hist) -> ~ pprefix (runes (full h path)) p) ->
  exists t' id old, Set_ h t path v = Ok (t', id, old) /\ Get (S rf) h t' path = Ok (v, true).
Proof. exact (@set_get_found D rf hist t outs h path v). Qed.
Print Assumptions C01_set_get_found.
Example C01_set_get_found_ex :
  let w := runes (full hd0 "app.log"%string) in
  plain_hist dotD hist1 /\ no_remove hist1 /\ t_run 1 hist1 newTrie = Ok (t1, outs1) /\
  ~ (forall p, In p (stored_keys hist1) -> ~ pprefix w p) /\
  (forall p, In p (stored_keys hist1) -> ~ pprefix (runes (full hd0 "app.logging.file.x"%string)) p).
Proof.
  repeat split; try apply hist1_plain; try apply hist1_no_remove; try apply hist1_run.
  - intros H. eapply (H (runes "app.logging.file"%string)); [left; reflexivity|]. do 2 eexists. vm_compute. reflexivity.
  - intros p Hp (c & y & E). vm_compute in Hp.
    repeat (destruct Hp as [<-|Hp]; [vm_compute in E; discriminate E|]). destruct Hp.
Qed.

(** ** C02 *)
Theorem C02_last_write_wins rf hist t outs :
  t_run rf hist newTrie = Ok (t, outs) -> no_remove hist ->
  forall k, match t_get t k with
            | Some a => match last_write hist k None with
                        | Some v => a_data a = v /\ a_has a = true
                        | None => a_data a = GNil /\ a_has a = false
                        end
            | None => last_write hist k None = None
            end.
Proof. exact (@last_write_wins rf hist t outs). Qed.
Print Assumptions C02_last_write_wins.
Theorem C02_last_write_query D rf hist t outs h p :
  plain_hist D hist -> t_run (S rf) hist newTrie = Ok (t, outs) -> no_remove hist ->
  D (hdelim h) ->
  match last_write hist (runes (full h p)) None with
  | Some v => exists q, Query (S rf) h t p = Ok q /\ q_data q = v
  | None => last_write hist (runes (full h p) ++ [hdelim h]) None = None -> hmode h <> ModeUp ->
            exists q, Query (S rf) h t p = Ok q /\ q_data q = GNil
  end.
Proof. exact (@last_write_query D rf hist t outs h p). Qed.
Print Assumptions C02_last_write_query.
Example C02_ex :
  plain_hist dotD hist1 /\ no_remove hist1 /\ t_run 1 hist1 newTrie = Ok (t1, outs1) /\
  last_write hist1 (runes "app.name"%string) None = Some (GInt 3) /\
  last_write hist1 (runes "app.nam"%string) None = None.
Proof. split; [apply hist1_plain|]. split; [apply hist1_no_remove|]. split; [apply hist1_run|]. split; [run..]. Qed.

(** ** C03 *)
Theorem C03_set_frame h t path v t' id old k a :
  reached t -> Set_ h t path v = Ok (t', id, old) ->
  t_get t k = Some a -> k <> runes (replace_byte 32 45 (full h path)) -> t_get t' k = Some a.
Proof. exact (@set_frame h t path v t' id old k a). Qed.
Print Assumptions C03_set_frame.
Theorem C03_set_frame_key h t path v t' id old k n :
  reached t -> Set_ h t path v = Ok (t', id, old) ->
  In (k, n) (ents [] (root t)) -> k <> runes (replace_byte 32 45 (full h path)) ->
  exists n', In (k, n') (ents [] (root t')) /\ key n' = key n /\
             ndata n' = ndata n /\ ndesc n' = ndesc n /\ ncmt n' = ncmt n /\ ntag n' = ntag n /\
             isLeaf n' = isLeaf n /\ hasData n' = hasData n /\ modified n' = modified n.
Proof. exact (@set_frame_key h t path v t' id old k n). Qed.
Print Assumptions C03_set_frame_key.
Theorem C03_write_frame rf h t o t' r k a p :
  reached t -> t_step rf h t o = Ok (t', r) -> stored h o = Some p ->
  t_get t k = Some a -> k <> runes p -> t_get t' k = Some a.
Proof. exact (@write_frame rf h t o t' r k a p). Qed.
Print Assumptions C03_write_frame.
Example C03_ex :
  reached t1 /\ (exists t' id old, Set_ hd0 t1 "app.na"%string (GInt 1) = Ok (t', id, old)) /\
  exists a, t_get t1 (runes "app.name"%string) = Some a /\ a_data a = GInt 3 /\ a_cmt a = "a comment"%string.
Proof. split; [apply t1_reached|]. split; [do 3 eexists; vm_compute; reflexivity|]. eexists; repeat split; [run..]. Qed.

(** ** C04 *)
Theorem C04_set_old h t path v :
  reached t ->
  exists t' id, Set_ h t path v =
    Ok (t', id, match t_get t (runes (replace_byte 32 45 (full h path))) with
                | Some a => a_data a | None => GNil end).
Proof. exact (@set_old h t path v). Qed.
Print Assumptions C04_set_old.
Example C04_ex : reached t1 /\ exists t' id, Set_ hApp t1 "name"%string (GInt 8) = Ok (t', id, GInt 3).
Proof. split; [apply t1_reached|]. do 2 eexists. vm_compute; reflexivity. Qed.

(** ** C05 *)
Theorem C05_walk_once t :
  reached t ->
  exists ks, NoDup ks /\ length ks = length (walk (root t)) /\
    (forall h rf, Walk rf h t [] = Ok (walk (root t))) /\
    (forall k a, t_get t k = Some a <->
       exists n, In (k, n) (combine ks (walk (root t))) /\
         a = Attr (ndata n) (ndesc n) (ncmt n) (ntag n) (isLeaf n) (hasData n) (modified n)).
Proof. exact (@walk_once t). Qed.
Print Assumptions C05_walk_once.
Theorem C05_data_iff_stored rf hist t outs k :
  t_run rf hist newTrie = Ok (t, outs) -> no_remove hist ->
  ((exists a, t_get t k = Some a /\ a_has a = true) <-> In k (stored_keys hist)).
Proof. exact (@data_iff_stored rf hist t outs k). Qed.
Print Assumptions C05_data_iff_stored.
Theorem C05_data_step D rf h t o t' r k :
  plain_reach D t -> D (hdelim h) -> t_step (S rf) h t o = Ok (t', r) ->
  ((exists a, t_get t' k = Some a /\ a_has a = true) <->
   (exists p, stored h o = Some p /\ runes p = k) \/
   (exists a, t_get t k = Some a /\ a_has a = true) /\
   ~ (exists path f, o = ORemove path /\ r = RBool true /\ f <> [] /\
        s_search (hdelim h) (is_up h) (entries t) (full h path) = SFound f /\ prefix f k)).
Proof. exact (@data_step D rf h t o t' r k). Qed.
Print Assumptions C05_data_step.
Example C05_ex :
  plain_reach dotD t1 /\ length (walk (root t1)) = 8 /\ length (filter hasData (walk (root t1))) = 5 /\
  exists t', t_step 1 hd0 t1 (ORemove "app"%string) = Ok (t', RBool true) /\
    length (filter hasData (walk (root t'))) = 1.
Proof. split; [apply t1_plain|]. do 2 (split; [vm_compute; reflexivity|]). eexists. split; [run..]. Qed.

(** ** C60 *)
Theorem C60_walk_subtree D rf h t path k :
  plain_reach D t -> D (hdelim h) -> path <> [] -> last (runes path) 0%N = hdelim h ->
  s_search (hdelim h) (is_up h) (entries t) path = SFound k ->
  exists ns, Walk (S rf) h t path = Ok ns /\ visits t k ns.
Proof. exact (@walk_subtree D rf h t path k). Qed.
Print Assumptions C60_walk_subtree.
Example C60_walk_subtree_ex :
  plain_reach dotD t1 /\ last (runes (s2b "app."%string)) 0%N = hdelim hd0 /\
  s_search (hdelim hd0) (is_up hd0) (entries t1) (s2b "app."%string) = SFound (s2b "app."%string) /\
  exists ns, Walk 1 hd0 t1 (s2b "app."%string) = Ok ns /\ length ns = 5.
Proof. split; [apply t1_plain|]. do 2 (split; [run|]). eexists. split; [run|]. run. Qed.
Theorem C60_walk_parent D rf h t path k :
  plain_reach D t -> D (hdelim h) -> path <> [] -> last (runes path) 0%N <> hdelim h ->
  s_search (hdelim h) (is_up h) (entries t) path = SFound k -> k <> [] ->
  exists ns kp, Walk (S rf) h t path = Ok ns /\ visits t kp ns /\ pprefix kp k /\
    forall k', t_get t k' <> None -> pprefix k' k -> prefix k' kp.
Proof. exact (@walk_parent D rf h t path k). Qed.
Print Assumptions C60_walk_parent.
Example C60_walk_parent_ex :
  plain_reach dotD t1 /\ last (runes (s2b "app.l"%string)) 0%N <> hdelim hd0 /\
  s_search (hdelim hd0) (is_up hd0) (entries t1) (s2b "app.l"%string) = SFound (s2b "app.l"%string) /\
  exists ns, Walk 1 hd0 t1 (s2b "app.l"%string) = Ok ns /\ length ns = 5.
Proof. split; [apply t1_plain|]. split; [vm_compute; discriminate|]. split; [run|]. eexists. split; [run|]. run. Qed.
Theorem C60_walk_partial_all D rf h t path k :
  plain_reach D t -> D (hdelim h) -> path <> [] ->
  s_search (hdelim h) (is_up h) (entries t) path = SPart k ->
  exists ns, Walk (S rf) h t path = Ok ns /\ visits t [] ns.
Proof. exact (@walk_partial_all D rf h t path k). Qed.
Print Assumptions C60_walk_partial_all.
Example C60_walk_partial_all_ex :
  plain_reach dotD t1 /\
  s_search (hdelim hd0) (is_up hd0) (entries t1) (s2b "path."%string) = SPart (s2b "path.to"%string) /\
  exists ns, Walk 1 hd0 t1 (s2b "path."%string) = Ok ns /\ length ns = 8.
Proof. split; [apply t1_plain|]. split; [run|]. eexists. split; [run|]. run. Qed.
Theorem C60_walk_nothing D rf h t path :
  plain_reach D t -> D (hdelim h) -> path <> [] -> last (runes path) 0%N = hdelim h ->
  s_search (hdelim h) (is_up h) (entries t) path = SMiss ->
  Walk (S rf) h t path = Ok [].
Proof. exact (@walk_nothing D rf h t path). Qed.
Print Assumptions C60_walk_nothing.
Example C60_walk_nothing_ex :
  plain_reach dotD t1 /\ last (runes (s2b "zoo."%string)) 0%N = hdelim hd0 /\
  s_search (hdelim hd0) (is_up hd0) (entries t1) (s2b "zoo."%string) = SMiss.
Proof. split; [apply t1_plain|]. split; [run|]. run. Qed.
(** the subtree of "path." is a single key, yet every key of the store is visited *)
Theorem C60_refuted :
  exists t ns n, plain_reach dotD t /\ Walk 1 hd0 t (s2b "path."%string) = Ok ns /\ In n ns /\
    hasData n = true /\ ~ prefix (s2b "path."%string) (npathS n).
Proof.
  exists t1. do 2 eexists. split; [apply t1_plain|]. split; [run|].
  split; [right; left; reflexivity|]. split; [run|].
  intros [y E]. vm_compute in E. discriminate.
Qed.
Print Assumptions C60_refuted.

(** ** C06 *)
Theorem C06_no_panic D rf h t o path :
  plain_reach D t -> D (hdelim h) ->
  terminates (t_step (S rf) h t o) /\ terminates (HasPart (S rf) h t path) /\
  terminates (Walk (S rf) h t path) /\ terminates (RemoveEx (S rf) h t path) /\
  (forall c, terminates (StartsWith (S rf) h t path c) /\ terminates (EndsWith (S rf) h t path c)).
Proof. exact (@no_panic D rf h t o path). Qed.
Print Assumptions C06_no_panic.
Theorem C06_no_panic_history D rf hist :
  plain_hist D hist -> exists t outs, t_run (S rf) hist newTrie = Ok (t, outs) /\ plain_reach D t.
Proof. exact (@no_panic_history D rf hist). Qed.
Print Assumptions C06_no_panic_history.
Example C06_ex : plain_reach dotD t1 /\ dotD (hdelim hApp) /\ plain_hist dotD hist1.
Proof. repeat split; [apply t1_plain|apply hist1_plain]. Qed.

(** ** C08 *)
Theorem C08_has_iff D rf h t p :
  plain_reach D t -> D (hdelim h) -> hmode h <> ModeUp ->
  exists b, Has (S rf) h t p = Ok b /\
    (b = true <-> full h p = [] \/ t_get t (runes (full h p)) <> None \/
                  t_get t (runes (full h p) ++ [hdelim h]) <> None).
Proof. exact (@has_iff D rf h t p). Qed.
Print Assumptions C08_has_iff.
Theorem C08_has_stored D rf hist t outs h p :
  plain_hist D hist -> no_remove hist -> t_run (S rf) hist newTrie = Ok (t, outs) ->
  D (hdelim h) -> hmode h <> ModeUp ->
  exists b, Has (S rf) h t p = Ok b /\
    (b = true <-> full h p = [] \/
       exists x y, In x (stored_keys hist) /\ In y (stored_keys hist) /\
         (common x y = runes (full h p) \/ common x y = runes (full h p) ++ [hdelim h])).
Proof. exact (@has_stored D rf hist t outs h p). Qed.
Print Assumptions C08_has_stored.
Theorem C08_has_after_set D rf hist t outs h p h0 o :
  plain_hist D hist -> no_remove hist -> t_run (S rf) hist newTrie = Ok (t, outs) ->
  D (hdelim h) -> In (h0, o) hist -> stored h0 o = Some (full h p) ->
  Has (S rf) h t p = Ok true.
Proof. exact (@has_after_set D rf hist t outs h p h0 o). Qed.
Print Assumptions C08_has_after_set.
Example C08_ex :
  plain_reach dotD t1 /\ dotD (hdelim hApp) /\ hmode hApp <> ModeUp /\ In (hApp, OSet "level"%string (GInt 2)) hist1 /\
  stored hApp (OSet "level"%string (GInt 2)) = Some (full hd0 "app.level"%string) /\
  Has 1 hd0 t1 "app.level"%string = Ok true /\ Has 1 hd0 t1 "app.leve"%string = Ok false.
Proof.
  split; [apply t1_plain|]. split; [reflexivity|]. split; [discriminate|]. split; [right; left; reflexivity|].
  repeat split; [run..].
Qed.

(** ** C09 *)
Theorem C09_haspart_iff D rf hist t outs h p :
  plain_hist D hist -> ascii_hist hist -> t_run (S rf) hist newTrie = Ok (t, outs) ->
  D (hdelim h) -> hmode h <> ModeUp -> ascii (full h p) = true ->
  nkids (root t) <> [] ->
  exists b, HasPart (S rf) h t p = Ok b /\
    (b = true <-> exists k a, t_get t k = Some a /\ has_prefix (full h p) k = true).
Proof. exact (@haspart_iff D rf hist t outs h p). Qed.
Print Assumptions C09_haspart_iff.
Theorem C09_haspart_stored D rf hist t outs h p q :
  plain_hist D hist -> ascii_hist hist -> no_remove hist -> t_run (S rf) hist newTrie = Ok (t, outs) ->
  D (hdelim h) -> hmode h <> ModeUp -> ascii (full h p) = true ->
  In q (stored_keys hist) -> q <> [] ->
  exists b, HasPart (S rf) h t p = Ok b /\
    (b = true <-> exists k, In k (stored_keys hist) /\ has_prefix (full h p) k = true).
Proof. exact (@haspart_stored D rf hist t outs h p q). Qed.
Print Assumptions C09_haspart_stored.
Example C09_ex :
  ascii_hist hist1 /\ nkids (root t1) <> [] /\ ascii (full hApp "lo"%string) = true /\
  HasPart 1 hApp t1 "logging.fi"%string = Ok true /\ HasPart 1 hApp t1 "logging.fx"%string = Ok false.
Proof. split; [apply hist1_ascii|]. split; [discriminate|]. repeat split; [run..]. Qed.

(** ** C10, C11 *)
Theorem C10_remove_spec D rf h t p :
  plain_reach D t -> D (hdelim h) -> hmode h <> ModeUp ->
  exists t', Remove (S rf) h t p =
      Ok (t', match target (hdelim h) t (runes (full h p)) with Some _ => true | None => false end) /\
    forall k, t_get t' k =
      match target (hdelim h) t (runes (full h p)) with
      | Some f => if has_prefix f k then None else t_get t k
      | None => t_get t k
      end.
Proof. exact (@remove_spec D rf h t p). Qed.
Print Assumptions C10_remove_spec.
Theorem C10_remove_exact D rf h t p :
  plain_reach D t -> D (hdelim h) -> hmode h <> ModeUp -> full h p <> [] ->
  (forall k c y, t_get t k <> None -> k = runes (full h p) ++ c :: y -> c = hdelim h) ->
  exists t' b, Remove (S rf) h t p = Ok (t', b) /\
    forall k, t_get t' k =
      if b && (str_eqb (runes (full h p)) k || has_prefix (runes (full h p) ++ [hdelim h]) k)
      then None else t_get t k.
Proof. exact (@remove_exact D rf h t p). Qed.
Print Assumptions C10_remove_exact.
Theorem C11_remove_truthful D rf h t p :
  plain_reach D t -> D (hdelim h) -> hmode h <> ModeUp -> full h p <> [] ->
  exists t' b, Remove (S rf) h t p = Ok (t', b) /\
    (b = true <-> Has (S rf) h t p = Ok true) /\
    (b = true -> plain_reach D t' /\ Has (S rf) h t' p = Ok false /\ Get (S rf) h t' p = Ok (GNil, false)) /\
    (b = false -> t' = t).
Proof. exact (@remove_truthful D rf h t p). Qed.
Print Assumptions C11_remove_truthful.
Example C10_ex :
  plain_reach dotD t1 /\ hmode hd0 <> ModeUp /\ full hd0 "app"%string <> [] /\
  (forall k c y, t_get t1 k <> None -> k = runes (full hd0 "app"%string) ++ c :: y -> c = hdelim hd0) /\
  exists t', Remove 1 hd0 t1 "app"%string = Ok (t', true) /\
    t_get t' (runes "app.name"%string) = None /\ t_get t' (runes "path.to"%string) <> None.
Proof.
  split; [apply t1_plain|]. split; [discriminate|]. split; [discriminate|]. split.
  - intros k c y G E. assert (H : In k (skeys (entries t1))).
    { unfold t_get in G. destruct (sget (entries t1) k) eqn:X; [|congruence].
      apply sget_in in X. apply (in_map fst) in X. exact X. }
    vm_compute in H. rewrite E in H. vm_compute in H.
    repeat (destruct H as [H|H]; [try discriminate H; now inversion H|]). destruct H.
  - eexists. split; [vm_compute; reflexivity|]. split; [vm_compute; reflexivity|]. vm_compute. discriminate.
Qed.

(** ** C12 *)
Theorem C12_key_ascii rf hist t outs l n :
  t_run rf hist newTrie = Ok (t, outs) -> ascii_hist hist -> chain (root t) l n -> key n = pieces l.
Proof. exact (@key_ascii rf hist t outs l n). Qed.
Print Assumptions C12_key_ascii.
Theorem C12_key_leaf rf hist t outs l n :
  t_run rf hist newTrie = Ok (t, outs) -> valid_hist hist -> chain (root t) l n -> isLeaf n = true ->
  key n = pieces l.
Proof. exact (@key_leaf rf hist t outs l n). Qed.
Print Assumptions C12_key_leaf.
Example C12_ex :
  ascii_hist hist1 /\ exists l n, chain (root t1) l n /\ length l = 5 /\ isLeaf n = true /\
    key n = "app.logging.file"%string /\ pieces l = key n.
Proof.
  split; [apply hist1_ascii|]. do 2 eexists. split.
  - eapply chain_kid; [left; reflexivity|]. eapply chain_kid; [left; reflexivity|].
    eapply chain_kid; [left; reflexivity|]. eapply chain_kid; [left; reflexivity|]. apply chain_here.
  - repeat split; [run..].
Qed.

(** ** C13, C14 *)
Theorem C13_distinct_keys h h' t p p' v t1 id1 old1 a :
  reached t -> valid_utf8 (full h p) = true -> valid_utf8 (full h' p') = true ->
  blank_free (full h p) -> blank_free (full h' p') -> full h p <> full h' p' ->
  Set_ h' t p' v = Ok (t1, id1, old1) ->
  t_get t (runes (full h p)) = Some a -> t_get t1 (runes (full h p)) = Some a.
Proof. exact (@distinct_keys h h' t p p' v t1 id1 old1 a). Qed.
Print Assumptions C13_distinct_keys.
Example C13_ex :
  reached t1 /\ valid_utf8 (full hApp "name"%string) = true /\ blank_free (full hApp "name"%string) /\
  full hApp "name"%string <> full hd0 "app.nam"%string /\
  (exists t' id old, Set_ hd0 t1 "app.nam"%string (GInt 1) = Ok (t', id, old)) /\
  exists a, t_get t1 (runes (full hApp "name"%string)) = Some a.
Proof.
  split; [apply t1_reached|]. split; [reflexivity|]. split; [notin|]. split; [discriminate|].
  split; [do 3 eexists; vm_compute; reflexivity|]. eexists; vm_compute; reflexivity.
Qed.
Theorem C14_setex_get D rf h t path v :
  plain_reach D t -> D (hdelim h) -> op_plain D (full h) (OSetEx path v) ->
  exists t' old calls q, SetEx h t path v = Ok (t', old, calls) /\ Query (S rf) h t' path = Ok q /\
    q_data q = v.
Proof. exact (@setex_get D rf h t path v). Qed.
Print Assumptions C14_setex_get.
Example C14_ex :
  plain_reach dotD t1 /\ op_plain dotD (full hd0) (OSetEx "a b"%string (GInt 1)) /\
  exists t' old calls, SetEx hd0 t1 "a b"%string (GInt 1) = Ok (t', old, calls) /\
    Get 1 hd0 t' "a b"%string = Ok (GInt 1, true).
Proof. split; [apply t1_plain|]. split; [dots|]. do 3 eexists. split; [run..]. Qed.

(** ** C15 *)
Theorem C15_view_path h ps p : full (withPrefix h ps) p = full h (Join (hdelim h) (ps ++ [p])).
Proof. exact (@view_path h ps p). Qed.
Print Assumptions C15_view_path.
Theorem C15_view_nested h a b : withPrefix (withPrefix h a) b = withPrefix h (a ++ b).
Proof. exact (@view_nested h a b). Qed.
Print Assumptions C15_view_nested.
Theorem C15_view_step rf h ps t o :
  t_step rf (withPrefix h ps) t o = t_step rf h t (on_path (fun p => Join (hdelim h) (ps ++ [p])) o).
Proof. exact (@view_step rf h ps t o). Qed.
Print Assumptions C15_view_step.
Theorem C15_view_prefix h ps p :
  hprefix h = [] -> full (withPrefix h ps) p = Join (hdelim h) (ps ++ [p]).
Proof. exact (@view_prefix h ps p). Qed.
Print Assumptions C15_view_prefix.
Example C15_ex : full (withPrefix hApp [("logging"%string : gostring)]) "file"%string = "app.logging.file"%string.
Proof. reflexivity. Qed.

(** ** C16 *)
Theorem C16_join_spec d args : Join d args = join_str (nonempty args) [delim_byte d].
Proof. exact (@join_spec d args). Qed.
Print Assumptions C16_join_spec.
Theorem C16_join_assoc d a b : Join d [Join d a; Join d b] = Join d (a ++ b).
Proof. exact (@join_assoc d a b). Qed.
Print Assumptions C16_join_assoc.
Theorem C16_join_skip d a b : Join d (a ++ [] :: b) = Join d (a ++ b).
Proof. exact (@join_skip d a b). Qed.
Print Assumptions C16_join_skip.
Theorem C16_join_singleton d a : Join d [a] = a.
Proof. exact (@join_singleton d a). Qed.
Print Assumptions C16_join_singleton.
Theorem C16_join_split_parts d parts :
  (d < 128)%N -> nonempty parts <> [] ->
  Forall (fun p => ~ In d p) parts ->
  split_str (Join d parts) (enc1 d) = nonempty parts.
Proof. exact (@join_split_parts d parts). Qed.
Print Assumptions C16_join_split_parts.
Example C16_ex :
  let parts := [("a"%string : gostring); []; ("bc"%string : gostring)] in
  (46 < 128)%N /\ nonempty parts <> [] /\ Forall (fun p => ~ In 46%N p) parts /\ Join 46%N parts = "a.bc"%string.
Proof. split; [reflexivity|]. split; [discriminate|]. split; [repeat constructor; notin|reflexivity]. Qed.

(** ** C17 *)
Theorem C17_dup_same clone t :
  reached t ->
  forall k, t_get (Dup clone t) k =
    option_map (fun a => Attr (clone (a_data a)) [] [] GNil (a_leaf a) (a_has a) (a_mod a)) (t_get t k).
Proof. exact (@dup_same_reached clone t). Qed.
Print Assumptions C17_dup_same.
Theorem C17_dup_keys clone t :
  map (fun n => (key n, npath n)) (walk (root (Dup clone t))) = map (fun n => (key n, npath n)) (walk (root t)).
Proof. exact (@dup_keys clone t). Qed.
Print Assumptions C17_dup_keys.
Theorem C17_dup_fresh clone t :
  reached t -> forall n m, In n (walk (root t)) -> In m (walk (root (Dup clone t))) -> nid n <> nid m.
Proof. exact (@dup_fresh_reached clone t). Qed.
Print Assumptions C17_dup_fresh.
Theorem C17_dup_independent clone t f g :
  reached t ->
  (forall n, In n (walk (root t)) -> upd (nid n) f (root (Dup clone t)) = root (Dup clone t)) /\
  (forall m, In m (walk (root (Dup clone t))) -> upd (nid m) g (root t) = root t) /\
  (forall p n, In p (walk (root t)) -> rem_child (nid p) (nid n) (root (Dup clone t)) = root (Dup clone t)) /\
  (forall p n, In p (walk (root (Dup clone t))) -> rem_child (nid p) (nid n) (root t) = root t).
Proof. exact (@dup_independent_reached clone t f g). Qed.
Print Assumptions C17_dup_independent.
Example C17_ex :
  reached t1 /\ exists n m, In n (walk (root t1)) /\ In m (walk (root (Dup (fun v => v) t1))) /\
    key n = key m /\ ndata n = ndata m /\ ndata n = GStr "x.log"%string.
Proof.
  split; [apply t1_reached|]. do 2 eexists.
  split; [do 4 right; left; reflexivity|]. split; [vm_compute; do 4 right; left; reflexivity|].
  split; [reflexivity|]. split; reflexivity.
Qed.

(** ** C18 *)
Theorem C18_setcomment_present D rf h t p desc cmt a :
  plain_reach D t -> D (hdelim h) -> t_get t (runes (full h p)) = Some a ->
  exists t', SetComment (S rf) h t p desc cmt = Ok (t', true) /\
    forall k, t_get t' k =
      if str_eqb (runes (full h p)) k
      then Some (Attr (a_data a) desc cmt (a_tag a) (a_leaf a) (a_has a) (a_mod a)) else t_get t k.
Proof. exact (@setcomment_present D rf h t p desc cmt a). Qed.
Print Assumptions C18_setcomment_present.
Theorem C18_settag_present D rf h t p tag a :
  plain_reach D t -> D (hdelim h) -> t_get t (runes (full h p)) = Some a ->
  exists t', SetTag (S rf) h t p tag = Ok (t', true) /\
    forall k, t_get t' k =
      if str_eqb (runes (full h p)) k
      then Some (Attr (a_data a) (a_desc a) (a_cmt a) tag (a_leaf a) (a_has a) (a_mod a)) else t_get t k.
Proof. exact (@settag_present D rf h t p tag a). Qed.
Print Assumptions C18_settag_present.
Theorem C18_setcomment_absent D rf h t p desc cmt tag :
  plain_reach D t -> D (hdelim h) ->
  s_search (hdelim h) (is_up h) (entries t) (full h p) = SMiss ->
  SetComment (S rf) h t p desc cmt = Ok (t, false) /\ SetTag (S rf) h t p tag = Ok (t, false).
Proof. exact (@setcomment_absent D rf h t p desc cmt tag). Qed.
Print Assumptions C18_setcomment_absent.
Theorem C18_setcomment_one D rf h t p desc cmt :
  plain_reach D t -> D (hdelim h) ->
  exists t' b, SetComment (S rf) h t p desc cmt = Ok (t', b) /\
    (b = false -> t' = t) /\
    exists k0, forall k, t_get t' k =
      if b && str_eqb k0 k
      then option_map (fun a => Attr (a_data a) desc cmt (a_tag a) (a_leaf a) (a_has a) (a_mod a)) (t_get t k)
      else t_get t k.
Proof. exact (@setcomment_one D rf h t p desc cmt). Qed.
Print Assumptions C18_setcomment_one.
Example C18_ex :
  plain_reach dotD t1 /\ (exists a, t_get t1 (runes (full hApp "name"%string)) = Some a /\ a_cmt a = "a comment"%string) /\
  s_search (hdelim hd0) (is_up hd0) (entries t1) (full hd0 "zoo"%string) = SMiss.
Proof. split; [apply t1_plain|]. split; [eexists; split; vm_compute; reflexivity|]. vm_compute; reflexivity. Qed.

(** ** C19 - C22 *)
Theorem C19_setnode_attr h t p v tag dc :
  reached t ->
  exists t' id, SetNode h t p v tag dc = Ok (t', id, s_old (runes (full h p)) (entries t)) /\
    t_get t' (runes (full h p)) =
      Some (let a := fresh_attr t (runes (full h p)) v in
            match dc with
            | [] => a
            | [x] => Attr v x (a_cmt a) (a_tag a) (a_leaf a) true (a_mod a)
            | x :: rest => Attr v x (join_str rest [10%N]) (a_tag a) (a_leaf a) true (a_mod a)
            end).
Proof. exact (@setnode_attr h t p v tag dc). Qed.
Print Assumptions C19_setnode_attr.
Theorem C20_setempty_attr h t p :
  reached t ->
  exists t', SetEmpty h t p = Ok (t', s_old (runes (full h p)) (entries t)) /\
    (exists a, t_get t' (runes (full h p)) = Some a /\ a_data a = GNil /\ a_tag a = GNil /\ a_has a = true) /\
    (forall k a, k <> runes (full h p) -> t_get t k = Some a -> t_get t' k = Some a).
Proof. exact (@setempty_attr h t p). Qed.
Print Assumptions C20_setempty_attr.
Theorem C21_update_attr h t p f :
  reached t ->
  exists t', Update h t p (fun old n => fold_left (fun n o => n_nodeop o n) (f old) n) = Ok t' /\
    t_get t' (runes (full h p)) =
      Some (fold_left (fun a o => s_nodeop o a)
              (f (match t_get t (runes (full h p)) with Some a => a_data a | None => GNil end))
              (fresh_attr t (runes (full h p)) GNil)) /\
    (forall k a, k <> runes (full h p) -> t_get t k = Some a -> t_get t' k = Some a).
Proof. exact (@update_attr h t p f). Qed.
Print Assumptions C21_update_attr.
Theorem C21_update_value h t p f :
  reached t ->
  exists t' a, Update h t p (fun old n => fold_left (fun n o => n_nodeop o n) (f old) n) = Ok t' /\
    t_get t' (runes (full h p)) = Some a /\
    a_data a = cb_data (f (match t_get t (runes (full h p)) with Some b => a_data b | None => GNil end)) GNil.
Proof. exact (@update_value h t p f). Qed.
Print Assumptions C21_update_value.
Theorem C22_setex_calls h t p v :
  reached t ->
  exists t' calls n,
    SetEx h t p v = Ok (t', match t_get t (runes (full h p)) with Some a => a_data a | None => GNil end, calls) /\
    In n (walk (root t')) /\ ndata n = v /\ hasData n = true /\
    (forall c, In c calls -> c = (full h p, match t_get t (runes (full h p)) with Some a => a_data a | None => GNil end, nid n)) /\
    (calls = [] <-> nkids (root t) = [] /\ full h p <> []).
Proof. exact (@setex_calls h t p v). Qed.
Print Assumptions C22_setex_calls.
Example C21_ex :
  reached t1 /\ exists t', Update hd0 t1 "app.name"%string
     (fun old n => fold_left (fun n o => n_nodeop o n) [NSetData (GList [old; GInt 1])] n) = Ok t' /\
    Get 1 hd0 t' "app.name"%string = Ok (GList [GInt 3; GInt 1], true).
Proof. split; [apply t1_reached|]. eexists. split; [run..]. Qed.
Example C22_ex :
  reached t1 /\ exists t' c, SetEx hd0 t1 "app.name"%string (GInt 1) = Ok (t', GInt 3, [c; c; c; c]).
Proof. split; [apply t1_reached|]. do 2 eexists. vm_compute; reflexivity. Qed.

(** ** C27 *)
Theorem C27_br_first D rf h t p :
  plain_reach D t -> D (hdelim h) -> hmode h = ModeUp ->
  exists b, Has (S rf) h t p = Ok b /\
    b = s_has (s_first (hdelim h) (entries t) (full h p :: s_ups (hdelim h) (full h p))).
Proof. exact (@br_first D rf h t p). Qed.
Print Assumptions C27_br_first.
Theorem C27_br_candidates d segs :
  segs <> [] -> Forall (fun p => contains (enc1 d) p = false) segs ->
  s_ups d (join_str segs (enc1 d)) =
    map (fun i => join_str (firstn i segs ++ [last segs []]) (enc1 d)) (rev (seq 1 (length segs - 2))).
Proof. exact (@br_candidates d segs). Qed.
Print Assumptions C27_br_candidates.
Theorem C27_br_nearest D rf h t p before c after a :
  plain_reach D t -> D (hdelim h) -> hmode h = ModeUp ->
  full h p :: s_ups (hdelim h) (full h p) = before ++ c :: after ->
  (forall x, In x before -> s_probe (hdelim h) (entries t) (runes x) = SMiss) ->
  t_get t (runes c) = Some a ->
  exists q, Query (S rf) h t p = Ok q /\ q_data q = (if a_has a then a_data a else GNil) /\
    q_found q = (a_leaf a || ends_with (hdelim h) (runes c)).
Proof. exact (@br_nearest D rf h t p before c after a). Qed.
Print Assumptions C27_br_nearest.
Example C27_ex :
  let h := viewBR hd0 in
  plain_reach dotD t1 /\ dotD (hdelim h) /\ hmode h = ModeUp /\
  full h "app.x.y.level"%string :: s_ups (hdelim h) (full h "app.x.y.level"%string) =
    [("app.x.y.level"%string : gostring); ("app.x.level"%string : gostring)] ++ ("app.level"%string : gostring) :: [] /\
  (forall x, In x [("app.x.y.level"%string : gostring); ("app.x.level"%string : gostring)] ->
     s_probe (hdelim h) (entries t1) (runes x) = SMiss) /\
  Get 1 h t1 "app.x.y.level"%string = Ok (GInt 2, true).
Proof.
  split; [apply t1_plain|]. split; [reflexivity|]. split; [reflexivity|]. split; [vm_compute; reflexivity|].
  split; [|vm_compute; reflexivity].
  intros x [<-|[<-|[]]]; vm_compute; reflexivity.
Qed.

(** ** C53 *)
Theorem C53_delimiter_irrelevant D rf h d' t p a :
  plain_reach D t -> D (hdelim h) -> D d' -> hprefix h = [] -> t_get t (runes p) = Some a ->
  exists q q', Query (S rf) h t p = Ok q /\ Query (S rf) (setDelimiter h d') t p = Ok q' /\
    q_data q = (if a_has a then a_data a else GNil) /\ q_data q' = q_data q /\ q_branch q' = q_branch q.
Proof. exact (@delimiter_irrelevant D rf h d' t p a). Qed.
Print Assumptions C53_delimiter_irrelevant.
Definition dotslash : rune -> Prop := fun c => c = 46%N \/ c = 47%N.
Lemma t1_plain2 : plain_reach dotslash t1.
Proof.
  refine (plain_reach_hist dotslash 0 hist1 t1 outs1 _ hist1_run).
  repeat (apply Forall_cons; [split; [left; reflexivity|intros d [-> | ->]; vm_compute; first [reflexivity|exact I]]|]).
  apply Forall_nil.
Qed.
Example C53_ex :
  plain_reach dotslash t1 /\ dotslash (hdelim hd0) /\ dotslash 47%N /\
  Get 1 (setDelimiter hd0 47%N) t1 "app.name"%string = Ok (GInt 3, true).
Proof. split; [apply t1_plain2|]. split; [left; reflexivity|]. split; [right; reflexivity|]. vm_compute; reflexivity. Qed.

(** ** C56 *)
Theorem C56_accessors n b :
  isBranch n = negb (isLeaf n) /\ isEmpty n = negb (hasData n) /\
  modified (setModified b n) = b /\ modified (toggleModified n) = negb (modified n) /\
  modified (resetModified n) = false /\
  (forall f, f = setModified b \/ f = toggleModified \/ f = resetModified ->
     isLeaf (f n) = isLeaf n /\ isBranch (f n) = isBranch n /\ hasData (f n) = hasData n /\
     ndata (f n) = ndata n /\ ndesc (f n) = ndesc n /\ ncmt (f n) = ncmt n /\ ntag (f n) = ntag n /\
     key (f n) = key n /\ npath (f n) = npath n /\ nkids (f n) = nkids n).
Proof. exact (@accessors n b). Qed.
Print Assumptions C56_accessors.

(** ** C57 *)
Theorem C57_order_independent rf rf' h kvs kvs' t t' outs outs' :
  Permutation kvs kvs' -> NoDup (map (fun kv => fst (skv h kv)) kvs) ->
  t_run rf (sets h kvs) newTrie = Ok (t, outs) -> t_run rf' (sets h kvs') newTrie = Ok (t', outs') ->
  forall k, match t_get t k, t_get t' k with
            | Some a, Some a' => a_data a = a_data a' /\ a_has a = a_has a'
            | None, None => True
            | _, _ => False
            end.
Proof. exact (@order_independent rf rf' h kvs kvs' t t' outs outs'). Qed.
Print Assumptions C57_order_independent.
Theorem C57_keys_exact rf hist t outs :
  t_run rf hist newTrie = Ok (t, outs) -> no_remove hist ->
  forall k, (exists a, t_get t k = Some a) <->
            k = [] \/ exists a b, In a (stored_keys hist) /\ In b (stored_keys hist) /\ k = common a b.
Proof. exact (@keys_exact rf hist t outs). Qed.
Print Assumptions C57_keys_exact.
Example C57_ex :
  let kvs := [(("apple"%string : gostring), GInt 1); (("app"%string : gostring), GInt 2); (("bob"%string : gostring), GInt 3)] in
  Permutation kvs (rev kvs) /\ NoDup (map (fun kv => fst (skv hd0 kv)) kvs) /\
  (exists t outs, t_run 1 (sets hd0 kvs) newTrie = Ok (t, outs)) /\
  (exists t outs, t_run 1 (sets hd0 (rev kvs)) newTrie = Ok (t, outs)).
Proof.
  split; [apply Permutation_rev|]. split.
  - repeat constructor; notin.
  - split; do 2 eexists; vm_compute; reflexivity.
Qed.

(** ** C58 *)
Theorem C58_agree_has_search rf h t p : Search_ rf h t p = Has rf h t p.
Proof. exact (@agree_has_search rf h t p). Qed.
Print Assumptions C58_agree_has_search.
Theorem C58_agree_locate rf h t p :
  Has rf h t p = do (n, br, pt, fd, kv) <- Locate rf h t p; Ok fd.
Proof. exact (@agree_locate rf h t p). Qed.
Print Assumptions C58_agree_locate.
Theorem C58_agree_query_has rf h t p q :
  Query rf h t p = Ok q -> q_found q = true -> Has rf h t p = Ok true.
Proof. exact (@agree_query_has rf h t p q). Qed.
Print Assumptions C58_agree_query_has.
Theorem C58_agree_getex rf h t p q :
  Query rf h t p = Ok q ->
  exists o, GetEx rf h t p = Ok o /\
    match o with
    | Some (n, v, br, kv) => q_found q = true /\ v = q_data q /\ br = q_branch q
    | None => q_found q = false
    end.
Proof. exact (@agree_getex rf h t p q). Qed.
Print Assumptions C58_agree_getex.
Theorem C58_agree_attrs rf h t p q :
  Query rf h t p = Ok q ->
  (exists s, GetDesc rf h t p = Ok (s, q_found q)) /\
  (exists s, GetComment rf h t p = Ok (s, q_found q)) /\
  (exists s, GetTag rf h t p = Ok (s, q_found q)).
Proof. exact (@agree_attrs rf h t p q). Qed.
Print Assumptions C58_agree_attrs.
Example C58_ex : exists q, Query 1 hd0 t1 "app.name"%string = Ok q /\ q_found q = true /\ q_data q = GInt 3.
Proof. eexists; repeat split; [run..]. Qed.
