(** The properties of what providers and the store do together (C94-C98): only statements.

    [data_at t k]: what the tree [t] holds at the key [k]; [agree t f]: the tree holds what the map [f]
    holds; [RSet h p v], [RRem h p]: a call of Set or Remove on the handle [h]; [r_eff f o]: the map [f]
    after such a call; [r_last l k]: what the last call on [k] in [l] left.
    [place st o k]: the key of the tree for the remote key [k]; [keyspace K]: the remote keys [K] are
    ordinary keys and no place begins with another; [replica K t w]: for the keys of [K] the tree holds
    what the remote store [w] holds; [others K t t']: nothing else changed.
    [kv_step], [etcd_world]: the remote stores after writes and deletes; [growing], [revisions]: their
    indexes increase. *)
From Coq Require Import String.
From Coq Require Import List NArith ZArith Bool Arith Lia.
From Verif Require Import GoStr Utf8 Node NodeWf InsertProofs MatchProofs Trie Spec Refine ApiRefine Reach Derived Derived2 Derived3
  Derived4 Climb Cvter Nested CvterProofs Export Store StoreProofs MergeProofs LoadProofs Misc Provider ProviderProofs WatchProofs Watch Follow.
Import ListNotations.
Open Scope nat_scope.
Open Scope list_scope.

Ltac run := vm_compute; reflexivity.
Definition b (s : string) : gostring := s2b s.
Definition dotD : rune -> Prop := fun c => c = 46%N.
Definition str0 : gval -> gostring := fun _ => [].
Definition json0 : gostring -> option gmap * option lerr := fun _ => (None, None).
Definition h0 : hdl := defaultHdl.
Definition s0 : store := Sto h0 false [] [Some 1] [None; Some 2] [Some 3] None false true.
Definition bytes0 : gostring -> gval := fun _ => GOther 1.
Ltac dots := let d := fresh in let H := fresh in intros d H; unfold dotD in H; subst d; vm_compute; reflexivity || exact I.

(** ** C94: a store is the map of its history, with removals *)
Theorem C94_history D rf l : forall t f, plain_reach D t -> agree t f -> r_all D f l ->
  exists t' outs, t_run (S rf) (map r_call l) t = Ok (t', outs) /\ plain_reach D t' /\ agree t' (fold_left r_eff l f).
Proof. exact (@r_history D rf l). Qed.
Print Assumptions C94_history.
Theorem C94_read D rf t f h p v : plain_reach D t -> agree t f -> D (hdelim h) -> blank_free (full h p) -> f (wkey h p) = Some v ->
  exists q, Query (S rf) h t p = Ok q /\ q_data q = v.
Proof. exact (@r_read D rf t f h p v). Qed.
Print Assumptions C94_read.
Theorem C94_last_op D rf K l : antichain K -> Forall K (r_keys l) -> Forall (r_plain D) l ->
  exists t outs, t_run (S rf) (map r_call l) newTrie = Ok (t, outs) /\ plain_reach D t /\
    forall k, data_at t k = r_last l k None.
Proof. exact (@r_last_op D rf K l). Qed.
Print Assumptions C94_last_op.
Definition ops94 : list rop :=
  [RSet h0 (b "a.b") (GInt 1); RSet h0 (b "a.c") (GInt 2); RRem h0 (b "a.b"); RSet h0 (b "a.c") (GInt 3);
   RSet h0 (b "z") (GInt 4); RRem h0 (b "z"); RSet h0 (b "z") (GInt 5); RRem h0 (b "q")].
Definition keys94 : list skey := [runes (b "a.b"); runes (b "a.c"); runes (b "z"); runes (b "q")].
Example C94_case : antichain (fun k => In k keys94) /\ Forall (fun k => In k keys94) (r_keys ops94) /\ Forall (r_plain dotD) ops94 /\
    r_last ops94 (runes (b "a.b")) None = None /\ r_last ops94 (runes (b "a.c")) None = Some (GInt 3) /\
    r_last ops94 (runes (b "z")) None = Some (GInt 5).
Proof.
  split; [|split; [|split; [|split; [run|split; [run|run]]]]].
  - intros x y Hx Hy H. unfold keys94 in Hx, Hy. cbn [In] in Hx, Hy.
    decompose [or] Hx; decompose [or] Hy; try contradiction; subst; auto; vm_compute in H; discriminate.
  - repeat (apply Forall_cons; [vm_compute; tauto|]). apply Forall_nil.
  - unfold ops94. repeat (apply Forall_cons; [cbn [r_plain]; split; [reflexivity|]; first [split; [reflexivity|dots]|dots|split; [discriminate|discriminate]]|]). apply Forall_nil.
Qed.


(** ** C95: does a store that watches a remote store hold what that holds?  Not if a key begins with another. *)
Definition o0 : nkopts := NkO [] [] (b ".").
Theorem C95_consul_prefix_refuted :
  let h := [(KPut (b "a/b") (b "1"), 3%N); (KPut (b "a/bc") (b "2"), 4%N); (KDel [b "a/b"], 5%N)] in
  exists s1 t1 e1 s2 t2 w2, consul_handle 1 s0 o0 bytes0 chg0 newTrie [] 2 = Ok (s1, t1, e1) /\
    consul_run 0 s0 o0 bytes0 s1 t1 [] h = Ok (s2, t2, w2) /\
    kvget w2 (b "a/bc") <> None /\ data_at t2 (place s0 o0 (b "a/bc")) = None.
Proof.
  do 6 eexists. split; [run|]. split; [run|]. split; [discriminate|run].
Qed.
Print Assumptions C95_consul_prefix_refuted.
Theorem C95_etcd_prefix_refuted :
  let h := [(EPut (b "a/b") (b "1"), 3%N); (EPut (b "a/bc") (b "2"), 4%N); (EDel (b "a/b"), 5%N)] in
  exists t e, etcd_handles 1 s0 o0 newTrie (snd (etcd_world [] h)) = Ok (t, e) /\
    kvget (fst (etcd_world [] h)) (b "a/bc") <> None /\ data_at t (place s0 o0 (b "a/bc")) = None.
Proof.
  do 2 eexists. split; [run|]. split; [discriminate|run].
Qed.
Print Assumptions C95_etcd_prefix_refuted.

(** ** C96: a store that loads from consul and watches it, for keys of which none begins with another *)
Theorem C96_step (D : rune -> Prop) rf st o bytes K w cur s t op idx :
  D (hdelim (so_h st)) -> hmode (so_h st) <> ModeUp ->
  keyspace D st o K -> plain_reach D t -> kv_world w cur -> (cur < idx)%N -> WatchProofs.known s = Some w ->
  Forall K (map kv_key w) -> op_keys K op -> replica st o bytes K t w ->
  exists s' t' e, consul_handle (S rf) st o bytes s t (kv_step w op idx) idx = Ok (s', t', e) /\
    WatchProofs.known s' = Some (kv_step w op idx) /\ kv_world (kv_step w op idx) idx /\
    Forall K (map kv_key (kv_step w op idx)) /\
    plain_reach D t' /\ replica st o bytes K t' (kv_step w op idx) /\ others st o K t t'.
Proof. exact (fun Hd Hm => consul_store D rf st o bytes Hd Hm K w cur s t op idx). Qed.
Print Assumptions C96_step.
Theorem C96_load_follow (D : rune -> Prop) rf str json st o bytes meta os pv K w cur t h idx :
  keyspace D st o K -> D (hdelim (so_h st)) -> hmode (so_h st) <> ModeUp -> plain_reach D t ->
  kv_world w cur -> Forall K (map kv_key w) -> growing cur h -> Forall (fun e => op_keys K (fst e)) h ->
  so_loading st = false -> no_prefix os -> ld_pv (the_loader st os) = Some pv ->
  pv_read pv = (Some (consul_ReadAll o meta w), None) ->
  (forall k, K k -> kvget w k = None -> data_at t (place st o k) = None) ->
  exists r s1 t1 e1 s2 t2, Load str json st t os = Ok r /\ lr_err r = None /\
    consul_handle (S rf) st o bytes chg0 (lr_t r) w idx = Ok (s1, t1, e1) /\
    consul_run rf st o bytes s1 t1 w h = Ok (s2, t2, fold_left (fun w e => kv_step w (fst e) (snd e)) h w) /\
    replica st o bytes K t2 (fold_left (fun w e => kv_step w (fst e) (snd e)) h w) /\ others st o K t t2.
Proof. exact (@consul_load_follow D rf str json st o bytes meta os pv K w cur t h idx). Qed.
Print Assumptions C96_load_follow.
(** reading keeps the last of the pairs whose keys are the same after normalizing *)
Theorem C96_read o meta w k :
  NoDup (map fst (consul_ReadAll o meta w)) /\
  find (fun e => str_eqb (fst e) k) (consul_ReadAll o meta w) =
  option_map (fun p => (k, Pkg (GStr (kv_val p)) [] [] (meta p))) (find (fun p => str_eqb (NormalizeKey o (kv_key p)) k) (rev w)).
Proof. exact (@consul_read_last o meta w k). Qed.
Print Assumptions C96_read.
Lemma K96_keyspace : keyspace dotD s0 o0 (fun k => In k [b "a/b"; b "a/c"; b "n"]).
Proof.
  split.
  - intros a Ha. cbn [In] in Ha. decompose [or] Ha; try contradiction; subst; (split; [discriminate|split; [vm_compute; intuition discriminate|dots]]).
  - intros x y Hx Hy H. cbn [In] in Hx, Hy.
    decompose [or] Hx; decompose [or] Hy; try contradiction; subst; auto; vm_compute in H; discriminate.
Qed.
Definition w96 : list kvpair := [KV (b "a/b") (b "1") 3 3; KV (b "a/c") (b "2") 4 4].
Definition h96 : list (kvop * N) := [(KPut (b "n") (b "9"), 6%N); (KDel [b "a/b"; b "zz"], 7%N); (KPut (b "a/c") (b "3"), 9%N)].
Definition pv96 : provider := Prov (Some (consul_ReadAll o0 (fun _ => GNil) w96), None) None None None None.
Example C96_read_case : consul_ReadAll o0 (fun _ => GNil) [KV (b "a/b") (b "1") 3 3; KV (b "n") (b "5") 3 3; KV (b "a.b") (b "2") 4 4] =
  [(b "a.b", Pkg (GStr (b "2")) [] [] GNil); (b "n", Pkg (GStr (b "5")) [] [] GNil)].
Proof. run. Qed.
Example C96_case : kv_world w96 4 /\ growing 4 h96 /\ Forall (fun e => op_keys (fun k => In k [b "a/b"; b "a/c"; b "n"]) (fst e)) h96 /\
    ld_pv (the_loader s0 [LProvider pv96]) = Some pv96 /\ plain_reach dotD newTrie /\
    fold_left (fun w e => kv_step w (fst e) (snd e)) h96 w96 = [KV (b "a/c") (b "3") 4 9; KV (b "n") (b "9") 6 6] /\
    match Load str0 json0 s0 newTrie [LProvider pv96] with
  | Ok r => match consul_handle 1 s0 o0 bytes0 chg0 (lr_t r) w96 4 with
            | Ok (s1, t1, _) => match consul_run 0 s0 o0 bytes0 s1 t1 w96 h96 with
                                | Ok (_, t2, _) => map (fun k => data_at t2 (place s0 o0 k)) [b "a/b"; b "a/c"; b "n"]
                                | _ => [] end
            | _ => [] end
  | _ => [] end = [None; Some (GOther 1); Some (GOther 1)].
Proof.
  split; [|split; [|split; [|split; [run|split; [|split; [run|run]]]]]].
  - split; [repeat constructor; vm_compute; intuition discriminate|repeat constructor; vm_compute; discriminate].
  - repeat constructor.
  - repeat constructor; vm_compute; tauto.
  - exact (plain_new dotD).
Qed.

(** ** C97: the same for etcd *)
Theorem C97_history (D : rune -> Prop) rf st o bytes K h w cur t :
  D (hdelim (so_h st)) -> hmode (so_h st) <> ModeUp ->
  keyspace D st o K -> plain_reach D t -> kv_world w cur -> revisions cur h ->
  Forall (fun e => K (eop_key (fst e))) h -> replica st o bytes K t w ->
  exists t' e, etcd_handles (S rf) st o t (snd (etcd_world w h)) = Ok (t', e) /\
    plain_reach D t' /\ replica st o bytes K t' (fst (etcd_world w h)) /\ others st o K t t'.
Proof. exact (fun Hd Hm => etcd_store_history D rf st o bytes Hd Hm K h w cur t). Qed.
Print Assumptions C97_history.
Theorem C97_load_follow (D : rune -> Prop) rf str json st o bytes os pv K w cur t h :
  keyspace D st o K -> D (hdelim (so_h st)) -> hmode (so_h st) <> ModeUp -> plain_reach D t ->
  kv_world w cur -> Forall K (map kv_key w) -> revisions cur h -> Forall (fun e => K (eop_key (fst e))) h ->
  so_loading st = false -> no_prefix os -> ld_pv (the_loader st os) = Some pv ->
  pv_read pv = (Some (etcd_Read o (map (fun p => (kv_key p, kv_val p)) w)), None) ->
  (forall k, K k -> kvget w k = None -> data_at t (place st o k) = None) ->
  exists r t2 e2, Load str json st t os = Ok r /\ lr_err r = None /\
    etcd_handles (S rf) st o (lr_t r) (snd (etcd_world w h)) = Ok (t2, e2) /\
    replica st o bytes K t2 (fst (etcd_world w h)) /\ others st o K t t2.
Proof. exact (@etcd_load_follow D rf str json st o bytes os pv K w cur t h). Qed.
Print Assumptions C97_load_follow.
Theorem C97_read o kvs k :
  NoDup (map fst (etcd_Read o kvs)) /\
  find (fun e => str_eqb (fst e) k) (etcd_Read o kvs) =
  option_map (fun p => (k, Pkg (GStr (snd p)) [] [] GNil)) (find (fun p => str_eqb (NormalizeKey o (fst p)) k) (rev kvs)).
Proof. exact (@etcd_read_last o kvs k). Qed.
Print Assumptions C97_read.
Definition h97 : list (eop * N) := [(EPut (b "n") (b "9"), 6%N); (EDel (b "a/b"), 7%N); (EDel (b "a/b"), 8%N); (EPut (b "a/c") (b "3"), 9%N)].
Example C97_case : revisions 4 h97 /\ Forall (fun e => In (eop_key (fst e)) [b "a/b"; b "a/c"; b "n"]) h97 /\
    length (snd (etcd_world w96 h97)) = 3 /\
    match etcd_handles 1 s0 o0 newTrie (snd (etcd_world w96 h97)) with
  | Ok (t, _) => map (fun k => data_at t (place s0 o0 k)) [b "a/b"; b "a/c"; b "n"]
  | _ => [] end = [None; Some (GStr (b "3")); Some (GStr (b "9"))].
Proof.
  split; [repeat constructor|]. split; [repeat constructor; vm_compute; tauto|]. split; [run|run].
Qed.

(** ** C98: the environment in the store *)
Theorem C98_env lower str json s t os o vec :
  reached t -> so_loading s = false -> no_prefix os ->
  (forall k v, In (k, v) (taken o vec) -> e_u2d o = true -> bare lower o k <> []) ->
  (forall n n' v v' k k', In (n, v) (taken o vec) -> In (n', v') (taken o vec) -> env_key lower o n = Ok k -> env_key lower o n' = Ok k' ->
     wkey (so_h s) k = wkey (so_h s) k' -> k = k') ->
  exists es, env_prepare lower o vec = Ok es /\
    (ld_pv (the_loader s os) = Some (map_provider (e_m es)) ->
    exists r, Load str json s t os = Ok r /\ lr_err r = None /\
    (forall a n v b k, taken o vec = a ++ (n, v) :: b -> env_key lower o n = Ok k ->
       (forall n' v', In (n', v') b -> env_key lower o n' <> Ok k) -> data_at (lr_t r) (wkey (so_h s) k) = Some (GStr v)) /\
    (forall x, (forall n v k, In (n, v) (taken o vec) -> env_key lower o n = Ok k -> wkey (so_h s) k <> x) -> data_at (lr_t r) x = data_at t x)).
Proof. exact (@env_store lower str json s t os o vec). Qed.
Print Assumptions C98_env.
Theorem C98_named str json s t os pv d :
  reached t -> so_loading s = false -> no_prefix os -> ld_pv (the_loader s os) = Some pv -> pv_read pv = (Some d, None) -> flat_pkgs d ->
  NoDup (map (fun e => wkey (so_h s) (fst e)) d) ->
  exists r, Load str json s t os = Ok r /\ lr_err r = None /\
    (forall k p, In (k, p) d -> data_at (lr_t r) (wkey (so_h s) k) = Some (p_value p)) /\
    (forall x, (forall k p, In (k, p) d -> wkey (so_h s) k <> x) -> data_at (lr_t r) x = data_at t x).
Proof. exact (@load_named str json s t os pv d). Qed.
Print Assumptions C98_named.
Definition envo : envopts := EnvO (b "APP_") (b "app_") (b "app") None true true.
Definition vec98 : list gostring := [b "PATH=/bin"; b "APP_LOG_LEVEL=1=2"; b "=x"; b "APP_Z=q"; b "APP_Z=r"].
Definition m98 : gmap := [(b "app.log.level", GStr (b "1=2")); (b "app.z", GStr (b "r"))].
Example C98_case :
  match env_prepare lowerA envo vec98 with Ok es => e_m es | _ => [] end = m98 /\
    match Load str0 json0 s0 newTrie [LProvider (map_provider m98)] with
  | Ok r => map (data_at (lr_t r)) [runes (b "app.log.level"); runes (b "app.z"); runes (b "path")] | _ => [] end
  = [Some (GStr (b "1=2")); Some (GStr (b "r")); None].
Proof. split; run. Qed.
