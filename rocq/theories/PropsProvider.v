(** The properties of the providers (C50, C64-C69): only statements.

    [taken o vec]: the entries of the environment that the options select, as (name, value);
    [bare o k]: a name lower-cased and stripped as the options say, without the rest of the mapping;
    [follow r op ps]: a replica [r] after applying the pairs [ps] of an event as sets, or as removals;
    [follows r w]: the replica agrees with the key-value store [w]. *)
From Coq Require Import String.
From Coq Require Import List NArith ZArith Bool Arith Lia Permutation Sorted.
From Verif Require Import GoStr Utf8 Trie Climb Cvter Nested Export MergeProofs Misc MiscProofs CvtProofs Provider ProviderProofs WatchProofs.
Import ListNotations.
Open Scope nat_scope.
Open Scope list_scope.

Ltac run := vm_compute; reflexivity.
Definition b (s : string) : gostring := s2b s.

(** ** C50: the environment provider *)
Theorem C50_taken o vec k v : In (k, v) (taken o vec) <->
  In (k ++ 61%N :: v) vec /\ k <> [] /\ ~ In 61%N k /\ (e_prefix o = [] \/ has_prefix (e_prefix o) k = true).
Proof. exact (@taken_spec o vec k v). Qed.
Print Assumptions C50_taken.
Theorem C50_prepare lower  o vec : (forall k v, In (k, v) (taken o vec) -> e_u2d o = true -> bare lower o k <> []) ->
  exists s, env_prepare lower o vec = Ok s /\
    StronglySorted str_le (e_keys s) /\
    Permutation (map Ok (e_keys s)) (map (fun e => env_key lower o (fst e)) (taken o vec)) /\
    (forall k, env_Has s k = true <-> In k (e_keys s)) /\
    (forall k v, env_Value s k = Some (GStr v) <->
       exists a n b, taken o vec = a ++ (n, v) :: b /\ env_key lower o n = Ok k /\
         forall n' v', In (n', v') b -> env_key lower o n' <> Ok k).
Proof. exact (@env_prepare_spec lower o vec). Qed.
Print Assumptions C50_prepare.
Theorem C50_plain lower  o k : e_u2d o = false -> e_cb o = None ->
  env_key lower o k = Ok ((if is_nil (e_store o) then [] else e_store o ++ [46%N]) ++ bare lower o k).
Proof. exact (@env_key_plain lower o k). Qed.
Print Assumptions C50_plain.
Theorem C50_dotted lower  o k : e_u2d o = true -> e_cb o = None ->
  Forall (fun p => p <> []) (split_str (bare lower o k) [95%N]) ->
  env_key lower o k = Ok (join_str ((if is_nil (e_store o) then [] else [e_store o]) ++ split_str (bare lower o k) [95%N]) [46%N]).
Proof. exact (@env_key_dotted lower o k). Qed.
Print Assumptions C50_dotted.
Theorem C50_underlines k : k <> [] -> exists r, u2d k = Ok r /\ length r = length k /\
  forall i, nth_error r i = if (0 <? i) && dot_at k i then Some 46%N else nth_error k i.
Proof. exact (@u2d_spec k). Qed.
Print Assumptions C50_underlines.
Theorem C50_parts k : Forall (fun p => p <> []) (split_str k [95%N]) -> u2d k = Ok (join_str (split_str k [95%N]) [46%N]).
Proof. exact (@u2d_parts k). Qed.
Print Assumptions C50_parts.
Theorem C50_key_panics lower  o k : env_key lower o k = Panic <-> e_u2d o = true /\ bare lower o k = [].
Proof. exact (@env_key_panics lower o k). Qed.
Print Assumptions C50_key_panics.
Theorem C50_panic_refuted lower  o vec k v : e_u2d o = true -> In (k, v) (taken o vec) -> bare lower o k = [] ->
  env_prepare lower o vec = Panic.
Proof. exact (@env_panic_refuted lower o vec k v). Qed.
Print Assumptions C50_panic_refuted.
Theorem C50_next_refuted s : e_keys s <> [] -> e_pos s = 0 -> env_Next s = Ok (s, [], true).
Proof. exact (@env_next_refuted s). Qed.
Print Assumptions C50_next_refuted.
Theorem C50_next_panic_refuted s : length (e_keys s) <= e_pos s -> env_Next s = Panic.
Proof. exact (@env_next_panic_refuted s). Qed.
Print Assumptions C50_next_panic_refuted.
Theorem C50_strip_refuted o k c : e_lower o = true -> In c (e_strip o) -> capital c -> bare lowerA o k = lowerA k.
Proof. exact (@env_strip_refuted o k c). Qed.
Print Assumptions C50_strip_refuted.
Theorem C50_count_refuted :
  exists s, env_prepare lowerA env_default [s2b "A=1"%string; s2b "a=2"%string] = Ok s /\
    env_Count s = 2%nat /\ length (e_m s) = 1%nat /\ e_keys s = [s2b "a"%string; s2b "a"%string].
Proof. exact (@env_count_refuted ). Qed.
Print Assumptions C50_count_refuted.
Definition envo : envopts := EnvO (b "APP_") (b "app_") (b "app") None true true.
Example C50_case : let vec := [b "PATH=/bin"; b "APP_LOG_LEVEL=1=2"; b "=x"; b "APP_Z=q"] in
  taken envo vec = [(b "APP_LOG_LEVEL", b "1=2"); (b "APP_Z", b "q")] /\
  bare lowerA envo (b "APP_LOG_LEVEL") = b "log_level" /\
  env_prepare lowerA envo vec =
    Ok (EnvS [(b "app.log.level", GStr (b "1=2")); (b "app.z", GStr (b "q"))] [b "app.log.level"; b "app.z"] 0) /\
  (forall k v, In (k, v) (taken envo vec) -> e_u2d envo = true -> bare lowerA envo k <> []).
Proof.
  split; [run|]. split; [run|]. split; [run|]. intros k v H _. vm_compute in H.
  repeat destruct H as [H|H]; try tauto; injection H as <- <-; discriminate.
Qed.
Example C50_panic_case : let vec := [b "APP_=1"] in
  taken envo vec = [(b "APP_", b "1")] /\ bare lowerA envo (b "APP_") = [] /\ env_prepare lowerA envo vec = Panic.
Proof. split; [run|]. split; run. Qed.
Example C50_underlines_case : u2d (b "_a__b_c_") = Ok (b "_a_.b.c_").
Proof. run. Qed.

(** ** C64: keys of consul and etcd *)
Theorem C64_key o key : n_delim o <> [] -> (In 47%N (n_delim o) -> n_delim o = slash) ->
  NormalizeKey o key = join_str (prepended o ++ split_str (rest_of o key) slash) (n_delim o).
Proof. exact (@normalize_key_spec o key). Qed.
Print Assumptions C64_key.
Theorem C64_strip o key : n_strip o <> [] ->
  (forall r, key = n_strip o ++ slash ++ r -> rest_of o key = r) /\
  ((forall r, key <> n_strip o ++ slash ++ r) -> rest_of o key = key).
Proof. exact (@rest_of_spec o key). Qed.
Print Assumptions C64_strip.
Theorem C64_inj o a b : unbordered (n_delim o) -> (In 47%N (n_delim o) -> n_delim o = slash) -> n_strip o = [] ->
  Forall (fun p => contains (n_delim o) p = false) (prepended o ++ split_str a slash) ->
  Forall (fun p => contains (n_delim o) p = false) (prepended o ++ split_str b slash) ->
  NormalizeKey o a = NormalizeKey o b -> a = b.
Proof. exact (@normalize_key_inj o a b). Qed.
Print Assumptions C64_inj.
Theorem C64_glue_refuted p key : p <> [] -> NormalizeKey (NkO [] p []) key = p ++ key.
Proof. exact (@normalize_key_glue_refuted p key). Qed.
Print Assumptions C64_glue_refuted.
Theorem C64_collision_refuted :
  let o := NkO [] [] (s2b "."%string) in
  NormalizeKey o (s2b "a/b"%string) = NormalizeKey o (s2b "a.b"%string) /\
  let o := NkO (s2b "x"%string) [] (s2b "."%string) in
  NormalizeKey o (s2b "x/a"%string) = NormalizeKey o (s2b "a"%string).
Proof. exact (@normalize_key_collision_refuted ). Qed.
Print Assumptions C64_collision_refuted.
Example C64_case : let o := NkO (b "app") (b "x/y") (b ".") in
  NormalizeKey o (b "app/log/level") = b "x.y.log.level" /\ prepended o = [b "x"; b "y"] /\
  rest_of o (b "app/log/level") = b "log/level" /\ ~ In 47%N (n_delim o).
Proof. split; [run|]. split; [run|]. split; [run|]. cbn. intros [H|[]]. discriminate. Qed.

(** ** C65: changes of consul *)
Theorem C65_event s old new idx : known s = Some old ->
  exists s', ch_val s' = CVPairs new /\
    ((filter (changed idx) new <> [] /\ exists o, (o = OpCreate \/ o = OpWrite) /\
        consul_event true s (CVPairs new) idx = Ok (s', o, filter (changed idx) new)) \/
     (filter (changed idx) new = [] /\
        consul_event true s (CVPairs new) idx = Ok (s', OpRemove, kv_removed old new))).
Proof. exact (@consul_event_spec s old new idx). Qed.
Print Assumptions C65_event.
Theorem C65_follows w cur s r o idx : kv_world w cur -> (cur < idx)%N -> known s = Some w -> follows r w ->
  exists s' op ps, consul_event true s (CVPairs (kv_step w o idx)) idx = Ok (s', op, ps) /\
    known s' = Some (kv_step w o idx) /\ kv_world (kv_step w o idx) idx /\ follows (follow r op ps) (kv_step w o idx) /\
    match o with
    | KPut k v => ((kvget w k = None /\ op = OpCreate) \/ (kvget w k <> None /\ op = OpWrite)) /\ map (fun p => (kv_key p, kv_val p)) ps = [(k, v)]
    | KDel ks => op = OpRemove /\ ps = filter (fun p => existsb (str_eqb (kv_key p)) ks) w
    end.
Proof. exact (@consul_follows w cur s r o idx). Qed.
Print Assumptions C65_follows.
Theorem C65_history h : forall w cur s r, kv_world w cur -> growing cur h -> known s = Some w -> follows r w ->
  exists w' s' r', kv_run w s r h = Ok (w', s', r') /\ follows r' w' /\
    w' = fold_left (fun w e => kv_step w (fst e) (snd e)) h w.
Proof. exact (@consul_history h). Qed.
Print Assumptions C65_history.
Theorem C65_first w cur idx r : kv_world w cur -> follows r w ->
  exists s' op ps, consul_event true chg0 (CVPairs w) idx = Ok (s', op, ps) /\ known s' = Some w /\ follows (follow r op ps) w.
Proof. exact (@consul_first w cur idx r). Qed.
Print Assumptions C65_first.
Theorem C65_single p s idx : (kv_modify p = idx)%N ->
  exists s' op, consul_event false s (CVPair p) idx = Ok (s', op, [p]) /\ ch_val s' = CVPair p /\
    op = if (kv_create p =? idx)%N then OpCreate else OpWrite.
Proof. exact (@consul_single p s idx). Qed.
Print Assumptions C65_single.
Theorem C70_coalesced_refuted w cur s r k1 v1 k2 v2 i1 i2 :
  kv_world w cur -> (cur < i1)%N -> (i1 < i2)%N -> known s = Some w -> follows r w -> k1 <> k2 ->
  (forall p, kvget w k1 = Some p -> kv_val p <> v1) ->
  let w2 := kv_step (kv_step w (KPut k1 v1) i1) (KPut k2 v2) i2 in
  exists s' op ps, consul_event true s (CVPairs w2) i2 = Ok (s', op, ps) /\ known s' = Some w2 /\
    option_map kv_val (kvget w2 k1) = Some v1 /\ follow r op ps k1 <> Some v1.
Proof. exact (@consul_coalesced_refuted w cur s r k1 v1 k2 v2 i1 i2). Qed.
Print Assumptions C70_coalesced_refuted.
Theorem C70_gap_refuted w w' cur idx r k v : kv_world w' cur -> (cur < idx)%N -> follows r w ->
  option_map kv_val (kvget w k) = Some v -> kvget w' k = None ->
  exists s', consul_event true chg0 (CVPairs w') idx = Ok (s', OpRemove, []) /\ known s' = Some w' /\ follow r OpRemove [] k = Some v.
Proof. exact (@consul_gap_refuted w w' cur idx r k v). Qed.
Print Assumptions C70_gap_refuted.
Theorem C70_single_remove_refuted p s idx : ch_val s = CVPair p -> (kv_create p < idx)%N -> (kv_modify p < idx)%N ->
  exists s', consul_event false s CVNil idx = Ok (s', ch_op s, []) /\ ch_val s' = CVPair p.
Proof. exact (@consul_single_remove_refuted p s idx). Qed.
Print Assumptions C70_single_remove_refuted.
Definition kv0 : list kvpair := [KV (b "a") (b "1") 3 3; KV (b "b") (b "2") 3 5].
Definition st0 : chg := Chg (CVPairs kv0) 0 5 OpWrite.
Example C65_case :
  kv_world kv0 5 /\ known st0 = Some kv0 /\
  growing 5 [(KPut (b "c") (b "9"), 6%N); (KDel [b "a"], 8%N); (KPut (b "b") (b "3"), 9%N)] /\
  consul_event true st0 (CVPairs (kv_step kv0 (KPut (b "b") (b "3")) 6)) 6 =
    Ok (Chg (CVPairs [KV (b "a") (b "1") 3 3; KV (b "b") (b "3") 3 6]) 2 6 OpWrite, OpWrite, [KV (b "b") (b "3") 3 6]) /\
  consul_event true st0 (CVPairs (kv_step kv0 (KDel [b "a"]) 6)) 6 =
    Ok (Chg (CVPairs [KV (b "b") (b "2") 3 5]) 1 6 OpRemove, OpRemove, [KV (b "a") (b "1") 3 3]).
Proof.
  split.
  { split; [repeat constructor; cbn; intros H; repeat destruct H as [H|H]; try discriminate; tauto|].
    repeat constructor; cbn; lia. }
  split; [run|]. split; [cbn; lia|]. split; run.
Qed.
(** two writes reported together: the first is lost *)
Example C70_coalesced_case :
  let w2 := kv_step (kv_step kv0 (KPut (b "a") (b "7")) 6) (KPut (b "b") (b "8")) 7 in
  option_map kv_val (kvget w2 (b "a")) = Some (b "7") /\
  match consul_event true st0 (CVPairs w2) 7 with
  | Ok (_, op, ps) => (op, ps) = (OpWrite, [KV (b "b") (b "8") 3 7])
  | _ => False
  end.
Proof. split; run. Qed.

(** ** C66: changes of etcd *)
Theorem C66_op e : (ee_put e = false -> ee_create e <> ee_mod e) ->
  has_op (etcd_op e) OpCreate = ee_put e && (ee_create e =? ee_mod e)%N /\
  has_op (etcd_op e) OpWrite = ee_put e && negb (ee_create e =? ee_mod e)%N /\
  has_op (etcd_op e) OpRemove = negb (ee_put e).
Proof. exact (@etcd_op_spec e). Qed.
Print Assumptions C66_op.
Theorem C66_once o e n : fst (etcd_Next o e 0) = 1 /\
  snd (etcd_Next o e 0) = Some (NormalizeKey o (ee_key e), GStr (ee_val e)) /\ snd (etcd_Next o e (S n)) = None /\ fst (etcd_Next o e (S n)) = S n.
Proof. exact (@etcd_next_once o e n). Qed.
Print Assumptions C66_once.
Example C66_case : etcd_op (EEv true (b "a") (b "1") 4 4) = OpCreate /\ etcd_op (EEv true (b "a") (b "1") 4 7) = OpWrite /\
  etcd_op (EEv false (b "a") [] 0 9) = OpRemove /\
  etcd_Next (NkO [] [] (b ".")) (EEv true (b "a/b") (b "1") 4 4) 0 = (1, Some (b "a.b", GStr (b "1"))).
Proof. split; [run|]. split; [run|]. split; run. Qed.

(** ** C67: changes of a file *)
Theorem C67_changes q : forall l a, apart l a q -> Forall (fun e => f_mine e = true -> f_remove e = false /\ f_eval e = true) q ->
  file_loop l a (map FEvent q) = repeat FcChange (length (filter (fun e => f_mine e && f_wc e) q)).
Proof. exact (@file_changes q). Qed.
Print Assumptions C67_changes.
Theorem C67_error_last q : forall l a, exists n, file_loop l a q = repeat FcChange n \/ file_loop l a q = repeat FcChange n ++ [FcError].
Proof. exact (@file_error_last q). Qed.
Print Assumptions C67_error_last.
Theorem C67_swallow_refuted e e' l a : f_mine e = true -> f_wc e = true -> f_remove e = false -> f_eval e = true ->
  f_text e' = f_text e -> (f_at e' < f_at e + 5)%N -> f_text e <> l ->
  file_loop l a [FEvent e; FEvent e'] = [FcChange].
Proof. exact (@file_swallow_refuted e e' l a). Qed.
Print Assumptions C67_swallow_refuted.
Theorem C67_removed_refuted e q l a : f_mine e = true -> f_remove e = true -> f_text e <> l -> file_loop l a (FEvent e :: q) = [FcError].
Proof. exact (@file_removed_refuted e q l a). Qed.
Print Assumptions C67_removed_refuted.
Definition wr (t : N) : fev := FEv t (b "WRITE f") true false true true.
Example C67_case : apart [] 0 [wr 10; wr 15; FEv 16 (b "WRITE g") false false true true; wr 17] /\
  file_loop [] 0 (map FEvent [wr 10; wr 15; FEv 16 (b "WRITE g") false false true true; wr 17]) = [FcChange; FcChange; FcChange] /\
  file_loop [] 0 (map FEvent [wr 10; wr 14; wr 14]) = [FcChange].
Proof.
  split; [|split; run]. unfold wr. cbn [apart f_text f_at]. repeat split; intros H; try discriminate; lia.
Qed.

(** ** C68: the map provider *)
Theorem C68_maps sprint m d : d <> [] -> NoDup (map fst m) -> prefix_free (map (fun k => split_str k d) (map fst m)) ->
  (forall k v r, In (k, v) m ->
     nget (GMap (maps_New sprint m d)) (split_str k d ++ r) = option_map (normalize sprint) (aget sprint v r)) /\
  (forall q, q <> [] -> (forall k, In k (map fst m) -> ~ begins (split_str k d) q /\ ~ below q (split_str k d)) ->
     nget (GMap (maps_New sprint m d)) q = None).
Proof. exact (@maps_new_spec sprint m d). Qed.
Print Assumptions C68_maps.
(** without a delimiter the keys stay whole *)
Theorem C68_plain sprint m k r :
  nget (GMap (maps_New sprint m [])) (k :: r) =
  match find (fun e => str_eqb (fst e) k) m with
  | Some e => option_map (normalize sprint) (aget sprint (snd e) r)
  | None => None
  end.
Proof. exact (@maps_new_plain sprint m k r). Qed.
Print Assumptions C68_plain.
Example C68_plain_case : maps_New sprint1 [(b "a.x", GAMap [(GInt 1, GStr (b "v"))])] [] = [(b "a.x", GMap [(b "1", GStr (b "v"))])].
Proof. run. Qed.
Example C68_case : maps_New sprint1 [(b "a.x", GAMap [(GInt 1, GStr (b "v"))]); (b "a.y", GInt 2)] (b ".") =
  [(b "a", GMap [(b "x", GMap [(b "1", GStr (b "v"))]); (b "y", GInt 2)])].
Proof. run. Qed.

(** ** C69: the flags provider *)
Theorem C69_prepare lower  o vec : (forall k v, In (k, v) (ftaken o vec) -> e_u2d o = true -> bare lower o k <> []) ->
  exists s, flags_prepare lower o vec = Ok s /\
    StronglySorted str_le (e_keys s) /\
    Permutation (map Ok (e_keys s)) (map (fun e => env_key lower o (fst e)) (ftaken o vec)) /\
    (forall k, env_Has s k = true <-> In k (e_keys s)) /\
    (forall k v, env_Value s k = Some v <->
       exists a n b, ftaken o vec = a ++ (n, v) :: b /\ env_key lower o n = Ok k /\
         forall n' v', In (n', v') b -> env_key lower o n' <> Ok k).
Proof. exact (@flags_prepare_spec lower o vec). Qed.
Print Assumptions C69_prepare.
Theorem C69_prefix_refuted p strips o vec c : In c p -> capital c \/ (97 <= c <= 122)%N ->
  Forall (fun e => lowerA (fst e) = fst e) vec ->
  flags_prepare lowerA (env_WithPrefix upperA p strips o) vec = Ok (EnvS [] [] 0).
Proof. exact (@flags_prefix_refuted p strips o vec c). Qed.
Print Assumptions C69_prefix_refuted.
Example C69_case : flags_prepare lowerA (env_WithPrefix upperA (b "app-") [] env_default) [(b "app-port", GInt 1)] = Ok (EnvS [] [] 0) /\
  flags_prepare lowerA env_default [(b "app-port", GInt 1)] = Ok (EnvS [(b "app-port", GInt 1)] [b "app-port"] 0).
Proof. split; run. Qed.
