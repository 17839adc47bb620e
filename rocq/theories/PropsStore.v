(** The properties of the store: handlers, the modified mark, merging, loading, saving, external
    changes, closing and the loading state (C37-C45, C54, C55): only statements.

    A [store] is a handle on the tree: its view of the trie [so_h], its flags, its handlers and
    closers; handlers are numbers, [ev] is a call of one.  [listeners f s]: the non-nil handlers of
    [s] and its parents.  [old_at t k], [mod_at t k], [meta_at t k]: data, modified mark and
    (description, comment, tag) at the key [k] of the tree.  [holds_after L t t']: [t'] has the data
    of the assignments [L], made in order on top of [t], and differs from [t] in nothing else but
    forks without data.  [leaves str flat d m]: the scalars of the nested map [m], each with the list
    of its keys; [placed d p]: the tree key of such a list below the path [p]. *)
From Coq Require Import String.
From Coq Require Import List NArith ZArith Bool Arith Lia Permutation.
From Verif Require Import GoStr Utf8 Node NodeWf InsertProofs MatchProofs Trie Spec Refine ApiRefine Reach Derived Derived2 Derived3
  Derived4 Cvter Nested CvterProofs Export Store StoreProofs MergeProofs MergeSlices LoadProofs Loading.
Import ListNotations.
Open Scope nat_scope.
Open Scope list_scope.

Ltac run := vm_compute; reflexivity.

(** a store to show that hypotheses can be met *)
Definition dotD : rune -> Prop := fun c => c = 46%N.
Definition h0 : hdl := defaultHdl.
Definition hApp : hdl := withPrefix defaultHdl [s2b "app"%string].
Definition ohist : list (hdl * op) :=
  [(h0, OSet (s2b "app.logging.file"%string) (GStr (s2b "x.log"%string)));
   (h0, OSet (s2b "app.logging.rotate"%string) (GInt 6));
   (h0, OSet (s2b "app.level"%string) (GInt 2));
   (h0, OSet (s2b "zoo"%string) (GInt 3))].
Definition ot : tr := Eval vm_compute in match t_run 1 ohist newTrie with Ok (t, _) => t | _ => newTrie end.
Definition oouts : list out := Eval vm_compute in match t_run 1 ohist newTrie with Ok (_, o) => o | _ => [] end.
Lemma ot_run : t_run 1 ohist newTrie = Ok (ot, oouts).
Proof. run. Qed.
Ltac dots := let d := fresh in let H := fresh in intros d H; unfold dotD in H; subst d; vm_compute; reflexivity || exact I.
Ltac plains := repeat (apply Forall_cons; [split; [reflexivity|dots]|]); try apply Forall_nil.
Lemma ohist_plain : plain_hist dotD ohist.
Proof. plains. Qed.
Lemma ot_plain : plain_reach dotD ot.
Proof. exact (plain_reach_hist dotD 0 ohist ot oouts ohist_plain ot_run). Qed.
Lemma ot_reached : reached ot.
Proof. exact (plain_reach_reached dotD ot ot_plain). Qed.
Lemma ot_vreach : vreach ot.
Proof. exists 1, ohist, oouts. split; [repeat constructor|exact ot_run]. Qed.
(** handlers: 1 on change, 2 on new (and a nil one), 3 on delete; the parent has 4 on new *)
Definition sPar : store := Sto h0 false [] [] [Some 4] [] None false true.
Definition s0 : store := Sto h0 false [] [Some 1] [None; Some 2] [Some 3] (Some sPar) false true.
Definition sLoad : store := set_loading s0 true.
Definition sApp : store := st_withPrefix s0 [s2b "app"%string].
Definition str0 : gval -> gostring := fun v => match v with GStr s => s | _ => [] end.
(** json.Unmarshal: no input is an error *)
Definition json0 : gostring -> option gmap * option lerr :=
  fun b => match b with [] => (None, Some (EOther 7)) | _ => (Some [], None) end.
Definition m0 : gmap :=
  [(s2b "x"%string, GInt 1); (s2b "y"%string, GMap [(s2b "z"%string, GInt 2); (s2b "u v"%string, GList [GInt 3])])].

(** ** C37: handlers called by Set and Remove *)
(** the exact calls: on-new for a key that is not found and, outside loading, has no data yet;
    otherwise on-change; every listener once, the path, the value and the old value as arguments *)
Theorem C37_set D rf s t path v :
  plain_reach D t -> D (hdelim (so_h s)) -> hmode (so_h s) <> ModeUp -> full (so_h s) path <> [] ->
  let old := old_at t (wkey (so_h s) path) in
  let user := negb (so_loading s) in
  exists t' id, st_Set (S rf) s t path v = Ok (t', id, old,
    if negb (known (hdelim (so_h s)) t (runes (full (so_h s) path))) && (so_loading s || gval_is_nil old)
    then map (fun i => ENew i path v user) (listeners so_new s)
    else map (fun i => EChange i path v old user) (listeners so_chg s)).
Proof. exact (@set_events D rf s t path v). Qed.
Print Assumptions C37_set.
Theorem C37_new D rf s t path v :
  plain_reach D t -> D (hdelim (so_h s)) -> hmode (so_h s) <> ModeUp ->
  full (so_h s) path <> [] -> blank_free (full (so_h s) path) ->
  t_get t (runes (full (so_h s) path)) = None -> t_get t (runes (full (so_h s) path) ++ [hdelim (so_h s)]) = None ->
  exists t' id, st_Set (S rf) s t path v =
    Ok (t', id, GNil, map (fun i => ENew i path v (negb (so_loading s))) (listeners so_new s)).
Proof. exact (@set_new D rf s t path v). Qed.
Print Assumptions C37_new.
Theorem C37_change D rf s t path v a :
  plain_reach D t -> D (hdelim (so_h s)) -> hmode (so_h s) <> ModeUp ->
  full (so_h s) path <> [] -> blank_free (full (so_h s) path) ->
  t_get t (runes (full (so_h s) path)) = Some a ->
  a_leaf a = true \/ (so_loading s = false /\ a_data a <> GNil) ->
  exists t' id, st_Set (S rf) s t path v =
    Ok (t', id, a_data a, map (fun i => EChange i path v (a_data a) (negb (so_loading s))) (listeners so_chg s)).
Proof. exact (@set_change D rf s t path v a). Qed.
Print Assumptions C37_change.
(** Remove: on-delete exactly when something goes, with the data of the key that goes *)
Theorem C37_remove D rf s t path :
  plain_reach D t -> D (hdelim (so_h s)) -> hmode (so_h s) <> ModeUp ->
  exists t', st_Remove (S rf) s t path =
    match target (hdelim (so_h s)) t (runes (full (so_h s) path)) with
    | Some k => Ok (t', true, map (fun i => EDelete i path (old_at t k) (negb (so_loading s))) (listeners so_del s))
    | None => Ok (t', false, [])
    end /\ Remove (S rf) (so_h s) t path =
      Ok (t', match target (hdelim (so_h s)) t (runes (full (so_h s) path)) with Some _ => true | None => false end).
Proof. exact (@remove_events D rf s t path). Qed.
Print Assumptions C37_remove.
(** a key that does not exist, but is the name of a branch, is reported as a change *)
Theorem C37_refuted : exists t' id, t_get ot (s2b "app.logging"%string) = None /\
  st_Set 1 s0 ot (s2b "app.logging"%string) (GInt 1) =
    Ok (t', id, GNil, [EChange 1 (s2b "app.logging"%string) (GInt 1) GNil true]).
Proof. do 2 eexists. split; [run|]. run. Qed.
Print Assumptions C37_refuted.
(** and a fork of the tree that was set to nil is new each time it is set *)
Theorem C37_refuted_again : exists t1 i1 t2 i2 old,
  st_Set 1 s0 ot (s2b "app.l"%string) GNil = Ok (t1, i1, GNil, [ENew 2 (s2b "app.l"%string) GNil true; ENew 4 (s2b "app.l"%string) GNil true]) /\
  st_Set 1 s0 t1 (s2b "app.l"%string) GNil = Ok (t2, i2, old, [ENew 2 (s2b "app.l"%string) GNil true; ENew 4 (s2b "app.l"%string) GNil true]).
Proof. do 5 eexists. split; [run|]. run. Qed.
Print Assumptions C37_refuted_again.
Example C37_case : exists t1 i1 t2 i2 t3,
  st_Set 1 s0 ot (s2b "new"%string) (GInt 1) =
    Ok (t1, i1, GNil, [ENew 2 (s2b "new"%string) (GInt 1) true; ENew 4 (s2b "new"%string) (GInt 1) true]) /\
  st_Set 1 s0 t1 (s2b "new"%string) (GInt 2) =
    Ok (t2, i2, GInt 1, [EChange 1 (s2b "new"%string) (GInt 2) (GInt 1) true]) /\
  st_Remove 1 s0 t2 (s2b "new"%string) = Ok (t3, true, [EDelete 3 (s2b "new"%string) (GInt 2) true]) /\
  plain_reach dotD ot /\ dotD (hdelim (so_h s0)) /\ hmode (so_h s0) <> ModeUp /\
  t_get ot (s2b "new"%string) = None /\ t_get ot (s2b "new."%string) = None /\
  (exists a, t_get ot (s2b "zoo"%string) = Some a /\ a_leaf a = true).
Proof.
  do 5 eexists. split; [run|]. split; [run|]. split; [run|]. split; [exact ot_plain|]. split; [reflexivity|].
  split; [discriminate|]. split; [run|]. split; [run|]. eexists. split; [run|]. run.
Qed.

(** ** C38: handlers, merges, loads and views *)
(** a view made by WithPrefix has no handlers: a Set through it calls none *)
Theorem C38_view_silent D rf s ps t path v :
  plain_reach D t -> D (hdelim (so_h s)) -> hmode (so_h s) <> ModeUp -> full (so_h (st_withPrefix s ps)) path <> [] ->
  exists t' id old, st_Set (S rf) (st_withPrefix s ps) t path v = Ok (t', id, old, []).
Proof. exact (@view_silent D rf s ps t path v). Qed.
Print Assumptions C38_view_silent.
(** Merge calls none, and Load only when the provider streams: see C40_merge, C44_read, C44_bytes *)
Theorem C38_merge_silent str s t p m t' e : reached t -> st_Merge str s t p m = Ok (t', e) -> e = [].
Proof.
  intros R E. destruct (merge_spec str s t p m R) as (t1 & E1 & _). rewrite E in E1. now injection E1 as _ ->.
Qed.
Print Assumptions C38_merge_silent.
(** the last argument, documented as mergingMapOrLoading, is true outside loading (C37_set) *)
Theorem C38_refuted : exists t' id,
  st_Set 1 s0 ot (s2b "new"%string) (GInt 1) =
    Ok (t', id, GNil, [ENew 2 (s2b "new"%string) (GInt 1) true; ENew 4 (s2b "new"%string) (GInt 1) true]).
Proof. do 2 eexists. run. Qed.
Print Assumptions C38_refuted.
Theorem C38_refuted_merge : exists t', st_Merge str0 s0 ot [] [(s2b "new"%string, GInt 1)] = Ok (t', []) /\
  old_at t' (s2b "new"%string) = GInt 1.
Proof. eexists. split; [run|]. run. Qed.
Print Assumptions C38_refuted_merge.
Theorem C38_refuted_view : exists t' id, st_Set 1 sApp ot (s2b "new"%string) (GInt 1) = Ok (t', id, GNil, []) /\
  old_at t' (s2b "app.new"%string) = GInt 1.
Proof. do 2 eexists. split; [run|]. run. Qed.
Print Assumptions C38_refuted_view.
Example C38_case : listeners so_new s0 = [2; 4] /\ listeners so_chg s0 = [1] /\ listeners so_del s0 = [3] /\
  full (so_h sApp) (s2b "new"%string) = s2b "app.new"%string.
Proof. repeat split; run. Qed.

(** ** C39: the modified mark *)
(** after any Sets through any handles: the keys written outside loading, and those marked before *)
Theorem C39_sets rf l : forall t t' e, reached t -> st_sets rf l t = Ok (t', e) ->
  forall k, mod_at t' k =
    (mod_at t k || existsb (fun x => negb (so_loading (fst (fst x))) && str_eqb (wkey (so_h (fst (fst x))) (snd (fst x))) k) l).
Proof. exact (@sets_modified rf l). Qed.
Print Assumptions C39_sets.
(** Remove leaves the marks of all keys that stay *)
Theorem C39_remove D rf s t path :
  plain_reach D t -> D (hdelim (so_h s)) -> hmode (so_h s) <> ModeUp ->
  exists t' b e, st_Remove (S rf) s t path = Ok (t', b, e) /\
    forall k, t_get t' k <> None -> mod_at t' k = mod_at t k.
Proof. exact (@remove_modified D rf s t path). Qed.
Print Assumptions C39_remove.
Example C39_case : exists t' e,
  st_sets 1 [(s0, s2b "a.b"%string, GInt 1); (sLoad, s2b "a.c"%string, GInt 2); (sLoad, s2b "a.b"%string, GInt 3)] ot = Ok (t', e) /\
  mod_at t' (s2b "a.b"%string) = true /\ mod_at t' (s2b "a.c"%string) = false /\ mod_at t' (s2b "a."%string) = false /\
  t_get t' (s2b "a."%string) <> None.
Proof. do 2 eexists. split; [run|]. repeat (split; [run|]). try run. vm_compute. discriminate. Qed.

(** ** C40: Merge of nested maps *)
(** any map, any position, flattening or not: all scalars are stored under their keys joined below
    the position, the rest stays; no handler is called; the keys are marked unless loading *)
Theorem C40_merge str s t p m :
  reached t ->
  let L := map (placed (hdelim (so_h s)) p) (leaves str (so_flat s) (hdelim (so_h s)) m) in
  exists t', st_Merge str s t p m = Ok (t', []) /\ reached t' /\
    (forall k, match assoc_last L k None with
               | Some v => exists a, t_get t' k = Some a /\ a_data a = v /\ a_has a = true
               | None => match t_get t k with
                         | Some a => t_get t' k = Some a
                         | None => t_get t' k = None \/ t_get t' k = Some (bare false false GNil)
                         end
               end) /\
    (forall k, mod_at t' k = (mod_at t k || negb (so_loading s) && existsb (fun e => str_eqb (fst e) k) L)).
Proof. exact (@merge_spec str s t p m). Qed.
Print Assumptions C40_merge.
(** and can be read back, through any handle, at any path that leads to the key *)
Theorem C40_read D rf str s t p m h q e :
  plain_reach D t -> D (hdelim (so_h s)) -> D (hdelim h) ->
  let L := map (placed (hdelim (so_h s)) p) (leaves str (so_flat s) (hdelim (so_h s)) m) in
  (forall x d, In x L -> D d -> plain d (fst x)) -> NoDup (map fst L) ->
  In e (leaves str (so_flat s) (hdelim (so_h s)) m) ->
  runes (full h q) = fst (placed (hdelim (so_h s)) p e) ->
  exists t' r, st_Merge str s t p m = Ok (t', []) /\ plain_reach D t' /\
    Query (S rf) h t' q = Ok r /\ q_data r = snd e /\ st_MustGet (S rf) (Sto h false [] [] [] [] None false false) t' q = Ok (snd e).
Proof. exact (@merge_read D rf str s t p m h q e). Qed.
Print Assumptions C40_read.
(** the order in which Go iterates over the maps, at all levels, does not matter *)
Theorem C40_order str s t p m m' t1 t2 :
  reached t -> same_val (GMap m) (GMap m') ->
  NoDup (map fst (map (placed (hdelim (so_h s)) p) (leaves str (so_flat s) (hdelim (so_h s)) m))) ->
  st_Merge str s t p m = Ok (t1, []) -> st_Merge str s t p m' = Ok (t2, []) ->
  forall k, old_at t1 k = old_at t2 k /\ mod_at t1 k = mod_at t2 k.
Proof. exact (@merge_order str s t p m m' t1 t2). Qed.
Print Assumptions C40_order.
(** but the prefix of the store is ignored: what a view merges at "x" is at "x", not at "app.x" *)
Theorem C40_refuted : exists t', st_Merge str0 sApp ot [] [(s2b "x"%string, GInt 1)] = Ok (t', []) /\
  st_MustGet 1 sApp t' (s2b "x"%string) = Ok GNil /\ st_MustGet 1 s0 t' (s2b "x"%string) = Ok (GInt 1).
Proof. eexists. repeat (split; [run|]). run. Qed.
Print Assumptions C40_refuted.
Example C40_case : exists t', st_Merge str0 s0 ot (s2b "app"%string) m0 = Ok (t', []) /\
  leaves str0 false 46%N m0 = [([s2b "x"%string], GInt 1); ([s2b "y"%string; s2b "z"%string], GInt 2);
                              ([s2b "y"%string; s2b "u v"%string], GList [GInt 3])] /\
  st_MustGet 1 s0 t' (s2b "app.y.z"%string) = Ok (GInt 2) /\ st_MustGet 1 s0 t' (s2b "app.y.u-v"%string) = Ok (GList [GInt 3]) /\
  st_MustGet 1 s0 t' (s2b "app.level"%string) = Ok (GInt 2) /\
  same_val (GMap m0) (GMap [(s2b "y"%string, GMap [(s2b "u v"%string, GList [GInt 3]); (s2b "z"%string, GInt 2)]); (s2b "x"%string, GInt 1)]) /\
  NoDup (map fst (map (placed 46%N (s2b "app"%string)) (leaves str0 false 46%N m0))).
Proof.
  eexists. split; [run|]. split; [run|]. split; [run|]. split; [run|]. split; [run|]. split.
  - eapply sv_trans.
    + apply (sv_in [(s2b "x"%string, GInt 1)] _ _ (GMap [(s2b "u v"%string, GList [GInt 3]); (s2b "z"%string, GInt 2)]) []).
      apply sv_perm, perm_swap.
    + apply sv_perm, perm_swap.
  - vm_compute. repeat constructor; cbn; intuition discriminate.
Qed.

(** ** C41: Merge of the trie *)
(** any map at all: a nil in it is a panic, otherwise each value that is neither a map nor a slice is
    written to its [place], in order, and nothing else changes *)
Theorem C41_exact h t p m :
  reached t ->
  let L := map (fun x => (runes (replace_byte 32 45 (fst x)), snd x)) (places (hdelim h) (Join (hdelim h) [hprefix h; p]) m) in
  if existsb (fun x => is_GNil (snd x)) L then Merge h t p m = Panic
  else exists t', Merge h t p m = Ok t' /\ reached t' /\
    forall k, match assoc_last L k None with
               | Some v => exists a, t_get t' k = Some a /\ a_data a = v /\ a_has a = true
               | None => match t_get t k with
                         | Some a => t_get t' k = Some a
                         | None => t_get t' k = None \/ t_get t' k = Some (bare false false GNil)
                         end
               end.
Proof. exact (@tmerge_places h t p m). Qed.
Print Assumptions C41_exact.
(** the place is where the value [belongs], if below a prefix or a map only slices of maps are
    entered, no maps and no slices *)
Theorem C41_right d w b q k :
  (b = true -> q = []) -> right b w = true -> place d q k w = Join d [q; belongs d k w].
Proof. exact (@place_right d w b q k). Qed.
Print Assumptions C41_right.
(** maps of maps of scalars: exact result; [tkey] drops all keys but the last two *)
Theorem C41_nested str h t p m :
  reached t -> forallb (fun e => maps_only (snd e)) m = true ->
  let L := map (fun e => (runes (replace_byte 32 45 (tkey h p (fst e))), snd e)) (leaves str false (hdelim h) m) in
  exists t', Merge h t p m = Ok t' /\ reached t' /\
    forall k, match assoc_last L k None with
               | Some v => exists a, t_get t' k = Some a /\ a_data a = v /\ a_has a = true
               | None => match t_get t k with
                         | Some a => t_get t' k = Some a
                         | None => t_get t' k = None \/ t_get t' k = Some (bare false false GNil)
                         end
               end.
Proof. exact (@tmerge_spec str h t p m). Qed.
Print Assumptions C41_nested.
(** a map without maps in it is stored below the prefix and the position *)
Theorem C41_flat h t p m :
  reached t -> forallb (fun e => maps_only (snd e) && negb match snd e with GMap _ => true | _ => false end) m = true ->
  let L := map (fun e => (runes (replace_byte 32 45 (Join (hdelim h) [hprefix h; p; fst e])), snd e)) m in
  exists t', Merge h t p m = Ok t' /\ reached t' /\
    forall k, match assoc_last L k None with
               | Some v => exists a, t_get t' k = Some a /\ a_data a = v /\ a_has a = true
               | None => match t_get t k with
                         | Some a => t_get t' k = Some a
                         | None => t_get t' k = None \/ t_get t' k = Some (bare false false GNil)
                         end
               end.
Proof. exact (@tmerge_flat h t p m). Qed.
Print Assumptions C41_flat.
Theorem C41_refuted : exists t', Merge h0 ot (s2b "app"%string) [(s2b "y"%string, GMap [(s2b "z"%string, GInt 2)])] = Ok t' /\
  old_at t' (s2b "app.y.z"%string) = GNil /\ old_at t' (s2b "y.z"%string) = GInt 2.
Proof. eexists. repeat (split; [run|]). run. Qed.
Print Assumptions C41_refuted.
(** a slice below a prefix is stored with the prefix twice *)
Theorem C41_refuted_slice : exists t', Merge h0 ot (s2b "app"%string) [(s2b "l"%string, GList [GInt 5])] = Ok t' /\
  old_at t' (s2b "app.l.0"%string) = GNil /\ old_at t' (s2b "app.app.l.0"%string) = GInt 5.
Proof. eexists. repeat (split; [run|]). run. Qed.
Print Assumptions C41_refuted_slice.
(** a nil value is a panic *)
Theorem C41_refuted_nil : Merge h0 ot [] [(s2b "x"%string, GNil)] = Panic.
Proof. run. Qed.
Print Assumptions C41_refuted_nil.
Example C41_case : exists t', Merge hApp ot (s2b "q"%string) [(s2b "x"%string, GInt 1); (s2b "y z"%string, GInt 2)] = Ok t' /\
  old_at t' (s2b "app.q.x"%string) = GInt 1 /\ old_at t' (s2b "app.q.y-z"%string) = GInt 2 /\
  forallb (fun e => maps_only (snd e)) [(s2b "x"%string, GInt 1); (s2b "y z"%string, GMap [(s2b "y"%string, GInt 2)])] = true.
Proof. eexists. repeat (split; [run|]). run. Qed.

Example C41_exact_case : exists t', Merge h0 ot [] [(s2b "l"%string, GList [GInt 5; GMaps [[(s2b "z"%string, GInt 7)]]]);
    (s2b "m"%string, GMaps [[(s2b "a"%string, GInt 1)]; [(s2b "b"%string, GMaps [[(s2b "c"%string, GInt 2)]])]])] = Ok t' /\
  old_at t' (s2b "l.0"%string) = GInt 5 /\ old_at t' (s2b "l.1.0.z"%string) = GInt 7 /\
  old_at t' (s2b "m.0.a"%string) = GInt 1 /\ old_at t' (s2b "m.1.b.0.c"%string) = GInt 2 /\
  right true [InList 1; InMaps 0 (s2b "z"%string)] = true /\ right true [InMaps 1 (s2b "b"%string); InMaps 0 (s2b "c"%string)] = true.
Proof. eexists. repeat (split; [run|]). run. Qed.

(** ** C42: the loading state *)
(** any number of goroutines, programs and stores, any schedule: at most one body at a time on a
    store, and the store is loading exactly while it runs *)
Theorem C42_exclusive n ps l h : h < n ->
  let s := fst (sched l (start n ps)) in running h (ths s) <= 1 /\ (fl s h = true <-> running h (ths s) = 1).
Proof. exact (@loading_exclusive n ps l h). Qed.
Print Assumptions C42_exclusive.
(** the step that ends a body, by return or panic, takes the store out of loading *)
Theorem C42_released n ps l i h r :
  h < n -> let s := fst (sched l (start n ps)) in
  (exists t, nth_error (ths s) i = Some t /\ th_todo t = Rel h :: r) ->
  exists s', step i s = Some (s', []) /\ fl s' h = false /\ running h (ths s') = 0.
Proof. exact (@loading_released n ps l i h r). Qed.
Print Assumptions C42_released.
Theorem C42_done n ps l h : h < n ->
  let s := fst (sched l (start n ps)) in
  (forall t, In t (ths s) -> th_todo t = []) -> fl s h = false.
Proof. exact (@loading_done n ps l h). Qed.
Print Assumptions C42_done.
Theorem C42_no_deadlock i s t : nth_error (ths s) i = Some t -> th_todo t <> [] -> exists s' e, step i s = Some (s', e).
Proof. exact (@loading_no_deadlock i s t). Qed.
Print Assumptions C42_no_deadlock.
(** a call that finds the store loading is skipped without any sign, otherwise its body starts *)
Theorem C42_skipped i f nx h b r : f h = true ->
  step1 i f nx (Thr false (Do (Within h b) :: r)) = Some (f, nx, Thr false r, []).
Proof. exact (@loading_skipped i f nx h b r). Qed.
Print Assumptions C42_skipped.
Theorem C42_entered i f nx h b r : f h = false ->
  step1 i f nx (Thr false (Do (Within h b) :: r)) =
    Some (fset f h true, nx, Thr false (map Do b ++ Rel h :: r), []).
Proof. exact (@loading_entered i f nx h b r). Qed.
Print Assumptions C42_entered.
(** Load, called by one goroutine, leaves the state as it was *)
Theorem C42_load (str : gval -> gostring) (json : gostring -> option gmap * option lerr) s t os r :
  Load str json s t os = Ok r -> so_loading (lr_s r) = so_loading s.
Proof. exact (@load_released str json s t os r). Qed.
Print Assumptions C42_load.
(** the state is per handle: a view of the same tree can be loading at the same time *)
Theorem C42_refuted_views : exists l,
  let s := fst (sched l (start 2 [[Within 0 [Act 0 1]]; [Within 1 [Act 1 2]]])) in
  running 0 (ths s) = 1 /\ running 1 (ths s) = 1.
Proof. exists [0; 1]. split; run. Qed.
Print Assumptions C42_refuted_views.
(** a view made while loading stays in loading state for ever *)
Theorem C42_refuted_stuck : exists l,
  let s := fst (sched l (start 1 [[Within 0 [Dup 0]]])) in
  (forall t, In t (ths s) -> th_todo t = []) /\ fl s 0 = false /\ fl s 1 = true.
Proof. exists [0; 0; 0]. split; [|split; run]. intros t H. vm_compute in H. destruct H as [<-|[]]. reflexivity. Qed.
Print Assumptions C42_refuted_stuck.
(** a goroutine that is not loading itself, sees the state of another one: its writes are not marked *)
Theorem C42_refuted_seen : exists l,
  In (Saw 1 0 2 true) (snd (sched l (start 1 [[Within 0 [Act 0 1]]; [Act 0 2]]))).
Proof. exists [0; 1]. vm_compute. auto. Qed.
Print Assumptions C42_refuted_seen.
(** a body that panics, a nested one and one of another goroutine that are skipped *)
Example C42_case : let r := sched [0; 0; 1; 0; 0; 0; 0; 0; 1; 0; 0]
    (start 1 [[Try [Within 0 [Act 0 1; Within 0 [Act 0 9]; Throw; Act 0 8]]; Act 0 3]; [Within 0 [Act 0 2]; Act 0 4]]) in
  snd r = [Saw 0 0 1 true; Saw 1 0 4 false; Saw 0 0 3 false] /\ fl (fst r) 0 = false.
Proof. split; run. Qed.

(** ** C43: metadata of a provider *)
(** a load leaves description, comment and tag of every key as they are: those delivered are lost *)
Theorem C43_untouched_partial str json s t os pv d :
  reached t -> so_loading s = false -> ld_pv (the_loader s os) = Some pv -> pv_read pv = (Some d, None) ->
  exists r, Load str json s t os = Ok r /\ lr_err r = None /\ forall k, meta_at (lr_t r) k = meta_at t k.
Proof.
  intros R L P E. destruct (load_read str json s t os pv d R L P E) as (r & H1 & H2 & _ & _ & _ & _ & _ & H3). eauto.
Qed.
Print Assumptions C43_untouched_partial.
Definition pDesc : provider :=
  Prov (Some [(s2b "k"%string, Pkg (GInt 1) (s2b "desc"%string) (s2b "cmt"%string) (GInt 9))], None) None None None (Some 5).
Theorem C43_refuted : exists r, Load str0 json0 s0 ot [LProvider pDesc] = Ok r /\
  old_at (lr_t r) (s2b "k"%string) = GInt 1 /\ meta_at (lr_t r) (s2b "k"%string) = ([], [], GNil).
Proof. eexists. repeat (split; [run|]). run. Qed.
Print Assumptions C43_refuted.
Example C43_case : ld_pv (the_loader s0 [LProvider pDesc]) = Some pDesc /\ so_loading s0 = false /\ reached ot.
Proof. split; [run|]. split; [run|]. exact ot_reached. Qed.

(** ** C44: where Load takes its data from *)
(** [the_loader s os]: the loader made of the store and the options *)
(** which provider, decoder, place and flags [the_loader] has *)
Theorem C44_options (json : gostring -> option gmap * option lerr) s os : let l := the_loader s os in
  ld_pv l = last_opt opt_provider os /\
  decoder json l = (match last_opt opt_codec os with
                    | Some c => c
                    | None => match last_opt opt_provider os with
                              | Some p => match pv_codec p with Some c => c | None => json end
                              | None => json
                              end
                    end) /\
  hprefix (so_h (ld_s l)) = match last_opt opt_prefix os with Some p => Join (hdelim (so_h s)) [p] | None => hprefix (so_h s) end /\
  hdelim (so_h (ld_s l)) = hdelim (so_h s) /\
  so_flat (ld_s l) = pick (last_opt opt_flat os) (so_flat s) /\
  ld_nowatch l = pick (last_opt opt_nowatch os) false.
Proof. exact (@loader_options json s os). Qed.
Print Assumptions C44_options.
Theorem C44_read (str : gval -> gostring) (json : gostring -> option gmap * option lerr) s t os pv d :
  reached t -> so_loading s = false -> ld_pv (the_loader s os) = Some pv -> pv_read pv = (Some d, None) ->
  exists r, Load str json s t os = Ok r /\ lr_err r = None /\ lr_ev r = [] /\ so_loading (lr_s r) = false /\ lr_wr r <> None /\
    holds_after (lplaces str (ld_s (the_loader s os)) (values d)) t (lr_t r) /\
    (forall k, mod_at (lr_t r) k = mod_at t k) /\ (forall k, meta_at (lr_t r) k = meta_at t k).
Proof. exact (@load_read str json s t os pv d). Qed.
Print Assumptions C44_read.
Theorem C44_error (str : gval -> gostring) (json : gostring -> option gmap * option lerr) s t os pv d n :
  so_loading s = false -> ld_pv (the_loader s os) = Some pv -> pv_read pv = (d, Some (EOther n)) ->
  exists r, Load str json s t os = Ok r /\ lr_err r = Some (EOther n) /\ lr_ev r = [] /\ lr_t r = t /\
    lr_wr r = None /\ so_loading (lr_s r) = false.
Proof. exact (@load_error str json s t os pv d n). Qed.
Print Assumptions C44_error.
Theorem C44_once_error (str : gval -> gostring) (json : gostring -> option gmap * option lerr) s t os pv b e :
  so_loading s = false -> ld_pv (the_loader s os) = Some pv -> pv_read pv = (None, Some ENotImpl) ->
  pv_once pv = Some (b, Some e) ->
  exists r, Load str json s t os = Ok r /\ lr_err r = Some e /\ lr_ev r = [] /\ lr_t r = t /\
    lr_wr r = None /\ so_loading (lr_s r) = false.
Proof. exact (@load_once_error str json s t os pv b e). Qed.
Print Assumptions C44_once_error.
Theorem C44_codec_error (str : gval -> gostring) (json : gostring -> option gmap * option lerr) s t os pv b m e :
  so_loading s = false -> ld_pv (the_loader s os) = Some pv -> pv_read pv = (None, Some ENotImpl) ->
  pv_once pv = Some (b, None) -> decoder json (the_loader s os) b = (m, Some e) ->
  exists r, Load str json s t os = Ok r /\ lr_err r = Some e /\ lr_ev r = [] /\ lr_t r = t /\
    lr_wr r = None /\ so_loading (lr_s r) = false.
Proof. exact (@load_codec_error str json s t os pv b m e). Qed.
Print Assumptions C44_codec_error.
Theorem C44_bytes (str : gval -> gostring) (json : gostring -> option gmap * option lerr) s t os pv b m :
  reached t -> so_loading s = false -> ld_pv (the_loader s os) = Some pv -> pv_read pv = (None, Some ENotImpl) ->
  pv_once pv = Some (b, None) -> decoder json (the_loader s os) b = (Some m, None) ->
  exists r, Load str json s t os = Ok r /\ lr_err r = None /\ lr_ev r = [] /\ so_loading (lr_s r) = false /\ lr_wr r <> None /\
    holds_after (lplaces str (ld_s (the_loader s os)) m) t (lr_t r) /\
    (forall k, mod_at (lr_t r) k = mod_at t k) /\ (forall k, meta_at (lr_t r) k = meta_at t k).
Proof. exact (@load_bytes str json s t os pv b m). Qed.
Print Assumptions C44_bytes.
(** streaming: all pairs are stored, then no bytes at all are decoded, and that decides the error *)
Theorem C44_stream_partial (str : gval -> gostring) (json : gostring -> option gmap * option lerr) s t os pv kvs :
  reached t -> so_loading s = false -> ld_pv (the_loader s os) = Some pv -> pv_read pv = (None, Some ENotImpl) ->
  pv_once pv = None -> pv_stream pv = Some kvs -> fst (decoder json (the_loader s os) []) = None ->
  exists r, Load str json s t os = Ok r /\ lr_err r = snd (decoder json (the_loader s os) []) /\
    so_loading (lr_s r) = false /\ lr_wr r = None /\
    holds_after (map (skv (so_h (ld_s (the_loader s os)))) kvs) t (lr_t r) /\
    (forall k, mod_at (lr_t r) k = mod_at t k) /\ (forall k, meta_at (lr_t r) k = meta_at t k).
Proof. exact (@load_stream str json s t os pv kvs). Qed.
Print Assumptions C44_stream_partial.
Definition pStream : provider :=
  Prov (None, Some ENotImpl) None (Some [(s2b "a"%string, GInt 1); (s2b "b"%string, GInt 2)]) None None.
Theorem C44_refuted : exists r, Load str0 json0 s0 ot [LProvider pStream] = Ok r /\
  lr_err r = Some (EOther 7) /\ old_at (lr_t r) (s2b "b"%string) = GInt 2 /\
  lr_ev r = [ENew 2 (s2b "a"%string) (GInt 1) false; ENew 4 (s2b "a"%string) (GInt 1) false;
             ENew 2 (s2b "b"%string) (GInt 2) false; ENew 4 (s2b "b"%string) (GInt 2) false].
Proof. eexists. repeat (split; [run|]). run. Qed.
Print Assumptions C44_refuted.
Definition pBytes : provider :=
  Prov (None, Some ENotImpl) (Some (s2b "{}"%string, None)) None None None.
Definition codec0 : gostring -> option gmap * option lerr := fun _ => (Some m0, None).
Example C44_case : exists r, Load str0 json0 s0 ot [LProvider pBytes; LCodec codec0; LStorePrefix (s2b "app"%string); LFlat true] = Ok r /\
  lr_err r = None /\ old_at (lr_t r) (s2b "app.y.u-v.0"%string) = GInt 3 /\ old_at (lr_t r) (s2b "app.x"%string) = GInt 1.
Proof. eexists. repeat (split; [run|]). run. Qed.
Definition pOwn : provider := Prov (None, Some ENotImpl) (Some (s2b "{}"%string, None)) None (Some codec0) None.
Example C44_case_own : exists r, Load str0 json0 s0 ot [LProvider pBytes; LProvider pOwn] = Ok r /\ lr_err r = None /\
  old_at (lr_t r) (s2b "x"%string) = GInt 1.
Proof. eexists. repeat (split; [run|]). run. Qed.

(** ** C45: Save *)
(** what is written back: exactly the exported keys marked modified, as a nested map *)
Theorem C45_save rf order ld t c pv :
  vreach t -> ld_codec ld = Some c -> ld_pv ld = Some pv -> hprefix (so_h (ld_s ld)) = [] ->
  exists m, flat_of (fun s v => exists a, exports (hdelim (so_h (ld_s ld))) t s v a /\ a_mod a = true) m /\
    trySave rf order ld t = Ok (match splitCompactKeys (hdelim (so_h (ld_s ld))) (order m) with
                                | [] => None | x :: r => Some (x :: r) end).
Proof. exact (@save_exact rf order ld t c pv). Qed.
Print Assumptions C45_save.
Theorem C45_nothing rf order ld t :
  ld_codec ld = None \/ ld_pv ld = None -> trySave rf order ld t = Ok None.
Proof. exact (@save_nothing rf order ld t). Qed.
Print Assumptions C45_nothing.
(** so an entry that was loaded and not changed is not in the file any more *)
Definition pTwo : provider := Prov (None, Some ENotImpl) (Some (s2b "{}"%string, None)) None None None.
Definition codec2 : gostring -> option gmap * option lerr :=
  fun _ => (Some [(s2b "a"%string, GInt 1); (s2b "b"%string, GInt 2)], None).
Theorem C45_refuted : exists r w t' id old e, Load str0 json0 s0 newTrie [LProvider pTwo; LCodec codec2] = Ok r /\
  lr_wr r = Some w /\ old_at (lr_t r) (s2b "b"%string) = GInt 2 /\
  st_Set 1 (lr_s r) (lr_t r) (s2b "a"%string) (GInt 3) = Ok (t', id, old, e) /\
  trySave 1 (fun m => m) w t' = Ok (Some [(s2b "a"%string, GInt 3)]).
Proof. do 6 eexists. split; [run|]. split; [run|]. split; [run|]. split; [run|]. run. Qed.
Print Assumptions C45_refuted.
Definition wTwo : loader := Ldr s0 None (Some pTwo) (Some codec2) false.
Example C45_case : vreach ot /\ ld_codec wTwo = Some codec2 /\ ld_pv wTwo = Some pTwo /\ hprefix (so_h (ld_s wTwo)) = [] /\
  trySave 1 (fun m => m) wTwo ot = Ok None.
Proof. split; [exact ot_vreach|]. repeat split; run. Qed.

(** ** C54: changes from outside *)
Theorem C54_set rf s c t :
  reached t -> c_create c = true \/ c_write c = true ->
  exists t' e, applyExternalChanges rf s (EvPtr c) false t = Ok (t', e) /\ reached t' /\
    holds_after (map (skv (so_h s)) (c_pairs c)) t t' /\
    (so_loading s = false -> forall k, mod_at t' k = (mod_at t k || existsb (fun x => str_eqb (fst x) k) (map (skv (so_h s)) (c_pairs c)))).
Proof. exact (@change_sets rf s c t). Qed.
Print Assumptions C54_set.
Theorem C54_remove D rf s c t :
  plain_reach D t -> D (hdelim (so_h s)) -> hmode (so_h s) <> ModeUp ->
  c_create c = false -> c_write c = false -> c_remove c = true ->
  exists t' e, applyExternalChanges (S rf) s (EvPtr c) false t = Ok (t', e) /\ plain_reach D t' /\
    removals (hdelim (so_h s)) (map (fun kv => runes (full (so_h s) (fst kv))) (c_pairs c)) t (eq t').
Proof. exact (@change_removes D rf s c t). Qed.
Print Assumptions C54_remove.
Theorem C54_none rf s c t :
  c_create c = false -> c_write c = false -> c_remove c = false ->
  applyExternalChanges rf s (EvPtr c) false t = Ok (t, []).
Proof. exact (@change_none rf s c t). Qed.
Print Assumptions C54_none.
(** an event of the file provider is no Change: it is dropped *)
Definition cFile : change := Chg false true false [(s2b "x.yaml"%string, GStr (s2b "x.yaml"%string))].
Theorem C54_refuted : c_write cFile = true /\
  applyExternalChanges 1 s0 (file_event cFile) false ot = Ok (ot, []) /\ old_at ot (s2b "x.yaml"%string) = GNil.
Proof. repeat split; run. Qed.
Print Assumptions C54_refuted.
Example C54_case : exists t' e t'' e'',
  applyExternalChanges 1 s0 (EvPtr (Chg false true false [(s2b "a"%string, GInt 1)])) false ot = Ok (t', e) /\
  old_at t' (s2b "a"%string) = GInt 1 /\
  applyExternalChanges 1 s0 (EvPtr (Chg false false true [(s2b "a"%string, GNil); (s2b "zoo"%string, GNil)])) false t' = Ok (t'', e'') /\
  t_get t'' (s2b "zoo"%string) = None /\ plain_reach dotD ot.
Proof. do 4 eexists. split; [run|]. split; [run|]. split; [run|]. split; [run|]. exact ot_plain. Qed.

(** ** C55: Close *)
(** without a prefix: the closers before, and the provider's if its data was loaded and watching is on *)
Theorem C55_close (str : gval -> gostring) (json : gostring -> option gmap * option lerr) s t os r :
  so_loading s = false -> no_prefix os -> Load str json s t os = Ok r ->
  st_Close (lr_s r) = st_Close s ++ watched s (the_loader s os) r.
Proof. exact (@load_closers str json s t os r). Qed.
Print Assumptions C55_close.
(** with WithStorePrefix the closer goes to a copy of the store *)
Theorem C55_prefix_partial (str : gval -> gostring) (json : gostring -> option gmap * option lerr) s t os p os' r :
  so_loading s = false -> os = LStorePrefix p :: os' -> no_prefix os' ->
  Load str json s t os = Ok r -> st_Close (lr_s r) = st_Close s.
Proof. exact (@load_prefix_closers str json s t os p os' r). Qed.
Print Assumptions C55_prefix_partial.
Theorem C55_refuted : exists r w, Load str0 json0 s0 ot [LProvider pDesc; LStorePrefix (s2b "app"%string)] = Ok r /\
  lr_wr r = Some w /\ st_Close (ld_s w) = [5] /\ st_Close (lr_s r) = [].
Proof. do 2 eexists. repeat (split; [run|]). run. Qed.
Print Assumptions C55_refuted.
Example C55_case : exists r, Load str0 json0 s0 ot [LProvider pDesc] = Ok r /\ st_Close (lr_s r) = [5] /\
  so_loading s0 = false /\ no_prefix [LProvider pDesc].
Proof. eexists. repeat (split; [run|]). try run. repeat constructor. Qed.
