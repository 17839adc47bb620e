(** The properties of exports, typed getters and size strings (C28-C33): only statements.

    [vreach t]: [t] is reached by calls that store valid UTF-8 keys only; [plain_reach D t]: by
    calls with delimiters in [D] that store no route patterns.  [exports d t s v a]: the key [s]
    is a leaf, does not end with the delimiter [d], has the value [v] and the attributes [a].
    [root_name path]: "", "." or "(root)".  [mget m s]: the binding of [s] in the Go map [m].  [nget v ks]: the value at the path [ks] of
    keys in nested maps.  A result [Panic] is a Go panic. *)
From Coq Require Import String.
From Coq Require Import List NArith ZArith Bool Arith Lia Permutation.
From Verif Require Import GoStr Utf8 Node NodeWf InsertProofs MatchProofs Trie Spec Refine ApiRefine Reach Derived Derived2 Derived3
  Derived4 Dur Cvter Nested CvterProofs Export SizeProofs Getters GetterProofs.
Import ListNotations.
Open Scope nat_scope.
Open Scope list_scope.

Ltac run := vm_compute; reflexivity.

(** a store to show that hypotheses can be met *)
Definition dotD : rune -> Prop := fun c => c = 46%N.
Definition h0 : hdl := defaultHdl.
Definition hApp : hdl := withPrefix defaultHdl [s2b "app"%string].
Definition ohist : list (hdl * op) :=
  [(h0, OSet (s2b "app.logging.file"%string) (GStr (s2b "x.log"%string)));
   (h0, OSet (s2b "app.logging.rotate"%string) (GInt 6));
   (h0, OSet (s2b "app.level"%string) (GInt 2));
   (h0, OSet (s2b "zoo"%string) (GInt 3))].
Definition ot : tr := Eval vm_compute in match t_run 1 ohist newTrie with Ok (t, _) => t | _ => newTrie end.
Definition oouts : list out := Eval vm_compute in match t_run 1 ohist newTrie with Ok (_, o) => o | _ => [] end.
Lemma ot_run : t_run 1 ohist newTrie = Ok (ot, oouts).
Proof. run. Qed.
Ltac dots := let d := fresh in let H := fresh in intros d H; unfold dotD in H; subst d; vm_compute; reflexivity || exact I.
Ltac plains := repeat (apply Forall_cons; [split; [reflexivity|dots]|]); try apply Forall_nil.
Lemma ohist_plain : plain_hist dotD ohist.
Proof. plains. Qed.
Lemma ot_plain : plain_reach dotD ot.
Proof. exact (plain_reach_hist dotD 0 ohist ot oouts ohist_plain ot_run). Qed.
Lemma ot_vreach : vreach ot.
Proof. exists 1, ohist, oouts. split; [repeat constructor|exact ot_run]. Qed.
Lemma new_vreach : vreach newTrie.
Proof. exists 1, [], []. split; [constructor|reflexivity]. Qed.
Definition all_pass : gostring -> attr -> bool := fun _ _ => true.
Lemma no_filter : filter_by no_opts all_pass.
Proof. intros n. reflexivity. Qed.
Definition id_order : gmap -> gmap := fun m => m.
(** the keys of the store *)
Lemma ot_get k a : t_get ot k = Some a -> In (k, a) (entries ot).
Proof. intros H. now apply sget_in. Qed.
Ltac cases_of H := apply ot_get in H; vm_compute in H;
  repeat (destruct H as [H|H]; [injection H as ? ?; subst|]); try destruct H.

(** ** C28: GetR *)
(** the whole store: exactly the exported keys *)
Theorem C28_root rf h t path defs :
  vreach t -> root_name path ->
  exists m, GetR rf h t path defs = Ok (Some m) /\
    forall s v, mget m s = Some v <-> exists a, exports (hdelim h) t s v a.
Proof. exact (@getR_root rf h t path defs). Qed.
Print Assumptions C28_root.
(** any other path, through any view: the exported keys below the key the search leads to; the
    last default if it misses; a panic if it gets stuck at the root *)
Theorem C28_path D rf h t path defs :
  plain_reach D t -> vreach t -> D (hdelim h) -> ~ root_name path ->
  match s_search (hdelim h) (is_up h) (entries t) (full h path) with
  | SPart [] => GetR (S rf) h t path defs = Panic
  | SFound k0 | SPart k0 => exists m, GetR (S rf) h t path defs = Ok (Some m) /\ restricts (hdelim h) t k0 m
  | SMiss => GetR (S rf) h t path defs = Ok (last defs None)
  end.
Proof. exact (@getR_path D rf h t path defs). Qed.
Print Assumptions C28_path.
(** a present key: the exported keys it begins *)
Theorem C28_present D rf h t path defs a :
  plain_reach D t -> vreach t -> D (hdelim h) -> ~ root_name path ->
  t_get t (runes (full h path)) = Some a ->
  exists m, GetR (S rf) h t path defs = Ok (Some m) /\ restricts (hdelim h) t (runes (full h path)) m.
Proof. exact (@getR_present D rf h t path defs a). Qed.
Print Assumptions C28_present.
(** a path without any relation to a key: the last default *)
Theorem C28_absent D rf h t path defs :
  plain_reach D t -> vreach t -> D (hdelim h) -> ~ root_name path -> hmode h <> ModeUp ->
  full h path <> [] ->
  (forall k a, t_get t k = Some a -> k <> [] -> ~ prefix k (runes (full h path)) /\ ~ prefix (runes (full h path)) k) ->
  (exists k a, t_get t k = Some a /\ k <> []) ->
  GetR (S rf) h t path defs = Ok (last defs None).
Proof. exact (@getR_absent D rf h t path defs). Qed.
Print Assumptions C28_absent.
(** no panic unless the store is empty *)
Theorem C28_no_panic D rf h t path defs k a :
  plain_reach D t -> vreach t -> D (hdelim h) -> t_get t k = Some a -> k <> [] ->
  exists m, GetR (S rf) h t path defs = Ok m.
Proof. exact (@getR_no_panic D rf h t path defs k a). Qed.
Print Assumptions C28_no_panic.
(** the empty store panics *)
Theorem C28_refuted : exists path, GetR 1 h0 newTrie path [] = Panic.
Proof. exists (s2b "x"%string). run. Qed.
Print Assumptions C28_refuted.
(** "app" brings "apple" along *)
Definition apples : list (hdl * op) :=
  [(h0, OSet (s2b "app"%string) (GInt 1)); (h0, OSet (s2b "app.a"%string) (GInt 2)); (h0, OSet (s2b "apple"%string) (GInt 3))].
Theorem C28_refuted_prefix : exists t outs m, t_run 1 apples newTrie = Ok (t, outs) /\
  GetR 1 h0 t (s2b "app"%string) [] = Ok (Some m) /\ mget m (s2b "apple"%string) = Some (GInt 3).
Proof. do 3 eexists. split; [run|]. split; run. Qed.
Print Assumptions C28_refuted_prefix.
Example C28_case : GetR 1 h0 ot (s2b "app.logging"%string) [] =
  Ok (Some [(s2b "app.logging.file"%string, GStr (s2b "x.log"%string)); (s2b "app.logging.rotate"%string, GInt 6)]) /\
  GetR 1 h0 ot (s2b "nothing"%string) [None; Some []] = Ok (Some []) /\
  (exists a, t_get ot (s2b "app.logging."%string) = Some a) /\ plain_reach dotD ot /\ vreach ot.
Proof. split; [run|]. split; [run|]. split; [eexists; run|]. split; [exact ot_plain|exact ot_vreach]. Qed.

(** ** C29: GetM("") *)
(** without a prefix, or keeping it: exactly the exported keys that pass the filter *)
Theorem C29_root rf order h t path o fa :
  vreach t -> filter_by o fa -> root_name path -> (hprefix h = [] \/ o_keep o = true) ->
  exists m, flat_of (fun s v => exists a, exports (hdelim h) t s v a /\ fa s a = true) m /\
    GetM rf order h t path o = Ok (finish order (hdelim h) o m).
Proof. exact (@getM_root rf order h t path o fa). Qed.
Print Assumptions C29_root.
(** with a prefix: keys of the whole store with two bytes more than the prefix cut off, and a
    panic if there is a key one byte longer than the prefix *)
Theorem C29_prefix_partial rf order h t path o fa :
  vreach t -> filter_by o fa -> root_name path -> hprefix h <> [] -> o_keep o = false ->
  let p := length (hprefix h) + 2 in
  ((exists s v a, exports (hdelim h) t s v a /\ fa s a = true /\ S (length s) = p) ->
     GetM rf order h t path o = Panic) /\
  ((forall s v a, exports (hdelim h) t s v a -> fa s a = true -> S (length s) <> p) ->
     exists m, GetM rf order h t path o = Ok (finish order (hdelim h) o m) /\
       (forall s' v, mget m s' = Some v ->
          exists s a, exports (hdelim h) t s v a /\ fa s a = true /\ p <= length s /\ s' = skipn p s) /\
       (forall s v a, exports (hdelim h) t s v a -> fa s a = true -> p <= length s ->
          mget m (skipn p s) <> None)).
Proof. exact (@getM_root_prefix rf order h t path o fa). Qed.
Print Assumptions C29_prefix_partial.
(** so the key "app.level" is returned as "evel", and keys from outside the view are there *)
Theorem C29_refuted : exists m, GetM 1 id_order hApp ot [] no_opts = Ok (Some m) /\
  mget m (s2b "evel"%string) = Some (GInt 2) /\ mget m (s2b "level"%string) = None.
Proof. eexists. split; [run|]. split; run. Qed.
Print Assumptions C29_refuted.
Theorem C29_refuted_panic : exists h, GetM 1 id_order h ot [] no_opts = Panic.
Proof. exists (withPrefix defaultHdl [s2b "zo"%string]). run. Qed.
Print Assumptions C29_refuted_panic.
Example C29_case : exists m, GetM 1 id_order h0 ot [] (MOpts false false (Some (fun n => startsWith n 122%N))) = Ok (Some m) /\
  mget m (s2b "zoo"%string) = Some (GInt 3) /\ mget m (s2b "app.level"%string) = None.
Proof. eexists. split; [run|]. split; run. Qed.

(** ** C30: GetM(path) *)
(** keeping the prefix, for any path and view: the nested map of the exported keys below *)
Theorem C30_keep D rf order h t path o fa k0 :
  plain_reach D t -> vreach t -> D (hdelim h) -> filter_by o fa -> ~ root_name path -> o_keep o = true ->
  (s_search (hdelim h) (is_up h) (entries t) (full h path) = SFound k0 \/
   (k0 <> [] /\ s_search (hdelim h) (is_up h) (entries t) (full h path) = SPart k0)) ->
  (forall s v, section (hdelim h) t fa k0 s v -> is_map v = false) ->
  exists m, nested_of (hdelim h) (section (hdelim h) t fa k0) m /\
    GetM (S rf) order h t path o = Ok (finish order (hdelim h) o m).
Proof. exact (@getM_keep D rf order h t path o fa k0). Qed.
Print Assumptions C30_keep.
(** a path of one segment: the nested map of what is below, relative to it *)
Theorem C30_one D rf order h t p o fa k1 a1 :
  plain_reach D t -> vreach t -> D (hdelim h) -> filter_by o fa -> ~ root_name p ->
  hprefix h = [] -> o_keep o = false -> is_scalar (hdelim h) = true -> valid_utf8 p = true ->
  contains (enc1 (hdelim h)) p = false ->
  t_get t k1 = Some a1 -> prefix (runes p ++ [hdelim h]) k1 ->
  (forall s v a, exports (hdelim h) t s v a -> fa s a = true -> prefix (runes p) (runes s) ->
     prefix (runes p ++ [hdelim h]) (runes s)) ->
  (forall rest v, relative (hdelim h) t fa p rest v -> is_map v = false) ->
  exists m, nested_of (hdelim h) (relative (hdelim h) t fa p) m /\
    GetM (S rf) order h t p o = Ok (finish order (hdelim h) o m).
Proof. exact (@getM_one D rf order h t p o fa k1 a1). Qed.
Print Assumptions C30_one.
(** a path of two segments with one level below *)
Theorem C30_two D rf order h t p o fa k1 a1 :
  plain_reach D t -> vreach t -> D (hdelim h) -> filter_by o fa -> ~ root_name p ->
  hprefix h = [] -> o_keep o = false -> is_scalar (hdelim h) = true -> valid_utf8 p = true ->
  length (split_str p (enc1 (hdelim h))) = 2 ->
  t_get t k1 = Some a1 -> prefix (runes p ++ [hdelim h]) k1 ->
  (forall s v a, exports (hdelim h) t s v a -> fa s a = true -> prefix (runes p) (runes s) ->
     prefix (runes p ++ [hdelim h]) (runes s)) ->
  (forall rest v, relative (hdelim h) t fa p rest v -> is_map v = false /\ contains (enc1 (hdelim h)) rest = false) ->
  exists m, nested_of (hdelim h) (relative (hdelim h) t fa p) m /\
    GetM (S rf) order h t p o = Ok (finish order (hdelim h) o m).
Proof. exact (@getM_two D rf order h t p o fa k1 a1). Qed.
Print Assumptions C30_two.
(** a path of any number of segments: every value below it lands where [landing] says, which
    is the place relative to the path only for paths of one segment, or of two with one below *)
Theorem C30_any D rf order h t p o fa k1 a1 :
  plain_reach D t -> vreach t -> D (hdelim h) -> filter_by o fa -> ~ root_name p ->
  hprefix h = [] -> o_keep o = false -> is_scalar (hdelim h) = true -> valid_utf8 p = true ->
  t_get t k1 = Some a1 -> prefix (runes p ++ [hdelim h]) k1 ->
  (forall s v a, exports (hdelim h) t s v a -> fa s a = true -> prefix (runes p) (runes s) ->
     prefix (runes p ++ [hdelim h]) (runes s)) ->
  (forall rest v, relative (hdelim h) t fa p rest v -> is_map v = false) ->
  exists m, landed (hdelim h) (length (split_str p (enc1 (hdelim h)))) (relative (hdelim h) t fa p) m /\
    GetM (S rf) order h t p o = Ok (finish order (hdelim h) o m).
Proof. exact (@getM_any D rf order h t p o fa k1 a1). Qed.
Print Assumptions C30_any.
(** no panic unless the store is empty *)
Theorem C30_no_panic D rf order h t path o k a :
  plain_reach D t -> D (hdelim h) -> ~ root_name path ->
  t_get t k = Some a -> k <> [] -> exists m, GetM (S rf) order h t path o = Ok m.
Proof. exact (@getM_no_panic D rf order h t path o k a). Qed.
Print Assumptions C30_no_panic.
(** in general it is wrong: levels are lost for deeper paths *)
Definition deep : list (hdl * op) :=
  [(h0, OSet (s2b "a.b.c.d"%string) (GInt 1)); (h0, OSet (s2b "x.y.z.k"%string) (GInt 2))].
Theorem C30_refuted : exists t outs, t_run 1 deep newTrie = Ok (t, outs) /\
  GetM 1 id_order h0 t (s2b "a.b"%string) no_opts = Ok (Some [(s2b "d"%string, GInt 1)]) /\
  GetM 1 id_order h0 t (s2b "x.y.z"%string) no_opts = Ok (Some [([], GMap [(s2b "k"%string, GInt 2)])]).
Proof. do 2 eexists. split; [run|]. split; run. Qed.
Print Assumptions C30_refuted.
Theorem C30_refuted_panic : exists path, GetM 1 id_order h0 newTrie path no_opts = Panic.
Proof. exists (s2b "x"%string). run. Qed.
Print Assumptions C30_refuted_panic.
(** a path of three segments with one, two and four below: "k" keeps an empty segment in
    front, "l.m" loses "l", "q.r.s.t" loses "q.r" *)
Definition dhist : list (hdl * op) :=
  [(h0, OSet (s2b "x.y.z.k"%string) (GInt 1)); (h0, OSet (s2b "x.y.z.l.m"%string) (GInt 2));
   (h0, OSet (s2b "x.y.z.q.r.s.t"%string) (GInt 3)); (h0, OSet (s2b "other"%string) (GInt 4))].
Definition dt : tr := Eval vm_compute in match t_run 1 dhist newTrie with Ok (t, _) => t | _ => newTrie end.
Definition douts : list out := Eval vm_compute in match t_run 1 dhist newTrie with Ok (_, o) => o | _ => [] end.
Lemma dt_run : t_run 1 dhist newTrie = Ok (dt, douts).
Proof. run. Qed.
Lemma dt_plain : plain_reach dotD dt.
Proof. refine (plain_reach_hist dotD 0 dhist dt douts _ dt_run). plains. Qed.
Lemma dt_vreach : vreach dt.
Proof. exists 1, dhist, douts. split; [repeat constructor|exact dt_run]. Qed.
Example C30_case_any : exists m, GetM 1 id_order h0 dt (s2b "x.y.z"%string) no_opts = Ok (Some m) /\
  landed 46%N 3 (relative 46%N dt all_pass (s2b "x.y.z"%string)) m /\
  nget (GMap m) [[]; s2b "k"%string] = Some (GInt 1) /\ nget (GMap m) [s2b "m"%string] = Some (GInt 2) /\
  nget (GMap m) [s2b "s"%string; s2b "t"%string] = Some (GInt 3).
Proof.
  assert (Gd : forall k a, t_get dt k = Some a -> In (k, a) (entries dt)) by (intros; now apply sget_in).
  destruct (C30_any dotD 0 id_order h0 dt (s2b "x.y.z"%string) no_opts all_pass (s2b "x.y.z.k"%string)
              (bare true true (GInt 1))) as (m & N & G); try reflexivity.
  - exact dt_plain.
  - exact dt_vreach.
  - exact no_filter.
  - intros [H|[H|H]]; discriminate H.
  - exists (s2b "k"%string). reflexivity.
  - intros s v a (X1 & X2 & X3 & X4 & X5) _ P. revert X4 X5 P. generalize dependent (runes s). intros k X2 X3 X4 X5 P.
    apply Gd in X3. vm_compute in X3. repeat (destruct X3 as [X3|X3]; [injection X3 as ? ?; subst|]); try destruct X3;
      try discriminate X4; try (eexists; vm_compute; reflexivity).
    destruct P as [y P]. vm_compute in P. discriminate P.
  - intros rest v (a & (X1 & X2 & X3 & X4 & X5) & _). revert X4 X5. generalize dependent (runes (s2b "x.y.z"%string ++ enc1 (hdelim h0) ++ rest)).
    intros k X2 X3 X4 X5. apply Gd in X3. vm_compute in X3. repeat (destruct X3 as [X3|X3]; [injection X3 as ? ?; subst|]); try destruct X3;
      try discriminate X4; reflexivity.
  - exists m. split; [exact G|]. split; [exact N|].
    assert (E : GetM 1 id_order h0 dt (s2b "x.y.z"%string) no_opts =
      Ok (Some match GetM 1 id_order h0 dt (s2b "x.y.z"%string) no_opts with Ok (Some m) => m | _ => [] end)) by run.
    rewrite E in G. assert (Em : m = match GetM 1 id_order h0 dt (s2b "x.y.z"%string) no_opts with Ok (Some m) => m | _ => [] end).
    { apply (f_equal (fun r => match r with Ok (Some z) => z | _ => [] end)) in G. cbn in G. symmetry. exact G. }
    rewrite Em. repeat split; run.
Qed.
Example C30_case : exists m, GetM 1 id_order h0 ot (s2b "app"%string) no_opts = Ok (Some m) /\
  nget (GMap m) [s2b "logging"%string; s2b "rotate"%string] = Some (GInt 6) /\
  nested_of 46%N (relative 46%N ot all_pass (s2b "app"%string)) m.
Proof.
  destruct (C30_one dotD 0 id_order h0 ot (s2b "app"%string) no_opts all_pass (s2b "app.level"%string)
              (bare true true (GInt 2))) as (m & N & G); try reflexivity.
  - exact ot_plain.
  - exact ot_vreach.
  - exact no_filter.
  - intros [H|[H|H]]; discriminate H.
  - exists (s2b "level"%string). reflexivity.
  - intros s v a (X1 & X2 & X3 & X4 & X5) _ P. revert X4 X5 P. generalize dependent (runes s). intros k X2 X3 X4 X5 P.
    cases_of X3; try discriminate X4;
      try (eexists; vm_compute; reflexivity).
    destruct P as [y P]. vm_compute in P. discriminate P.
  - intros rest v (a & (X1 & X2 & X3 & X4 & X5) & _). revert X4 X5. generalize dependent (runes (s2b "app"%string ++ enc1 (hdelim h0) ++ rest)).
    intros k X2 X3 X4 X5. cases_of X3; try discriminate X4; reflexivity.
  - exists m. split; [exact G|]. split; [|exact N].
    vm_compute in G. injection G as G. subst m. run.
Qed.

(** ** C31: nested maps from dotted keys *)
(** the result in terms of the input, for values that are no maps *)
Theorem C31_exact d m :
  is_scalar d = true -> NoDup (map fst m) -> scalars m ->
  forall q, q <> [] ->
    (forall v, is_map v = false ->
      (nget (GMap (splitCompactKeys d m)) q = Some v <->
       exists k, In (k, v) m /\ q = split_str k (enc1 d) /\
         forall k' v', In (k', v') m -> ~ seg_below d k' k)) /\
    ((exists m', nget (GMap (splitCompactKeys d m)) q = Some (GMap m')) <->
       (exists k v, In (k, v) m /\ below q (split_str k (enc1 d))) /\
       forall k v, In (k, v) m -> ~ begins (split_str k (enc1 d)) q).
Proof. exact (@split_exact d m). Qed.
Print Assumptions C31_exact.
(** ... so the iteration order does not matter *)
Theorem C31_order d m m' :
  Permutation m m' -> NoDup (map fst m) -> scalars m ->
  same_lookups (GMap (splitCompactKeys d m)) (GMap (splitCompactKeys d m')).
Proof. exact (@split_order d m m'). Qed.
Print Assumptions C31_order.
(** nothing is lost exactly if no key lies above another one *)
Theorem C31_lossless d m :
  is_scalar d = true -> NoDup (map fst m) -> scalars m ->
  (forall k v, In (k, v) m -> nget (GMap (splitCompactKeys d m)) (split_str k (enc1 d)) = Some v) <->
  (forall k v k' v', In (k, v) m -> In (k', v') m -> ~ seg_below d k' k).
Proof. exact (@split_lossless d m). Qed.
Print Assumptions C31_lossless.
(** what To("") decodes from *)
Theorem C31_to rf order h t path o fa :
  vreach t -> filter_by o fa -> root_name path -> (hprefix h = [] \/ o_keep o = true) ->
  o_noflat o = false -> is_scalar (hdelim h) = true ->
  (forall m, Permutation m (order m)) ->
  (forall s v a, exports (hdelim h) t s v a -> fa s a = true -> is_map v = false) ->
  exists m, nested_of (hdelim h) (fun s v => exists a, exports (hdelim h) t s v a /\ fa s a = true) m /\
    To rf order h t path o = Ok (Some m).
Proof. exact (@to_root rf order h t path o fa). Qed.
Print Assumptions C31_to.
(** To at any path decodes from what GetM returns there; its second attempt with GetR never adds anything *)
Theorem C31_section rf order h t path o :
  To rf order h t path o =
  do r <- GetM rf order h t path o; Ok (option_map (fun m => splitCompactKeys (hdelim h) (order m)) r).
Proof. exact (@to_getM rf order h t path o). Qed.
Print Assumptions C31_section.
Definition ab : gmap := [(s2b "a"%string, GInt 1); (s2b "a.b"%string, GInt 2)].
Theorem C31_refuted_lossless : exists m k v, In (k, v) m /\ scalars m /\
  nget (GMap (splitCompactKeys 46%N m)) (split_str k (enc1 46%N)) <> Some v.
Proof.
  exists ab, (s2b "a.b"%string), (GInt 2). split; [cbn; auto|]. split; [repeat constructor|].
  vm_compute. discriminate.
Qed.
Print Assumptions C31_refuted_lossless.
(** with map values the order matters *)
Definition mab : gmap := [(s2b "a"%string, GMap [(s2b "x"%string, GInt 1)]); (s2b "a.b"%string, GInt 2)].
Theorem C31_refuted : exists m m' q v, Permutation m m' /\ NoDup (map fst m) /\
  nget (GMap (splitCompactKeys 46%N m)) q = Some v /\ nget (GMap (splitCompactKeys 46%N m')) q = None.
Proof.
  exists mab, (rev mab), [s2b "a"%string; s2b "b"%string], (GInt 2). split; [apply Permutation_rev|].
  split; [vm_compute; repeat constructor; intros X; repeat (destruct X as [X|X]; [discriminate X|]); destruct X|].
  split; run.
Qed.
Print Assumptions C31_refuted.
Example C31_case :
  let m := [(s2b "a.b"%string, GInt 1); (s2b "a.c.d"%string, GInt 2); (s2b "e"%string, GInt 3)] in
  is_scalar 46%N = true /\ NoDup (map fst m) /\ scalars m /\
  splitCompactKeys 46%N m =
    [(s2b "a"%string, GMap [(s2b "b"%string, GInt 1); (s2b "c"%string, GMap [(s2b "d"%string, GInt 2)])]);
     (s2b "e"%string, GInt 3)].
Proof.
  split; [run|]. split; [|split; [repeat constructor|run]].
  vm_compute; repeat constructor; intros X; repeat (destruct X as [X|X]; [discriminate X|]); destruct X.
Qed.

(** ** C32: typed getters, for any conversion *)
Theorem C32_exact D rf {A} (conv : gval -> A) zero h t path defs :
  plain_reach D t -> D (hdelim h) ->
  let q := s_query (hdelim h) (entries t) (s_search (hdelim h) (is_up h) (entries t) (full h path)) in
  GetX (S rf) conv zero h t path defs = Ok (answer conv (last defs zero) q, snd q) /\
  MustX (S rf) conv zero h t path defs = Ok (answer conv (last defs zero) q).
Proof. exact (@getX_exact D rf A conv zero h t path defs). Qed.
Print Assumptions C32_exact.
Theorem C32_present D rf {A} (conv : gval -> A) zero h t path defs a :
  plain_reach D t -> D (hdelim h) -> t_get t (runes (full h path)) = Some a -> a_leaf a = true ->
  GetX (S rf) conv zero h t path defs = Ok (conv (if a_has a then a_data a else GNil), true) /\
  MustX (S rf) conv zero h t path defs = Ok (conv (if a_has a then a_data a else GNil)).
Proof. exact (@getX_present D rf A conv zero h t path defs a). Qed.
Print Assumptions C32_present.
Theorem C32_absent D rf {A} (conv : gval -> A) zero h t path defs :
  plain_reach D t -> D (hdelim h) -> hmode h <> ModeUp -> full h path <> [] ->
  t_get t (runes (full h path)) = None -> t_get t (runes (full h path) ++ [hdelim h]) = None ->
  GetX (S rf) conv zero h t path defs = Ok (last defs zero, false) /\
  MustX (S rf) conv zero h t path defs = Ok (last defs zero).
Proof. exact (@getX_absent D rf A conv zero h t path defs). Qed.
Print Assumptions C32_absent.
Theorem C32_after_set D rf {A} (conv : gval -> A) zero h t path v defs :
  plain_reach D t -> D (hdelim h) -> op_plain D (full h) (OSet path v) -> blank_free (full h path) ->
  (forall k a, t_get t k = Some a -> ~ pprefix (runes (full h path)) k) ->
  (forall a, t_get t (runes (full h path)) = Some a -> a_leaf a = true) ->
  exists t' id old, Set_ h t path v = Ok (t', id, old) /\
    GetX (S rf) conv zero h t' path defs = Ok (conv v, true) /\
    MustX (S rf) conv zero h t' path defs = Ok (conv v).
Proof. exact (@getX_after_set D rf A conv zero h t path v defs). Qed.
Print Assumptions C32_after_set.
(** the getters of slices: all defaults together are the default *)
Theorem C32_slices D rf {A} (conv : gval -> list A) h t path defs :
  plain_reach D t -> D (hdelim h) ->
  let q := s_query (hdelim h) (entries t) (s_search (hdelim h) (is_up h) (entries t) (full h path)) in
  GetXs (S rf) conv h t path defs = Ok (answer conv defs q, snd q).
Proof. exact (@getXs_exact D rf A conv h t path defs). Qed.
Print Assumptions C32_slices.
Example C32_case : forall (conv : gval -> nat), GetX 1 conv 0 hApp ot (s2b "level"%string) [7] = Ok (conv (GInt 2), true) /\
  GetX 1 conv 0 h0 ot (s2b "lev"%string) [7; 8] = Ok (8, false) /\
  GetX 1 conv 0 h0 ot (s2b "lev"%string) [] = Ok (0, false).
Proof. intros conv. split; [|split]; run. Qed.

(** ** C33: size strings *)
(** [number ds]: a decimal number; [power c = Some k]: c is the k-th unit letter in either case.
    A number beyond 64 bits gives the largest one, but the product is taken modulo 2^64. *)
Open Scope N_scope.
Theorem C33_kibi PF lead ds mid c k x y trail :
  number ds -> power c = Some k ->
  Forall (fun c => blank c = true) (lead ++ mid ++ trail) ->
  Forall (fun b => mem b (s2b "ib"%string) = true) x -> Forall (fun b => mem b (s2b "iB"%string) = true) y ->
  FromKibiBytes PF (lead ++ (ds ++ mid ++ [c] ++ x ++ y) ++ trail) = Ok (outcome ds (1024 ^ k)).
Proof. exact (@kibi_suffix PF lead ds mid c k x y trail). Qed.
Print Assumptions C33_kibi.
Theorem C33_kilo PF lead ds mid c k x y trail :
  number ds -> power c = Some k ->
  Forall (fun c => blank c = true) (lead ++ mid ++ trail) ->
  Forall (fun b => mem b (s2b "b"%string) = true) x -> Forall (fun b => mem b (s2b "B"%string) = true) y ->
  FromKiloBytes PF (lead ++ (ds ++ mid ++ [c] ++ x ++ y) ++ trail) = Ok (outcome ds (1000 ^ k)).
Proof. exact (@kilo_suffix PF lead ds mid c k x y trail). Qed.
Print Assumptions C33_kilo.
Theorem C33_kibi_bare PF lead ds x y trail :
  number ds -> Forall (fun c => blank c = true) (lead ++ trail) ->
  Forall (fun b => mem b (s2b "ib"%string) = true) x -> Forall (fun b => mem b (s2b "iB"%string) = true) y ->
  FromKibiBytes PF (lead ++ (ds ++ x ++ y) ++ trail) = Ok (outcome ds 1).
Proof. exact (@kibi_bare PF lead ds x y trail). Qed.
Print Assumptions C33_kibi_bare.
Theorem C33_kilo_bare PF lead ds x y trail :
  number ds -> Forall (fun c => blank c = true) (lead ++ trail) ->
  Forall (fun b => mem b (s2b "b"%string) = true) x -> Forall (fun b => mem b (s2b "B"%string) = true) y ->
  FromKiloBytes PF (lead ++ (ds ++ x ++ y) ++ trail) = Ok (outcome ds 1).
Proof. exact (@kilo_bare PF lead ds x y trail). Qed.
Print Assumptions C33_kilo_bare.
(** a size that fits is returned exactly *)
Theorem C33_fits ds times : 0 < times -> value ds * times < two64 -> outcome ds times = value ds * times.
Proof. exact (@outcome_fits ds times). Qed.
Print Assumptions C33_fits.
Close Scope N_scope.
(** ASCII texts never lead to a panic, a no-break space before the unit does *)
Open Scope N_scope.
Theorem C33_ascii PF unit cut1 cut2 sz :
  (forall s f, PF s = Some f -> s <> []) ->
  (forall c, In c sz -> c < 128) -> exists n, fromBytes PF unit cut1 cut2 sz = Ok n.
Proof. exact (@fromBytes_ascii PF unit cut1 cut2 sz). Qed.
Print Assumptions C33_ascii.
Close Scope N_scope.
Theorem C33_refuted_panic PF :
  FromKibiBytes PF (s2b "1"%string ++ enc1 160%N ++ s2b "k"%string) = Panic.
Proof. run. Qed.
Print Assumptions C33_refuted_panic.
(** "16EiB" is 0 *)
Theorem C33_refuted PF : FromKibiBytes PF (s2b "16EiB"%string) = Ok 0%N.
Proof. run. Qed.
Print Assumptions C33_refuted.
(** a hexadecimal number ending in e or b is misread *)
Theorem C33_refuted_hex PF :
  FromKibiBytes PF (s2b "0x1e"%string) = Ok (1024 ^ 6)%N /\ FromKibiBytes PF (s2b "0x1b"%string) = Ok 1%N.
Proof. split; run. Qed.
Print Assumptions C33_refuted_hex.
Example C33_case PF : FromKibiBytes PF (s2b " 12 KiB "%string) = Ok 12288%N /\
  FromKiloBytes PF (s2b "7e"%string) = Ok 7000000000000000000%N /\
  number (s2b "12"%string) /\ power 75%N = Some 1%N.
Proof.
  split; [run|]. split; [run|]. split; [|run].
  split; [discriminate|]. split; [repeat constructor|]. vm_compute. discriminate.
Qed.
