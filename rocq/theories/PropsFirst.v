(** The properties of stores with route patterns and other keys side by side (C197-C201): only statements.

    A pattern of a key is a ':' or a '*' right after a delimiter.  [aside d k w]: the path [w] meets no pattern of the
    key [k], that is: where [k] has a pattern, [w] does not go on with another rune.  Every path is aside of a key without
    patterns, and of the key that it spells itself.  [tried d h w]: the paths a lookup of [w] tries: [w] alone, on a view of
    BR() also the paths with inner segments left out.  [stored h o]: the full path under which the call [o] stores.
    [looks o]: the path that it looks up.  [apart hist]: no path looked up in the history meets a pattern of a key written
    in it.  [later w t t']: [t'] comes from [t] by calls through any handles, and the key [w] is there after each.
    [sole_route t d K q x0]: [K] is the only stored key with a pattern that the path [q ++ [x0]] meets, and no stored key
    starts with [q ++ [x0]].  [taken t t' K]: [t'] has the keys of [t] with their values, except [K]. *)
From Coq Require Import String.
From Coq Require Import List NArith ZArith Bool Arith Lia.
From Verif Require Import GoStr Utf8 Node NodeWf MatchProofs Trie Spec TreeOps Refine ApiRefine Reach.
From Verif Require Import Derived Pattern Route Aside First RouteFirst.
Import ListNotations.
Open Scope nat_scope.
Open Scope list_scope.

Definition slash : rune := 47%N.
Definition hs : hdl := setDelimiter defaultHdl slash.
Definition hUp : hdl := viewBR hs.
Definition sets (l : list string) : list (hdl * op) := map (fun p : string => (hs, OSet p (GStr p))) l.
Definition store (l : list string) : tr :=
  match t_run 1 (sets l) newTrie with
  | Ok (t, _) => t | _ => newTrie end.
Ltac run := vm_compute; reflexivity.
Lemma store_reached l :
  match t_run 1 (sets l) newTrie with Ok _ => true | _ => false end = true -> reached (store l).
Proof.
  unfold store. destruct (t_run 1 (sets l) newTrie) as [[t o]| |] eqn:E; try discriminate. intros _.
  exact (run_reached 1 (sets l) newTrie t o reached_new E).
Qed.
Ltac each_key :=
  let k := fresh "k" in let H := fresh "H" in
  intros k H; apply entries_keys in H; vm_compute in H;
  repeat (destruct H as [H|H]; [subst k|]); [..|destruct H].

(** ** the notions *)
Theorem aside_meaning d k w :
  aside d k w <->
  ~ exists q c y x z, k = q ++ c :: y /\ w = q ++ x :: z /\ ends_delim d q /\ (c = colon \/ c = star) /\ x <> c.
Proof. exact (@aside_iff d k w). Qed.
Print Assumptions aside_meaning.
Theorem aside_plain d k w : plain d k -> aside d k w.
Proof. exact (@plain_aside d k w). Qed.
Print Assumptions aside_plain.

(** ** C197: keys away from the patterns behave as without patterns *)
Theorem C197_history rf hist :
  apart hist ->
  exists t, t_run (S rf) hist newTrie = Ok (t, snd (s_run (views hist) s_init)) /\
            wf_tr t /\ abs (root t) (fst (s_run (views hist) s_init)).
Proof. exact (@apart_refines rf hist). Qed.
Print Assumptions C197_history.
Theorem C197_plain_history D hist : plain_hist D hist -> apart hist.
Proof. exact (@plain_apart D hist). Qed.
Print Assumptions C197_plain_history.
Definition hist7 : list (hdl * op) :=
  sets ["/user/:id"; "/user/:id/posts"; "/files/*path"; "/usage"; "/about/us"]%string ++
  [(hs, OGet "/about/us"%string); (hs, OHas "/user/:id"%string); (hUp, OGet "/about/x/usage"%string);
   (hs, OSetTag "/usage"%string (GInt 3)); (hs, ORemove "/about"%string); (hs, OQuery "/us"%string);
   (hs, ORemove "/user/:id/posts"%string)].
Example C197_history_ex :
  apart hist7 /\ ~ (forall ho w, In ho hist7 -> stored (fst ho) (snd ho) = Some w -> plain slash (runes w)).
Proof.
  split; [apply apartb_spec; run|]. intros H.
  assert (X : plain slash (runes "/user/:id"%string)).
  { apply (H (hs, OSet "/user/:id"%string (GStr "/user/:id"%string))); [now left|reflexivity]. }
  vm_compute in X. discriminate.
Qed.
Theorem C197_set_get rf h t path v :
  reached t -> (forall k, t_get t k <> None -> aside (hdelim h) k (runes (full h path))) ->
  blank_free (full h path) ->
  exists t' id old q, Set_ h t path v = Ok (t', id, old) /\ Query (S rf) h t' path = Ok q /\
    q_data q = v /\
    q_found q = (match t_get t (runes (full h path)) with
                 | Some a => a_leaf a
                 | None => negb (existsb (sprefix (runes (full h path))) (skeys (entries t)))
                 end || ends_with (hdelim h) (runes (full h path))).
Proof. exact (@set_get_aside rf h t path v). Qed.
Print Assumptions C197_set_get.
Definition tMix : tr := Eval vm_compute in store ["/user/:id"; "/files/*path"; "/usage"]%string.
Lemma tMix_reached : reached tMix.
Proof. apply (store_reached ["/user/:id"; "/files/*path"; "/usage"]%string). run. Qed.
Ltac off := each_key; apply asideb_spec; run.
Example C197_set_get_ex :
  reached tMix /\ (forall k, t_get tMix k <> None -> aside slash k (runes "/users/all"%string)) /\
  (forall k, t_get tMix k <> None -> aside slash k (runes "/user/:id/posts"%string)) /\
  ~ (forall k, t_get tMix k <> None -> aside slash k (runes "/user/all"%string)).
Proof.
  split; [apply tMix_reached|]. split; [off|]. split; [off|]. intros H.
  assert (X : 97%N = colon); [|discriminate X].
  apply (H (runes "/user/:id"%string)) with (q := runes "/user/"%string) (y := runes "id"%string) (z := runes "ll"%string);
    auto; try reflexivity. vm_compute. discriminate.
Qed.

(** ** C198: a key is found, and lost, under its own path only, unless the path meets a pattern of it *)
Theorem C198_query rf h t path q :
  reached t -> Query rf h t path = Ok q -> q_found q = true ->
  exists k a u, t_get t k = Some a /\ q_data q = (if a_has a then a_data a else GNil) /\
    In u (tried (hdelim h) h (full h path)) /\
    (aside (hdelim h) k (runes u) -> k = runes u \/ k = runes u ++ [hdelim h]).
Proof. exact (@query_own rf h t path q). Qed.
Print Assumptions C198_query.
Theorem C198_remove rf h t path t' b k :
  reached t -> Remove rf h t path = Ok (t', b) -> t_get t k <> None ->
  t_get t' k = t_get t k \/
  (t_get t' k = None /\ b = true /\
   exists u, In u (tried (hdelim h) h (full h path)) /\ (aside (hdelim h) k (runes u) -> prefix (runes u) k)).
Proof. exact (@remove_own rf h t path t' b k). Qed.
Print Assumptions C198_remove.
Definition tShadow : tr := Eval vm_compute in store ["/u/:id"; "/u/list"; "/u/list/all"; "/v"]%string.
Lemma tShadow_reached : reached tShadow.
Proof. apply (store_reached ["/u/:id"; "/u/list"; "/u/list/all"; "/v"]%string). run. Qed.
Example C198_ex :
  Query 1 hs tShadow "/v"%string = Ok (QRes (GStr "/v"%string) false true []) /\
  Query 1 hs tShadow "/u/list"%string =
    Ok (QRes (GStr "/u/:id"%string) false true [("id"%string : gostring, "list"%string : gostring)]) /\
  exists t', Remove 1 hs tShadow "/v"%string = Ok (t', true).
Proof. split; [run|]. split; [run|]. eexists. run. Qed.

(** ** C199: a key stored behind a pattern that its path meets cannot be reached by its own path, not even to remove it *)
Theorem C199_refuted :
  exists t t' a, reached t /\ t_get t (runes "/u/list"%string) = Some a /\ a_data a = GStr "/u/list"%string /\
    Get 1 hs t "/u/list"%string = Ok (GStr "/u/:id"%string, true) /\
    Remove 1 hs t "/u/list"%string = Ok (t', true) /\
    t_get t' (runes "/u/list"%string) = Some a /\ t_get t' (runes "/u/:id"%string) = None.
Proof.
  exists tShadow. do 2 eexists. split; [apply tShadow_reached|]. split; [run|]. split; [run|]. split; [run|].
  split; [run|]. split; run.
Qed.
Print Assumptions C199_refuted.

(** ** C200: first come, first served *)
Theorem C200_first_served rf h t path v t1 id old t2 :
  reached t -> (forall k, t_get t k <> None -> aside (hdelim h) k (runes (full h path))) ->
  blank_free (full h path) -> Set_ h t path v = Ok (t1, id, old) ->
  later (runes (full h path)) t1 t2 ->
  exists a q, t_get t2 (runes (full h path)) = Some a /\ Query (S rf) h t2 path = Ok q /\
    q_data q = (if a_has a then a_data a else GNil) /\
    q_branch q = negb (a_leaf a) /\
    q_found q = (a_leaf a || ends_with (hdelim h) (runes (full h path))).
Proof. exact (@first_served rf h t path v t1 id old t2). Qed.
Print Assumptions C200_first_served.
Definition after (t : tr) (o : op) : tr := match t_step 1 hs t o with Ok (t', _) => t' | _ => newTrie end.
Definition f1 : tr := Eval vm_compute in after newTrie (OSet "/u/list"%string (GInt 1)).
Definition f2 : tr := Eval vm_compute in after f1 (OSet "/u/:id"%string (GInt 2)).
Definition f3 : tr := Eval vm_compute in after f2 (OSet "/w/*x"%string (GInt 3)).
Definition f4 : tr := Eval vm_compute in after f3 (ORemove "/w/*x"%string).
(** "/u/list" is written first; the routes written later, which its path meets, do not take it *)
Example C200_ex :
  exists id old,
    reached newTrie /\ (forall k, t_get newTrie k <> None -> aside slash k (runes "/u/list"%string)) /\
    Set_ hs newTrie "/u/list"%string (GInt 1) = Ok (f1, id, old) /\
    later (runes "/u/list"%string) f1 f4 /\
    ~ (forall k, t_get f4 k <> None -> aside slash k (runes "/u/list"%string)) /\
    Get 1 hs f4 "/u/list"%string = Ok (GInt 1, true) /\ Get 1 hs f4 "/u/7"%string = Ok (GInt 2, true).
Proof.
  do 2 eexists. split; [apply reached_new|]. split; [off|]. split; [run|]. split.
  - eapply (later_step _ _ 1 hs (ORemove "/w/*x"%string) f3); [|run|vm_compute; discriminate].
    eapply (later_step _ _ 1 hs (OSet "/w/*x"%string (GInt 3)) f2); [|run|vm_compute; discriminate].
    eapply (later_step _ _ 1 hs (OSet "/u/:id"%string (GInt 2)) f1); [|run|vm_compute; discriminate].
    apply later_now.
  - split; [|split; run]. intros H.
    assert (X : 108%N = colon); [|discriminate X].
    apply (H (runes "/u/:id"%string)) with (q := runes "/u/"%string) (y := runes "id"%string) (z := runes "ist"%string);
      auto; try reflexivity. vm_compute. discriminate.
Qed.

(** ** C201: a route that is there first keeps the paths that it matches *)
Theorem C201_param rf h t t' q name x0 x path :
  reached t -> ends_delim (hdelim h) q ->
  t_get t (q ++ colon :: name) <> None -> sole_route t (hdelim h) (q ++ colon :: name) q x0 ->
  later (q ++ colon :: name) t t' ->
  (forall k, t_get t' k <> None -> prefix (q ++ [colon]) k -> k = q ++ colon :: name) ->
  name <> [] -> ~ In (hdelim h) name -> x0 <> colon -> ~ In (hdelim h) (x0 :: x) ->
  runes (full h path) = q ++ x0 :: x ->
  exists a, t_get t' (q ++ colon :: name) = Some a /\
    (a_leaf a = true -> Query (S rf) h t' path =
      Ok (QRes (if a_has a then a_data a else GNil) false true [(of_runes name, of_runes (x0 :: x))])) /\
    exists t2, Remove (S rf) h t' path = Ok (t2, true) /\ taken t' t2 (q ++ colon :: name).
Proof. exact (@param_stays rf h t t' q name x0 x path). Qed.
Print Assumptions C201_param.
Theorem C201_wild rf h t t' q name x0 x path :
  reached t -> ends_delim (hdelim h) q ->
  t_get t (q ++ star :: name) <> None -> sole_route t (hdelim h) (q ++ star :: name) q x0 ->
  later (q ++ star :: name) t t' ->
  (forall k, t_get t' k <> None -> prefix (q ++ [star]) k -> k = q ++ star :: name) ->
  ~ In (hdelim h) name -> x0 <> star ->
  runes (full h path) = q ++ x0 :: x ->
  exists a, t_get t' (q ++ star :: name) = Some a /\
    (a_leaf a = true -> Query (S rf) h t' path =
      Ok (QRes (if a_has a then a_data a else GNil) false true [(of_runes name, of_runes (x0 :: x))])) /\
    exists t2, Remove (S rf) h t' path = Ok (t2, true) /\ taken t' t2 (q ++ star :: name).
Proof. exact (@wild_stays rf h t t' q name x0 x path). Qed.
Print Assumptions C201_wild.
Theorem C201_tail rf h t t' q name tail x0 x path :
  reached t -> ends_delim (hdelim h) q ->
  t_get t (q ++ colon :: name ++ hdelim h :: tail) <> None ->
  sole_route t (hdelim h) (q ++ colon :: name ++ hdelim h :: tail) q x0 ->
  later (q ++ colon :: name ++ hdelim h :: tail) t t' ->
  (forall k, t_get t' k <> None -> prefix (q ++ [colon]) k -> k = q ++ colon :: name ++ hdelim h :: tail) ->
  name <> [] -> ~ In (hdelim h) name -> x0 <> colon -> ~ In (hdelim h) (x0 :: x) ->
  runes (full h path) = q ++ (x0 :: x) ++ hdelim h :: tail ->
  exists a, t_get t' (q ++ colon :: name ++ hdelim h :: tail) = Some a /\
    (a_leaf a = true ->
     if length (x0 :: x) <=? S (length name)
     then Query (S rf) h t' path =
       Ok (QRes (if a_has a then a_data a else GNil) false true [(of_runes name, of_runes (x0 :: x))])
     else exists kv, Query (S rf) h t' path = Ok (QRes GNil false false kv)).
Proof. exact (@tail_stays rf h t t' q name tail x0 x path). Qed.
Print Assumptions C201_tail.
(** "/u/:id" and "/files/*path" are written first; "/u/list" and "/files/x", written later, cannot be reached *)
Definition g1 : tr := Eval vm_compute in store ["/u/:id"; "/files/*path"; "/users/:id/posts"]%string.
Lemma g1_reached : reached g1.
Proof. apply (store_reached ["/u/:id"; "/files/*path"; "/users/:id/posts"]%string). run. Qed.
Definition g2 : tr := Eval vm_compute in after g1 (OSet "/u/list"%string (GInt 1)).
Definition g3 : tr := Eval vm_compute in after g2 (OSet "/files/x"%string (GInt 2)).
Definition g4 : tr := Eval vm_compute in after g3 (OSet "/us"%string (GInt 3)).
Lemma g_later w :
  t_get g2 w <> None -> t_get g3 w <> None -> t_get g4 w <> None -> later w g1 g4.
Proof.
  intros H2 H3 H4.
  eapply (later_step _ _ 1 hs (OSet "/us"%string (GInt 3)) g3); [|run|exact H4].
  eapply (later_step _ _ 1 hs (OSet "/files/x"%string (GInt 2)) g2); [|run|exact H3].
  eapply (later_step _ _ 1 hs (OSet "/u/list"%string (GInt 1)) g1); [|run|exact H2].
  apply later_now.
Qed.
Ltac other := intros [? X]; vm_compute in X; discriminate.
Ltac sole := split; [each_key; ((left; run) || (right; apply asideb_spec; run))|each_key; other].
Ltac alone := each_key; ((let X := fresh in intros [? X]; vm_compute in X; discriminate) || (intros _; run)).
Example C201_ex :
  reached g1 /\
  (let q := runes "/u/"%string in let K := q ++ colon :: runes "id"%string in
   t_get g1 K <> None /\ sole_route g1 slash K q 108%N /\ later K g1 g4 /\
   (forall k, t_get g4 k <> None -> prefix (q ++ [colon]) k -> k = K)) /\
  (let q := runes "/files/"%string in let K := q ++ star :: runes "path"%string in
   t_get g1 K <> None /\ sole_route g1 slash K q 120%N /\ later K g1 g4 /\
   (forall k, t_get g4 k <> None -> prefix (q ++ [star]) k -> k = K)) /\
  (let q := runes "/users/"%string in let K := q ++ colon :: runes "id"%string ++ slash :: runes "posts"%string in
   t_get g1 K <> None /\ sole_route g1 slash K q 98%N /\ later K g1 g4 /\
   (forall k, t_get g4 k <> None -> prefix (q ++ [colon]) k -> k = K)) /\
  t_get g4 (runes "/u/list"%string) <> None /\ t_get g4 (runes "/files/x"%string) <> None /\
  Get 1 hs g4 "/u/list"%string = Ok (GStr "/u/:id"%string, true) /\
  Get 1 hs g4 "/files/x"%string = Ok (GStr "/files/*path"%string, true).
Proof.
  split; [apply g1_reached|].
  split; [|split; [|split; [|repeat split; try run; vm_compute; discriminate]]]; intros q K;
    (split; [vm_compute; discriminate|]; split; [sole|]; split; [apply g_later; vm_compute; discriminate|alone]).
Qed.
