(** The properties of route patterns and of termination (C07, C23-C26, C59): only
    statements.

    [ends_delim d q]: [q] ends with the delimiter.  [plain d k]: no segment of [k] starts
    with ':' or '*'.  [aside d k w]: the path [w] meets no pattern of the key [k] (C198, [aside_meaning]); every
    path is aside of a plain key.  [sole_route t d K q x0]: [K] is the only stored key with a pattern that the path
    [q ++ [x0]] meets and no stored key continues [q] with the rune [x0], so the pattern is the only way to go.
    [converges f]: all large enough bounds on the number of jumps inside a lookup give the
    same result.  [diverges f]: no bound is enough, that is the call never returns. *)
From Coq Require Import String.
From Coq Require Import List NArith ZArith Bool Arith Lia.
From Verif Require Import GoStr Utf8 Node NodeWf MatchProofs Trie Spec TreeOps Refine ApiRefine Reach.
From Verif Require Import Derived Pattern Route Route2 Aside.
Import ListNotations.
Open Scope nat_scope.
Open Scope list_scope.

(** ** sample stores with the delimiter '/' *)
Definition slash : rune := 47%N.
Definition hs : hdl := setDelimiter defaultHdl slash.
Definition sets (l : list string) : list (hdl * op) := map (fun p : string => (hs, OSet p (GStr p))) l.
Definition store (l : list string) : tr :=
  match t_run 1 (sets l) newTrie with
  | Ok (t, _) => t | _ => newTrie end.
Definition tParam : tr := Eval vm_compute in store ["/about"; "/files/*path"; "/user/:name"; "/user"; "/usage/of"; "/usage/:x/y"]%string.
Definition tWild : tr := Eval vm_compute in store ["/about"; "/user/:id"; "/files/*path"; "/filter"]%string.
Definition tTail : tr := Eval vm_compute in store ["/about"; "/user/:id/posts"; "/usage"; "/files/*path"]%string.
Definition tMany : tr := Eval vm_compute in store ["/about"; "/user/:id/posts"; "/user/:id/pages"; "/user/:id/photos"; "/user/:id/pages/:n"; "/usage"; "/files/*path"]%string.
Definition tBare : tr := Eval vm_compute in store ["/a/:id"; "/a/:name"; "/a/b"]%string.

Ltac run := vm_compute; reflexivity.
Lemma store_reached l :
  match t_run 1 (sets l) newTrie with Ok _ => true | _ => false end = true -> reached (store l).
Proof.
  unfold store. destruct (t_run 1 (sets l) newTrie) as [[t o]| |] eqn:E; try discriminate. intros _.
  exact (run_reached 1 (sets l) newTrie t o reached_new E).
Qed.
Ltac each_key :=
  let k := fresh "k" in let H := fresh "H" in
  intros k H; apply entries_keys in H; vm_compute in H;
  repeat (destruct H as [H|H]; [subst k|]); [..|destruct H].
Ltac not_prefix := let z := fresh in let E := fresh in intros [z E]; vm_compute in E; discriminate E.
Ltac notin := let X := fresh in vm_compute; intros X; repeat (destruct X as [X|X]; [discriminate X|]); destruct X.

Lemma tParam_reached : reached tParam.
Proof. apply (store_reached ["/about"; "/files/*path"; "/user/:name"; "/user"; "/usage/of"; "/usage/:x/y"]%string). run. Qed.
Lemma tWild_reached : reached tWild.
Proof. apply (store_reached ["/about"; "/user/:id"; "/files/*path"; "/filter"]%string). run. Qed.
Lemma tTail_reached : reached tTail.
Proof. apply (store_reached ["/about"; "/user/:id/posts"; "/usage"; "/files/*path"]%string). run. Qed.
Lemma tMany_reached : reached tMany.
Proof. apply (store_reached ["/about"; "/user/:id/posts"; "/user/:id/pages"; "/user/:id/photos"; "/user/:id/pages/:n"; "/usage"; "/files/*path"]%string). run. Qed.
Lemma tBare_reached : reached tBare.
Proof. apply (store_reached ["/a/:id"; "/a/:name"; "/a/b"]%string). run. Qed.

(** ** C07 *)
Theorem C07_calls_converge h t :
  reached t -> no_bare_colon t -> hdelim h <> colon ->
  (forall o, converges (fun rf => t_step rf h t o)) /\
  (forall p, converges (fun rf => HasPart rf h t p)) /\
  (forall p, converges (fun rf => Locate rf h t p)) /\
  (forall p, converges (fun rf => RemoveEx rf h t p)) /\
  (forall p, converges (fun rf => Walk rf h t p)) /\
  (forall p c, converges (fun rf => StartsWith rf h t p c)) /\
  (forall p c, converges (fun rf => EndsWith rf h t p c)).
Proof. exact (@calls_converge h t). Qed.
Print Assumptions C07_calls_converge.
Example C07_calls_converge_ex :
  reached tMany /\ no_bare_colon tMany /\ hdelim hs <> colon.
Proof.
  split; [apply tMany_reached|]. split; [|discriminate]. intros k H. apply entries_keys in H. vm_compute in H.
  repeat (destruct H as [H|H]; [subst k; vm_compute; reflexivity|]). destruct H.
Qed.
Theorem C07_bare_colon_calls h t q x0 x y path :
  reached t -> ends_delim (hdelim h) q -> hdelim h <> colon ->
  t_get t q <> None -> t_get t (q ++ [colon]) <> None ->
  (forall k, t_get t k <> None -> aside (hdelim h) k (q ++ [x0]) \/ prefix (q ++ [colon]) k) ->
  (forall k, t_get t k <> None -> ~ prefix (q ++ [x0]) k) ->
  x0 <> colon -> ~ In (hdelim h) (x0 :: x) ->
  runes (full h path) = q ++ (x0 :: x) ++ hdelim h :: y ->
  diverges (fun rf => Get rf h t path) /\ diverges (fun rf => Has rf h t path) /\
  diverges (fun rf => Query rf h t path) /\ diverges (fun rf => GetEx rf h t path).
Proof. exact (@bare_colon_calls h t q x0 x y path). Qed.
Print Assumptions C07_bare_colon_calls.
Example C07_bare_colon_ex :
  reached tBare /\ ends_delim slash (runes "/a/"%string) /\
  t_get tBare (runes "/a/"%string) <> None /\ t_get tBare (runes "/a/"%string ++ [colon]) <> None /\
  (forall k, t_get tBare k <> None -> aside slash k (runes "/a/"%string ++ [120%N]) \/ prefix (runes "/a/"%string ++ [colon]) k) /\
  (forall k, t_get tBare k <> None -> ~ prefix (runes "/a/"%string ++ [120%N]) k).
Proof.
  split; [apply tBare_reached|]. split; [now exists (runes "/a"%string)|].
  split; [vm_compute; discriminate|]. split; [vm_compute; discriminate|]. split.
  - each_key; ((right; vm_compute; eexists; reflexivity) || (left; apply asideb_spec; vm_compute; reflexivity)).
  - each_key; not_prefix.
Qed.
(** two ordinary routes with different parameter names next to a plain one: looking up
    "/a/x/y" never returns *)
Theorem C07_refuted :
  exists t path, reached t /\ diverges (fun rf => Get rf hs t path) /\ diverges (fun rf => Has rf hs t path).
Proof.
  exists tBare, ("/a/x/y"%string : gostring). split; [apply tBare_reached|].
  destruct C07_bare_colon_ex as (R & Q & G1 & G2 & P1 & P2).
  destruct (bare_colon_calls hs tBare (runes "/a/"%string) 120%N [] (runes "y"%string) "/a/x/y"%string R Q)
    as (D1 & D2 & _); auto; [discriminate|discriminate|notin].
Qed.
Print Assumptions C07_refuted.

(** ** C23 *)
Theorem C23_param_found rf h t q name x0 x path a :
  reached t -> ends_delim (hdelim h) q ->
  t_get t (q ++ colon :: name) = Some a -> a_leaf a = true ->
  sole_route t (hdelim h) (q ++ colon :: name) q x0 ->
  name <> [] -> ~ In (hdelim h) name -> x0 <> colon -> ~ In (hdelim h) (x0 :: x) ->
  runes (full h path) = q ++ x0 :: x ->
  Query (S rf) h t path =
    Ok (QRes (if a_has a then a_data a else GNil) false true [(of_runes name, of_runes (x0 :: x))]).
Proof. exact (@param_found rf h t q name x0 x path a). Qed.
Print Assumptions C23_param_found.
Example C23_param_found_ex :
  reached tParam /\ ends_delim slash (runes "/user/"%string) /\
  (exists a, t_get tParam (runes "/user/"%string ++ colon :: runes "name"%string) = Some a /\ a_leaf a = true) /\
  sole_route tParam slash (runes "/user/"%string ++ colon :: runes "name"%string) (runes "/user/"%string) 98%N.
Proof.
  split; [apply tParam_reached|]. split; [now exists (runes "/user"%string)|].
  split; [eexists; split; vm_compute; reflexivity|]. split.
  - each_key; ((left; vm_compute; reflexivity) || (right; apply asideb_spec; vm_compute; reflexivity)).
  - each_key; not_prefix.
Qed.
(** "/u/list" and "/u/:id" are stored: "/u/li" is not found *)
Theorem C23_refuted :
  exists t, reached t /\ Get 1 hs t "/u/12"%string = Ok (GStr "/u/:id"%string, true) /\
    Get 1 hs t "/u/li"%string = Ok (GNil, false).
Proof.
  exists (store ["/u/list"; "/u/:id"]%string). split; [|split; [run..]].
  apply store_reached. run.
Qed.
Print Assumptions C23_refuted.

(** ** C24 *)
Theorem C24_param_tail_found rf h t q name tail x0 x path a :
  reached t -> ends_delim (hdelim h) q ->
  t_get t (q ++ colon :: name ++ hdelim h :: tail) = Some a -> a_leaf a = true ->
  sole_route t (hdelim h) (q ++ colon :: name ++ hdelim h :: tail) q x0 ->
  name <> [] -> ~ In (hdelim h) name -> x0 <> colon -> ~ In (hdelim h) (x0 :: x) ->
  runes (full h path) = q ++ (x0 :: x) ++ hdelim h :: tail ->
  if length (x0 :: x) <=? S (length name)
  then Query (S rf) h t path =
    Ok (QRes (if a_has a then a_data a else GNil) false true [(of_runes name, of_runes (x0 :: x))])
  else exists kv, Query (S rf) h t path = Ok (QRes GNil false false kv).
Proof. exact (@param_tail_found rf h t q name tail x0 x path a). Qed.
Print Assumptions C24_param_tail_found.
Example C24_param_tail_ex :
  reached tTail /\ ends_delim slash (runes "/user/"%string) /\
  (exists a, t_get tTail (runes "/user/"%string ++ colon :: runes "id"%string ++ slash :: runes "posts"%string) = Some a /\ a_leaf a = true) /\
  sole_route tTail slash (runes "/user/"%string ++ colon :: runes "id"%string ++ slash :: runes "posts"%string) (runes "/user/"%string) 98%N.
Proof.
  split; [apply tTail_reached|]. split; [now exists (runes "/user"%string)|].
  split; [eexists; split; vm_compute; reflexivity|]. split.
  - each_key; ((left; vm_compute; reflexivity) || (right; apply asideb_spec; vm_compute; reflexivity)).
  - each_key; not_prefix.
Qed.
Theorem C24_param_routes_found rf h t q name tail x0 x r0 r path a :
  reached t -> ends_delim (hdelim h) q ->
  t_get t (q ++ colon :: name ++ hdelim h :: tail) <> None ->
  (forall k, t_get t k <> None -> aside (hdelim h) k (q ++ [x0]) \/ prefix (q ++ colon :: name ++ hdelim h :: tail) k) ->
  (forall y, t_get t ((q ++ colon :: name ++ hdelim h :: tail) ++ y) <> None ->
    aside (hdelim h) ((hdelim h :: tail) ++ y) ((hdelim h :: tail) ++ r0 :: r)) ->
  (forall k, t_get t k <> None -> ~ prefix (q ++ [x0]) k) ->
  t_get t ((q ++ colon :: name ++ hdelim h :: tail) ++ r0 :: r) = Some a -> a_leaf a = true ->
  ~ In (hdelim h) name -> x0 <> colon -> ~ In (hdelim h) (x0 :: x) ->
  runes (full h path) = q ++ (x0 :: x) ++ (hdelim h :: tail) ++ r0 :: r ->
  if length name <? length x + length (r0 :: r)
  then Query (S rf) h t path =
    Ok (QRes (if a_has a then a_data a else GNil) false true [(of_runes name, of_runes (x0 :: x))])
  else Query (S rf) h t path = Ok (QRes GNil false false [(of_runes name, of_runes (x0 :: x))]).
Proof. exact (@param_routes_found rf h t q name tail x0 x r0 r path a). Qed.
Print Assumptions C24_param_routes_found.
Example C24_param_routes_ex :
  let B := runes "/user/"%string ++ colon :: runes "id"%string ++ slash :: runes "p"%string in
  reached tMany /\ t_get tMany B <> None /\
  (forall k, t_get tMany k <> None -> aside slash k (runes "/user/"%string ++ [98%N]) \/ prefix B k) /\
  (forall y, t_get tMany (B ++ y) <> None -> aside slash ((slash :: runes "p"%string) ++ y) (slash :: runes "posts"%string)) /\
  (forall k, t_get tMany k <> None -> ~ prefix (runes "/user/"%string ++ [98%N]) k) /\
  (exists a, t_get tMany (B ++ runes "osts"%string) = Some a /\ a_leaf a = true) /\
  Query 1 hs tMany "/user/bob/posts"%string =
    Ok (QRes (GStr "/user/:id/posts"%string) false true [("id"%string : gostring, "bob"%string : gostring)]).
Proof.
  intros B. split; [apply tMany_reached|]. split; [vm_compute; discriminate|]. split; [|split; [|split; [|split]]].
  - each_key; ((right; vm_compute; eexists; reflexivity) || (left; apply asideb_spec; vm_compute; reflexivity)).
  - intros y H. apply entries_keys in H. vm_compute in H.
    repeat (destruct H as [H|H]; [try discriminate H; injection H as <-; apply asideb_spec; vm_compute; reflexivity|]). destruct H.
  - each_key; not_prefix.
  - eexists. split; vm_compute; reflexivity.
  - run.
Qed.
(** "/user/:id/posts" is stored: a user id of four runes is not found *)
Theorem C24_refuted :
  exists t, reached t /\
    Get 1 hs t "/user/bob/posts"%string = Ok (GStr "/user/:id/posts"%string, true) /\
    Get 1 hs t "/user/1234/posts"%string = Ok (GNil, false).
Proof. exists tTail. split; [apply tTail_reached|]. split; [run..]. Qed.
Print Assumptions C24_refuted.
(** several routes: a parameter name longer than the rest of the path is not found *)
Theorem C24_refuted_many :
  exists t, reached t /\
    Get 1 hs t "/user/robert/x"%string = Ok (GStr "/user/:ident/x"%string, true) /\
    Get 1 hs t "/user/bob/x"%string = Ok (GNil, false).
Proof.
  exists (store ["/user/:ident/x"; "/user/:ident/yz"]%string). split; [|split; [run..]].
  apply store_reached. run.
Qed.
Print Assumptions C24_refuted_many.

(** ** C25 *)
Theorem C25_wild_found rf h t q name x0 x path a :
  reached t -> ends_delim (hdelim h) q ->
  t_get t (q ++ star :: name) = Some a -> a_leaf a = true ->
  sole_route t (hdelim h) (q ++ star :: name) q x0 ->
  ~ In (hdelim h) name -> x0 <> star ->
  runes (full h path) = q ++ x0 :: x ->
  Query (S rf) h t path =
    Ok (QRes (if a_has a then a_data a else GNil) false true [(of_runes name, of_runes (x0 :: x))]).
Proof. exact (@wild_found rf h t q name x0 x path a). Qed.
Print Assumptions C25_wild_found.
Example C25_wild_found_ex :
  reached tWild /\ ends_delim slash (runes "/files/"%string) /\
  (exists a, t_get tWild (runes "/files/"%string ++ star :: runes "path"%string) = Some a /\ a_leaf a = true) /\
  sole_route tWild slash (runes "/files/"%string ++ star :: runes "path"%string) (runes "/files/"%string) 98%N /\
  Query 1 hs tWild "/files/b/c.txt"%string =
    Ok (QRes (GStr "/files/*path"%string) false true [("path"%string : gostring, "b/c.txt"%string : gostring)]).
Proof.
  split; [apply tWild_reached|]. split; [now exists (runes "/files"%string)|].
  split; [eexists; split; vm_compute; reflexivity|]. split; [split|run].
  - each_key; ((left; vm_compute; reflexivity) || (right; apply asideb_spec; vm_compute; reflexivity)).
  - each_key; not_prefix.
Qed.
(** with "/s/list" next to "/s/*f": "/s/li" and "/s/list/x" are not found *)
Theorem C25_refuted :
  exists t, reached t /\ Get 1 hs t "/s/a"%string = Ok (GStr "/s/*f"%string, true) /\
    Get 1 hs t "/s/li"%string = Ok (GNil, false) /\ Get 1 hs t "/s/list/x"%string = Ok (GNil, false).
Proof.
  exists (store ["/s/list"; "/s/*f"]%string). split; [|split; [|split]; [run..]].
  apply store_reached. run.
Qed.
Print Assumptions C25_refuted.

(** ** C26: the callback of GetEx gets the value and the branch flag Query returns, for the
    same paths, but never a binding *)
Theorem C26_getex rf h t path n v b kv :
  GetEx rf h t path = Ok (Some (n, v, b, kv)) ->
  kv = [] /\ exists q, Query rf h t path = Ok q /\ q_data q = v /\ q_branch q = b /\ q_found q = true.
Proof. exact (@getex_query rf h t path n v b kv). Qed.
Print Assumptions C26_getex.
Theorem C26_refuted :
  exists t n v b,
    reached t /\
    Query 1 hs t "/user/bob"%string = Ok (QRes v b true [("name"%string : gostring, "bob"%string : gostring)]) /\
    GetEx 1 hs t "/user/bob"%string = Ok (Some (n, v, b, [])).
Proof. exists tParam. do 3 eexists. split; [apply tParam_reached|]. split; [run..]. Qed.
Print Assumptions C26_refuted.

(** ** C59: paths that do not fit a route *)
Theorem C59_param_more_segments rf h t q name x0 x y path a :
  reached t -> ends_delim (hdelim h) q ->
  t_get t (q ++ colon :: name) = Some a -> a_leaf a = true ->
  sole_route t (hdelim h) (q ++ colon :: name) q x0 ->
  name <> [] -> ~ In (hdelim h) name -> x0 <> colon -> ~ In (hdelim h) (x0 :: x) ->
  runes (full h path) = q ++ (x0 :: x) ++ hdelim h :: y ->
  length name <= length (x0 :: x) + length y ->
  exists qr, Query (S rf) h t path = Ok qr /\
    q_found qr = (length name =? length (x0 :: x) + length y) /\
    (q_found qr = true -> q_data qr = (if a_has a then a_data a else GNil)).
Proof. exact (@param_more_segments rf h t q name x0 x y path a). Qed.
Print Assumptions C59_param_more_segments.
Example C59_ex :
  Query 1 hs tParam "/user/b/wxyz"%string = Ok (QRes GNil false false [("name"%string : gostring, "b"%string : gostring)]).
Proof. run. Qed.
(** "/user/:name" matches "/user/ab/xy" with more segments, as the lengths agree *)
Theorem C59_refuted :
  exists t, reached t /\ Get 1 hs t "/user/b/wxyz"%string = Ok (GNil, false) /\
    Get 1 hs t "/user/ab/xy"%string = Ok (GStr "/user/:name"%string, true).
Proof. exists tParam. split; [apply tParam_reached|]. split; [run..]. Qed.
Print Assumptions C59_refuted.
