(** The properties of routes with several parameters (C206): only statements.

    A route is [q ++ ":name1" ++ sep1 ++ ":name2" ++ sep2 ++ ... ++ end]: [q] ends with a delimiter, each [sep] starts and
    ends with one (it may hold fixed segments), and the end is a parameter ([EParam]), a wildcard ([EWild]) or a parameter
    and fixed text behind a delimiter ([ETail]).  A [hop] is the name of a parameter, what comes behind it, and the segment
    of the path that stands in its place.  [route_key] is the key of the route, [route_path] the path with the segments
    filled in, [route_kv] the bindings in the order of the parameters.  [hop_ok], [end_ok]: the names and segments have no
    delimiter, the segments are not empty and do not start with the ':' (or '*') whose place they take.
    [fits]: the key does not go on behind its last parameter, or the path is not longer than the key.
    [sole_route], [later] and [taken] are explained in PropsFirst.v. *)
From Coq Require Import String.
From Coq Require Import List NArith ZArith Bool Arith Lia.
From Verif Require Import GoStr Utf8 Node NodeWf MatchProofs Trie Spec TreeOps Refine ApiRefine Reach.
From Verif Require Import Derived Pattern Route Aside First RouteFirst RouteMany.
From Verif Require Import PropsFirst.
Import ListNotations.
Open Scope nat_scope.
Open Scope list_scope.

(** ** C206: which paths a route with several parameters answers for, and what it binds *)
Theorem C206_found rf h t q l e path a :
  reached t -> ends_delim (hdelim h) q -> Forall (hop_ok (hdelim h)) l -> end_ok (hdelim h) e -> length l <= rf ->
  t_get t (route_key (hdelim h) q l e) = Some a -> a_leaf a = true ->
  sole_route t (hdelim h) (route_key (hdelim h) q l e) q (hd 0%N (hops_path l ++ end_path (hdelim h) e)) ->
  runes (full h path) = route_path (hdelim h) q l e ->
  if fits (hdelim h) l e
  then Query (S rf) h t path = Ok (QRes (if a_has a then a_data a else GNil) false true (route_kv l e))
  else exists kv, Query (S rf) h t path = Ok (QRes GNil false false kv).
Proof. exact (@hops_found rf h t q l e path a). Qed.
Print Assumptions C206_found.
Definition hop1 (n sep s : string) : hop := Hop (runes n) (runes sep) (runes s).
Definition lPost : list hop := [hop1 "uid" "/posts/" "marlene"].
Definition ePost : ending := EParam (runes "pid"%string) (runes "20261116"%string).
Definition lFile : list hop := [hop1 "bucket" "/" "b"; hop1 "v" "/raw/" "version-2"].
Definition eFile : ending := EWild (runes "path"%string) (runes "docs/a/b.txt"%string).
Definition lEdit : list hop := [hop1 "x" "/" "1"].
Definition eEdit (s : string) : ending := ETail (runes "day"%string) (runes s) (runes "edit"%string).
Definition lMany : list string :=
  ["/users/:uid/posts/:pid"; "/files/:bucket/:v/raw/*path"; "/cal/:x/:day/edit"; "/about"; "/file"]%string.
Definition tMany : tr := Eval vm_compute in store lMany.
Lemma tMany_reached : reached tMany.
Proof. apply (store_reached lMany). run. Qed.
Ltac fine :=
  repeat match goal with
  | |- ~ In _ _ => let X := fresh in intro X; vm_compute in X; repeat (destruct X as [X|X]; [discriminate X|]); exact X
  | |- starts_off _ _ => eexists _, _; split; [run|vm_compute; discriminate]
  | |- ends_delim _ (hop_sep (hop1 _ "/posts/" _)) => exists (runes "/posts"%string); run
  | |- ends_delim _ (hop_sep (hop1 _ "/raw/" _)) => exists (runes "/raw"%string); run
  | |- ends_delim _ _ => exists []; run
  | |- exists _, _ = _ => eexists; run
  | |- _ <> _ => vm_compute; discriminate
  | |- _ => constructor
  end.
Example C206_ex :
  reached tMany /\
  (let q := runes "/users/"%string in
   ends_delim slash q /\ Forall (hop_ok slash) lPost /\ end_ok slash ePost /\
   route_key slash q lPost ePost = runes "/users/:uid/posts/:pid"%string /\
   sole_route tMany slash (route_key slash q lPost ePost) q 109%N /\
   route_path slash q lPost ePost = runes "/users/marlene/posts/20261116"%string /\
   fits slash lPost ePost = true) /\
  (let q := runes "/files/"%string in
   ends_delim slash q /\ Forall (hop_ok slash) lFile /\ end_ok slash eFile /\
   route_key slash q lFile eFile = runes "/files/:bucket/:v/raw/*path"%string /\
   sole_route tMany slash (route_key slash q lFile eFile) q 98%N /\
   route_path slash q lFile eFile = runes "/files/b/version-2/raw/docs/a/b.txt"%string /\
   fits slash lFile eFile = true) /\
  (let q := runes "/cal/"%string in forall s, s = "1"%string \/ s = "1234567"%string ->
   ends_delim slash q /\ Forall (hop_ok slash) lEdit /\ end_ok slash (eEdit s) /\
   route_key slash q lEdit (eEdit s) = runes "/cal/:x/:day/edit"%string /\
   sole_route tMany slash (route_key slash q lEdit (eEdit s)) q 49%N /\
   fits slash lEdit (eEdit s) = String.eqb s "1"%string) /\
  Query 3 hs tMany "/users/marlene/posts/20261116"%string =
    Ok (QRes (GStr "/users/:uid/posts/:pid"%string) false true
      [("uid"%string : gostring, "marlene"%string : gostring); ("pid"%string : gostring, "20261116"%string : gostring)]) /\
  Query 3 hs tMany "/files/b/version-2/raw/docs/a/b.txt"%string =
    Ok (QRes (GStr "/files/:bucket/:v/raw/*path"%string) false true
      [("bucket"%string : gostring, "b"%string : gostring); ("v"%string : gostring, "version-2"%string : gostring);
       ("path"%string : gostring, "docs/a/b.txt"%string : gostring)]).
Proof.
  split; [apply tMany_reached|].
  split; [|split; [|split; [|split; run]]]; intros q; [..|intros s Hs].
  - split; [exists (runes "/users"%string); run|]. split; [fine|]. split; [fine|]. split; [run|]. split; [sole|split; run].
  - split; [exists (runes "/files"%string); run|]. split; [fine|]. split; [fine|]. split; [run|]. split; [sole|split; run].
  - destruct Hs as [-> | ->]; (split; [exists (runes "/cal"%string); run|]; split; [fine|]; split; [fine|];
      split; [run|]; split; [sole|run]).
Qed.
Theorem C206_stays rf h t t' q l e path :
  reached t -> ends_delim (hdelim h) q -> Forall (hop_ok (hdelim h)) l -> end_ok (hdelim h) e -> length l <= rf ->
  t_get t (route_key (hdelim h) q l e) <> None ->
  sole_route t (hdelim h) (route_key (hdelim h) q l e) q (hd 0%N (hops_path l ++ end_path (hdelim h) e)) ->
  later (route_key (hdelim h) q l e) t t' ->
  (forall k, t_get t' k <> None -> prefix (q ++ firstn 1 (hops_key l ++ end_key (hdelim h) e)) k ->
     k = route_key (hdelim h) q l e) ->
  runes (full h path) = route_path (hdelim h) q l e ->
  exists a, t_get t' (route_key (hdelim h) q l e) = Some a /\
    (a_leaf a = true ->
     if fits (hdelim h) l e
     then Query (S rf) h t' path = Ok (QRes (if a_has a then a_data a else GNil) false true (route_kv l e))
     else exists kv, Query (S rf) h t' path = Ok (QRes GNil false false kv)) /\
    (fits (hdelim h) l e = true ->
     exists t2, Remove (S rf) h t' path = Ok (t2, true) /\ taken t' t2 (route_key (hdelim h) q l e)).
Proof. exact (@hops_stay rf h t t' q l e path). Qed.
Print Assumptions C206_stays.
Definition tMany2 : tr := Eval vm_compute in after tMany (OSet "/users/marlene/posts/20261116"%string (GInt 1)).
(** the path of the route itself is stored later: it does not take the path away from the route *)
Example C206_stays_ex :
  let K := runes "/users/:uid/posts/:pid"%string in
  later K tMany tMany2 /\ t_get tMany2 (runes "/users/marlene/posts/20261116"%string) <> None /\
  (forall k, t_get tMany2 k <> None -> prefix (runes "/users/"%string ++ [colon]) k -> k = K) /\
  Get 3 hs tMany2 "/users/marlene/posts/20261116"%string = Ok (GStr "/users/:uid/posts/:pid"%string, true).
Proof.
  intros K. split; [|split; [vm_compute; discriminate|split; [alone|run]]].
  eapply (later_step _ _ 1 hs (OSet "/users/marlene/posts/20261116"%string (GInt 1)) tMany); [apply later_now|run|].
  vm_compute; discriminate.
Qed.
