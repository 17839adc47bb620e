(** The properties of the bindings that Query reports (C202-C204), and of routes with different
    parameters in the same place (C205): only statements.

    A pattern of a key is a ':' or a '*' right after a delimiter.  [aside d k w]: the path [w] meets no pattern of the
    key [k] (see [aside_meaning] in PropsFirst.v).  [tried d h w]: the paths a lookup of [w] tries: [w] alone, on a view of
    BR() also the paths with inner segments left out.  [t_get t k]: what is stored at [k]. *)
From Coq Require Import String.
From Coq Require Import List NArith ZArith Bool Arith Lia.
From Verif Require Import GoStr Utf8 Node NodeWf MatchProofs Trie Spec TreeOps Refine ApiRefine Reach.
From Verif Require Import Derived Pattern Route Aside Bind RouteClash.
Import ListNotations.
Open Scope nat_scope.
Open Scope list_scope.

Definition slash : rune := 47%N.
Definition hs : hdl := setDelimiter defaultHdl slash.
Definition hUp : hdl := viewBR hs.
Definition sets (l : list string) : list (hdl * op) := map (fun p : string => (hs, OSet p (GStr p))) l.
Definition store (l : list string) : tr :=
  match t_run 1 (sets l) newTrie with
  | Ok (t, _) => t | _ => newTrie end.
Ltac run := vm_compute; reflexivity.
Lemma store_reached l :
  match t_run 1 (sets l) newTrie with Ok _ => true | _ => false end = true -> reached (store l).
Proof.
  unfold store. destruct (t_run 1 (sets l) newTrie) as [[t o]| |] eqn:E; try discriminate. intros _.
  exact (run_reached 1 (sets l) newTrie t o reached_new E).
Qed.

(** ** C202: a binding is a name out of a stored key and a piece of the path *)
Theorem C202_pieces rf h t path q id val :
  hdelim h <> colon -> hdelim h <> star -> Query rf h t path = Ok q -> In (id, val) (q_kv q) ->
  exists k u, t_get t k <> None /\ In u (tried (hdelim h) h (full h path)) /\ ~ aside (hdelim h) k (runes u) /\
    exists pc n v a b c e,
      k = a ++ pc :: n ++ b /\ runes u = c ++ v ++ e /\ id = of_runes n /\ val = of_runes v /\ ~ In (hdelim h) n /\
      (pc = colon /\ ~ In (hdelim h) v \/ pc = star /\ e = []).
Proof. exact (@query_bound rf h t path q id val). Qed.
Print Assumptions C202_pieces.
Definition tWay : tr := Eval vm_compute in store ["/u/:id/:tab"; "/files/*path"; "/u/list"]%string.
Lemma tWay_reached : reached tWay.
Proof. apply (store_reached ["/u/:id/:tab"; "/files/*path"; "/u/list"]%string). run. Qed.
Example C202_ex :
  hdelim hs <> colon /\ hdelim hs <> star /\ reached tWay /\
  Query 9 hs tWay "/u/12/notes"%string =
    Ok (QRes (GStr "/u/:id/:tab"%string) false true
         [("id"%string : gostring, "12"%string : gostring); ("tab"%string : gostring, "notes"%string : gostring)]) /\
  Query 9 hs tWay "/files/a/b"%string =
    Ok (QRes (GStr "/files/*path"%string) false true [("path"%string : gostring, "a/b"%string : gostring)]).
Proof.
  split; [discriminate|]. split; [discriminate|]. split; [apply tWay_reached|]. split; run.
Qed.

(** ** C203: only a ':' or '*' right after a delimiter is a pattern *)
(** false: the '*' in the middle of the last segment of "/u/:id*x" acts as a wildcard *)
Theorem C203_refuted :
  exists t, reached t /\
    (forall k, t_get t k <> None -> k = [] \/ k = runes "/u/:id"%string \/ k = runes "/u/:id*x"%string) /\
    Query 1 hs t "/u/12/34"%string =
      Ok (QRes (GStr "/u/:id*x"%string) false true
           [("id"%string : gostring, "12"%string : gostring); ("x"%string : gostring, "/34"%string : gostring)]).
Proof.
  exists (store ["/u/:id"; "/u/:id*x"]%string). split; [apply store_reached; run|]. split; [|run].
  intros k H. apply entries_keys in H. vm_compute in H.
  repeat (destruct H as [H|H]; [subst k; vm_compute; auto|]). destruct H.
Qed.
Print Assumptions C203_refuted.

(** ** C204: the bindings belong to the key that is found *)
(** false: the value of "/a/list" comes with a binding of the route "/a/:x/b", and with nothing found there is one too *)
Theorem C204_refuted :
  exists t, reached t /\
    Query 1 hs t "/a/list"%string =
      Ok (QRes (GStr "/a/list"%string) false true [("x"%string : gostring, "list"%string : gostring)]) /\
    Query 1 hs t "/a/other"%string =
      Ok (QRes GNil false false [("x"%string : gostring, "other"%string : gostring)]).
Proof. exists (store ["/a/:x/b"; "/a/list"]%string). split; [apply store_reached; run|]. split; run. Qed.
Print Assumptions C204_refuted.
(** a path that meets no pattern is told no bindings *)
Theorem C204_none rf h t path q :
  hdelim h <> colon -> hdelim h <> star ->
  (forall k u, t_get t k <> None -> In u (tried (hdelim h) h (full h path)) -> aside (hdelim h) k (runes u)) ->
  Query rf h t path = Ok q -> q_kv q = [].
Proof. exact (@query_unbound rf h t path q). Qed.
Print Assumptions C204_none.
Example C204_ex :
  (forall k u, t_get tWay k <> None -> In u (tried slash hUp (full hUp "/files"%string)) -> aside slash k (runes u)) /\
  Query 1 hUp tWay "/files"%string = Ok (QRes GNil false false []).
Proof.
  split; [|run]. intros k u H T. apply entries_keys in H. vm_compute in H, T.
  repeat (destruct T as [T|T]; [subst u|]); [..|destruct T];
    (repeat (destruct H as [H|H]; [subst k; apply asideb_spec; run|]); destruct H).
Qed.

(** ** C205: routes with different parameters in the same place *)
(** false: each of the two routes is found when it is alone, neither when both are there *)
Theorem C205_refuted :
  exists t1 t2 t, reached t1 /\ reached t2 /\ reached t /\
    t1 = store ["/user/:id"]%string /\ t2 = store ["/user/:name"]%string /\ t = store ["/user/:id"; "/user/:name"]%string /\
    Get 1 hs t1 "/user/bob"%string = Ok (GStr "/user/:id"%string, true) /\
    Get 1 hs t2 "/user/bob"%string = Ok (GStr "/user/:name"%string, true) /\
    Get 1 hs t "/user/bob"%string = Ok (GNil, false).
Proof.
  exists (store ["/user/:id"]%string), (store ["/user/:name"]%string), (store ["/user/:id"; "/user/:name"]%string).
  split; [apply store_reached; run|]. split; [apply store_reached; run|]. split; [apply store_reached; run|].
  do 3 (split; [reflexivity|]). split; [run|]. split; run.
Qed.
Print Assumptions C205_refuted.
(** what is found instead: the node at which the names part *)
Theorem C205_clash rf h t q c y1 r1 y2 r2 x0 x path :
  reached t -> ends_delim (hdelim h) q -> ~ In (hdelim h) c -> y1 <> y2 ->
  t_get t (q ++ colon :: c ++ y1 :: r1) <> None -> t_get t (q ++ colon :: c ++ y2 :: r2) <> None ->
  (forall k, t_get t k <> None -> aside (hdelim h) k (q ++ [x0]) \/ prefix (q ++ colon :: c) k) ->
  (forall k, t_get t k <> None -> ~ prefix (q ++ [x0]) k) ->
  x0 <> colon -> ~ In (hdelim h) (x0 :: x) -> runes (full h path) = q ++ x0 :: x ->
  exists a, t_get t (q ++ colon :: c) = Some a /\
    (c <> [] -> Query (S rf) h t path =
      Ok (QRes (if a_has a then a_data a else GNil) (negb (a_leaf a)) (a_leaf a) [(of_runes c, of_runes (x0 :: x))])) /\
    (c = [] -> is_up h = false -> Query (S rf) h t path = Ok (QRes GNil false false [([], of_runes (x0 :: x))])).
Proof. exact (@routes_clash rf h t q c y1 r1 y2 r2 x0 x path). Qed.
Print Assumptions C205_clash.
Definition tClash : tr := Eval vm_compute in store ["/about"; "/user/:id/posts"; "/user/:name"; "/user/:nick"; "/usage/of"]%string.
Example C205_ex :
  let q := runes "/user/"%string in
  reached tClash /\ ends_delim slash q /\
  t_get tClash (q ++ colon :: [] ++ runes "id/posts"%string) <> None /\
  t_get tClash (q ++ colon :: [] ++ runes "name"%string) <> None /\
  (forall k, t_get tClash k <> None -> aside slash k (q ++ [98%N]) \/ prefix (q ++ colon :: []) k) /\
  (forall k, t_get tClash k <> None -> ~ prefix (q ++ [98%N]) k) /\
  Query 1 hs tClash "/user/bob"%string = Ok (QRes GNil false false [([], "bob"%string : gostring)]).
Proof.
  intros q. split; [apply (store_reached ["/about"; "/user/:id/posts"; "/user/:name"; "/user/:nick"; "/usage/of"]%string); run|].
  split; [now exists (runes "/user"%string)|]. split; [vm_compute; discriminate|]. split; [vm_compute; discriminate|].
  split; [|split; [|run]]; intros k H; apply entries_keys in H; vm_compute in H;
    repeat (destruct H as [H|H]; [subst k;
      try (intros [z E]; vm_compute in E; discriminate);
      ((right; vm_compute; eexists; reflexivity) || (left; apply asideb_spec; run))|]); destruct H.
Qed.
(** the names ":name" and ":nick" part behind ":n", a branch: its name is bound, and nothing is found *)
Definition tNames : tr := Eval vm_compute in store ["/user/:name"; "/about"; "/user/:nick/x"]%string.
Example C205_names_ex :
  let q := runes "/user/"%string in let c := runes "n"%string in
  reached tNames /\ ends_delim slash q /\ ~ In slash c /\
  t_get tNames (q ++ colon :: c ++ runes "ame"%string) <> None /\
  t_get tNames (q ++ colon :: c ++ runes "ick/x"%string) <> None /\
  (forall k, t_get tNames k <> None -> aside slash k (q ++ [98%N]) \/ prefix (q ++ colon :: c) k) /\
  (forall k, t_get tNames k <> None -> ~ prefix (q ++ [98%N]) k) /\
  Query 1 hs tNames "/user/bob"%string =
    Ok (QRes GNil true false [("n"%string : gostring, "bob"%string : gostring)]).
Proof.
  intros q c. split; [apply (store_reached ["/user/:name"; "/about"; "/user/:nick/x"]%string); run|].
  split; [now exists (runes "/user"%string)|]. split; [intros [X|[]]; discriminate X|].
  split; [vm_compute; discriminate|]. split; [vm_compute; discriminate|].
  split; [|split; [|run]]; intros k H; apply entries_keys in H; vm_compute in H;
    repeat (destruct H as [H|H]; [subst k;
      try (intros [z E]; vm_compute in E; discriminate);
      ((right; vm_compute; eexists; reflexivity) || (left; apply asideb_spec; run))|]); destruct H.
Qed.
