(** The properties of routes that share beginnings with other keys (C207-C209, C212): only statements.

    A route and a path are given side by side as a list of tokens: a rune of both ([TC]), a parameter with the segment in its
    place ([TP]), or a wildcard with the rest ([TW]).  [key_of] is the key of the route, [path_of] the path, [kv_of] the
    bindings.  [toks_ok d b L]: a parameter or wildcard stands right behind a delimiter, names and segments have no delimiter,
    segments are not empty and do not start with ':' ('*'), behind a parameter comes a delimiter or the end.  [off d L k]: the key [k]
    is a beginning of the route that does not end within a name, or longer than the route, or parts from the route in a place
    where it neither goes on like the path nor has a pattern.  [step_of t L1 M]: [key_of L1] and [key_of (L1 ++ M)] are in the tree,
    and nothing of the route in between.  [roomy t L]: the pieces of the key between two such places are shorter than the rest
    of the path from there on; the last piece ends with a pattern, or has none, or is not shorter than its part of the path.
    [roomy_to t T1 R]: the pieces of the route up to [T1] are shorter than the rest of the path, which ends with that of [R]. *)
From Coq Require Import String.
From Coq Require Import List NArith ZArith Bool Arith Lia.
From Verif Require Import GoStr Utf8 Node NodeWf MatchProofs Trie Spec TreeOps Refine ApiRefine Reach.
From Verif Require Import Derived Pattern Route Aside First RouteFirst RouteMany RouteTree.
From Verif Require Import PropsFirst.
Import ListNotations.
Open Scope nat_scope.
Open Scope list_scope.

(** ** C207: a tree of routes *)
Theorem C207_found rf h t L path a :
  reached t -> toks_ok (hdelim h) false L -> L <> [] -> params L <= S rf ->
  (forall k, t_get t k <> None -> off (hdelim h) L k) -> roomy t L ->
  t_get t (key_of L) = Some a -> a_leaf a = true -> runes (full h path) = path_of L ->
  Query (S rf) h t path = Ok (QRes (if a_has a then a_data a else GNil) false true (kv_of L)).
Proof. exact (@tree_found rf h t L path a). Qed.
Print Assumptions C207_found.
Theorem C207_removed rf h t L path :
  reached t -> toks_ok (hdelim h) false L -> L <> [] -> params L <= S rf ->
  (forall k, t_get t k <> None -> off (hdelim h) L k) -> roomy t L ->
  t_get t (key_of L) <> None -> (forall k, t_get t k <> None -> ~ pprefix (key_of L) k) ->
  runes (full h path) = path_of L ->
  exists t2, Remove (S rf) h t path = Ok (t2, true) /\ taken t t2 (key_of L).
Proof. exact (@tree_removed rf h t L path). Qed.
Print Assumptions C207_removed.
(** segments longer than the names always leave room for a route that ends with a pattern *)
Theorem C207_long_segments d t L :
  toks_ok d false L -> Forall long_seg L -> ends_pat L = true -> roomy t L.
Proof. exact (@tree_roomy d t L). Qed.
Print Assumptions C207_long_segments.
Definition lit (s : string) : list tok := cs (runes s).
Definition par (n s : string) : tok := TP (runes n) (runes s).
Definition lRest : list string :=
  ["/users"; "/users/:uid"; "/users/:uid/posts"; "/users/:uid/posts/:pid"; "/users/:uid/posts/:pid/likes"; "/users/:uid/keys/*path";
   "/about"; "/us"]%string.
Definition tRest : tr := Eval vm_compute in store lRest.
Lemma tRest_reached : reached tRest.
Proof. apply (store_reached lRest). run. Qed.
Definition rPost : list tok := lit "/users/" ++ par "uid" "marlene" :: lit "/posts/" ++ [par "pid" "2026"].
Definition rLikes : list tok := lit "/users/" ++ par "uid" "m" :: lit "/posts/" ++ par "pid" "2026" :: lit "/likes".
Definition rKeys : list tok := lit "/users/" ++ par "uid" "x" :: lit "/keys/" ++ [TW (runes "path"%string) (runes "a/b/c"%string)].
Ltac offs := each_key; apply offb_spec; run.
Example C207_ex :
  reached tRest /\
  (forall L, L = rPost \/ L = rLikes \/ L = rKeys ->
     toks_ok slash false L /\ L <> [] /\ (forall k, t_get tRest k <> None -> off slash L k) /\ roomy tRest L /\
     t_get tRest (key_of L) <> None) /\
  Forall long_seg rPost /\ ends_pat rPost = true /\
  path_of rPost = runes "/users/marlene/posts/2026"%string /\ path_of rLikes = runes "/users/m/posts/2026/likes"%string /\
  Query 3 hs tRest "/users/m/posts/2026/likes"%string =
    Ok (QRes (GStr "/users/:uid/posts/:pid/likes"%string) false true
      [("uid"%string : gostring, "m"%string : gostring); ("pid"%string : gostring, "2026"%string : gostring)]) /\
  Query 3 hs tRest "/users/x/keys/a/b/c"%string =
    Ok (QRes (GStr "/users/:uid/keys/*path"%string) false true
      [("uid"%string : gostring, "x"%string : gostring); ("path"%string : gostring, "a/b/c"%string : gostring)]).
Proof.
  split; [apply tRest_reached|]. split.
  - intros L [->|[->| ->]]; (split; [apply toksb_spec; run|split; [discriminate|split; [offs|split; [apply roomyb_spec; run|vm_compute; discriminate]]]]).
  - split; [repeat constructor; vm_compute; lia|]. repeat split; run.
Qed.

(** ** C208: what a path finds when there is no room in the middle of the route *)
Theorem C208_short rf h t L T1 TM T2 path a :
  reached t -> toks_ok (hdelim h) false L -> params L <= S rf -> hmode h <> ModeUp ->
  (forall k, t_get t k <> None -> off (hdelim h) L k) -> t_get t (key_of L) <> None ->
  L = T1 ++ TM ++ T2 -> T2 <> [] -> step_of t T1 TM -> roomy_to t T1 (TM ++ T2) ->
  length (path_of (TM ++ T2)) <= length (key_of TM) ->
  t_get t (key_of (T1 ++ TM)) = Some a -> runes (full h path) = path_of L ->
  if ends_pat TM && (length (path_of (TM ++ T2)) =? length (key_of TM))
  then a_leaf a = true ->
       Query (S rf) h t path = Ok (QRes (if a_has a then a_data a else GNil) false true (kv_of (T1 ++ TM)))
  else Query (S rf) h t path = Ok (QRes GNil false false (kv_of (T1 ++ TM))).
Proof. exact (@tree_short rf h t L T1 TM T2 path a). Qed.
Print Assumptions C208_short.
Definition lShort : list string := ["/u/:user-id"; "/u/:user-id/posts"]%string.
Definition tShort : tr := Eval vm_compute in store lShort.
Lemma tShort_reached : reached tShort.
Proof. apply (store_reached lShort). run. Qed.
Definition tmShort (s : string) : list tok := lit "/u/" ++ [par "user-id" s].
Lemma root_roomy t R : roomy_to t [] R.
Proof. intros A B C E (HB & _). symmetry in E. apply app_eq_nil in E. destruct E as [_ E]. apply app_eq_nil in E. tauto. Qed.
Example C208_ex :
  reached tShort /\
  (forall s, s = "1"%string \/ s = "12"%string ->
     toks_ok slash false (tmShort s ++ lit "/posts") /\
     (forall k, t_get tShort k <> None -> off slash (tmShort s ++ lit "/posts") k) /\
     t_get tShort (key_of (tmShort s ++ lit "/posts")) <> None /\
     step_of tShort [] (tmShort s) /\ roomy_to tShort [] (tmShort s ++ lit "/posts") /\ ends_pat (tmShort s) = true /\
     length (path_of (tmShort s ++ lit "/posts")) <= length (key_of (tmShort s)) /\
     (length (path_of (tmShort s ++ lit "/posts")) =? length (key_of (tmShort s))) = String.eqb s "12"%string) /\
  Query 1 hs tShort "/u/1/posts"%string = Ok (QRes GNil false false [("user-id"%string : gostring, "1"%string : gostring)]) /\
  Query 1 hs tShort "/u/12/posts"%string =
    Ok (QRes (GStr "/u/:user-id"%string) false true [("user-id"%string : gostring, "12"%string : gostring)]) /\
  Query 1 hs tShort "/u/123/posts"%string =
    Ok (QRes (GStr "/u/:user-id/posts"%string) false true [("user-id"%string : gostring, "123"%string : gostring)]).
Proof.
  split; [apply tShort_reached|]. split; [|repeat split; run].
  intros s [->| ->]; (split; [apply toksb_spec; run|]; split; [offs|]; split; [vm_compute; discriminate|];
    split; [apply stepb_spec; run|]; split; [apply root_roomy|]; split; [run|]; split; [vm_compute; lia|run]).
Qed.

(** ** C209: a path is not answered by a key that goes on behind it *)
Theorem C209_over rf h t L T1 TM path :
  reached t -> toks_ok (hdelim h) false L -> params L <= S rf ->
  (forall k, t_get t k <> None -> off (hdelim h) L k) -> t_get t (key_of L) <> None ->
  L = T1 ++ TM -> step_of t T1 TM -> roomy_to t T1 TM -> ~ last_fits TM -> runes (full h path) = path_of L ->
  ((forall k, t_get t k <> None -> ~ pprefix (key_of L) k) ->
   Query (S rf) h t path = Ok (QRes GNil false false (kv_of L))) /\
  ((exists k, t_get t k <> None /\ pprefix (key_of L) k) ->
   exists k a q, t_get t k = Some a /\ pprefix (key_of L) k /\ Query (S rf) h t path = Ok q /\
     q_data q = (if a_has a then a_data a else GNil) /\ q_branch q = negb (a_leaf a) /\
     (a_leaf a = true -> q_found q = true) /\ q_kv q = kv_of L).
Proof. exact (@tree_over rf h t L T1 TM path). Qed.
Print Assumptions C209_over.
Definition lOver : list string := ["/u/:id/posts"; "/u/:id/posts/all"]%string.
Definition tOver : tr := Eval vm_compute in store lOver.
Lemma tOver_reached : reached tOver.
Proof. apply (store_reached lOver). run. Qed.
Definition rOver : list tok := lit "/u/" ++ par "id" "1234" :: lit "/posts".
Example C209_ex :
  reached tOver /\ toks_ok slash false rOver /\ (forall k, t_get tOver k <> None -> off slash rOver k) /\
  t_get tOver (key_of rOver) <> None /\ step_of tOver [] rOver /\ roomy_to tOver [] rOver /\ ~ last_fits rOver /\
  (exists k, t_get tOver k <> None /\ pprefix (key_of rOver) k) /\
  path_of rOver = runes "/u/1234/posts"%string.
Proof.
  split; [apply tOver_reached|]. split; [apply toksb_spec; run|]. split; [offs|]. split; [vm_compute; discriminate|].
  split; [apply stepb_spec; run|]. split; [apply root_roomy|]. split; [|split; [|run]].
  - unfold last_fits. vm_compute. intros [X|[X|X]]; [discriminate|discriminate|lia].
  - exists (runes "/u/:id/posts/all"%string). split; [vm_compute; discriminate|]. exists slash, (runes "all"%string). run.
Qed.
(** the path "/u/1234/posts" is answered by the route "/u/:id/posts/all", and Remove of it removes that route *)
Theorem C209_refuted :
  exists t t', reached t /\ t_get t (runes "/u/:id/posts"%string) <> None /\
    Query 1 hs t "/u/12/posts"%string =
      Ok (QRes (GStr "/u/:id/posts"%string) false true [("id"%string : gostring, "12"%string : gostring)]) /\
    Query 1 hs t "/u/1234/posts"%string =
      Ok (QRes (GStr "/u/:id/posts/all"%string) false true [("id"%string : gostring, "1234"%string : gostring)]) /\
    Remove 1 hs t "/u/1234/posts"%string = Ok (t', true) /\
    t_get t' (runes "/u/:id/posts/all"%string) = None /\ t_get t' (runes "/u/:id/posts"%string) <> None.
Proof.
  exists tOver. eexists. split; [apply tOver_reached|]. split; [vm_compute; discriminate|]. split; [run|]. split; [run|].
  split; [run|]. split; [run|vm_compute; discriminate].
Qed.
Print Assumptions C209_refuted.

(** ** C212: paths that go on behind the end of their route *)
Theorem C212_beyond rf h t L T1 TM T2 path a :
  reached t -> toks_ok (hdelim h) false L -> params L <= rf -> hmode h <> ModeUp ->
  hdelim h <> colon -> hdelim h <> star ->
  (forall k, t_get t k <> None -> off (hdelim h) L k) ->
  L = T1 ++ TM ++ T2 -> T2 <> [] -> step_of t T1 TM -> roomy_to t T1 (TM ++ T2) ->
  t_get t (key_of (T1 ++ TM)) = Some a -> (forall k, t_get t k <> None -> ~ pprefix (key_of (T1 ++ TM)) k) ->
  runes (full h path) = path_of L ->
  (if ends_pat TM && (length (path_of (TM ++ T2)) =? length (key_of TM))
   then a_leaf a = true ->
        Query (S rf) h t path = Ok (QRes (if a_has a then a_data a else GNil) false true (kv_of (T1 ++ TM)))
   else Query (S rf) h t path = Ok (QRes GNil false false (kv_of (T1 ++ TM)))) /\
  (params TM <> 0 -> ends_pat TM = false ->
   Locate (S rf) h t path = Ok (None, false, false, false, kv_of (T1 ++ TM))).
Proof. exact (@tree_beyond rf h t L T1 TM T2 path a). Qed.
Print Assumptions C212_beyond.
Definition lPast : list string := ["/u/:id/posts"; "/user/:user-id"; "/about"]%string.
Definition tPast : tr := Eval vm_compute in store lPast.
Lemma tPast_reached : reached tPast.
Proof. apply (store_reached lPast). run. Qed.
Definition r1Past : list tok := lit "/u".
Definition mPost : list tok := lit "/" ++ par "id" "7" :: lit "/posts".
Definition mUser (s : string) : list tok := lit "ser/" ++ [par "user-id" s].
Lemma fixed_roomy t s R : path_of R <> [] -> roomy_to t (lit s) R.
Proof.
  intros H A B C E _. unfold lit, cs in E.
  apply map_eq_app in E. destruct E as (a & bc & _ & _ & E). apply map_eq_app in E. destruct E as (b & c & _ & E & _). subst B.
  fold (cs b). rewrite !path_of_app, key_cs, path_cs, !app_length. destruct (path_of R); [congruence|]. cbn. lia.
Qed.
Example C212_ex :
  reached tPast /\
  (forall M T2, M = mPost /\ T2 = lit "/all" \/ M = mUser "7" /\ T2 = lit "/posts" \/ M = mUser "17" /\ T2 = lit "/posts" ->
     toks_ok slash false (r1Past ++ M ++ T2) /\ T2 <> [] /\
     (forall k, t_get tPast k <> None -> off slash (r1Past ++ M ++ T2) k) /\
     step_of tPast r1Past M /\ roomy_to tPast r1Past (M ++ T2) /\
     (exists a, t_get tPast (key_of (r1Past ++ M)) = Some a /\ a_leaf a = true) /\
     (forall k, t_get tPast k <> None -> ~ pprefix (key_of (r1Past ++ M)) k)) /\
  params mPost <> 0 /\ ends_pat mPost = false /\
  Query 2 hs tPast "/u/7/posts/all"%string = Ok (QRes GNil false false [("id"%string : gostring, "7"%string : gostring)]) /\
  Query 2 hs tPast "/user/7/posts"%string = Ok (QRes GNil false false [("user-id"%string : gostring, "7"%string : gostring)]) /\
  Query 2 hs tPast "/user/17/posts"%string =
    Ok (QRes (GStr "/user/:user-id"%string) false true [("user-id"%string : gostring, "17"%string : gostring)]).
Proof.
  split; [apply tPast_reached|]. split; [|split; [vm_compute; discriminate|repeat split; run]].
  intros M T2 H.
  destruct H as [(-> & ->)|[(-> & ->)|(-> & ->)]];
    (split; [apply toksb_spec; run|]; split; [discriminate|]; split; [offs|]; split; [apply stepb_spec; run|]; split; [|split]).
  all: try (apply fixed_roomy; vm_compute; discriminate).
  all: try (eexists; split; [vm_compute; reflexivity|reflexivity]).
  all: each_key; intros (c & y & E); vm_compute in E; discriminate E.
Qed.
