(** Reading the tree in memory (C128 - C130): only statements.

    [run p h]: the program [p] alone, on the memory [h].  [schedule sch ps h]: the programs [ps] together, one access at a
    time, in the order [sch].  [p_query rf dep h rt p]: Query of the path [p] by the handle [h] on the tree with the root at
    [rt].  [writer], [reader]: goroutines that Set the keys of a list and that Query one path.  [key_at R k a]: the key [k]
    of [R] is at address [a].  [some_set jobs R a v]: some goroutine sets the key at [a] to [v]. *)
From Coq Require Import String.
From Coq Require Import List NArith ZArith Bool Arith Lia.
From Verif Require Import GoStr Utf8 Node NodeWf Trie TreeOps Spec Refine ApiRefine Reach Effect Derived Heap HeapProofs HeapWalk HeapRace
  HeapGet HeapGetProofs.
Import ListNotations.
Open Scope nat_scope.
Open Scope list_scope.

Ltac run := vm_compute; reflexivity.
Definition b (s : string) : gostring := s2b s.

(** ** C128: Query on the tree in memory *)
(** access by access it gives what Query on the tree of the model gives, and changes nothing *)
Theorem C128_query h0 rf h R nx dep p q : hwf h0 -> repr h0 R -> depth R <= dep ->
  Query rf h (Tr R nx) p = Ok q -> run (p_query rf dep h (nid R) p) h0 = Ok (h0, q).
Proof. exact (@query_run h0 rf h R nx dep p q). Qed.
Print Assumptions C128_query.
Theorem C128_search h0 rf h R nx dep w r : hwf h0 -> repr h0 R -> depth R <= dep ->
  search rf h (Tr R nx) w = Ok r -> run (p_search rf dep h (nid R) w) h0 = Ok (h0, sids r).
Proof. exact (@search_run h0 rf h R nx dep w r). Qed.
Print Assumptions C128_search.
Example C128_ex : tree_in h_abc r_abc /\ depth r_abc <= 2 /\
  Query 1 defaultHdl (Tr r_abc 4) (b "b") = Ok (QRes (GStr [50%N]) false true []) /\
  match run (p_query 1 2 defaultHdl (nid r_abc) (b "b")) h_abc with Ok (_, q) => q = QRes (GStr [50%N]) false true [] | _ => False end.
Proof. split; [exact abc_in|]. split; [vm_compute; lia|]. split; run. Qed.

(** ** C129: Get of a key while another goroutine sets another key *)
(** apple is there; the reader takes [i] steps, the goroutine that sets apricot [j], then the reader goes on *)
Theorem C129_refuted_miss : exists sch, outcome sch = Some (Ret (Got (QRes GNil false false []))).
Proof. eexists. exact get_misses. Qed.
Print Assumptions C129_refuted_miss.
Theorem C129_refuted_panic : exists sch, outcome sch = Some Die.
Proof. eexists. exact get_panics. Qed.
Print Assumptions C129_refuted_panic.
Theorem C129_refuted_nil : exists sch, outcome sch = Some (Ret (Got (QRes GNil false true []))).
Proof. eexists. exact get_nil. Qed.
Print Assumptions C129_refuted_nil.
(** before and after it is there, of course *)
Theorem C129_before_after : outcome (in_turn 0 0) = Some (Ret (Got (QRes (GStr [49%N]) false true []))) /\
  outcome (in_turn 0 30) = Some (Ret (Got (QRes (GStr [49%N]) false true []))).
Proof. exact get_alone. Qed.

(** ** C130: Get while other goroutines overwrite keys that exist *)
Theorem C130_any grow rf h0 R nx jobs gets dep sch : tree_in h0 R -> depth R <= dep ->
  (forall job k v, In job jobs -> In (k, v) job -> exists a, key_at R k a) ->
  (forall h p, In (h, p) gets -> exists r, search rf h (Tr R nx) (full h p) = Ok r) ->
  let (ps, m) := schedule sch (map (writer grow (nid R)) jobs ++ map (reader rf dep (nid R)) gets) h0 in
  (exists R', repr m R' /\ map shape (ents [] R') = map shape (ents [] R)) /\
  (forall p, In p ps -> p <> Die /\ p <> Spin) /\
  (forall i h p r x, nth_error gets i = Some (h, p) -> search rf h (Tr R nx) (full h p) = Ok r ->
     nth_error ps (length jobs + i) = Some (Ret x) -> exists q, x = Got q /\ answers (some_set jobs R) (hdelim h) r q).
Proof. exact (@race_get grow rf h0 R nx jobs gets dep sch). Qed.
Print Assumptions C130_any.
Theorem C130_key grow rf D h0 t jobs gets dep sch : tree_in h0 (root t) -> plain_reach D t -> depth (root t) <= dep ->
  (forall job k v, In job jobs -> In (k, v) job -> exists a, key_at (root t) k a) ->
  (forall h p, In (h, p) gets -> D (hdelim h)) ->
  let (ps, m) := schedule sch (map (writer grow (nid (root t))) jobs ++ map (reader (S rf) dep (nid (root t))) gets) h0 in
  (forall p, In p ps -> p <> Die /\ p <> Spin) /\
  (forall i h p a x, nth_error gets i = Some (h, p) -> t_get t (runes (full h p)) = Some a ->
     nth_error ps (length jobs + i) = Some (Ret x) -> exists q, x = Got q /\
     q_branch q = negb (a_leaf a) /\ q_found q = (a_leaf a || ends_with (hdelim h) (runes (full h p))) /\
     (q_data q = (if a_has a then a_data a else GNil) \/ q_data q = a_data a \/
      exists job k, In job jobs /\ In (k, q_data q) job /\ runes k = runes (full h p))).
Proof. exact (@race_get_key grow rf D h0 t jobs gets dep sch). Qed.
Print Assumptions C130_key.
Definition dotD : rune -> Prop := fun c => c = 46%N.
Definition t_abc : tr := Tr r_abc 4.
Definition hist : list (hdl * op) := map (fun kv => (defaultHdl, OSet (fst kv) (snd kv))) abc.
Definition jobs : list (list (gostring * gval)) := [[(b "a", GInt 7); (b "b", GInt 8)]; [(b "a", GInt 9)]].
Definition gets : list (hdl * gostring) := [(defaultHdl, b "a"); (defaultHdl, b "zoo")].
(** the first reader sees the second value that is written to a, the other finds nothing *)
Example C130_ex : tree_in h_abc (root t_abc) /\ plain_reach dotD t_abc /\ depth (root t_abc) <= 2 /\
  (forall job k v, In job jobs -> In (k, v) job -> exists a, key_at (root t_abc) k a) /\
  (forall h p, In (h, p) gets -> dotD (hdelim h)) /\
  option_map a_data (t_get t_abc (b "a")) = Some (GStr [49%N]) /\
  let ps := fst (schedule (repeat 0 7 ++ repeat 2 6 ++ repeat 1 20 ++ repeat 3 20 ++ repeat 2 20) 
    (map (writer no_room 0) jobs ++ map (reader 1 2 0) gets) h_abc) in
  nth_error ps 2 = Some (Ret (Got (QRes (GInt 9) false true []))) /\
  nth_error ps 3 = Some (Ret (Got (QRes GNil false false []))).
Proof.
  split; [exact abc_in|]. split; [|split; [vm_compute; lia|split; [|split; [|split; [run|split; run]]]]].
  - destruct (t_run 1 hist newTrie) as [[t outs]| |] eqn:E; [|vm_compute in E; discriminate..].
    apply (plain_reach_hist dotD 0 hist t_abc outs).
    + repeat (apply Forall_cons; [split; [reflexivity|intros d Hd; unfold dotD in Hd; subst d; vm_compute; reflexivity || exact I]|]).
      apply Forall_nil.
    + rewrite E. vm_compute in E. injection E as <- <-. reflexivity.
  - assert (A : key_at (root t_abc) (b "a") 1) by (eexists; split; [vm_compute; auto|reflexivity]).
    assert (B : key_at (root t_abc) (b "b") 2) by (eexists; split; [vm_compute; auto|reflexivity]).
    intros job k v [<-|[<-|[]]] H; [destruct H as [X|[X|[]]]|destruct H as [X|[]]]; injection X as <- <-; eauto.
  - intros h p [X|[X|[]]]; injection X as <- <-; reflexivity.
Qed.
