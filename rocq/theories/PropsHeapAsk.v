(** Exports of one's own section while others work in theirs (C186): only statements.

    The goroutines are those of C176: each has the key of a node and calls about keys at or below it.  [Ex order h q] is the call
    [q] of GetR, GetM or To by the handle [h]; [order] is the order in which a Go map is iterated.  [ask_on order rf h t q] is what
    the call gives on the tree [t] when nobody else is there.  [restricts d t k m]: the map [m] has exactly the exported keys of
    [t] that begin with [k], with their values. *)
From Coq Require Import String.
From Coq Require Import List NArith ZArith Bool Arith Lia Permutation.
From Verif Require Import GoStr Utf8 Node NodeWf MatchProofs Cvter Trie TreeOps Spec Refine ApiRefine Reach Derived Derived2 Derived3 Derived4 Nested CvterProofs Effect Heap HeapProofs HeapWalk
  HeapRace HeapGet HeapGetProofs HeapSee HeapExport HeapOwn HeapDup NoId HeapSect HeapFair PropsHeapSect HeapLin HeapWork HeapWorkProofs.
Import ListNotations.
Open Scope nat_scope.
Open Scope list_scope.

Ltac run := vm_compute; reflexivity.

(** ** C186: an export of one's own section *)
(** in any interleaving the export gives what it gives on the tree that the goroutine's own earlier calls leave when nobody else is there *)
Theorem C186_export grow rf dep h0 R gs sch i k pre order h q post ys xs : tree_in h0 R -> Forall (fun g => keeps_to R (fst g)) gs -> apart (map fst gs) ->
  Forall (alone (S rf) (Tr R (nn h0))) gs -> Forall (fun g => depth R + length (snd (fst g)) <= dep) gs ->
  nth_error gs i = Some (k, pre ++ Ex order h q :: post, ys) ->
  nth_error (fst (schedule sch (map (fun g => p_work grow (S rf) dep (nid R) (snd (fst g))) gs) h0)) i = Some (Ret xs) ->
  exists t1, does_all (S rf) (Tr R (nn h0)) pre t1 (firstn (length pre) xs) /\
    nth_error xs (length pre) = Some (Map (ask_on order (S rf) h t1 q)).
Proof. exact (@race_ask grow rf dep h0 R gs sch i k pre order h q post ys xs). Qed.
Print Assumptions C186_export.
(** a goroutine that exports with GetR a key that is there gets exactly the keys below it, with their values, whatever the others do *)
Theorem C186_keys D grow rf dep h0 R gs sch i k order h p defs post ys xs a : tree_in h0 R -> Forall (fun g => keeps_to R (fst g)) gs -> apart (map fst gs) ->
  Forall (alone (S rf) (Tr R (nn h0))) gs -> Forall (fun g => depth R + length (snd (fst g)) <= dep) gs ->
  plain_reach D (Tr R (nn h0)) -> vreach (Tr R (nn h0)) -> D (hdelim h) -> ~ root_name p -> t_get (Tr R (nn h0)) (runes (full h p)) = Some a ->
  nth_error gs i = Some (k, Ex order h (AskR p defs) :: post, ys) ->
  nth_error (fst (schedule sch (map (fun g => p_work grow (S rf) dep (nid R) (snd (fst g))) gs) h0)) i = Some (Ret xs) ->
  exists m, nth_error xs 0 = Some (Map (Ok (Some m))) /\ restricts (hdelim h) (Tr R (nn h0)) (runes (full h p)) m.
Proof.
  intros T F S A DP PR VR HD NR HG HI HX.
  destruct (race_ask grow rf dep h0 R gs sch i k [] order h (AskR p defs) post ys xs T F S A DP HI HX) as (t1 & D1 & E). inversion D1; subst.
  destruct (getR_present D rf h _ p defs a PR VR HD NR HG) as (m & EM & RS). exists m. cbn [ask_on length] in E. rewrite EM in E. auto.
Qed.
Print Assumptions C186_keys.

(** one goroutine exports its section before and after its own changes, the other works at the client *)
Definition dh : hdl := defaultHdl.
Definition sure (m : gmap) : gmap := m.
Definition no_host : hopts := HOpts true false (Some (fun x => negb (str_eqb (sw_key x) (s2b "server.host")))).
Definition serve : list item :=
  [Ex sure dh (AskR (s2b "server.") []); Op (DoSet dh (s2b "server.path") (GInt 7)); Ex sure dh (AskM (s2b "server") no_host);
   Rm dh (s2b "server.host"); Ex sure dh (AskTo (s2b "server") (HOpts false false None))].
Definition tend : list item :=
  [Op (DoSetEx dh (s2b "client.id") (GInt 50)); Rm dh (s2b "client.name"); Op (DoSet dh (s2b "client.ip") (GInt 4)); Ex sure dh (AskR (s2b "client.") [])].
Definition both : list (key_t * list item * list reply) :=
  [(runes (s2b "server."), serve, match run_all 1 (Tr r_cfg (nn h_cfg)) serve with Ok (_, xs) => xs | _ => [] end);
   (runes (s2b "client."), tend, match run_all 1 (Tr r_cfg (nn h_cfg)) tend with Ok (_, xs) => xs | _ => [] end)].
Definition hist_cfg : list (hdl * op) := map (fun kv => (dh, OSet (fst kv) (snd kv))) cfg.
Definition outs_cfg : list out := match t_run 1 hist_cfg newTrie with Ok (_, o) => o | _ => [] end.
Lemma cfg_run : t_run 1 hist_cfg newTrie = Ok (Tr r_cfg (nn h_cfg), outs_cfg).
Proof. run. Qed.
Lemma cfg_plain : plain_tree (hdelim dh) [] r_cfg.
Proof.
  intros k [n H]. assert (A : forallb (fun x => plainb (hdelim dh) false (fst x)) (ents [] r_cfg) = true) by run.
  rewrite forallb_forall in A. exact (A _ H).
Qed.
Example C186_ex : tree_in h_cfg r_cfg /\ Forall (fun g => keeps_to r_cfg (fst g)) both /\ apart (map fst both) /\
  Forall (alone 1 (Tr r_cfg (nn h_cfg))) both /\ Forall (fun g => depth r_cfg + length (snd (fst g)) <= 12) both /\
  plain_reach (eq (hdelim dh)) (Tr r_cfg (nn h_cfg)) /\ vreach (Tr r_cfg (nn h_cfg)) /\ ~ root_name (s2b "server.") /\
  (exists a, t_get (Tr r_cfg (nn h_cfg)) (runes (full dh (s2b "server."))) = Some a) /\
  map snd both =
    [[Map (Ok (Some [(s2b "server.port", GInt 80); (s2b "server.host", GInt 1)])); Stored;
      Map (Ok (Some [(s2b "server", GMap [(s2b "port", GInt 80); (s2b "path", GInt 7)])])); Yes true;
      Map (Ok (Some [(s2b "port", GInt 80); (s2b "path", GInt 7)]))];
     [Old (GInt 5); Yes true; Stored; Map (Ok (Some [(s2b "client.id", GInt 50); (s2b "client.ip", GInt 4)]))]] /\
  fst (schedule (turns 250) (map (fun g => p_work no_room 1 12 (nid r_cfg) (snd (fst g))) both) h_cfg) = map (fun g => Ret (snd g)) both.
Proof.
  assert (IN : exists m, In (runes (s2b "server."), m) (ents [] r_cfg) /\ 1 < length (npath m)).
  { eexists. split; [vm_compute; right; now left|]. vm_compute. lia. }
  split; [exact cfg_in|]. split; [|split; [|split; [|split; [|split; [|split; [|split; [|split; [|split; run]]]]]]]].
  - constructor; [|constructor; [|constructor]]; (split; [|repeat apply Forall_cons; try apply Forall_nil; split]).
    all: try (intros _; split; [discriminate|split; [exact cfg_plain|split; [run|exact I || (cbn; intros; reflexivity)]]]).
    all: try (intros _; split; [discriminate|split; [exact cfg_plain|exact I]]).
    all: try (left; eexists; split; [run|discriminate]).
    + eexists. vm_compute. right. now left.
    + destruct IN as (m & IN & L). right. split; [reflexivity|]. split; [reflexivity|]. exists m, (runes (s2b ".")). split; [exact IN|]. split; [run|exact L].
    + destruct IN as (m & IN & L). right. split; [reflexivity|]. split; [reflexivity|]. exists m, (runes (s2b ".")). split; [exact IN|]. split; [run|exact L].
    + eexists. vm_compute. do 4 right. now left.
  - intros i j g g' N A B [z E]. destruct i as [|[|i]]; [| |destruct i; discriminate]; cbn in A; injection A as <-;
      (destruct j as [|[|j]]; [| |destruct j; discriminate]); cbn in B; injection B as <-; try tauto; cbn in E; discriminate.
  - repeat constructor; unfold alone; eexists; apply run_does; run.
  - repeat constructor.
  - eapply plain_reach_hist; [|exact cfg_run]. repeat (apply Forall_cons; [split; [reflexivity|intros d <-; vm_compute; reflexivity || exact I]|]); apply Forall_nil.
  - exists 1, hist_cfg, outs_cfg. split; [repeat constructor|exact cfg_run].
  - intros [X|[X|X]]; discriminate.
  - eexists. run.
Qed.
