(** Updates in one's own section are not lost (C187): only statements.

    The goroutines are those of C176.  One of them calls Update of the same key n+1 times, each time with a callback that stores
    [g] of the old value that it is given, and then Get.  [value_at t k]: the value of the key [k] in [t], nil if it is not there. *)
From Coq Require Import String.
From Coq Require Import List NArith ZArith Bool Arith Lia Permutation.
From Verif Require Import GoStr Utf8 Node NodeWf MatchProofs Trie TreeOps Spec Refine ApiRefine Reach Derived Effect Heap HeapProofs HeapWalk
  HeapRace HeapGet HeapGetProofs HeapOwn HeapDup NoId HeapSect HeapFair PropsHeapSect HeapLin HeapWork HeapWorkProofs HeapCount.
Import ListNotations.
Open Scope nat_scope.
Open Scope list_scope.

Ltac run := vm_compute; reflexivity.

(** ** C187: no Update in a section of one's own is lost *)
(** in any interleaving the goroutine then reads [g] applied n+1 times to the value at the start, whatever the others do elsewhere *)
Theorem C187_count (D : rune -> Prop) grow rf dep h0 R gs sch i k h p g n post ys xs : tree_in h0 R -> Forall (fun g => keeps_to R (fst g)) gs -> apart (map fst gs) ->
  Forall (alone (S rf) (Tr R (nn h0))) gs -> Forall (fun g => depth R + length (snd (fst g)) <= dep) gs ->
  plain_reach D (Tr R (nn h0)) -> D (hdelim h) -> (forall d, D d -> plain d (runes (full h p))) ->
  nth_error gs i = Some (k, repeat (Op (DoUpdate h p g)) (S n) ++ Op (DoGet h p) :: post, ys) ->
  nth_error (fst (schedule sch (map (fun g => p_work grow (S rf) dep (nid R) (snd (fst g))) gs) h0)) i = Some (Ret xs) ->
  exists q, nth_error xs (S n) = Some (Value q) /\ q_data q = Nat.iter (S n) g (value_at (Tr R (nn h0)) (runes (full h p))).
Proof. exact (@race_count D grow rf dep h0 R gs sch i k h p g n post ys xs). Qed.
Print Assumptions C187_count.

(** the server counts on port, the client on id, in turns *)
Definition dh : hdl := defaultHdl.
Definition more (v : gval) : gval := match v with GInt z => GInt (z + 1) | _ => GInt 0 end.
Definition twice (v : gval) : gval := match v with GInt z => GInt (z + z) | _ => GInt 0 end.
Definition serve : list item := repeat (Op (DoUpdate dh (s2b "server.port") more)) 3 ++ [Op (DoGet dh (s2b "server.port"))].
Definition tend : list item := repeat (Op (DoUpdate dh (s2b "client.id") twice)) 2 ++ [Op (DoGet dh (s2b "client.id")); Rm dh (s2b "client.name")].
Definition both : list (key_t * list item * list reply) :=
  [(runes (s2b "server."), serve, match run_all 1 (Tr r_cfg (nn h_cfg)) serve with Ok (_, xs) => xs | _ => [] end);
   (runes (s2b "client."), tend, match run_all 1 (Tr r_cfg (nn h_cfg)) tend with Ok (_, xs) => xs | _ => [] end)].
Definition hist_cfg : list (hdl * op) := map (fun kv => (dh, OSet (fst kv) (snd kv))) cfg.
Definition outs_cfg : list out := match t_run 1 hist_cfg newTrie with Ok (_, o) => o | _ => [] end.
Lemma cfg_run : t_run 1 hist_cfg newTrie = Ok (Tr r_cfg (nn h_cfg), outs_cfg).
Proof. run. Qed.
Lemma cfg_plain : plain_tree (hdelim dh) [] r_cfg.
Proof.
  intros k [n H]. assert (A : forallb (fun x => plainb (hdelim dh) false (fst x)) (ents [] r_cfg) = true) by run.
  rewrite forallb_forall in A. exact (A _ H).
Qed.
Example C187_ex : tree_in h_cfg r_cfg /\ Forall (fun g => keeps_to r_cfg (fst g)) both /\ apart (map fst both) /\
  Forall (alone 1 (Tr r_cfg (nn h_cfg))) both /\ Forall (fun g => depth r_cfg + length (snd (fst g)) <= 12) both /\
  plain_reach (eq (hdelim dh)) (Tr r_cfg (nn h_cfg)) /\ (forall d, hdelim dh = d -> plain d (runes (full dh (s2b "server.port")))) /\
  value_at (Tr r_cfg (nn h_cfg)) (runes (full dh (s2b "server.port"))) = GInt 80 /\
  map snd both =
    [[Stored; Stored; Stored; Value (QRes (GInt 83) false true [])]; [Stored; Stored; Value (QRes (GInt 20) false true []); Yes true]] /\
  fst (schedule (turns 250) (map (fun g => p_work no_room 1 12 (nid r_cfg) (snd (fst g))) both) h_cfg) = map (fun g => Ret (snd g)) both.
Proof.
  split; [exact cfg_in|]. split; [|split; [|split; [|split; [|split; [|split; [|split; [run|split; run]]]]]]].
  - repeat constructor; try discriminate; try exact cfg_plain.
    + eexists. vm_compute. right. now left.
    + eexists. split; [run|discriminate].
    + eexists. split; [run|discriminate].
    + eexists. split; [run|discriminate].
    + eexists. split; [run|discriminate].
    + eexists. vm_compute. do 4 right. now left.
    + eexists. split; [run|discriminate].
    + eexists. split; [run|discriminate].
    + eexists. split; [run|discriminate].
    + eexists. split; [run|discriminate].
  - intros i j g g' N A B [z E]. destruct i as [|[|i]]; [| |destruct i; discriminate]; cbn in A; injection A as <-;
      (destruct j as [|[|j]]; [| |destruct j; discriminate]); cbn in B; injection B as <-; try tauto; cbn in E; discriminate.
  - repeat constructor; unfold alone; eexists; apply run_does; run.
  - repeat constructor.
  - eapply plain_reach_hist; [|exact cfg_run]. repeat (apply Forall_cons; [split; [reflexivity|intros d <-; vm_compute; reflexivity || exact I]|]); apply Forall_nil.
  - intros d <-. run.
Qed.
