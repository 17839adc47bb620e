(** GetR, GetM and To while other goroutines work on the tree (C155 - C158): only statements.

    [put_all grow rt job]: the goroutine sets the keys and values of [job] one after the other on the tree whose root is at the
    address [rt]; [exporting order rf dep rt (h, q)]: the goroutine calls GetR, GetM or To with the handle [h]; [order] is the
    iteration order of Go maps.  [schedule sch ps h]: the programs [ps] take single memory accesses in the order [sch].
    [tree_in m R]: the tree [R] is in the memory [m].  [t_sets l t]: the keys and values of [l] set one after the other. *)
From Coq Require Import String.
From Coq Require Import List NArith ZArith Bool Arith Lia.
From Verif Require Import GoStr Utf8 Node NodeWf Trie TreeOps Spec Refine Reach Effect Heap HeapProofs HeapWalk
  HeapRace HeapGet HeapGetProofs HeapSee HeapSeeProofs HeapFair Cvter HeapExport HeapExportProofs.
Import ListNotations.
Open Scope nat_scope.
Open Scope list_scope.

Ltac run := vm_compute; reflexivity.

(** ** C155: exports beside goroutines that overwrite values *)
(** nobody panics outside of the call, and each answer is the one of a tree that results from some of the Sets of the jobs;
    a filter looks at the values of such a tree too, maybe another one *)
Theorem C155_exports grow order rf h0 R nx jobs asks dep sch : tree_in h0 R -> wf_tr (Tr R nx) -> depth R <= dep ->
  (forall job k v, In job jobs -> In (k, v) job -> exists a, key_at R k a) ->
  (forall h q, In (h, q) asks -> searched R nx rf h (ask_path q)) ->
  let (ps, m) := schedule sch (map (put_all grow (nid R)) jobs ++ map (exporting order rf dep (nid R)) asks) h0 in
  (forall p, In p ps -> p <> Die /\ p <> Spin) /\
  (forall i h q x, nth_error asks i = Some (h, q) -> nth_error ps (List.length jobs + i) = Some (Ret x) ->
     exists t1 t2, some_sets jobs (Tr R nx) t1 /\ some_sets jobs (Tr R nx) t2 /\ x = Told (reply_of order rf t1 (value_in t2) (h, q))).
Proof. exact (@race_export_sets grow order rf h0 R nx jobs asks dep sch). Qed.
Print Assumptions C155_exports.
(** without a filter only one tree is in the answer *)
Theorem C155_unfiltered order rf t g q : unfiltered (snd q) -> reply_of order rf t g q = reply_plain order rf t q.
Proof. exact (@reply_unfiltered order rf t g q). Qed.
Print Assumptions C155_unfiltered.
(** any number of exports beside each other, with no one writing: the answers of the tree *)
Theorem C155_readers order rf h0 R nx asks dep sch : tree_in h0 R -> wf_tr (Tr R nx) -> depth R <= dep ->
  (forall h q, In (h, q) asks -> searched R nx rf h (ask_path q)) ->
  let (ps, m) := schedule sch (map (exporting order rf dep (nid R)) asks) h0 in
  forall i h q x, nth_error asks i = Some (h, q) -> nth_error ps i = Some (Ret x) ->
    x = Told (reply_of order rf (Tr R nx) (value_in (Tr R nx)) (h, q)).
Proof. exact (@exports_only order rf h0 R nx asks dep sch). Qed.
Print Assumptions C155_readers.
(** if everyone gets turns, everyone comes to an end *)
Theorem C155_ends grow order rf h0 R nx jobs asks dep f : tree_in h0 R -> depth R <= dep ->
  (forall job k v, In job jobs -> In (k, v) job -> exists a, key_at R k a) ->
  (forall h q, In (h, q) asks -> searched R nx rf h (ask_path q)) ->
  fair (List.length jobs + List.length asks) f ->
  exists n, forall p, In p (fst (schedule (map f (seq 0 n)) (map (put_all grow (nid R)) jobs ++ map (exporting order rf dep (nid R)) asks) h0)) ->
    exists x, p = Ret x.
Proof. exact (@export_ends grow order rf h0 R nx jobs asks dep f). Qed.
Print Assumptions C155_ends.
(** two writers; an export of all, one of a key and one that is filtered *)
Definition jobs : list (list (gostring * gval)) := [[(s2b "a", GStr [55%N]); (s2b "b", GStr [56%N])]; [(s2b "b", GStr [57%N])]].
Definition asks : list (hdl * ask) := [(defaultHdl, all_of); (defaultHdl, AskR (s2b "b") []); (defaultHdl, ones_of)].
Definition ended := schedule (repeat 2 9 ++ repeat 0 17 ++ repeat 4 60 ++ repeat 3 60 ++ repeat 1 60 ++ repeat 0 60 ++ repeat 2 60)
  (map (put_all no_room (nid r_abc)) jobs ++ map (exporting as_is 5 5 (nid r_abc)) asks) h_abc.
Example C155_ex : tree_in h_abc r_abc /\ wf_tr (Tr r_abc (nn h_abc)) /\ depth r_abc <= 5 /\
  (forall job k v, In job jobs -> In (k, v) job -> exists a, key_at r_abc k a) /\
  (forall h q, In (h, q) asks -> searched r_abc (nn h_abc) 5 h (ask_path q)) /\
  map (fun p => match p with Ret (Told (Ok (Some m))) => m | _ => [] end) (skipn 2 (fst ended)) =
    [[kv "a" 49%N; kv "b" 56%N; kv "c" 51%N]; [kv "b" 50%N]; []].
Proof.
  split; [exact abc_in|]. split; [exact (proj2 (proj2 abc_in))|]. split; [vm_compute; lia|]. split; [|split; [|run]].
  - intros job k v H1 H2. destruct H1 as [<-|[<-|[]]].
    + destruct H2 as [X|[X|[]]]; injection X as <- <-; eexists; eexists; (split; [|reflexivity]); vm_compute; auto.
    + destruct H2 as [X|[]]; injection X as <- <-; eexists; eexists; (split; [|reflexivity]); vm_compute; auto.
  - intros h q [X|[X|[X|[]]]]; injection X as <- <-; [now left|right; eexists; run|now left].
Qed.

(** ** C156: an export shows the store as it was at one moment *)
(** one goroutine sets a, then b; the map has the new b and the old a, as the tree never had *)
Theorem C156_refuted : exists i j m, export_beside set_ab all_of h_abc i j = gave m /\ ~ In (gave m) (exports_alone set_ab all_of h_abc i j).
Proof. do 3 eexists. split; [exact mixed_export|exact mixed_export_never]. Qed.
Print Assumptions C156_refuted.
(** what the export would give before, between and after the two Sets is among the moments *)
Example C156_ex : Forall (fun m => In (gave m) (exports_alone set_ab all_of h_abc 9 90))
  [[kv "a" 49%N; kv "b" 50%N; kv "c" 51%N]; [kv "a" 55%N; kv "b" 50%N; kv "c" 51%N]; [kv "a" 55%N; kv "b" 56%N; kv "c" 51%N]].
Proof.
  assert (X : forall n l, nth_error (exports_alone set_ab all_of h_abc 9 90) n = Some l -> In l (exports_alone set_ab all_of h_abc 9 90))
    by (intros n l E; exact (nth_error_In _ n E)).
  apply Forall_cons; [apply (X 0); run|]. apply Forall_cons; [apply (X 18); run|]. apply Forall_cons; [apply (X 99); run|]. apply Forall_nil.
Qed.

(** ** C157: GetM with a filter gives no value that the filter rejects *)
(** the filter takes the value "1" only; a is overwritten after the filter has looked at it *)
Theorem C157_refuted : exists i j m v, export_beside set_ab ones_of h_abc i j = gave m /\ mget m (s2b "a") = Some v /\
  forall a k fr b, only_1 (Shown a k fr b v) = false.
Proof. do 4 eexists. split; [exact let_through|]. split; [run|]. reflexivity. Qed.
Print Assumptions C157_refuted.
(** before or after the writer the filter holds *)
Example C157_ex : export_beside set_ab ones_of h_abc 90 90 = gave [kv "a" 49%N] /\ export_beside set_ab ones_of h_abc 0 90 = gave [].
Proof. exact ones_alone. Qed.

(** ** C158: a key that nobody touches is in the export with its value *)
(** apple is there, another goroutine sets apricot: the map has ap, which is no key, and not apple *)
Theorem C158_refuted_phantom : exists i j m, export_beside set_apricot all_of h_apple i j = gave m /\ mget m (s2b "apple") = None /\
  mget m (s2b "ap") <> None.
Proof. do 3 eexists. split; [exact phantom_export|]. split; [run|]. discriminate. Qed.
Print Assumptions C158_refuted_phantom.
(** another goroutine removes a: b is not in the map *)
Theorem C158_refuted_missing : exists i j m, export_beside rem_a all_of h_abc i j = gave m /\ mget m (s2b "b") = None.
Proof. do 3 eexists. split; [exact missing_export|]. run. Qed.
Print Assumptions C158_refuted_missing.
(** before or after the other goroutine the exports are complete *)
Example C158_ex : export_beside set_apricot all_of h_apple 90 90 = gave [kv "apple" 49%N] /\
  export_beside set_apricot all_of h_apple 0 90 = gave [kv "apple" 49%N; kv "apricot" 50%N] /\
  export_beside rem_a all_of h_abc 0 90 = gave [kv "b" 50%N; kv "c" 51%N].
Proof. repeat split; run. Qed.
