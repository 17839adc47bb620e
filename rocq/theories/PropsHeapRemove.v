(** RemoveEx on the tree in memory (C131 - C134): only statements.

    [run p h]: the program [p] alone, on the memory [h].  [schedule sch ps h]: the programs [ps] together, one access at a
    time, in the order [sch].  [p_removeEx grow rf dep h rt p]: RemoveEx of the path [p] by the handle [h] on the tree with
    the root at [rt].  [remover], [getter], [setter]: goroutines that remove a path, Query a path, and Set the keys of a
    list; they reply [Gone removed], [Saw q] and [Stored].  [replies ps h i]: what becomes of the goroutines [ps] if number 1
    takes [i] steps, then number 0 runs to its end, then the others do, one after the other.  [may_see t d w q]: [q] says
    that there is no such key, or is the answer for the key [w], or for [w] with the delimiter if [w] is no key, or for a
    key that is a proper prefix of [w]. *)
From Coq Require Import String.
From Coq Require Import List NArith ZArith Bool Arith Lia.
From Verif Require Import GoStr Utf8 Node NodeWf Trie TreeOps Spec Refine ApiRefine Reach Effect Derived Heap HeapProofs HeapWalk HeapRace
  HeapGet HeapGetProofs HeapRemove HeapRemoveProofs.
Import ListNotations.
Open Scope nat_scope.
Open Scope list_scope.

Ltac run := vm_compute; reflexivity.
Definition b (s : string) : gostring := s2b s.

(** ** C131: Remove on the tree in memory *)
(** access by access it does what RemoveEx does to the tree of the model; other trees in memory stay *)
Theorem C131_remove grow rf h h0 t dep p t' n par b : tree_in h0 (root t) -> depth (root t) <= dep ->
  RemoveEx rf h t p = Ok (t', n, par, b) ->
  exists h', run (p_removeEx grow rf dep h (nid (root t)) p) h0 = Ok (h', b) /\ tree_in h' (root t') /\
    forall Q, repr h0 Q -> apart (root t) Q -> repr h' Q.
Proof. exact (@removeEx_run grow rf h h0 t dep p t' n par b). Qed.
Print Assumptions C131_remove.
Example C131_ex : tree_in h_abc r_abc /\ depth r_abc <= 2 /\
  match RemoveEx 1 defaultHdl (Tr r_abc 4) (b "b") with
  | Ok (t', _, _, true) => map fst (ients [] (root t')) = [[]; b "a"; b "c"]
  | _ => False
  end.
Proof. split; [exact abc_in|]. split; [vm_compute; lia|]. run. Qed.

(** ** C132: Get beside a Remove *)
(** a is removed: b, which nobody removes, is reported missing *)
Theorem C132_refuted_miss : exists i, replies [rem (key "a"); get (key "b")] h_abc i = [Ret (Gone true); Ret (Saw none)].
Proof. exact get_beside_other. Qed.
Print Assumptions C132_refuted_miss.
(** apple is removed: Get of apple gives the value of app *)
Theorem C132_refuted_value : exists i, replies [rem (key "apple"); get (key "apple")] (built no_room app_box) i =
  [Ret (Gone true); Ret (Saw (one 49%N))].
Proof. exact get_beside_same. Qed.
Print Assumptions C132_refuted_value.

(** ** C133: what Get may see beside any number of Removes, and what they leave *)
Theorem C133_readers grow rf D h0 t rems gets dep sch : tree_in h0 (root t) -> plain_reach D t -> depth (root t) <= dep ->
  (forall h p, In (h, p) (rems ++ gets) -> D (hdelim h) /\ hmode h <> ModeUp) ->
  let (ps, m) := schedule sch (map (remover grow (S rf) dep (nid (root t))) rems ++ map (getter (S rf) dep (nid (root t))) gets) h0 in
  (exists R', repr m R' /\ nid R' = nid (root t) /\ forall k i, In (k, i) (ients [] R') -> In (k, i) (ients [] (root t))) /\
  (forall p, In p ps -> p <> Spin) /\
  (forall i h p x, nth_error gets i = Some (h, p) -> nth_error ps (length rems + i) = Some x ->
     x <> Die /\ forall y, x = Ret y -> exists q, y = Saw q /\ may_see t (hdelim h) (runes (full h p)) q).
Proof. exact (@race_remove grow rf D h0 t rems gets dep sch). Qed.
Print Assumptions C133_readers.
Definition dotD : rune -> Prop := fun c => c = 46%N.
Definition t_abc : tr := Tr r_abc 4.
Definition hist : list (hdl * op) := map (fun kv => (defaultHdl, OSet (fst kv) (snd kv))) abc.
Example C133_ex : tree_in h_abc (root t_abc) /\ plain_reach dotD t_abc /\ depth (root t_abc) <= 5 /\
  (forall h p, In (h, p) [key "a"; key "b"; key "c"] -> dotD (hdelim h) /\ hmode h <> ModeUp) /\
  replies (map (remover no_room 1 5 (nid (root t_abc))) [key "a"] ++ map (getter 1 5 (nid (root t_abc))) [key "b"; key "c"]) h_abc 4 =
    [Ret (Gone true); Ret (Saw none); Ret (Saw (one 51%N))].
Proof.
  split; [exact abc_in|]. split; [|split; [vm_compute; lia|split; [|run]]].
  - destruct (t_run 1 hist newTrie) as [[t outs]| |] eqn:E; [|vm_compute in E; discriminate..].
    apply (plain_reach_hist dotD 0 hist t_abc outs).
    + repeat (apply Forall_cons; [split; [reflexivity|intros d Hd; unfold dotD in Hd; subst d; vm_compute; reflexivity || exact I]|]).
      apply Forall_nil.
    + rewrite E. vm_compute in E. injection E as <- <-. reflexivity.
  - intros h p H. assert (X : h = defaultHdl) by (destruct H as [X|[X|[X|[]]]]; now injection X). subst h. split; [reflexivity|discriminate].
Qed.

(** ** C134: Removes and Sets beside a Remove *)
(** apple is removed twice: app goes too *)
Theorem C134_refuted_shorter : exists i,
  replies [rem (key "apple"); rem (key "apple"); get (key "app"); get (key "box")] (built no_room app_box) i =
  [Ret (Gone true); Ret (Gone true); Ret (Saw none); Ret (Saw (one 51%N))].
Proof. exact remove_twice. Qed.
Print Assumptions C134_refuted_shorter.
Theorem C134_refuted_panic : exists i, nth_error (replies [rem (key "apple"); rem (key "apple")] (built no_room app_box) i) 1 = Some Die.
Proof. exact remove_twice_panics. Qed.
Print Assumptions C134_refuted_panic.
(** a and c are removed, both with success; c stays *)
Theorem C134_refuted_lost : exists i, replies [rem (key "a"); rem (key "c"); get (key "a"); get (key "b"); get (key "c")] h_abc i =
  [Ret (Gone true); Ret (Gone true); Ret (Saw none); Ret (Saw (one 50%N)); Ret (Saw (one 51%N))].
Proof. exact remove_lost. Qed.
Print Assumptions C134_refuted_lost.
(** a and b are removed, both with success; b stays and c goes *)
Theorem C134_refuted_wrong : exists i, replies [rem (key "a"); rem (key "b"); get (key "a"); get (key "b"); get (key "c")] h_abc i =
  [Ret (Gone true); Ret (Gone true); Ret (Saw none); Ret (Saw (one 50%N)); Ret (Saw none)].
Proof. exact remove_wrong. Qed.
Print Assumptions C134_refuted_wrong.
(** d is set and a removed: d is not there *)
Theorem C134_refuted_set : exists i,
  replies [setter room 0 [(b "d", GStr [52%N])]; remover room 1 5 0 (key "a"); get (key "d"); get (key "b"); get (key "c")] (built room abc) i =
  [Ret Stored; Ret (Gone true); Ret (Saw none); Ret (Saw (one 50%N)); Ret (Saw (one 51%N))].
Proof. exact set_lost. Qed.
Print Assumptions C134_refuted_set.
(** one after the other, all is as it should be *)
Example C134_in_order : replies [rem (key "a"); rem (key "b"); get (key "a"); get (key "b"); get (key "c")] h_abc 0 =
    [Ret (Gone true); Ret (Gone true); Ret (Saw none); Ret (Saw none); Ret (Saw (one 51%N))] /\
  replies [rem (key "apple"); rem (key "apple"); get (key "app"); get (key "box")] (built no_room app_box) 0 =
    [Ret (Gone true); Ret (Gone false); Ret (Saw (one 49%N)); Ret (Saw (one 51%N))].
Proof. exact in_order. Qed.
