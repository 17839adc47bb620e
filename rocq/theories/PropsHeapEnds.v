(** Goroutines beside each other all return (C121, C130, C133, C135, C138, C150): only statements.

    [fair n f]: in the endless order of turns [f] everyone of the [n] gets a turn again and again; [map f (seq 0 n)] are the
    first [n] turns. *)
From Coq Require Import String.
From Coq Require Import List NArith ZArith Bool Arith Lia.
From Verif Require Import GoStr Utf8 Node NodeWf Trie TreeOps Spec Refine ApiRefine Reach Effect Derived Heap HeapProofs HeapWalk HeapRace
  HeapGet HeapGetProofs HeapRemove HeapRemoveProofs HeapSee HeapSeeProofs HeapOwn HeapDup HeapFair HeapEnds.
Import ListNotations.
Open Scope nat_scope.
Open Scope list_scope.

Theorem C121_ends grow h0 R jobs f : tree_in h0 R ->
  (forall job k v, In job jobs -> In (k, v) job -> exists a, key_at R k a) -> fair (length jobs) f ->
  exists n, forall p, In p (fst (schedule (map f (seq 0 n)) (map (p_sets grow (nid R)) jobs) h0)) -> p = Ret tt.
Proof. exact (@overwrite_ends grow h0 R jobs f). Qed.
Print Assumptions C121_ends.
Theorem C130_ends grow rf h0 R nx jobs gets dep f : tree_in h0 R -> depth R <= dep ->
  (forall job k v, In job jobs -> In (k, v) job -> exists a, key_at R k a) ->
  (forall h p, In (h, p) gets -> exists r, search rf h (Tr R nx) (full h p) = Ok r) ->
  fair (length jobs + length gets) f ->
  exists n, forall p, In p (fst (schedule (map f (seq 0 n)) (map (writer grow (nid R)) jobs ++ map (reader rf dep (nid R)) gets) h0)) ->
    exists x, p = Ret x.
Proof. exact (@get_ends grow rf h0 R nx jobs gets dep f). Qed.
Print Assumptions C130_ends.
(** beside removers, which may panic (C134): whoever reads returns *)
Theorem C133_ends grow rf D h0 t rems gets dep f : tree_in h0 (root t) -> plain_reach D t -> depth (root t) <= dep ->
  (forall h p, In (h, p) (rems ++ gets) -> D (hdelim h) /\ hmode h <> ModeUp) -> fair (length rems + length gets) f ->
  exists n, let ps := fst (schedule (map f (seq 0 n)) (map (remover grow (S rf) dep (nid (root t))) rems ++
                                                       map (getter (S rf) dep (nid (root t))) gets) h0) in
    (forall p, In p ps -> p = Die \/ exists x, p = Ret x) /\
    (forall i, i < length gets -> exists x, nth_error ps (length rems + i) = Some (Ret x)).
Proof. exact (@get_remove_ends grow rf D h0 t rems gets dep f). Qed.
Print Assumptions C133_ends.
Theorem C135_ends grow rf h0 R nx jobs walks dep f : tree_in h0 R -> depth R <= dep ->
  (forall job k v, In job jobs -> In (k, v) job -> exists a, key_at R k a) ->
  (forall h p, In (h, p) walks -> exists ns, Walk rf h (Tr R nx) p = Ok ns) ->
  fair (length jobs + length walks) f ->
  exists n, forall p, In p (fst (schedule (map f (seq 0 n)) (map (setting grow (nid R)) jobs ++ map (listing rf dep (nid R)) walks) h0)) ->
    exists x, p = Ret x.
Proof. exact (@walk_ends grow rf h0 R nx jobs walks dep f). Qed.
Print Assumptions C135_ends.
Theorem C138_ends grow rf D h0 t rems walks dep f : tree_in h0 (root t) -> plain_reach D t -> depth (root t) <= dep ->
  (forall h p, In (h, p) (rems ++ walks) -> D (hdelim h) /\ hmode h <> ModeUp) -> fair (length rems + length walks) f ->
  exists n, let ps := fst (schedule (map f (seq 0 n)) (map (removing grow (S rf) dep (nid (root t))) rems ++
                                                       map (listing (S rf) dep (nid (root t))) walks) h0) in
    (forall p, In p ps -> p = Die \/ exists x, p = Ret x) /\
    (forall i, i < length walks -> exists x, nth_error ps (length rems + i) = Some (Ret x)).
Proof. exact (@walk_remove_ends grow rf D h0 t rems walks dep f). Qed.
Print Assumptions C138_ends.
Theorem C150_ends grow clone h0 R jobs c dep f : tree_in h0 R -> unborn h0 -> depth R <= dep ->
  (forall job k v, In job jobs -> In (k, v) job -> exists a, key_at R k a) -> fair (length jobs + c) f ->
  exists n, forall p, In p (fst (schedule (map f (seq 0 n))
      (map (overwriting grow (nid R)) jobs ++ repeat (copying grow clone dep (nid R)) c) h0)) -> exists x, p = Ret x.
Proof. exact (@dup_ends grow clone h0 R jobs c dep f). Qed.
Print Assumptions C150_ends.

(** a fair order of three in which the first gets every other turn; beside it nobody but the first gets a turn *)
Definition f3 (n : nat) : nat := nth (n mod 4) [0; 1; 0; 2] 0.
Definition f1 (n : nat) : nat := 0.
Lemma f3_fair : fair 3 f3.
Proof.
  intros i m L. exists (m * 4 + (match i with 0 => 0 | 1 => 1 | _ => 3 end)).
  assert (X : forall r, r < 4 -> (m * 4 + r) mod 4 = r).
  { intros r Lr. rewrite Nat.add_comm, Nat.mod_add; [|lia]. now apply Nat.mod_small. }
  destruct i as [|[|[|]]]; try lia; (split; [lia|unfold f3; rewrite X; [reflexivity|lia]]).
Qed.
Definition jobs3 : list (list (gostring * gval)) := [[(s2b "a"%string, GInt 7)]; [(s2b "b"%string, GInt 8)]; [(s2b "a"%string, GInt 9)]].
Definition turns (f : nat -> nat) (n : nat) : list (prog unit) := fst (schedule (map f (seq 0 n)) (map (p_sets no_room 0) jobs3) h_abc).
Definition is_ret {A} (p : prog A) : bool := match p with Ret _ => true | _ => false end.
Example C121_ends_ex : tree_in h_abc r_abc /\ nid r_abc = 0 /\ fair (length jobs3) f3 /\
  map is_ret (turns f3 40) = [true; false; true] /\ map is_ret (turns f3 80) = [true; true; true] /\
  map is_ret (turns f1 80) = [true; false; false] /\ ~ fair (length jobs3) f1.
Proof.
  split; [exact abc_in|]. split; [reflexivity|]. split; [exact f3_fair|]. split; [vm_compute; reflexivity|]. split; [vm_compute; reflexivity|].
  split; [vm_compute; reflexivity|]. intros F. destruct (F 1 0) as (k & _ & E); [cbn; lia|discriminate].
Qed.
