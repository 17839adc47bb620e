(** Goroutines beside each other all come to an end (C121, C130, C133, C135, C138, C150): if everyone gets a turn again
    and again, there is a moment from which all have returned.  The memory model itself does not say so: [schedule] may leave
    anyone out. *)
From Coq Require Import List NArith Bool Arith Lia.
From Verif Require Import GoStr Utf8 Node NodeWf Trie TreeOps Spec Refine ApiRefine Reach Effect Derived Heap HeapProofs HeapWalk HeapRace
  HeapGet HeapGetProofs HeapRemove HeapRemoveProofs HeapSee HeapSeeProofs HeapOwn HeapDup HeapFair.
Import ListNotations.
Open Scope nat_scope.

(** all that has stopped and neither panicked nor run forever has returned *)
Lemma ends_if {A} f (ps : list (prog A)) h :
  (forall n p, In p (fst (schedule (map f (seq 0 n)) ps h)) -> p <> Die /\ p <> Spin) -> fair (length ps) f ->
  exists n, forall p, In p (fst (schedule (map f (seq 0 n)) ps h)) -> exists x, p = Ret x.
Proof.
  intros H F. destruct (all_end f ps h F) as [n E]. exists n. intros p Hp. unfold after in E. rewrite Forall_forall in E.
  specialize (E p Hp). destruct (H n p Hp) as [D S]. destruct p; cbn in E; try tauto. eauto.
Qed.
(** the same for one of them, others may panic *)
Lemma ends_one {A} f (ps : list (prog A)) h :
  (forall n p, In p (fst (schedule (map f (seq 0 n)) ps h)) -> p <> Spin) -> fair (length ps) f ->
  exists n, (forall p, In p (fst (schedule (map f (seq 0 n)) ps h)) -> p = Die \/ exists x, p = Ret x) /\
    length (fst (schedule (map f (seq 0 n)) ps h)) = length ps.
Proof.
  intros H F. destruct (all_end f ps h F) as [n E]. exists n. split.
  - intros p Hp. unfold after in E. rewrite Forall_forall in E. specialize (E p Hp). specialize (H n p Hp).
    destruct p; cbn in E; try tauto. eauto.
  - exact (after_length f ps h n).
Qed.

Lemma overwrite_ends grow h0 R jobs f : tree_in h0 R ->
  (forall job k v, In job jobs -> In (k, v) job -> exists a, key_at R k a) -> fair (length jobs) f ->
  exists n, forall p, In p (fst (schedule (map f (seq 0 n)) (map (p_sets grow (nid R)) jobs) h0)) -> p = Ret tt.
Proof.
  intros T K F. destruct (ends_if f (map (p_sets grow (nid R)) jobs) h0) as [n N].
  - intros n p Hp. pose proof (race_overwrite grow h0 R jobs (map f (seq 0 n)) T K) as X.
    destruct (schedule _ _ _) as [ps h]. destruct X as (_ & _ & _ & X & _). exact (X p Hp).
  - now rewrite map_length.
  - exists n. intros p Hp. destruct (N p Hp) as [[] ->]. reflexivity.
Qed.
Lemma get_ends grow rf h0 R nx jobs gets dep f : tree_in h0 R -> depth R <= dep ->
  (forall job k v, In job jobs -> In (k, v) job -> exists a, key_at R k a) ->
  (forall h p, In (h, p) gets -> exists r, search rf h (Tr R nx) (full h p) = Ok r) ->
  fair (length jobs + length gets) f ->
  exists n, forall p, In p (fst (schedule (map f (seq 0 n)) (map (writer grow (nid R)) jobs ++ map (reader rf dep (nid R)) gets) h0)) ->
    exists x, p = Ret x.
Proof.
  intros T L K S F. apply ends_if.
  - intros n p Hp. pose proof (race_get grow rf h0 R nx jobs gets dep (map f (seq 0 n)) T L K S) as X.
    destruct (schedule _ _ _) as [ps h]. destruct X as (_ & X & _). exact (X p Hp).
  - now rewrite app_length, !map_length.
Qed.
Lemma walk_ends grow rf h0 R nx jobs walks dep f : tree_in h0 R -> depth R <= dep ->
  (forall job k v, In job jobs -> In (k, v) job -> exists a, key_at R k a) ->
  (forall h p, In (h, p) walks -> exists ns, Walk rf h (Tr R nx) p = Ok ns) ->
  fair (length jobs + length walks) f ->
  exists n, forall p, In p (fst (schedule (map f (seq 0 n)) (map (setting grow (nid R)) jobs ++ map (listing rf dep (nid R)) walks) h0)) ->
    exists x, p = Ret x.
Proof.
  intros T L K S F. apply ends_if.
  - intros n p Hp. pose proof (race_walk grow rf h0 R nx jobs walks dep (map f (seq 0 n)) T L K S) as X.
    destruct (schedule _ _ _) as [ps h]. destruct X as (_ & X & _). exact (X p Hp).
  - now rewrite app_length, !map_length.
Qed.
Lemma dup_ends grow clone h0 R jobs c dep f : tree_in h0 R -> unborn h0 -> depth R <= dep ->
  (forall job k v, In job jobs -> In (k, v) job -> exists a, key_at R k a) -> fair (length jobs + c) f ->
  exists n, forall p, In p (fst (schedule (map f (seq 0 n))
      (map (overwriting grow (nid R)) jobs ++ repeat (copying grow clone dep (nid R)) c) h0)) -> exists x, p = Ret x.
Proof.
  intros T U L K F. apply ends_if.
  - intros n p Hp. pose proof (race_dup grow clone h0 R jobs c dep (map f (seq 0 n)) T U L K) as X.
    destruct (schedule _ _ _) as [ps h]. destruct X as (_ & X & _). exact (X p Hp).
  - now rewrite app_length, map_length, repeat_length.
Qed.
(** beside removers: these may panic, those that read may not *)
Lemma get_remove_ends grow rf D h0 t rems gets dep f : tree_in h0 (root t) -> plain_reach D t -> depth (root t) <= dep ->
  (forall h p, In (h, p) (rems ++ gets) -> D (hdelim h) /\ hmode h <> ModeUp) -> fair (length rems + length gets) f ->
  exists n, let ps := fst (schedule (map f (seq 0 n)) (map (remover grow (S rf) dep (nid (root t))) rems ++
                                                       map (getter (S rf) dep (nid (root t))) gets) h0) in
    (forall p, In p ps -> p = Die \/ exists x, p = Ret x) /\
    (forall i, i < length gets -> exists x, nth_error ps (length rems + i) = Some (Ret x)).
Proof.
  intros T P L A F.
  pose proof (fun n => race_remove grow rf D h0 t rems gets dep (map f (seq 0 n)) T P L A) as X.
  destruct (ends_one f (map (remover grow (S rf) dep (nid (root t))) rems ++ map (getter (S rf) dep (nid (root t))) gets) h0) as (n & N1 & N2).
  - intros n p Hp. specialize (X n). destruct (schedule _ _ _) as [ps h]. destruct X as (_ & X & _). exact (X p Hp).
  - now rewrite app_length, !map_length.
  - exists n. specialize (X n). destruct (schedule _ _ _) as [ps h]. cbn [fst] in *. split; [exact N1|]. intros i Hi.
    destruct X as (_ & _ & X). rewrite app_length, !map_length in N2.
    destruct (nth_error gets i) as [[g q]|] eqn:Eg; [|apply nth_error_None in Eg; lia].
    destruct (nth_error ps (length rems + i)) as [x|] eqn:Ex; [|apply nth_error_None in Ex; lia].
    destruct (X i g q x Eg Ex) as [ND _]. destruct (N1 x (nth_error_In _ _ Ex)) as [->|[y ->]]; [now elim ND|eauto].
Qed.
Lemma walk_remove_ends grow rf D h0 t rems walks dep f : tree_in h0 (root t) -> plain_reach D t -> depth (root t) <= dep ->
  (forall h p, In (h, p) (rems ++ walks) -> D (hdelim h) /\ hmode h <> ModeUp) -> fair (length rems + length walks) f ->
  exists n, let ps := fst (schedule (map f (seq 0 n)) (map (removing grow (S rf) dep (nid (root t))) rems ++
                                                       map (listing (S rf) dep (nid (root t))) walks) h0) in
    (forall p, In p ps -> p = Die \/ exists x, p = Ret x) /\
    (forall i, i < length walks -> exists x, nth_error ps (length rems + i) = Some (Ret x)).
Proof.
  intros T P L A F.
  pose proof (fun n => race_walk_remove grow rf D h0 t rems walks dep (map f (seq 0 n)) T P L A) as X.
  destruct (ends_one f (map (removing grow (S rf) dep (nid (root t))) rems ++ map (listing (S rf) dep (nid (root t))) walks) h0) as (n & N1 & N2).
  - intros n p Hp. specialize (X n). destruct (schedule _ _ _) as [ps h]. destruct X as (X & _). exact (X p Hp).
  - now rewrite app_length, !map_length.
  - exists n. specialize (X n). destruct (schedule _ _ _) as [ps h]. cbn [fst] in *. split; [exact N1|]. intros i Hi.
    destruct X as (_ & X). rewrite app_length, !map_length in N2.
    destruct (nth_error walks i) as [[g q]|] eqn:Eg; [|apply nth_error_None in Eg; lia].
    destruct (nth_error ps (length rems + i)) as [x|] eqn:Ex; [|apply nth_error_None in Ex; lia].
    destruct (X i g q x Eg Ex) as [ND _]. destruct (N1 x (nth_error_In _ _ Ex)) as [->|[y ->]]; [now elim ND|eauto].
Qed.
