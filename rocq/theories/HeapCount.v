(** Updates of a key one after the other, and what Get then gives. *)
From Coq Require Import List NArith ZArith Bool Arith Lia Permutation.
From Verif Require Import GoStr Utf8 Node NodeWf MatchProofs Trie TreeOps Spec Refine ApiRefine Reach Derived Derived5 Effect Heap HeapProofs HeapWalk
  HeapRace HeapGet HeapGetProofs HeapOwn HeapDup NoId HeapSect HeapLin HeapWork HeapWorkProofs.
Import ListNotations.
Open Scope nat_scope.
Open Scope list_scope.

(** the value at a key, nil if the key is not there *)
Definition value_at (t : tr) (k : key_t) : gval := match t_get t k with Some a => a_data a | None => GNil end.
Lemma update_step D h t p g t' : plain_reach D t -> D (hdelim h) -> (forall d, D d -> plain d (runes (full h p))) ->
  Update h t p (fun old => setData (g old)) = Ok t' ->
  plain_reach D t' /\ exists a, t_get t' (runes (full h p)) = Some a /\ a_has a = true /\ a_data a = g (value_at t (runes (full h p))).
Proof.
  intros R HD PK E. destruct (update_attr h t p (fun old => [NSetData (g old)]) (plain_reach_reached D t R)) as (t1 & E1 & G & _).
  assert (t1 = t') as ->.
  { unfold Update in *. destruct (insert_root _ _ _) as [[t2 ir]| |]; cbn [bind] in *; try discriminate. injection E as <-. injection E1 as <-. reflexivity. }
  split.
  - apply (plain_more D 0 h (OUpdate p (fun old => [NSetData (g old)])) t t' RUnit R HD); [exact PK|]. cbn [t_step]. now rewrite E1.
  - eexists. split; [exact G|]. split; [|unfold value_at; now rewrite (proj1 (nodeops_data _ _))].
    rewrite (proj2 (nodeops_data _ _)). cbn. apply orb_true_r.
Qed.
Lemma update_steps (D : rune -> Prop) rf h p g n : D (hdelim h) -> (forall d, D d -> plain d (runes (full h p))) -> forall t t' xs, plain_reach D t ->
  does_all (S rf) t (repeat (Op (DoUpdate h p g)) n) t' xs ->
  plain_reach D t' /\ value_at t' (runes (full h p)) = Nat.iter n g (value_at t (runes (full h p))) /\
  (n <> 0 -> exists a, t_get t' (runes (full h p)) = Some a /\ a_has a = true).
Proof.
  intros HD PK. induction n as [|n IH]; intros t t' xs R H; cbn [repeat] in H; inversion H as [|? ? t1 x ? ? xs' H1 H2]; subst.
  - split; [exact R|]. split; [reflexivity|congruence].
  - cbn [does_i does] in H1. destruct H1 as [H1 ->]. destruct (update_step D h t p g t1 R HD PK H1) as (R1 & a & A1 & A2 & A3).
    destruct (IH _ _ _ R1 H2) as (R2 & V & P). split; [exact R2|]. split.
    + rewrite V. unfold value_at at 1. rewrite A1, A3. clear. generalize (value_at t (runes (full h p))). intros z. induction n as [|n IH]; [reflexivity|]. cbn [Nat.iter nat_rect] in *. unfold Nat.iter in *. cbn [nat_rect]. now rewrite IH.
    + intros _. destruct n as [|n]; [|apply P; lia]. inversion H2; subst. eauto.
Qed.
Theorem race_count (D : rune -> Prop) grow rf dep h0 R gs sch i k h p g n post ys xs : tree_in h0 R -> Forall (fun g => keeps_to R (fst g)) gs -> apart (map fst gs) ->
  Forall (alone (S rf) (Tr R (nn h0))) gs -> Forall (fun g => depth R + length (snd (fst g)) <= dep) gs ->
  plain_reach D (Tr R (nn h0)) -> D (hdelim h) -> (forall d, D d -> plain d (runes (full h p))) ->
  nth_error gs i = Some (k, repeat (Op (DoUpdate h p g)) (S n) ++ Op (DoGet h p) :: post, ys) ->
  nth_error (fst (schedule sch (map (fun g => p_work grow (S rf) dep (nid R) (snd (fst g))) gs) h0)) i = Some (Ret xs) ->
  exists q, nth_error xs (S n) = Some (Value q) /\ q_data q = Nat.iter (S n) g (value_at (Tr R (nn h0)) (runes (full h p))).
Proof.
  intros T F S A DP PR HD PK HI HX. destruct (race_work grow rf dep h0 R gs gs sch T F S A DP (Permutation_refl _)) as (_ & G & _).
  apply G in HX. rewrite HI in HX. injection HX as ->. rewrite Forall_forall in A. destruct (A _ (nth_error_In _ _ HI)) as [t' Ht]. cbn [fst snd] in Ht.
  apply does_split in Ht. destruct Ht as (t1 & zs & x & us & t2 & D1 & D2 & _ & -> & L). rewrite repeat_length in L.
  destruct (update_steps D rf h p g _ HD PK _ _ _ PR D1) as (R1 & V & P). destruct (P (Nat.neq_succ_0 _)) as (a & A1 & A2).
  cbn [does_i does] in D2. destruct D2 as (-> & q & Q & ->). destruct (query_present D rf h t1 p a R1 HD A1) as (q' & Q' & Q1 & _).
  rewrite Q in Q'. injection Q' as <-. exists q. rewrite <- L, nth_error_app2, Nat.sub_diag by auto. split; [reflexivity|].
  rewrite Q1, A2, L, <- V. unfold value_at. now rewrite A1.
Qed.
