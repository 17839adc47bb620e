(** What removing does not give back. *)
From Coq Require Import List NArith ZArith Bool Arith Lia.
From Verif Require Import GoStr Utf8 Node NodeWf InsertProofs MatchProofs Trie TreeOps Spec Refine Climb ApiRefine Reach Effect
  Derived Derived2 HeapWalk Size.
Import ListNotations.
Open Scope nat_scope.

(** one round: two keys that part after [c...c] are written and removed again *)
Definition stem (i : nat) : gostring := repeat 99%N (S i).
Definition round (i : nat) : list (hdl * op) :=
  [(defaultHdl, OSet (stem i ++ [97%N]) (GInt 0%Z)); (defaultHdl, OSet (stem i ++ [98%N]) (GInt 1%Z));
   (defaultHdl, ORemove (stem i ++ [97%N])); (defaultHdl, ORemove (stem i ++ [98%N]))].
Fixpoint churn (n : nat) : list (hdl * op) := match n with O => [] | S n => churn n ++ round n end.

(** nothing but empty branch nodes, all of them on [c...c] *)
Definition hollow (m : smap) : Prop :=
  forall k a, In (k, a) m -> a = bare false false GNil /\ ~ In 97%N k /\ ~ In 98%N k.

Lemma stem_in c i : In c (stem i) -> c = 99%N.
Proof. intros H. now apply repeat_spec in H. Qed.
Lemma stem_ascii i c : (c <? 128)%N = true -> runes (stem i ++ [c]) = stem i ++ [c].
Proof.
  intros C. apply ascii_runes. unfold ascii. apply forallb_forall. intros x H. apply in_app_iff in H.
  destruct H as [H|[<-|[]]]; auto. apply stem_in in H. now subst.
Qed.
Lemma stem_blank i c : c <> 32%N -> replace_byte 32 45 (stem i ++ [c]) = stem i ++ [c].
Proof.
  intros C. apply blank_free_replace. intros H. apply in_app_iff in H. destruct H as [H|[H|[]]]; [|congruence].
  apply stem_in in H. discriminate.
Qed.
Lemma not_prefix i c k : ~ In c k -> has_prefix (stem i ++ [c]) k = false.
Proof.
  intros H. destruct (has_prefix _ k) eqn:E; auto. exfalso. apply has_prefix_ex in E. destruct E as [x ->]. apply H.
  rewrite !in_app_iff. left. right. now left.
Qed.
Lemma common_in c w k : In c (common w k) -> In c w /\ In c k.
Proof.
  revert k. induction w as [|x w IH]; intros [|y k]; cbn; try easy. destruct (N.eqb_spec x y) as [->|]; [|easy].
  intros [->|H]; [auto|]. destruct (IH _ H). auto.
Qed.
Lemma hit m w : w <> [] -> In w (skeys m) -> runes w = w -> s_search dotChar false m w = SFound w.
Proof. intros Ne H R. rewrite <- R at 2. apply search_mem. right. rewrite R. now apply smem_in. Qed.
Lemma in_keys (k : skey) (m : smap) : In k (skeys m) -> exists a, In (k, a) m.
Proof. intros H. apply in_map_iff in H. destruct H as ([k' a] & <- & H). eauto. Qed.
Lemma keys_filter f k m : In k (skeys m) -> (forall a, f (k, a) = true) -> In k (skeys (filter f m)).
Proof. intros H F. apply in_keys in H. destruct H as [a H]. apply in_map_iff. exists (k, a). split; auto. now apply filter_In. Qed.

Lemma round_spec m i : hollow m ->
  let m' := fst (s_run (views (round i)) m) in
  hollow m' /\ In (stem i) (skeys m') /\ (forall k, In k (skeys m) -> In k (skeys m')).
Proof.
  intros H. cbv zeta.
  set (w1 := stem i ++ [97%N]). set (w2 := stem i ++ [98%N]).
  set (m1 := s_set w1 (GInt 0%Z) m). set (m2 := s_set w2 (GInt 1%Z) m1).
  set (m3 := filter (fun e => negb (has_prefix w1 (fst e))) m2).
  set (m4 := filter (fun e => negb (has_prefix w2 (fst e))) m3).
  assert (R1 : runes w1 = w1) by now apply stem_ascii. assert (R2 : runes w2 = w2) by now apply stem_ascii.
  assert (K1 : In w1 (skeys m2)).
  { unfold m2, s_set, skeys. cbn [map]. right. rewrite map_app. apply in_app_iff. right. now left. }
  assert (K2 : In w2 (skeys m3)).
  { apply keys_filter; [now left|]. intros a. cbn [fst]. unfold w1. rewrite not_prefix; auto.
    unfold w2. rewrite in_app_iff. intros [X|[X|[]]]; [apply stem_in in X; discriminate|discriminate]. }
  assert (E : fst (s_run (views (round i)) m) = m4).
  { assert (T1 : s_step (view_of defaultHdl) m (OSet w1 (GInt 0%Z)) = (m1, ROld (s_old w1 m))).
    { cbn [s_step view_of v_delim v_pfx v_up]. unfold full. cbn [defaultHdl hprefix is_nil].
      replace (replace_byte 32 45 w1) with w1 by (symmetry; now apply stem_blank). now rewrite R1. }
    assert (T2 : s_step (view_of defaultHdl) m1 (OSet w2 (GInt 1%Z)) = (m2, ROld (s_old w2 m1))).
    { cbn [s_step view_of v_delim v_pfx v_up]. unfold full. cbn [defaultHdl hprefix is_nil].
      replace (replace_byte 32 45 w2) with w2 by (symmetry; now apply stem_blank). now rewrite R2. }
    assert (T3 : s_step (view_of defaultHdl) m2 (ORemove w1) = (m3, RBool true)).
    { cbn [s_step view_of v_delim v_pfx v_up]. unfold full. cbn [defaultHdl hprefix is_nil hdelim hmode].
      match goal with |- context [s_search ?d ?u m2 w1] => change (s_search d u m2 w1) with (s_search dotChar false m2 w1) end.
      rewrite (hit m2 w1); auto. unfold w1. discriminate. }
    assert (T4 : s_step (view_of defaultHdl) m3 (ORemove w2) = (m4, RBool true)).
    { cbn [s_step view_of v_delim v_pfx v_up]. unfold full. cbn [defaultHdl hprefix is_nil hdelim hmode].
      match goal with |- context [s_search ?d ?u m3 w2] => change (s_search d u m3 w2) with (s_search dotChar false m3 w2) end.
      rewrite (hit m3 w2); auto. unfold w2. discriminate. }
    unfold round, views. fold w1 w2. cbn [map fst snd]. cbn [s_run]. now rewrite T1, T2, T3, T4. }
  rewrite E.
  assert (NP : forall k, ~ In 97%N k -> ~ In 98%N k -> In k (skeys m2) -> In k (skeys m4)).
  { intros k A B X. apply keys_filter; [apply keys_filter; auto|]; intros a; cbn [fst];
      [unfold w1|unfold w2]; rewrite not_prefix; auto. }
  assert (S7 : ~ In 97%N (stem i)) by (intros X; apply stem_in in X; discriminate).
  assert (S8 : ~ In 98%N (stem i)) by (intros X; apply stem_in in X; discriminate).
  assert (C12 : common w2 w1 = stem i).
  { unfold w1, w2. change common with lcp. apply (lcp_diff (stem i) 98%N 97%N [] []). discriminate. }
  assert (N1 : forall k a, In (k, a) m1 -> (k, a) = (k, a) /\ (k = w1 \/ (a = bare false false GNil /\ ~ In 97%N k /\ ~ In 98%N k))).
  { intros k a X. split; auto. destruct X as [X|X]; [left; congruence|]. right. apply in_app_iff in X. destruct X as [X|X]; [|now apply H].
    unfold forks in X. apply in_map_iff in X. destruct X as (k0 & X & Y). apply pair_equal_spec in X. destruct X as [<- <-]. apply filter_In in Y.
    destruct Y as [Y _]. apply in_keys in Y. destruct Y as [a0 Y]. destruct (H _ _ Y) as (_ & P & Q). split; auto.
    split; intros Z; apply common_in in Z; tauto. }
  split; [|split].
  - intros k a X. apply filter_In in X. destruct X as [X P2]. apply filter_In in X. destruct X as [X P1]. cbn [fst] in P1, P2.
    assert (k <> w1 /\ k <> w2) as [D1 D2].
    { pose proof (has_prefix_app w1 []) as Y1. pose proof (has_prefix_app w2 []) as Y2. rewrite app_nil_r in Y1, Y2.
      split; intros ->; [rewrite Y1 in P1|rewrite Y2 in P2]; discriminate. }
    destruct X as [X|X]; [congruence|]. apply in_app_iff in X. destruct X as [X|X].
    + unfold forks in X. apply in_map_iff in X. destruct X as (k0 & X & Y). apply pair_equal_spec in X. destruct X as [<- <-]. apply filter_In in Y.
      destruct Y as [Y _]. apply in_keys in Y. destruct Y as [a0 Y]. split; auto.
      destruct (N1 _ _ Y) as (_ & [->|(_ & P & Q)]); [rewrite C12; auto|].
      split; intros Z; apply common_in in Z; tauto.
    + destruct (N1 _ _ X) as (_ & [->|Q]); [congruence|exact Q].
  - apply NP; auto. unfold m2, s_set, skeys. cbn [map]. right. rewrite map_app. apply in_app_iff.
    destruct (smem m1 (stem i)) eqn:M; [right; now apply smem_in|]. left.
    unfold forks. rewrite map_map. cbn [fst]. apply in_map_iff. exists w1. split; [exact C12|]. apply filter_In.
    rewrite C12, M. split; auto. now left.
  - intros k X. pose proof X as Y. apply in_keys in Y. destruct Y as [a Y]. destruct (H _ _ Y) as (_ & P & Q). apply NP; auto.
    unfold m2, s_set, skeys. cbn [map]. right. rewrite map_app. apply in_app_iff. right.
    unfold m1, s_set, skeys. cbn [map]. right. rewrite map_app. apply in_app_iff. now right.
Qed.

Lemma s_run_app h1 : forall h2 m, fst (s_run (h1 ++ h2) m) = fst (s_run h2 (fst (s_run h1 m))).
Proof.
  induction h1 as [|[v o] h1 IH]; intros h2 m; [reflexivity|]. cbn [app s_run].
  destruct (s_step v m o) as [m1 r]. specialize (IH h2 m1).
  destruct (s_run (h1 ++ h2) m1), (s_run h1 m1). exact IH.
Qed.
Lemma churn_spec n : let m := fst (s_run (views (churn n)) s_init) in
  hollow m /\ (forall i, i < n -> In (stem i) (skeys m)) /\ In [] (skeys m).
Proof.
  cbv zeta. induction n as [|n (H & I & R)].
  - split; [|split; [lia|now left]]. intros k a [E|[]]. injection E as <- <-. cbn. auto.
  - cbn [churn]. unfold views. rewrite map_app. fold (views (churn n)) (views (round n)). rewrite s_run_app.
    destruct (round_spec _ n H) as (H' & S' & K). split; [exact H'|]. split; [|auto].
    intros i L. destruct (Nat.eq_dec i n) as [->|]; auto. apply K, I. lia.
Qed.
Lemma churn_plain n : plain_hist (fun d => d = dotChar) (churn n).
Proof.
  induction n as [|n IH]; [constructor|]. cbn [churn]. apply Forall_app. split; auto.
  assert (P : forall c, (c <? 128)%N = true -> c <> 32%N -> c <> colon -> c <> star -> plain dotChar (runes (replace_byte 32 45 (stem n ++ [c])))).
  { intros c C B X Y. rewrite stem_blank, stem_ascii by auto. unfold plain.
    assert (G : forall k lrd, plainb dotChar lrd (repeat 99%N k ++ [c]) = true).
    { induction k as [|k IHk]; intros lrd; cbn [repeat app plainb].
      - apply N.eqb_neq in X. apply N.eqb_neq in Y. rewrite X, Y. cbn. now rewrite andb_false_r.
      - rewrite IHk. cbn. now rewrite andb_false_r. }
    apply G. }
  unfold round. repeat apply Forall_cons; try apply Forall_nil; cbn [fst snd]; split; try reflexivity; intros d ->; cbn; auto;
    apply P; easy.
Qed.
Lemma churn_written n w : In w (written (churn n)) -> In 97%N w \/ In 98%N w.
Proof.
  induction n as [|n IH]; [easy|]. cbn [churn]. unfold written. rewrite flat_map_app. intros H. apply in_app_iff in H.
  destruct H as [H|H]; [now apply IH|]. cbn [round flat_map fst snd stored app] in H.
  unfold full in H. cbn [defaultHdl hprefix is_nil] in H. rewrite !stem_blank, !stem_ascii in H by easy.
  destruct H as [<-|[<-|[]]]; rewrite !in_app_iff; cbn; auto.
Qed.

(** all keys written are gone, every node left is an empty branch node, and there are more than [n] of them *)
Theorem leak n : exists t outs, t_run 1 (churn n) newTrie = Ok (t, outs) /\
  (forall w, In w (written (churn n)) -> t_get t w = None) /\
  (forall k a, t_get t k = Some a -> a = bare false false GNil) /\
  n < length (walk (root t)).
Proof.
  destruct (run_refines 0 (fun d => d = dotChar) (churn n) newTrie s_init newTrie_wf newTrie_abs) as (t & E & WT & A & _).
  { intros d _. apply plain_init. }
  { apply churn_plain. }
  destruct (churn_spec n) as (H & I & R). set (m := fst (s_run (views (churn n)) s_init)) in *.
  exists t. eexists. split; [exact E|]. split; [|split].
  - intros w Hw. rewrite (abs_get t m) by auto. apply sget_none. intros X. apply in_keys in X. destruct X as [a X].
    destruct (H _ _ X) as (_ & P & Q). destruct (churn_written n w Hw); auto.
  - intros k a X. rewrite (abs_get t m) in X by auto. apply sget_in in X. apply (H _ _ X).
  - rewrite (walk_ents []), map_length, <- (map_length fst). change (n < ?x) with (S n <= x).
    replace (S n) with (length (([] : skey) :: map stem (seq 0 n))) by (cbn; now rewrite map_length, seq_length).
    apply NoDup_incl_length.
    + constructor.
      * intros X. apply in_map_iff in X. destruct X as (i & X & _). discriminate.
      * apply FinFun.Injective_map_NoDup; [|apply seq_NoDup]. intros i j X. apply (f_equal (@length _)) in X.
        unfold stem in X. rewrite !repeat_length in X. lia.
    + intros k X. assert (In k (skeys m)) as Y.
      { destruct X as [<-|X]; auto. apply in_map_iff in X. destruct X as (i & <- & X). apply in_seq in X. apply I. lia. }
      apply (abs_dom (root t) m (proj1 (proj2 (proj1 WT))) A) in Y. destruct Y as [x Y]. apply in_map_iff. now exists (k, x).
Qed.
