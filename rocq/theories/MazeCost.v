(** What a lookup costs in the tree of Maze.v. *)
From Coq Require Import List NArith ZArith Bool Arith Lia.
From Verif Require Import GoStr Utf8 Node NodeWf InsertProofs MatchProofs Trie TreeOps Spec Refine ApiRefine Heap HeapProofs HeapWalk HeapRace
  HeapGet HeapGetProofs NoId Size Cost Maze.
Import ListNotations.
Open Scope nat_scope.
Open Scope list_scope.

(** a path of [n] names that ends with a colon: it is not there *)
Definition dead (n : nat) : list rune := concat (repeat nam n) ++ [58%N].
Section Lost.
Variable h0 : heap.
Hypothesis W : hwf h0.
Definition owes {A} (c : nat) (x : A) (p : prog A) : Prop := run p h0 = Ok (h0, x) /\ c <= accesses p h0.
Lemma owes_seq {A B} (x : A) (y : B) c e p q : owes c x p -> owes e y (q x) -> owes (c + e) y (seqp p q).
Proof.
  intros [R C] [R1 C1]. split; [now rewrite run_seq, R|]. rewrite (accesses_seq p q _ _ _ R). lia.
Qed.
Lemma owes_node {A} (x : A) c a s k : hn h0 a = Some s -> owes c x (k s) -> owes c x (GetN a k).
Proof. intros E [R C]. split; cbn [run accesses]; rewrite E; [exact R|lia]. Qed.
Lemma owes_elem {A} (x : A) c r i y k : nth_error (ha h0 r) i = Some y -> owes c x (k y) -> owes (S c) x (GetA r i k).
Proof. intros E [R C]. split; cbn [run accesses]; rewrite E; [exact R|lia]. Qed.
Lemma owes_ret {A} (x : A) : owes 0 x (Ret x).
Proof. split; [reflexivity|cbn; lia]. Qed.
Lemma owes_le {A} (x : A) c e p : owes c x p -> e <= c -> owes e x p.
Proof. intros [R C] L. split; auto. lia. Qed.

Lemma two_kids go s a1 a2 x1 x2 c1 c2 kv : kids_of h0 s = [a1; a2] -> sl_len (hkids s) = 2 ->
  owes c1 x1 (go a1 kv) -> hm_matched x1 = false -> hm_partial x1 = false -> owes c2 x2 (go a2 (hm_kv x1)) ->
  hm_matched x2 = false -> hm_partial x2 = false ->
  forall last, hm_kv last = kv -> owes (c1 + c2) x2 (p_each go (sl_arr (hkids s)) 0 2 last).
Proof.
  intros K L O1 M1 P1 O2 M2 P2 last Ek. unfold kids_of in K. rewrite L in K.
  destruct (ha h0 (sl_arr (hkids s))) as [|b1 [|b2 ar]] eqn:A; try discriminate. injection K as -> ->.
  cbn [p_each]. rewrite Ek.
  eapply owes_le.
  - eapply owes_elem; [rewrite A; reflexivity|]. eapply owes_seq; [exact O1|]. cbn beta. rewrite M1, P1. cbn [orb].
    eapply owes_elem; [rewrite A; reflexivity|]. eapply owes_seq; [exact O2|]. cbn beta. rewrite M2, P2. cbn [orb]. apply owes_ret.
  - lia.
Qed.

Variable rf : nat.
Notation dot := 46%N.
Lemma lost n : forall f m fuel lrd kv par, repr h0 m -> comb n f m -> f = nam \/ f = pat /\ lrd = true -> n < fuel ->
  exists kv', owes (2 ^ n) (HM false false None None kv') (p_matchR (S (S rf)) fuel dot (nid m) (nam ++ dead n) lrd par kv).
Proof.
  induction n as [|n IH]; intros f m fuel lrd kv par R C Hf Lf.
  - destruct fuel as [|fuel]; [lia|]. destruct C as [P K]. apply repr_eq in R. destruct R as [(s & E & Ft & Ks) _]. pose proof Ft as (P1 & _).
    rewrite P in P1. change (nam ++ dead 0) with [97%N; 46%N; 58%N].
    destruct s as [hp hs hk hd hde hc ht hty]. cbn [hpath] in P1. subst hp.
    destruct Hf as [-> |[-> ->]]; cbn [app nam pat] in E.
    all: eexists; split; [|cbn [p_matchR accesses]; rewrite E; cbn [Nat.pow]; lia].
    all: repeat (cbn; rewrite ?E); reflexivity.
  - destruct fuel as [|fuel]; [lia|]. destruct C as (P & k1 & k2 & K & C1 & C2). pose proof R as R0. apply repr_eq in R.
    destruct R as [(s & E & Ft & Ks) Rk]. pose proof Ft as (P1 & _). pose proof (kids_len h0 _ s _ W E Ks) as KL.
    rewrite K in Ks, Rk, KL. cbn [map length] in Ks, KL. inversion Rk as [|? ? Rk1 Rk2]; subst. inversion Rk2 as [|? ? Rk3 _]; subst.
    change (nam ++ dead (S n)) with (97%N :: 46%N :: nam ++ dead n). set (w := nam ++ dead n) in *.
    assert (Lw : length w = S (S (length (dead n)))) by reflexivity.
    assert (G : forall kv, exists kv', forall last, hm_kv last = kv -> owes (2 ^ S n) (HM false false None None kv')
      (p_each (fun c kv => p_matchR (S (S rf)) fuel dot c w true (Some (nid m)) kv) (sl_arr (hkids s)) 0 2 last)).
    { intros kv0. destruct (IH nam k1 fuel true kv0 (Some (nid m)) Rk1 C1 (or_introl eq_refl) ltac:(lia)) as (kv1 & O1).
      destruct (IH pat k2 fuel true kv1 (Some (nid m)) Rk3 C2 (or_intror (conj eq_refl eq_refl)) ltac:(lia)) as (kv2 & O2). exists kv2.
      intros last El. eapply owes_le; [eapply (two_kids _ s _ _ _ _ _ _ kv0 Ks KL O1); try reflexivity; [exact O2|exact El]|]. cbn [Nat.pow]. lia. }
    assert (E' : hn h0 (nid m) = Some (HN (npath m) (hpathS s) (hkids s) (hdata s) (hdesc s) (hcmt s) (htag s) (htype s))) by (rewrite <- P1; now destruct s).
    clearbody w. destruct w as [|w0 [|w1 w]]; try discriminate. clear Lw.
    destruct Hf as [Hp|[Hp ->]]; rewrite Hp in E'; unfold nam, pat in E'.
    + destruct (G kv) as (kv' & O). exists kv'.
      split; do 4 (cbn -[p_each Nat.pow]; rewrite E'); cbn [hkids sl_len]; rewrite KL; cbn -[p_each Nat.pow]; rewrite E'; cbn [hkids sl_len]; rewrite KL.
      * apply O. reflexivity.
      * specialize (O (HM true false (Some (nid m)) par kv) eq_refl). destruct O as [_ O]. lia.
    + destruct (G (kv ++ [([], of_runes [97%N])])) as (kv' & O). exists kv'.
      split; do 3 (cbn -[p_each Nat.pow]; rewrite E'); cbn -[p_each Nat.pow]; rewrite KL; cbn -[p_each Nat.pow]; rewrite E'; cbn -[p_each Nat.pow];
        rewrite KL; cbn -[p_each Nat.pow]; rewrite E'; cbn -[p_each Nat.pow]; rewrite KL.
      * apply O. reflexivity.
      * specialize (O (HM false true None None (kv ++ [([], of_runes [97%N])])) eq_refl). destruct O as [_ O].
        match goal with |- context [accesses (p_each ?g ?r 0 2 ?x) h0] => set (X := accesses (p_each g r 0 2 x) h0) end.
        change (2 ^ S n <= X) in O. lia.
Qed.

Lemma no_lead n m fuel par kv : repr h0 m -> comb n pat m -> 0 < fuel ->
  owes 0 (HM false false None None kv) (p_matchR (S (S rf)) fuel dot (nid m) (nam ++ dead n) false par kv).
Proof.
  intros R C Lf. destruct fuel as [|fuel]; [lia|]. apply comb_path in C. apply repr_eq in R. destruct R as [(s & E & Ft & _) _].
  pose proof Ft as (P1 & _). rewrite C in P1. destruct s as [hp hs hk hd hde hc ht hty]. cbn [hpath] in P1. subst hp.
  split; [|lia]. cbn [pat nam app] in E |- *. cbn. rewrite E. cbn. rewrite E. cbn. rewrite E. cbn. reflexivity.
Qed.
Lemma root_lost n m fuel : repr h0 m -> comb (S n) [] m -> S n < fuel ->
  exists kv', owes (2 ^ n) (HM false false None None kv') (p_matchR (S (S rf)) fuel dot (nid m) (nam ++ dead n) false None []).
Proof.
  intros R C Lf. destruct fuel as [|fuel]; [lia|]. destruct C as (P & k1 & k2 & K & C1 & C2). apply repr_eq in R.
  destruct R as [(s & E & Ft & Ks) Rk]. pose proof Ft as (P1 & _). pose proof (kids_len h0 _ s _ W E Ks) as KL.
  rewrite K in Ks, Rk, KL. cbn [map length] in Ks, KL. rewrite Forall_forall in Rk.
  assert (Rk1 := Rk k1 (or_introl eq_refl)). assert (Rk2 := Rk k2 (or_intror (or_introl eq_refl))).
  destruct (lost n nam k1 fuel false [] (Some (nid m)) Rk1 C1 (or_introl eq_refl) ltac:(lia)) as (kv1 & O1).
  pose proof (no_lead n k2 fuel (Some (nid m)) kv1 Rk2 C2 ltac:(lia)) as O2. exists kv1.
  rewrite P in P1. destruct s as [hp hs hk hd hde hc ht hty]. cbn [hpath hkids] in P1, KL. subst hp.
  pose proof (two_kids (fun c kv => p_matchR (S (S rf)) fuel dot c (nam ++ dead n) false (Some (nid m)) kv) _ _ _ _ _ _ _ [] Ks KL O1 eq_refl eq_refl O2 eq_refl eq_refl) as T.
  rewrite Nat.add_0_r in T. specialize (T (HM false false None None []) eq_refl). cbn [hkids] in T.
  split; cbn -[p_each Nat.pow]; rewrite E; cbn -[p_each Nat.pow]; rewrite E; cbn -[p_each Nat.pow]; rewrite KL; cbn -[p_each Nat.pow];
    rewrite E; cbn -[p_each Nat.pow]; rewrite KL; [apply T|].
  destruct T as [_ T]. cbn [nam app] in T. lia.
Qed.
End Lost.

(** ** the history *)
Definition load (n : nat) : list (gostring * gval) := map (fun k => (k, GInt 1%Z)) (keys n).
Definition hist_of (l : list (gostring * gval)) : list (hdl * op) := map (fun e => (defaultHdl, OSetEx (fst e) (snd e))) l.
Lemma sets_run rf l : forall t t', t_sets l t = Ok t' -> exists outs, t_run rf (hist_of l) t = Ok (t', outs).
Proof.
  induction l as [|[k v] l IH]; intros t t' E; cbn [t_sets hist_of map t_run] in *.
  - injection E as <-. now exists [].
  - cbn [t_step fst snd]. unfold SetEx. change (full defaultHdl k) with k.
    destruct (insert_root t k v) as [[t1 ir]| |]; cbn [bind] in E |- *; try discriminate.
    destruct (IH t1 t' E) as (outs & X). fold (hist_of l). rewrite X. cbn [bind]. eauto.
Qed.
Lemma sets_steps l : forall t t', Forall (fun k => ascii k = true) (map fst l) -> t_sets l t = Ok t' -> steps (root t) (map fst l) (root t').
Proof.
  induction l as [|[k v] l IH]; intros t t' F E; cbn [t_sets map fst] in *.
  - injection E as <-. constructor.
  - inversion F as [|? ? F1 F2]; subst. unfold insert_root in E. rewrite (ascii_runes k F1) in E.
    destruct (insertInternal _ (root t) k k v (next t)) as [ir| |] eqn:I; cbn [bind] in E; try discriminate.
    econstructor; [|apply (IH (Tr (ir_node ir) (ir_next ir))); eauto]. cbn [root]. do 5 eexists. split; [exact I|reflexivity].
Qed.
Definition four : list rune := [97%N; 46%N; 58%N; 122%N].
Lemma keys_are n : Forall (fun k => ascii k = true /\ incl k four /\ length k = 2 * n + 1) (keys n).
Proof.
  induction n as [|n IH]; cbn [keys].
  { constructor; [|constructor]. split; [reflexivity|]. split; [|reflexivity]. intros x [<-|[]]. cbn. tauto. }
  rewrite Forall_forall in IH. apply Forall_app.
  split; apply Forall_forall; intros w H; apply in_map_iff in H; destruct H as (x & <- & H); destruct (IH x H) as (A & B & C).
  all: split; [|split]; [exact A| |cbn [nam pat app length]; lia].
  all: intros y [<-|[<-|Hy]]; [cbn; tauto|cbn; tauto|now apply B].
Qed.
Lemma dead_ascii n : ascii (nam ++ dead n) = true.
Proof. unfold dead. induction n as [|n IH]; [reflexivity|]. exact IH. Qed.
Lemma dead_length n : length (dead n) = 2 * n + 1.
Proof. unfold dead. induction n as [|n IH]; [reflexivity|]. cbn [repeat concat nam app length]. lia. Qed.
Lemma comb_depth n : forall f m, comb n f m -> n < depth m.
Proof.
  induction n as [|n IH]; intros f m C; [destruct m; cbn; lia|]. destruct C as (_ & k1 & k2 & K & C1 & _). apply IH in C1.
  enough (depth k1 < depth m) by lia. apply depth_kid. rewrite K. now left.
Qed.

Theorem maze_cost n grow rf : exists t outs h0, t_run (S (S rf)) (hist_of (load (S n))) newTrie = Ok (t, outs) /\
  run (p_sets grow 0 (load (S n))) newHeap = Ok (h0, tt) /\ tree_in h0 (root t) /\
  forall dep, depth (root t) <= dep ->
    (exists kv, run (p_query (S (S rf)) dep defaultHdl (nid (root t)) (nam ++ dead n)) h0 = Ok (h0, QRes GNil false false kv)) /\
    2 ^ n <= accesses (p_query (S (S rf)) dep defaultHdl (nid (root t)) (nam ++ dead n)) h0.
Proof.
  destruct (sets_tree grow (load (S n)) newHeap newTrie tree_in_new eq_refl) as (h0 & t & E & RUN & _ & TI & _).
  destruct (sets_run (S (S rf)) _ _ _ E) as (outs & TR).
  exists t, outs, h0. split; [exact TR|]. split; [exact RUN|]. split; [exact TI|]. intros dep DP. pose proof TI as (W & RR & _).
  assert (M : map fst (load (S n)) = keys (S n)) by (unfold load; rewrite map_map; apply map_id).
  assert (AS : Forall (fun k => ascii k = true) (map fst (load (S n)))).
  { rewrite M. eapply Forall_impl; [|apply keys_are]. intros k Hk. apply Hk. }
  assert (ST : steps (root newTrie) (keys (S n)) (root t)) by (rewrite <- M; exact (sets_steps _ _ _ AS E)).
  pose proof (maze_shape n (root newTrie) (root t) eq_refl eq_refl ST) as C. pose proof (comb_depth _ _ _ C) as CD.
  destruct (root_lost h0 W rf n (root t) dep RR C ltac:(lia)) as (kv & O).
  assert (Q : owes h0 (2 ^ n) (QRes GNil false false kv) (p_query (S (S rf)) dep defaultHdl (nid (root t)) (nam ++ dead n))).
  { unfold p_query. change (full defaultHdl (nam ++ dead n)) with (nam ++ dead n). unfold p_search. cbv zeta. rewrite (ascii_runes _ (dead_ascii n)).
    eapply owes_le; [eapply owes_seq; [eapply owes_seq; [exact O|apply owes_ret]|apply owes_ret]|lia]. }
  destruct Q as [Q1 Q2]. eauto.
Qed.

(** no bound in the length of the path and the number of runes that is less than exponential *)
Theorem maze_refutes (B : nat -> nat -> nat) : (exists n, B (2 * n + 3) 4 < 2 ^ n) ->
  exists rf hist t outs A h0 h p dep, t_run (S rf) hist newTrie = Ok (t, outs) /\
  Forall (fun w => incl w A /\ length w = length (runes (full h p))) (written hist) /\ hmode h <> ModeUp /\ tree_in h0 (root t) /\ depth (root t) <= dep /\
  (exists q, run (p_query (S rf) dep h (nid (root t)) p) h0 = Ok (h0, q)) /\
  B (length (runes (full h p))) (length A) < accesses (p_query (S rf) dep h (nid (root t)) p) h0.
Proof.
  intros (n & L). destruct (maze_cost n (fun _ => 0) 0) as (t & outs & h0 & TR & _ & TI & Q).
  destruct (Q (depth (root t)) (le_n _)) as ((kv & Q1) & Q2).
  exists 1, (hist_of (load (S n))), t, outs, four, h0, defaultHdl, (nam ++ dead n), (depth (root t)).
  change (full defaultHdl (nam ++ dead n)) with (nam ++ dead n). rewrite (ascii_runes _ (dead_ascii n)).
  assert (LD : length (nam ++ dead n) = 2 * n + 3) by (cbn [nam app length]; rewrite dead_length; lia). rewrite LD.
  split; [exact TR|]. split.
  { apply Forall_forall. intros w Hw. unfold written in Hw. apply in_flat_map in Hw. destruct Hw as ([h o] & Ho & Hw).
    apply in_map_iff in Ho. destruct Ho as ([k v] & X & Hk). injection X as <- <-. cbn [fst snd stored] in Hw.
    change (full defaultHdl k) with k in Hw. destruct Hw as [<-|[]].
    apply in_map_iff in Hk. destruct Hk as (k' & X & Hk). injection X as -> _.
    pose proof (keys_are (S n)) as F. rewrite Forall_forall in F. destruct (F k Hk) as (A & B1 & C). rewrite (ascii_runes k A). split; [exact B1|etransitivity; [exact C|lia]]. }
  split; [discriminate|]. split; [exact TI|]. split; [apply le_n|]. split; [eauto|]. cbn [four length]. lia.
Qed.

Lemma poly_exp c d : exists n, c * (2 * n + 3 + 4) ^ d < 2 ^ n.
Proof.
  set (C := 2 * S d + 7). set (M := S (c * C ^ d)). exists (M * S d).
  assert (1 <= M) by (unfold M; lia).
  assert (A : (2 * (M * S d) + 3 + 4) ^ d <= C ^ d * M ^ d).
  { rewrite <- Nat.pow_mul_l. apply Nat.pow_le_mono_l. unfold C. nia. }
  assert (B : M ^ d <= 2 ^ (M * d)).
  { rewrite Nat.pow_mul_r. apply Nat.pow_le_mono_l. apply Nat.lt_le_incl, Nat.pow_gt_lin_r. lia. }
  assert (D : c * C ^ d < 2 ^ M) by (transitivity M; [unfold M; lia|apply Nat.pow_gt_lin_r; lia]).
  assert (E : 2 ^ (M * S d) = 2 ^ (M * d) * 2 ^ M) by (rewrite <- Nat.pow_add_r; f_equal; lia). rewrite E.
  assert (0 < 2 ^ (M * d)) by (apply Nat.neq_0_lt_0, Nat.pow_nonzero; lia).
  apply Nat.le_lt_trans with (c * C ^ d * 2 ^ (M * d)); [|rewrite (Nat.mul_comm (2 ^ (M * d))); apply Nat.mul_lt_mono_pos_r; assumption].
  rewrite <- Nat.mul_assoc. apply Nat.mul_le_mono_l. etransitivity; [exact A|]. apply Nat.mul_le_mono_l, B.
Qed.
Theorem maze_poly c d :
  exists rf hist t outs A h0 h p dep, t_run (S rf) hist newTrie = Ok (t, outs) /\
  Forall (fun w => incl w A /\ length w = length (runes (full h p))) (written hist) /\ hmode h <> ModeUp /\ tree_in h0 (root t) /\ depth (root t) <= dep /\
  (exists q, run (p_query (S rf) dep h (nid (root t)) p) h0 = Ok (h0, q)) /\
  c * (length (runes (full h p)) + length A) ^ d < accesses (p_query (S rf) dep h (nid (root t)) p) h0.
Proof. exact (maze_refutes (fun l a => c * (l + a) ^ d) (poly_exp c d)). Qed.

(** how many keys there are, and of what length *)
Theorem maze_keys n : length (load n) = 2 ^ n /\ Forall (fun k => ascii k = true /\ incl k four /\ length k = 2 * n + 1) (map fst (load n)) /\
  length (nam ++ dead n) = 2 * n + 3.
Proof.
  split; [unfold load; rewrite map_length; apply keys_length|]. split.
  - assert (M : map fst (load n) = keys n) by (unfold load; rewrite map_map; apply map_id). rewrite M. apply keys_are.
  - cbn [nam app length]. rewrite dead_length. lia.
Qed.
