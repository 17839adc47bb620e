(** What a lookup costs at most in any tree, with patterns too: every node is read once for each path that is tried. *)
From Coq Require Import List NArith Bool Arith Lia.
From Verif Require Import GoStr Utf8 Node NodeWf InsertProofs MatchProofs Trie TreeOps Spec Refine Climb ApiRefine Reach Effect
  Derived Derived2 Derived3 Derived4 Derived5 Heap HeapProofs HeapWalk HeapRace HeapGet HeapGetProofs HeapRemove HeapRemoveProofs
  Size Cost CostSet CostRemove.
Import ListNotations.
Open Scope nat_scope.

(** six accesses for each node and one for each rune of its fragment *)
Definition mass (n : node) : nat := fold_right (fun m s => length (npath m) + 6 + s) 0 (walk n).
Lemma mass_app l l' : fold_right (fun m s => length (npath m) + 6 + s) 0 (l ++ l') =
  fold_right (fun m s => length (npath m) + 6 + s) 0 l + fold_right (fun m s => length (npath m) + 6 + s) 0 l'.
Proof. induction l as [|m l IH]; cbn [app fold_right]; lia. Qed.
Definition masses (l : list node) : nat := fold_right (fun c s => mass c + s) 0 l.
Lemma mass_eq n : mass n = length (npath n) + 6 + masses (nkids n).
Proof.
  destruct n as [a p b ks e f g h i]. unfold mass at 1. cbn [walk fold_right npath nkids]. f_equal.
  induction ks as [|k ks IH]; [reflexivity|]. cbn [flat_map masses fold_right]. rewrite mass_app. unfold masses in IH. rewrite IH. reflexivity.
Qed.

Section Reads.
Variable h0 : heap.
Definition costs {A} (c : nat) (p : prog A) : Prop := accesses p h0 <= c /\ forall h' x, run p h0 = Ok (h', x) -> h' = h0.
Lemma costs_ret {A} (x : A) c : costs c (Ret x).
Proof. split; [cbn; lia|]. cbn. congruence. Qed.
Lemma costs_die {A} c : costs c (@Die A).
Proof. split; [cbn; lia|]. cbn. congruence. Qed.
Lemma costs_spin {A} c : costs c (@Spin A).
Proof. split; [cbn; lia|]. cbn. congruence. Qed.
Lemma costs_le {A} c e (p : prog A) : costs c p -> c <= e -> costs e p.
Proof. intros [H K] L. split; auto. lia. Qed.
Lemma costs_seq {A B} c e (p : prog A) (q : A -> prog B) : costs c p -> (forall x, run p h0 = Ok (h0, x) -> costs e (q x)) -> costs (c + e) (seqp p q).
Proof.
  intros [C K] Q. split.
  - pose proof (accesses_le p q e h0) as L. etransitivity; [apply L|lia]. intros h' x R. pose proof (K _ _ R) as ->. now apply Q.
  - intros h' x. rewrite run_seq. destruct (run p h0) as [[h1 y]| |] eqn:R; try discriminate. pose proof (K _ _ eq_refl) as ->.
    apply (Q y eq_refl).
Qed.
Lemma costs_node {A} c a (k : hnode -> prog A) : (forall s, hn h0 a = Some s -> costs c (k s)) -> costs (S c) (GetN a k).
Proof.
  intros H. split; cbn [accesses run]; destruct (hn h0 a) as [s|]; try lia; try discriminate.
  - specialize (proj1 (H s eq_refl)). lia.
  - apply (H s eq_refl).
Qed.
Lemma costs_elem {A} c r i (k : nat -> prog A) : (forall x, nth_error (ha h0 r) i = Some x -> costs c (k x)) -> costs (S c) (GetA r i k).
Proof.
  intros H. split; cbn [accesses run]; destruct (nth_error _ i) as [x|]; try lia; try discriminate.
  - specialize (proj1 (H x eq_refl)). lia.
  - apply (H x eq_refl).
Qed.

Lemma scan_costs a d k : forall word i lrd, costs k (p_scan a d word i k lrd).
Proof.
  induction k as [|k IH]; intros word i lrd; cbn [p_scan]; [apply costs_ret|]. apply costs_node. intros s _.
  destruct (nth_error _ i); [|apply costs_die]. destruct word as [|w word]; [apply costs_die|]. destruct (_ =? w)%N; [apply IH|apply costs_ret].
Qed.
Lemma after_costs d a l wl parent src mt pt : costs 1 (p_after d a l wl parent src mt pt).
Proof.
  unfold p_after. cbv zeta. destruct (S src =? l); [|apply costs_ret]. apply costs_node. intros s _.
  destruct (nth_error _ src); [apply costs_ret|apply costs_die].
Qed.

Hypothesis W : hwf h0.
Variables (rf : nat) (d : rune).
Lemma match_costs : forall n fuel word lrd parent kv, repr h0 n -> costs (mass n - 1) (p_matchR rf fuel d (nid n) word lrd parent kv).
Proof.
  induction n as [n IH] using node_ind'. intros fuel word lrd parent kv R. rewrite mass_eq.
  pose proof R as R0. apply repr_eq in R. destruct R as [(s & E & Ft & K) Rk]. pose proof Ft as (P1 & _).
  pose proof (kids_len h0 _ s _ W E K) as KL. rewrite map_length in KL.
  destruct fuel as [|fuel]; [apply costs_spin|]. cbn [p_matchR].
  replace (length (npath n) + 6 + masses (nkids n) - 1) with (S (length (npath n) + (1 + (1 + (2 + masses (nkids n)))))) by lia.
  apply costs_node. intros s0 E0. rewrite E in E0. injection E0 as <-. rewrite P1.
  destruct (length word =? 0); [apply costs_ret|].
  apply costs_seq; [eapply costs_le; [apply scan_costs|lia]|]. intros [[i lrd1] ch] _.
  apply costs_seq.
  { destruct (i <? _); [|apply costs_ret]. apply costs_node. intros s1 _.
    destruct (retriever _ _ _ _ _ _ _ _ _ _); [apply costs_ret|apply costs_die|apply costs_spin]. }
  intros [r|src dst lrd2 mt pt kv2] _; [apply costs_ret|].
  apply costs_seq; [apply after_costs|]. intros [[[matched partial] child] parent2] _.
  destruct (_ <? length word); [|apply costs_ret].
  cbn [plus]. apply costs_node. intros s1 E1. rewrite E in E1. injection E1 as <-.
  destruct (_ =? 0); [apply costs_ret|]. apply costs_node. intros s1 E1. rewrite E in E1. injection E1 as <-.
  set (go := fun (c : nat) (kv : kvs) => p_matchR rf fuel d c _ lrd2 (Some (nid n)) kv).
  assert (LP : forall ks pre0 last, nkids n = pre0 ++ ks -> costs (masses ks) (p_each go (sl_arr (hkids s)) (length pre0) (length ks) last)).
  { unfold kids_of in K. rewrite KL in K. rewrite Forall_forall in IH, Rk.
    induction ks as [|k ks IHk]; intros pre0 last Ek; cbn [length p_each]; [apply costs_ret|].
    assert (NE : nth_error (ha h0 (sl_arr (hkids s))) (length pre0) = Some (nid k)).
    { rewrite <- (firstn_skipn (length (nkids n)) (ha h0 (sl_arr (hkids s)))), K, Ek, map_app, <- app_assoc.
      rewrite nth_error_app2 by (rewrite map_length; lia). rewrite map_length, Nat.sub_diag. reflexivity. }
    assert (Hk : In k (nkids n)) by (rewrite Ek; apply in_app_iff; right; now left).
    cbn [masses fold_right]. pose proof (mass_eq k) as Mk.
    replace (mass k + fold_right (fun c s => mass c + s) 0 ks) with (S ((mass k - 1) + masses ks)) by (unfold masses; lia).
    apply costs_elem. intros x Ex. rewrite NE in Ex. injection Ex as <-.
    apply costs_seq; [apply (IH k Hk); auto|]. intros x _. destruct (_ || _); [apply costs_ret|].
    specialize (IHk (pre0 ++ [k]) x). rewrite app_length, Nat.add_1_r in IHk. apply IHk. rewrite Ek, <- app_assoc. reflexivity. }
  rewrite KL. now apply (LP (nkids n) []).
Qed.

Variable R : node.
Hypothesis RR : repr h0 R.
Variable dep : nat.
Lemma climb_costs : forall fuel segs kv, segs <> [] -> Forall (fun p => contains (enc1 d) p = false) segs ->
  costs (length (ups_of segs) * mass R) (p_climb rf dep fuel d (nid R) (join_str segs (enc1 d)) kv).
Proof.
  induction fuel as [|fuel IH]; intros segs kv Ne Fo; [apply costs_spin|]. cbn [p_climb].
  rewrite (split_join (enc1 d) segs (enc1_unbordered d) Ne Fo).
  destruct (2 <? length segs) eqn:LT; [|apply costs_ret].
  apply Nat.ltb_lt in LT. destruct (ups_step segs LT) as (U & La & Na & Fa). cbv zeta in *. rewrite U. cbn [length].
  set (a' := firstn (length segs - 2) segs ++ skipn (length segs - 1) segs) in *.
  cbn [Nat.mul]. apply costs_seq; [eapply costs_le; [now apply match_costs|lia]|].
  intros r _. destruct (_ || _); [apply costs_ret|]. apply IH; auto.
Qed.
Lemma search_costs h w : hdelim h = d -> costs (length (tries h w) * mass R) (p_search rf dep h (nid R) w).
Proof.
  intros Hd. unfold p_search, tries. cbv zeta. rewrite Hd. cbn [length Nat.mul].
  apply costs_seq; [eapply costs_le; [now apply match_costs|lia]|]. intros r _. destruct (_ || _); [apply costs_ret|].
  destruct (hmode h); try apply costs_ret. destruct (contains (enc1 d) w) eqn:C; [|apply costs_ret].
  pose proof (climb_costs (S (length w)) (split_str w (enc1 d)) (hm_kv r)) as G.
  assert (Ne : enc1 d <> []) by apply (enc1_unbordered d). destruct (join_split (enc1 d) w Ne) as [Fo J]. rewrite J in G.
  unfold s_ups. unfold ups_of in G. rewrite map_length in *. apply G; [apply split_go_ne|exact Fo].
Qed.
End Reads.

Theorem query_cost_any h0 rf R h p dep : tree_in h0 R ->
  accesses (p_query rf dep h (nid R) p) h0 <= length (tries h (full h p)) * mass R + 4.
Proof.
  intros (W & RR & _). enough (costs h0 (length (tries h (full h p)) * mass R + 4) (p_query rf dep h (nid R) p)) as [C _] by exact C.
  unfold p_query. apply costs_seq; [now apply (search_costs h0 W rf (hdelim h))|]. intros r _.
  destruct (hs_node r) as [a|]; [|apply costs_ret]. destruct (hs_partial r); [apply costs_ret|].
  apply costs_node. intros s1 _. change 3 with (1 + 2). apply costs_seq.
  - destruct (isBranch _); [|apply costs_ret]. apply costs_node. intros s2 _. apply costs_ret.
  - intros f _. apply costs_node. intros s3 _. destruct (hasData _); [|apply costs_ret]. apply costs_node. intros s4 _. apply costs_ret.
Qed.

Lemma mass_le L l : Forall (fun m => length (npath m) <= L) l ->
  fold_right (fun m s => length (npath m) + 6 + s) 0 l <= length l * (L + 6).
Proof. induction 1 as [|m l H _ IH]; cbn [fold_right length]; lia. Qed.
Theorem query_cost_hist rf hist t outs K L h0 rf' h p dep : t_run rf hist newTrie = Ok (t, outs) ->
  incl (written hist) K -> Forall (fun w => length w <= L) K -> tree_in h0 (root t) ->
  accesses (p_query rf' dep h (nid (root t)) p) h0 <= length (tries h (full h p)) * (S (2 * length K - 1) * (L + 6)) + 4.
Proof.
  intros E I Fo TI. pose proof (query_cost_any h0 rf' (root t) h p dep TI) as C.
  assert (M : mass (root t) <= S (2 * length K - 1) * (L + 6)).
  { pose proof (nodes_bound rf hist t outs K E I) as N. unfold mass. etransitivity; [apply (mass_le L)|now apply Nat.mul_le_mono_r].
    apply Forall_forall. intros m Hm. rewrite (walk_ents []) in Hm. apply in_map_iff in Hm. destruct Hm as ([k m'] & Em & Hm). cbn in Em. subst m'.
    rewrite Forall_forall in Fo. pose proof (from_run K rf hist t outs E I k (info_of m)) as F.
    assert (length (npath m) <= length k).
    { clear -Hm. revert Hm. generalize (@nil rune) as pre. induction (root t) as [n IH] using node_ind'. intros pre. rewrite ents_eq.
      intros [X|H]; [injection X as <- <-; rewrite app_length; lia|]. apply in_flat_map in H. destruct H as (c & Hc & H).
      rewrite Forall_forall in IH. now apply (IH c Hc (pre ++ npath n)). }
    destruct F as [->|(a & b & A & B & ->)].
    - unfold ients. apply in_map_iff. exists (k, m). auto.
    - cbn in H. lia.
    - pose proof (prefix_len _ _ (lcp_prefix_l a b)). specialize (Fo a A). lia. }
  etransitivity; [exact C|]. apply Nat.add_le_mono_r. now apply Nat.mul_le_mono_l.
Qed.

(** Remove, when its search comes to an end *)
Theorem removeEx_cost_any grow h0 rf t h p dep F x : tree_in h0 (root t) -> fan F (root t) -> depth (root t) <= dep ->
  RemoveEx rf h t p = Ok x ->
  accesses (p_removeEx grow rf dep h (nid (root t)) p) h0 <= length (tries h (full h p)) * mass (root t) + (2 * F + 6).
Proof.
  intros TI FN DP E. pose proof TI as (W & RR & _). unfold RemoveEx in E.
  destruct (search rf h t (full h p)) as [r| |] eqn:SE; cbn [bind] in E; try discriminate. clear E.
  assert (S' : search rf h (Tr (root t) (next t)) (full h p) = Ok r) by (destruct t; exact SE).
  pose proof (search_run h0 rf h (root t) (next t) dep _ r W RR DP S') as P.
  pose proof (proj1 (search_costs h0 W rf (hdelim h) (root t) RR dep h (full h p) eq_refl)) as C.
  unfold p_removeEx. rewrite (accesses_seq _ _ _ _ _ P). cbn [sids hs_node hs_partial hs_parent].
  destruct (Trie.s_node r) as [c|] eqn:N; cbn [option_map]; [|cbn [accesses]; lia]. destruct (Trie.s_partial r); [cbn [accesses]; lia|].
  destruct (Trie.s_parent r) as [f|] eqn:Pa; cbn [option_map]; [|cbn [accesses]; lia].
  destruct (search_in rf h t _ r SE c N) as (k & Hk & PO). rewrite Pa in PO.
  destruct PO as [(_ & _ & X)|(kp & f' & Hf & Hc & Ek & X)]; [discriminate|]. injection X as <-.
  pose proof (sub_repr _ _ _ RR (ents_sub _ _ _ _ Hf)) as Rf. apply repr_eq in Rf. destruct Rf as [(s & Es & _ & Ks) _].
  enough (accesses (p_remove grow (nid f) (nid c)) h0 <= 2 * F + 6) by lia.
  eapply remove_cost; [exact Es|]. unfold fan in FN. rewrite Forall_forall in FN.
  assert (Wf : In f (walk (root t))) by (rewrite (walk_ents []); apply in_map_iff; eexists; split; [|exact Hf]; reflexivity).
  specialize (FN f Wf). rewrite (kids_len _ _ _ _ W Es Ks), map_length. exact FN.
Qed.
