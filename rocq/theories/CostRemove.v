(** How many memory accesses Remove makes; how many children a node can have. *)
From Coq Require Import List NArith Bool Arith Lia.
From Verif Require Import GoStr Utf8 Node NodeWf InsertProofs MatchProofs Trie TreeOps Spec Refine Climb ApiRefine Reach Effect
  Derived Derived2 Derived3 Derived4 Derived5 Heap HeapProofs HeapWalk HeapRace HeapGet HeapGetProofs HeapRemove HeapRemoveProofs
  Size Cost CostSet.
Import ListNotations.
Open Scope nat_scope.

Lemma find_cost r c k : forall i h, accesses (p_find r i k c) h <= k.
Proof.
  induction k as [|k IH]; intros i h; cbn [p_find accesses]; [lia|]. destruct (nth_error _ i) as [x|]; [|lia].
  destruct (x =? c); [cbn; lia|]. specialize (IH (S i) h). lia.
Qed.
(** it stops where it has found the child *)
Lemma find_stops r c k : forall i h h' j, run (p_find r i k c) h = Ok (h', Some j) -> i <= j /\ accesses (p_find r i k c) h <= S j - i.
Proof.
  induction k as [|k IH]; intros i h h' j; cbn [p_find run accesses]; [discriminate|]. destruct (nth_error _ i) as [x|]; [|discriminate].
  destruct (x =? c); [cbn [accesses run]; intros E; injection E as <- <-; lia|]. intros E. destruct (IH (S i) h h' j E). lia.
Qed.
Lemma find_keeps r c k : forall i h h' x, run (p_find r i k c) h = Ok (h', x) -> h' = h.
Proof.
  induction k as [|k IH]; intros i h h' x; cbn [p_find run]; [congruence|]. destruct (nth_error _ i) as [y|]; [|discriminate].
  destruct (y =? c); [cbn; congruence|]. apply IH.
Qed.
Lemma read_keeps r k : forall i h h' x, run (p_read r i k) h = Ok (h', x) -> h' = h /\ length x = k.
Proof.
  induction k as [|k IH]; intros i h h' x; cbn [p_read run]; [intros E; injection E as <- <-; auto|].
  destruct (nth_error _ i) as [y|]; [|discriminate]. rewrite run_seq.
  destruct (run (p_read r (S i) k) h) as [[h1 l]| |] eqn:E; try discriminate. cbn [run]. intros X. injection X as <- <-.
  destruct (IH _ _ _ _ E) as [-> <-]. auto.
Qed.
Lemma write_cost r l : forall i h, accesses (p_write r i l) h <= length l.
Proof.
  induction l as [|x l IH]; intros i h; cbn [p_write accesses length]; [lia|]. destruct (i <? _); [|lia].
  match goal with |- S (accesses _ ?m) <= _ => specialize (IH (S i) m) end. lia.
Qed.
Lemma appends_cost grow s l h : accesses (p_appends grow s l) h <= S (Nat.max (length l) (S (sl_len s))).
Proof.
  unfold p_appends. cbn [accesses]. destruct (_ <=? _).
  - match goal with |- S (accesses (seqp ?p ?q) h) <= _ => pose proof (accesses_le p q 0 h (fun _ _ _ => le_n 0)) as A end.
    pose proof (write_cost (sl_arr s) l (sl_len s) h). lia.
  - match goal with |- S (accesses (seqp ?p ?q) h) <= _ => pose proof (accesses_le p q 1 h) as A end.
    pose proof (read_cost (sl_arr s) (sl_len s) 0 h).
    match type of A with ?P -> _ => assert (X : P) by (intros h' x _; cbn; lia) end. specialize (A X). lia.
Qed.
Lemma remove_cost grow s c h n F : hn h s = Some n -> sl_len (hkids n) <= F -> accesses (p_remove grow s c) h <= 2 * F + 6.
Proof.
  intros E L. unfold p_remove. cbn [accesses]. rewrite E.
  pose proof (find_cost (sl_arr (hkids n)) c (sl_len (hkids n)) 0 h) as FC.
  destruct (run (p_find (sl_arr (hkids n)) 0 (sl_len (hkids n)) c) h) as [[h1 [i|]]| |] eqn:R.
  2: { match goal with |- S (accesses (seqp ?p ?q) ?m) <= _ => rewrite (accesses_seq p q _ _ _ R) end. cbn [accesses]. lia. }
  2,3: match goal with |- S (accesses (seqp ?p ?q) ?m) <= _ => pose proof (accesses_le p q 0 m) as A end;
       match type of A with ?P -> _ => assert (X : P) by (intros h' x; rewrite R; discriminate) end;
       specialize (A X); lia.
  destruct (find_stops _ _ _ _ _ _ _ R) as [_ FS]. rewrite (accesses_seq _ _ _ _ _ R). apply find_keeps in R as ->.
  cbn [accesses]. rewrite E. cbn [accesses].
  destruct (i <=? _); [|cbn [accesses]; lia]. cbn [accesses]. rewrite E. destruct (S i <=? sl_len (hkids n)) eqn:LI; [|cbn [accesses]; lia].
  apply Nat.leb_le in LI.
  match goal with |- context [accesses (seqp ?p ?q) h] =>
    match p with p_read _ _ _ => pose proof (accesses_le p q (F + 2) h) as A end end.
  pose proof (read_cost (sl_arr (hkids n)) (sl_len (hkids n) - S i) (S i) h).
  match type of A with ?P -> _ => assert (X : P) end.
  2: { specialize (A X). lia. }
  clear A. intros h' l Q. apply read_keeps in Q as [-> Q].
  match goal with |- accesses (seqp ?p ?q) h <= _ => pose proof (accesses_le p q 1 h) as A end.
  pose proof (appends_cost grow (Sl (sl_arr (hkids n)) i) l h) as B. cbn [sl_len] in B.
  match type of A with ?P -> _ => assert (X : P) end; [|specialize (A X); lia]. clear A.
  intros h' x _. cbn [accesses]. destruct (hn h' s); cbn [accesses]; lia.
Qed.

Theorem removeEx_cost D grow h0 rf t h p dep F :
  plain_reach D t -> D (hdelim h) -> tree_in h0 (root t) -> fan F (root t) -> depth (root t) <= dep ->
  accesses (p_removeEx grow (S rf) dep h (nid (root t)) p) h0 <=
    fold_right (fun w n => (2 + length (runes w)) * (4 * F + 6) + n) (2 * F + 6) (tries h (full h p)).
Proof.
  intros PR Hd TI FN DP. rewrite <- bill_plus. destruct (plain_reach_inv D t PR) as [WT PA].
  pose proof TI as (W & RR & _). pose proof (proj1 (proj2 (proj1 WT))) as WF.
  assert (PT : plain_tree (hdelim h) [] (root t)).
  { intros k Dk. apply (PA _ Hd). now apply (abs_dom _ _ WF (abs_entries t)). }
  destruct (search_paid h0 W rf (hdelim h) F (root t) RR WF PT FN dep DP h (full h p) eq_refl) as [r P].
  unfold p_removeEx. rewrite (accesses_seq _ _ _ _ _ (proj1 P)). destruct P as [P C]. enough (X : forall q a, hs_node r = Some a -> hs_parent r = Some q ->
    accesses (p_remove grow q a) h0 <= 2 * F + 6).
  { destruct (hs_node r) as [a|] eqn:N; [|cbn [accesses]; lia]. destruct (hs_partial r); [cbn [accesses]; lia|].
    destruct (hs_parent r) as [q|] eqn:Q; [|cbn [accesses]; lia]. specialize (X q a eq_refl eq_refl). lia. }
  intros q a Ea Eq. destruct (step_refines rf D h t (entries t) (OLocate p) Hd WT (abs_entries t) PA) as (t1 & E1 & _).
  cbn [t_step] in E1. unfold Locate in E1.
  destruct (search (S rf) h t (full h p)) as [r1| |] eqn:SE; cbn [bind] in E1; try discriminate.
  assert (S' : search (S rf) h (Tr (root t) (next t)) (full h p) = Ok r1) by (destruct t; exact SE).
  rewrite (search_run h0 (S rf) h (root t) (next t) dep _ r1 W RR DP S') in P. injection P as <-. cbn [sids hs_node hs_parent] in *.
  destruct (Trie.s_node r1) as [c|] eqn:N; [|discriminate]. destruct (Trie.s_parent r1) as [f|] eqn:Pa; [|discriminate].
  cbn [option_map] in *. injection Ea as <-. injection Eq as <-.
  destruct (search_in (S rf) h t _ r1 SE c N) as (k & Hk & PO). rewrite Pa in PO.
  destruct PO as [(_ & _ & X)|(kp & f' & Hf & Hc & Ek & X)]; [discriminate|]. injection X as <-.
  pose proof (sub_repr _ _ _ RR (ents_sub _ _ _ _ Hf)) as Rf. apply repr_eq in Rf. destruct Rf as [(s & Es & _ & Ks) _].
  eapply remove_cost; [exact Es|]. unfold fan in FN. rewrite Forall_forall in FN.
  assert (Wf : In f (walk (root t))) by (rewrite (walk_ents []); apply in_map_iff; eexists; split; [|exact Hf]; reflexivity).
  specialize (FN f Wf). rewrite (kids_len _ _ _ _ W Es Ks), map_length. exact FN.
Qed.

Lemma ents_step n : forall pre k m c, In (k, m) (ents pre n) -> In c (nkids m) -> In (k ++ npath c, c) (ents pre n).
Proof.
  induction n as [n IH] using node_ind'. intros pre k m c. rewrite ents_eq. intros [E|H] Hc.
  - injection E as <- <-. right. apply in_flat_map. exists c. split; auto. rewrite ents_eq. now left.
  - right. apply in_flat_map in H. destruct H as (d & Hd & H). apply in_flat_map. exists d. split; auto.
    rewrite Forall_forall in IH. now apply (IH d Hd _ k m).
Qed.
(** ** the children of a node begin with different runes of the keys *)
Theorem fan_bound rf hist t outs (A : list rune) : t_run rf hist newTrie = Ok (t, outs) -> Forall (fun w => incl w A) (written hist) ->
  fan (length A) (root t).
Proof.
  intros E I. pose proof (from_run _ rf hist t outs E (incl_refl _)) as F. rewrite Forall_forall in I.
  pose proof (run_wf rf hist newTrie t outs newTrie_wf E) as WT.
  apply Forall_forall. intros m Hm. rewrite (walk_ents []) in Hm. apply in_map_iff in Hm. destruct Hm as ([k m'] & Em & Hm). cbn in Em. subst m'.
  pose proof (wfn_ents _ _ _ _ (proj1 (proj2 (proj1 WT))) Hm) as Wm. rewrite <- (map_length fst_rune), <- (map_length Some A).
  apply NoDup_incl_length; [now apply wfn_nodup|]. intros x Hx. apply in_map_iff in Hx. destruct Hx as (c & <- & Hc).
  destruct (wfn_kids _ _ Wm Hc) as [Ne _]. unfold fst_rune. destruct (npath c) as [|r q] eqn:Pc; [congruence|].
  cbn [hd_error]. apply in_map. assert (Hk : In (k ++ r :: q, c) (ents [] (root t))).
  { rewrite <- Pc. now apply (ents_step (root t) [] k m c). }
  destruct (F (k ++ r :: q) (info_of c)) as [Z|(a & b & Ha & _ & Z)].
  - unfold ients. apply in_map_iff. eexists. split; [|exact Hk]. reflexivity.
  - destruct k; discriminate.
  - apply (I a Ha). destruct (lcp_prefix_l a b) as [y ->]. rewrite <- Z. apply in_or_app. left. apply in_or_app. right. now left.
Qed.
(** so what a call costs is bounded by the length of its key and the number of runes in use, however many keys there are *)
Theorem any_size D rf hist t outs A h0 h p v grow dep : plain_hist D hist -> t_run (S rf) hist newTrie = Ok (t, outs) ->
  Forall (fun w => incl w A) (written hist) -> D (hdelim h) -> hmode h <> ModeUp -> tree_in h0 (root t) -> depth (root t) <= dep ->
  accesses (p_query (S rf) dep h (nid (root t)) p) h0 <= (2 + length (runes (full h p))) * (4 * length A + 6) + 4 /\
  accesses (p_set grow (nid (root t)) (full h p) v) h0 <= (2 + length (runes (full h p))) * (2 * length A + 2) + length A + 20 /\
  accesses (p_removeEx grow (S rf) dep h (nid (root t)) p) h0 <= (2 + length (runes (full h p))) * (4 * length A + 6) + (2 * length A + 6).
Proof.
  intros PH E I Hd M TI DP. pose proof (plain_reach_hist D rf hist t outs PH E) as PR. pose proof (fan_bound _ _ _ _ A E I) as FN.
  split; [|split].
  - now apply (query_cost_one D).
  - now apply set_cost.
  - pose proof (removeEx_cost D grow h0 rf t h p dep _ PR Hd TI FN DP) as C. unfold tries in C.
    destruct (hmode h); try congruence; cbn [fold_right] in C; exact C.
Qed.
