(** Walking a subtree: which nodes Walk(path) visits. *)
From Coq Require Import String List NArith ZArith Bool Arith Lia.
From Verif Require Import GoStr Utf8 Node NodeWf MatchProofs Trie Spec TreeOps Refine Climb ApiRefine Reach Effect
  Derived Derived2 Derived3.
Import ListNotations.
Open Scope nat_scope.
Open Scope list_scope.

(** [ns] are the nodes of the keys that start with [k], each once *)
Definition visits (t : tr) (k : skey) (ns : list node) : Prop :=
  exists ks, NoDup ks /\ length ks = length ns /\
    forall k' a, (t_get t k' = Some a /\ prefix k k') <->
      exists n, In (k', n) (combine ks ns) /\
        a = Attr (ndata n) (ndesc n) (ncmt n) (ntag n) (isLeaf n) (hasData n) (modified n).

Lemma ents_sub pre s k n : In (k, n) (ents pre s) ->
  exists pre', k = pre' ++ npath n /\ incl (ents pre' n) (ents pre s).
Proof.
  revert pre. induction s as [s IH] using node_ind'. intros pre H.
  rewrite ents_eq in H. destruct H as [E|H].
  - injection E as <- <-. exists pre. split; auto. apply incl_refl.
  - apply in_flat_map in H. destruct H as (c & Hc & H). rewrite Forall_forall in IH.
    destruct (IH c Hc _ H) as (pre' & E & I). exists pre'. split; auto.
    intros e He. rewrite ents_eq. right. apply in_flat_map. eauto.
Qed.

Lemma visits_sub t k n : wf_tr t -> In (k, n) (ents [] (root t)) -> visits t k (walk n).
Proof.
  intros WT H. pose proof (proj1 (proj2 (proj1 WT))) as W.
  destruct (ents_sub _ _ _ _ H) as (pre & E & I).
  exists (map fst (ents pre n)). rewrite (walk_ents pre n).
  split; [apply ents_nodup; eapply wfn_ents; eauto|]. split; [now rewrite !map_length|].
  assert (C : forall l : list (key_t * node), combine (map fst l) (map snd l) = l).
  { induction l as [|[a b] l IH]; cbn; congruence. }
  intros k' a. rewrite C. unfold t_get, entries. rewrite entries_lookup. fold (look (root t) k').
  split.
  - intros [G P]. destruct (look (root t) k') as [i|] eqn:L; inversion G; subst a.
    apply look_in in L; auto. apply in_ients in L. destruct L as (m & Hm & <-). exists m.
    destruct (ents_below _ _ _ _ _ _ W H Hm P) as (pre' & E' & B).
    assert (pre' = pre) by (rewrite E in E'; now apply app_inv_tail in E'). subst pre'.
    split; auto. unfold attr_of. cbn. now rewrite isLeaf_bit, hasData_bit, modified_bit.
  - intros (m & Hm & ->). split.
    + rewrite (ents_look _ _ _ W (I _ Hm)). cbn. unfold attr_of. cbn.
      now rewrite isLeaf_bit, hasData_bit, modified_bit.
    + rewrite E. eapply ents_prefix; eauto.
Qed.

(** a path that ends with the delimiter and names a key: exactly the keys that start with
    that key *)
Theorem walk_subtree D rf h t path k :
  plain_reach D t -> D (hdelim h) -> path <> [] -> last (runes path) 0%N = hdelim h ->
  s_search (hdelim h) (is_up h) (entries t) path = SFound k ->
  exists ns, Walk (S rf) h t path = Ok ns /\ visits t k ns.
Proof.
  intros R Hd Hne Hl E. destruct (plain_reach_search D rf h t path R Hd) as (r & Er & SO & _).
  rewrite E in SO. destruct SO as (n & Hn & Hp & Hs & _).
  unfold Walk. rewrite Er. destruct path; [easy|]. cbn [is_nil bind]. rewrite Hp, Hl, N.eqb_refl, Hs.
  eexists. split; [reflexivity|]. apply visits_sub; auto. apply (reached_wf t (plain_reach_reached D t R)).
Qed.

(** a path that does not end with the delimiter: the subtree of the parent of the key, that
    is, of the longest proper beginning of it that is a key *)
Theorem walk_parent D rf h t path k :
  plain_reach D t -> D (hdelim h) -> path <> [] -> last (runes path) 0%N <> hdelim h ->
  s_search (hdelim h) (is_up h) (entries t) path = SFound k -> k <> [] ->
  exists ns kp, Walk (S rf) h t path = Ok ns /\ visits t kp ns /\ pprefix kp k /\
    forall k', t_get t k' <> None -> pprefix k' k -> prefix k' kp.
Proof.
  intros R Hd Hne Hl E Hk. destruct (plain_reach_search D rf h t path R Hd) as (r & Er & SO & _).
  rewrite E in SO. destruct SO as (n & Hn & Hp & Hs & SP).
  destruct k as [|c k]; [easy|]. destruct SP as (kp & p & Hkp & Hin & Ek & Hpar).
  pose proof (reached_wf t (plain_reach_reached D t R)) as WT.
  pose proof (proj1 (proj2 (proj1 WT))) as W.
  unfold Walk. rewrite Er. destruct path as [|c0 path]; [easy|]. cbn [is_nil bind].
  rewrite Hp, (proj2 (N.eqb_neq _ _) Hl), Hpar.
  eexists _, kp. split; [reflexivity|]. split; [now apply visits_sub|].
  destruct (wfn_kids _ _ (wfn_ents _ _ _ _ W Hkp) Hin) as [Hnp Wn].
  assert (P : pprefix kp (c :: k)).
  { rewrite Ek. destruct (npath n) as [|x y]; [easy|]. now exists x, y. }
  split; auto. intros k' G P'.
  apply entries_keys in G. apply (abs_dom _ _ W (abs_entries t)) in G. destruct G as [m Hm].
  destruct (prefix_comparable k' kp (c :: k) (pprefix_prefix _ _ P') (pprefix_prefix _ _ P)) as [X|X]; auto.
  destruct (prefix_cases _ _ X) as [<-|X']; [apply prefix_refl|]. exfalso.
  (* k' is strictly between kp and its child *)
  destruct (ents_below _ _ _ _ _ _ W Hkp Hm X) as (pre & Epre & Hb).
  rewrite ents_eq in Hb. destruct Hb as [Hb|Hb].
  { injection Hb as Eq _. rewrite <- Epre in Eq. exact (pprefix_neq _ _ X' Eq). }
  apply in_flat_map in Hb. destruct Hb as (c' & Hc' & Hb).
  rewrite <- Epre in Hb. pose proof (ents_prefix _ _ _ _ Hb) as Pc.
  destruct (wfn_kids _ _ (wfn_ents _ _ _ _ W Hkp) Hc') as [Hnp' _].
  (* c' and n have the same first rune, so they are the same child *)
  assert (c' = n).
  { apply (nodup_fst_eq (nkids p)); auto; [exact (wfn_nodup _ (wfn_ents _ _ _ _ W Hkp))|].
    unfold fst_rune. destruct (npath c') as [|x y]; [easy|]. destruct (npath n) as [|x' y']; [easy|].
    cbn. f_equal. destruct Pc as [z Ez]. destruct (pprefix_prefix _ _ P') as [z' Ez'].
    rewrite Ez', Ez in Ek. rewrite <- !app_assoc in Ek. apply app_inv_head in Ek. cbn in Ek. congruence. }
  subst c'. rewrite Ek in P'. apply pprefix_len in P'. apply prefix_len in Pc. lia.
Qed.

(** a path that names no key but begins one, or runs past a leaf: everything is visited *)
Theorem walk_partial_all D rf h t path k :
  plain_reach D t -> D (hdelim h) -> path <> [] ->
  s_search (hdelim h) (is_up h) (entries t) path = SPart k ->
  exists ns, Walk (S rf) h t path = Ok ns /\ visits t [] ns.
Proof.
  intros R Hd Hne E. destruct (plain_reach_search D rf h t path R Hd) as (r & Er & SO & _).
  rewrite E in SO. pose proof (reached_wf t (plain_reach_reached D t R)) as WT.
  assert (Hp : s_partial r = true) by (destruct k; apply SO).
  unfold Walk. rewrite Er. destruct path as [|c0 path]; [easy|]. cbn [is_nil bind]. rewrite Hp.
  eexists. split; [reflexivity|]. apply visits_sub; auto. 
  replace ([] : list rune) with (npath (root t)) at 1 by apply WT. rewrite ents_eq. left. reflexivity.
Qed.

(** a path that ends with the delimiter and matches nothing: no call *)
Theorem walk_nothing D rf h t path :
  plain_reach D t -> D (hdelim h) -> path <> [] -> last (runes path) 0%N = hdelim h ->
  s_search (hdelim h) (is_up h) (entries t) path = SMiss ->
  Walk (S rf) h t path = Ok [].
Proof.
  intros R Hd Hne Hl E. destruct (plain_reach_search D rf h t path R Hd) as (r & Er & SO & _).
  rewrite E in SO. destruct SO as [Hp Hs].
  unfold Walk. rewrite Er. destruct path; [easy|]. cbn [is_nil bind]. now rewrite Hp, Hl, N.eqb_refl, Hs.
Qed.
