(** What GetR, GetM, To and the typed getters return. *)
From Coq Require Import String.
From Coq Require Import List NArith Bool Arith Lia Permutation.
From Verif Require Import GoStr Utf8 Node NodeWf InsertProofs MatchProofs Trie TreeOps Spec Refine
  Climb ApiRefine Reach Effect Derived Derived2 Derived3 Derived4 Dur Cvter Nested.
Import ListNotations.
Open Scope nat_scope.
Open Scope list_scope.

(** the names of the root *)
Definition root_name (path : gostring) : Prop := path = [] \/ path = s2b "."%string \/ path = s2b "(root)"%string.
Lemma root_name_true path : is_root_path path = true <-> root_name path.
Proof.
  unfold is_root_path, root_name. rewrite !orb_true_iff, !str_eqb_eq. destruct path; cbn [is_nil]; [intuition|].
  split; [intros [[H|H]|H]; [discriminate|auto..]|intros [H|[H|H]]; [discriminate|auto..]].
Qed.
Lemma root_name_false path : is_root_path path = false <-> ~ root_name path.
Proof. rewrite <- root_name_true. destruct (is_root_path path); intuition congruence. Qed.

(** ** specification *)
(** reached by calls storing valid UTF-8 keys only *)
Definition vreach (t : tr) : Prop :=
  exists rf hist outs, valid_hist hist /\ t_run rf hist newTrie = Ok (t, outs).
(** the key [s] is a leaf with value [v] and does not end with the delimiter *)
Definition exports (d : rune) (t : tr) (s : gostring) (v : gval) (a : attr) : Prop :=
  valid_utf8 s = true /\ ends_with d (runes s) = false /\
  t_get t (runes s) = Some a /\ a_leaf a = true /\ a_data a = v.

Lemma vreach_reached t : vreach t -> reached t.
Proof. intros (rf & hist & outs & _ & E). eapply run_reached; [constructor|exact E]. Qed.

Lemma leaf_names t k n :
  vreach t -> In (k, n) (ents [] (root t)) -> isLeaf n = true ->
  runes (key n) = k /\ valid_utf8 (key n) = true.
Proof.
  intros (rf & hist & outs & HA & E) Hin HL.
  assert (I : forall k i, In (k, i) (ients [] (root t)) -> t_leaf (i_type i) = true ->
              runes (i_key i) = k /\ valid_utf8 (i_key i) = true).
  { apply (run_inv (fun l => forall k i, In (k, i) l -> t_leaf (i_type i) = true -> runes (i_key i) = k /\ valid_utf8 (i_key i) = true)
             (fun p => valid_utf8 p = true) rf) with (hist := hist) (t := newTrie) (outs := outs); auto.
    - intros p l0 l' Ef Hp.
      apply (eff_forall (fun k i => t_leaf (i_type i) = true -> runes (i_key i) = k /\ valid_utf8 (i_key i) = true)
               (fun p => valid_utf8 p = true)) with (p := p); auto.
      + intros k1 i fi K H. destruct (K i) as (-> & _ & ->). exact H.
      + intros k1 v i H. unfold with_data. cbn [i_type i_key]. rewrite t_leaf_lor4. exact H.
      + intros k0 k1 i _ _ X. discriminate.
    - apply newTrie_wf.
    - cbn. intros k0 i0 [X|[]]. inversion X. discriminate. }
  apply (I k (info_of n)); [apply in_ients; eauto|]. now rewrite <- HL, isLeaf_bit.
Qed.

(** ** assignments *)
Definition assigns (l : list (gostring * gval)) (m : gmap) : gmap :=
  fold_left (fun o e => mset o (fst e) (snd e)) l m.
Lemma assigns_sound l : forall m k v, mget (assigns l m) k = Some v -> In (k, v) l \/ mget m k = Some v.
Proof.
  induction l as [|[a b] l IH]; intros m k v H; cbn in *; auto. apply IH in H.
  destruct H as [H|H]; auto. cbn in H. rewrite mget_mset in H. destruct (str_eqb a k) eqn:E; auto.
  apply str_eqb_eq in E. left. left. congruence.
Qed.
Lemma assigns_keep l : forall m k, mget m k <> None -> mget (assigns l m) k <> None.
Proof.
  induction l as [|[a b] l IH]; intros m k H; cbn; auto. apply IH. cbn. rewrite mget_mset.
  destruct (str_eqb a k); [discriminate|auto].
Qed.
Lemma assigns_complete l : forall m k v, In (k, v) l -> mget (assigns l m) k <> None.
Proof.
  induction l as [|[a b] l IH]; intros m k v H; cbn in *; [tauto|]. destruct H as [H|H]; eauto.
  inversion H; subst. apply assigns_keep. cbn. rewrite mget_mset, str_eqb_refl. discriminate.
Qed.
Lemma assigns_get l k v :
  (forall k v v', In (k, v) l -> In (k, v') l -> v = v') ->
  (mget (assigns l []) k = Some v <-> In (k, v) l).
Proof.
  intros F. split.
  - intros H. apply assigns_sound in H. destruct H as [H|H]; [auto|discriminate].
  - intros H. destruct (mget (assigns l []) k) as [w|] eqn:E.
    + apply assigns_sound in E. destruct E as [E|E]; [|discriminate]. f_equal. eauto.
    + now apply (assigns_complete l [] k v) in H.
Qed.
Lemma assigns_fold {A} (f : A -> bool) (g : A -> gostring * gval) l : forall m,
  fold_left (fun m n => if f n then mset m (fst (g n)) (snd (g n)) else m) l m = assigns (map g (filter f l)) m.
Proof. induction l as [|a l IH]; intros m; cbn; auto. rewrite IH. destruct (f a); reflexivity. Qed.

(** ** exported nodes *)
Lemma endsWith_simple s d : simpleEndsWith s d = ends_with d (runes s).
Proof. reflexivity. Qed.
Lemma isBranch_leaf n : isBranch n = negb (isLeaf n).
Proof. now rewrite isBranch_bit, isLeaf_bit. Qed.

Lemma exported_iff d t k n :
  vreach t -> In (k, n) (ents [] (root t)) ->
  (exported d n = true <->
   exports d t (key n) (ndata n) (attr_of (info_of n)) /\ k = runes (key n)).
Proof.
  intros V Hin. pose proof (reached_wf t (vreach_reached t V)) as WT. pose proof (proj1 (proj2 (proj1 WT))) as W.
  unfold exported. rewrite isBranch_leaf, negb_involutive, endsWith_simple, andb_true_iff, negb_true_iff. split.
  - intros [H1 H2]. destruct (leaf_names t k n V Hin H2) as [<- K2]. split; auto. split; auto. split; auto.
    split; [|split; [|reflexivity]].
    + unfold t_get, entries. rewrite entries_lookup. fold (look (root t) (runes (key n))). now rewrite (ents_look _ _ _ W Hin).
    + unfold attr_of. cbn. now rewrite <- isLeaf_bit.
  - intros ((H1 & H2 & H3 & H4 & _) & _). split; auto. rewrite isLeaf_bit. exact H4.
Qed.
Lemma exports_node d t s v a :
  vreach t -> exports d t s v a ->
  exists n, In (runes s, n) (ents [] (root t)) /\ exported d n = true /\ key n = s /\ ndata n = v /\ attr_of (info_of n) = a.
Proof.
  intros V (H1 & H2 & H3 & H4 & H5).
  pose proof (reached_wf t (vreach_reached t V)) as WT. pose proof (proj1 (proj2 (proj1 WT))) as W.
  unfold t_get, entries in H3. rewrite entries_lookup in H3. fold (look (root t) (runes s)) in H3.
  destruct (look (root t) (runes s)) as [i|] eqn:L; [|discriminate]. cbn in H3. inversion H3; subst a.
  apply look_in in L; auto. apply in_ients in L. destruct L as (n & Hn & <-). exists n. split; auto.
  assert (HL : isLeaf n = true) by (rewrite isLeaf_bit; exact H4).
  destruct (leaf_names t (runes s) n V Hn HL) as [K1 K2].
  assert (K : key n = s).
  { apply valid_utf8_eq in H1, K2. congruence. }
  split; [|split; auto]. unfold exported. rewrite isBranch_leaf, negb_involutive, endsWith_simple, andb_true_iff, negb_true_iff.
  split; auto. now rewrite K1.
Qed.
Lemma exported_fun d t k1 k2 n1 n2 :
  vreach t -> In (k1, n1) (ents [] (root t)) -> In (k2, n2) (ents [] (root t)) ->
  exported d n1 = true -> exported d n2 = true -> key n1 = key n2 -> n1 = n2.
Proof.
  intros V H1 H2 E1 E2 K. pose proof (reached_wf t (vreach_reached t V)) as WT. pose proof (proj1 (proj2 (proj1 WT))) as W.
  apply (exported_iff d t k1 n1 V H1) in E1. apply (exported_iff d t k2 n2 V H2) in E2.
  destruct E1 as [_ ->], E2 as [_ ->]. rewrite K in H1. eapply ents_fun; eauto.
Qed.

(** the nodes of a subtree are those with keys extending its key *)
Lemma ents_sub q s k n : In (k, n) (ents q s) ->
  exists pre, k = pre ++ npath n /\ forall e, In e (ents pre n) -> In e (ents q s).
Proof.
  revert q. induction s as [s IH] using node_ind'. intros q H. rewrite ents_eq in H. destruct H as [E|H].
  - inversion E; subst. exists q. auto.
  - apply in_flat_map in H. destruct H as (c & Hc & H). rewrite Forall_forall in IH.
    destruct (IH c Hc _ H) as (pre & E & S). exists pre. split; auto. intros e He.
    rewrite ents_eq. right. apply in_flat_map. eauto.
Qed.
Lemma subtree_in t k n m :
  wf_tr t -> In (k, n) (ents [] (root t)) ->
  (In m (walk n) <-> exists k', prefix k k' /\ In (k', m) (ents [] (root t))).
Proof.
  intros WT H. pose proof (proj1 (proj2 (proj1 WT))) as W.
  destruct (ents_sub _ _ _ _ H) as (pre & E & S). rewrite (walk_ents pre n), in_map_iff. split.
  - intros ([k' m'] & <- & Hm). exists k'. cbn. split; [|now apply S].
    apply ents_prefix in Hm. now rewrite E.
  - intros (k' & P & Hm). destruct (ents_below _ _ _ _ _ _ W H Hm P) as (pre' & E' & Hb).
    assert (pre' = pre) by (rewrite E in E'; now apply app_inv_tail in E'). subst pre'.
    exists (k', m). auto.
Qed.
Lemma root_walk_in t m :
  wf_tr t -> (In m (walk (root t)) <-> exists k', In (k', m) (ents [] (root t))).
Proof.
  intros WT. rewrite (walk_ents []), in_map_iff. split.
  - intros ([k' m'] & <- & Hm). exists k'. exact Hm.
  - intros (k' & Hm). exists (k', m). auto.
Qed.

(** the map of a walk from the node with key [k0] *)
Lemma put_walk_get d t k0 n :
  vreach t -> In (k0, n) (ents [] (root t)) ->
  forall s v, mget (put_walk d (walk n)) s = Some v <-> exists a, exports d t s v a /\ prefix k0 (runes s).
Proof.
  intros V H s v. pose proof (reached_wf t (vreach_reached t V)) as WT.
  unfold put_walk. rewrite (assigns_fold (exported d) (fun n => (key n, ndata n))).
  rewrite assigns_get.
  - rewrite in_map_iff. setoid_rewrite filter_In. setoid_rewrite (subtree_in t k0 n _ WT H). split.
    + intros (m & E & (k' & P & Hm) & X). inversion E; subst.
      apply (exported_iff d t k' m V Hm) in X. destruct X as [X ->]. eauto.
    + intros (a & X & P). destruct (exports_node d t s v a V X) as (m & Hm & Xm & <- & <- & _).
      exists m. split; auto. split; auto. exists (runes (key m)). auto.
  - intros k v1 v2 H1 H2. apply in_map_iff in H1, H2. destruct H1 as (n1 & E1 & H1), H2 as (n2 & E2 & H2).
    apply filter_In in H1, H2. destruct H1 as [H1 X1], H2 as [H2 X2].
    apply (subtree_in t k0 n _ WT H) in H1, H2. destruct H1 as (k1 & _ & H1), H2 as (k2 & _ & H2).
    inversion E1; inversion E2; subst.
    assert (n1 = n2) by (eapply exported_fun; eauto). congruence.
Qed.

(** ** C28 *)
Theorem getR_root rf h t path defs :
  vreach t -> root_name path ->
  exists m, GetR rf h t path defs = Ok (Some m) /\
    forall s v, mget m s = Some v <-> exists a, exports (hdelim h) t s v a.
Proof.
  rewrite <- (root_name_true path).
  intros V E. unfold GetR. rewrite E. eexists; split; [reflexivity|]. intros s v.
  pose proof (reached_wf t (vreach_reached t V)) as WT.
  rewrite (put_walk_get (hdelim h) t [] (root t) V).
  - split; intros (a & H); exists a; [tauto|split; auto]. exists (runes s). reflexivity.
  - exact (root_ent t WT).
Qed.

Definition restricts (d : rune) (t : tr) (k0 : skey) (m : gmap) : Prop :=
  forall s v, mget m s = Some v <-> exists a, exports d t s v a /\ prefix k0 (runes s).
Theorem getR_path D rf h t path defs :
  plain_reach D t -> vreach t -> D (hdelim h) -> ~ root_name path ->
  match s_search (hdelim h) (is_up h) (entries t) (full h path) with
  | SPart [] => GetR (S rf) h t path defs = Panic
  | SFound k0 | SPart k0 => exists m, GetR (S rf) h t path defs = Ok (Some m) /\ restricts (hdelim h) t k0 m
  | SMiss => GetR (S rf) h t path defs = Ok (last defs None)
  end.
Proof.
  rewrite <- (root_name_false path).
  intros R V Hd E. unfold GetR, Locate. rewrite E.
  destruct (plain_reach_search D rf h t (full h path) R Hd) as (r & Er & S & _). rewrite Er. cbn [bind].
  unfold search_ok in S. destruct (s_search _ _ _ _) as [k|[|c k]|].
  - destruct S as (n & Hn & S1 & S2 & _). rewrite S2. cbn [bind]. rewrite S1. cbn [negb orb].
    eexists; split; [reflexivity|]. intros s v. now apply put_walk_get.
  - destruct S as [S1 S2]. rewrite S2. cbn [bind]. now rewrite S1.
  - destruct S as (S1 & n & Hn & S2). rewrite S2. cbn [bind]. rewrite S1. cbn [negb orb].
    eexists; split; [reflexivity|]. intros s v. now apply put_walk_get.
  - destruct S as [S1 S2]. rewrite S2. cbn [bind]. now rewrite S1.
Qed.

(** a partial match at the root needs an empty store *)
Lemma shortest_in ks k : shortest ks = Some k -> In k ks.
Proof.
  revert k. induction ks as [|a ks IH]; intros k H; cbn in *; [discriminate|].
  destruct (shortest ks) as [k'|]; [|inversion H; auto].
  destruct (length a <=? length k'); inversion H; subst; auto.
Qed.
Lemma probe_part_nil d m w :
  s_probe d m w = SPart [] -> forall k, In k (skeys m) -> k = [].
Proof.
  unfold s_probe. destruct (s_find d m w); [discriminate|].
  destruct (shortest (filter (sprefix w) (skeys m))) as [k0|] eqn:Sh.
  - intros E. inversion E; subst. apply shortest_in, filter_In in Sh. destruct Sh as [_ Sh].
    apply sprefix_iff in Sh. destruct Sh as (c & y & Y). destruct w; discriminate.
  - destruct (filter (fun k => sprefix k w && negb (existsb (sprefix k) (skeys m))) (skeys m)) as [|k0 l] eqn:F; [intros X; discriminate X|]. intros E. inversion E; subst.
    intros k Hk. assert (Hf : In [] (filter (fun k => sprefix k w && negb (existsb (sprefix k) (skeys m))) (skeys m))).
    { rewrite F. now left. }
    apply filter_In in Hf. destruct Hf as [_ Hf]. apply andb_true_iff in Hf. destruct Hf as [_ Hf].
    apply negb_true_iff in Hf. destruct k as [|c k]; auto. exfalso.
    apply not_true_iff_false in Hf. apply Hf. apply existsb_exists. exists (c :: k). split; auto.
Qed.
Lemma first_part_nil d m ws : s_first d m ws = SPart [] -> forall k, In k (skeys m) -> k = [].
Proof.
  induction ws as [|w ws IH]; cbn; [discriminate|]. destruct (s_probe d m (runes w)) as [k|k|] eqn:E; auto.
  - discriminate.
  - intros X. inversion X; subst. now apply (probe_part_nil d m (runes w)).
Qed.
(** GetR panics exactly on a partial match in a store without keys *)
Theorem getR_no_panic D rf h t path defs k a :
  plain_reach D t -> vreach t -> D (hdelim h) -> t_get t k = Some a -> k <> [] ->
  exists m, GetR (S rf) h t path defs = Ok m.
Proof.
  intros R V Hd G Hk. destruct (is_root_path path) eqn:E.
  - destruct (getR_root (S rf) h t path defs V (proj1 (root_name_true path) E)) as (m & X & _). eauto.
  - pose proof (getR_path D rf h t path defs R V Hd (proj1 (root_name_false path) E)) as H.
    destruct (s_search _ _ _ _) as [k0|[|c k0]|] eqn:Sr.
    + destruct H as (m & X & _). eauto.
    + exfalso. apply Hk. apply (first_part_nil _ _ _ Sr). apply entries_keys. congruence.
    + destruct H as (m & X & _). eauto.
    + eauto.
Qed.
(** a present key *)
Theorem getR_present D rf h t path defs a :
  plain_reach D t -> vreach t -> D (hdelim h) -> ~ root_name path ->
  t_get t (runes (full h path)) = Some a ->
  exists m, GetR (S rf) h t path defs = Ok (Some m) /\ restricts (hdelim h) t (runes (full h path)) m.
Proof.
  rewrite <- (root_name_false path).
  intros R V Hd E G. pose proof (getR_path D rf h t path defs R V Hd (proj1 (root_name_false path) E)) as H.
  rewrite search_mem in H; auto. right. apply smem_sget. eauto.
Qed.
(** a path that is no key and neither begins nor extends one *)
Theorem getR_absent D rf h t path defs :
  plain_reach D t -> vreach t -> D (hdelim h) -> ~ root_name path -> hmode h <> ModeUp ->
  full h path <> [] ->
  (forall k a, t_get t k = Some a -> k <> [] -> ~ prefix k (runes (full h path)) /\ ~ prefix (runes (full h path)) k) ->
  (exists k a, t_get t k = Some a /\ k <> []) ->
  GetR (S rf) h t path defs = Ok (last defs None).
Proof.
  rewrite <- (root_name_false path).
  intros R V Hd E M Hne Hu (k1 & a1 & G1 & Hk1). pose proof (getR_path D rf h t path defs R V Hd (proj1 (root_name_false path) E)) as H.
  rewrite (not_up h M), s_search_noup in H. revert H. set (w := runes (full h path)) in *.
  assert (Hw : w <> []) by (intros X; apply Hne; now apply (runes_nil_iff (full h path))).
  clearbody w.
  assert (Hs : s_probe (hdelim h) (entries t) w = SMiss).
  { unfold s_probe, s_find. destruct (is_nil w) eqn:En; [destruct w; [congruence|discriminate]|].
    assert (F1 : forall y, smem (entries t) (w ++ y) = false).
    { intros y. apply smem_false. destruct (sget (entries t) (w ++ y)) as [a|] eqn:X; auto. exfalso.
      destruct (Hu (w ++ y) a X) as [_ Y]; [destruct w; [congruence|discriminate]|]. apply Y. exists y. reflexivity. }
    pose proof (F1 []) as F0. rewrite app_nil_r in F0. rewrite F0, F1.
    assert (F2 : filter (sprefix w) (skeys (entries t)) = []).
    { destruct (filter _ _) as [|k l] eqn:X; auto. exfalso.
      assert (Hk : In k (filter (sprefix w) (skeys (entries t)))) by (rewrite X; now left).
      apply filter_In in Hk. destruct Hk as [Hk Hp]. apply entries_keys in Hk.
      destruct (t_get t k) as [a|] eqn:G; [|congruence]. apply sprefix_iff in Hp.
      destruct (Hu k a G) as [_ Y]; [destruct Hp as (c & y & ->); destruct w; discriminate|].
      apply Y. now apply pprefix_prefix. }
    rewrite F2. cbn [shortest].
    match goal with |- match ?f with _ => _ end = _ => destruct f as [|k l] eqn:X; [reflexivity|] end. exfalso.
    assert (Hk : In k (k :: l)) by now left. rewrite <- X in Hk. apply filter_In in Hk.
    destruct Hk as [Hk Hp]. apply andb_true_iff in Hp. destruct Hp as [Hp Hx]. apply sprefix_iff in Hp.
    destruct k as [|c k].
    - apply negb_true_iff, not_true_iff_false in Hx. apply Hx. apply existsb_exists. exists k1.
      split; [apply entries_keys; congruence|]. destruct k1; [congruence|reflexivity].
    - apply entries_keys in Hk. destruct (t_get t (c :: k)) as [a|] eqn:G; [|congruence].
      destruct (Hu (c :: k) a G) as [Y _]; [discriminate|]. apply Y. now apply pprefix_prefix. }
  rewrite Hs. auto.
Qed.

(** ** C32 *)
Definition answer {A} (conv : gval -> A) (dflt : A) (q : gval * bool * bool) : A :=
  let '(v, _, found) := q in if found : bool then conv v else dflt.
Theorem getX_exact D rf {A} (conv : gval -> A) zero h t path defs :
  plain_reach D t -> D (hdelim h) ->
  let q := s_query (hdelim h) (entries t) (s_search (hdelim h) (is_up h) (entries t) (full h path)) in
  GetX (S rf) conv zero h t path defs = Ok (answer conv (last defs zero) q, snd q) /\
  MustX (S rf) conv zero h t path defs = Ok (answer conv (last defs zero) q).
Proof.
  intros R Hd q. destruct (plain_reach_step D rf h t (OQuery path) R Hd) as (t' & E & _).
  cbn [t_step s_step view_of v_delim v_pfx v_up snd] in E. fold q in E. unfold GetX, MustX, last_default.
  destruct (Query (S rf) h t path) as [r| |]; cbn [bind] in *; try discriminate.
  destruct q as [[v b] f]. cbn [snd answer] in *. inversion E; subst. auto.
Qed.
(** a present key that is a leaf: the converted value *)
Theorem getX_present D rf {A} (conv : gval -> A) zero h t path defs a :
  plain_reach D t -> D (hdelim h) -> t_get t (runes (full h path)) = Some a -> a_leaf a = true ->
  GetX (S rf) conv zero h t path defs = Ok (conv (if a_has a then a_data a else GNil), true) /\
  MustX (S rf) conv zero h t path defs = Ok (conv (if a_has a then a_data a else GNil)).
Proof.
  intros R Hd G L. destruct (query_present D rf h t path a R Hd G) as (q & E & Q1 & _ & Q3).
  unfold GetX, MustX. rewrite E. cbn [bind]. rewrite Q3, L, Q1. auto.
Qed.
(** neither the key nor key+delimiter is present: the last default *)
Theorem getX_absent D rf {A} (conv : gval -> A) zero h t path defs :
  plain_reach D t -> D (hdelim h) -> hmode h <> ModeUp -> full h path <> [] ->
  t_get t (runes (full h path)) = None -> t_get t (runes (full h path) ++ [hdelim h]) = None ->
  GetX (S rf) conv zero h t path defs = Ok (last defs zero, false) /\
  MustX (S rf) conv zero h t path defs = Ok (last defs zero).
Proof.
  intros R Hd M Hne G1 G2. destruct (getX_exact D rf conv zero h t path defs R Hd) as [E1 E2].
  rewrite E1, E2. rewrite (not_up h M), s_search_noup. unfold s_probe, s_find.
  assert (Hw : is_nil (runes (full h path)) = false).
  { destruct (runes (full h path)) eqn:X; auto. exfalso. apply Hne. now apply runes_nil_iff. }
  rewrite Hw. apply smem_false in G1, G2. rewrite G1, G2.
  destruct (shortest _); [split; reflexivity|]. destruct (filter _ _); split; reflexivity.
Qed.
(** just written *)
Theorem getX_after_set D rf {A} (conv : gval -> A) zero h t path v defs :
  plain_reach D t -> D (hdelim h) -> op_plain D (full h) (OSet path v) -> blank_free (full h path) ->
  (forall k a, t_get t k = Some a -> ~ pprefix (runes (full h path)) k) ->
  (forall a, t_get t (runes (full h path)) = Some a -> a_leaf a = true) ->
  exists t' id old, Set_ h t path v = Ok (t', id, old) /\
    GetX (S rf) conv zero h t' path defs = Ok (conv v, true) /\
    MustX (S rf) conv zero h t' path defs = Ok (conv v).
Proof.
  intros R Hd P B N L. destruct (set_get D rf h t path v R Hd P B) as (t1 & id1 & old1 & q & E1 & Eq & Q1 & Q3).
  exists t1, id1, old1. split; auto. unfold GetX, MustX. rewrite Eq. cbn [bind].
  assert (F : q_found q = true).
  { rewrite Q3. apply orb_true_iff. left. destruct (t_get t (runes (full h path))) as [a|]; [now apply L|].
    apply negb_true_iff, not_true_iff_false. intros X. apply existsb_exists in X. destruct X as (k & Hk & Pk).
    apply entries_keys in Hk. destruct (t_get t k) as [a|] eqn:G; [|congruence]. apply (N k a G). now apply sprefix_iff. }
  now rewrite F, Q1.
Qed.
Theorem getXs_spec rf {A} (conv : gval -> list A) h t path defs q :
  Query rf h t path = Ok q ->
  GetXs rf conv h t path defs = Ok (if q_found q then conv (q_data q) else defs, q_found q).
Proof. intros E. unfold GetXs. now rewrite E. Qed.
