(** Every API call on a pattern-free trie does what Spec.v says. *)
From Coq Require Import List NArith Bool Arith Lia Permutation.
From Verif Require Import GoStr Utf8 Node NodeWf InsertProofs MatchProofs Trie TreeOps Spec Refine Climb.
Import ListNotations.
Open Scope nat_scope.

(** the Node methods a callback may use *)
Definition n_nodeop (o : nodeop) (n : node) : node :=
  match o with
  | NSetData v => setData v n
  | NSetComment x y => setComment x y n
  | NSetTag v => setTag v n
  | NSetEmpty => setEmpty n
  | NSetModified b => setModified b n
  | NToggleModified => toggleModified n
  | NResetModified => resetModified n
  end.

(** one API call on the model *)
Definition t_step (rf : nat) (h : hdl) (t : tr) (o : op) : res (tr * out) :=
  match o with
  | OSet path v => do (t', _, old) <- Set_ h t path v; Ok (t', ROld old)
  | OSetEx path v => do (t', old, _) <- SetEx h t path v; Ok (t', ROld old)
  | OSetNode path v tag dc => do (t', _, old) <- SetNode h t path v tag dc; Ok (t', ROld old)
  | OSetEmpty path => do (t', old) <- SetEmpty h t path; Ok (t', ROld old)
  | OUpdate path f =>
      do t' <- Update h t path (fun old n => fold_left (fun n o => n_nodeop o n) (f old) n);
      Ok (t', RUnit)
  | OSetWith path v f =>
      do (t', id, old) <- Set_ h t path v;
      Ok (Tr (upd id (fun n => fold_left (fun n o => n_nodeop o n) (f old) n) (root t')) (next t'), ROld old)
  | OSetComment path x y => do (t', b) <- SetComment rf h t path x y; Ok (t', RBool b)
  | OSetTag path v => do (t', b) <- SetTag rf h t path v; Ok (t', RBool b)
  | ORemove path => do (t', b) <- Remove rf h t path; Ok (t', RBool b)
  | OGet path => do (v, ok) <- Get rf h t path; Ok (t, RGet v ok)
  | OMustGet path => do v <- MustGet rf h t path; Ok (t, RMust v)
  | OQuery path => do q <- Query rf h t path; Ok (t, RQuery (q_data q) (q_branch q) (q_found q))
  | OHas path => do b <- Has rf h t path; Ok (t, RBool b)
  | OSearch path => do b <- Search_ rf h t path; Ok (t, RBool b)
  | OLocate path =>
      do (n, br, pt, fd, _) <- Locate rf h t path;
      Ok (t, RLocate (option_map (fun n => attr_of (info_of n)) n) br pt fd)
  | OGetEx path =>
      do o <- GetEx rf h t path;
      Ok (t, RGetEx (option_map (fun '(_, v, br, _) => (v, br)) o))
  | OGetDesc path => do (s, ok) <- GetDesc rf h t path; Ok (t, RStr s ok)
  | OGetComment path => do (s, ok) <- GetComment rf h t path; Ok (t, RStr s ok)
  | OGetTag path => do (v, ok) <- GetTag rf h t path; Ok (t, RTag v ok)
  end.

Fixpoint t_run (rf : nat) (hist : list (hdl * op)) (t : tr) : res (tr * list out) :=
  match hist with
  | [] => Ok (t, [])
  | (h, o) :: rest =>
      do (t1, r) <- t_step rf h t o;
      do (t2, rs) <- t_run rf rest t1; Ok (t2, r :: rs)
  end.

(** ** searching *)
Lemma shortest_spec ks k :
  shortest ks = Some k -> In k ks /\ forall k', In k' ks -> length k <= length k'.
Proof.
  revert k; induction ks as [|a ks IH]; cbn; [discriminate|]. intros k.
  destruct (shortest ks) as [k0|] eqn:E.
  - intros X. inversion X; subst. destruct (IH k0 eq_refl) as [H1 H2].
    destruct (Nat.leb_spec (length a) (length k0)).
    + split; auto. intros k' [<-|H']; auto. specialize (H2 _ H'). lia.
    + split; auto. intros k' [<-|H']; [lia|auto].
  - intros X. inversion X; subst. split; auto. intros k' [<-|H']; auto.
    destruct ks; [destruct H'|]. cbn in E. destruct (shortest ks); discriminate.
Qed.
Lemma shortest_none ks : shortest ks = None -> ks = [].
Proof. destruct ks; auto. cbn. destruct (shortest ks); discriminate. Qed.

Lemma kids_dom pre s k n :
  wfn s -> In (k, n) (ents pre s) -> (nkids n = [] <-> forall k', dom pre s k' -> ~ pprefix k k').
Proof.
  intros W H. split.
  - intros E k' [n' H'] P. destruct (ents_below _ _ _ _ _ _ W H H' (pprefix_prefix _ _ P)) as (pre' & Ek & Hb).
    rewrite ents_eq, E in Hb. cbn in Hb. destruct Hb as [X|[]]. inversion X.
    apply pprefix_neq in P. congruence.
  - intros Hno. destruct (nkids n) as [|c ks] eqn:E; auto. exfalso.
    pose proof (wfn_ents _ _ _ _ W H) as Wn.
    assert (Hc : In c (nkids n)) by (rewrite E; now left).
    destruct (wfn_kids _ _ Wn Hc) as [Hne _].
    apply (Hno (k ++ npath c)).
    + clear - H Hc. revert pre H. induction s as [s IH] using node_ind'. intros pre H.
      apply ents_inv in H. destruct H as [[-> ->]|(c' & Hc' & H)].
      * exists c. eapply ents_kid; eauto. rewrite ents_eq. now left.
      * rewrite Forall_forall in IH. destruct (IH _ Hc' _ H) as [x Hx]. exists x.
        eapply ents_kid; eauto.
    + destruct (npath c) as [|c0 p]; [congruence|]. now exists c0, p.
Qed.

Section Search.
Context (d : rune) (t : tr) (m : smap).
Context (WT : wf_tr t) (A : abs (root t) m).
Let s := root t.
Let W : wfn s := proj1 (proj2 (proj1 WT)).

Lemma root_ent : In ([], s) (ents [] s).
Proof. rewrite ents_eq. unfold s. rewrite (proj1 (proj1 WT)). now left. Qed.
Lemma root_mem : smem m [] = true.
Proof. apply (abs_smem s m W A). exists s. apply root_ent. Qed.
Lemma root_ent_eq n : In ([], n) (ents [] s) -> n = s.
Proof. intros H. eapply ents_fun; eauto. apply root_ent. Qed.

(** outcome of one probe, in terms of the map *)
Definition probe_ok (w : key_t) (r : mres) : Prop :=
  match s_probe d m w with
  | SFound k =>
      exists n, In (k, n) (ents [] s) /\ m_matched r = true /\ m_partial r = false /\
                m_child r = Some n /\
                match k with
                | [] => m_parent r = None
                | _ => exists kp p, In (kp, p) (ents [] s) /\ In n (nkids p) /\
                                    k = kp ++ npath n /\ m_parent r = Some p
                end
  | SPart [] => m_matched r = false /\ m_partial r = true /\ m_child r = None
  | SPart k => m_matched r = false /\ m_partial r = true /\
               exists n, In (k, n) (ents [] s) /\ m_child r = Some n
  | SMiss => m_matched r = false /\ m_partial r = false /\ m_child r = None
  end.

Lemma s_find_none w :
  s_find d m w = None <-> w <> [] /\ ~ dom [] s w /\ ~ dom [] s (w ++ [d]).
Proof.
  unfold s_find. destruct w as [|c w]; cbn [is_nil]; [split; [discriminate|intros [H _]; congruence]|].
  destruct (smem m (c :: w)) eqn:E1.
  - apply (abs_smem s m W A) in E1. split; [discriminate|tauto].
  - apply (abs_smem_false s m W A) in E1.
    destruct (smem m ((c :: w) ++ [d])) eqn:E2.
    + apply (abs_smem s m W A) in E2. split; [discriminate|tauto].
    + apply (abs_smem_false s m W A) in E2. split; auto. intros _. split; [discriminate|auto].
Qed.

Lemma par_nonroot k n p :
  k <> [] -> par_ok [] s None k n p ->
  exists kp q, In (kp, q) (ents [] s) /\ In n (nkids q) /\ k = kp ++ npath n /\ p = Some q.
Proof.
  intros Hk [(-> & -> & _)|H]; auto. exfalso. apply Hk. unfold s. rewrite (proj1 (proj1 WT)). reflexivity.
Qed.

Lemma probe_spec rf kv w :
  aside_tree d [] s w ->
  exists r, matchR (S rf) d s w false None kv = Ok r /\ probe_ok w r /\ m_kv r = kv.
Proof.
  intros P. destruct (matchR_root_aside rf d s w kv W P (proj1 (proj1 WT))) as (r & E & O).
  exists r. split; [exact E|]. unfold probe_ok.
  assert (Key : forall k, In k (skeys m) <-> dom [] s k) by apply (abs_dom s m W A).
  destruct O as [Hw | Hw Hk | r Hw Hk M]; [rewrite Hw in *|..].
  - (* empty word *)
    unfold s_probe, s_find. cbn [is_nil]. split; [|reflexivity].
    exists s. cbn. auto using root_ent.
  - (* no keys at all *)
    split; [|reflexivity].
    assert (Dom : forall k, dom [] s k -> k = []).
    { intros k Dk. apply dom_inv in Dk. destruct Dk as [->|(c & Hc & _)].
      - unfold s. rewrite (proj1 (proj1 WT)). reflexivity.
      - unfold s in *. rewrite Hk in Hc. destruct Hc. }
    assert (F : s_find d m w = None).
    { apply s_find_none. split; auto. split; intros X; apply Dom in X; [congruence|].
      destruct w; discriminate. }
    unfold s_probe. rewrite F.
    assert (E1 : filter (sprefix w) (skeys m) = []).
    { destruct (filter _ _) as [|k ks] eqn:X; auto. exfalso.
      assert (In k (filter (sprefix w) (skeys m))) as Y by (rewrite X; now left).
      apply filter_In in Y. destruct Y as [Y1 Y2]. apply Key, Dom in Y1. subst k.
      apply sprefix_iff, pprefix_len in Y2. cbn in Y2. lia. }
    rewrite E1. clear E1. cbn [shortest].
    destruct (filter _ _) as [|k ks] eqn:X.
    + exfalso. assert (Y : In [] (filter (fun k => sprefix k w && negb (existsb (sprefix k) (skeys m))) (skeys m))).
      { apply filter_In. split; [apply Key; exists s; apply root_ent|].
        apply andb_true_iff. split.
        - apply sprefix_iff. destruct w as [|c w]; [congruence|]. now exists c, w.
        - apply negb_true_iff, not_true_iff_false. intros Z. apply existsb_exists in Z.
          destruct Z as (k & Z1 & Z2). apply Key, Dom in Z1. subst k.
          apply sprefix_iff, pprefix_len in Z2. cbn in Z2. lia. }
      rewrite X in Y. destruct Y.
    + assert (Y : In k (skeys m)).
      { assert (Y : In k (k :: ks)) by now left. rewrite <- X in Y. now apply filter_In in Y. }
      apply Key, Dom in Y. subst k. cbn. auto.
  - destruct M as [k n p H Pk Hk' | k n p H Pk Hk' Hm Hd | k n p H Pk Hk' Hn | Hm Hp]; cbn [app] in *.
    + (* found *)
      assert (F : s_find d m w = Some k).
      { unfold s_find. destruct w as [|c w]; [congruence|]. cbn [is_nil].
        destruct Hk' as [->|[-> Hno]].
        - replace (smem m (c :: w)) with true; auto. symmetry. apply (abs_smem s m W A). now exists n.
        - replace (smem m (c :: w)) with false.
          + replace (smem m ((c :: w) ++ [d])) with true; auto. symmetry.
            apply (abs_smem s m W A). now exists n.
          + symmetry. now apply (abs_smem_false s m W A). }
      unfold s_probe. rewrite F. split; [|reflexivity].
      exists n. cbn [m_matched m_partial m_child m_parent]. repeat (split; [now auto|]).
      assert (Hkn : k <> []).
      { destruct Hk' as [->|[-> _]]; auto. destruct w; discriminate. }
      destruct k as [|c k]; [congruence|]. now apply (par_nonroot (c :: k) n p).
    + (* the word ends inside a longer key *)
      assert (Dw : ~ dom [] s w).
      { intros X. specialize (Hm w X (prefix_refl w)). apply prefix_len in Hm.
        apply pprefix_len in Hk'. lia. }
      assert (F : s_find d m w = None).
      { apply s_find_none. split; auto. split; auto.
        intros X. specialize (Hm _ X (prefix_app_r _ _)). apply Hd.
        apply prefix_antisym; auto. destruct Hk' as (c & y & ->).
        destruct Hm as [z Ez]. rewrite <- app_assoc in Ez. cbn in Ez. apply app_inj_head in Ez.
        destruct Ez as [-> _]. exists y. now rewrite <- app_assoc. }
      unfold s_probe. rewrite F. split; [|reflexivity].
      destruct (shortest (filter (sprefix w) (skeys m))) as [k2|] eqn:E2.
      * apply shortest_spec in E2. destruct E2 as [E2 E3]. apply filter_In in E2.
        destruct E2 as [E2 E4]. apply sprefix_iff in E4.
        assert (k2 = k).
        { assert (X : prefix k k2) by (apply Hm; [now apply Key|now apply pprefix_prefix]).
          assert (Y : length k2 <= length k).
          { apply E3. apply filter_In. split; [apply Key; now exists n|]. now apply sprefix_iff. }
          destruct (prefix_cases _ _ X) as [Z|Z]; auto. apply pprefix_len in Z. lia. }
        subst k2. destruct k as [|c k].
        { apply pprefix_len in Hk'. cbn in Hk'. lia. }
        cbn. eauto.
      * exfalso. apply shortest_none in E2.
        assert (X : In k (filter (sprefix w) (skeys m))).
        { apply filter_In. split; [apply Key; now exists n|]. now apply sprefix_iff. }
        rewrite E2 in X. destruct X.
    + (* the word runs past a childless node *)
      assert (No : forall k', dom [] s k' -> ~ pprefix k k') by now apply (kids_dom [] s k n).
      assert (Dw : forall k', dom [] s k' -> ~ prefix w k').
      { intros k' X Y. apply (No _ X). destruct Hk' as (c & y & ->), Y as [z ->].
        exists c, (y ++ z). now rewrite <- app_assoc. }
      assert (F : s_find d m w = None).
      { apply s_find_none. split; auto. split; intros X.
        - apply (Dw _ X). apply prefix_refl.
        - apply (Dw _ X). apply prefix_app_r. }
      unfold s_probe. rewrite F. split; [|reflexivity].
      assert (E1 : filter (sprefix w) (skeys m) = []).
      { destruct (filter (sprefix w) (skeys m)) as [|k' ks] eqn:X; auto. exfalso.
        assert (In k' (filter (sprefix w) (skeys m))) as Y by (rewrite X; now left).
        apply filter_In in Y. destruct Y as [Y1 Y2]. apply Key in Y1. apply (Dw _ Y1).
        now apply pprefix_prefix, sprefix_iff. }
      rewrite E1. clear E1. cbn [shortest].
      assert (Hin : In k (filter (fun k => sprefix k w && negb (existsb (sprefix k) (skeys m))) (skeys m))).
      { apply filter_In. split; [apply Key; now exists n|]. apply andb_true_iff.
        split; [now apply sprefix_iff|]. apply negb_true_iff, not_true_iff_false. intros Z.
        apply existsb_exists in Z. destruct Z as (k' & Z1 & Z2). apply Key in Z1.
        apply sprefix_iff in Z2. now apply (No k'). }
      destruct (filter _ _) as [|k2 ks] eqn:X; [destruct Hin|].
      assert (k2 = k).
      { assert (Y : In k2 (k2 :: ks)) by now left. rewrite <- X in Y. apply filter_In in Y.
        destruct Y as [Y1 Y2]. apply andb_true_iff in Y2. destruct Y2 as [Y2 Y3].
        apply sprefix_iff in Y2. apply Key in Y1.
        destruct (prefix_comparable k k2 w) as [Z|Z]; try now apply pprefix_prefix.
        - apply prefix_cases in Z. destruct Z as [Z|Z]; auto. exfalso. now apply (No k2).
        - apply prefix_cases in Z. destruct Z as [Z|Z]; auto. exfalso.
          apply negb_true_iff, not_true_iff_false in Y3. apply Y3. apply existsb_exists.
          exists k. split; [apply Key; now exists n|]. now apply sprefix_iff. }
      subst k2. destruct k as [|c k].
      { exfalso. apply root_ent_eq in H. subst n. congruence. }
      cbn. eauto.
    + (* miss *)
      assert (F : s_find d m w = None).
      { apply s_find_none. split; auto. split; intros X.
        - apply (Hm _ X). apply prefix_refl.
        - apply (Hm _ X). apply prefix_app_r. }
      unfold s_probe. rewrite F. split; [|reflexivity].
      assert (E1 : filter (sprefix w) (skeys m) = []).
      { destruct (filter (sprefix w) (skeys m)) as [|k' ks] eqn:X; auto. exfalso.
        assert (In k' (filter (sprefix w) (skeys m))) as Y by (rewrite X; now left).
        apply filter_In in Y. destruct Y as [Y1 Y2]. apply Key in Y1. apply (Hm _ Y1).
        now apply pprefix_prefix, sprefix_iff. }
      rewrite E1. clear E1. cbn [shortest].
      destruct (filter _ _) as [|k2 ks] eqn:X; [cbn; auto|]. exfalso.
      assert (Y : In k2 (k2 :: ks)) by now left. rewrite <- X in Y. apply filter_In in Y.
      destruct Y as [Y1 Y2]. apply andb_true_iff in Y2. destruct Y2 as [Y2 Y3].
      apply sprefix_iff in Y2. apply Key in Y1. destruct Y1 as [n2 Hn2].
      apply (Hp k2 n2 Hn2); [now apply pprefix_prefix|].
      apply (kids_dom [] s k2 n2 W Hn2). intros k' Dk' Pk'.
      apply negb_true_iff, not_true_iff_false in Y3. apply Y3. apply existsb_exists.
      exists k'. split; [now apply Key|now apply sprefix_iff].
Qed.

(** outcome of [search] in terms of the map *)
Definition search_ok (o : Spec.sres) (r : Trie.sres) : Prop :=
  match o with
  | SFound k =>
      exists n, In (k, n) (ents [] s) /\ s_partial r = false /\ s_node r = Some n /\
                match k with
                | [] => s_parent r = None
                | _ => exists kp p, In (kp, p) (ents [] s) /\ In n (nkids p) /\
                                    k = kp ++ npath n /\ s_parent r = Some p
                end
  | SPart [] => s_partial r = true /\ s_node r = None
  | SPart k => s_partial r = true /\ exists n, In (k, n) (ents [] s) /\ s_node r = Some n
  | SMiss => s_partial r = false /\ s_node r = None
  end.

(** a probe that hits ends the search *)
Lemma probe_hit w r :
  probe_ok w r ->
  (m_matched r || m_partial r = false /\ s_probe d m w = SMiss) \/
  (m_matched r || m_partial r = true /\ s_probe d m w <> SMiss /\
   search_ok (s_probe d m w) (SRes (m_child r) (m_parent r) (m_partial r) (m_kv r))).
Proof.
  unfold probe_ok, search_ok. destruct (s_probe d m w) as [k|k|].
  - intros (n & H & -> & O2 & O3 & O4). right. cbn [orb]. split; [auto|split; [discriminate|]].
    exists n. cbn. auto.
  - destruct k as [|c k].
    + intros (-> & -> & O3). right. cbn. split; [auto|split; [discriminate|auto]].
    + intros (-> & -> & n & O3 & O4). right. cbn. split; [auto|split; [discriminate|eauto]].
  - intros (-> & -> & _). auto.
Qed.

Lemma climb_spec rf : forall fuel (segs : list (list N)),
  segs <> [] -> Forall (fun p => contains (enc1 d) p = false) segs -> length segs <= fuel ->
  (forall u, In u (map (fun p => join_str p (enc1 d)) (ups_of segs)) -> aside_tree d [] s (runes u)) ->
  exists r, climb (S rf) fuel d t (join_str segs (enc1 d)) [] = Ok r /\
    search_ok (s_first d m (map (fun p => join_str p (enc1 d)) (ups_of segs))) r /\ s_kv r = [].
Proof.
  induction fuel as [|fuel IH]; intros segs Hne F L P; [destruct segs; [congruence|cbn in L; lia]|].
  cbn [climb]. rewrite (split_join (enc1 d) segs (enc1_unbordered d) Hne F).
  destruct (Nat.ltb_spec 2 (length segs)) as [H2|H2].
  - destruct (ups_step segs H2) as (Eu & La & Hna & FP). rewrite Eu in *. clear Eu.
    set (a' := firstn (length segs - 2) segs ++ skipn (length segs - 1) segs) in *.
    cbn [map s_first] in *. unfold probe.
    destruct (probe_spec rf [] (runes (join_str a' (enc1 d))) (P _ (or_introl eq_refl))) as (r & E & O & K). fold s. rewrite E. cbn [bind].
    destruct (probe_hit _ _ O) as [(-> & ->)|(-> & Hm & S)].
    + rewrite K. apply IH; auto; [lia|]. intros u Hu. apply P. now right.
    + eexists; split; [reflexivity|]. cbn. split; [|exact K].
      destruct (s_probe d m (runes (join_str a' (enc1 d)))); try congruence; exact S.
  - rewrite ups_short by lia. eexists; split; [reflexivity|]. cbn. auto.
Qed.

Definition is_up (h : hdl) : bool := match hmode h with ModeUp => true | _ => false end.

(** the paths a lookup of [w] tries *)
Definition tried (h : hdl) (w : gostring) : list gostring :=
  w :: if is_up h then s_ups d w else [].

Lemma search_aside rf h w :
  hdelim h = d -> (forall u, In u (tried h w) -> aside_tree d [] s (runes u)) ->
  exists r, search (S rf) h t w = Ok r /\ search_ok (s_search d (is_up h) m w) r /\ s_kv r = [].
Proof.
  intros Hd P. unfold search, probe, s_search. rewrite Hd.
  destruct (probe_spec rf [] (runes w) (P _ (or_introl eq_refl))) as (r & E & O & K). fold s. rewrite E. cbn [bind s_first].
  destruct (probe_hit _ _ O) as [(-> & ->)|(-> & Hm & S)].
  - rewrite K. unfold tried, is_up in *. destruct (hmode h).
    + eexists; split; [reflexivity|]. cbn. auto.
    + destruct (join_split (enc1 d) w (proj1 (enc1_unbordered d))) as [F J].
      pose proof (split_length (enc1 d) w (proj1 (enc1_unbordered d)) []) as SL.
      unfold s_ups in *. rewrite <- (map_map (fun i => firstn i (split_str w (enc1 d)) ++ [last (split_str w (enc1 d)) []])
        (fun p => join_str p (enc1 d))) in *. fold (ups_of (split_str w (enc1 d))) in *.
      destruct (contains (enc1 d) w) eqn:C.
      * destruct (climb_spec rf (S (length w)) (split_str w (enc1 d)) (split_ne _ _) F SL) as (r0 & Ec & Oc).
        { intros u Hu. apply P. now right. }
        rewrite J in Ec. eauto.
      * unfold split_str. rewrite split_last; auto; [|apply enc1_unbordered].
        rewrite ups_short by (cbn; lia). eexists; split; [reflexivity|]. cbn. auto.
    + eexists; split; [reflexivity|]. cbn. auto.
  - eexists; split; [reflexivity|]. cbn. split; [|exact K].
    destruct (s_probe d m (runes w)); try congruence; exact S.
Qed.

Lemma search_spec (P : plain_tree d [] (root t)) rf h w :
  hdelim h = d ->
  exists r, search (S rf) h t w = Ok r /\ search_ok (s_search d (is_up h) m w) r /\ s_kv r = [].
Proof. intros Hd. apply search_aside; auto. intros u _. now apply plain_tree_aside. Qed.

Lemma search_found o r : search_ok o r -> s_found r = s_has o.
Proof.
  unfold search_ok, s_found, s_has.
  destruct o as [k|[|c k]|].
  - intros (n & _ & -> & -> & _). reflexivity.
  - intros (-> & ->). reflexivity.
  - intros (-> & n & _ & ->). reflexivity.
  - intros (-> & ->). reflexivity.
Qed.

(** last rune of a non-root node = last rune of its key *)
Lemma endsWith_key k n : In (k, n) (ents [] s) -> endsWith n d = ends_with d k.
Proof.
  intros H. unfold endsWith, ends_with.
  assert (Hk : (k = [] /\ n = s) \/ exists q, npath n <> [] /\ k = q ++ npath n).
  { clear - H W WT. assert (G : forall pre x, wfn x -> In (k, n) (ents pre x) ->
        (k = pre ++ npath x /\ n = x) \/ exists q, npath n <> [] /\ k = q ++ npath n).
    { intros pre x. revert pre. induction x as [x IH] using node_ind'. intros pre Wx Hx.
      apply ents_inv in Hx. destruct Hx as [[-> ->]|(c & Hc & Hx)]; auto.
      right. destruct (wfn_kids _ _ Wx Hc) as [Hne Wc].
      rewrite Forall_forall in IH. destruct (IH _ Hc _ Wc Hx) as [[-> ->]|Y]; auto.
      exists (pre ++ npath x). split; auto. }
    destruct (G [] s W H) as [[-> ->]|Y]; auto. left. split; auto.
    unfold s. rewrite (proj1 (proj1 WT)). reflexivity. }
  destruct Hk as [[-> ->]|(q & Hne & ->)].
  - unfold s. rewrite (proj1 (proj1 WT)). reflexivity.
  - rewrite rev_app_distr. destruct (rev (npath n)) eqn:E; auto.
    exfalso. apply Hne. rewrite <- (rev_involutive (npath n)), E. reflexivity.
Qed.

Lemma query_spec o r :
  search_ok o r ->
  let q := query_of d r in
  s_query d m o = (q_data q, q_branch q, q_found q).
Proof.
  unfold search_ok, s_query, query_of.
  destruct o as [k|[|c k]|]; cbn [s_hit].
  - intros (n & H & -> & -> & _). rewrite (abs_ents s m W A _ _ H). cbn.
    rewrite hasData_bit, isBranch_bit, (endsWith_key _ _ H). f_equal.
    now destruct (t_leaf (ntype n)).
  - intros (-> & ->). reflexivity.
  - intros (-> & n & _ & ->). reflexivity.
  - intros (-> & ->). reflexivity.
Qed.
End Search.

(** ** attribute functions *)
Lemma attr_fun_comment x y :
  attr_fun (setComment x y)
    (fun i => Info (i_id i) (i_key i) (i_data i) x y (i_tag i) (i_type i)).
Proof. intros n. repeat split. Qed.
Lemma attr_fun_tag v :
  attr_fun (setTag v)
    (fun i => Info (i_id i) (i_key i) (i_data i) (i_desc i) (i_cmt i) v (i_type i)).
Proof. intros n. repeat split. Qed.

(** a node function and its effect on attributes *)
Definition refl_fun (f : node -> node) (fa : attr -> attr) : Prop :=
  exists fi, attr_fun f fi /\ (forall j, i_key (fi j) = i_key j) /\
    (forall j, attr_of (fi j) = fa (attr_of j)) /\ (forall j, i_id (fi j) = i_id j).

Lemma refl_id : refl_fun (fun n => n) (fun a => a).
Proof. exists (fun i => i). repeat split. Qed.
Lemma refl_comp f fa g ga :
  refl_fun f fa -> refl_fun g ga -> refl_fun (fun n => g (f n)) (fun a => ga (fa a)).
Proof.
  intros (fi & F1 & F2 & F3 & F4) (gi & G1 & G2 & G3 & G4).
  exists (fun i => gi (fi i)). split; [|split; [|split]].
  - intros n. destruct (F1 n) as (A1 & A2 & A3 & A4). destruct (G1 (f n)) as (B1 & B2 & B3 & B4).
    repeat split; try congruence.
  - intros j. now rewrite G2.
  - intros j. now rewrite G3, F3.
  - intros j. now rewrite G4.
Qed.
Lemma refl_nodeop o : refl_fun (n_nodeop o) (s_nodeop o).
Proof.
  destruct o.
  - exists (with_data v). repeat split. intros j. apply attr_with_data.
  - eexists. split; [apply attr_fun_comment|]. repeat split.
  - eexists. split; [apply attr_fun_tag|]. repeat split.
  - exists (fun i => Info (i_id i) (i_key i) GNil (i_desc i) (i_cmt i) GNil (i_type i)).
    repeat split.
  - exists (fun i => Info (i_id i) (i_key i) (i_data i) (i_desc i) (i_cmt i) (i_tag i)
              (if b then N.lor (i_type i) NTModified else N.ldiff (i_type i) NTModified)).
    repeat split. intros j. unfold attr_of, t_leaf, t_has, t_mod, NTModified. cbn [i_data i_desc i_cmt i_tag i_type s_nodeop a_data a_desc a_cmt a_tag a_leaf a_has a_mod].
    destruct b; rewrite ?N.lor_spec, ?N.ldiff_spec; f_equal;
      cbn [N.testbit Pos.testbit negb]; rewrite ?orb_false_r, ?andb_true_r, ?orb_true_r, ?andb_false_r; reflexivity.
  - exists (fun i => Info (i_id i) (i_key i) (i_data i) (i_desc i) (i_cmt i) (i_tag i)
              (N.lxor (i_type i) NTModified)).
    repeat split. intros j. unfold attr_of, t_leaf, t_has, t_mod, NTModified. cbn [i_data i_desc i_cmt i_tag i_type s_nodeop a_data a_desc a_cmt a_tag a_leaf a_has a_mod].
    rewrite !N.lxor_spec. f_equal; cbn [N.testbit Pos.testbit]; rewrite ?xorb_false_r, ?xorb_true_r; reflexivity.
  - exists (fun i => Info (i_id i) (i_key i) (i_data i) (i_desc i) (i_cmt i) (i_tag i)
              (N.ldiff (i_type i) NTModified)).
    repeat split. intros j. unfold attr_of, t_leaf, t_has, t_mod, NTModified. cbn [i_data i_desc i_cmt i_tag i_type s_nodeop a_data a_desc a_cmt a_tag a_leaf a_has a_mod].
    rewrite !N.ldiff_spec. f_equal; cbn [N.testbit Pos.testbit negb]; rewrite ?andb_true_r, ?andb_false_r; reflexivity.
Qed.
Lemma refl_nodeops os :
  refl_fun (fun n => fold_left (fun n o => n_nodeop o n) os n)
           (fun a => fold_left (fun a o => s_nodeop o a) os a).
Proof.
  induction os as [|o os IH]; [apply refl_id|].
  apply (refl_comp _ _ _ _ (refl_nodeop o) IH).
Qed.
Lemma refl_descs dc : refl_fun (apply_dc dc) (s_descs dc).
Proof.
  destruct dc as [|x [|y [|z dc]]].
  - apply refl_id.
  - exists (fun i => Info (i_id i) (i_key i) (i_data i) x (i_cmt i) (i_tag i) (i_type i)).
    repeat split.
  - apply (refl_nodeop (NSetComment x y)).
  - apply (refl_nodeop (NSetComment x _)).
Qed.

Lemma upd_refines' t m w n f fa :
  wf_tr t -> abs (root t) m -> look (root t) w = Some n -> refl_fun f fa ->
  let t' := Tr (upd (i_id n) f (root t)) (next t) in
  wf_tr t' /\ abs (root t') (s_upd w fa m).
Proof.
  intros WT A L (fi & F1 & F2 & F3 & F4). eapply upd_refines; eauto.
Qed.

(** ** plain keys stay plain *)
Definition plain_map (d : rune) (m : smap) : Prop := forall k, In k (skeys m) -> plain d k.
Lemma plain_tree_map d t m :
  wf_tr t -> abs (root t) m -> (plain_tree d [] (root t) <-> plain_map d m).
Proof.
  intros WT A. unfold plain_tree, plain_map. pose proof (proj1 (proj2 (proj1 WT))) as W.
  split; intros H k Hk; apply H; now apply (abs_dom _ _ W A).
Qed.
Lemma plain_prefix d p k : prefix p k -> plain d k -> plain d p.
Proof.
  intros [z ->]. unfold plain. rewrite plainb_app, andb_true_iff. tauto.
Qed.
Lemma plain_set d w v m : plain_map d m -> plain d w -> plain_map d (s_set w v m).
Proof.
  intros H Hw k Hk. unfold s_set, skeys in Hk. cbn in Hk. destruct Hk as [<-|Hk]; auto.
  rewrite map_app, in_app_iff in Hk. destruct Hk as [Hk|Hk].
  - unfold forks in Hk. rewrite map_map in Hk. apply in_map_iff in Hk.
    destruct Hk as (k' & <- & _). cbn. eapply plain_prefix; [apply lcp_prefix_l|exact Hw].
  - now apply H.
Qed.
Lemma plain_upd d w f m : plain_map d m -> plain_map d (s_upd w f m).
Proof.
  intros H k Hk. apply H. unfold s_upd in Hk. destruct (sget m w) eqn:E; auto.
  destruct Hk as [<-|Hk]; auto. cbn. apply smem_in, smem_sget. eauto.
Qed.
Lemma plain_filter d p m : plain_map d m -> plain_map d (filter p m).
Proof.
  intros H k Hk. apply H. unfold skeys in *. apply in_map_iff in Hk.
  destruct Hk as (e & <- & He). apply filter_In in He. apply in_map. tauto.
Qed.

(** the view a handle gives *)
Definition view_of (h : hdl) : sview := View (hdelim h) (full h) (is_up h).

(** the keys an operation stores are plain for all delimiters in use *)
Definition op_plain (D : rune -> Prop) (pfx : gostring -> gostring) (o : op) : Prop :=
  forall d, D d ->
  match o with
  | OSet path _ | OSetWith path _ _ => plain d (runes (replace_byte 32 45 (pfx path)))
  | OSetEx path _ | OSetNode path _ _ _ | OSetEmpty path | OUpdate path _ => plain d (runes (pfx path))
  | _ => True
  end.
Definition plain_all (D : rune -> Prop) (m : smap) : Prop := forall d, D d -> plain_map d m.

Lemma plain_step D v m o :
  plain_all D m -> op_plain D (v_pfx v) o -> plain_all D (fst (s_step v m o)).
Proof.
  intros PA OP d HD. specialize (PA d HD). specialize (OP d HD).
  destruct o; cbn [s_step fst] in *; auto using plain_set, plain_upd.
  - destruct (s_search _ _ _ _) as [k|[|c k]|]; cbn [fst]; auto using plain_upd.
  - destruct (s_search _ _ _ _) as [k|[|c k]|]; cbn [fst]; auto using plain_upd.
  - unfold s_remove. destruct (s_hit _) as [[|c k]|]; cbn [fst]; auto. now apply plain_filter.
  - destruct (s_query _ _ _) as [[x y] z]; auto.
  - destruct (s_query _ _ _) as [[x y] z]; auto.
  - destruct (s_query _ _ _) as [[x y] z]; auto.
  - destruct (s_query _ _ _) as [[x y] z]; auto.
Qed.

(** the full path an operation stores under *)
Definition stored (h : hdl) (o : op) : option gostring :=
  match o with
  | OSet path _ | OSetWith path _ _ => Some (replace_byte 32 45 (full h path))
  | OSetEx path _ | OSetNode path _ _ _ | OSetEmpty path | OUpdate path _ => Some (full h path)
  | _ => None
  end.

(** writing never searches, so it does not matter which keys are in the tree *)
Theorem write_refines rf h t m o :
  wf_tr t -> abs (root t) m -> stored h o <> None ->
  exists t', t_step rf h t o = Ok (t', snd (s_step (view_of h) m o)) /\
    wf_tr t' /\ abs (root t') (fst (s_step (view_of h) m o)).
Proof.
  intros WT A ST.
  destruct o as [path v|path v|path v tag dc|path|path f|path v f|path x y|path v|path|path|path|path|path|path|path|path|path|path|path];
    cbn [stored] in ST; try congruence;
    cbn [t_step s_step fst snd view_of v_delim v_pfx v_up] in *.
  - (* Set *)
    unfold Set_. destruct (insert_root_refines t m (replace_byte 32 45 (full h path)) v WT A)
      as (t' & ir & E & WT' & A' & O & _).
    rewrite E. cbn [bind]. exists t'. rewrite O. auto.
  - (* SetEx *)
    unfold SetEx. destruct (insert_root_refines t m (full h path) v WT A)
      as (t' & ir & E & WT' & A' & O & _).
    rewrite E. cbn [bind]. exists t'. rewrite O. auto.
  - (* SetNode *)
    unfold SetNode. destruct (insert_root_refines t m (full h path) v WT A)
      as (t' & ir & E & WT' & A' & O & (i & L & Ei) & _).
    rewrite E. cbn [bind].
    destruct (upd_refines' t' _ _ i _ _ WT' A' L (refl_descs dc)) as [WT2 A2].
    rewrite Ei in *. eexists. rewrite O. split; [reflexivity|]. auto.
  - (* SetEmpty *)
    unfold SetEmpty. destruct (insert_root_refines t m (full h path) GNil WT A)
      as (t' & ir & E & WT' & A' & O & (i & L & Ei) & _).
    rewrite E. cbn [bind].
    destruct (upd_refines' t' _ _ i _ _ WT' A' L (refl_nodeop NSetEmpty)) as [WT2 A2].
    rewrite Ei in *. eexists. rewrite O. split; [reflexivity|]. auto.
  - (* Update *)
    unfold Update. destruct (insert_root_refines t m (full h path) GNil WT A)
      as (t' & ir & E & WT' & A' & O & (i & L & Ei) & _).
    rewrite E. cbn [bind].
    destruct (upd_refines' t' _ _ i _ _ WT' A' L (refl_nodeops (f (ir_old ir)))) as [WT2 A2].
    rewrite Ei in *. eexists. split; [reflexivity|]. rewrite <- O. auto.
  - (* Set, then methods of the node *)
    unfold Set_. destruct (insert_root_refines t m (replace_byte 32 45 (full h path)) v WT A)
      as (t' & ir & E & WT' & A' & O & (i & L & Ei) & _).
    rewrite E. cbn [bind].
    destruct (upd_refines' t' _ _ i _ _ WT' A' L (refl_nodeops (f (ir_old ir)))) as [WT2 A2].
    rewrite Ei in *. eexists. rewrite <- O. split; [reflexivity|]. auto.
Qed.

(** the path an operation looks up *)
Definition looks (o : op) : option gostring :=
  match o with
  | OSetComment path _ _ | OSetTag path _ | ORemove path | OGet path | OMustGet path | OQuery path
  | OHas path | OSearch path | OLocate path | OGetEx path | OGetDesc path | OGetComment path
  | OGetTag path => Some path
  | _ => None
  end.

Theorem step_of_search rf h t m o :
  wf_tr t -> abs (root t) m ->
  (forall path, looks o = Some path -> exists r, search (S rf) h t (full h path) = Ok r /\
     search_ok t (s_search (hdelim h) (is_up h) m (full h path)) r /\ s_kv r = []) ->
  exists t', t_step (S rf) h t o = Ok (t', snd (s_step (view_of h) m o)) /\
    wf_tr t' /\ abs (root t') (fst (s_step (view_of h) m o)).
Proof.
  intros WT A S. remember (hdelim h) as d eqn:Hd. symmetry in Hd.
  assert (W : wfn (root t)) by exact (proj1 (proj2 (proj1 WT))).
  assert (Q : forall w, looks o = Some w -> exists q, Query (Datatypes.S rf) h t w = Ok q /\
               s_query d m (s_search d (is_up h) m (full h w)) = (q_data q, q_branch q, q_found q)).
  { intros w Lw. destruct (S w Lw) as (r & E & O & _). unfold Query. rewrite E. cbn [bind].
    rewrite Hd. eexists; split; [reflexivity|]. now apply (query_spec d t m WT A). }
  destruct o as [path v|path v|path v tag dc|path|path f|path v f|path x y|path v|path|path|path|path|path|path|path|path|path|path|path];
    try (apply write_refines; auto; discriminate);
    specialize (S path eq_refl); specialize (Q path eq_refl);
    cbn [t_step s_step fst snd view_of v_delim v_pfx v_up] in *; rewrite ?Hd.
  - (* SetComment *)
    unfold SetComment. destruct S as (r & -> & O & _). cbn [bind].
    unfold search_ok in O. destruct (s_search d (is_up h) m (full h path)) as [k|[|c k]|].
    + destruct O as (n & H & _ & -> & _). cbn [bind].
      pose proof (ents_look _ _ _ W H) as L.
      destruct (upd_refines' t m _ _ _ _ WT A L (refl_nodeop (NSetComment x y))) as [WT2 A2].
      eexists; split; [reflexivity|]. cbn [fst snd].
      split; [exact WT2|exact A2].
    + destruct O as (_ & ->). cbn [bind]. exists t. auto.
    + destruct O as (_ & n & H & ->). cbn [bind].
      pose proof (ents_look _ _ _ W H) as L.
      destruct (upd_refines' t m _ _ _ _ WT A L (refl_nodeop (NSetComment x y))) as [WT2 A2].
      eexists; split; [reflexivity|]. cbn [fst snd].
      split; [exact WT2|exact A2].
    + destruct O as (_ & ->). cbn [bind]. exists t. auto.
  - (* SetTag *)
    unfold SetTag. destruct S as (r & -> & O & _). cbn [bind].
    unfold search_ok in O. destruct (s_search d (is_up h) m (full h path)) as [k|[|c k]|].
    + destruct O as (n & H & _ & -> & _). cbn [bind].
      pose proof (ents_look _ _ _ W H) as L.
      destruct (upd_refines' t m _ _ _ _ WT A L (refl_nodeop (NSetTag v))) as [WT2 A2].
      eexists; split; [reflexivity|]. cbn [fst snd].
      split; [exact WT2|exact A2].
    + destruct O as (_ & ->). cbn [bind]. exists t. auto.
    + destruct O as (_ & n & H & ->). cbn [bind].
      pose proof (ents_look _ _ _ W H) as L.
      destruct (upd_refines' t m _ _ _ _ WT A L (refl_nodeop (NSetTag v))) as [WT2 A2].
      eexists; split; [reflexivity|]. cbn [fst snd].
      split; [exact WT2|exact A2].
    + destruct O as (_ & ->). cbn [bind]. exists t. auto.
  - (* Remove *)
    unfold Remove, RemoveEx. destruct S as (r & -> & O & _). cbn [bind].
    unfold search_ok in O. unfold s_remove.
    destruct (s_search d (is_up h) m (full h path)) as [k|[|c k]|].
    + destruct O as (n & H & -> & -> & Hpar). destruct k as [|c k].
      * rewrite Hpar. cbn [bind]. exists t. auto.
      * destruct Hpar as (kp & p & Hp & Hn & Ek & ->).
        assert (Er : fst (remove_id (nid n) (nkids p)) = true).
        { clear - Hn. induction (nkids p) as [|x l IH]; cbn in *; [tauto|].
          destruct (Nat.eqb_spec (nid x) (nid n)); auto. destruct Hn as [->|Hn]; [congruence|].
          destruct (remove_id (nid n) l). auto. }
        rewrite Er. cbn [bind].
        destruct (remove_refines t m kp p n WT A Hp Hn) as (WT2 & A2 & _).
        rewrite <- Ek in A2. cbn [s_hit]. eexists; split; [reflexivity|].
        cbn [fst snd]. split; [exact WT2|exact A2].
    + destruct O as (-> & ->). cbn [bind]. exists t. auto.
    + destruct O as (-> & n & H & ->). cbn [bind]. exists t. auto.
    + destruct O as (-> & ->). cbn [bind]. exists t. auto.
  - (* Get *)
    unfold Get. destruct Q as (q & -> & ->). cbn [bind]. exists t. auto.
  - (* MustGet *)
    unfold MustGet. destruct Q as (q & -> & ->). cbn [bind]. exists t. auto.
  - (* Query *)
    destruct Q as (q & -> & ->). cbn [bind]. exists t. auto.
  - (* Has *)
    unfold Has. destruct S as (r & -> & O & _). cbn [bind].
    apply search_found in O. rewrite O. exists t. auto.
  - (* Search *)
    unfold Search_. destruct S as (r & -> & O & _). cbn [bind].
    apply search_found in O. rewrite O. exists t. auto.
  - (* Locate *)
    unfold Locate. destruct S as (r & -> & O & _). cbn [bind].
    unfold search_ok in O. destruct (s_search d (is_up h) m (full h path)) as [k|[|c k]|].
    + destruct O as (n & H & -> & -> & _). cbn [bind option_map].
      rewrite (abs_ents _ _ W A _ _ H). exists t. rewrite isBranch_bit. auto.
    + destruct O as (-> & ->). cbn [bind]. exists t. auto.
    + destruct O as (-> & n & H & ->). cbn [bind option_map].
      rewrite (abs_ents _ _ W A _ _ H). exists t. rewrite isBranch_bit. auto.
    + destruct O as (-> & ->). cbn [bind]. exists t. auto.
  - (* GetEx *)
    unfold GetEx. destruct S as (r & -> & O & _). cbn [bind].
    rewrite (query_spec d t m WT A _ _ O). rewrite Hd. exists t.
    destruct (q_found (query_of d r)); auto.
  - unfold GetDesc, getNodeFast. destruct S as (r & -> & O & _). cbn [bind].
    rewrite Hd. unfold search_ok in O. unfold s_attr, s_hit.
    destruct (s_search d (is_up h) m (full h path)) as [k|[|c k]|].
    + destruct O as (n & H & -> & -> & _). rewrite (abs_ents _ _ W A _ _ H).
      rewrite isBranch_bit, (endsWith_key d t WT _ _ H). cbn [a_leaf attr_of i_type info_of].
      exists t. destruct (t_leaf (ntype n)); cbn [negb orb]; auto. destruct (ends_with d k); auto.
    + destruct O as (-> & ->). cbn [bind]. exists t. auto.
    + destruct O as (-> & n & H & ->). cbn [bind]. exists t. auto.
    + destruct O as (-> & ->). cbn [bind]. exists t. auto.
  - unfold GetComment, getNodeFast. destruct S as (r & -> & O & _). cbn [bind].
    rewrite Hd. unfold search_ok in O. unfold s_attr, s_hit.
    destruct (s_search d (is_up h) m (full h path)) as [k|[|c k]|].
    + destruct O as (n & H & -> & -> & _). rewrite (abs_ents _ _ W A _ _ H).
      rewrite isBranch_bit, (endsWith_key d t WT _ _ H). cbn [a_leaf attr_of i_type info_of].
      exists t. destruct (t_leaf (ntype n)); cbn [negb orb]; auto. destruct (ends_with d k); auto.
    + destruct O as (-> & ->). cbn [bind]. exists t. auto.
    + destruct O as (-> & n & H & ->). cbn [bind]. exists t. auto.
    + destruct O as (-> & ->). cbn [bind]. exists t. auto.
  - unfold GetTag, getNodeFast. destruct S as (r & -> & O & _). cbn [bind].
    rewrite Hd. unfold search_ok in O. unfold s_attr, s_hit.
    destruct (s_search d (is_up h) m (full h path)) as [k|[|c k]|].
    + destruct O as (n & H & -> & -> & _). rewrite (abs_ents _ _ W A _ _ H).
      rewrite isBranch_bit, (endsWith_key d t WT _ _ H). cbn [a_leaf attr_of i_type info_of].
      exists t. destruct (t_leaf (ntype n)); cbn [negb orb]; auto. destruct (ends_with d k); auto.
    + destruct O as (-> & ->). cbn [bind]. exists t. auto.
    + destruct O as (-> & n & H & ->). cbn [bind]. exists t. auto.
    + destruct O as (-> & ->). cbn [bind]. exists t. auto.
Qed.

(** a path that meets no pattern of the keys in the map, as no path BR() tries instead does *)
Definition aside_map (d : rune) (m : smap) (w : gostring) : Prop :=
  forall k, In k (skeys m) -> aside d k (runes w).
Definition op_aside (h : hdl) (m : smap) (o : op) : Prop :=
  forall path u, looks o = Some path -> In u (tried (hdelim h) h (full h path)) ->
    aside_map (hdelim h) m u.

Theorem step_aside rf h t m o :
  wf_tr t -> abs (root t) m -> op_aside h m o ->
  exists t', t_step (S rf) h t o = Ok (t', snd (s_step (view_of h) m o)) /\
    wf_tr t' /\ abs (root t') (fst (s_step (view_of h) m o)).
Proof.
  intros WT A OA. apply step_of_search; auto. intros path L. apply search_aside; auto.
  intros u Hu k Dk. apply (OA path u L Hu). apply (abs_dom _ _ (proj1 (proj2 (proj1 WT))) A). exact Dk.
Qed.

Theorem step_refines rf (D : rune -> Prop) h t m o :
  D (hdelim h) ->
  wf_tr t -> abs (root t) m -> plain_all D m ->
  exists t', t_step (S rf) h t o = Ok (t', snd (s_step (view_of h) m o)) /\
    wf_tr t' /\ abs (root t') (fst (s_step (view_of h) m o)).
Proof.
  intros HD WT A PA. apply step_aside; auto. intros path u _ _ k Hk. apply plain_aside. now apply PA.
Qed.

Lemma newTrie_wf : wf_tr newTrie.
Proof.
  split; [split; [reflexivity|split]|split].
  - constructor; constructor.
  - intros k n [E|[]]. inversion E; subst. cbn. lia.
  - cbn. constructor; [easy|constructor].
  - cbn. constructor; [lia|constructor].
Qed.
Lemma newTrie_abs : abs (root newTrie) s_init.
Proof. intros k. destruct k; reflexivity. Qed.
Lemma plain_init d : plain_map d s_init.
Proof. intros k [<-|[]]. reflexivity. Qed.

(** every call of the history goes through a handle with an admitted delimiter and stores
    only plain keys *)
Definition plain_hist (D : rune -> Prop) (hist : list (hdl * op)) : Prop :=
  Forall (fun ho => D (hdelim (fst ho)) /\ op_plain D (full (fst ho)) (snd ho)) hist.
Definition views (hist : list (hdl * op)) : list (sview * op) :=
  map (fun ho => (view_of (fst ho), snd ho)) hist.

Theorem run_refines rf D hist : forall t m,
  wf_tr t -> abs (root t) m -> plain_all D m -> plain_hist D hist ->
  exists t', t_run (S rf) hist t = Ok (t', snd (s_run (views hist) m)) /\
             wf_tr t' /\ abs (root t') (fst (s_run (views hist) m)) /\
             plain_all D (fst (s_run (views hist) m)).
Proof.
  induction hist as [|[h o] hist IH]; intros t m WT A PM F.
  - exists t. cbn. auto.
  - inversion F as [|? ? [Hd OP] F']; subst. cbn [fst snd] in *.
    destruct (step_refines rf D h t m o Hd WT A PM) as (t1 & E & WT1 & A1).
    pose proof (plain_step D (view_of h) m o PM OP) as PM1.
    cbn [views map s_run t_run fst snd]. rewrite E. cbn [bind].
    destruct (s_step (view_of h) m o) as [m1 r1]. cbn [fst snd] in *.
    destruct (IH t1 m1 WT1 A1 PM1 F') as (t' & E' & WT' & A' & PM').
    fold (views hist). destruct (s_run (views hist) m1) as [m2 rs].
    cbn [fst snd] in *. rewrite E'. cbn [bind]. exists t'. auto.
Qed.
