(** Trees with patterns: the calls whose paths meet no pattern behave as in the map of the keys, and a key without a
    pattern is found under its own path only.  Only proofs. *)
From Coq Require Import List NArith ZArith Bool Arith Lia.
From Verif Require Import GoStr Utf8 Node NodeWf MatchProofs Trie Spec TreeOps Refine ApiRefine Reach.
From Verif Require Import Climb Derived Route.
Import ListNotations.
Open Scope nat_scope.
Open Scope list_scope.

(** ** histories *)
Fixpoint hist_aside (hist : list (hdl * op)) (m : smap) : Prop :=
  match hist with
  | [] => True
  | (h, o) :: r => op_aside h m o /\ hist_aside r (fst (s_step (view_of h) m o))
  end.

Theorem run_aside rf hist : forall t m,
  wf_tr t -> abs (root t) m -> hist_aside hist m ->
  exists t', t_run (S rf) hist t = Ok (t', snd (s_run (views hist) m)) /\
             wf_tr t' /\ abs (root t') (fst (s_run (views hist) m)).
Proof.
  induction hist as [|[h o] hist IH]; intros t m WT A F.
  - exists t. cbn. auto.
  - destruct F as [OA F]. destruct (step_aside rf h t m o WT A OA) as (t1 & E & WT1 & A1).
    cbn [views map s_run t_run fst snd]. rewrite E. cbn [bind].
    destruct (s_step (view_of h) m o) as [m1 r1]. cbn [fst snd] in *.
    destruct (IH t1 m1 WT1 A1 F) as (t' & E' & WT' & A').
    fold (views hist). destruct (s_run (views hist) m1) as [m2 rs].
    cbn [fst snd] in *. rewrite E'. cbn [bind]. exists t'. auto.
Qed.

(** what holds of the keys written and of their prefixes holds of the keys in the map *)
Section Keys.
Context (Q : skey -> Prop) (QP : forall p k, prefix p k -> Q k -> Q p).
Definition all_keys (m : smap) : Prop := forall k, In k (skeys m) -> Q k.

Lemma keys_set w v m : all_keys m -> Q w -> all_keys (s_set w v m).
Proof.
  intros H Hw k Hk. unfold s_set, skeys in Hk. cbn in Hk. destruct Hk as [<-|Hk]; auto.
  rewrite map_app, in_app_iff in Hk. destruct Hk as [Hk|Hk].
  - unfold forks in Hk. rewrite map_map in Hk. apply in_map_iff in Hk.
    destruct Hk as (k' & <- & _). cbn. eapply QP; [apply lcp_prefix_l|exact Hw].
  - now apply H.
Qed.
Lemma keys_upd w f m : all_keys m -> all_keys (s_upd w f m).
Proof.
  intros H k Hk. apply H. unfold s_upd in Hk. destruct (sget m w) eqn:E; auto.
  destruct Hk as [<-|Hk]; auto. cbn. apply smem_in, smem_sget. eauto.
Qed.
Lemma keys_filter p m : all_keys m -> all_keys (filter p m).
Proof.
  intros H k Hk. apply H. unfold skeys in *. apply in_map_iff in Hk.
  destruct Hk as (e & <- & He). apply filter_In in He. apply in_map. tauto.
Qed.
Lemma keys_step h m o :
  all_keys m -> (forall w, stored h o = Some w -> Q (runes w)) -> all_keys (fst (s_step (view_of h) m o)).
Proof.
  intros H OP.
  destruct o; cbn [s_step fst stored view_of v_pfx v_delim v_up] in *;
    try specialize (OP _ eq_refl); auto using keys_set, keys_upd.
  - destruct (s_search _ _ _ _) as [k|[|c k]|]; cbn [fst]; auto using keys_upd.
  - destruct (s_search _ _ _ _) as [k|[|c k]|]; cbn [fst]; auto using keys_upd.
  - unfold s_remove. destruct (s_hit _) as [[|c k]|]; cbn [fst]; auto. now apply keys_filter.
  - destruct (s_query _ _ _) as [[x y] z]; auto.
  - destruct (s_query _ _ _) as [[x y] z]; auto.
  - destruct (s_query _ _ _) as [[x y] z]; auto.
  - destruct (s_query _ _ _) as [[x y] z]; auto.
Qed.
End Keys.

(** no path looked up in [hist] meets a pattern of the key [k] *)
Definition off (hist : list (hdl * op)) (k : skey) : Prop :=
  forall h o path u, In (h, o) hist -> looks o = Some path -> In u (tried (hdelim h) h (full h path)) ->
    aside (hdelim h) k (runes u).
(** no path looked up meets a pattern of a key written *)
Definition apart (hist : list (hdl * op)) : Prop :=
  forall h o w, In (h, o) hist -> stored h o = Some w -> off hist (runes w).

Lemma off_prefix hist p k : prefix p k -> off hist k -> off hist p.
Proof. intros P H h o path u I L U. eapply aside_prefix; [exact P|]. eapply H; eauto. Qed.

Lemma apart_run all : forall hist m,
  (forall ho, In ho hist -> In ho all) -> apart all -> all_keys (off all) m -> hist_aside hist m.
Proof.
  induction hist as [|[h o] hist IH]; intros m Sub AP K; [exact I|]. cbn [hist_aside]. split.
  - intros path u L U k Hk. eapply (K k Hk); eauto. apply Sub. now left.
  - apply IH; auto.
    + intros ho Hh. apply Sub. now right.
    + apply keys_step; auto.
      * intros p k. apply off_prefix.
      * intros w Hw. eapply AP; eauto. apply Sub. now left.
Qed.

Theorem apart_refines rf hist :
  apart hist ->
  exists t, t_run (S rf) hist newTrie = Ok (t, snd (s_run (views hist) s_init)) /\
            wf_tr t /\ abs (root t) (fst (s_run (views hist) s_init)).
Proof.
  intros AP. apply run_aside; [apply newTrie_wf|apply newTrie_abs|].
  apply (apart_run hist); auto. intros k [<-|[]] h o path u _ _ _ q c y x z E.
  destruct q; discriminate.
Qed.

(** plain keys are met by no path *)
Lemma plain_apart D hist : plain_hist D hist -> apart hist.
Proof.
  intros F h o w I ST h' o' path u I' L U. unfold plain_hist in F. rewrite Forall_forall in F.
  apply plain_aside. destruct (F _ I) as [_ OP]. destruct (F _ I') as [HD _]. cbn [fst snd] in *.
  specialize (OP _ HD). destruct o; cbn [stored] in ST; try discriminate; inversion ST; subst; exact OP.
Qed.

(** ** a key without a pattern is found under its own path only *)
Definition own_path (d : rune) (w : key_t) (k : key_t) (n : node) (r : mres) : Prop :=
  if m_matched r then k = w \/ k = w ++ [d]
  else pprefix w k \/ (pprefix k w /\ nkids n = []).

Lemma kids_loop_pick rf d rest lrd s r : forall cs last,
  cs <> [] -> kids_loop rf d rest lrd s cs last = Ok r ->
  exists c kv, In c cs /\ matchR rf d c rest lrd (Some s) kv = Ok r.
Proof.
  induction cs as [|c cs IH]; intros last Hne; [congruence|]. cbn [kids_loop]. intros E.
  destruct (matchR rf d c rest lrd (Some s) (m_kv last)) as [rc| |] eqn:Ec; try discriminate.
  cbn [bind] in E. destruct (m_matched rc || m_partial rc).
  - exists c, (m_kv last). split; [now left|]. now rewrite Ec.
  - destruct cs as [|c1 cs].
    + exists c, (m_kv last). split; [now left|]. cbn in E. now rewrite Ec.
    + destruct (IH rc) as (c' & kv' & I' & E'); auto; [discriminate|]. exists c', kv'.
      split; [now right|exact E'].
Qed.

Lemma matchR_own rf d :
  forall s pre word par kv r n,
  wfn s -> npath s <> [] -> word <> [] ->
  matchR rf d s word (lrd_end d false pre) par kv = Ok r -> m_child r = Some n ->
  exists k, In (k, n) (ents pre s) /\
    (aside d k (pre ++ word) -> own_path d (pre ++ word) k n r).
Proof.
  induction s as [s IH] using node_ind'. intros pre word par kv r n W Hne Hw EM EC.
  destruct (matchR_in _ _ s pre _ _ _ _ _ EM n EC) as (kk & Hkk & _).
  rewrite matchR_eq in EM by assumption. rewrite scan_spec in EM.
  destruct (lcp_split word (npath s)) as (x & y & Ex & Ey & Hd).
  remember (lcp word (npath s)) as p0 eqn:Ep0. cbv zeta in EM. cbn [plus] in EM.
  assert (Lw : length word = length p0 + length x) by (rewrite Ex; apply app_length).
  assert (Ls : length (npath s) = length p0 + length y) by (rewrite Ey; apply app_length).
  assert (Hself : In (pre ++ npath s, s) (ents pre s)) by (rewrite ents_eq; now left).
  destruct x as [|x0 x]; [|destruct y as [|y0 y]].
  - (* the word is a prefix of the fragment *)
    rewrite app_nil_r in Ex. cbn [length] in Lw.
    assert (Hp0l : 0 < length p0) by (destruct p0; [congruence|cbn; lia]).
    destruct (Nat.ltb_spec (length p0) (Nat.min (length (npath s)) (length word))); [lia|].
    cbn [bind] in EM. unfold after_loop in EM.
    destruct (Nat.ltb_spec (Nat.min (length (npath s)) (length word)) (length word)); [lia|].
    exists (pre ++ npath s). unfold own_path.
    destruct y as [|y0 [|y1 y]].
    + rewrite app_nil_r in Ey. cbn [length] in Ls.
      destruct (Nat.eqb_spec (S (length p0)) (length (npath s))); [lia|]. cbn [andb] in EM.
      destruct (Nat.ltb_spec (Nat.min (length (npath s)) (length word)) (length (npath s))); [lia|].
      cbn [andb] in EM.
      destruct (Nat.leb_spec (length (npath s)) (Nat.min (length (npath s)) (length word))); [|lia].
      destruct (Nat.eqb_spec (length p0) (Nat.min (length (npath s)) (length word))); [|lia].
      destruct (Nat.ltb_spec 0 (Nat.min (length (npath s)) (length word))); [|lia].
      destruct (Nat.ltb_spec 0 (length p0)); [|lia]. cbn [andb negb] in EM.
      inversion EM; subst r. cbn in *. inversion EC; subst n. split; [exact Hself|].
      intros _. left. congruence.
    + cbn [length] in Ls.
      destruct (Nat.eqb_spec (S (length p0)) (length (npath s))); [|lia]. cbn [andb] in EM.
      assert (En : nth (length p0) (npath s) 0%N = y0).
      { rewrite Ey, app_nth2, Nat.sub_diag by lia. reflexivity. }
      rewrite En in EM. destruct (N.eqb_spec y0 d) as [Hyd|Hyd].
      * inversion EM; subst r. cbn in *. inversion EC; subst n. split; [exact Hself|].
        intros _. right. rewrite Ey, Ex, Hyd. now rewrite app_assoc.
      * destruct (Nat.ltb_spec (Nat.min (length (npath s)) (length word)) (length (npath s))); [|lia].
        destruct (Nat.eqb_spec (length p0) (Nat.min (length (npath s)) (length word))); [|lia].
        cbn [andb] in EM. inversion EM; subst r. cbn in *. inversion EC; subst n. split; [exact Hself|].
        intros _. left. exists y0, []. rewrite Ey, Ex. now rewrite app_assoc.
    + cbn [length] in Ls.
      destruct (Nat.eqb_spec (S (length p0)) (length (npath s))); [lia|]. cbn [andb] in EM.
      destruct (Nat.ltb_spec (Nat.min (length (npath s)) (length word)) (length (npath s))); [|lia].
      destruct (Nat.eqb_spec (length p0) (Nat.min (length (npath s)) (length word))); [|lia].
      cbn [andb] in EM. inversion EM; subst r. cbn in *. inversion EC; subst n. split; [exact Hself|].
      intros _. left. exists y0, (y1 :: y). rewrite Ey, Ex. now rewrite app_assoc.
  - (* the fragment is a proper prefix of the word *)
    rewrite app_nil_r in Ey. cbn [length] in Lw, Ls.
    assert (Hp0l : 0 < length p0) by (rewrite Ey in Hne; destruct p0; [congruence|cbn; lia]).
    destruct (Nat.ltb_spec (length p0) (Nat.min (length (npath s)) (length word))); [lia|].
    cbn [bind] in EM. unfold after_loop in EM.
    destruct (Nat.eqb_spec (S (length p0)) (length (npath s))); [lia|]. cbn [andb] in EM.
    destruct (Nat.ltb_spec (Nat.min (length (npath s)) (length word)) (length (npath s))); [lia|].
    cbn [andb] in EM.
    destruct (Nat.leb_spec (length (npath s)) (Nat.min (length (npath s)) (length word))); [|lia].
    destruct (Nat.eqb_spec (length p0) (Nat.min (length (npath s)) (length word))); [|lia].
    destruct (Nat.ltb_spec 0 (Nat.min (length (npath s)) (length word))); [|lia].
    destruct (Nat.ltb_spec 0 (length p0)); [|lia]. cbn [andb negb] in EM.
    destruct (Nat.ltb_spec (Nat.min (length (npath s)) (length word)) (length word)); [|lia].
    replace (Nat.min (length (npath s)) (length word)) with (length p0) in EM by lia.
    replace (skipn (if 0 =? 0 then length p0 else 0) word) with (x0 :: x) in EM
      by (rewrite Ex; cbn; rewrite skipn_app, skipn_all, Nat.sub_diag; reflexivity).
    replace (lrd_end d (lrd_end d false pre) p0) with (lrd_end d false (pre ++ npath s)) in EM
      by (rewrite lrd_end_app; congruence).
    destruct (nkids s) as [|c0 ks0] eqn:Ek.
    + inversion EM; subst r. cbn in *. inversion EC; subst n. exists (pre ++ npath s).
      split; [exact Hself|]. intros _. unfold own_path. cbn. right. split; [|exact Ek].
      exists x0, x. rewrite Ex, Ey. now rewrite app_assoc.
    + rewrite <- Ek in EM. destruct (kids_loop_pick _ _ _ _ _ _ (nkids s) _ ltac:(congruence) EM) as (c & kv' & Hc & Ec).
      destruct (wfn_kids _ _ W Hc) as [Hnc Wc]. rewrite <- Ek in IH. rewrite Forall_forall in IH.
      destruct (IH c Hc (pre ++ npath s) (x0 :: x) (Some s) kv' r n Wc Hnc ltac:(discriminate) Ec EC) as (k & Hk & O).
      exists k. split; [eapply ents_kid; eauto|].
      rewrite <- app_assoc in O. replace (npath s ++ x0 :: x) with word in O by (rewrite Ey; exact Ex). exact O.
  - (* mismatch *)
    cbn [length] in Lw, Ls. exists kk. split; [exact Hkk|]. intros AS. exfalso.
    destruct (Nat.ltb_spec (length p0) (Nat.min (length (npath s)) (length word))); [|lia].
    assert (En : nth (length p0) (npath s) 0%N = y0).
    { rewrite Ey, app_nth2, Nat.sub_diag by lia. reflexivity. }
    rewrite En in EM.
    assert (B : lrd_end d (lrd_end d false pre) p0 && ((y0 =? colon) || (y0 =? star))%N = false).
    { destruct (_ && _) eqn:B; auto. exfalso. apply andb_true_iff in B. destruct B as [L B].
      apply Hd. apply ents_prefix in Hkk. destruct Hkk as [z ->].
      apply (AS (pre ++ p0) y0 (y ++ z) x0 x).
      - rewrite Ey, <- !app_assoc. reflexivity.
      - now rewrite lrd_end_app.
      - apply orb_true_iff in B. destruct B as [B|B]; apply N.eqb_eq in B; auto.
      - rewrite Ex, <- app_assoc. reflexivity. }
    destruct rf as [|rf]; [discriminate|]. rewrite retriever_plain in EM by exact B.
    cbn [bind] in EM. inversion EM; subst r. discriminate.
Qed.

Lemma matchR_root_own rf d s word kv r n :
  wfn s -> npath s = [] -> matchR rf d s word false None kv = Ok r -> m_child r = Some n ->
  exists k, In (k, n) (ents [] s) /\ (aside d k word -> own_path d word k n r).
Proof.
  intros W Hp EM EC.
  assert (Hself : In ([], s) (ents [] s)) by (rewrite ents_eq, Hp; now left).
  destruct word as [|w0 w].
  { exists []. destruct s. inversion EM; subst r. cbn in *. inversion EC; subst n. split; [exact Hself|].
    intros _. now left. }
  rewrite matchR_eq in EM by discriminate. rewrite Hp in EM. cbn [scan length Nat.min] in EM.
  cbv zeta in EM. change (0 <? 0) with false in EM. cbn [bind] in EM.
  unfold after_loop in EM. rewrite Hp in EM. cbn [length Nat.min Nat.eqb Nat.ltb Nat.leb andb] in EM.
  destruct (nkids s) as [|c0 ks0] eqn:Ek.
  - inversion EM; subst r. discriminate.
  - rewrite <- Ek in EM. destruct (kids_loop_pick _ _ _ _ _ _ (nkids s) _ ltac:(congruence) EM) as (c & kv' & Hc & Ec).
    destruct (wfn_kids _ _ W Hc) as [Hnc Wc]. cbn [skipn] in Ec.
    destruct (matchR_own rf d c [] (w0 :: w) (Some s) kv' r n Wc Hnc ltac:(discriminate) Ec EC) as (k & Hk & O).
    exists k. split; [|exact O]. eapply ents_kid; [exact Hc|]. rewrite Hp. exact Hk.
Qed.

(** the node at [k] is what the path [u] leads to *)
Definition leads (d : rune) (u k : key_t) (partial : bool) : Prop :=
  k = u \/ k = u ++ [d] \/ (partial = true /\ (pprefix u k \/ pprefix k u)).

Lemma probe_own rf d t u kv r n :
  wf_tr t -> matchR rf d (root t) (runes u) false None kv = Ok r ->
  m_matched r || m_partial r = true -> m_child r = Some n ->
  exists k, In (k, n) (ents [] (root t)) /\ (aside d k (runes u) -> leads d (runes u) k (m_partial r)).
Proof.
  intros WT EM MP EC.
  destruct (matchR_root_own rf d (root t) (runes u) kv r n (proj1 (proj2 (proj1 WT))) (proj1 (proj1 WT)) EM EC)
    as (k & Hk & O).
  exists k. split; [exact Hk|]. intros AS. specialize (O AS). unfold own_path in O. unfold leads.
  destruct (m_matched r); [tauto|]. cbn [orb] in MP. rewrite MP. tauto.
Qed.

Lemma climb_own rf d t n : wf_tr t -> forall fuel (segs : list (list N)) kv r,
  segs <> [] -> Forall (fun p => contains (enc1 d) p = false) segs ->
  climb rf fuel d t (join_str segs (enc1 d)) kv = Ok r -> s_node r = Some n ->
  exists k u, In (k, n) (ents [] (root t)) /\ In u (map (fun p => join_str p (enc1 d)) (ups_of segs)) /\
    (aside d k (runes u) -> leads d (runes u) k (s_partial r)).
Proof.
  intros WT. induction fuel as [|fuel IH]; intros segs kv r Hne F; [discriminate|].
  cbn [climb]. rewrite (split_join (enc1 d) segs (enc1_unbordered d) Hne F).
  destruct (Nat.ltb_spec 2 (length segs)) as [H2|H2]; [|intros E; inversion E; subst; discriminate].
  destruct (ups_step segs H2) as (Eu & La & Hna & FP). rewrite Eu. clear Eu.
  set (a' := firstn (length segs - 2) segs ++ skipn (length segs - 1) segs) in *.
  cbn [map]. unfold probe.
  destruct (matchR rf d (root t) (runes (join_str a' (enc1 d))) false None kv) as [r0| |] eqn:EM; try discriminate.
  cbn [bind]. destruct (m_matched r0 || m_partial r0) eqn:MP; intros E N.
  - inversion E; subst r. cbn in N |- *. destruct (probe_own _ _ _ _ _ _ _ WT EM MP N) as (k & Hk & O).
    exists k, (join_str a' (enc1 d)). split; [exact Hk|]. split; [now left|exact O].
  - destruct (IH a' (m_kv r0) r Hna (FP _ F) E N) as (k & u & Hk & Hu & O). exists k, u.
    split; [exact Hk|]. split; [now right|exact O].
Qed.

Lemma search_own rf h t w r n :
  wf_tr t -> search rf h t w = Ok r -> s_node r = Some n ->
  exists k u, In (k, n) (ents [] (root t)) /\ In u (tried (hdelim h) h w) /\
    (aside (hdelim h) k (runes u) -> leads (hdelim h) (runes u) k (s_partial r)).
Proof.
  intros WT. unfold search, probe. set (d := hdelim h).
  destruct (matchR rf d (root t) (runes w) false None []) as [r0| |] eqn:EM; try discriminate.
  cbn [bind]. destruct (m_matched r0 || m_partial r0) eqn:MP; intros E N.
  - inversion E; subst r. cbn in N |- *. destruct (probe_own _ _ _ _ _ _ _ WT EM MP N) as (k & Hk & O).
    exists k, w. split; [exact Hk|]. split; [now left|exact O].
  - unfold tried, is_up. destruct (hmode h); try (inversion E; subst r; discriminate).
    destruct (contains (enc1 d) w) eqn:C; [|inversion E; subst r; discriminate].
    destruct (join_split (enc1 d) w (proj1 (enc1_unbordered d))) as [F J].
    rewrite <- J in E.
    destruct (climb_own rf d t n WT _ _ _ _ (split_ne _ _) F E N) as (k & u & Hk & Hu & O).
    exists k, u. split; [exact Hk|]. split; [|exact O]. right. unfold s_ups.
    rewrite <- (map_map (fun i => firstn i (split_str w (enc1 d)) ++ [last (split_str w (enc1 d)) []])
        (fun p => join_str p (enc1 d))). exact Hu.
Qed.

Lemma key_unique t k k' n :
  wf_tr t -> In (k, n) (ents [] (root t)) -> In (k', n) (ents [] (root t)) -> k = k'.
Proof.
  intros [_ [ND _]]. unfold eids, ients in ND. rewrite map_map in ND. revert ND.
  generalize (ents [] (root t)). induction l as [|e l IH]; cbn; [tauto|]. intros ND.
  inversion ND as [|? ? NI ND']; subst. intros [->|H] [E|H'].
  - congruence.
  - exfalso. apply NI. apply in_map_iff. exists (k', n). auto.
  - subst e. exfalso. apply NI. apply in_map_iff. exists (k, n). auto.
  - auto.
Qed.

(** what Query finds *)
Theorem query_own rf h t path q :
  reached t -> Query rf h t path = Ok q -> q_found q = true ->
  exists k a u, t_get t k = Some a /\ q_data q = (if a_has a then a_data a else GNil) /\
    In u (tried (hdelim h) h (full h path)) /\
    (aside (hdelim h) k (runes u) -> k = runes u \/ k = runes u ++ [hdelim h]).
Proof.
  intros R. pose proof (reached_wf _ R) as WT. unfold Query.
  destruct (search rf h t (full h path)) as [r| |] eqn:E; try discriminate. cbn [bind].
  intros X; inversion X; subst q; clear X. unfold query_of.
  destruct (s_node r) as [n|] eqn:N; [|discriminate]. destruct (s_partial r) eqn:SP; [discriminate|]. intros _.
  destruct (search_own _ _ _ _ _ _ WT E N) as (k & u & Hk & Hu & O). cbn [q_data].
  exists k, (attr_of (info_of n)), u. split; [now apply ents_attr|]. split; [now rewrite hasData_bit|]. split; [exact Hu|].
  intros AS. destruct (O AS) as [L|[L|[L _]]]; auto. congruence.
Qed.

(** what Remove removes *)
Theorem remove_own rf h t path t' b k :
  reached t -> Remove rf h t path = Ok (t', b) -> t_get t k <> None ->
  t_get t' k = t_get t k \/
  (t_get t' k = None /\ b = true /\
   exists u, In u (tried (hdelim h) h (full h path)) /\ (aside (hdelim h) k (runes u) -> prefix (runes u) k)).
Proof.
  intros R. pose proof (reached_wf _ R) as WT. unfold Remove.
  destruct (RemoveEx rf h t path) as [[[[t1 n] p] b1]| |] eqn:E; try discriminate. cbn [bind].
  intros X; inversion X; subst t1 b1; clear X. intros G.
  assert (S : b = true \/ t' = t).
  { unfold RemoveEx in E. destruct (search rf h t (full h path)) as [r| |]; try discriminate. cbn [bind] in E.
    destruct (s_node r) as [n0|]; [|inversion E; auto]. destruct (s_partial r); [inversion E; auto|].
    destruct (s_parent r); [|inversion E; auto]. destruct (fst _); inversion E; auto. }
  destruct S as [->| ->]; [|now left].
  destruct (removeEx_in rf h t path t' n p WT E) as (kp & pn & nn & -> & -> & Hp & Hn & ->).
  destruct (remove_refines t (entries t) kp pn nn WT (abs_entries t) Hp Hn) as (WT' & A' & _).
  set (t' := Tr _ _) in *.
  assert (G' : t_get t' k = if has_prefix (kp ++ npath nn) k then None else t_get t k).
  { unfold t_get. rewrite <- (abs_entries t' k), (A' k). clear. induction (entries t) as [|[k0 a0] l IH]; cbn.
    - now destruct (has_prefix _ _).
    - destruct (has_prefix (kp ++ npath nn) k0) eqn:H0; cbn.
      + destruct (str_eqb k0 k) eqn:H1; [|exact IH]. apply str_eqb_eq in H1. subst k0. rewrite IH, H0. reflexivity.
      + destruct (str_eqb k0 k) eqn:H1; [|exact IH]. apply str_eqb_eq in H1. subst k0. now rewrite H0. }
  destruct (has_prefix (kp ++ npath nn) k) eqn:HP; [right|now left].
  split; [exact G'|]. split; [reflexivity|].
  unfold RemoveEx in E. destruct (search rf h t (full h path)) as [r| |] eqn:ES; try discriminate. cbn [bind] in E.
  destruct (s_node r) as [n0|] eqn:N; [|discriminate]. destruct (s_partial r) eqn:SP; [discriminate|].
  destruct (s_parent r); [|discriminate]. destruct (fst _); [|discriminate]. inversion E; subst n0.
  destruct (search_own _ _ _ _ _ _ WT ES N) as (k0 & u & Hk & Hu & O). exists u. split; [exact Hu|]. intros AS.
  assert (k0 = kp ++ npath nn).
  { eapply key_unique; [exact WT|exact Hk|]. clear - Hp Hn.
    revert Hp. generalize (@nil rune). generalize (root t). intros s. induction s as [s IH] using node_ind'. intros pre H.
    apply ents_inv in H. destruct H as [[-> ->]|(c' & Hc' & H)].
    - eapply ents_kid; eauto. rewrite ents_eq. now left.
    - rewrite Forall_forall in IH. eapply ents_kid; eauto. }
  subst k0. apply has_prefix_iff in HP.
  destruct (O (aside_prefix _ _ _ _ HP AS)) as [<-|[L|[L _]]]; [exact HP| |congruence].
  rewrite L in HP. destruct HP as [z ->]. exists (hdelim h :: z). now rewrite <- app_assoc.
Qed.

(** ** Set, then Get, in a tree with patterns *)
Lemma search_first rf h t m w k :
  wf_tr t -> abs (root t) m -> aside_map (hdelim h) m w -> s_probe (hdelim h) m (runes w) = SFound k ->
  exists r, search (S rf) h t w = Ok r /\ search_ok t (s_search (hdelim h) (is_up h) m w) r /\ s_kv r = [].
Proof.
  intros WT A AS F. unfold search, probe.
  destruct (probe_spec (hdelim h) t m WT A rf [] (runes w)) as (r & E & O & K).
  { intros k' D. apply AS. now apply (abs_dom _ _ (proj1 (proj2 (proj1 WT))) A). }
  rewrite E. cbn [bind]. destruct (probe_hit (hdelim h) t m _ _ O) as [(_ & X)|(-> & _ & SO)]; [congruence|].
  eexists; split; [reflexivity|]. split; [|exact K]. unfold s_search. cbn [s_first]. rewrite F in *. exact SO.
Qed.

Lemma query_present_aside rf h t p a :
  wf_tr t -> aside_map (hdelim h) (entries t) (full h p) -> t_get t (runes (full h p)) = Some a ->
  exists q, Query (S rf) h t p = Ok q /\
    q_data q = (if a_has a then a_data a else GNil) /\
    q_branch q = negb (a_leaf a) /\
    q_found q = (a_leaf a || ends_with (hdelim h) (runes (full h p))).
Proof.
  intros WT AS G.
  assert (M : smem (entries t) (runes (full h p)) = true) by (apply smem_sget; eauto).
  destruct (step_of_search rf h t (entries t) (OQuery p) WT (abs_entries t)) as (t' & E & _).
  { intros path L. inversion L; subst path.
    assert (F : exists k, s_probe (hdelim h) (entries t) (runes (full h p)) = SFound k).
    { unfold s_probe, s_find. rewrite M. destruct (is_nil _); eauto. }
    destruct F as [k F]. exact (search_first rf h t (entries t) (full h p) k WT (abs_entries t) AS F). }
  cbn [t_step s_step view_of v_delim v_pfx v_up snd] in E.
  rewrite search_mem in E by (right; exact M).
  unfold s_query, s_hit in E. unfold t_get in G. rewrite G in E. cbn [snd] in E.
  destruct (Query (S rf) h t p) as [q| |]; cbn [bind] in E; try discriminate.
  inversion E. exists q. auto.
Qed.

Lemma aside_self d w : aside d w w.
Proof. intros q c y x z E _ _ E'. rewrite E in E'. apply app_inv_head in E'. now inversion E'. Qed.

Theorem set_get_aside rf h t path v :
  reached t -> (forall k, t_get t k <> None -> aside (hdelim h) k (runes (full h path))) ->
  blank_free (full h path) ->
  exists t' id old q, Set_ h t path v = Ok (t', id, old) /\ Query (S rf) h t' path = Ok q /\
    q_data q = v /\
    q_found q = (match t_get t (runes (full h path)) with
                 | Some a => a_leaf a
                 | None => negb (existsb (sprefix (runes (full h path))) (skeys (entries t)))
                 end || ends_with (hdelim h) (runes (full h path))).
Proof.
  intros R AS BF. pose proof (reached_wf t R) as WT.
  destruct (set_refines h t path v WT) as (t' & id & E & WT' & A' & _).
  rewrite (blank_free_replace _ BF) in *.
  set (w := runes (full h path)) in *.
  assert (K : all_keys (fun k => aside (hdelim h) k w) (s_set w v (entries t))).
  { apply keys_set.
    - intros p k. apply aside_prefix.
    - intros k Hk. apply AS. now apply entries_keys.
    - apply aside_self. }
  destruct (query_present_aside rf h t' path
             (match t_get t w with
              | Some a => Attr v (a_desc a) (a_cmt a) (a_tag a) (a_leaf a) true (a_mod a)
              | None => bare (negb (existsb (sprefix w) (skeys (entries t)))) true v
              end)) as (q & Q & Q1 & Q2 & Q3); auto.
  { intros k Hk. apply K. pose proof (proj1 (proj2 (proj1 WT'))) as W'.
    apply (abs_dom _ _ W' A'). apply (abs_dom _ _ W' (abs_entries t')). exact Hk. }
  { fold w. rewrite (abs_get _ _ _ A'), s_set_get, str_eqb_refl. reflexivity. }
  exists t', id, (s_old w (entries t)), q. split; auto. split; auto.
  split; [rewrite Q1; now destruct (t_get t w)|].
  rewrite Q3. fold w. f_equal. now destruct (t_get t w).
Qed.

(** ** deciding it *)
Fixpoint asideb (d : rune) (lrd : bool) (k w : key_t) : bool :=
  match k, w with
  | c :: k', x :: w' =>
      if (x =? c)%N then asideb d (lrd_end d lrd [c]) k' w'
      else negb (lrd && ((c =? colon) || (c =? star))%N)
  | _, _ => true
  end.
Lemma asideb_spec d k w : asideb d false k w = true -> aside d k w.
Proof.
  unfold aside. generalize false. intros lrd H q. revert lrd k w H. induction q as [|e q IH]; intros lrd k w H c y x z Ek L Hc Ew.
  - cbn in *. subst k w. cbn in H. destruct (N.eqb_spec x c); auto. rewrite L in H. cbn in H.
    destruct Hc as [->| ->]; discriminate.
  - cbn in Ek, Ew. subst k w. cbn [asideb] in H. rewrite N.eqb_refl in H.
    eapply (IH (lrd_end d lrd [e])); eauto.
Qed.
Definition apartb (hist : list (hdl * op)) : bool :=
  forallb (fun ho => match stored (fst ho) (snd ho) with
    | None => true
    | Some w => forallb (fun ho' => match looks (snd ho') with
        | None => true
        | Some path => forallb (fun u => asideb (hdelim (fst ho')) false (runes w) (runes u))
                               (tried (hdelim (fst ho')) (fst ho') (full (fst ho') path))
        end) hist
    end) hist.
Lemma apartb_spec hist : apartb hist = true -> apart hist.
Proof.
  unfold apartb. intros H h o w I ST h' o' path u I' L U. rewrite forallb_forall in H.
  specialize (H _ I). cbn [fst snd] in H. rewrite ST in H. rewrite forallb_forall in H.
  specialize (H _ I'). cbn [fst snd] in H. rewrite L in H. rewrite forallb_forall in H.
  apply asideb_spec. now apply H.
Qed.

Lemma aside_iff d k w :
  aside d k w <->
  ~ exists q c y x z, k = q ++ c :: y /\ w = q ++ x :: z /\ ends_delim d q /\ (c = colon \/ c = star) /\ x <> c.
Proof.
  split.
  - intros H (q & c & y & x & z & Ek & Ew & L & Hc & N). apply N. eapply H; eauto. now apply ends_delim_lrd.
  - intros H q c y x z Ek L Hc Ew. destruct (N.eq_dec x c); auto. exfalso. apply H. exists q, c, y, x, z.
    repeat split; auto. destruct (rev q) as [|e p] eqn:E.
    + apply (f_equal (@rev _)) in E. rewrite rev_involutive in E. subst q. discriminate.
    + apply (f_equal (@rev _)) in E. rewrite rev_involutive in E. cbn in E. subst q. exists (rev p).
      unfold lrd_end in L. rewrite fold_left_app in L. cbn in L. apply N.eqb_eq in L. now subst.
Qed.
