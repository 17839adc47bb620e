(** Existence tests, removal, reported keys, views. *)
From Coq Require Import List NArith Bool Arith Lia Permutation.
From Verif Require Import GoStr Utf8 Node NodeWf InsertProofs MatchProofs Trie TreeOps Spec Refine
  Climb ApiRefine Reach Effect Derived Derived2.
Import ListNotations.
Open Scope nat_scope.

Lemma plain_reach_search D rf h t w :
  plain_reach D t -> D (hdelim h) ->
  exists r, search (S rf) h t w = Ok r /\
    search_ok t (s_search (hdelim h) (is_up h) (entries t) w) r /\ s_kv r = [].
Proof.
  intros R Hd. destruct (plain_reach_inv D t R) as [WT PA].
  apply (search_spec (hdelim h) t (entries t) WT (abs_entries t)); auto.
  apply (plain_tree_map (hdelim h) t (entries t) WT (abs_entries t)). now apply PA.
Qed.

(** ** C06 *)
Definition terminates {A} (r : res A) : Prop := exists a, r = Ok a.
Theorem no_panic D rf h t o path :
  plain_reach D t -> D (hdelim h) ->
  terminates (t_step (S rf) h t o) /\ terminates (HasPart (S rf) h t path) /\
  terminates (Walk (S rf) h t path) /\ terminates (RemoveEx (S rf) h t path) /\
  (forall c, terminates (StartsWith (S rf) h t path c) /\ terminates (EndsWith (S rf) h t path c)).
Proof.
  intros R Hd.
  split; [destruct (plain_reach_step D rf h t o R Hd) as (t' & E & _); eexists; eauto|].
  destruct (plain_reach_search D rf h t (full h path) R Hd) as (r & E & _).
  split.
  { unfold HasPart. rewrite E. cbn [bind]. destruct (s_node r); eexists; eauto. }
  split.
  { unfold Walk. destruct (is_nil path); [eexists; eauto|].
    destruct (plain_reach_search D rf h t path R Hd) as (r' & E' & _). rewrite E'. cbn [bind].
    destruct (s_partial r'); [eexists; eauto|].
    destruct (_ =? _)%N; [destruct (s_node r')|destruct (s_parent r')]; eexists; eauto. }
  split.
  { unfold RemoveEx. rewrite E. cbn [bind]. destruct (s_node r); [|eexists; eauto].
    destruct (s_partial r); [eexists; eauto|]. destruct (s_parent r); [|eexists; eauto].
    destruct (fst _); eexists; eauto. }
  intros c. unfold StartsWith, EndsWith, Locate. rewrite E. cbn [bind].
  destruct (s_node r); split; eexists; cbn [bind]; eauto.
Qed.
(** and a trie reached by such calls again is one *)
Theorem no_panic_history D rf hist :
  plain_hist D hist -> exists t outs, t_run (S rf) hist newTrie = Ok (t, outs) /\ plain_reach D t.
Proof. apply plain_reach_run. Qed.

(** ** C08 *)
Lemma not_up h : hmode h <> ModeUp -> is_up h = false.
Proof. unfold is_up. destruct (hmode h); congruence. Qed.

Lemma s_has_probe d m w : s_has (s_probe d m w) = match s_find d m w with Some _ => true | None => false end.
Proof.
  unfold s_probe. destruct (s_find d m w); auto. destruct (shortest _); auto. destruct (filter _ _); auto.
Qed.
Lemma s_search_noup d m w : s_search d false m w = s_probe d m (runes w).
Proof. unfold s_search. cbn [s_first]. now destruct (s_probe d m (runes w)). Qed.

Theorem has_iff D rf h t p :
  plain_reach D t -> D (hdelim h) -> hmode h <> ModeUp ->
  exists b, Has (S rf) h t p = Ok b /\
    (b = true <-> full h p = [] \/ t_get t (runes (full h p)) <> None \/
                  t_get t (runes (full h p) ++ [hdelim h]) <> None).
Proof.
  intros R Hd Hm. destruct (plain_reach_search D rf h t (full h p) R Hd) as (r & E & SO & _).
  exists (s_found r). unfold Has. rewrite E. split; auto.
  rewrite (search_found _ _ _ SO), (not_up _ Hm), s_search_noup, s_has_probe. unfold s_find.
  assert (X : forall k, smem (entries t) k = true <-> t_get t k <> None).
  { intros k. rewrite <- entries_keys. apply smem_in. }
  rewrite <- !X. rewrite <- (runes_nil_iff (full h p)).
  destruct (runes (full h p)) as [|c w] eqn:Ew; cbn [is_nil]; [tauto|].
  destruct (smem (entries t) (c :: w)); [tauto|].
  destruct (smem (entries t) ((c :: w) ++ [hdelim h])); [tauto|].
  split; [discriminate|]. intros [Y|[Y|Y]]; discriminate.
Qed.

(** after writes only: every stored path exists, and whatever "exists" is the beginning of a
    stored path (up to the closing delimiter); exactly: a stored key, the point where two
    stored keys part, or such a thing up to a delimiter *)
Theorem has_stored D rf hist t outs h p :
  plain_hist D hist -> no_remove hist -> t_run (S rf) hist newTrie = Ok (t, outs) ->
  D (hdelim h) -> hmode h <> ModeUp ->
  exists b, Has (S rf) h t p = Ok b /\
    (b = true <-> full h p = [] \/
       exists x y, In x (stored_keys hist) /\ In y (stored_keys hist) /\
         (common x y = runes (full h p) \/ common x y = runes (full h p) ++ [hdelim h])).
Proof.
  intros PH NR E Hd Hm. assert (R : plain_reach D t) by (eapply plain_reach_hist; eauto).
  destruct (has_iff D rf h t p R Hd Hm) as (b & Eb & Hb). exists b. split; auto. rewrite Hb.
  assert (X : forall k, t_get t k <> None <-> k = [] \/ exists a b, In a (stored_keys hist) /\ In b (stored_keys hist) /\ k = common a b).
  { intros k. rewrite <- (keys_exact _ _ _ _ E NR). destruct (t_get t k); split; eauto; try congruence.
    intros [? ?]; congruence. }
  rewrite !X. rewrite runes_nil_iff. split.
  - intros [H|[[H|(x & y & H1 & H2 & H3)]|[H|(x & y & H1 & H2 & H3)]]]; auto.
    + right. exists x, y. auto.
    + destruct (app_cons_not_nil _ _ _ (eq_sym H)).
    + right. exists x, y. auto.
  - intros [H|(x & y & H1 & H2 & [H3|H3])]; auto; right; [left|right]; right; exists x, y; auto.
Qed.
Theorem has_after_set D rf hist t outs h p h0 o :
  plain_hist D hist -> no_remove hist -> t_run (S rf) hist newTrie = Ok (t, outs) ->
  D (hdelim h) -> In (h0, o) hist -> stored h0 o = Some (full h p) ->
  Has (S rf) h t p = Ok true.
Proof.
  intros PH NR E Hd Hin Hs. assert (R : plain_reach D t) by (eapply plain_reach_hist; eauto).
  destruct (plain_reach_search D rf h t (full h p) R Hd) as (r & Er & SO & _).
  unfold Has. rewrite Er. cbn [bind]. rewrite (search_found _ _ _ SO).
  rewrite search_mem; auto. right. apply smem_sget. fold (t_get t (runes (full h p))).
  apply (keys_exact _ _ _ _ E NR). right. exists (runes (full h p)), (runes (full h p)).
  rewrite common_lcp, lcp_refl. assert (I : In (runes (full h p)) (stored_keys hist)); auto.
  clear - Hin Hs. induction hist as [|[h1 o1] hist IH]; cbn in *; [tauto|]. apply in_or_app.
  destruct Hin as [X|X]; [inversion X; subst; left; rewrite Hs; now left|auto].
Qed.

(** ** C09 *)
(** with ASCII keys only *)
Definition ascii_hist (hist : list (hdl * op)) : Prop :=
  Forall (fun ho => match stored (fst ho) (snd ho) with Some p => ascii p = true | None => True end) hist.
Lemma ascii_keys rf hist t outs :
  t_run rf hist newTrie = Ok (t, outs) -> ascii_hist hist ->
  forall k n, In (k, n) (ents [] (root t)) -> key n = k.
Proof.
  intros E HA k n Hin.
  assert (I : forall k i, In (k, i) (ients [] (root t)) -> i_key i = k).
  { apply (run_inv (fun l => forall k i, In (k, i) l -> i_key i = k) (fun p => ascii p = true) rf)
      with (hist := hist) (t := newTrie) (outs := outs); auto.
    - intros p l l' Ef Hp. now apply (eff_ascii_key p l l').
    - apply newTrie_wf.
    - cbn. intros k0 i0 [X|[]]. inversion X. reflexivity. }
  change (key n) with (i_key (info_of n)). apply I. apply in_ients. eauto.
Qed.

Theorem haspart_iff D rf hist t outs h p :
  plain_hist D hist -> ascii_hist hist -> t_run (S rf) hist newTrie = Ok (t, outs) ->
  D (hdelim h) -> hmode h <> ModeUp -> ascii (full h p) = true ->
  nkids (root t) <> [] ->
  exists b, HasPart (S rf) h t p = Ok b /\
    (b = true <-> exists k a, t_get t k = Some a /\ has_prefix (full h p) k = true).
Proof.
  intros PH HA E Hd Hm Ha Hne. assert (R : plain_reach D t) by (eapply plain_reach_hist; eauto).
  pose proof (ascii_keys _ _ _ _ E HA) as AK.
  destruct (plain_reach_inv D t R) as [WT PA]. pose proof (proj1 (proj2 (proj1 WT))) as W.
  destruct (plain_reach_search D rf h t (full h p) R Hd) as (r & Er & SO & _).
  unfold HasPart. rewrite Er. cbn [bind]. rewrite (not_up _ Hm), s_search_noup in SO.
  rewrite (ascii_runes _ Ha) in SO. set (w := full h p) in *.
  assert (KEY : forall k, In k (skeys (entries t)) <-> exists a, t_get t k = Some a).
  { intros k. rewrite <- smem_in. apply smem_sget. }
  assert (GOAL : forall b, (b = true <-> exists k, In k (skeys (entries t)) /\ prefix w k) ->
     (b = true <-> exists k a, t_get t k = Some a /\ has_prefix w k = true)).
  { intros b ->. split.
    - intros (k & H1 & H2). apply KEY in H1. destruct H1 as [a Ga]. exists k, a. split; auto. now apply has_prefix_iff.
    - intros (k & a & H1 & H2). exists k. split; [apply KEY; eauto|now apply has_prefix_iff]. }
  unfold s_probe in SO. destruct (s_find (hdelim h) (entries t) w) as [k|] eqn:Ef.
  - destruct SO as (n & Hn & Hp & Hnode & _). rewrite Hnode, Hp. exists true. split; auto.
    apply GOAL. split; auto. intros _. exists k. split; [now apply (abs_dom _ _ W (abs_entries t)); exists n|].
    unfold s_find in Ef. destruct w as [|c w0]; cbn [is_nil] in Ef; [apply prefix_nil|].
    destruct (smem _ _); [inversion Ef; apply prefix_refl|].
    destruct (smem _ _); [inversion Ef; exact (prefix_app_r (c :: w0) [hdelim h])|discriminate].
  - destruct (shortest (filter (sprefix w) (skeys (entries t)))) as [k|] eqn:Es.
    + apply shortest_spec in Es. destruct Es as [Hk _]. apply filter_In in Hk. destruct Hk as [H1 H2].
      apply sprefix_iff in H2. destruct k as [|c k].
      { destruct H2 as (a & b & X). destruct (app_cons_not_nil _ _ _ X). }
      destruct SO as (Hp & n & Hn & Hnode). rewrite Hnode, Hp. exists true.
      change (npathS n) with (key n). rewrite (AK _ _ Hn). split.
      * f_equal. now apply has_prefix_iff, pprefix_prefix.
      * apply GOAL. split; auto. intros _. exists (c :: k). split; auto. now apply pprefix_prefix.
    + assert (NOEXT : ~ exists k, In k (skeys (entries t)) /\ prefix w k).
      { intros (k & H1 & H2). apply shortest_none in Es. destruct (prefix_cases _ _ H2) as [<-|Hp].
        - unfold s_find in Ef. destruct w; [discriminate|]. cbn [is_nil] in Ef.
          apply smem_in in H1. now rewrite H1 in Ef.
        - apply sprefix_iff in Hp. assert (X : In k []) by (rewrite <- Es; apply filter_In; auto). destruct X. }
      match type of SO with context [filter ?f ?l] => destruct (filter f l) as [|k l0] eqn:Efl end.
      * destruct SO as [Hp Hn]. rewrite Hn, Hp. exists false. split; auto. apply GOAL.
        split; [discriminate|]. intros X. destruct (NOEXT X).
      * assert (Hk : In k (k :: l0)) by now left. rewrite <- Efl in Hk. apply filter_In in Hk.
        destruct Hk as [H1 H2]. apply andb_true_iff in H2. destruct H2 as [H2 H3].
        apply sprefix_iff in H2. destruct k as [|c k].
        { exfalso. apply negb_true_iff in H3.
          destruct (nkids (root t)) as [|c ks] eqn:Eks; [congruence|].
          assert (Hc : In c (nkids (root t))) by (rewrite Eks; now left).
          destruct (wfn_kids _ _ W Hc) as [Hcn _].
          assert (Hd' : dom [] (root t) (npath c)).
          { exists c. rewrite ents_eq. right. apply in_flat_map. exists c. split; auto.
            rewrite (proj1 (proj1 WT)). rewrite ents_eq. now left. }
          apply (abs_dom _ _ W (abs_entries t)) in Hd'.
          rewrite <- not_true_iff_false in H3. apply H3. apply existsb_exists. exists (npath c).
          split; auto. apply sprefix_iff. destruct (npath c) as [|x y]; [congruence|]. exists x, y. reflexivity. }
        destruct SO as (Hp & n & Hn & Hnode). rewrite Hnode, Hp. exists false.
        change (npathS n) with (key n). rewrite (AK _ _ Hn). split.
        -- f_equal. apply has_prefix_false. intros P. apply (pprefix_neq _ _ H2).
           apply prefix_antisym; auto. now apply pprefix_prefix.
        -- apply GOAL. split; [discriminate|]. intros X. destruct (NOEXT X).
Qed.

Theorem haspart_stored D rf hist t outs h p q :
  plain_hist D hist -> ascii_hist hist -> no_remove hist -> t_run (S rf) hist newTrie = Ok (t, outs) ->
  D (hdelim h) -> hmode h <> ModeUp -> ascii (full h p) = true ->
  In q (stored_keys hist) -> q <> [] ->
  exists b, HasPart (S rf) h t p = Ok b /\
    (b = true <-> exists k, In k (stored_keys hist) /\ has_prefix (full h p) k = true).
Proof.
  intros PH HA NR E Hd Hm Ha Hq Hqn.
  destruct (haspart_iff D rf hist t outs h p PH HA E Hd Hm Ha) as (b & Eb & Hb).
  { intros X. assert (exists a, t_get t q = Some a) as [a G].
    { apply (keys_exact _ _ _ _ E NR). right. exists q, q. rewrite common_lcp, lcp_refl. auto. }
    pose proof (run_wf _ _ _ _ _ newTrie_wf E) as WT.
    unfold t_get, entries in G. rewrite ients_eq, X in G. cbn in G.
    rewrite (proj1 (proj1 WT)) in G. destruct q; [congruence|discriminate]. }
  exists b. split; auto. rewrite Hb. split.
  - intros (k & a & G & Hp). assert (K : exists a, t_get t k = Some a) by eauto.
    apply (keys_exact _ _ _ _ E NR) in K. destruct K as [->|(x & y & Hx & Hy & ->)].
    + exists q. split; auto. destruct (full h p); [auto|discriminate].
    + exists x. split; auto. apply has_prefix_iff. apply has_prefix_iff in Hp.
      eapply prefix_trans; eauto. rewrite common_lcp. apply lcp_prefix_l.
  - intros (k & Hk & Hp). assert (exists a, t_get t k = Some a) as [a G].
    { apply (keys_exact _ _ _ _ E NR). right. exists k, k. rewrite common_lcp, lcp_refl. auto. }
    eauto.
Qed.

(** ** C10, C11 *)
(** the key a call of Remove(p) refers to *)
Definition target (d : rune) (t : tr) (w : skey) : option skey :=
  match w with
  | [] => None
  | _ => match t_get t w with
         | Some _ => Some w
         | None => match t_get t (w ++ [d]) with Some _ => Some (w ++ [d]) | None => None end
         end
  end.

Lemma smem_get t k : smem (entries t) k = match t_get t k with Some _ => true | None => false end.
Proof.
  unfold t_get. destruct (sget (entries t) k) eqn:G.
  - apply smem_sget. eauto.
  - now apply smem_false.
Qed.

Theorem remove_spec D rf h t p :
  plain_reach D t -> D (hdelim h) -> hmode h <> ModeUp ->
  exists t', Remove (S rf) h t p =
      Ok (t', match target (hdelim h) t (runes (full h p)) with Some _ => true | None => false end) /\
    forall k, t_get t' k =
      match target (hdelim h) t (runes (full h p)) with
      | Some f => if has_prefix f k then None else t_get t k
      | None => t_get t k
      end.
Proof.
  intros R Hd Hm. destruct (plain_reach_step D rf h t (ORemove p) R Hd) as (t' & E & _ & A).
  exists t'. cbn [t_step s_step view_of v_delim v_pfx v_up fst snd] in *.
  rewrite (not_up _ Hm), s_search_noup in *. set (w := runes (full h p)) in *.
  assert (F : match s_hit (s_probe (hdelim h) (entries t) w) with
              | Some (c :: k) => Some (c :: k) | _ => None end = target (hdelim h) t w).
  { unfold s_probe, s_find, target. destruct w as [|c w0]; cbn [is_nil]; auto.
    rewrite !smem_get. destruct (t_get t (c :: w0)); [reflexivity|].
    destruct (t_get t ((c :: w0) ++ [hdelim h])); [reflexivity|].
    destruct (shortest _); [reflexivity|]. destruct (filter _ _); reflexivity. }
  unfold s_remove in *. rewrite <- F.
  destruct (Remove (S rf) h t p) as [[t1 b]| |]; cbn [bind] in E; try (destruct (s_hit _) as [[|? ?]|]; discriminate).
  destruct (s_hit (s_probe (hdelim h) (entries t) w)) as [[|c k]|]; cbn [fst snd] in *; inversion E; subst;
    split; auto; intros x; rewrite (abs_get _ _ _ A); auto.
  rewrite (filter_sget (fun k' => negb (has_prefix (c :: k) k'))). now destruct (has_prefix (c :: k) x).
Qed.

(** if no stored key continues the removed one other than by the delimiter, exactly the key
    and what is below it go *)
Theorem remove_exact D rf h t p :
  plain_reach D t -> D (hdelim h) -> hmode h <> ModeUp -> full h p <> [] ->
  (forall k c y, t_get t k <> None -> k = runes (full h p) ++ c :: y -> c = hdelim h) ->
  exists t' b, Remove (S rf) h t p = Ok (t', b) /\
    forall k, t_get t' k =
      if b && (str_eqb (runes (full h p)) k || has_prefix (runes (full h p) ++ [hdelim h]) k)
      then None else t_get t k.
Proof.
  intros R Hd Hm Hne HX. destruct (remove_spec D rf h t p R Hd Hm) as (t' & E & G).
  exists t'. eexists. split; eauto. intros k. rewrite G. set (w := runes (full h p)) in *.
  unfold target. destruct w as [|c0 w0] eqn:Ew; [exfalso; apply Hne; now apply runes_nil_iff|]. rewrite <- Ew in *.
  destruct (t_get t w) as [a|] eqn:Gw.
  - cbn [andb]. destruct (has_prefix w k) eqn:Hp.
    + apply has_prefix_iff in Hp. destruct (prefix_cases _ _ Hp) as [<-|(c & y & ->)].
      { now rewrite str_eqb_refl. }
      destruct (t_get t (w ++ c :: y)) as [b|] eqn:Gk; [|now destruct (_ || _)].
      assert (c = hdelim h) as -> by (apply (HX (w ++ c :: y) c y); auto; rewrite Gk; discriminate).
      replace (has_prefix (w ++ [hdelim h]) (w ++ hdelim h :: y)) with true; [now rewrite orb_true_r|].
      symmetry. apply has_prefix_iff. exists y. now rewrite <- app_assoc.
    + apply has_prefix_false in Hp.
      replace (str_eqb w k) with false.
      2:{ symmetry. apply not_true_iff_false. intros X. apply str_eqb_eq in X. subst k. apply Hp, prefix_refl. }
      replace (has_prefix (w ++ [hdelim h]) k) with false; auto.
      symmetry. apply has_prefix_false. intros X. apply Hp. eapply prefix_app; eauto.
  - destruct (t_get t (w ++ [hdelim h])) eqn:Gd; cbn [andb]; auto.
    destruct (str_eqb w k) eqn:Ek; cbn [orb]; auto. apply str_eqb_eq in Ek. subst k. rewrite Gw.
    now destruct (has_prefix _ _).
Qed.
Theorem remove_truthful D rf h t p :
  plain_reach D t -> D (hdelim h) -> hmode h <> ModeUp -> full h p <> [] ->
  exists t' b, Remove (S rf) h t p = Ok (t', b) /\
    (b = true <-> Has (S rf) h t p = Ok true) /\
    (b = true -> plain_reach D t' /\ Has (S rf) h t' p = Ok false /\ Get (S rf) h t' p = Ok (GNil, false)) /\
    (b = false -> t' = t).
Proof.
  intros R Hd Hm Hne. destruct (remove_spec D rf h t p R Hd Hm) as (t' & E & G).
  exists t'. eexists. split; eauto. set (w := runes (full h p)) in *.
  assert (Hw : w <> []) by (intros X; apply Hne; now apply runes_nil_iff).
  destruct (has_iff D rf h t p R Hd Hm) as (b & Eb & Hb). fold w in Hb.
  assert (R' : plain_reach D t').
  { eapply (plain_more D rf h (ORemove p) t); eauto; [intros d _; exact I|].
    cbn [t_step]. rewrite E. reflexivity. }
  assert (T : target (hdelim h) t w = None <-> t_get t w = None /\ t_get t (w ++ [hdelim h]) = None).
  { unfold target. destruct w as [|c0 w0] eqn:Ew; [congruence|]. rewrite <- Ew.
    destruct (t_get t w), (t_get t (w ++ [hdelim h])); split; try tauto; try discriminate; intros []; discriminate. }
  split; [|split].
  - rewrite Eb. destruct (target (hdelim h) t w) as [f|] eqn:ET.
    + split; auto. intros _. f_equal. apply Hb. right.
      destruct (t_get t w); [left; discriminate|]. destruct (t_get t (w ++ [hdelim h])); [right; discriminate|].
      destruct T as [_ T]. discriminate T; auto.
    + split; [discriminate|]. intros X. inversion X; subst b. destruct Hb as [Hb _].
      destruct T as [T _]. destruct T as [T1 T2]; auto.
      destruct Hb as [Y|[Y|Y]]; [auto|congruence..].
  - destruct (target (hdelim h) t w) as [f|] eqn:ET; [|discriminate]. intros _. split; auto.
    assert (N1 : t_get t' w = None /\ t_get t' (w ++ [hdelim h]) = None).
    { rewrite !G. unfold target in ET. destruct w as [|c0 w0] eqn:Ew; [congruence|]. rewrite <- Ew in *.
      destruct (t_get t w) eqn:Gw.
      - inversion ET; subst f. split.
        + replace (has_prefix w w) with true; auto. symmetry. apply has_prefix_iff, prefix_refl.
        + replace (has_prefix w (w ++ [hdelim h])) with true; auto. symmetry. apply has_prefix_iff, prefix_app_r.
      - split; [now destruct (has_prefix f w)|].
        destruct (t_get t (w ++ [hdelim h])); [|discriminate]. inversion ET; subst f.
        replace (has_prefix _ _) with true; auto. symmetry. apply has_prefix_iff, prefix_refl. }
    destruct (has_iff D rf h t' p R' Hd Hm) as (b' & Eb' & Hb'). fold w in Hb'.
    assert (b' = false) as ->.
    { destruct b'; auto. destruct Hb' as [Hb' _]. destruct N1 as [-> ->] in Hb'.
      destruct Hb' as [Y|[Y|Y]]; auto; congruence. }
    split; auto.
    destruct (Query (S rf) h t' p) as [q| |] eqn:EQ.
    + destruct (q_found q) eqn:Fq.
      * pose proof (agree_query_has _ _ _ _ _ EQ Fq) as X. congruence.
      * unfold Get. rewrite EQ. cbn [bind]. f_equal. f_equal; auto.
        unfold Query in EQ. unfold Has in Eb'. destruct (search (S rf) h t' (full h p)) as [r| |]; try discriminate.
        cbn [bind] in *. inversion EQ; subst q. inversion Eb' as [X]. unfold s_found in X. unfold query_of.
        destruct (s_node r); auto. destruct (s_partial r); auto. discriminate.
    + unfold Query in EQ. unfold Has in Eb'. destruct (search (S rf) h t' (full h p)); discriminate.
    + unfold Query in EQ. unfold Has in Eb'. destruct (search (S rf) h t' (full h p)); discriminate.
  - destruct (target (hdelim h) t w) as [f|] eqn:ET; [discriminate|]. intros _.
    unfold Remove, RemoveEx in E.
    destruct (search (S rf) h t (full h p)) as [r| |]; try discriminate. cbn [bind] in E.
    destruct (s_node r), (s_partial r); cbn [bind] in E; try (inversion E; now subst).
    destruct (s_parent r); cbn [bind] in E; [|inversion E; now subst].
    destruct (fst _); cbn [bind] in E; inversion E; now subst.
Qed.
