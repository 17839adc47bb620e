(** A route that was there first keeps the paths that it matches, whatever is written later.  Only proofs. *)
From Coq Require Import List NArith ZArith Bool Arith Lia.
From Verif Require Import GoStr Utf8 Node NodeWf InsertProofs MatchProofs Trie Spec TreeOps Refine ApiRefine Reach.
From Verif Require Import Climb Effect Derived Pattern Route Aside First.
Import ListNotations.
Open Scope nat_scope.
Open Scope list_scope.

(** what is tried before the pattern and catches the search of [q ++ x0 :: x]: a pattern, and behind [q] the rune [x0] *)
Definition catch (d : rune) (q : key_t) (x0 : rune) (q' : key_t) (y0 : rune) : bool :=
  pat d q' y0 || (if list_eq_dec N.eq_dec q' q then (y0 =? x0)%N else false).

Lemma free_lead B : forall s pre w,
  wfn s -> dom pre s (pre ++ w) ->
  (forall k q c y x z, dom pre s k -> k = q ++ c :: y -> pre ++ w = q ++ x :: z -> x <> c -> B q c = false) ->
  lead B pre s w.
Proof.
  induction s as [s IH] using node_ind'. intros pre w W D F.
  apply dom_inv in D. destruct D as [D|(c & Hc & D)].
  { apply app_inv_head in D. subst w. apply lead_here. }
  destruct (dom_prefix _ _ _ D) as [z Ez]. rewrite <- !app_assoc in Ez. apply app_inv_head in Ez. subst w.
  destruct (wfn_kids _ _ W Hc) as [Hnc Wc]. rewrite Forall_forall in IH.
  destruct (in_split _ _ Hc) as (l & r & E).
  apply (lead_kid B pre s l c r); auto.
  - rewrite Forall_forall. intros k Hk y0 y Ek.
    assert (Hk' : In k (nkids s)) by (rewrite E; apply in_or_app; now left).
    destruct (npath c) as [|c0 p] eqn:Ec; [congruence|].
    apply (F ((pre ++ npath s) ++ npath k) (pre ++ npath s) y0 y c0 (p ++ z)).
    + exists k. eapply ents_kid; [exact Hk'|]. rewrite ents_eq. now left.
    + now rewrite Ek.
    + rewrite <- app_assoc. reflexivity.
    + intros X. pose proof (wfn_nodup _ W) as ND. rewrite E, map_app in ND. cbn [map] in ND.
      apply NoDup_remove_2 in ND. apply ND. apply in_or_app. left.
      assert (FK : fst_rune k = fst_rune c) by (unfold fst_rune; rewrite Ek, Ec; now rewrite X). rewrite <- FK. now apply in_map.
  - apply IH; auto.
    + now rewrite <- app_assoc.
    + intros k q c1 y x z' D' E1 E2. apply (F k q c1 y x z'); auto.
      * eapply dom_kid; eauto.
      * now rewrite app_assoc.
Qed.

Lemma app_meet {A} (a b : list A) x y u v :
  a ++ x :: u = b ++ y :: v ->
  (a = b /\ x = y) \/ (exists r, b = a ++ x :: r) \/ (exists r, a = b ++ y :: r).
Proof.
  revert b. induction a as [|a0 a IH]; intros [|b0 b] E; cbn in E; inversion E; subst; auto.
  - right. left. now exists b.
  - right. right. now exists a.
  - destruct (IH b H1) as [[-> ->]|[[r ->]|[r ->]]]; auto; [right; left|right; right]; now exists r.
Qed.

Lemma sole_lead t d q pc name x0 :
  wf_tr t -> (pc = colon \/ pc = star) -> ends_delim d q -> x0 <> pc ->
  t_get t (q ++ pc :: name) <> None -> sole_route t d (q ++ pc :: name) q x0 ->
  lead (catch d q x0) [] (root t) (q ++ pc :: name).
Proof.
  intros WT Hpc Hq Hx G [S1 S2]. apply free_lead; [exact (proj1 (proj2 (proj1 WT)))|now apply dom_get|].
  intros k q' c y x z D E1 E2 Hxc. apply dom_get in D. cbn [app] in E2.
  assert (NP : ~ (q' = q /\ c = x0)).
  { intros [-> ->]. apply (S2 k D). exists y. rewrite E1, <- app_assoc. reflexivity. }
  destruct (S1 k D) as [->|A].
  { rewrite E1 in E2. apply app_inv_head in E2. inversion E2. congruence. }
  unfold catch. apply orb_false_iff. split.
  - unfold pat. destruct (lrd_end d false q') eqn:L; [|reflexivity]. cbn [andb].
    destruct ((c =? colon) || (c =? star))%N eqn:Ep; [exfalso|reflexivity].
    assert (Hc : c = colon \/ c = star) by (apply orb_true_iff in Ep; now rewrite !N.eqb_eq in Ep).
    destruct (app_meet _ _ _ _ _ _ E2) as [[<- <-]|[[r ->]|[r ->]]].
    + apply NP. split; auto. symmetry. apply (A q c y x0 []); auto.
    + rewrite <- app_assoc in E1. cbn [app] in E1. rewrite E1 in A. now apply aside_key_not in A.
    + apply Hxc. apply (A q' c y x (r ++ [x0])); auto. rewrite <- app_assoc. reflexivity.
  - destruct (list_eq_dec N.eq_dec q' q) as [Eq|]; auto. apply N.eqb_neq. tauto.
Qed.

(** ** the search *)
Lemma loop_first rf d rest lrd s c r : forall l last,
  (forall c' kv, In c' l -> matchR rf d c' rest lrd (Some s) kv = Ok (MRes false false None None kv)) ->
  hit (matchR rf d c rest lrd (Some s) (m_kv last)) ->
  kids_loop rf d rest lrd s (l ++ c :: r) last = matchR rf d c rest lrd (Some s) (m_kv last).
Proof.
  induction l as [|c1 l IH]; intros last Hs Hh; cbn [app kids_loop].
  - destruct (matchR rf d c rest lrd (Some s) (m_kv last)) as [m| |]; auto. cbn in *. now rewrite Hh.
  - rewrite (Hs c1 (m_kv last) (or_introl eq_refl)). cbn [bind m_matched m_partial orb].
    rewrite IH; auto. intros c' kv Hc'. apply Hs. now right.
Qed.
Lemma level_first rf d s l c r x0 x lrd par kv :
  nkids s = l ++ c :: r ->
  (forall c' kv, In c' l ->
     matchR rf d c' (x0 :: x) (lrd_end d lrd (npath s)) (Some s) kv = Ok (MRes false false None None kv)) ->
  hit (matchR rf d c (x0 :: x) (lrd_end d lrd (npath s)) (Some s) kv) ->
  matchR rf d s (npath s ++ x0 :: x) lrd par kv =
  matchR rf d c (x0 :: x) (lrd_end d lrd (npath s)) (Some s) kv.
Proof.
  intros Hc Hs Hh. rewrite matchR_eq by (intros X; destruct (app_cons_not_nil _ _ _ (eq_sym X))).
  cbv zeta. rewrite scan_spec. rewrite lcp_app_self. cbn [plus].
  replace (Nat.min (length (npath s)) (length (npath s ++ x0 :: x))) with (length (npath s))
    by (rewrite app_length; cbn; lia).
  rewrite Nat.ltb_irrefl. cbn [bind].
  destruct (after_loop d s (npath s ++ x0 :: x) par (length (npath s)) false false) as [[[m p] ch] pa].
  destruct (Nat.ltb_spec (length (npath s)) (length (npath s ++ x0 :: x))) as [_|X]; [|rewrite app_length in X; cbn in X; lia].
  cbn [Nat.eqb]. rewrite skipn_here.
  destruct (nkids s) as [|k0 ks] eqn:Ek; [now destruct l|]. rewrite Hc. apply loop_first; auto.
Qed.

Lemma lead_descend d q pc name x0 x :
  forall pre s w, lead (catch d q x0) pre s w -> wfn s -> pre ++ w = q ++ pc :: name -> prefix (pre ++ npath s) q ->
  exists kp m n a, In (kp, m) (ents pre s) /\ In n (nkids m) /\ q = kp ++ a /\ prefix (a ++ [pc]) (npath n) /\
    forall rf w par kv, pre ++ w = q ++ x0 :: x ->
      hit (matchR (S rf) d n (a ++ x0 :: x) (lrd_end d false kp) (Some m) kv) ->
      matchR (S rf) d s w (lrd_end d false pre) par kv =
      matchR (S rf) d n (a ++ x0 :: x) (lrd_end d false kp) (Some m) kv.
Proof.
  induction 1 as [pre s|pre s l c r w E M L IH]; intros W EK Pq.
  { exfalso. rewrite EK in Pq. apply prefix_len in Pq. rewrite app_length in Pq. cbn in Pq. lia. }
  destruct Pq as [a Eq].
  assert (Hc : In c (nkids s)) by (rewrite E; apply in_elt).
  destruct (wfn_kids _ _ W Hc) as [Hnc Wc].
  assert (EK' : (pre ++ npath s) ++ w = q ++ pc :: name) by (rewrite <- app_assoc; exact EK).
  assert (Pk : prefix (q ++ [pc]) ((pre ++ npath s) ++ w)).
  { rewrite EK'. exists name. now rewrite <- app_assoc. }
  pose proof (dom_prefix _ _ _ (lead_dom _ _ _ _ L)) as Pc.
  assert (Skip : forall rf c' kv, In c' l -> forall w0 w', a ++ x0 :: x = w0 :: w' ->
    matchR (S rf) d c' (w0 :: w') (lrd_end d false (pre ++ npath s)) (Some s) kv = Ok (MRes false false None None kv)).
  { intros rf c' kv Hc' w0 w' Ew.
    assert (Hin : In c' (nkids s)) by (rewrite E; apply in_or_app; now left).
    destruct (wfn_kids _ _ W Hin) as [Hnc' _].
    destruct (npath c') as [|y0 y] eqn:Ey; [congruence|].
    rewrite Forall_forall in M. pose proof (M c' Hc' y0 y Ey) as Mc. unfold catch in Mc. apply orb_false_iff in Mc.
    destruct Mc as [M1 M2].
    apply (skip_node rf d c' w0 w' _ _ kv y0 y); auto.
    intros Hy. destruct a as [|a0 a]; cbn [app] in Ew; injection Ew as <- _.
    - rewrite app_nil_r in Eq. destruct (list_eq_dec N.eq_dec (pre ++ npath s) q) as [_|X]; [|now apply X].
      apply N.eqb_neq in M2. congruence.
    - assert (Fc : fst_rune c = Some a0).
      { destruct Pc as [z Ez]. rewrite EK', Eq, <- !app_assoc in Ez. do 2 apply app_inv_head in Ez.
        unfold fst_rune. destruct (npath c) as [|e0 e]; [congruence|]. cbn in Ez. now inversion Ez. }
      pose proof (wfn_nodup _ W) as ND. rewrite E, map_app in ND. cbn [map] in ND.
      apply NoDup_remove_2 in ND. apply ND. apply in_or_app. left. rewrite Fc.
      assert (Fc' : fst_rune c' = Some a0) by (unfold fst_rune; rewrite Ey; cbn; now rewrite Hy).
      rewrite <- Fc'. now apply in_map. }
  assert (Cmp : prefix ((pre ++ npath s) ++ npath c) q \/ prefix (q ++ [pc]) ((pre ++ npath s) ++ npath c)).
  { destruct (prefix_comparable _ _ _ Pc Pk) as [P|P]; auto.
    destruct P as [z Ez]. destruct z as [|z0 z] using rev_ind.
    - rewrite app_nil_r in Ez. right. rewrite Ez. apply prefix_refl.
    - rewrite app_assoc in Ez. apply app_inj_tail in Ez. destruct Ez as [-> _]. left. now exists z. }
  destruct Cmp as [Cq|Cn].
  - destruct (IH Wc EK' Cq) as (kp & m & n & a' & H1 & H2 & H3 & H4 & H5).
    exists kp, m, n, a'. split; [eapply ents_kid; eauto|]. split; auto. split; auto. split; auto.
    intros rf w1 par kv Ew Hh.
    assert (Ew' : w1 = npath s ++ a ++ x0 :: x).
    { rewrite Eq, <- !app_assoc in Ew. now apply app_inv_head in Ew. }
    destruct (a ++ x0 :: x) as [|w0 w'] eqn:Ea; [destruct (app_cons_not_nil _ _ _ (eq_sym Ea))|].
    assert (E5 : matchR (S rf) d c (w0 :: w') (lrd_end d false (pre ++ npath s)) (Some s) kv =
                 matchR (S rf) d n (a' ++ x0 :: x) (lrd_end d false kp) (Some m) kv).
    { apply H5; auto. rewrite <- Ea, Eq, !app_assoc. reflexivity. }
    rewrite lrd_end_app in E5. rewrite Ew', <- E5. apply (level_first _ _ _ l c r); auto.
    + intros c' kv' Hc'. rewrite <- lrd_end_app. eauto.
    + rewrite E5. exact Hh.
  - exists (pre ++ npath s), s, c, a. split; [rewrite ents_eq; now left|]. split; auto. split; auto. split.
    + destruct Cn as [z Ez]. rewrite Eq, <- !app_assoc in Ez. do 2 apply app_inv_head in Ez.
      exists z. rewrite Ez. now rewrite <- app_assoc.
    + intros rf w1 par kv Ew Hh.
      assert (Ew' : w1 = npath s ++ a ++ x0 :: x).
      { rewrite Eq, <- !app_assoc in Ew. now apply app_inv_head in Ew. }
      destruct (a ++ x0 :: x) as [|w0 w'] eqn:Ea; [destruct (app_cons_not_nil _ _ _ (eq_sym Ea))|].
      rewrite lrd_end_app in *. rewrite Ew'. apply (level_first _ _ _ l c r); auto.
Qed.

Lemma lead_route_at t d q pc name x0 x a0 :
  wf_tr t -> ends_delim d q ->
  lead (catch d q x0) [] (root t) (q ++ pc :: name) -> t_get t (q ++ pc :: name) = Some a0 ->
  (forall k, t_get t k <> None -> prefix (q ++ [pc]) k -> k = q ++ pc :: name) ->
  route_at t d q pc name x0 x a0.
Proof.
  intros WT Hq L G S1.
  pose proof (proj1 (proj1 WT)) as Hroot. pose proof (proj1 (proj2 (proj1 WT))) as W.
  destruct (lead_descend d q pc name x0 x [] (root t) _ L W eq_refl) as (kp & m & n & a & H1 & H2 & H3 & [z H4] & H5).
  { rewrite Hroot. apply prefix_nil. }
  rewrite <- app_assoc in H4. cbn [app] in H4.
  assert (Hn : In (q ++ pc :: z, n) (ents [] (root t))).
  { assert (E : q ++ pc :: z = kp ++ npath n) by (rewrite H3, H4, <- !app_assoc; reflexivity).
    rewrite E. clear - H1 H2. revert H1. generalize ([] : key_t). induction (root t) as [s IH] using node_ind'.
    intros pre H. apply ents_inv in H. destruct H as [[-> ->]|(c & Hc & H)].
    - eapply ents_kid; eauto. rewrite ents_eq. now left.
    - rewrite Forall_forall in IH. eapply ents_kid; eauto. }
  assert (Ez : z = name).
  { assert (E : q ++ pc :: z = q ++ pc :: name).
    { apply S1; [now apply (ents_get t _ n)|]. exists z. now rewrite <- app_assoc. }
    apply app_inv_head in E. now inversion E. }
  subst z. exists m, n, a, (lrd_end d false kp).
  split; auto. split.
  { rewrite (ents_attr t _ _ WT Hn) in G. now inversion G. }
  split.
  { apply (kids_dom [] (root t) (q ++ pc :: name) n W Hn).
    intros k' D P. apply dom_get in D. pose proof P as P0. destruct P as (c & y & ->). apply pprefix_neq in P0. apply P0.
    symmetry. apply S1; auto. exists (name ++ c :: y). rewrite <- !app_assoc. reflexivity. }
  split; [eauto|]. split.
  { rewrite <- lrd_end_app, <- H3. now apply ends_delim_lrd. }
  intros rf h w Hd Ew r Er Hr. unfold search, probe. rewrite Hd, Ew.
  assert (E5 := H5 rf (q ++ x0 :: x) None [] eq_refl). rewrite Er in E5. cbn [hit] in E5.
  change (lrd_end d false []) with false in E5. rewrite (E5 Hr). cbn [bind]. now rewrite Hr.
Qed.

(** ** whole stores *)
Lemma route_stays t t' d q pc name x0 x :
  reached t -> (pc = colon \/ pc = star) -> ends_delim d q -> x0 <> pc ->
  t_get t (q ++ pc :: name) <> None -> sole_route t d (q ++ pc :: name) q x0 ->
  later (q ++ pc :: name) t t' ->
  (forall k, t_get t' k <> None -> prefix (q ++ [pc]) k -> k = q ++ pc :: name) ->
  exists a, t_get t' (q ++ pc :: name) = Some a /\ route_at t' d q pc name x0 x a.
Proof.
  intros R Hpc Hq Hx G SR LT S1. pose proof (reached_wf t R) as WT.
  pose proof (sole_lead t d q pc name x0 WT Hpc Hq Hx G SR) as L.
  destruct (later_lead _ _ _ _ WT L LT) as [WT' L'].
  destruct (t_get t' (q ++ pc :: name)) as [a|] eqn:G'.
  - exists a. split; auto. now apply lead_route_at.
  - exfalso. pose proof (lead_dom _ _ _ _ L') as D. apply dom_get in D. cbn [app] in D. congruence.
Qed.

Lemma remove_id_in n ks : In n ks -> fst (remove_id (nid n) ks) = true.
Proof.
  induction ks as [|k ks IH]; intros H; [destruct H|]. cbn. destruct (Nat.eqb_spec (nid k) (nid n)) as [E|E]; [reflexivity|].
  destruct H as [->|H]; [congruence|]. specialize (IH H). destruct (remove_id (nid n) ks). exact IH.
Qed.
(** the route is removed, and nothing else, by a path of which the search finds its node *)
Lemma remove_at rf h t path kp m n kv :
  wf_tr t -> In (kp, m) (ents [] (root t)) -> In n (nkids m) -> nkids n = [] ->
  search rf h t (full h path) = Ok (SRes (Some n) (Some m) false kv) ->
  exists t', Remove rf h t path = Ok (t', true) /\
    forall k, t_get t' k = if str_eqb k (kp ++ npath n) then None else t_get t k.
Proof.
  intros WT Hm Hn Kn E. unfold Remove, RemoveEx. rewrite E. cbn [bind s_node s_partial s_parent].
  rewrite (remove_id_in n (nkids m) Hn). eexists. split; [reflexivity|]. intros k.
  destruct (remove_refines t (entries t) kp m n WT (abs_entries t) Hm Hn) as (WT' & A' & _).
  set (t' := Tr _ _) in *. pose proof (proj1 (proj2 (proj1 WT))) as W.
  assert (Hk : In (kp ++ npath n, n) (ents [] (root t))).
  { clear - Hm Hn. revert Hm. generalize ([] : key_t). induction (root t) as [s IH] using node_ind'.
    intros pre H. apply ents_inv in H. destruct H as [[-> ->]|(c & Hc & H)].
    - eapply ents_kid; eauto. rewrite ents_eq. now left.
    - rewrite Forall_forall in IH. eapply ents_kid; eauto. }
  assert (G' : t_get t' k = if has_prefix (kp ++ npath n) k then None else t_get t k).
  { unfold t_get. rewrite <- (abs_entries t' k), (A' k). clear. induction (entries t) as [|[k0 a0] l IH]; cbn.
    - now destruct (has_prefix _ _).
    - destruct (has_prefix (kp ++ npath n) k0) eqn:H0; cbn.
      + destruct (str_eqb k0 k) eqn:H1; [|exact IH]. apply str_eqb_eq in H1. subst k0. rewrite IH, H0. reflexivity.
      + destruct (str_eqb k0 k) eqn:H1; [|exact IH]. apply str_eqb_eq in H1. subst k0. now rewrite H0. }
  rewrite G'. destruct (str_eqb k (kp ++ npath n)) eqn:Ek.
  - apply str_eqb_eq in Ek. subst k. rewrite (proj2 (has_prefix_iff _ _)); auto. apply prefix_refl.
  - destruct (has_prefix (kp ++ npath n) k) eqn:HP; [|reflexivity]. apply has_prefix_iff in HP.
    destruct (t_get t k) as [a|] eqn:G; [exfalso|reflexivity].
    assert (D : dom [] (root t) k) by (apply dom_get; congruence).
    destruct HP as [z ->]. destruct z as [|z0 z].
    + rewrite app_nil_r in Ek. assert (X : str_eqb (kp ++ npath n) (kp ++ npath n) = true) by now apply str_eqb_eq.
      congruence.
    + apply (proj1 (kids_dom [] (root t) _ n W Hk) Kn _ D). exists z0, z. reflexivity.
Qed.

Definition taken (t t' : tr) (K : skey) : Prop := forall k, t_get t' k = if str_eqb k K then None else t_get t k.

Lemma later_wf w t t' : wf_tr t -> later w t t' -> wf_tr t'.
Proof. intros WT H. induction H; auto. eapply step_wf; eauto. Qed.

Theorem param_stays rf h t t' q name x0 x path :
  reached t -> ends_delim (hdelim h) q ->
  t_get t (q ++ colon :: name) <> None -> sole_route t (hdelim h) (q ++ colon :: name) q x0 ->
  later (q ++ colon :: name) t t' ->
  (forall k, t_get t' k <> None -> prefix (q ++ [colon]) k -> k = q ++ colon :: name) ->
  name <> [] -> ~ In (hdelim h) name -> x0 <> colon -> ~ In (hdelim h) (x0 :: x) ->
  runes (full h path) = q ++ x0 :: x ->
  exists a, t_get t' (q ++ colon :: name) = Some a /\
    (a_leaf a = true -> Query (S rf) h t' path =
      Ok (QRes (if a_has a then a_data a else GNil) false true [(of_runes name, of_runes (x0 :: x))])) /\
    exists t2, Remove (S rf) h t' path = Ok (t2, true) /\ taken t' t2 (q ++ colon :: name).
Proof.
  intros R Hq G SR LT S1 Hn Dn Hx Dx Ew.
  destruct (route_stays t t' (hdelim h) q colon name x0 x R (or_introl eq_refl) Hq Hx G SR LT S1) as (a & G' & RA).
  assert (WT : wf_tr t') by (eapply later_wf; eauto using reached_wf).
  exists a. split; auto. split; [intros La; eapply param_found_at; eauto|].
  destruct RA as (m & n & b & l & H1 & H2 & H3 & (H4 & kp & H4' & H4'') & H5 & H6).
  destruct (remove_at (S rf) h t' path kp m n _ WT H4' H4 H3
    (H6 rf h (full h path) eq_refl Ew _ (param_end rf _ n b name x0 x l (Some m) [] H1 H5 Hn Dn Hx Dx) eq_refl)) as (t2 & E2 & T2).
  exists t2. split; auto. intros k. rewrite (T2 k), H1, H4'', <- app_assoc. reflexivity.
Qed.
Theorem wild_stays rf h t t' q name x0 x path :
  reached t -> ends_delim (hdelim h) q ->
  t_get t (q ++ star :: name) <> None -> sole_route t (hdelim h) (q ++ star :: name) q x0 ->
  later (q ++ star :: name) t t' ->
  (forall k, t_get t' k <> None -> prefix (q ++ [star]) k -> k = q ++ star :: name) ->
  ~ In (hdelim h) name -> x0 <> star ->
  runes (full h path) = q ++ x0 :: x ->
  exists a, t_get t' (q ++ star :: name) = Some a /\
    (a_leaf a = true -> Query (S rf) h t' path =
      Ok (QRes (if a_has a then a_data a else GNil) false true [(of_runes name, of_runes (x0 :: x))])) /\
    exists t2, Remove (S rf) h t' path = Ok (t2, true) /\ taken t' t2 (q ++ star :: name).
Proof.
  intros R Hq G SR LT S1 Dn Hx Ew.
  destruct (route_stays t t' (hdelim h) q star name x0 x R (or_intror eq_refl) Hq Hx G SR LT S1) as (a & G' & RA).
  assert (WT : wf_tr t') by (eapply later_wf; eauto using reached_wf).
  exists a. split; auto. split; [intros La; eapply wild_found_at; eauto|].
  destruct RA as (m & n & b & l & H1 & H2 & H3 & (H4 & kp & H4' & H4'') & H5 & H6).
  destruct (remove_at (S rf) h t' path kp m n _ WT H4' H4 H3
    (H6 rf h (full h path) eq_refl Ew _ (wild_end rf _ n b name x0 x l (Some m) [] H1 H5 Dn Hx) eq_refl)) as (t2 & E2 & T2).
  exists t2. split; auto. intros k. rewrite (T2 k), H1, H4'', <- app_assoc. reflexivity.
Qed.
Theorem tail_stays rf h t t' q name tail x0 x path :
  reached t -> ends_delim (hdelim h) q ->
  t_get t (q ++ colon :: name ++ hdelim h :: tail) <> None ->
  sole_route t (hdelim h) (q ++ colon :: name ++ hdelim h :: tail) q x0 ->
  later (q ++ colon :: name ++ hdelim h :: tail) t t' ->
  (forall k, t_get t' k <> None -> prefix (q ++ [colon]) k -> k = q ++ colon :: name ++ hdelim h :: tail) ->
  name <> [] -> ~ In (hdelim h) name -> x0 <> colon -> ~ In (hdelim h) (x0 :: x) ->
  runes (full h path) = q ++ (x0 :: x) ++ hdelim h :: tail ->
  exists a, t_get t' (q ++ colon :: name ++ hdelim h :: tail) = Some a /\
    (a_leaf a = true ->
     if length (x0 :: x) <=? S (length name)
     then Query (S rf) h t' path =
       Ok (QRes (if a_has a then a_data a else GNil) false true [(of_runes name, of_runes (x0 :: x))])
     else exists kv, Query (S rf) h t' path = Ok (QRes GNil false false kv)).
Proof.
  intros R Hq G SR LT S1 Hn Dn Hx Dx Ew.
  destruct (route_stays t t' (hdelim h) q colon (name ++ hdelim h :: tail) x0 (x ++ hdelim h :: tail)
    R (or_introl eq_refl) Hq Hx G SR LT S1) as (a & G' & RA).
  exists a. split; auto. intros La. eapply param_tail_found_at; eauto.
Qed.
