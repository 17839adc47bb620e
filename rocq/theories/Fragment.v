(** StartsWith and EndsWith of a trie: the fragment they test. *)
From Coq Require Import List NArith ZArith Bool Arith Lia.
From Verif Require Import GoStr Utf8 Node NodeWf Trie Spec TreeOps Refine MatchProofs ApiRefine Reach Derived Derived2 Derived3 Cvter CvterProofs Route Sections.
Import ListNotations.
Open Scope nat_scope.

(** the node of a key holds what comes behind the longest shorter key on its way *)
Lemma gap pre x : wfn x -> forall k n, In (k, n) (ents pre x) ->
  (k = pre ++ npath x /\ n = x) \/
  exists q, npath n <> [] /\ k = q ++ npath n /\ dom pre x q /\
    forall k', dom pre x k' -> prefix k' k -> prefix k' q \/ k' = k.
Proof.
  revert pre. induction x as [x IH] using node_ind'. intros pre W k n H. pose proof H as H0.
  apply ents_inv in H. destruct H as [H|(c & Hc & H)]; [left; exact H|right].
  destruct (wfn_kids _ _ W Hc) as [NE Wc].
  assert (ONE : forall c' k' n', In c' (nkids x) -> In (k', n') (ents (pre ++ npath x) c') -> prefix k' k -> c' = c).
  { intros c' k' n' Hc' H' [z Z]. destruct (wfn_kids _ _ W Hc') as [NE' _].
    destruct (ents_kid_head _ _ _ _ NE H) as (r & y & F & E). destruct (ents_kid_head _ _ _ _ NE' H') as (r' & y' & F' & E').
    apply (nodup_fst_eq (nkids x)); auto; [now apply wfn_nodup|]. rewrite F, F'. f_equal.
    rewrite E, E', <- !app_assoc in Z. do 2 apply app_inv_head in Z. cbn in Z. congruence. }
  rewrite Forall_forall in IH. destruct (IH c Hc (pre ++ npath x) Wc k n H) as [[-> ->]|(q & N1 & N2 & N3 & N4)].
  - exists (pre ++ npath x). split; [exact NE|]. split; [reflexivity|]. split; [exists x; rewrite ents_eq; now left|].
    intros k' [n' D'] P. apply ents_inv in D'. destruct D' as [[-> _]|(c' & Hc' & D')]; [left; apply prefix_refl|].
    rewrite (ONE c' k' n' Hc' D' P) in D'. apply ents_prefix in D'. right. now apply prefix_antisym.
  - exists q. split; [exact N1|]. split; [exact N2|]. split; [destruct N3 as [m N3]; exists m; eapply ents_kid; eauto|].
    intros k' [n' D'] P. apply ents_inv in D'. destruct D' as [[-> _]|(c' & Hc' & D')].
    + left. destruct N3 as [m N3]. apply ents_prefix in N3. destruct N3 as [z ->]. exists (npath c ++ z). now rewrite app_assoc.
    + rewrite (ONE c' k' n' Hc' D' P) in D'. apply N4; [now exists n'|exact P].
Qed.

Lemma locate_hit D rf h t path k : plain_reach D t -> D (hdelim h) ->
  s_find (hdelim h) (entries t) (runes (full h path)) = Some k ->
  exists n, In (k, n) (ents [] (root t)) /\ forall c,
    StartsWith (S rf) h t path c = Ok (startsWith n c) /\ EndsWith (S rf) h t path c = Ok (endsWith n c).
Proof.
  intros R Hd F. destruct (plain_reach_inv D t R) as [WT PA]. pose proof (proj1 (proj2 (proj1 WT))) as WF.
  assert (PT : plain_tree (hdelim h) [] (root t)).
  { intros k' Dk. apply (PA _ Hd). now apply (abs_dom _ _ WF (abs_entries t)). }
  destruct (search_spec (hdelim h) t (entries t) WT (abs_entries t) PT rf h (full h path) eq_refl) as (r & E & O & _).
  assert (ES : s_search (hdelim h) (is_up h) (entries t) (full h path) = SFound k).
  { unfold s_search. cbn [s_first]. unfold s_probe. now rewrite F. }
  rewrite ES in O. destruct O as (n & H & N1 & N2 & _). exists n. split; [exact H|].
  intros c. unfold StartsWith, EndsWith, Locate. rewrite E. cbn [bind]. rewrite N1, N2. auto.
Qed.
Lemma ends_rune t k n c : wf_tr t -> In (k, n) (ents [] (root t)) -> endsWith n c = ends_with c k.
Proof. intros WT H. exact (endsWith_key c t WT k n H). Qed.
Lemma find_key d m w : w <> [] -> smem m w = true -> s_find d m w = Some w.
Proof. intros NE M. unfold s_find. rewrite M. now destruct w. Qed.

Theorem fragment_key D rf h t path : plain_reach D t -> D (hdelim h) -> full h path <> [] ->
  t_get t (runes (full h path)) <> None ->
  exists q y0 y, runes (full h path) = q ++ y0 :: y /\ t_get t q <> None /\
    (forall k, t_get t k <> None -> prefix k (runes (full h path)) -> prefix k q \/ k = runes (full h path)) /\
    forall c, StartsWith (S rf) h t path c = Ok (y0 =? c)%N /\ EndsWith (S rf) h t path c = Ok (ends_with c (runes (full h path))).
Proof.
  intros R Hd NE G. pose proof (reached_wf t (plain_reach_reached D t R)) as WT. pose proof (proj1 (proj2 (proj1 WT))) as W.
  pose proof (proj1 (proj1 WT)) as RT.
  assert (NW : runes (full h path) <> []) by (intros X; apply NE; now apply runes_nil_iff).
  set (w := runes (full h path)) in *.
  assert (M : smem (entries t) w = true). { destruct (t_get t w) as [a|] eqn:X; [|congruence]. apply smem_sget. eauto. }
  destruct (locate_hit D rf h t path w R Hd (find_key _ _ _ NW M)) as (n & H & A).
  destruct (gap [] (root t) W w n H) as [[E _]|(q & N1 & N2 & N3 & N4)]; [rewrite RT in E; cbn in E; congruence|].
  destruct (npath n) as [|y0 y] eqn:NP; [congruence|]. exists q, y0, y. split; [exact N2|]. split; [now apply dom_get|]. split.
  { intros k Gk. apply N4. now apply dom_get. }
  intros c. destruct (A c) as [A1 A2]. rewrite A1, A2, (ends_rune t w n c WT H). split; [|reflexivity]. unfold startsWith. now rewrite NP.
Qed.
(** a section answers for the delimiter behind it *)
Theorem fragment_section D rf h t path c : plain_reach D t -> D (hdelim h) -> full h path <> [] ->
  t_get t (runes (full h path)) = None -> t_get t (runes (full h path) ++ [hdelim h]) <> None ->
  EndsWith (S rf) h t path c = Ok (hdelim h =? c)%N.
Proof.
  intros R Hd NE G G2. pose proof (reached_wf t (plain_reach_reached D t R)) as WT.
  assert (NW : runes (full h path) <> []) by (intros X; apply NE; now apply runes_nil_iff).
  set (w := runes (full h path)) in *.
  assert (M : smem (entries t) (w ++ [hdelim h]) = true).
  { destruct (t_get t (w ++ [hdelim h])) as [a|] eqn:X; [|congruence]. apply smem_sget. eauto. }
  destruct (locate_hit D rf h t path (w ++ [hdelim h]) R Hd) as (n & H & A).
  { fold w. unfold s_find. destruct w as [|w0 w1]; [congruence|]. cbn [is_nil]. apply smem_false in G. now rewrite G, M. }
  rewrite (proj2 (A c)), (ends_rune t _ n c WT H). unfold ends_with. rewrite rev_app_distr. reflexivity.
Qed.
Theorem fragment_absent D rf h t path c : plain_reach D t -> D (hdelim h) -> hmode h <> ModeUp -> full h path <> [] ->
  t_get t (runes (full h path)) = None -> t_get t (runes (full h path) ++ [hdelim h]) = None ->
  StartsWith (S rf) h t path c = Ok false /\ EndsWith (S rf) h t path c = Ok false.
Proof.
  intros R Hd M NE G G2. destruct (plain_reach_inv D t R) as [WT PA]. pose proof (proj1 (proj2 (proj1 WT))) as WF.
  assert (PT : plain_tree (hdelim h) [] (root t)).
  { intros k' Dk. apply (PA _ Hd). now apply (abs_dom _ _ WF (abs_entries t)). }
  destruct (search_spec (hdelim h) t (entries t) WT (abs_entries t) PT rf h (full h path) eq_refl) as (r & E & O & _).
  assert (NF : s_found r = false).
  { rewrite (search_found _ _ _ O), (not_up h M), s_search_noup. unfold s_probe, s_find.
    assert (Hw : is_nil (runes (full h path)) = false).
    { destruct (runes (full h path)) eqn:X; auto. exfalso. apply NE. now apply runes_nil_iff. }
    rewrite Hw. apply smem_false in G, G2. rewrite G, G2.
    destruct (shortest _); [reflexivity|]. destruct (filter _ _); reflexivity. }
  unfold StartsWith, EndsWith, Locate. rewrite E. cbn [bind]. unfold s_found in NF. destruct (s_node r); cbn [bind]; auto.
  cbn [negb andb] in NF. rewrite NF. auto.
Qed.
