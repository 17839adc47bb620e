(** Several routes under one parameter; lookups that never return. *)
From Coq Require Import List NArith Bool Arith Lia.
From Verif Require Import GoStr Utf8 Node NodeWf InsertProofs MatchProofs Trie TreeOps Spec Refine Climb ApiRefine Reach Effect Derived Pattern Route.
Import ListNotations.
Open Scope nat_scope.

(** ** the keys around an edge *)
Lemma edge_gap s pre kp m n k :
  wfn s -> In (kp, m) (ents pre s) -> In n (nkids m) -> dom pre s k ->
  pprefix kp k -> prefix k (kp ++ npath n) -> k = kp ++ npath n.
Proof.
  intros W Hm Hn [nk Hk] P1 P2.
  destruct (ents_below _ _ _ _ _ _ W Hm Hk (pprefix_prefix _ _ P1)) as (pre' & Ek & Hb).
  pose proof (wfn_ents _ _ _ _ W Hm) as Wm.
  apply ents_inv in Hb. destruct Hb as [[E _]|(c & Hc & Hb)].
  { apply pprefix_neq in P1. congruence. }
  rewrite <- Ek in Hb. pose proof (ents_prefix _ _ _ _ Hb) as Pc.
  destruct (wfn_kids _ _ Wm Hc) as [Hnc _]. destruct (wfn_kids _ _ Wm Hn) as [Hnn _].
  assert (c = n).
  { destruct (npath c) as [|c0 c1] eqn:Ec; [congruence|]. destruct (npath n) as [|n0 n1] eqn:En; [congruence|].
    apply (nodup_fst_eq (nkids m)); auto using wfn_nodup. unfold fst_rune. rewrite Ec, En. cbn.
    destruct Pc as [z1 ->], P2 as [z2 E2]. rewrite <- !app_assoc in E2. cbn in E2.
    apply app_inv_head in E2. congruence. }
  subst c. apply prefix_antisym; auto.
Qed.

(** ** a fragment that is just ":" *)
Lemma retriever_loops d s (word : list rune) par dst : npath s = [colon] -> d <> colon ->
  dst < length word -> nth dst word 0%N = d ->
  forall rf kv, retriever rf d s word par colon 0 dst true kv = Fuel.
Proof.
  intros E Hd Hl Hn. induction rf as [|rf IH]; intros kv; [reflexivity|]. cbn [retriever andb].
  change (colon =? star)%N with false. change (colon =? colon)%N with true. cbv iota.
  rewrite E. rewrite extractor_out by (cbn; lia). rewrite extractor_in by assumption.
  assert (Es : exists y, @skipn rune dst word = d :: y).
  { clear - Hl Hn. revert dst Hl Hn. induction word as [|c w IHw]; intros [|dst] Hl Hn; cbn in *; try lia.
    - subst. eauto.
    - apply IHw; auto. lia. }
  destruct Es as [y Es]. rewrite !Es. cbn [seg]. rewrite N.eqb_refl. cbn [length].
  rewrite Nat.add_0_r. destruct (Nat.eqb_spec dst (length word)); [lia|]. cbn [negb skipn]. rewrite Es.
  cbn [subscan]. destruct (N.eqb_spec colon d); [congruence|]. cbn [Nat.eqb andb]. apply IH.
Qed.
Lemma matchR_loops rf d n x0 x y par kv :
  npath n = [colon] -> d <> colon -> x0 <> colon -> ~ In d (x0 :: x) ->
  matchR rf d n (x0 :: x ++ d :: y) true par kv = Fuel.
Proof.
  intros E Hd Hx Dx. rewrite matchR_eq by discriminate. rewrite E. cbn [scan].
  destruct (N.eqb_spec colon x0); [congruence|]. cbv zeta. cbn [length Nat.min Nat.ltb Nat.leb nth].
  replace (retriever _ _ _ _ _ _ _ _ _ _) with (Fuel : res rexit); [reflexivity|].
  symmetry. destruct rf as [|rf]; [reflexivity|]. cbn [retriever andb].
  change (colon =? star)%N with false. change (colon =? colon)%N with true. cbv iota.
  rewrite E. rewrite extractor_out by (cbn; lia). rewrite extractor_in by (cbn; lia).
  cbn [skipn]. rewrite (app_comm_cons x (d :: y) x0), seg_app by assumption. cbn [plus].
  destruct (Nat.eqb_spec (length (x0 :: x)) (length ((x0 :: x) ++ d :: y))) as [X|_].
  { rewrite app_length in X. cbn in X. lia. }
  cbn [negb]. rewrite skipn_here. cbn [subscan]. destruct (N.eqb_spec colon d); [congruence|].
  change (0 =? length [colon]) with false. cbn [andb].
  apply retriever_loops; auto.
  - rewrite app_length. cbn. lia.
  - apply nth_mid.
Qed.

Lemma matchR_not_panic rf d : forall s word lrd par kv, matchR rf d s word lrd par kv <> Panic.
Proof.
  induction s as [s IH] using node_ind'. intros word lrd par kv.
  destruct word as [|w0 w]; [destruct s; discriminate|]. rewrite Forall_forall in IH.
  assert (K : forall rest lrd cs last, (forall c, In c cs -> In c (nkids s)) ->
    kids_loop rf d rest lrd s cs last <> Panic).
  { intros rest l. induction cs as [|c cs IHc]; intros last H; cbn [kids_loop]; [discriminate|].
    destruct (matchR rf d c rest l (Some s) (m_kv last)) as [r| |] eqn:E; cbn [bind]; try discriminate.
    - destruct (_ || _); [discriminate|]. apply IHc. intros c' Hc'. apply H. now right.
    - exfalso. eapply IH; [|exact E]. apply H. now left. }
  rewrite matchR_eq by discriminate. cbv zeta. destruct (scan d (npath s) (w0 :: w) 0 lrd) as [i lrd1].
  assert (N : (if i <? Nat.min (length (npath s)) (length (w0 :: w))
    then retriever rf d s (w0 :: w) par (nth i (npath s) 0%N) i i lrd1 kv
    else Ok (RBreak i 0 lrd1 false false kv)) <> Panic).
  { destruct (_ <? _); [apply retriever_not_panic|discriminate]. }
  destruct (if i <? _ then _ else _) as [ex| |]; cbn [bind]; try congruence.
  destruct ex as [r1|src dst lrd2 mt pt kv2]; [discriminate|].
  destruct (after_loop d s (w0 :: w) par src mt pt) as [[[a b] c] e].
  destruct (_ <? _); [|discriminate]. destruct (nkids s) as [|k0 ks] eqn:Ek; [discriminate|].
  apply K. auto.
Qed.
Lemma matchR_diverges d s word lrd par kv :
  (forall rf, matchR (S rf) d s word lrd par kv = Fuel) -> forall rf, matchR rf d s word lrd par kv = Fuel.
Proof.
  intros H [|rf]; auto.
  destruct (matchR 0 d s word lrd par kv) as [r| |] eqn:E'; auto; [|now apply matchR_not_panic in E'].
  rewrite <- (H 0). symmetry. eapply matchR_more; [|exact E']. lia.
Qed.

(** C07: with both [q] and [q ++ ":"] present and no other way to go, every lookup of
    [q ++ segment ++ delimiter ++ rest] runs forever *)
Theorem bare_colon_diverges h t q x0 x y path :
  reached t -> ends_delim (hdelim h) q -> hdelim h <> colon ->
  t_get t q <> None -> t_get t (q ++ [colon]) <> None ->
  (forall k, t_get t k <> None -> aside (hdelim h) k (q ++ [x0]) \/ prefix (q ++ [colon]) k) ->
  (forall k, t_get t k <> None -> ~ prefix (q ++ [x0]) k) ->
  x0 <> colon -> ~ In (hdelim h) (x0 :: x) ->
  runes (full h path) = q ++ (x0 :: x) ++ hdelim h :: y ->
  diverges (fun rf => search rf h t (full h path)).
Proof.
  intros R Hq Hd G1 G2 Hpl Hno Hx Dx Ew rf. pose proof (reached_wf t R) as WT.
  pose proof (proj1 (proj1 WT)) as Hroot. pose proof (proj1 (proj2 (proj1 WT))) as W.
  destruct (descend (hdelim h) q colon x0 (x ++ hdelim h :: y) (or_introl eq_refl) (ends_delim_lrd _ _ Hq) Hx (root t) [])
    as (kp & m & n & a & H1 & H2 & H3 & [z H4] & H5); auto.
  - rewrite Hroot. apply prefix_nil.
  - exists (q ++ [colon]). split; [now apply dom_get|apply prefix_refl].
  - intros k D. apply Hpl. now apply dom_get.
  - intros k D. apply Hno. now apply dom_get.
  - rewrite <- app_assoc in H4. cbn [app] in H4.
    assert (Ea : a = []).
    { destruct a as [|a0 a]; auto. exfalso.
      assert (E : q = kp ++ npath n).
      { apply (edge_gap (root t) [] kp m n q W H1 H2); [now apply dom_get|..].
        - exists a0, a. exact H3.
        - rewrite H4, H3. exists (colon :: z). now rewrite <- app_assoc. }
      rewrite H3, H4 in E. apply app_inv_head in E. apply (f_equal (@length _)) in E.
      rewrite app_length in E. cbn in E. lia. }
    subst a. rewrite app_nil_r in H3. subst kp. cbn [app] in H4.
    assert (E : q ++ [colon] = q ++ npath n).
    { apply (edge_gap (root t) [] q m n _ W H1 H2); [now apply dom_get|..].
      - exists colon, []. reflexivity.
      - rewrite H4. exists z. now rewrite <- app_assoc. }
    apply app_inv_head in E. symmetry in E.
    assert (M : forall rf, matchR rf (hdelim h) (root t) (runes (full h path)) false None [] = Fuel).
    { apply matchR_diverges. intros rf'.
      assert (L := matchR_loops (S rf') (hdelim h) n x0 x y (Some m) [] E Hd Hx Dx).
      rewrite <- (ends_delim_lrd _ _ Hq) in L.
      specialize (H5 rf' (runes (full h path)) None []). cbn [app] in H5. rewrite L in H5.
      apply H5; [exact Ew|exact I]. }
    unfold search, probe. rewrite M. reflexivity.
Qed.
Corollary bare_colon_calls h t q x0 x y path :
  reached t -> ends_delim (hdelim h) q -> hdelim h <> colon ->
  t_get t q <> None -> t_get t (q ++ [colon]) <> None ->
  (forall k, t_get t k <> None -> aside (hdelim h) k (q ++ [x0]) \/ prefix (q ++ [colon]) k) ->
  (forall k, t_get t k <> None -> ~ prefix (q ++ [x0]) k) ->
  x0 <> colon -> ~ In (hdelim h) (x0 :: x) ->
  runes (full h path) = q ++ (x0 :: x) ++ hdelim h :: y ->
  diverges (fun rf => Get rf h t path) /\ diverges (fun rf => Has rf h t path) /\
  diverges (fun rf => Query rf h t path) /\ diverges (fun rf => GetEx rf h t path).
Proof.
  intros R Hq Hd G1 G2 Hpl Hno Hx Dx Ew.
  pose proof (bare_colon_diverges h t q x0 x y path R Hq Hd G1 G2 Hpl Hno Hx Dx Ew) as D.
  unfold diverges in *.
  split; [|split; [|split]]; intros rf; unfold Get, Has, Query, GetEx, Search_; unfold Query; now rewrite D.
Qed.

(** ** ":name" and a common tail of several routes in one fragment with children *)
Lemma param_branch rf d n a name tail x0 x r0 r lrd par kv :
  npath n = a ++ colon :: name ++ d :: tail -> lrd_end d lrd a = true -> ~ In d name ->
  x0 <> colon -> ~ In d (x0 :: x) -> nkids n <> [] ->
  matchR (S rf) d n (a ++ (x0 :: x) ++ (d :: tail) ++ r0 :: r) lrd par kv =
    let kv1 := kv ++ [(of_runes name, of_runes (x0 :: x))] in
    if length name <? length x + length (r0 :: r)
    then kids_loop (S rf) d (r0 :: r) (lrd_end d true (d :: tail)) n (nkids n) (MRes false true None None kv1)
    else Ok (MRes false true None None kv1).
Proof.
  intros E L Dn Hx Dx Hk. rewrite <- app_comm_cons. rewrite (enter _ _ _ _ _ _ _ _ _ _ _ E Hx), L. cbn [retriever andb].
  change (colon =? star)%N with false. change (colon =? colon)%N with true. cbv iota.
  rewrite extractor_in.
  2:{ rewrite E, app_length. cbn [length]. rewrite app_length. cbn [length]. lia. }
  rewrite (extractor_in d (length a)) by (rewrite app_length; cbn; lia).
  rewrite skipn_here. rewrite (app_comm_cons x _ x0). rewrite <- (app_comm_cons tail _ d), seg_app by assumption.
  rewrite E. rewrite skipn_mid, seg_app by assumption.
  replace (length (a ++ colon :: name ++ d :: tail)) with (length a + S (length name) + S (length tail))
    by (rewrite !app_length; cbn [length]; rewrite app_length; cbn [length]; lia).
  set (W := a ++ (x0 :: x) ++ d :: tail ++ r0 :: r).
  assert (LW : length W = length a + S (length x) + S (length tail) + S (length r)).
  { unfold W. rewrite !app_length. cbn [length]. rewrite app_length. cbn [length]. lia. }
  rewrite LW.
  replace (S (length a) + length name =? length a + S (length name) + S (length tail)) with false by (symmetry; apply Nat.eqb_neq; lia).
  replace (length a + length (x0 :: x) =? length a + S (length x) + S (length tail) + S (length r)) with false
    by (symmetry; apply Nat.eqb_neq; cbn [length]; lia).
  cbn [negb].
  replace (skipn (S (length a) + length name) (a ++ colon :: name ++ d :: tail)) with ((d :: tail) ++ []).
  2:{ rewrite app_nil_r. replace (a ++ colon :: name ++ d :: tail) with ((a ++ colon :: name) ++ d :: tail) by now rewrite <- app_assoc.
      replace (S (length a) + length name) with (length (a ++ colon :: name)) by (rewrite app_length; cbn; lia).
      now rewrite skipn_here. }
  replace (skipn (length a + length (x0 :: x)) W) with ((d :: tail) ++ r0 :: r).
  2:{ unfold W. rewrite app_assoc. replace (length a + length (x0 :: x)) with (length (a ++ x0 :: x)) by apply app_length.
      now rewrite skipn_here. }
  rewrite subscan_app by exact I. cbn [length].
  replace (S (length a) + length name + S (length tail) =? length a + S (length name) + S (length tail)) with true
    by (symmetry; apply Nat.eqb_eq; lia).
  replace (length a + S (length x) + S (length tail) =? length a + S (length x) + S (length tail) + S (length r)) with false
    by (symmetry; apply Nat.eqb_neq; lia).
  replace (length a + S (length x) + S (length tail) <? length a + S (length x) + S (length tail) + S (length r)) with true
    by (symmetry; apply Nat.ltb_lt; lia).
  replace (0 <? length (nkids n)) with true by (destruct (nkids n); [congruence|reflexivity]).
  cbn [andb bind]. unfold after_loop. rewrite E. fold W. rewrite LW.
  replace (length (a ++ colon :: name ++ d :: tail)) with (length a + S (length name) + S (length tail))
    by (rewrite !app_length; cbn [length]; rewrite app_length; cbn [length]; lia).
  set (A := length a) in *. set (Nn := length name) in *. set (X := length x) in *. set (T := length tail) in *.
  set (Rl := length r) in *.
  destruct (Nat.eqb_spec (S (S A + Nn + S T)) (A + S Nn + S T)); [lia|]. cbn [andb].
  replace ((Nat.min (A + S Nn + S T) (A + S X + S T + S Rl) <? A + S Nn + S T) &&
    (S A + Nn + S T =? Nat.min (A + S Nn + S T) (A + S X + S T + S Rl))) with false.
  2:{ symmetry. apply andb_false_iff. destruct (Nat.ltb_spec (Nat.min (A + S Nn + S T) (A + S X + S T + S Rl)) (A + S Nn + S T)); auto.
      right. apply Nat.eqb_neq. lia. }
  cbn [negb]. rewrite !andb_false_r.
  destruct (Nat.ltb_spec (Nat.min (A + S Nn + S T) (A + S X + S T + S Rl)) (A + S X + S T + S Rl)) as [H|H];
    destruct (Nat.ltb_spec Nn (X + S Rl)) as [H'|H']; try lia; auto.
  destruct (nkids n) as [|k0 ks] eqn:Ek; [congruence|].
  replace (A + S X + S T =? 0) with false by (symmetry; apply Nat.eqb_neq; lia).
  replace (skipn (A + S X + S T) W) with (r0 :: r).
  2:{ unfold W. replace (a ++ (x0 :: x) ++ d :: tail ++ r0 :: r) with ((a ++ (x0 :: x) ++ d :: tail) ++ r0 :: r)
        by (rewrite <- !app_assoc; reflexivity).
      replace (A + S X + S T) with (length (a ++ (x0 :: x) ++ d :: tail)).
      - now rewrite skipn_here.
      - rewrite !app_length. cbn [length]. unfold A, X, T. lia. }
  reflexivity.
Qed.

Lemma ents_unshift pre pre' n k m : In (pre ++ k, m) (ents pre n) -> In (pre' ++ k, m) (ents pre' n).
Proof.
  rewrite (ents_shift pre), (ents_shift pre'). intros H. apply in_map_iff in H.
  destruct H as ([k' m'] & E & H). cbn in E. inversion E as [[E1 E2]]. apply app_inv_head in E1. subst.
  apply in_map_iff. exists (k, m). auto.
Qed.

(** below a node the path meets no pattern: an exact key is found through the children *)
Lemma kids_found rf d s pre w0 w nk kv last :
  wfn s -> (forall c, In c (nkids s) -> aside_tree d pre c (w0 :: w)) ->
  (exists c, In c (nkids s) /\ In (pre ++ w0 :: w, nk) (ents pre c)) -> m_kv last = kv ->
  exists p, kids_loop (S rf) d (w0 :: w) (lrd_end d false pre) s (nkids s) last =
    Ok (MRes true false (Some nk) p kv).
Proof.
  intros W P (c & Hc & Hk) Hl. 
  destruct (kids_loop_spec (S rf) d pre s (lrd_end d false pre) kv w0 w (wfn_forall _ W) (wfn_nodup _ W))
    with (last := last) as (r & E & D); auto.
  { intros c' Hc'. destruct (wfn_kids _ _ W Hc') as [Hn' W']. apply matchR_aside; auto. discriminate. }
  destruct (wfn_kids _ _ W Hc) as [Hnc Wc].
  assert (Head : forall c' k n, In c' (nkids s) -> In (k, n) (ents pre c') ->
    (prefix (pre ++ w0 :: w) k \/ prefix k (pre ++ w0 :: w)) -> c' = c).
  { intros c' k n Hc' Hin Hp. destruct (wfn_kids _ _ W Hc') as [Hn' _].
    pose proof (dom_head _ _ _ Hn' (ex_intro _ n Hin)) as (r1 & y1 & F1 & E1).
    pose proof (dom_head _ _ _ Hnc (ex_intro _ nk Hk)) as (r2 & y2 & F2 & E2).
    apply app_inv_head in E2. inversion E2; subst r2 y2.
    assert (r1 = w0).
    { subst k. destruct Hp as [[z Ez]|[z Ez]]; rewrite <- app_assoc in Ez; apply app_inv_head in Ez; inversion Ez; auto. }
    apply (nodup_fst_eq (nkids s)); auto using wfn_nodup. congruence. }
  destruct D as [[E0 _]|[(c' & Hc' & Hr & M)|(E0 & -> & M)]].
  - rewrite E0 in Hc. destruct Hc.
  - destruct M as [k n p H Hp Hk' | k n p H Hp Hk' Hm Hd | k n p H Hp Hk' Hn | Hm Hp].
    + assert (c' = c).
      { apply (Head c' k n); auto. left. destruct Hk' as [->|[-> _]]; [apply prefix_refl|apply prefix_app_r]. }
      subst c'. exists p. rewrite E. do 3 f_equal. f_equal.
      destruct Hk' as [->|[_ X]]; [|exfalso; apply X; now exists nk].
      eapply ents_fun; eauto.
    + assert (c' = c). { apply (Head c' k n); auto. left. now apply pprefix_prefix. }
      subst c'. exfalso. assert (Q : prefix k (pre ++ w0 :: w)).
      { apply Hm; [now exists nk|apply prefix_refl]. }
      pose proof (prefix_antisym _ _ Q (pprefix_prefix _ _ Hk')). apply pprefix_neq in Hk'. congruence.
    + assert (c' = c). { apply (Head c' k n); auto. right. now apply pprefix_prefix. }
      subst c'. exfalso. apply (proj1 (kids_dom pre c k n Wc H) Hn (pre ++ w0 :: w)); auto. now exists nk.
    + discriminate.
  - exfalso. specialize (M c Hc). inversion M; subst. apply (H (pre ++ w0 :: w)); [now exists nk|apply prefix_refl].
Qed.

(** C24: several routes under the same parameter; [tail] is what they have in common after
    the parameter *)
Theorem param_routes_found rf h t q name tail x0 x r0 r path a :
  reached t -> ends_delim (hdelim h) q ->
  t_get t (q ++ colon :: name ++ hdelim h :: tail) <> None ->
  (forall k, t_get t k <> None -> aside (hdelim h) k (q ++ [x0]) \/ prefix (q ++ colon :: name ++ hdelim h :: tail) k) ->
  (forall y, t_get t ((q ++ colon :: name ++ hdelim h :: tail) ++ y) <> None ->
    aside (hdelim h) ((hdelim h :: tail) ++ y) ((hdelim h :: tail) ++ r0 :: r)) ->
  (forall k, t_get t k <> None -> ~ prefix (q ++ [x0]) k) ->
  t_get t ((q ++ colon :: name ++ hdelim h :: tail) ++ r0 :: r) = Some a -> a_leaf a = true ->
  ~ In (hdelim h) name -> x0 <> colon -> ~ In (hdelim h) (x0 :: x) ->
  runes (full h path) = q ++ (x0 :: x) ++ (hdelim h :: tail) ++ r0 :: r ->
  if length name <? length x + length (r0 :: r)
  then Query (S rf) h t path =
    Ok (QRes (if a_has a then a_data a else GNil) false true [(of_runes name, of_runes (x0 :: x))])
  else Query (S rf) h t path = Ok (QRes GNil false false [(of_runes name, of_runes (x0 :: x))]).
Proof.
  set (d := hdelim h). set (B := q ++ colon :: name ++ d :: tail).
  intros R Hq GB Hpl Hpl2 Hno GK La Dn Hx Dx Ew. pose proof (reached_wf t R) as WT.
  pose proof (proj1 (proj2 (proj1 WT))) as W.
  assert (PB : forall k, prefix B k -> prefix (q ++ [colon]) k).
  { intros k [z ->]. unfold B. exists ((name ++ d :: tail) ++ z). rewrite <- !app_assoc. cbn [app]. now rewrite <- app_assoc. }
  destruct (route_node t d q colon x0 (x ++ (d :: tail) ++ r0 :: r) R (or_introl eq_refl) (ends_delim_lrd _ _ Hq) Hx)
    as (kp & m & n & b & z & H1 & H2 & H3 & H4 & H5 & H6 & H7); auto.
  { exists B. split; auto. apply PB, prefix_refl. }
  { intros k G. destruct (Hpl k G) as [P|P]; auto. }
  assert (Ez : B = kp ++ npath n).
  { apply (edge_gap (root t) [] kp m n B W H1 H2); [now apply dom_get|..].
    - unfold B. rewrite H3, <- app_assoc. destruct b as [|b0 b]; do 2 eexists; reflexivity.
    - destruct (Hpl (q ++ colon :: z)) as [P|P].
      + now apply (ents_get t _ n).
      + exfalso. now apply aside_key_not in P; auto.
      + rewrite H4, app_assoc, <- H3. exact P. }
  assert (z = name ++ d :: tail).
  { unfold B in Ez. rewrite H4, app_assoc, <- H3 in Ez. apply app_inv_head in Ez. now inversion Ez. }
  subst z.
  assert (HnB : In (B, n) (ents [] (root t))) by exact H5.
  destruct (proj2 (dom_get t (B ++ r0 :: r))) as [nk Hnk]; [fold d B in GK; congruence|].
  assert (Ek : attr_of (info_of nk) = a).
  { rewrite (ents_attr t _ _ WT Hnk) in GK. now inversion GK. }
  destruct (ents_below _ _ _ _ _ _ W HnB Hnk (prefix_app_r _ _)) as (pre' & EB & Hb).
  pose proof (wfn_ents _ _ _ _ W HnB) as Wn.
  apply ents_inv in Hb. destruct Hb as [[E _]|(c & Hc & Hb)].
  { exfalso. rewrite <- EB in E. apply (f_equal (@length _)) in E. rewrite app_length in E. cbn in E. lia. }
  rewrite <- EB in Hb. apply (ents_unshift B (d :: tail)) in Hb.
  assert (Hk : nkids n <> []) by (intros X; rewrite X in Hc; destruct Hc).
  assert (PT : forall c, In c (nkids n) -> aside_tree d (d :: tail) c (r0 :: r)).
  { intros c' Hc' k [m' D']. rewrite ents_shift in D'. apply in_map_iff in D'. destruct D' as ([y m''] & E & D').
    cbn in E. inversion E as [[E1 E2]]. subst m''. clear E E1. apply (Hpl2 y), (ents_get t _ m').
    assert (D2 : In (B ++ y, m') (ents B c')).
    { rewrite ents_shift. apply in_map_iff. exists (y, m'). auto. }
    clear - H1 H2 H3 H4 D2 Ez Hc'.
    assert (G : forall s pre, In (kp, m) (ents pre s) -> In (B ++ y, m') (ents pre s)).
    { induction s as [s IH] using node_ind'. intros pre H. apply ents_inv in H.
      destruct H as [[E ->]|(c1 & Hc1 & H)].
      - apply (ents_kid pre s n); auto. rewrite <- E. apply (ents_kid kp n c'); auto. rewrite <- Ez. exact D2.
      - rewrite Forall_forall in IH. eapply ents_kid; eauto. }
    now apply G. }
  pose proof (param_branch rf d n b name tail x0 x r0 r (lrd_end d false kp) (Some m) [] H4 H6 Dn Hx Dx Hk) as Br.
  cbv zeta in Br. cbn [app] in Br. unfold Query.
  destruct (length name <? length x + length (r0 :: r)).
  - destruct (kids_found rf d n (d :: tail) r0 r nk [(of_runes name, of_runes (x0 :: x))]
      (MRes false true None None [(of_runes name, of_runes (x0 :: x))]) Wn PT) as [p Ep]; eauto.
    change (lrd_end d false (d :: tail)) with (lrd_end d true (d :: tail)) in Ep.
    cbn [app] in Br. rewrite Ep in Br.
    rewrite (H7 rf h (full h path) eq_refl Ew _ Br) by reflexivity.
    cbn [bind m_child m_parent m_partial m_kv]. unfold query_of. cbn [s_node s_partial s_kv].
    rewrite <- Ek in *. rewrite isBranch_bit, hasData_bit. unfold attr_of in *. cbn [a_leaf a_has a_data info_of i_type i_data] in *.
    rewrite La. reflexivity.
  - rewrite (H7 rf h (full h path) eq_refl Ew _ Br) by reflexivity. reflexivity.
Qed.

(** C26 *)
Theorem getex_query rf h t path n v b kv :
  GetEx rf h t path = Ok (Some (n, v, b, kv)) ->
  kv = [] /\ exists q, Query rf h t path = Ok q /\ q_data q = v /\ q_branch q = b /\ q_found q = true.
Proof.
  unfold GetEx, Query. destruct (search rf h t (full h path)) as [r| |]; try discriminate. cbn [bind].
  destruct (q_found (query_of (hdelim h) r)) eqn:E; [|discriminate]. intros X. inversion X; subst.
  split; auto. eexists. split; [reflexivity|]. auto.
Qed.
