(** Typed getters asked for a section. *)
From Coq Require Import List NArith ZArith Bool Arith Lia.
From Verif Require Import GoStr Utf8 Node NodeWf Trie Spec TreeOps Refine ApiRefine Reach Derived Derived2 Cvter CvterProofs Route.
Import ListNotations.
Open Scope nat_scope.

Lemma keys_lcp t k1 k2 : wf_tr t -> t_get t k1 <> None -> t_get t k2 <> None -> t_get t (lcp k1 k2) <> None.
Proof.
  intros WT G1 G2. pose proof (proj1 (proj2 (proj1 WT))) as W. apply dom_get in G1, G2. apply dom_get.
  destruct G1 as [m1 H1], G2 as [m2 H2]. exact (ents_lcp _ _ _ _ _ _ W H1 H2).
Qed.
Lemma getX_hit D rf {A} (conv : gval -> A) zero h t path defs k a :
  plain_reach D t -> D (hdelim h) ->
  s_find (hdelim h) (entries t) (runes (full h path)) = Some k -> t_get t k = Some a ->
  GetX (S rf) conv zero h t path defs =
    Ok (if a_leaf a || ends_with (hdelim h) k then (conv (if a_has a then a_data a else GNil), true) else (last defs zero, false)) /\
  MustX (S rf) conv zero h t path defs =
    Ok (if a_leaf a || ends_with (hdelim h) k then conv (if a_has a then a_data a else GNil) else last defs zero).
Proof.
  intros R Hd F G. destruct (getX_exact D rf conv zero h t path defs R Hd) as [E1 E2].
  assert (ES : s_search (hdelim h) (is_up h) (entries t) (full h path) = SFound k).
  { unfold s_search. cbn [s_first]. unfold s_probe. now rewrite F. }
  rewrite ES in E1, E2. unfold s_query in E1, E2. cbn [s_hit] in E1, E2. unfold t_get in G. rewrite G in E1, E2.
  rewrite E1, E2. cbn [answer snd]. destruct (a_leaf a || ends_with (hdelim h) k); auto.
Qed.
(** the path is a key itself *)
Theorem getX_branch D rf {A} (conv : gval -> A) zero h t path defs a :
  plain_reach D t -> D (hdelim h) -> full h path <> [] -> t_get t (runes (full h path)) = Some a -> a_leaf a = false ->
  GetX (S rf) conv zero h t path defs =
    Ok (if ends_with (hdelim h) (runes (full h path)) then (conv (if a_has a then a_data a else GNil), true)
        else (last defs zero, false)).
Proof.
  intros R Hd NE G L. destruct (getX_hit D rf conv zero h t path defs (runes (full h path)) a R Hd) as [E _]; auto.
  - unfold s_find. destruct (is_nil (runes (full h path))) eqn:X.
    { exfalso. apply NE. apply runes_nil_iff. now destruct (runes (full h path)). }
    assert (M : smem (entries t) (runes (full h path)) = true) by (apply smem_sget; eauto). now rewrite M.
  - rewrite E, L. reflexivity.
Qed.
Lemma ends_snoc d k : ends_with d (k ++ [d]) = true.
Proof. unfold ends_with. rewrite rev_app_distr. cbn. apply N.eqb_refl. Qed.
(** the path is a section of two keys or more *)
Theorem getX_section D rf {A} (conv : gval -> A) zero h t path defs c1 y1 c2 y2 :
  plain_reach D t -> D (hdelim h) -> full h path <> [] -> t_get t (runes (full h path)) = None ->
  t_get t (runes (full h path) ++ hdelim h :: c1 :: y1) <> None -> t_get t (runes (full h path) ++ hdelim h :: c2 :: y2) <> None ->
  c1 <> c2 ->
  exists a, t_get t (runes (full h path) ++ [hdelim h]) = Some a /\
    GetX (S rf) conv zero h t path defs = Ok (conv (if a_has a then a_data a else GNil), true) /\
    MustX (S rf) conv zero h t path defs = Ok (conv (if a_has a then a_data a else GNil)).
Proof.
  intros R Hd NE G G1 G2 NC. pose proof (reached_wf t (plain_reach_reached D t R)) as WT.
  set (p := runes (full h path)) in *.
  pose proof (keys_lcp t _ _ WT G1 G2) as GL.
  replace (p ++ hdelim h :: c1 :: y1) with ((p ++ [hdelim h]) ++ c1 :: y1) in GL by (rewrite <- app_assoc; reflexivity).
  replace (p ++ hdelim h :: c2 :: y2) with ((p ++ [hdelim h]) ++ c2 :: y2) in GL by (rewrite <- app_assoc; reflexivity).
  rewrite lcp_diff in GL by exact NC. destruct (t_get t (p ++ [hdelim h])) as [a|] eqn:GA; [|congruence].
  exists a. split; [reflexivity|].
  destruct (getX_hit D rf conv zero h t path defs (p ++ [hdelim h]) a R Hd) as [E1 E2]; auto.
  - unfold s_find. fold p. destruct (is_nil p) eqn:X.
    { exfalso. apply NE. apply runes_nil_iff. fold p. now destruct p. }
    apply smem_false in G. rewrite G. assert (M : smem (entries t) (p ++ [hdelim h]) = true) by (apply smem_sget; eauto). now rewrite M.
  - rewrite E1, E2, ends_snoc, orb_true_r. auto.
Qed.
(** leaves carry data *)
Definition leaf_has (m : smap) : Prop := forall k a, sget m k = Some a -> a_leaf a = true -> a_has a = true.
Definition keeps (f : attr -> attr) : Prop := forall a, a_leaf (f a) = a_leaf a /\ (a_has a = true -> a_has (f a) = true).
Lemma keeps_op o : keeps (s_nodeop o).
Proof. intros a. destruct o; auto. Qed.
Lemma keeps_ops os : keeps (fun a => fold_left (fun a o => s_nodeop o a) os a).
Proof.
  induction os as [|o os IH]; intros a; [auto|]. cbn [fold_left]. destruct (IH (s_nodeop o a)) as [I1 I2], (keeps_op o a) as [J1 J2].
  split; [now rewrite I1|]. auto.
Qed.
Lemma keeps_descs dc : keeps (s_descs dc).
Proof. intros a. destruct dc as [|x [|y dc]]; auto. Qed.
Lemma leaf_has_set w v m : leaf_has m -> leaf_has (s_set w v m).
Proof.
  intros H k a G L. rewrite s_set_get in G. destruct (str_eqb w k).
  - inversion G; subst. now destruct (sget m w).
  - destruct (sget m k) eqn:X; [inversion G; subst; eauto|]. destruct (existsb _ _); inversion G; subst. discriminate.
Qed.
Lemma leaf_has_upd w f m : keeps f -> leaf_has m -> leaf_has (s_upd w f m).
Proof.
  intros K H k a G L. rewrite s_upd_get in G. destruct (str_eqb w k); [|eauto].
  destruct (sget m w) as [b|] eqn:X; inversion G; subst. destruct (K b) as [K1 K2]. apply K2. rewrite K1 in L. eauto.
Qed.
Lemma leaf_has_eq m m' : (forall k, sget m k = sget m' k) -> leaf_has m -> leaf_has m'.
Proof. intros E H k a G. rewrite <- E in G. eauto. Qed.
Lemma run_leaf_has rf hist : forall t t' outs, wf_tr t -> t_run rf hist t = Ok (t', outs) -> no_remove hist ->
  leaf_has (entries t) -> leaf_has (entries t').
Proof.
  induction hist as [|[h o] hist IH]; intros t t' outs WT E NR H; cbn [t_run] in *.
  - inversion E; now subst.
  - inversion NR as [|? ? N1 N2]; subst. cbn [snd] in N1.
    destruct (t_step rf h t o) as [[t1 r]| |] eqn:E1; try discriminate. cbn [bind] in E.
    destruct (t_run rf hist t1) as [[t2 rs]| |] eqn:E2; try discriminate. cbn [bind] in E.
    inversion E; subst. apply (IH t1 t' rs); auto; [exact (step_wf _ _ _ _ _ _ WT E1)|].
    destruct (step_nonremove _ _ _ _ _ _ WT E1 N1) as [(Q & A & _)|(Q & [->|(k0 & op & Hop & A)])]; auto.
    + apply (leaf_has_eq (fst (s_step (view_of h) (entries t) o))).
      { intros k. symmetry. now apply abs_get. }
      destruct o; cbn [stored] in Q; try congruence; cbn [s_step fst]; auto using leaf_has_set;
        (apply leaf_has_upd; [|now apply leaf_has_set]); intros a; first [apply keeps_descs|apply keeps_ops|apply keeps_op].
    + apply (leaf_has_eq (s_upd k0 (s_nodeop op) (entries t))).
      { intros k. symmetry. now apply abs_get. }
      apply leaf_has_upd; auto. apply keeps_op.
Qed.

Lemma leaf_stored rf hist t outs k a : t_run rf hist newTrie = Ok (t, outs) -> no_remove hist ->
  t_get t k = Some a -> a_leaf a = true -> In k (stored_keys hist).
Proof.
  intros E NR G L. apply (data_iff_stored rf hist t outs k E NR). exists a. split; [exact G|].
  refine (run_leaf_has rf hist newTrie t outs newTrie_wf E NR _ k a G L).
  intros k0 a0 G0 L0. destruct k0 as [|c k0]; [|discriminate]. vm_compute in G0. inversion G0; subst. discriminate.
Qed.
(** a path that was never written, after writes: what decides are the beginnings the written keys share *)
Theorem getX_unwritten D rf {A} (conv : gval -> A) zero h hist t outs path defs :
  plain_hist D hist -> t_run (S rf) hist newTrie = Ok (t, outs) -> no_remove hist -> D (hdelim h) -> hmode h <> ModeUp ->
  full h path <> [] -> ends_with (hdelim h) (runes (full h path)) = false ->
  ~ In (runes (full h path)) (stored_keys hist) -> ~ In (runes (full h path) ++ [hdelim h]) (stored_keys hist) ->
  (GetX (S rf) conv zero h t path defs = Ok (conv GNil, true) /\
   (exists x y, In x (stored_keys hist) /\ In y (stored_keys hist) /\ common x y = runes (full h path) ++ [hdelim h]) /\
   (forall x y, In x (stored_keys hist) -> In y (stored_keys hist) -> common x y <> runes (full h path))) \/
  (GetX (S rf) conv zero h t path defs = Ok (last defs zero, false) /\
   ((forall x y, In x (stored_keys hist) -> In y (stored_keys hist) -> common x y <> runes (full h path) ++ [hdelim h]) \/
    (exists x y, In x (stored_keys hist) /\ In y (stored_keys hist) /\ common x y = runes (full h path)))).
Proof.
  intros PH E NR Hd M NE EW N1 N2. pose proof (plain_reach_hist D rf hist t outs PH E) as R.
  set (p := runes (full h path)) in *.
  assert (NP : p <> []). { intros X. apply NE. apply runes_nil_iff. exact X. }
  pose proof (keys_exact _ _ _ _ E NR) as KE.
  destruct (t_get t p) as [a|] eqn:G.
  - right. assert (L : a_leaf a = false).
    { destruct (a_leaf a) eqn:X; auto. exfalso. apply N1. exact (leaf_stored _ _ _ _ _ _ E NR G X). }
    rewrite (getX_branch D rf conv zero h t path defs a R Hd NE G L). fold p. rewrite EW. split; [reflexivity|]. right.
    destruct (proj1 (KE p)) as [X|(x & y & Hx & Hy & X)]; [eauto|congruence|]. exists x, y. auto.
  - assert (NC : forall x y, In x (stored_keys hist) -> In y (stored_keys hist) -> common x y <> p).
    { intros x y Hx Hy X. destruct (proj2 (KE p)) as [b X']; [right; exists x, y; auto|congruence]. }
    destruct (t_get t (p ++ [hdelim h])) as [a|] eqn:G2.
    + left. assert (HB : a_has a = false).
      { destruct (a_has a) eqn:X; auto. exfalso. apply N2. apply (data_iff_stored _ _ _ _ _ E NR). eauto. }
      destruct (getX_hit D rf conv zero h t path defs (p ++ [hdelim h]) a R Hd) as [Q _]; auto.
      { unfold s_find. fold p. destruct p as [|c p']; [congruence|]. cbn [is_nil].
        apply smem_false in G. rewrite G.
        assert (M1 : smem (entries t) ((c :: p') ++ [hdelim h]) = true) by (apply smem_sget; eauto). now rewrite M1. }
      rewrite Q, ends_snoc, orb_true_r, HB. split; [reflexivity|]. split; [|exact NC].
      destruct (proj1 (KE (p ++ [hdelim h]))) as [X|(x & y & Hx & Hy & X)]; [eauto|destruct p; discriminate|]. exists x, y. auto.
    + right. destruct (getX_absent D rf conv zero h t path defs R Hd M NE G G2) as [Q _]. split; [exact Q|]. left.
      intros x y Hx Hy X. destruct (proj2 (KE (p ++ [hdelim h]))) as [b X']; [right; exists x, y; auto|congruence].
Qed.
