(** Store-level writes: handlers, the modified mark, merging and loading. *)
From Coq Require Import List NArith Bool Arith Lia Permutation.
From Verif Require Import GoStr Utf8 Node NodeWf InsertProofs MatchProofs Trie Spec TreeOps Refine ApiRefine Reach
  Effect Derived Derived2 Derived3 Derived4 Derived5 Cvter Store.
Import ListNotations.
Open Scope nat_scope.

(** ** one write *)
(** the key a path is written under: the view's prefix, and blanks replaced *)
Definition wkey (h : hdl) (path : gostring) : skey := runes (replace_byte 32 45 (full h path)).
(** the data stored at a key, nil if it does not exist *)
Definition old_at (t : tr) (k : skey) : gval := match t_get t k with Some a => a_data a | None => GNil end.

(** the call of the trie a write of the store amounts to *)
Definition wop (loading : bool) (path : gostring) (v : gval) (onSet : list nodeop) : op :=
  if loading then OSet path v else OSetWith path v (fun _ => onSet ++ [NSetModified true]).

Definition wattr (t : tr) (loading : bool) (onSet : list nodeop) (w : skey) (v : gval) : attr :=
  if loading then fresh_attr t w v
  else s_nodeop (NSetModified true) (fold_left (fun a o => s_nodeop o a) onSet (fresh_attr t w v)).

Lemma wop_stored h ld path v os : stored h (wop ld path v os) = Some (replace_byte 32 45 (full h path)).
Proof. now destruct ld. Qed.

Lemma setKV_step rf s t path v create onSet :
  reached t ->
  let w := wkey (so_h s) path in
  let user := negb (so_loading s) in
  exists t' id,
    setKV s t path v create onSet =
      Ok (t', id, old_at t w,
          tryOnSet s path user (old_at t w) v
            (if user then if gval_is_nil (old_at t w) then create else false else create)) /\
    t_step rf (so_h s) t (wop (so_loading s) path v onSet) = Ok (t', ROld (old_at t w)) /\
    t_get t' w = Some (wattr t (so_loading s) onSet w v) /\
    (forall k a, k <> w -> t_get t k = Some a -> t_get t' k = Some a) /\
    (forall k, k <> w -> t_get t k = None -> t_get t' k = None \/ t_get t' k = Some (bare false false GNil)).
Proof.
  intros R w user. pose proof (reached_wf t R) as WT.
  destruct (write_refines rf (so_h s) t (entries t) (wop (so_loading s) path v onSet) WT (abs_entries t))
    as (t' & E & WT' & A); [rewrite wop_stored; discriminate|].
  assert (FR : forall k a, k <> w -> t_get t k = Some a -> t_get t' k = Some a).
  { intros k a Hk G. eapply (write_frame rf (so_h s) t); eauto. rewrite wop_stored. reflexivity. }
  assert (O : s_old w (entries t) = old_at t w) by reflexivity.
  assert (NEW : forall f k, k <> w -> t_get t k = None ->
            sget (s_upd w f (s_set w v (entries t))) k = None \/
            sget (s_upd w f (s_set w v (entries t))) k = Some (bare false false GNil)).
  { intros f k Hk G. unfold t_get in G. rewrite s_upd_get, !s_set_get.
    destruct (str_eqb w k) eqn:Ek; [apply str_eqb_eq in Ek; congruence|]. rewrite G.
    match goal with |- context [if ?b then _ else _] => destruct b end; auto. }
  unfold setKV, wop, wattr in *. subst user. destruct (so_loading s); cbn [negb].
  - cbn [t_step s_step fst snd view_of v_pfx] in E, A. fold (wkey (so_h s) path) in E, A. fold w in E, A.
    destruct (Set_ (so_h s) t path v) as [[[t1 id] old]| |] eqn:ES; cbn [bind] in E; try discriminate.
    injection E as E1 E2. subst t1 old.
    cbn [bind]. exists t', id. rewrite O. split; [reflexivity|]. split.
    + cbn [t_step]. now rewrite ES.
    + split; [|split; auto].
      * rewrite (abs_get _ _ _ A), <- (s_upd_id w). now rewrite upd_set_at.
      * intros k Hk G. rewrite (abs_get _ _ _ A), <- (s_upd_id w). now apply NEW.
  - cbn [t_step s_step fst snd view_of v_pfx] in E, A. fold (wkey (so_h s) path) in E, A. fold w in E, A.
    destruct (Set_ (so_h s) t path v) as [[[t1 id] old]| |] eqn:ES; cbn [bind] in E; try discriminate.
    injection E as E1 E2. subst old. cbn [bind]. exists t', id. rewrite O, E1.
    split; [reflexivity|]. split; [|split; [|split; auto]].
    + cbn [t_step]. rewrite ES. cbn [bind]. now rewrite <- E1, O.
    + rewrite (abs_get _ _ _ A), upd_set_at, fold_left_app. reflexivity.
    + intros k Hk G. rewrite (abs_get _ _ _ A). now apply NEW.
Qed.

(** ** C37: handlers *)
(** the handlers that listen: those of the store and of its parents, nil ones left out *)
Fixpoint live (hs : list (option nat)) : list nat :=
  match hs with [] => [] | Some i :: t => i :: live t | None :: t => live t end.
Fixpoint listeners (f : store -> list (option nat)) (s : store) : list nat :=
  live (f s) ++ match so_parent s with Some p => listeners f p | None => [] end.

Lemma fire_live mk hs : fire mk hs = map mk (live hs).
Proof. induction hs as [|[i|] hs IH]; cbn; congruence. Qed.
Lemma tryOnSet_listeners path user old v create : forall s,
  tryOnSet s path user old v create =
    if create then map (fun i => ENew i path v user) (listeners so_new s)
    else map (fun i => EChange i path v old user) (listeners so_chg s).
Proof.
  destruct create; fix IH 1; intros [h ld cl ch nw dl [p|] fl wt]; cbn [tryOnSet listeners so_new so_chg so_parent];
    rewrite !fire_live; rewrite map_app; f_equal; apply IH.
Qed.
Lemma tryOnDelete_listeners path user v : forall s,
  tryOnDelete s path user v = map (fun i => EDelete i path v user) (listeners so_del s).
Proof.
  fix IH 1. intros [h ld cl ch nw dl [p|] fl wt]; cbn [tryOnDelete listeners so_del so_parent];
    rewrite !fire_live, map_app; f_equal; apply IH.
Qed.

(** what Query reports as found: the key itself or the key plus delimiter, if it is a leaf or
    ends with the delimiter *)
Definition known (d : rune) (t : tr) (w : skey) : bool :=
  match target d t w with
  | Some k => match t_get t k with Some a => a_leaf a || ends_with d k | None => false end
  | None => false
  end.

Lemma query_known D rf h t p :
  plain_reach D t -> D (hdelim h) -> hmode h <> ModeUp -> full h p <> [] ->
  exists q, Query (S rf) h t p = Ok q /\ q_found q = known (hdelim h) t (runes (full h p)).
Proof.
  intros R Hd Hm Hne. destruct (plain_reach_inv D t R) as [WT PA].
  destruct (step_refines rf D h t (entries t) (OQuery p) Hd WT (abs_entries t) PA) as (t' & E & _).
  cbn [t_step s_step view_of v_delim v_pfx v_up snd] in E.
  rewrite (not_up _ Hm), s_search_noup in E.
  assert (Hw : runes (full h p) <> []) by (intros X; apply Hne; now apply runes_nil_iff).
  destruct (Query (S rf) h t p) as [q| |]; cbn [bind] in E; try (destruct (s_query _ _ _) as [[? ?] ?]; discriminate).
  exists q. split; auto.
  destruct (s_query (hdelim h) (entries t) (s_probe (hdelim h) (entries t) (runes (full h p)))) as [[v b] f] eqn:Q.
  cbn [snd] in E. injection E as E1 E2 E3 E4. rewrite E4. clear - Q Hw.
  unfold known, target, s_query, s_probe, s_find in *.
  destruct (runes (full h p)) as [|c w] eqn:Ew; [congruence|]. rewrite <- Ew in *.
  assert (is_nil (runes (full h p)) = false) as N by (rewrite Ew; reflexivity). rewrite N, !smem_get in Q.
  destruct (t_get t (runes (full h p))) as [a|] eqn:G.
  - cbn [s_hit] in Q. unfold t_get in G. rewrite G in Q. injection Q as _ _ Q. unfold t_get. rewrite G. auto.
  - destruct (t_get t (runes (full h p) ++ [hdelim h])) as [a|] eqn:G2.
    + cbn [s_hit] in Q. unfold t_get in G2. rewrite G2 in Q. injection Q as _ _ Q. unfold t_get. rewrite G2. auto.
    + destruct (shortest _); cbn [s_hit] in Q; [injection Q as _ _ Q; auto|].
      destruct (filter _ _); cbn [s_hit] in Q; injection Q as _ _ Q; auto.
Qed.

Theorem set_events D rf s t path v :
  plain_reach D t -> D (hdelim (so_h s)) -> hmode (so_h s) <> ModeUp -> full (so_h s) path <> [] ->
  let old := old_at t (wkey (so_h s) path) in
  let user := negb (so_loading s) in
  exists t' id, st_Set (S rf) s t path v = Ok (t', id, old,
    if negb (known (hdelim (so_h s)) t (runes (full (so_h s) path))) && (so_loading s || gval_is_nil old)
    then map (fun i => ENew i path v user) (listeners so_new s)
    else map (fun i => EChange i path v old user) (listeners so_chg s)).
Proof.
  intros R Hd Hm Hne old user. unfold st_Set.
  destruct (query_known D rf (so_h s) t path R Hd Hm Hne) as (q & Eq & Ef). rewrite Eq; cbn [bind]; rewrite Ef.
  destruct (setKV_step 0 s t path v (negb (known (hdelim (so_h s)) t (runes (full (so_h s) path)))) []
              (plain_reach_reached D t R)) as (t' & id & E & _).
  exists t', id. rewrite E, tryOnSet_listeners. fold old user. subst user.
  destruct (so_loading s), (known _ _ _), (gval_is_nil old); reflexivity.
Qed.

(** a key that does not exist: on-new, once per listener *)
Theorem set_new D rf s t path v :
  plain_reach D t -> D (hdelim (so_h s)) -> hmode (so_h s) <> ModeUp ->
  full (so_h s) path <> [] -> blank_free (full (so_h s) path) ->
  t_get t (runes (full (so_h s) path)) = None -> t_get t (runes (full (so_h s) path) ++ [hdelim (so_h s)]) = None ->
  exists t' id, st_Set (S rf) s t path v =
    Ok (t', id, GNil, map (fun i => ENew i path v (negb (so_loading s))) (listeners so_new s)).
Proof.
  intros R Hd Hm Hne B G1 G2. destruct (set_events D rf s t path v R Hd Hm Hne) as (t' & id & E).
  exists t', id. rewrite E. unfold old_at, wkey. rewrite (blank_free_replace _ B), G1. unfold known, target.
  destruct (runes (full (so_h s) path)) eqn:Ew; [exfalso; apply Hne; now apply runes_nil_iff|]. rewrite <- Ew in *.
  rewrite G1, G2. cbn. now rewrite orb_true_r.
Qed.
(** a key that exists as a leaf, or with data written by a user: on-change, with the old data *)
Theorem set_change D rf s t path v a :
  plain_reach D t -> D (hdelim (so_h s)) -> hmode (so_h s) <> ModeUp ->
  full (so_h s) path <> [] -> blank_free (full (so_h s) path) ->
  t_get t (runes (full (so_h s) path)) = Some a ->
  a_leaf a = true \/ (so_loading s = false /\ a_data a <> GNil) ->
  exists t' id, st_Set (S rf) s t path v =
    Ok (t', id, a_data a, map (fun i => EChange i path v (a_data a) (negb (so_loading s))) (listeners so_chg s)).
Proof.
  intros R Hd Hm Hne B G C. destruct (set_events D rf s t path v R Hd Hm Hne) as (t' & id & E).
  exists t', id. rewrite E. unfold old_at, wkey. rewrite (blank_free_replace _ B), G. unfold known, target.
  destruct (runes (full (so_h s) path)) eqn:Ew; [exfalso; apply Hne; now apply runes_nil_iff|]. rewrite <- Ew in *.
  rewrite G, G. destruct C as [->|[-> C]].
  - reflexivity.
  - replace (gval_is_nil (a_data a)) with false by (destruct (a_data a); congruence || reflexivity).
    rewrite andb_comm. reflexivity.
Qed.
(** nobody listening: nothing is called *)
Theorem remove_events D rf s t path :
  plain_reach D t -> D (hdelim (so_h s)) -> hmode (so_h s) <> ModeUp ->
  exists t', st_Remove (S rf) s t path =
    match target (hdelim (so_h s)) t (runes (full (so_h s) path)) with
    | Some k => Ok (t', true, map (fun i => EDelete i path (old_at t k) (negb (so_loading s))) (listeners so_del s))
    | None => Ok (t', false, [])
    end /\ Remove (S rf) (so_h s) t path =
      Ok (t', match target (hdelim (so_h s)) t (runes (full (so_h s) path)) with Some _ => true | None => false end).
Proof.
  intros R Hd Hm. set (h := so_h s) in *. destruct (remove_spec D rf h t path R Hd Hm) as (t' & E & G).
  exists t'. split; auto. unfold st_Remove. fold h. unfold Remove in E.
  destruct (RemoveEx (S rf) h t path) as [[[[t1 n] p] b]| |] eqn:Er; cbn [bind] in E; try discriminate.
  injection E as -> Eb. cbn [bind].
  destruct (target (hdelim h) t (runes (full h path))) as [k|] eqn:T; subst b; [|reflexivity].
  destruct n as [n|].
  - rewrite tryOnDelete_listeners. do 3 f_equal. 
    (* the node removed is the one at k *)
    unfold RemoveEx in Er. destruct (plain_reach_search D rf h t (full h path) R Hd) as (r & Es & OK & _).
    rewrite Es in Er. cbn [bind] in Er. rewrite (not_up _ Hm), s_search_noup in OK.
    assert (F : s_probe (hdelim h) (entries t) (runes (full h path)) = SFound k).
    { unfold target in T. unfold s_probe, s_find. destruct (runes (full h path)) as [|c w]; [discriminate|].
      cbn [is_nil]. rewrite !smem_get. destruct (t_get t (c :: w)); [congruence|].
      destruct (t_get t ((c :: w) ++ [hdelim h])); congruence. }
    rewrite F in OK. cbn [search_ok] in OK. destruct OK as (m & Hin & Hp & Hn & _). rewrite Hn, Hp in Er.
    destruct (s_parent r) as [pn|]; [|discriminate]. destruct (fst _); [|discriminate]. injection Er as _ -> _.
    destruct (plain_reach_inv D t R) as [WT _].
    pose proof (ents_look _ _ _ (proj1 (proj2 (proj1 WT))) Hin) as L.
    assert (GK : t_get t k = Some (attr_of (info_of n))).
    { unfold t_get, entries. rewrite entries_lookup. unfold look in L. now rewrite L. }
    unfold old_at. rewrite GK. reflexivity.
  - exfalso. revert Er. unfold RemoveEx. destruct (search _ _ _ _) as [r| |]; cbn [bind]; try discriminate.
    destruct (s_node r); [|discriminate]. destruct (s_partial r); [discriminate|].
    destruct (s_parent r); [|discriminate]. destruct (fst _); discriminate.
Qed.
