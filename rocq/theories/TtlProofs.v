(** What expiring TTL jobs do, and what Close stops. *)
From Coq Require Import List NArith Bool Arith Lia Permutation.
From Verif Require Import GoStr Utf8 Node NodeWf InsertProofs MatchProofs Trie Spec TreeOps Refine Climb ApiRefine Reach
  Effect Derived Derived2 Derived3 Derived5 Ttl.
Import ListNotations.
Open Scope nat_scope.

(** ** one change of a tree *)
Definition ids_grow (t t' : tr) : Prop :=
  next t <= next t' /\ forall x, In x (ids (root t')) -> In x (ids (root t)) \/ next t <= x.
Record tchg (p : option gostring) (t t' : tr) : Prop := {
  tc_wf : wf_tr t';
  tc_eff : eff p (ients [] (root t)) (ients [] (root t'));
  tc_ids : ids_grow t t' }.

Lemma ids_grow_refl t : ids_grow t t.
Proof. split; auto. Qed.
Lemma insert_grow t path v t' ir : wf_tr t -> insert_root t path v = Ok (t', ir) -> ids_grow t t'.
Proof.
  intros WT E. destruct (insert_root_refines t _ path v WT (abs_entries t)) as (t1 & ir1 & E1 & _ & _ & _ & _ & R & _).
  rewrite E in E1. injection E1 as <- <-.
  destruct (ins_rel_ids _ _ _ _ _ _ _ _ _ R (proj2 WT)) as (_ & L & _ & G). split; auto.
Qed.
Lemma eids_upd id fi l : (forall j, i_id (fi j) = i_id j) -> eids (map (upd_ent id fi) l) = eids l.
Proof.
  intros H. unfold eids. rewrite map_map. apply map_ext. intros [k i]. unfold upd_ent. cbn.
  destruct (i_id i =? id); cbn; now rewrite ?H.
Qed.
Lemma ids_upd id f fa n : refl_fun f fa -> ids (upd id f n) = ids n.
Proof.
  intros (fi & F1 & F2 & F3 & F4). unfold ids. rewrite (upd_ients _ _ fi) by assumption. now apply eids_upd.
Qed.
Lemma upd_grow t t1 id f fa nx : refl_fun f fa -> nx = next t1 -> ids_grow t t1 -> ids_grow t (Tr (upd id f (root t1)) nx).
Proof. intros F -> [H1 H2]. split; auto. cbn [root]. rewrite (ids_upd _ _ _ _ F). exact H2. Qed.
Lemma remove_grow t kp pn nn :
  wf_tr t -> In (kp, pn) (ents [] (root t)) -> In nn (nkids pn) ->
  ids_grow t (Tr (rem_child (nid pn) (nid nn) (root t)) (next t)).
Proof.
  intros WT H1 H2. destruct (remove_refines t _ kp pn nn WT (abs_entries t) H1 H2) as (_ & _ & E).
  split; auto. cbn [root next] in *. unfold ids. rewrite E. unfold without, eids. intros x Hx. left.
  apply in_map_iff in Hx. destruct Hx as (e & <- & He). apply filter_In in He. apply (in_map (fun e => i_id (snd e))). apply He.
Qed.

Lemma step_grow rf h t o t' r : wf_tr t -> t_step rf h t o = Ok (t', r) -> ids_grow t t'.
Proof.
  intros WT.
  assert (RD : forall A (x : res A) (f : A -> out), (do a <- x; Ok (t, f a)) = Ok (t', r) -> ids_grow t t').
  { intros A0 x f. destruct x; cbn [bind]; try discriminate. intros E; injection E as <- _. apply ids_grow_refl. }
  assert (INS : forall path v t1 ir, insert_root t path v = Ok (t1, ir) -> ids_grow t t1)
    by (intros; eapply insert_grow; eauto).
  destruct o; cbn [t_step].
  - unfold Set_. destruct (insert_root t _ v) as [[t1 ir]| |] eqn:E1; try discriminate. cbn [bind].
    intros E. injection E as <- _. eauto.
  - unfold SetEx. destruct (insert_root t _ v) as [[t1 ir]| |] eqn:E1; try discriminate. cbn [bind].
    intros E. injection E as <- _. eauto.
  - unfold SetNode. destruct (insert_root t _ v) as [[t1 ir]| |] eqn:E1; try discriminate. cbn [bind].
    intros E. injection E as <- _. eapply upd_grow; eauto using refl_descs.
  - unfold SetEmpty. destruct (insert_root t _ GNil) as [[t1 ir]| |] eqn:E1; try discriminate. cbn [bind].
    intros E. injection E as <- _. eapply upd_grow; eauto. apply (refl_nodeop NSetEmpty).
  - unfold Update. destruct (insert_root t _ GNil) as [[t1 ir]| |] eqn:E1; try discriminate. cbn [bind].
    intros E. injection E as <- _. eapply upd_grow; eauto. apply (refl_nodeops (f (ir_old ir))).
  - unfold Set_. destruct (insert_root t _ v) as [[t1 ir]| |] eqn:E1; try discriminate. cbn [bind].
    intros E. injection E as <- _. eapply upd_grow; eauto. apply (refl_nodeops (f (ir_old ir))).
  - unfold SetComment. destruct (search rf h t (full h path)) as [sr| |] eqn:Es; try discriminate.
    cbn [bind]. destruct (s_node sr) as [n|] eqn:En; cbn [bind]; intros E; injection E as <- _; [|apply ids_grow_refl].
    eapply upd_grow; eauto using ids_grow_refl. apply (refl_nodeop (NSetComment desc cmt)).
  - unfold SetTag. destruct (search rf h t (full h path)) as [sr| |] eqn:Es; try discriminate.
    cbn [bind]. destruct (s_node sr) as [n|] eqn:En; cbn [bind]; intros E; injection E as <- _; [|apply ids_grow_refl].
    eapply upd_grow; eauto using ids_grow_refl. apply (refl_nodeop (NSetTag tag)).
  - unfold Remove. destruct (RemoveEx rf h t path) as [[[[t1 n] p] b]| |] eqn:Er; try discriminate.
    cbn [bind]. intros E. injection E as <- _. destruct b.
    + destruct (removeEx_in _ _ _ _ _ _ _ WT Er) as (kp & pn & nn & -> & -> & H1 & H2 & ->).
      eapply remove_grow; eauto.
    + revert Er. unfold RemoveEx. destruct (search rf h t (full h path)) as [sr| |]; try discriminate.
      cbn [bind]. destruct (s_node sr); [|intros E'; injection E' as <- _ _; apply ids_grow_refl].
      destruct (s_partial sr); [intros E'; injection E' as <- _ _; apply ids_grow_refl|].
      destruct (s_parent sr); [|intros E'; injection E' as <- _ _; apply ids_grow_refl].
      destruct (fst _); intros E'; [discriminate|]. injection E' as <- _ _. apply ids_grow_refl.
  - destruct (Get rf h t path) as [[v ok]| |]; cbn [bind]; intros E; inversion E; subst; apply ids_grow_refl.
  - apply RD.
  - apply RD.
  - apply RD.
  - apply RD.
  - destruct (Locate rf h t path) as [[[[[n br] pt] fd] kv]| |]; cbn [bind]; intros E; inversion E; subst; apply ids_grow_refl.
  - apply RD.
  - destruct (GetDesc rf h t path) as [[v ok]| |]; cbn [bind]; intros E; inversion E; subst; apply ids_grow_refl.
  - destruct (GetComment rf h t path) as [[v ok]| |]; cbn [bind]; intros E; inversion E; subst; apply ids_grow_refl.
  - destruct (GetTag rf h t path) as [[v ok]| |]; cbn [bind]; intros E; inversion E; subst; apply ids_grow_refl.
Qed.

Lemma step_chg rf h t o t' r : wf_tr t -> t_step rf h t o = Ok (t', r) -> tchg (stored h o) t t'.
Proof.
  intros WT E. split; [exact (step_wf _ _ _ _ _ _ WT E)|exact (step_eff _ _ _ _ _ _ WT E)|exact (step_grow _ _ _ _ _ _ WT E)].
Qed.
Lemma same_chg t : wf_tr t -> tchg None t t.
Proof. intros WT. split; auto using ids_grow_refl. constructor. Qed.
Lemma clear_chg t id : wf_tr t -> tchg None t (Tr (upd id setEmpty (root t)) (next t)).
Proof.
  intros WT. change setEmpty with (n_nodeop NSetEmpty).
  destruct (refl_keyfun _ _ (refl_nodeop NSetEmpty) (nodeop_leaf _)) as (fi & F & K).
  assert (EF : eff None (ients [] (root t)) (ients [] (upd id (n_nodeop NSetEmpty) (root t)))).
  { rewrite (upd_ients _ _ fi) by assumption. now apply eff_upd. }
  assert (G : ids_grow t (Tr (upd id (n_nodeop NSetEmpty) (root t)) (next t))).
  { eapply upd_grow; eauto using ids_grow_refl. apply (refl_nodeop NSetEmpty). }
  split; auto. destruct (in_dec Nat.eq_dec id (ids (root t))) as [Hin|Hout].
  - unfold ids, eids in Hin. apply in_map_iff in Hin. destruct Hin as ([k i] & <- & Hi). cbn [snd].
    apply (look_in _ _ _ (proj1 (proj2 (proj1 WT)))) in Hi.
    exact (proj1 (upd_refines' t _ k i _ _ WT (abs_entries t) Hi (refl_nodeop NSetEmpty))).
  - rewrite upd_notin by assumption. destruct t; exact WT.
Qed.

(** ** the entry of a key that no write splits *)
Lemma eff_calm p l l' k i :
  eff p l l' -> NoDup (map fst l') -> In (k, i) l ->
  match p with Some p => prefix k (runes p) \/ In (common (runes p) k) (map fst l) | None => True end ->
  In k (map fst l') ->
  exists i', In (k, i') l' /\ i_id i' = i_id i /\ t_leaf (i_type i') = t_leaf (i_type i).
Proof.
  intros E ND Hi C Hk. revert ND Hk.
  assert (U : forall id fi l0 i0, keyfun fi -> In (k, i0) l0 ->
            exists i', In (k, i') (map (upd_ent id fi) l0) /\ i_id i' = i_id i0 /\ t_leaf (i_type i') = t_leaf (i_type i0)).
  { intros id fi l0 i0 K H. apply (in_map (upd_ent id fi)) in H. unfold upd_ent in H at 1. cbn [fst snd] in H.
    destruct (i_id i0 =? id).
    - exists (fi i0). split; auto. split; apply K.
    - exists i0. auto. }
  destruct E as [l|p v nx nx' id old fi l l' R K|id fi l K|k0 l Hk0]; intros ND Hk.
  - exists i. auto.
  - rewrite map_upd_ent_fst in ND.
    assert (X : exists i', In (k, i') l' /\ i_id i' = i_id i /\ t_leaf (i_type i') = t_leaf (i_type i)).
    { destruct R as [l1 j l2 | l1 l2 Hp | l1 k1 j l2 Hp | l1 k0 k1 j l2 l3 H1 H2 H3 Hp].
      - apply in_elt_inv in Hi. destruct Hi as [Hi|Hi].
        + injection Hi as -> ->. exists (with_data v j). split; [apply in_elt|]. split; auto.
          cbn. unfold t_leaf. rewrite N.lor_spec. change (N.testbit NTData 0) with false. now rewrite orb_false_r.
        + exists i. split; auto. rewrite in_app_iff in *. cbn. tauto.
      - exists i. split; auto. rewrite in_app_iff in *. cbn. tauto.
      - apply in_elt_inv in Hi. destruct Hi as [Hi|Hi]; [|exists i; split; auto; rewrite in_app_iff in *; cbn; tauto].
        injection Hi as <- <-. exfalso. destruct C as [C|C].
        + apply pprefix_len in Hp. apply prefix_len in C. lia.
        + rewrite common_lcp in C. replace (lcp (runes p) k) with (runes p) in C.
          2:{ destruct (pprefix_prefix _ _ Hp) as [y ->]. now rewrite lcp_self_app. }
          rewrite map_app in ND, C. cbn in ND. apply NoDup_remove_2 in ND. apply ND.
          rewrite in_app_iff in *. cbn in *. destruct C as [C|[C|C]]; auto.
      - assert (Hi' : In (k, i) ((k1, j) :: l1 ++ l2 ++ l3)) by (cbn; rewrite !in_app_iff in *; cbn in Hi; rewrite !in_app_iff in Hi; tauto).
        destruct Hi' as [Hi'|Hi'].
        2:{ exists i. split; auto. rewrite !in_app_iff in *. cbn. rewrite in_app_iff. cbn. tauto. }
        injection Hi' as -> ->. exfalso. destruct C as [C|C].
        + apply pprefix_len in H1. assert (lcp (runes p) k = k) as E by (destruct C as [y ->]; apply lcp_app_self).
          rewrite H3 in E. rewrite E in H1. lia.
        + rewrite common_lcp, H3 in C. rewrite map_app in ND, C. cbn in ND. rewrite map_app in ND. cbn in ND.
          apply NoDup_remove_2 in ND. apply ND. rewrite !in_app_iff in *. cbn in *. rewrite map_app, in_app_iff in C.
          rewrite in_app_iff. cbn. tauto. }
    destruct X as (i' & X1 & X2 & X3). destruct (U id fi l' i' K X1) as (i2 & Y1 & Y2 & Y3).
    exists i2. split; auto. split; congruence.
  - now apply U.
  - exists i. split; auto. apply filter_In. split; auto. cbn.
    apply in_map_iff in Hk. destruct Hk as ([k' i'] & E & H). cbn in E. subst k'.
    apply filter_In in H. apply H.
Qed.

(** ** worlds *)
Lemma nth_set_same {A} i (x y : A) l : nth_error l i = Some y -> nth_error (set_nth i x l) i = Some x.
Proof. revert i. induction l as [|z l IH]; intros [|i] E; cbn in *; try discriminate; auto. Qed.
Lemma nth_set_other {A} i j (x : A) l : j <> i -> nth_error (set_nth i x l) j = nth_error l j.
Proof.
  revert i j. induction l as [|z l IH]; intros [|i] [|j] N; cbn; auto; try congruence.
Qed.
Lemma Forall_set_nth {A} (P : A -> Prop) i x l : Forall P l -> P x -> Forall P (set_nth i x l).
Proof. intros F H. revert i. induction F as [|y l Py F IH]; intros [|i]; cbn; constructor; auto. Qed.
Lemma Forall_nth {A} (P : A -> Prop) l i x : Forall P l -> nth_error l i = Some x -> P x.
Proof. intros F E. rewrite Forall_forall in F. apply F. eapply nth_error_In; eauto. Qed.

Lemma find_id_in t k n : wf_tr t -> In (k, n) (ents [] (root t)) -> find_id (nid n) t = Some n.
Proof.
  intros WT H. pose proof (proj1 (proj2 (proj1 WT))) as W. unfold find_id.
  destruct (find _ (walk (root t))) as [m|] eqn:E.
  - apply find_some in E. destruct E as [Hm Em]. apply Nat.eqb_eq in Em.
    rewrite (walk_ents [] (root t)) in Hm. apply in_map_iff in Hm. destruct Hm as ([k' m'] & E' & Hm).
    cbn in E'. subst m'. 
    assert (I1 : In (k, info_of n) (ients [] (root t))) by (apply in_ients; eauto).
    assert (I2 : In (k', info_of m) (ients [] (root t))) by (apply in_ients; eauto).
    destruct (ids_inj _ _ _ _ _ _ (proj2 WT) I1 I2) as [-> _]; [cbn; congruence|].
    now rewrite (ents_fun _ _ _ _ _ W H Hm).
  - exfalso. pose proof (find_none _ _ E n) as X. cbn in X. rewrite Nat.eqb_refl in X.
    assert (In n (walk (root t))); [|now discriminate X].
    rewrite (walk_ents [] (root t)). apply in_map_iff. now exists (k, n).
Qed.
Lemma find_id_out t id n : find_id id t = Some n -> nid n = id /\ exists k, In (k, n) (ents [] (root t)).
Proof.
  unfold find_id. intros E. apply find_some in E. destruct E as [Hm Em]. apply Nat.eqb_eq in Em. split; auto.
  rewrite (walk_ents [] (root t)) in Hm. apply in_map_iff in Hm. destruct Hm as ([k' m'] & E' & Hm).
  cbn in E'. subst m'. eauto.
Qed.
Lemma id_lt t k n : wf_tr t -> In (k, n) (ents [] (root t)) -> nid n < next t.
Proof.
  intros WT H. destruct (proj2 WT) as [_ L]. rewrite Forall_forall in L. apply L.
  apply (in_map (fun e => i_id (snd e)) _ (k, info_of n)). apply in_ients. eauto.
Qed.

Definition jok (ts : list tr) (j : job) : Prop :=
  exists t, nth_error ts (j_tree j) = Some t /\ j_id j < next t /\
    forall n, find_id (j_id j) t = Some n -> j_branch j = isBranch n /\ j_key j = npathS n.
Record winv (w : world) : Prop := {
  wi_trees : Forall wf_tr (trees w);
  wi_jobs : Forall (jok (trees w)) (jobs w) }.

Definition same_job (x x' : job) : Prop :=
  j_mgr x' = j_mgr x /\ j_tree x' = j_tree x /\ j_id x' = j_id x /\ j_cb x' = j_cb x.
Lemma see_same ti t x : same_job x (see ti t x) /\ j_stat (see ti t x) = j_stat x /\ j_elapsed (see ti t x) = j_elapsed x.
Proof.
  unfold see, same_job. destruct (j_tree x =? ti); auto. destruct (find_id _ t); cbn; auto 6.
Qed.

Lemma put_tree_ok w ti t t' p :
  winv w -> nth_error (trees w) ti = Some t -> tchg p t t' ->
  winv (put_tree ti t' w) /\
  forall tj s, nth_error (trees w) tj = Some s ->
    exists s', nth_error (trees (put_tree ti t' w)) tj = Some s' /\ tchg (if tj =? ti then p else None) s s'.
Proof.
  intros [WT WJ] Ht C.
  assert (TR : forall tj s, nth_error (trees w) tj = Some s ->
    exists s', nth_error (set_nth ti t' (trees w)) tj = Some s' /\ tchg (if tj =? ti then p else None) s s').
  { intros tj s Hs. destruct (Nat.eqb_spec tj ti) as [->|N].
    - exists t'. rewrite (nth_set_same _ _ _ _ Ht). split; auto. congruence.
    - exists s. rewrite nth_set_other by assumption. split; auto. apply same_chg. eapply Forall_nth; eauto. }
  split; [|exact TR]. split; cbn [trees jobs put_tree].
  - apply Forall_set_nth; auto. apply C.
  - apply Forall_map. eapply Forall_impl; [|exact WJ]. intros x (s & Hs & Hl & Hv).
    destruct (TR _ _ Hs) as (s' & Hs' & C'). exists s'.
    destruct (see_same ti t' x) as ((_ & E1 & E2 & _) & _). rewrite E1, E2. split; auto.
    split; [pose proof (proj1 (tc_ids _ _ _ C')); lia|]. intros n Hn. unfold see.
    destruct (Nat.eqb_spec (j_tree x) ti) as [E|N].
    + assert (s' = t') by (rewrite E, (nth_set_same _ _ _ _ Ht) in Hs'; congruence). subst s'.
      rewrite Hn. cbn. auto.
    + assert (s' = s) by (rewrite nth_set_other, Hs in Hs' by assumption; congruence). subst s'. auto.
Qed.

Lemma wtree w ti t : winv w -> nth_error (trees w) ti = Some t -> wf_tr t.
Proof. intros I H. exact (Forall_nth _ _ _ _ (wi_trees _ I) H). Qed.

(** the write of a step to tree [ti] *)
Definition wstored (w : world) (c : cmd) (ti : nat) : option gostring :=
  match c with
  | COp i o => match nth_error (tries w) i with
               | Some th => if ti =? th_tree th then stored (th_h th) o else None
               | None => None
               end
  | _ => None
  end.

Definition trees_chg (w : world) (c : cmd) (w' : world) : Prop :=
  forall ti t, nth_error (trees w) ti = Some t ->
    exists t', nth_error (trees w') ti = Some t' /\ tchg (wstored w c ti) t t'.
Lemma trees_same w c w' : winv w -> (forall ti, wstored w c ti = None) -> trees w' = trees w -> trees_chg w c w'.
Proof.
  intros I E T ti t H. exists t. rewrite T, E. split; auto. apply same_chg. eapply wtree; eauto.
Qed.
Lemma winv_jobs w w' : winv w -> trees w' = trees w -> Forall (jok (trees w)) (jobs w') -> winv w'.
Proof. intros I T F. split; rewrite T; auto. apply I. Qed.
Lemma jok_stat ts x e s : jok ts x -> jok ts (with_stat x e s).
Proof. auto. Qed.

Lemma ensure_trees i th w o w1 : ensure i th w = (o, w1) -> trees w1 = trees w /\ jobs w1 = jobs w.
Proof. unfold ensure. destruct (th_present th); intros E; injection E as _ <-; auto. Qed.
Lemma add_trees m ti n short cb w w1 :
  add_job m ti n short cb w = Some w1 ->
  trees w1 = trees w /\
  (jobs w1 = jobs w \/ jobs w1 = jobs w ++ [Job m ti (nid n) (isBranch n) (npathS n) false JStart cb]).
Proof.
  unfold add_job. destruct (nth_error (mgrs w) m) as [g|]; [|discriminate]. destruct (mg_done g); [discriminate|].
  destruct short; intros E; injection E as <-; auto.
Qed.
Lemma dup_trees th ti h w : trees (dup_trie th ti h w) = trees w /\ jobs (dup_trie th ti h w) = jobs w.
Proof.
  unfold dup_trie. destruct (th_present th); auto. destruct (th_ttl th); auto. destruct (nth_error _ _); auto.
Qed.
Lemma arm_inv w w1 w2 m ti t n short cb k :
  winv w -> trees w1 = trees w -> jobs w1 = jobs w -> nth_error (trees w) ti = Some t ->
  In (k, n) (ents [] (root t)) -> add_job m ti n short cb w1 = Some w2 -> winv w2 /\ trees w2 = trees w.
Proof.
  intros I T1 J1 Ht Hn A. destruct (add_trees _ _ _ _ _ _ _ A) as [T2 J2]. rewrite T1 in T2. split; auto.
  apply (winv_jobs w); auto. rewrite J1 in J2. pose proof (wi_jobs _ I) as WJ.
  assert (WT : wf_tr t) by (eapply wtree; eauto).
  destruct J2 as [->| ->]; auto. apply Forall_app. split; auto. constructor; auto.
  exists t. cbn. split; auto. split; [eapply id_lt; eauto|].
  intros n' E. rewrite (find_id_in t k n WT Hn) in E. injection E as <-. auto.
Qed.

Lemma ring_ok rf x w w' : winv w -> ring rf x w = Ok w' ->
  winv w' /\ forall ti t, nth_error (trees w) ti = Some t -> exists t', nth_error (trees w') ti = Some t' /\ tchg None t t'.
Proof.
  intros I. assert (S : winv w /\ forall ti t, nth_error (trees w) ti = Some t ->
     exists t', nth_error (trees w) ti = Some t' /\ tchg None t t').
  { split; auto. intros ti t H. exists t. split; auto. apply same_chg. eapply wtree; eauto. }
  assert (B : forall A (b : bool) (x y : A), (if b then x else x) = x) by (intros; now destruct b).
  unfold ring. destruct (j_branch x).
  - destruct (nth_error (mgrs w) (j_mgr x)) as [g|]; [|intros E; now injection E as <-].
    destruct (nth_error (tries w) (mg_trie g)) as [th|]; [|intros E; now injection E as <-].
    destruct (nth_error (trees w) (th_tree th)) as [t|] eqn:Ht; [|intros E; now injection E as <-].
    destruct (Remove rf (th_h th) t (j_key x)) as [[t' b]| |] eqn:Er; try discriminate. cbn [bind].
    intros E. injection E as <-.
    assert (WT : wf_tr t) by (eapply wtree; eauto).
    assert (C : tchg None t t').
    { apply (step_chg rf (th_h th) t (ORemove (j_key x)) t' (RBool b)); auto. cbn. now rewrite Er. }
    destruct (put_tree_ok w _ _ _ _ I Ht C) as [I' T']. split; auto. intros ti s Hs.
    destruct (T' ti s Hs) as (s' & H1 & H2). rewrite B in H2 by exact None. eauto.
  - destruct (nth_error (trees w) (j_tree x)) as [t|] eqn:Ht; [|intros E; now injection E as <-].
    intros E. injection E as <-.
    assert (WT : wf_tr t) by (eapply wtree; eauto).
    destruct (put_tree_ok w _ _ _ _ I Ht (clear_chg t (j_id x) WT)) as [I' T']. split; auto. intros ti s Hs.
    destruct (T' ti s Hs) as (s' & H1 & H2). rewrite B in H2 by exact None. eauto.
Qed.

Theorem wstep_ok rf clone w c w' : winv w -> wstep rf clone w c = Some (Ok w') -> winv w' /\ trees_chg w c w'.
Proof.
  intros I.
  assert (SAME : forall w', (forall ti, wstored w c ti = None) -> trees w' = trees w -> Forall (jok (trees w)) (jobs w') ->
            winv w' /\ trees_chg w c w').
  { intros w1 E T J. split; [eapply winv_jobs; eauto|now apply trees_same]. }
  pose proof (wi_jobs _ I) as WJ.
  destruct c; cbn [wstep].
  - destruct (nth_error (tries w) i) as [th|] eqn:Hth; [|discriminate].
    destruct (nth_error (trees w) (th_tree th)) as [t|] eqn:Ht; [|discriminate].
    destruct (t_step rf (th_h th) t o) as [[t' r]| |] eqn:Es; try discriminate. cbn [bind].
    intros E. injection E as <-.
    assert (WT : wf_tr t) by (eapply wtree; eauto).
    destruct (put_tree_ok w _ _ _ _ I Ht (step_chg _ _ _ _ _ _ WT Es)) as [I' T']. split; auto.
    intros ti s Hs. destruct (T' ti s Hs) as (s' & H1 & H2). exists s'. split; auto.
    cbn. rewrite Hth. exact H2.
  - destruct (nth_error (tries w) i) as [th|] eqn:Hth; [|discriminate].
    destruct (nth_error (trees w) (th_tree th)) as [t|] eqn:Ht; [|discriminate].
    assert (WT : wf_tr t) by (eapply wtree; eauto).
    destruct (search rf (th_h th) t (full (th_h th) path)) as [r| |] eqn:Es; try discriminate.
    destruct (s_node r) as [n|] eqn:En.
    2:{ intros E. injection E as <-. apply SAME; auto. }
    destruct (s_partial r) eqn:Ep. { intros E. injection E as <-. apply SAME; auto. }
    destruct (ensure i th w) as [[m|] w1] eqn:Ee; [|discriminate].
    destruct (ensure_trees _ _ _ _ _ Ee) as [T1 J1].
    destruct (add_job m (th_tree th) n short cb w1) as [w2|] eqn:Ea; [|discriminate]. cbn [option_map].
    intros E. injection E as <-.
    destruct (search_in _ _ _ _ _ Es _ En) as (k & Hk & _).
    destruct (arm_inv w w1 w2 m _ _ n short cb k I T1 J1 Ht Hk Ea) as [I2 T2].
    split; auto. apply trees_same; auto.
  - destruct (nth_error (tries w) i) as [th|] eqn:Hth; [|discriminate].
    destruct (nth_error (trees w) ti) as [t|] eqn:Ht; [|discriminate].
    destruct (find_id id t) as [n|] eqn:Ef; [|discriminate].
    destruct (ensure i th w) as [[m|] w1] eqn:Ee; [|discriminate].
    destruct (ensure_trees _ _ _ _ _ Ee) as [T1 J1].
    destruct (add_job m ti n short cb w1) as [w2|] eqn:Ea; [|discriminate]. cbn [option_map].
    intros E. injection E as <-. destruct (find_id_out _ _ _ Ef) as [_ [k Hk]].
    destruct (arm_inv w w1 w2 m _ _ n short cb k I T1 J1 Ht Hk Ea) as [I2 T2].
    split; auto. apply trees_same; auto.
  - destruct (nth_error (tries w) i) as [th|] eqn:Hth; [|discriminate]. intros E. injection E as <-.
    destruct (dup_trees th (th_tree th) h w) as [T J]. apply SAME; auto. now rewrite J.
  - destruct (nth_error (tries w) i) as [th|] eqn:Hth; [|discriminate]. intros E. injection E as <-. now apply SAME.
  - destruct (nth_error (tries w) i) as [th|] eqn:Hth; [|discriminate].
    destruct (nth_error (trees w) (th_tree th)) as [t|] eqn:Ht; [|discriminate].
    assert (WT : wf_tr t) by (eapply wtree; eauto).
    intros E. injection E as <-. destruct (dup_trees th (length (trees w)) (th_h th)
      (World (trees w ++ [Dup clone t]) (tries w) (mgrs w) (jobs w))) as [T J]. cbn [trees jobs] in T, J.
    assert (X : forall ti s, nth_error (trees w) ti = Some s -> nth_error (trees w ++ [Dup clone t]) ti = Some s).
    { intros ti s Hs. rewrite nth_error_app1; auto. apply nth_error_Some. congruence. }
    split.
    + split; rewrite T, ?J.
      * apply Forall_app. split; [apply I|]. constructor; auto. now apply dup_wf.
      * eapply Forall_impl; [|exact WJ]. intros x (s & Hs & Hr). exists s. auto.
    + intros ti s Hs. exists s. rewrite T. split; auto. apply same_chg. eapply wtree; eauto.
  - destruct (nth_error (tries w) i) as [th|] eqn:Hth; [|discriminate].
    destruct (th_present th); [|intros E; injection E as <-; now apply SAME].
    destruct (th_ttl th) as [m|]; [|intros E; injection E as <-; now apply SAME].
    destruct (nth_error (mgrs w) m) as [g|]; [|discriminate]. intros E. injection E as <-. apply SAME; auto.
    cbn [jobs]. apply Forall_map. eapply Forall_impl; [|exact WJ]. intros x Hx.
    destruct (j_stat x); auto. destruct (j_mgr x =? m); auto.
  - destruct (nth_error (tries w) i) as [th|] eqn:Hth; [|discriminate]. intros E. injection E as <-. now apply SAME.
  - destruct (nth_error (jobs w) j) as [x|] eqn:Hx; [|discriminate].
    destruct (j_elapsed x); [discriminate|]. intros E. injection E as <-. apply SAME; auto.
    apply Forall_set_nth; auto. apply jok_stat. exact (Forall_nth _ _ _ _ WJ Hx).
  - destruct (nth_error (jobs w) j) as [x|] eqn:Hx; [|discriminate].
    destruct (j_stat x); try discriminate. destruct (nth_error (mgrs w) (j_mgr x)) as [g|]; [|discriminate].
    intros E. injection E as <-. apply SAME; auto.
    apply Forall_set_nth; auto. apply jok_stat. exact (Forall_nth _ _ _ _ WJ Hx).
  - destruct (nth_error (jobs w) j) as [x|] eqn:Hx; [|discriminate].
    destruct (j_stat x); try discriminate. intros E. injection E as E.
    apply ring_ok in E.
    + destruct E as [I' T']. split; auto.
    + apply (winv_jobs w); auto. apply Forall_set_nth; auto. apply jok_stat. exact (Forall_nth _ _ _ _ WJ Hx).
Qed.

(** ** jobs *)
(** how the goroutine of a job can move: never backwards *)
Definition rank (s : jstat) : nat := match s with JStart => 0 | JWait => 1 | JFired => 2 | JOver => 3 end.
Lemma ring_jobs rf x w w' : ring rf x w = Ok w' ->
  mgrs w' = mgrs w /\ tries w' = tries w /\
  forall j y, nth_error (jobs w) j = Some y ->
    exists y', nth_error (jobs w') j = Some y' /\ same_job y y' /\ j_stat y' = j_stat y.
Proof.
  assert (S : forall j y, nth_error (jobs w) j = Some y ->
    exists y', nth_error (jobs w) j = Some y' /\ same_job y y' /\ j_stat y' = j_stat y)
    by (intros j y H; exists y; unfold same_job; auto 7).
  assert (P : forall ti t, forall j y, nth_error (jobs w) j = Some y ->
    exists y', nth_error (jobs (put_tree ti t w)) j = Some y' /\ same_job y y' /\ j_stat y' = j_stat y).
  { intros ti t j y H. exists (see ti t y). cbn. rewrite nth_error_map, H. split; auto.
    destruct (see_same ti t y) as (S1 & S2 & _). auto. }
  unfold ring. destruct (j_branch x).
  - destruct (nth_error (mgrs w) (j_mgr x)) as [g|]; [|intros E; injection E as <-; auto].
    destruct (nth_error (tries w) (mg_trie g)) as [th|]; [|intros E; injection E as <-; auto].
    destruct (nth_error (trees w) (th_tree th)) as [t|] eqn:Ht; [|intros E; injection E as <-; auto].
    destruct (Remove rf (th_h th) t (j_key x)) as [[t' b]| |] eqn:Er; try discriminate. cbn [bind].
    intros E. injection E as <-. split; auto.
  - destruct (nth_error (trees w) (j_tree x)) as [t|] eqn:Ht; intros E; injection E as <-; auto.
Qed.

Lemma wstep_job rf clone w c w' j x :
  wstep rf clone w c = Some (Ok w') -> nth_error (jobs w) j = Some x ->
  exists x', nth_error (jobs w') j = Some x' /\ same_job x x' /\ rank (j_stat x) <= rank (j_stat x') /\
    (j_stat x <> JFired -> j_stat x' = JFired ->
       (j_stat x = JWait /\ c = CTick j) \/ (j_stat x = JStart /\ exists b, c = CEnter j b)).
Proof.
  intros E Hx.
  assert (SAME : forall w1, jobs w1 = jobs w -> exists x', nth_error (jobs w1) j = Some x' /\ same_job x x' /\
    rank (j_stat x) <= rank (j_stat x') /\
    (j_stat x <> JFired -> j_stat x' = JFired -> (j_stat x = JWait /\ c = CTick j) \/ (j_stat x = JStart /\ exists b, c = CEnter j b))).
  { intros w1 J. exists x. rewrite J. split; [auto|]. split; [unfold same_job; auto|]. split; [auto|]. congruence. }
  assert (APP : forall w1 l, jobs w1 = jobs w ++ l -> exists x', nth_error (jobs w1) j = Some x' /\ same_job x x' /\
    rank (j_stat x) <= rank (j_stat x') /\
    (j_stat x <> JFired -> j_stat x' = JFired -> (j_stat x = JWait /\ c = CTick j) \/ (j_stat x = JStart /\ exists b, c = CEnter j b))).
  { intros w1 l J. exists x. rewrite J, nth_error_app1 by (apply nth_error_Some; congruence).
    split; [auto|]. split; [unfold same_job; auto|]. split; [auto|]. congruence. }
  destruct c; cbn [wstep] in E.
  - destruct (nth_error (tries w) i) as [th|]; [|discriminate].
    destruct (nth_error (trees w) (th_tree th)) as [t|]; [|discriminate].
    destruct (t_step rf (th_h th) t o) as [[t' r]| |]; try discriminate. cbn [bind] in E. injection E as <-.
    exists (see (th_tree th) t' x). cbn. rewrite nth_error_map, Hx. split; auto.
    destruct (see_same (th_tree th) t' x) as (S1 & S2 & _). rewrite S2. split; auto. split; auto. congruence.
  - destruct (nth_error (tries w) i) as [th|]; [|discriminate].
    destruct (nth_error (trees w) (th_tree th)) as [t|]; [|discriminate].
    destruct (search rf (th_h th) t (full (th_h th) path)) as [r| |]; try discriminate.
    destruct (s_node r) as [n|]; [|injection E as <-; auto].
    destruct (s_partial r); [injection E as <-; auto|].
    destruct (ensure i th w) as [[m|] w1] eqn:Ee; [|discriminate].
    destruct (ensure_trees _ _ _ _ _ Ee) as [_ J1].
    destruct (add_job m (th_tree th) n short cb w1) as [w2|] eqn:Ea; [|discriminate]. injection E as <-.
    destruct (add_trees _ _ _ _ _ _ _ Ea) as [_ J2]. rewrite J1 in J2. destruct J2 as [J2|J2]; eauto.
  - destruct (nth_error (tries w) i) as [th|]; [|discriminate].
    destruct (nth_error (trees w) ti) as [t|]; [|discriminate].
    destruct (find_id id t) as [n|]; [|discriminate].
    destruct (ensure i th w) as [[m|] w1] eqn:Ee; [|discriminate].
    destruct (ensure_trees _ _ _ _ _ Ee) as [_ J1].
    destruct (add_job m ti n short cb w1) as [w2|] eqn:Ea; [|discriminate]. injection E as <-.
    destruct (add_trees _ _ _ _ _ _ _ Ea) as [_ J2]. rewrite J1 in J2. destruct J2 as [J2|J2]; eauto.
  - destruct (nth_error (tries w) i) as [th|]; [|discriminate]. injection E as <-. apply SAME. apply dup_trees.
  - destruct (nth_error (tries w) i) as [th|]; [|discriminate]. injection E as <-. now apply SAME.
  - destruct (nth_error (tries w) i) as [th|]; [|discriminate].
    destruct (nth_error (trees w) (th_tree th)) as [t|]; [|discriminate]. injection E as <-. apply SAME.
    exact (proj2 (dup_trees th (length (trees w)) (th_h th) (World (trees w ++ [Dup clone t]) (tries w) (mgrs w) (jobs w)))).
  - destruct (nth_error (tries w) i) as [th|]; [|discriminate].
    destruct (th_present th); [|injection E as <-; auto]. destruct (th_ttl th) as [m|]; [|injection E as <-; auto].
    destruct (nth_error (mgrs w) m) as [g|]; [|discriminate]. injection E as <-. cbn [jobs].
    rewrite nth_error_map, Hx. eexists. split; [reflexivity|]. unfold same_job.
    destruct (j_stat x) eqn:Es; [|destruct (j_mgr x =? m)| |]; cbn; rewrite ?Es; cbn;
      (split; [auto|split; [lia|intros; congruence]]).
  - destruct (nth_error (tries w) i) as [th|]; [|discriminate]. injection E as <-. now apply SAME.
  - destruct (nth_error (jobs w) j0) as [y|] eqn:Hy; [|discriminate]. destruct (j_elapsed y); [discriminate|].
    injection E as <-. cbn [jobs put_job]. destruct (Nat.eq_dec j j0) as [->|N].
    + rewrite (nth_set_same _ _ _ _ Hy). assert (y = x) by congruence. subst y.
      eexists. split; [reflexivity|]. unfold same_job. cbn.
      split; [auto|]. destruct (j_stat x) eqn:Es; cbn; (split; [lia|]); intros A B; try congruence.
      left. auto.
    + rewrite nth_set_other by assumption. apply (SAME w eq_refl).
  - destruct (nth_error (jobs w) j0) as [y|] eqn:Hy; [|discriminate]. destruct (j_stat y) eqn:Es; try discriminate.
    destruct (nth_error (mgrs w) (j_mgr y)) as [g|]; [|discriminate].
    injection E as <-. cbn [jobs put_job]. destruct (Nat.eq_dec j j0) as [->|N].
    + rewrite (nth_set_same _ _ _ _ Hy). assert (y = x) by congruence. subst y.
      eexists. split; [reflexivity|]. unfold same_job. cbn. rewrite Es. split; auto. split; [cbn; lia|].
      intros _ _. right. eauto.
    + rewrite nth_set_other by assumption. apply (SAME w eq_refl).
  - destruct (nth_error (jobs w) j0) as [y|] eqn:Hy; [|discriminate]. destruct (j_stat y) eqn:Es; try discriminate.
    injection E as E. destruct (ring_jobs _ _ _ _ E) as (_ & _ & J). cbn [jobs put_job] in J.
    destruct (Nat.eq_dec j j0) as [->|N].
    + destruct (J j0 _ (nth_set_same _ _ _ _ Hy)) as (y' & H1 & H2 & H3). exists y'.
      assert (y = x) by congruence. subst y. cbn in H3. split; auto. split; [exact H2|]. rewrite H3. split; [rewrite Es; cbn; lia|].
      intros _ X. discriminate.
    + destruct (J j x) as (y' & H1 & H2 & H3). { now rewrite nth_set_other. }
      exists y'. split; auto. split; auto. rewrite H3. split; auto. congruence.
Qed.

(** ** the armed node stays at its key as long as nothing splits or removes it *)
Definition wget (w : world) (ti : nat) (k : skey) : option attr :=
  match nth_error (trees w) ti with Some t => t_get t k | None => None end.

Section Run.
Variables (rf : nat) (clone : gval -> gval).
(** [k] stays a key of tree [ti] throughout, and every write parts from it at a key *)
Fixpoint calm (ti : nat) (k : skey) (cs : list cmd) (w : world) : Prop :=
  match cs with
  | [] => True
  | c :: r =>
      match wstep rf clone w c with
      | Some (Ok w1) =>
          (forall p, wstored w c ti = Some p -> prefix k (runes p) \/ wget w ti (common (runes p) k) <> None) /\
          wget w1 ti k <> None /\ calm ti k r w1
      | Some _ => True
      | None => calm ti k r w
      end
  end.

Definition node_at (w : world) (ti id : nat) (k : skey) (leaf : bool) : Prop :=
  exists t i, nth_error (trees w) ti = Some t /\ In (k, i) (ients [] (root t)) /\ i_id i = id /\
              t_leaf (i_type i) = leaf.

Lemma get_keys t k : t_get t k <> None <-> In k (map fst (ients [] (root t))).
Proof.
  rewrite <- entries_keys. unfold entries, skeys. now rewrite map_map.
Qed.

Lemma calm_node ti id k leaf : forall cs w w',
  winv w -> node_at w ti id k leaf -> calm ti k cs w -> wrun rf clone cs w = Ok w' ->
  winv w' /\ node_at w' ti id k leaf.
Proof.
  induction cs as [|c cs IH]; intros w w' I (t & i & Ht & Hi & Ei & El) C E; cbn [wrun] in E.
  - injection E as <-. split; auto. exists t, i. auto.
  - cbn [calm] in C. destruct (wstep rf clone w c) as [[w1| |]|] eqn:Es; cbn [bind] in E; try discriminate.
    + destruct C as (C1 & C2 & C3). destruct (wstep_ok _ _ _ _ _ I Es) as [I1 T1].
      apply (IH w1); auto. destruct (T1 ti t Ht) as (t' & Ht' & CH).
      destruct (eff_calm _ _ _ k i (tc_eff _ _ _ CH)) as (i' & H1 & H2 & H3); auto.
      * rewrite map_fst_ients. apply ents_nodup. apply (tc_wf _ _ _ CH).
      * destruct (wstored w c ti) as [p|] eqn:Ew; auto. destruct (C1 p eq_refl) as [X|X]; auto. right.
        apply get_keys. unfold wget in X. now rewrite Ht in X.
      * unfold wget in C2. rewrite Ht' in C2. now apply get_keys.
      * exists t', i'. repeat split; auto; congruence.
    + apply (IH w); auto. exists t, i. auto.
Qed.

Lemma wrun_job : forall cs w w' j x, wrun rf clone cs w = Ok w' -> nth_error (jobs w) j = Some x ->
  exists x', nth_error (jobs w') j = Some x' /\ same_job x x' /\ rank (j_stat x) <= rank (j_stat x').
Proof.
  induction cs as [|c cs IH]; intros w w' j x E Hx; cbn [wrun] in E.
  - injection E as <-. exists x. unfold same_job. auto 7.
  - destruct (wstep rf clone w c) as [[w1| |]|] eqn:Es; cbn [bind] in E; try discriminate.
    + destruct (wstep_job _ _ _ _ _ _ _ Es Hx) as (x1 & H1 & S1 & R1 & _).
      destruct (IH _ _ _ _ E H1) as (x2 & H2 & S2 & R2). exists x2. split; auto. split; [|lia].
      unfold same_job in *. intuition congruence.
    + eapply IH; eauto.
Qed.

(** clearing one key *)
Definition cleared (k : skey) (t t' : tr) : Prop :=
  forall k', t_get t' k' = if str_eqb k k' then option_map (fun a => Attr GNil (a_desc a) (a_cmt a) GNil (a_leaf a) (a_has a) (a_mod a)) (t_get t k') else t_get t k'.

Lemma clear_get t k i : wf_tr t -> In (k, i) (ients [] (root t)) ->
  cleared k t (Tr (upd (i_id i) setEmpty (root t)) (next t)).
Proof.
  intros WT H k'. pose proof (proj1 (proj2 (proj1 WT))) as W.
  apply (look_in _ _ _ W) in H.
  destruct (upd_refines' t _ k i _ _ WT (abs_entries t) H (refl_nodeop NSetEmpty)) as [_ A].
  rewrite (abs_get _ _ _ A), s_upd_get. unfold t_get.
  destruct (str_eqb k k') eqn:E; auto. apply str_eqb_eq in E. subst k'. reflexivity.
Qed.

(** a leaf: its own data and tag are cleared, nothing else changes in any tree *)
Lemma leaf_rings w j x k w' :
  winv w -> nth_error (jobs w) j = Some x -> node_at w (j_tree x) (j_id x) k true ->
  wstep rf clone w (CRun j) = Some (Ok w') ->
  length (trees w') = length (trees w) /\
  forall ti t, nth_error (trees w) ti = Some t ->
    exists t', nth_error (trees w') ti = Some t' /\
      (if ti =? j_tree x then cleared k t t' else t' = t).
Proof.
  intros I Hx (t & i & Ht & Hi & Ei & El). cbn [wstep]. rewrite Hx.
  destruct (j_stat x); try discriminate. intros E. injection E as E.
  pose proof (wtree _ _ _ I Ht) as WT.
  destruct (Forall_nth _ _ _ _ (wi_jobs _ I) Hx) as (t0 & Ht0 & _ & V).
  assert (t0 = t) by congruence. subst t0.
  apply in_ients in Hi. destruct Hi as (n & Hn & <-). cbn in Ei, El.
  assert (F : find_id (j_id x) t = Some n) by (rewrite <- Ei; eapply find_id_in; eauto).
  destruct (V n F) as [Vb _].
  assert (NB : j_branch x = false) by (rewrite Vb, isBranch_bit, El; reflexivity).
  unfold ring in E. rewrite NB in E. cbn [trees put_job] in E. rewrite Ht in E. injection E as <-.
  cbn [trees put_tree].
  assert (L : forall {A} i (y : A) l, length (set_nth i y l) = length l).
  { intros A i y l. revert i. induction l; intros [|i]; cbn; auto. }
  split; [apply L|]. intros ti s Hs. destruct (Nat.eqb_spec ti (j_tree x)) as [->|N].
  - rewrite (nth_set_same _ _ _ _ Ht). eexists. split; [reflexivity|].
    assert (s = t) by congruence. subst s. rewrite <- Ei.
    apply (clear_get t k (info_of n) WT). apply in_ients. eauto.
  - exists s. rewrite nth_set_other by assumption. auto.
Qed.

(** arming: the job of SetTTL holds the node the lookup finds *)
Lemma arm_node w i th t path cb w1 k n r :
  winv w -> nth_error (tries w) i = Some th -> nth_error (trees w) (th_tree th) = Some t ->
  search rf (th_h th) t (full (th_h th) path) = Ok r -> s_node r = Some n -> s_partial r = false ->
  In (k, n) (ents [] (root t)) ->
  wstep rf clone w (CSetTTL i path false cb) = Some (Ok w1) ->
  winv w1 /\ trees w1 = trees w /\ exists x, nth_error (jobs w1) (length (jobs w)) = Some x /\
    j_tree x = th_tree th /\ j_id x = nid n /\ j_stat x = JStart /\ j_cb x = cb /\
    node_at w1 (th_tree th) (nid n) k (isLeaf n).
Proof.
  intros I Hth Ht Es En Ep Hn E. cbn [wstep] in E. rewrite Hth, Ht, Es, En, Ep in E.
  destruct (ensure i th w) as [[m|] w0] eqn:Ee; [|discriminate].
  destruct (ensure_trees _ _ _ _ _ Ee) as [T1 J1].
  destruct (add_job m (th_tree th) n false cb w0) as [w2|] eqn:Ea; [|discriminate]. injection E as <-.
  destruct (arm_inv w w0 w2 m _ _ n false cb k I T1 J1 Ht Hn Ea) as [I2 T2].
  split; auto. split; auto. 
  assert (J2 : jobs w2 = jobs w ++ [Job m (th_tree th) (nid n) (isBranch n) (npathS n) false JStart cb]).
  { unfold add_job in Ea. destruct (nth_error (mgrs w0) m) as [g|]; [|discriminate].
    destruct (mg_done g); [discriminate|]. injection Ea as <-. cbn. now rewrite J1. }
  rewrite J2, nth_error_app2, Nat.sub_diag by lia. eexists. split; [reflexivity|]. cbn.
  repeat (split; [reflexivity|]). exists t, (info_of n). rewrite T2. split; auto. split; [apply in_ients; eauto|].
  split; auto. cbn. now rewrite isLeaf_bit.
Qed.

(** From SetTTL on a leaf key to the expiry, through any steps in between that neither remove the
    key nor split it: exactly this key is cleared, whatever was stored at it meanwhile. *)
Theorem ttl_leaf D w i th t path cb w1 k a cs w2 w3 :
  winv w -> nth_error (tries w) i = Some th -> nth_error (trees w) (th_tree th) = Some t ->
  plain_all D (entries t) -> D (hdelim (th_h th)) -> 0 < rf ->
  s_search (hdelim (th_h th)) (is_up (th_h th)) (entries t) (full (th_h th) path) = SFound k ->
  t_get t k = Some a -> a_leaf a = true ->
  wstep rf clone w (CSetTTL i path false cb) = Some (Ok w1) ->
  calm (th_tree th) k cs w1 -> wrun rf clone cs w1 = Ok w2 ->
  wstep rf clone w2 (CRun (length (jobs w))) = Some (Ok w3) ->
  forall ti s, nth_error (trees w2) ti = Some s ->
    exists s', nth_error (trees w3) ti = Some s' /\
      (if ti =? th_tree th then cleared k s s' else s' = s).
Proof.
  intros I Hth Ht PA Hd Hrf SS G L E1 C E2 E3.
  pose proof (wtree _ _ _ I Ht) as WT.
  destruct (search_spec (hdelim (th_h th)) t (entries t) WT (abs_entries t)) with (rf := pred rf) (h := th_h th) (w := full (th_h th) path)
    as (r & Er & SO & _); auto.
  { apply (plain_tree_map (hdelim (th_h th)) t (entries t) WT (abs_entries t)). now apply PA. }
  replace (S (pred rf)) with rf in Er by lia.
  rewrite SS in SO. destruct SO as (n & Hn & Hp & Hs & _).
  destruct (arm_node w i th t path cb w1 k n r I Hth Ht Er Hs Hp Hn E1) as (I1 & T1 & x & Hx & X1 & X2 & _ & _ & NA).
  assert (isLeaf n = true) as Hl.
  { pose proof (abs_ents (root t) (entries t) (proj1 (proj2 (proj1 WT))) (abs_entries t) _ _ Hn) as GG. unfold t_get in G.
    rewrite G in GG. injection GG as ->. cbn in L. now rewrite isLeaf_bit. }
  rewrite Hl in NA. destruct (calm_node _ _ _ _ _ _ _ I1 NA C E2) as [I2 NA2].
  destruct (wrun_job _ _ _ _ _ E2 Hx) as (x2 & Hx2 & (_ & S2 & S3 & _) & _).
  rewrite <- X1, <- S2, <- X2, <- S3 in NA2.
  destruct (leaf_rings w2 _ x2 k w3 I2 Hx2 NA2 E3) as [_ R]. intros ti s Hs'.
  destruct (R ti s Hs') as (s' & H1 & H2). exists s'. split; auto. now rewrite S2, X1 in H2.
Qed.

(** ** a leaf that has left the tree: its expiry changes nothing *)
Lemma gone_stays ti id : forall cs w w' t,
  winv w -> nth_error (trees w) ti = Some t -> ~ In id (ids (root t)) -> id < next t ->
  wrun rf clone cs w = Ok w' ->
  winv w' /\ exists t', nth_error (trees w') ti = Some t' /\ ~ In id (ids (root t')) /\ id < next t'.
Proof.
  induction cs as [|c cs IH]; intros w w' t I Ht Hn Hl E; cbn [wrun] in E.
  - injection E as <-. eauto.
  - destruct (wstep rf clone w c) as [[w1| |]|] eqn:Es; cbn [bind] in E; try discriminate.
    + destruct (wstep_ok _ _ _ _ _ I Es) as [I1 T1]. destruct (T1 ti t Ht) as (t' & Ht' & CH).
      destruct (tc_ids _ _ _ CH) as [G1 G2]. apply (IH w1 w' t'); auto; [|lia].
      intros X. destruct (G2 _ X); [auto|lia].
    + eapply IH; eauto.
Qed.
Theorem ttl_gone w j x t cs w2 x2 w3 :
  winv w -> nth_error (jobs w) j = Some x -> nth_error (trees w) (j_tree x) = Some t ->
  (forall n, In n (walk (root t)) -> nid n <> j_id x) ->
  wrun rf clone cs w = Ok w2 -> nth_error (jobs w2) j = Some x2 -> j_branch x2 = false ->
  wstep rf clone w2 (CRun j) = Some (Ok w3) ->
  trees w3 = trees w2.
Proof.
  intros I Hx Ht Hn E Hx2 Hb E3.
  destruct (Forall_nth _ _ _ _ (wi_jobs _ I) Hx) as (t0 & Ht0 & Hl & _). assert (t0 = t) by congruence. subst t0.
  destruct (gone_stays (j_tree x) (j_id x) cs w w2 t I Ht) as (I2 & t2 & Ht2 & Hn2 & Hl2); auto.
  { intros X. unfold ids, eids in X. apply in_map_iff in X. destruct X as ([k i] & E1 & Hi). cbn in E1.
    apply in_ients in Hi. destruct Hi as (n & Hin & <-). apply (Hn n); auto.
    rewrite (walk_ents [] (root t)). apply in_map_iff. now exists (k, n). }
  destruct (wrun_job _ _ _ _ _ E Hx) as (y & Hy & (_ & S2 & S3 & _) & _).
  assert (y = x2) by congruence. subst y.
  cbn [wstep] in E3. rewrite Hx2 in E3. destruct (j_stat x2); try discriminate. injection E3 as E3.
  unfold ring in E3. rewrite Hb in E3. cbn [trees put_job] in E3. rewrite S2, Ht2 in E3. injection E3 as <-.
  cbn [trees put_tree put_job]. rewrite S3. rewrite upd_notin by assumption.
  clear - Ht2. revert Ht2. generalize (j_tree x) as i. generalize (trees w2) as l.
  induction l as [|y l IH]; intros [|i] E; cbn in *; try discriminate.
  - injection E as ->. now destruct t2.
  - now rewrite IH.
Qed.

(** ** a branch: it and everything below it is removed *)
Lemma remove_plain D h t p :
  wf_tr t -> plain_all D (entries t) -> D (hdelim h) -> hmode h <> ModeUp -> 0 < rf ->
  exists t', Remove rf h t p =
      Ok (t', match target (hdelim h) t (runes (full h p)) with Some _ => true | None => false end) /\
    forall k, t_get t' k =
      match target (hdelim h) t (runes (full h p)) with
      | Some f => if has_prefix f k then None else t_get t k
      | None => t_get t k
      end.
Proof.
  intros WT PA Hd Hm Hrf. destruct rf as [|f]; [lia|].
  destruct (step_refines f D h t (entries t) (ORemove p) Hd WT (abs_entries t) PA) as (t' & E & _ & A).
  exists t'. cbn [t_step s_step view_of v_delim v_pfx v_up fst snd] in *.
  rewrite (not_up _ Hm), s_search_noup in *. set (w := runes (full h p)) in *.
  assert (F : match s_hit (s_probe (hdelim h) (entries t) w) with
              | Some (c :: k) => Some (c :: k) | _ => None end = target (hdelim h) t w).
  { unfold s_probe, s_find, target. destruct w as [|c w0]; cbn [is_nil]; auto.
    rewrite !smem_get. destruct (t_get t (c :: w0)); [reflexivity|].
    destruct (t_get t ((c :: w0) ++ [hdelim h])); [reflexivity|].
    destruct (shortest _); [reflexivity|]. destruct (filter _ _); reflexivity. }
  unfold s_remove in *. rewrite <- F.
  destruct (Remove (S f) h t p) as [[t1 b]| |]; cbn [bind] in E; try (destruct (s_hit _) as [[|? ?]|]; discriminate).
  destruct (s_hit (s_probe (hdelim h) (entries t) w)) as [[|c k]|]; cbn [fst snd] in *; inversion E; subst;
    split; auto; intros x; rewrite (abs_get _ _ _ A); auto.
  rewrite (filter_sget (fun k' => negb (has_prefix (c :: k) k'))). now destruct (has_prefix (c :: k) x).
Qed.

Lemma branch_rings D w j x t n k g th w' :
  winv w -> nth_error (jobs w) j = Some x ->
  nth_error (trees w) (j_tree x) = Some t -> In (k, n) (ents [] (root t)) -> nid n = j_id x ->
  isBranch n = true -> runes (npathS n) = k -> k <> [] ->
  nth_error (mgrs w) (j_mgr x) = Some g -> nth_error (tries w) (mg_trie g) = Some th ->
  th_tree th = j_tree x -> hprefix (th_h th) = [] -> hmode (th_h th) <> ModeUp ->
  plain_all D (entries t) -> D (hdelim (th_h th)) -> 0 < rf ->
  wstep rf clone w (CRun j) = Some (Ok w') ->
  exists t', nth_error (trees w') (j_tree x) = Some t' /\
    (forall k', t_get t' k' = if has_prefix k k' then None else t_get t k') /\
    forall ti, ti <> j_tree x -> nth_error (trees w') ti = nth_error (trees w) ti.
Proof.
  intros I Hx Ht Hn Ei Hb Hk Hne Hg Hth Etr Hpre Hm PA Hd Hrf E.
  pose proof (wtree _ _ _ I Ht) as WT.
  destruct (Forall_nth _ _ _ _ (wi_jobs _ I) Hx) as (t0 & Ht0 & _ & V).
  assert (t0 = t) by congruence. subst t0.
  assert (F : find_id (j_id x) t = Some n) by (rewrite <- Ei; eapply find_id_in; eauto).
  destruct (V n F) as [Vb Vk]. cbn [wstep] in E. rewrite Hx in E. destruct (j_stat x); try discriminate. injection E as E.
  unfold ring in E. rewrite Vb, Hb in E. cbn [mgrs tries trees put_job] in E. rewrite Hg, Hth, Etr, Ht in E.
  destruct (remove_plain D (th_h th) t (j_key x) WT PA Hd Hm Hrf) as (t' & Er & G).
  rewrite Er in E. cbn [bind] in E. injection E as <-.
  cbn [trees put_tree put_job]. exists t'. rewrite (nth_set_same _ _ _ _ Ht). split; auto. split.
  2:{ intros ti N. now rewrite nth_set_other. }
  assert (EF : runes (full (th_h th) (j_key x)) = k).
  { unfold full. rewrite Hpre. cbn [is_nil]. now rewrite Vk. }
  rewrite EF in G. intros k'. rewrite (G k'). unfold target.
  destruct k as [|c k0]; [easy|].
  assert (G0 : t_get t (c :: k0) <> None).
  { apply get_keys. apply in_map_iff. exists (c :: k0, info_of n). split; auto. apply in_ients. eauto. }
  now destruct (t_get t (c :: k0)).
Qed.

(** From SetTTL on a branch to the expiry: the manager's first trie [th2] must still be a handle on
    the same tree without prefix, and the branch must have kept the spelling of its path. *)
Theorem ttl_branch D w i th t path cb w1 k a cs w2 x2 t2 n2 g th2 w3 :
  winv w -> nth_error (tries w) i = Some th -> nth_error (trees w) (th_tree th) = Some t ->
  plain_all D (entries t) -> D (hdelim (th_h th)) -> 0 < rf ->
  s_search (hdelim (th_h th)) (is_up (th_h th)) (entries t) (full (th_h th) path) = SFound k ->
  t_get t k = Some a -> a_leaf a = false -> k <> [] ->
  wstep rf clone w (CSetTTL i path false cb) = Some (Ok w1) ->
  calm (th_tree th) k cs w1 -> wrun rf clone cs w1 = Ok w2 ->
  nth_error (jobs w2) (length (jobs w)) = Some x2 ->
  nth_error (trees w2) (th_tree th) = Some t2 -> plain_all D (entries t2) ->
  In (k, n2) (ents [] (root t2)) -> runes (npathS n2) = k ->
  nth_error (mgrs w2) (j_mgr x2) = Some g -> nth_error (tries w2) (mg_trie g) = Some th2 ->
  th_tree th2 = th_tree th -> hprefix (th_h th2) = [] -> hmode (th_h th2) <> ModeUp -> D (hdelim (th_h th2)) ->
  wstep rf clone w2 (CRun (length (jobs w))) = Some (Ok w3) ->
  exists t3, nth_error (trees w3) (th_tree th) = Some t3 /\
    (forall k', t_get t3 k' = if has_prefix k k' then None else t_get t2 k') /\
    forall ti, ti <> th_tree th -> nth_error (trees w3) ti = nth_error (trees w2) ti.
Proof.
  intros I Hth Ht PA Hd Hrf SS G L Hne E1 C E2 Hx2 Ht2 PA2 Hn2 Hk2 Hg Hth2 Etr Hpre Hm Hd2 E3.
  pose proof (wtree _ _ _ I Ht) as WT.
  destruct (search_spec (hdelim (th_h th)) t (entries t) WT (abs_entries t)) with (rf := pred rf) (h := th_h th) (w := full (th_h th) path)
    as (r & Er & SO & _); auto.
  { apply (plain_tree_map (hdelim (th_h th)) t (entries t) WT (abs_entries t)). now apply PA. }
  replace (S (pred rf)) with rf in Er by lia.
  rewrite SS in SO. destruct SO as (n & Hn & Hp & Hs & _).
  destruct (arm_node w i th t path cb w1 k n r I Hth Ht Er Hs Hp Hn E1) as (I1 & T1 & x & Hx & X1 & X2 & _ & _ & NA).
  assert (isLeaf n = false) as Hl.
  { pose proof (abs_ents (root t) (entries t) (proj1 (proj2 (proj1 WT))) (abs_entries t) _ _ Hn) as GG. unfold t_get in G.
    rewrite G in GG. injection GG as ->. cbn in L. now rewrite isLeaf_bit. }
  rewrite Hl in NA. destruct (calm_node _ _ _ _ _ _ _ I1 NA C E2) as [I2 (t' & i2 & Ht' & Hi2 & Ei2 & El2)].
  destruct (wrun_job _ _ _ _ _ E2 Hx) as (y & Hy & (_ & S2 & S3 & _) & _).
  assert (y = x2) by congruence. subst y. assert (t' = t2) by congruence. subst t'.
  apply in_ients in Hi2. destruct Hi2 as (m & Hm2 & <-). cbn in Ei2, El2.
  pose proof (proj1 (proj2 (proj1 (wtree _ _ _ I2 Ht2)))) as W2.
  assert (m = n2) by exact (ents_fun _ _ _ _ _ W2 Hm2 Hn2). subst m.
  assert (ET : j_tree x2 = th_tree th) by congruence.
  destruct (branch_rings D w2 _ x2 t2 n2 k g th2 w3 I2 Hx2) as (t3 & H1 & H2 & H3); auto; try congruence.
  - rewrite isBranch_bit, El2. reflexivity.
  - rewrite ET in *. exists t3. auto.
Qed.

(** ** Close *)
Definition done (w : world) (m : nat) : Prop := exists g, nth_error (mgrs w) m = Some g /\ mg_done g = true.
Lemma wstep_mgrs w c w' m g :
  wstep rf clone w c = Some (Ok w') -> nth_error (mgrs w) m = Some g ->
  exists g', nth_error (mgrs w') m = Some g' /\ (mg_done g = true -> mg_done g' = true).
Proof.
  intros E Hg.
  assert (SAME : forall w1, mgrs w1 = mgrs w -> exists g', nth_error (mgrs w1) m = Some g' /\ (mg_done g = true -> mg_done g' = true))
    by (intros w1 X; exists g; rewrite X; auto).
  assert (APP : forall w1 l, mgrs w1 = mgrs w ++ l -> exists g', nth_error (mgrs w1) m = Some g' /\ (mg_done g = true -> mg_done g' = true)).
  { intros w1 l X. exists g. rewrite X, nth_error_app1 by (apply nth_error_Some; congruence). auto. }
  assert (ENS : forall i th o w1, ensure i th w = (o, w1) -> mgrs w1 = mgrs w \/ exists l, mgrs w1 = mgrs w ++ l).
  { intros i th o w1. unfold ensure. destruct (th_present th); intros X; injection X as _ <-; cbn; eauto. }
  assert (ADD : forall m ti n s cb w1 w2, add_job m ti n s cb w1 = Some w2 -> mgrs w2 = mgrs w1).
  { intros m0 ti n s cb w1 w2. unfold add_job. destruct (nth_error (mgrs w1) m0) as [g0|]; [|discriminate].
    destruct (mg_done g0); [discriminate|]. destruct s; intros X; injection X as <-; auto. }
  destruct c; cbn [wstep] in E.
  - destruct (nth_error (tries w) i) as [th|]; [|discriminate].
    destruct (nth_error (trees w) (th_tree th)) as [t|]; [|discriminate].
    destruct (t_step rf (th_h th) t o) as [[t' r]| |]; try discriminate. cbn [bind] in E. injection E as <-. now apply SAME.
  - destruct (nth_error (tries w) i) as [th|]; [|discriminate].
    destruct (nth_error (trees w) (th_tree th)) as [t|]; [|discriminate].
    destruct (search rf (th_h th) t (full (th_h th) path)) as [r| |]; try discriminate.
    destruct (s_node r) as [n|]; [|injection E as <-; auto].
    destruct (s_partial r); [injection E as <-; auto|].
    destruct (ensure i th w) as [[m0|] w1] eqn:Ee; [|discriminate].
    destruct (add_job m0 (th_tree th) n short cb w1) as [w2|] eqn:Ea; [|discriminate]. injection E as <-.
    apply ADD in Ea. destruct (ENS _ _ _ _ Ee) as [X|[l X]]; rewrite X in Ea; eauto.
  - destruct (nth_error (tries w) i) as [th|]; [|discriminate].
    destruct (nth_error (trees w) ti) as [t|]; [|discriminate].
    destruct (find_id id t) as [n|]; [|discriminate].
    destruct (ensure i th w) as [[m0|] w1] eqn:Ee; [|discriminate].
    destruct (add_job m0 ti n short cb w1) as [w2|] eqn:Ea; [|discriminate]. injection E as <-.
    apply ADD in Ea. destruct (ENS _ _ _ _ Ee) as [X|[l X]]; rewrite X in Ea; eauto.
  - destruct (nth_error (tries w) i) as [th|]; [|discriminate]. injection E as <-. unfold dup_trie.
    destruct (th_present th); [|now apply SAME]. destruct (th_ttl th); [|now apply SAME].
    destruct (nth_error (mgrs w) n); [|now apply SAME]. eapply APP. reflexivity.
  - destruct (nth_error (tries w) i) as [th|]; [|discriminate]. injection E as <-. now apply SAME.
  - destruct (nth_error (tries w) i) as [th|]; [|discriminate].
    destruct (nth_error (trees w) (th_tree th)) as [t|]; [|discriminate]. injection E as <-. unfold dup_trie. cbn [mgrs].
    destruct (th_present th); [|now apply SAME]. destruct (th_ttl th); [|now apply SAME].
    destruct (nth_error (mgrs w) n); [|now apply SAME]. eapply APP. reflexivity.
  - destruct (nth_error (tries w) i) as [th|]; [|discriminate].
    destruct (th_present th); [|injection E as <-; auto]. destruct (th_ttl th) as [m0|]; [|injection E as <-; auto].
    destruct (nth_error (mgrs w) m0) as [g0|] eqn:Hg0; [|discriminate]. injection E as <-. cbn [mgrs].
    destruct (Nat.eq_dec m m0) as [->|N].
    + rewrite (nth_set_same _ _ _ _ Hg0). eauto.
    + rewrite nth_set_other by assumption. eauto.
  - destruct (nth_error (tries w) i) as [th|]; [|discriminate]. injection E as <-. now apply SAME.
  - destruct (nth_error (jobs w) j) as [y|] eqn:Hy; [|discriminate]. destruct (j_elapsed y); [discriminate|].
    injection E as <-. now apply SAME.
  - destruct (nth_error (jobs w) j) as [y|] eqn:Hy; [|discriminate]. destruct (j_stat y) eqn:Es; try discriminate.
    destruct (nth_error (mgrs w) (j_mgr y)) as [g0|]; [|discriminate]. injection E as <-. now apply SAME.
  - destruct (nth_error (jobs w) j) as [y|] eqn:Hy; [|discriminate]. destruct (j_stat y) eqn:Es; try discriminate.
    injection E as E. destruct (ring_jobs _ _ _ _ E) as (M & _). apply SAME. exact M.
Qed.

(** after cancellation a manager gets no more jobs *)
Lemma wstep_old_jobs w c w' m j x :
  wstep rf clone w c = Some (Ok w') -> done w m -> nth_error (jobs w') j = Some x -> j_mgr x = m ->
  exists y, nth_error (jobs w) j = Some y /\ j_mgr y = m.
Proof.
  intros E (g & Hg & Hdone) Hx Hm.
  destruct (nth_error (jobs w) j) as [y|] eqn:Hy.
  { destruct (wstep_job _ _ _ _ _ _ _ E Hy) as (x' & Hx' & (S1 & _) & _). exists y. split; auto. congruence. }
  exfalso. apply nth_error_None in Hy.
  assert (LEN : forall w1, length (jobs w1) = length (jobs w) -> nth_error (jobs w1) j = Some x -> False).
  { intros w1 X Y. assert (j < length (jobs w1)) by (apply nth_error_Some; congruence). lia. }
  assert (SL : forall {A} i (z : A) l, length (set_nth i z l) = length l).
  { intros A i z l. revert i. induction l; intros [|i]; cbn; auto. }
  assert (ENS : forall i th m0 w1, ensure i th w = (Some m0, w1) -> m0 <> m \/ mgrs w1 = mgrs w).
  { intros i th m0 w1. unfold ensure. destruct (th_present th); intros X; injection X as X <-; auto.
    left. intros ->. assert (m < length (mgrs w)) by (apply nth_error_Some; congruence). lia. }
  assert (ADD : forall i th m0 ti n s cb w1 w2, ensure i th w = (Some m0, w1) -> add_job m0 ti n s cb w1 = Some w2 ->
            nth_error (jobs w2) j = Some x -> False).
  { intros i th m0 ti n s cb w1 w2 Ee Ea Hj. destruct (ensure_trees _ _ _ _ _ Ee) as [_ J1].
    pose proof (add_trees _ _ _ _ _ _ _ Ea) as [_ [J2|J2]].
    - apply (LEN w2); auto. congruence.
    - rewrite J2, J1 in Hj. rewrite nth_error_app2 in Hj by assumption.
      destruct (j - length (jobs w)) as [|d]; [|destruct d; discriminate]. cbn in Hj. injection Hj as <-.
      cbn in Hm. subst m0. destruct (ENS _ _ _ _ Ee) as [X|X]; [auto|].
      unfold add_job in Ea. rewrite X, Hg, Hdone in Ea. discriminate. }
  destruct c; cbn [wstep] in E.
  - destruct (nth_error (tries w) i) as [th|]; [|discriminate].
    destruct (nth_error (trees w) (th_tree th)) as [t|]; [|discriminate].
    destruct (t_step rf (th_h th) t o) as [[t' r]| |]; try discriminate. cbn [bind] in E. injection E as <-.
    refine (LEN _ _ Hx); apply map_length.
  - destruct (nth_error (tries w) i) as [th|]; [|discriminate].
    destruct (nth_error (trees w) (th_tree th)) as [t|]; [|discriminate].
    destruct (search rf (th_h th) t (full (th_h th) path)) as [r| |]; try discriminate.
    destruct (s_node r) as [n|]; [|injection E as <-; eauto].
    destruct (s_partial r); [injection E as <-; eauto|].
    destruct (ensure i th w) as [[m0|] w1] eqn:Ee; [|discriminate].
    destruct (add_job m0 (th_tree th) n short cb w1) as [w2|] eqn:Ea; [|discriminate]. injection E as <-. eauto.
  - destruct (nth_error (tries w) i) as [th|]; [|discriminate].
    destruct (nth_error (trees w) ti) as [t|]; [|discriminate].
    destruct (find_id id t) as [n|]; [|discriminate].
    destruct (ensure i th w) as [[m0|] w1] eqn:Ee; [|discriminate].
    destruct (add_job m0 ti n short cb w1) as [w2|] eqn:Ea; [|discriminate]. injection E as <-. eauto.
  - destruct (nth_error (tries w) i) as [th|]; [|discriminate]. injection E as <-.
    refine (LEN _ _ Hx); f_equal; exact (proj2 (dup_trees _ _ _ _)).
  - destruct (nth_error (tries w) i) as [th|]; [|discriminate]. injection E as <-. apply (LEN _ eq_refl Hx).
  - destruct (nth_error (tries w) i) as [th|]; [|discriminate].
    destruct (nth_error (trees w) (th_tree th)) as [t|]; [|discriminate]. injection E as <-.
    refine (LEN _ _ Hx); f_equal; exact (proj2 (dup_trees _ _ _ _)).
  - destruct (nth_error (tries w) i) as [th|]; [|discriminate].
    destruct (th_present th); [|injection E as <-; eauto]. destruct (th_ttl th) as [m0|]; [|injection E as <-; eauto].
    destruct (nth_error (mgrs w) m0) as [g0|] eqn:Hg0; [|discriminate]. injection E as <-.
    refine (LEN _ _ Hx); apply map_length.
  - destruct (nth_error (tries w) i) as [th|]; [|discriminate]. injection E as <-. apply (LEN _ eq_refl Hx).
  - destruct (nth_error (jobs w) j0) as [y|] eqn:Hy0; [|discriminate]. destruct (j_elapsed y); [discriminate|].
    injection E as <-. refine (LEN _ _ Hx); apply SL.
  - destruct (nth_error (jobs w) j0) as [y|] eqn:Hy0; [|discriminate]. destruct (j_stat y) eqn:Es; try discriminate.
    destruct (nth_error (mgrs w) (j_mgr y)) as [g0|]; [|discriminate]. injection E as <-. refine (LEN _ _ Hx); apply SL.
  - destruct (nth_error (jobs w) j0) as [y|] eqn:Hy0; [|discriminate]. destruct (j_stat y) eqn:Es; try discriminate.
    injection E as E. unfold ring in E. cbn [mgrs tries trees put_job] in E.
    assert (PL : forall ti t (v : world), length (jobs (put_tree ti t v)) = length (jobs v)) by (intros; apply map_length).
    destruct (j_branch y).
    + destruct (nth_error (mgrs w) (j_mgr y)) as [g1|]; [|injection E as <-; refine (LEN _ _ Hx); apply SL].
      destruct (nth_error (tries w) (mg_trie g1)) as [th|]; [|injection E as <-; refine (LEN _ _ Hx); apply SL].
      destruct (nth_error (trees w) (th_tree th)) as [t|]; [|injection E as <-; refine (LEN _ _ Hx); apply SL].
      destruct (Remove rf (th_h th) t (j_key y)) as [[t' b]| |]; try discriminate. injection E as <-.
      refine (LEN _ _ Hx); rewrite PL; apply SL.
    + destruct (nth_error (trees w) (j_tree y)) as [t|]; injection E as <-.
      * refine (LEN _ _ Hx); rewrite PL; apply SL.
      * refine (LEN _ _ Hx); apply SL.
Qed.

Lemma wrun_old_jobs m : forall cs w w' j x,
  wrun rf clone cs w = Ok w' -> done w m -> nth_error (jobs w') j = Some x -> j_mgr x = m ->
  exists y, nth_error (jobs w) j = Some y /\ j_mgr y = m.
Proof.
  induction cs as [|c cs IH]; intros w w' j x E D Hx Hm; cbn [wrun] in E.
  - injection E as <-. eauto.
  - destruct (wstep rf clone w c) as [[w1| |]|] eqn:Es; cbn [bind] in E; try discriminate.
    + assert (D1 : done w1 m).
      { destruct D as (g & Hg & Hd). destruct (wstep_mgrs _ _ _ _ _ Es Hg) as (g' & Hg' & X). exists g'. auto. }
      destruct (IH _ _ _ _ E D1 Hx Hm) as (y & Hy & Ey). eapply wstep_old_jobs; eauto.
    + eapply IH; eauto.
Qed.

(** After trieS.Close, whatever happens next, the only jobs of the closed manager that may still
    act are those that were not waiting for their timer when Close was called: their goroutine had
    not reached the select yet, or had already received from the timer. *)
Theorem ttl_close w i th m w1 cs w2 j x2 :
  nth_error (tries w) i = Some th -> th_present th = true -> th_ttl th = Some m ->
  wstep rf clone w (CClose i) = Some (Ok w1) -> wrun rf clone cs w1 = Ok w2 ->
  nth_error (jobs w2) j = Some x2 -> j_mgr x2 = m ->
  exists x, nth_error (jobs w) j = Some x /\ j_mgr x = m /\
    (j_stat x = JWait -> j_stat x2 = JOver /\ wstep rf clone w2 (CRun j) = None).
Proof.
  intros Hth Hp Hm E1 E2 Hx2 Em.
  pose proof E1 as E. cbn [wstep] in E. rewrite Hth, Hp, Hm in E.
  destruct (nth_error (mgrs w) m) as [g|] eqn:Hg; [|discriminate]. injection E as <-.
  assert (D1 : done (World (trees w) (set_nth i (TH (th_tree th) (th_h th) false (Some m)) (tries w))
        (set_nth m (Mgr (mg_trie g) true) (mgrs w))
        (map (fun j => match j_stat j with JWait => if j_mgr j =? m then with_stat j (j_elapsed j) JOver else j | _ => j end) (jobs w))) m).
  { exists (Mgr (mg_trie g) true). cbn. rewrite (nth_set_same _ _ _ _ Hg). auto. }
  destruct (wrun_old_jobs m _ _ _ _ _ E2 D1 Hx2 Em) as (y & Hy & Ey).
  pose proof Hy as Hy'. cbn [jobs] in Hy. rewrite nth_error_map in Hy.
  destruct (nth_error (jobs w) j) as [x|] eqn:Hx; [|discriminate]. cbn in Hy. injection Hy as Hy.
  assert (Mx : j_mgr x = m).
  { subst y. destruct (j_stat x); auto. destruct (j_mgr x =? m); auto. }
  exists x. split; auto. split; auto. intros Sx. rewrite Sx, Mx, Nat.eqb_refl in Hy. subst y.
  destruct (wrun_job _ _ _ _ _ E2 Hy') as (x2' & Hx2' & _ & R). cbn in R.
  assert (x2' = x2) by congruence. subst x2'.
  assert (S2 : j_stat x2 = JOver) by (destruct (j_stat x2); cbn in R; auto; lia).
  split; auto. cbn [wstep]. now rewrite Hx2, S2.
Qed.

Lemma wrun_done m : forall cs w w', wrun rf clone cs w = Ok w' -> done w m -> done w' m.
Proof.
  induction cs as [|c cs IH]; intros w w' E D; cbn [wrun] in E.
  - now injection E as <-.
  - destruct (wstep rf clone w c) as [[w1| |]|] eqn:Es; cbn [bind] in E; try discriminate; [|eauto].
    apply (IH _ _ E). destruct D as (g & Hg & Hd). destruct (wstep_mgrs _ _ _ _ _ Es Hg) as (g' & Hg' & X). exists g'. auto.
Qed.
(** A goroutine that reaches the select after Close and before its timer has rung returns: the job never acts. *)
Theorem ttl_late w i th m w1 cs w2 j x2 timer w3 cs' w4 :
  nth_error (tries w) i = Some th -> th_present th = true -> th_ttl th = Some m ->
  wstep rf clone w (CClose i) = Some (Ok w1) -> wrun rf clone cs w1 = Ok w2 ->
  nth_error (jobs w2) j = Some x2 -> j_mgr x2 = m -> j_elapsed x2 = false ->
  wstep rf clone w2 (CEnter j timer) = Some (Ok w3) -> wrun rf clone cs' w3 = Ok w4 ->
  wstep rf clone w4 (CRun j) = None.
Proof.
  intros Hth Hp Hm E1 E2 Hx Em El E3 E4.
  cbn [wstep] in E1. rewrite Hth, Hp, Hm in E1.
  destruct (nth_error (mgrs w) m) as [g|] eqn:Hg; [|discriminate]. injection E1 as <-.
  assert (D2 : done w2 m).
  { apply (wrun_done _ _ _ _ E2). exists (Mgr (mg_trie g) true). cbn. rewrite (nth_set_same _ _ _ _ Hg). auto. }
  destruct D2 as (g2 & Hg2 & Dn). cbn [wstep] in E3. rewrite Hx, Em, Hg2 in E3.
  destruct (j_stat x2); try discriminate. rewrite El, Dn in E3. injection E3 as <-.
  destruct (wrun_job _ _ _ _ _ E4 (nth_set_same _ _ _ _ Hx)) as (z & Hz & _ & R). cbn in R.
  cbn [wstep]. rewrite Hz. destruct (j_stat z); cbn in R; auto; lia.
Qed.

(** each job acts at most once: after the timer case has run, it never runs again *)
Theorem ttl_once w j w1 cs w2 :
  wstep rf clone w (CRun j) = Some (Ok w1) -> wrun rf clone cs w1 = Ok w2 -> wstep rf clone w2 (CRun j) = None.
Proof.
  intros E1 E2. pose proof E1 as E. cbn [wstep] in E.
  destruct (nth_error (jobs w) j) as [x|] eqn:Hx; [|discriminate].
  destruct (j_stat x) eqn:Es; try discriminate. injection E as E.
  destruct (ring_jobs _ _ _ _ E) as (_ & _ & J). cbn [jobs put_job] in J.
  destruct (J j _ (nth_set_same _ _ _ _ Hx)) as (y & Hy & _ & S). cbn in S.
  destruct (wrun_job _ _ _ _ _ E2 Hy) as (z & Hz & _ & R). rewrite S in R.
  cbn [wstep]. rewrite Hz. destruct (j_stat z); cbn in R; auto; lia.
Qed.
End Run.
Lemma winv0 h : winv (world0 h).
Proof. split; cbn; constructor; [exact newTrie_wf|constructor]. Qed.
Theorem wrun_inv rf clone : forall cs w w', winv w -> wrun rf clone cs w = Ok w' -> winv w'.
Proof.
  induction cs as [|c cs IH]; intros w w' I E; cbn [wrun] in E.
  - now injection E as <-.
  - destruct (wstep rf clone w c) as [[w1| |]|] eqn:Es; cbn [bind] in E; try discriminate.
    + apply (IH w1); auto. exact (proj1 (wstep_ok _ _ _ _ _ I Es)).
    + eapply IH; eauto.
Qed.

(** the trees change only by calls and by expiries; everything else leaves them alone *)
Theorem ttl_quiet rf clone w c w' :
  wstep rf clone w c = Some (Ok w') ->
  (forall i o, c <> COp i o) -> (forall j, c <> CRun j) ->
  forall ti t, nth_error (trees w) ti = Some t -> nth_error (trees w') ti = Some t.
Proof.
  intros E N1 N2 ti t Ht.
  destruct c; cbn [wstep] in E; try (exfalso; eapply N1; reflexivity); try (exfalso; eapply N2; reflexivity).
  - destruct (nth_error (tries w) i) as [th|]; [|discriminate].
    destruct (nth_error (trees w) (th_tree th)) as [t0|]; [|discriminate].
    destruct (search rf (th_h th) t0 (full (th_h th) path)) as [r| |]; try discriminate.
    destruct (s_node r) as [n|]; [|injection E as <-; auto].
    destruct (s_partial r); [injection E as <-; auto|].
    destruct (ensure i th w) as [[m|] w1] eqn:Ee; [|discriminate].
    destruct (ensure_trees _ _ _ _ _ Ee) as [T1 _].
    destruct (add_job m (th_tree th) n short cb w1) as [w2|] eqn:Ea; [|discriminate]. injection E as <-.
    destruct (add_trees _ _ _ _ _ _ _ Ea) as [T2 _]. congruence.
  - destruct (nth_error (tries w) i) as [th|]; [|discriminate].
    destruct (nth_error (trees w) ti0) as [t0|]; [|discriminate].
    destruct (find_id id t0) as [n|]; [|discriminate].
    destruct (ensure i th w) as [[m|] w1] eqn:Ee; [|discriminate].
    destruct (ensure_trees _ _ _ _ _ Ee) as [T1 _].
    destruct (add_job m ti0 n short cb w1) as [w2|] eqn:Ea; [|discriminate]. injection E as <-.
    destruct (add_trees _ _ _ _ _ _ _ Ea) as [T2 _]. congruence.
  - destruct (nth_error (tries w) i) as [th|]; [|discriminate]. injection E as <-.
    rewrite (proj1 (dup_trees _ _ _ _)). auto.
  - destruct (nth_error (tries w) i) as [th|]; [|discriminate]. now injection E as <-.
  - destruct (nth_error (tries w) i) as [th|]; [|discriminate].
    destruct (nth_error (trees w) (th_tree th)) as [t0|]; [|discriminate]. injection E as <-.
    rewrite (proj1 (dup_trees _ _ _ _)). cbn [trees]. rewrite nth_error_app1; auto. apply nth_error_Some. congruence.
  - destruct (nth_error (tries w) i) as [th|]; [|discriminate].
    destruct (th_present th); [|injection E as <-; auto]. destruct (th_ttl th) as [m|]; [|injection E as <-; auto].
    destruct (nth_error (mgrs w) m) as [g|]; [|discriminate]. now injection E as <-.
  - destruct (nth_error (tries w) i) as [th|]; [|discriminate]. now injection E as <-.
  - destruct (nth_error (jobs w) j) as [y|]; [|discriminate]. destruct (j_elapsed y); [discriminate|].
    now injection E as <-.
  - destruct (nth_error (jobs w) j) as [y|]; [|discriminate]. destruct (j_stat y); try discriminate.
    destruct (nth_error (mgrs w) (j_mgr y)) as [g|]; [|discriminate]. now injection E as <-.
Qed.
