(** What one call does to the list of entries; invariants that follow. *)
From Coq Require Import List NArith Bool Arith Lia Permutation.
From Verif Require Import GoStr Utf8 Node NodeWf InsertProofs MatchProofs Trie TreeOps Spec Refine ApiRefine Reach.
Import ListNotations.
Open Scope nat_scope.

(** changes neither key string, identity nor leaf flag *)
Definition keyfun (fi : info -> info) : Prop :=
  forall j, i_key (fi j) = i_key j /\ i_id (fi j) = i_id j /\
            t_leaf (i_type (fi j)) = t_leaf (i_type j).

Inductive eff : option gostring -> list (key_t * info) -> list (key_t * info) -> Prop :=
| eff_same l : eff None l l
| eff_ins p v nx nx' id old fi l l' :
    ins_rel (runes p) v p nx l l' nx' id old -> keyfun fi ->
    eff (Some p) l (map (upd_ent id fi) l')
| eff_upd id fi l : keyfun fi -> eff None l (map (upd_ent id fi) l)
| eff_rem k l : k <> [] -> eff None l (without k l).

Lemma upd_ent_id id l : map (upd_ent id (fun i => i)) l = l.
Proof.
  induction l as [|[k i] l IH]; cbn; auto. rewrite IH. unfold upd_ent. cbn.
  now destruct (i_id i =? id).
Qed.

Lemma nodeop_leaf o a : a_leaf (s_nodeop o a) = a_leaf a.
Proof. now destruct o. Qed.
Lemma nodeops_leaf os a : a_leaf (fold_left (fun a o => s_nodeop o a) os a) = a_leaf a.
Proof. revert a. induction os as [|o os IH]; intros a; cbn; auto. now rewrite IH, nodeop_leaf. Qed.
Lemma descs_leaf dc a : a_leaf (s_descs dc a) = a_leaf a.
Proof. destruct dc as [|x [|y dc]]; auto. Qed.

Lemma refl_keyfun f fa :
  refl_fun f fa -> (forall a, a_leaf (fa a) = a_leaf a) ->
  exists fi, attr_fun f fi /\ keyfun fi.
Proof.
  intros (fi & F1 & F2 & F3 & F4) L. exists fi. split; auto. intros j. repeat split; auto.
  specialize (F3 j). apply (f_equal a_leaf) in F3. rewrite L in F3. exact F3.
Qed.

Theorem step_eff rf h t o t' r :
  wf_tr t -> t_step rf h t o = Ok (t', r) -> eff (stored h o) (ients [] (root t)) (ients [] (root t')).
Proof.
  intros WT. pose proof (abs_entries t) as A.
  assert (INS : forall p v fi nx nx' id old l l', ins_rel (runes p) v p nx l l' nx' id old ->
            keyfun fi -> eff (Some p) l (map (upd_ent id fi) l')) by (intros; econstructor; eauto).
  destruct o; cbn [t_step stored].
  - unfold Set_. destruct (insert_root_refines t _ (replace_byte 32 45 (full h path)) v WT A)
      as (t1 & ir & -> & _ & _ & _ & _ & R & _). cbn [bind]. intros E. inversion E; subst.
    rewrite <- (upd_ent_id (ir_id ir) (ients [] (root t'))). eapply eff_ins; eauto. now intros j.
  - unfold SetEx. destruct (insert_root_refines t _ (full h path) v WT A)
      as (t1 & ir & -> & _ & _ & _ & _ & R & _). cbn [bind]. intros E. inversion E; subst.
    rewrite <- (upd_ent_id (ir_id ir) (ients [] (root t'))). eapply eff_ins; eauto. now intros j.
  - unfold SetNode. destruct (insert_root_refines t _ (full h path) v WT A)
      as (t1 & ir & -> & _ & _ & _ & _ & R & _). cbn [bind]. intros E. inversion E; subst.
    destruct (refl_keyfun _ _ (refl_descs dc) (descs_leaf dc)) as (fi & F & K).
    cbn [root]. rewrite (upd_ients _ _ fi) by assumption. eapply eff_ins; eauto.
  - unfold SetEmpty. destruct (insert_root_refines t _ (full h path) GNil WT A)
      as (t1 & ir & -> & _ & _ & _ & _ & R & _). cbn [bind]. intros E. inversion E; subst.
    destruct (refl_keyfun _ _ (refl_nodeop NSetEmpty) (nodeop_leaf _)) as (fi & F & K).
    cbn [root]. change setEmpty with (n_nodeop NSetEmpty).
    rewrite (upd_ients _ _ fi) by assumption. eapply eff_ins; eauto.
  - unfold Update. destruct (insert_root_refines t _ (full h path) GNil WT A)
      as (t1 & ir & -> & _ & _ & _ & _ & R & _). cbn [bind]. intros E. inversion E; subst.
    destruct (refl_keyfun _ _ (refl_nodeops (f (ir_old ir))) (nodeops_leaf _)) as (fi & F & K).
    cbn [root]. rewrite (upd_ients _ _ fi) by assumption. eapply eff_ins; eauto.
  - unfold Set_. destruct (insert_root_refines t _ (replace_byte 32 45 (full h path)) v WT A)
      as (t1 & ir & -> & _ & _ & _ & _ & R & _). cbn [bind]. intros E. inversion E; subst.
    destruct (refl_keyfun _ _ (refl_nodeops (f (ir_old ir))) (nodeops_leaf _)) as (fi & F & K).
    cbn [root]. rewrite (upd_ients _ _ fi) by assumption. eapply eff_ins; eauto.
  - unfold SetComment. destruct (search rf h t (full h path)) as [sr| |] eqn:Es; try discriminate.
    cbn [bind]. destruct (s_node sr) as [n|] eqn:En; cbn [bind]; intros E; inversion E; subst; [|constructor].
    destruct (refl_keyfun _ _ (refl_nodeop (NSetComment desc cmt)) (nodeop_leaf _)) as (fi & F & K).
    cbn [root]. change (setComment desc cmt) with (n_nodeop (NSetComment desc cmt)).
    rewrite (upd_ients _ _ fi) by assumption. now apply eff_upd.
  - unfold SetTag. destruct (search rf h t (full h path)) as [sr| |] eqn:Es; try discriminate.
    cbn [bind]. destruct (s_node sr) as [n|] eqn:En; cbn [bind]; intros E; inversion E; subst; [|constructor].
    destruct (refl_keyfun _ _ (refl_nodeop (NSetTag tag)) (nodeop_leaf _)) as (fi & F & K).
    cbn [root]. change (setTag tag) with (n_nodeop (NSetTag tag)).
    rewrite (upd_ients _ _ fi) by assumption. now apply eff_upd.
  - unfold Remove. destruct (RemoveEx rf h t path) as [[[[t1 n] p] b]| |] eqn:Er; try discriminate.
    cbn [bind]. intros E. inversion E; subst. destruct b.
    + destruct (removeEx_in _ _ _ _ _ _ _ WT Er) as (kp & pn & nn & -> & -> & H1 & H2 & ->).
      destruct (remove_refines t _ kp pn nn WT A H1 H2) as (_ & _ & ->). apply eff_rem.
      pose proof (wfn_ents _ _ _ _ (proj1 (proj2 (proj1 WT))) H1) as Wp.
      destruct (wfn_kids _ _ Wp H2) as [Hne _]. intros X. apply app_eq_nil in X. tauto.
    + revert Er. unfold RemoveEx. destruct (search rf h t (full h path)) as [sr| |]; try discriminate.
      cbn [bind]. destruct (s_node sr); [|intros E'; inversion E'; subst; constructor].
      destruct (s_partial sr); [intros E'; inversion E'; subst; constructor|].
      destruct (s_parent sr); [|intros E'; inversion E'; subst; constructor].
      destruct (fst _); intros E'; inversion E'; subst; constructor.
  - destruct (Get rf h t path) as [[v ok]| |]; cbn [bind]; intros E; inversion E; subst; constructor.
  - destruct (MustGet rf h t path) as [v| |]; cbn [bind]; intros E; inversion E; subst; constructor.
  - destruct (Query rf h t path) as [v| |]; cbn [bind]; intros E; inversion E; subst; constructor.
  - destruct (Has rf h t path) as [v| |]; cbn [bind]; intros E; inversion E; subst; constructor.
  - destruct (Search_ rf h t path) as [v| |]; cbn [bind]; intros E; inversion E; subst; constructor.
  - destruct (Locate rf h t path) as [[[[[n br] pt] fd] kv]| |]; cbn [bind]; intros E; inversion E; subst; constructor.
  - destruct (GetEx rf h t path) as [v| |]; cbn [bind]; intros E; inversion E; subst; constructor.
  - destruct (GetDesc rf h t path) as [[v ok]| |]; cbn [bind]; intros E; inversion E; subst; constructor.
  - destruct (GetComment rf h t path) as [[v ok]| |]; cbn [bind]; intros E; inversion E; subst; constructor.
  - destruct (GetTag rf h t path) as [[v ok]| |]; cbn [bind]; intros E; inversion E; subst; constructor.
Qed.

(** an invariant of the entries that every effect preserves holds along every history *)
Lemma run_inv (P : list (key_t * info) -> Prop) (ok : gostring -> Prop) rf :
  (forall p l l', eff p l l' -> match p with Some p => ok p | None => True end -> P l -> P l') ->
  forall hist t t' outs, wf_tr t -> P (ients [] (root t)) ->
    Forall (fun ho => match stored (fst ho) (snd ho) with Some p => ok p | None => True end) hist ->
    t_run rf hist t = Ok (t', outs) -> P (ients [] (root t')).
Proof.
  intros HP. induction hist as [|[h o] hist IH]; intros t t' outs WT H F; cbn [t_run].
  - intros E. inversion E; now subst.
  - inversion F as [|? ? F1 F2]; subst. cbn [fst snd] in F1.
    destruct (t_step rf h t o) as [[t1 r]| |] eqn:E1; try discriminate. cbn [bind].
    destruct (t_run rf hist t1) as [[t2 rs]| |] eqn:E2; try discriminate. cbn [bind].
    intros E. inversion E; subst. apply (IH t1 t' rs); auto.
    + exact (step_wf _ _ _ _ _ _ WT E1).
    + exact (HP _ _ _ (step_eff _ _ _ _ _ _ WT E1) F1 H).
Qed.

(** an invariant of single entries *)
Lemma eff_forall (Q : key_t -> info -> Prop) (ok : gostring -> Prop) :
  (forall k i fi, keyfun fi -> Q k i -> Q k (fi i)) ->
  (forall p id v, ok p -> Q (runes p) (leaf_info id p v)) ->
  (forall k v i, Q k i -> Q k (with_data v i)) ->
  (forall k id i, Q k i -> Q k (with_id id i)) ->
  (forall k0 k i, pprefix k0 k -> Q k i -> Q k0 (cut_info k0 k i)) ->
  forall p l l', eff p l l' -> match p with Some p => ok p | None => True end ->
    (forall k i, In (k, i) l -> Q k i) -> (forall k i, In (k, i) l' -> Q k i).
Proof.
  intros Hf Hl Hd Hi Hc.
  assert (HU : forall id fi l, keyfun fi -> (forall k i, In (k, i) l -> Q k i) ->
             forall k i, In (k, i) (map (upd_ent id fi) l) -> Q k i).
  { intros id fi l K H k i Hin. apply in_map_iff in Hin. destruct Hin as ([k' i'] & E & Hin).
    unfold upd_ent in E. cbn in E. destruct (i_id i' =? id); inversion E; subst; auto. }
  intros p l l' E Ok H. destruct E as [l|p v nx nx' id old fi l l' R K|id fi l K|k0 l Hk].
  - exact H.
  - apply HU; auto. clear HU K.
    destruct R as [l1 i0 l2|l1 l2 Hp|l1 k0 i0 l2 Hp|l1 k0 k1 i0 l2 l3 P1 P2 P3 Hp]; intros k i Hin.
    + apply in_app_or in Hin. destruct Hin as [Hin|[Hin|Hin]].
      * apply H, in_or_app. auto.
      * inversion Hin; subst. apply Hd, H, in_or_app. right. now left.
      * apply H, in_or_app. right. now right.
    + apply in_app_or in Hin. destruct Hin as [Hin|[Hin|Hin]].
      * apply H, in_or_app. auto.
      * inversion Hin; subst. now apply Hl.
      * apply H, in_or_app. auto.
    + assert (Q k0 i0) as Q0 by (apply H, in_or_app; right; now left).
      apply in_app_or in Hin. destruct Hin as [Hin|[Hin|[Hin|Hin]]].
      * apply H, in_or_app. auto.
      * inversion Hin; subst. now apply Hd, Hc.
      * inversion Hin; subst. now apply Hi.
      * apply H, in_or_app. right. now right.
    + assert (Q k1 i0) as Q0 by (apply H, in_or_app; right; now left).
      apply in_app_or in Hin. destruct Hin as [Hin|[Hin|[Hin|Hin]]].
      * apply H, in_or_app. auto.
      * inversion Hin; subst. now apply Hc.
      * inversion Hin; subst. now apply Hi.
      * apply in_app_or in Hin. destruct Hin as [Hin|[Hin|Hin]].
        -- apply H, in_or_app. right. right. apply in_or_app. auto.
        -- inversion Hin; subst. now apply Hl.
        -- apply H, in_or_app. right. right. apply in_or_app. auto.
  - now apply HU.
  - intros k i Hin. apply filter_In in Hin. now apply H.
Qed.

Lemma t_leaf_lor4 x : t_leaf (N.lor x NTData) = t_leaf x.
Proof. unfold t_leaf. rewrite N.lor_spec. cbn. now rewrite orb_false_r. Qed.

(** leaf nodes report their key exactly *)
Definition leaf_key (k : key_t) (i : info) : Prop :=
  t_leaf (i_type i) = true -> runes (i_key i) = k.
Lemma eff_leaf_key p l l' :
  eff p l l' -> (forall k i, In (k, i) l -> leaf_key k i) -> (forall k i, In (k, i) l' -> leaf_key k i).
Proof.
  intros E. apply (eff_forall leaf_key (fun _ => True)) with (p := p) (l := l); auto; unfold leaf_key.
  - intros k i fi K H. destruct (K i) as (-> & _ & ->). exact H.
  - reflexivity.
  - intros k v i H. unfold with_data. cbn [i_type i_key]. rewrite t_leaf_lor4. exact H.
  - intros k0 k i _ _ X. discriminate.
  - destruct p; exact I.
Qed.

(** with ASCII keys only every node reports its key exactly *)
Lemma eff_ascii_key p l l' :
  eff p l l' -> match p with Some p => ascii p = true | None => True end ->
  (forall k i, In (k, i) l -> i_key i = k) -> (forall k i, In (k, i) l' -> i_key i = k).
Proof.
  intros E Ha. apply (eff_forall (fun k i => i_key i = k) (fun p => ascii p = true)) with (p := p) (l := l); auto.
  - intros k i fi K H. now rewrite (proj1 (K i)).
  - intros q id v Hq. cbn. now rewrite ascii_runes.
  - intros k0 k i (c & y & ->) H. cbn. rewrite H, !app_length.
    match goal with |- firstn ?n _ = _ => replace n with (length k0) by lia end.
    rewrite firstn_app, Nat.sub_diag, firstn_all. cbn. now rewrite app_nil_r.
Qed.

(** ** the walk *)
Lemma walk_ents pre n : walk n = map snd (ents pre n).
Proof.
  revert pre. induction n as [n IH] using node_ind'. intros pre. rewrite ents_eq. cbn [map snd].
  destruct n as [a p b ks e f g h i]. cbn [walk nkids npath] in *. f_equal.
  rewrite map_flat_map, !flat_map_concat_map. f_equal. apply map_ext_Forall'.
  eapply Forall_impl; [|exact IH]. cbn. intros c Hc. apply Hc.
Qed.
