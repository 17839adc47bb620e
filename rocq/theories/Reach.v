(** Invariants of all reachable tries, whatever the keys (patterns included). *)
From Coq Require Import List NArith Bool Arith Lia Permutation.
From Verif Require Import GoStr Utf8 Node NodeWf InsertProofs MatchProofs Trie TreeOps Spec Refine ApiRefine.
Import ListNotations.
Open Scope nat_scope.

(** the entries of a trie in walk order: concatenated key pieces and attributes *)
Definition entries (t : tr) : smap := map (fun e => (fst e, attr_of (snd e))) (ients [] (root t)).
(** the attributes of the node whose key pieces concatenate to [k] *)
Definition t_get (t : tr) (k : skey) : option attr := sget (entries t) k.

Lemma entries_lookup l k :
  sget (map (fun e : key_t * info => (fst e, attr_of (snd e))) l) k = option_map attr_of (lookup l k).
Proof. induction l as [|[k' i] l IH]; cbn; auto. destruct (str_eqb k' k); auto. Qed.
Lemma abs_entries t : abs (root t) (entries t).
Proof. intros k. unfold entries. rewrite entries_lookup. reflexivity. Qed.
Lemma abs_get t m k : abs (root t) m -> t_get t k = sget m k.
Proof. intros A. unfold t_get. rewrite <- (A k). symmetry. apply abs_entries. Qed.

(** ** a search never invents nodes *)
Definition in_tree (pre : key_t) (s : node) (par : option node) (r : mres) : Prop :=
  forall n, m_child r = Some n ->
    exists k, In (k, n) (ents pre s) /\ par_ok pre s par k n (m_parent r).

Lemma in_tree_self pre s par b1 b2 kv : in_tree pre s par (MRes b1 b2 (Some s) par kv).
Proof.
  intros n E. inversion E; subst. exists (pre ++ npath n). split; [rewrite ents_eq; now left|].
  left. auto.
Qed.
Lemma in_tree_none pre s par b1 b2 p kv : in_tree pre s par (MRes b1 b2 None p kv).
Proof. intros n E. discriminate. Qed.

Lemma retriever_in rf d pre s word par : forall ch src dst lrd kv ex,
  retriever rf d s word par ch src dst lrd kv = Ok ex ->
  match ex with RReturn r => in_tree pre s par r | RBreak _ _ _ _ _ _ => True end.
Proof.
  induction rf as [|rf IH]; intros ch src dst lrd kv ex; [discriminate|]. cbn [retriever].
  destruct (lrd && (ch =? star)%N).
  { destruct (extractor (S src) (npath s) d) as [[id ?] ?]. intros E. inversion E. apply in_tree_self. }
  destruct (lrd && (ch =? colon)%N); [|intros E; inversion E; apply in_tree_none].
  destruct (extractor (S src) (npath s) d) as [[id src1] srcEnd].
  destruct (extractor dst word d) as [[val dst1] dstEnd].
  destruct srcEnd.
  { destruct dstEnd; intros E; inversion E; [apply in_tree_self|exact I]. }
  destruct (negb dstEnd); [|intros E; inversion E; apply in_tree_none].
  destruct (subscan _ _ _ _ _ _ _) as [[[src2 dst2] lrd2] ch2].
  destruct (_ && _); [intros E; inversion E; exact I|].
  destruct (_ && _); [intros E; inversion E; exact I|].
  apply IH.
Qed.

Lemma after_loop_in d pre s word par src mt pt kv :
  let '(a, b, c, p) := after_loop d s word par src mt pt in in_tree pre s par (MRes a b c p kv).
Proof.
  unfold after_loop. destruct (_ && _); [apply in_tree_self|].
  destruct (_ && _); [apply in_tree_self|]. destruct (_ && _); [apply in_tree_self|].
  destruct mt; [apply in_tree_self|apply in_tree_none].
Qed.

Lemma in_tree_kid pre s par c r :
  In c (nkids s) -> in_tree (pre ++ npath s) c (Some s) r -> in_tree pre s par r.
Proof.
  intros Hc H n E. destruct (H n E) as (k & Hk & P). exists k.
  split; [eapply ents_kid; eauto|]. right. destruct P as [(-> & -> & ->)|(kp & m & H1 & H2 & H3 & H4)].
  - exists (pre ++ npath s), s. repeat split; auto. rewrite ents_eq. now left.
  - exists kp, m. repeat split; auto. eapply ents_kid; eauto.
Qed.

Lemma matchR_in rf d : forall s pre word lrd par kv r,
  matchR rf d s word lrd par kv = Ok r -> in_tree pre s par r.
Proof.
  induction s as [s IH] using node_ind'. intros pre word lrd par kv r.
  destruct word as [|w0 w].
  { intros E. destruct s. inversion E. apply in_tree_self. }
  rewrite matchR_eq by discriminate. cbv zeta.
  destruct (scan d (npath s) (w0 :: w) 0 lrd) as [i lrd1].
  match goal with |- bind ?x ?f = _ -> _ => destruct x as [ex| |] eqn:Ex end; try discriminate.
  cbn [bind]. destruct ex as [r0|src dst lrd2 mt pt kv2].
  { intros E. inversion E; subst. destruct (i <? _); [|discriminate].
    exact (retriever_in _ _ pre _ _ _ _ _ _ _ _ _ Ex). }
  pose proof (after_loop_in d pre s (w0 :: w) par src mt pt kv2) as AL.
  destruct (after_loop d s (w0 :: w) par src mt pt) as [[[mat par0] ch] pn].
  match goal with |- (if ?b then _ else _) = _ -> _ => destruct b end.
  - destruct (nkids s) as [|c0 ks0] eqn:Ek.
    + intros E. inversion E; subst. intros n En. apply (AL n En).
    + rewrite <- Ek in *.
      assert (G : forall cs last, incl cs (nkids s) -> in_tree pre s par last ->
                forall rest r, kids_loop rf d rest lrd2 s cs last = Ok r -> in_tree pre s par r).
      { induction cs as [|c cs IHc]; intros last Hi Hl rest r0; cbn [kids_loop].
        - intros E. inversion E; subst. exact Hl.
        - destruct (matchR rf d c _ lrd2 (Some s) (m_kv last)) as [rc| |] eqn:Ec; try discriminate.
          cbn [bind]. rewrite Forall_forall in IH.
          assert (Hc : In c (nkids s)) by (apply Hi; now left).
          pose proof (in_tree_kid pre s par c rc Hc (IH c Hc _ _ _ _ _ _ Ec)) as Hrc.
          destruct (_ || _); [intros E; inversion E; subst; exact Hrc|].
          apply IHc; auto. intros x Hx. apply Hi. now right. }
      apply G; [apply incl_refl|exact AL].
  - intros E. inversion E; subst. exact AL.
Qed.

Definition s_in_tree (t : tr) (r : Trie.sres) : Prop :=
  forall n, s_node r = Some n ->
    exists k, In (k, n) (ents [] (root t)) /\ par_ok [] (root t) None k n (s_parent r).

Lemma climb_in rf : forall fuel d t w kv r, climb rf fuel d t w kv = Ok r -> s_in_tree t r.
Proof.
  induction fuel as [|fuel IH]; intros d t w kv r; cbn [climb]; [discriminate|].
  destruct (2 <? _); [|intros E; inversion E; intros n X; discriminate].
  unfold probe. destruct (matchR _ _ _ _ _ _ _) as [mr| |] eqn:Em; try discriminate. cbn [bind].
  destruct (_ || _); [|apply IH].
  intros E. inversion E; subst. intros n X. cbn in *.
  exact (matchR_in _ _ _ [] _ _ _ _ _ Em n X).
Qed.
Lemma search_in rf h t w r : search rf h t w = Ok r -> s_in_tree t r.
Proof.
  unfold search, probe. destruct (matchR _ _ _ _ _ _ _) as [mr| |] eqn:Em; try discriminate. cbn [bind].
  destruct (_ || _).
  { intros E. inversion E; subst. intros n X. cbn in *.
    exact (matchR_in _ _ _ [] _ _ _ _ _ Em n X). }
  destruct (hmode h); [|destruct (contains _ _); [apply climb_in|]|];
    intros E; inversion E; intros n X; discriminate.
Qed.

(** ** every call preserves the invariant *)
Lemma upd_wf_tr t n k f fa :
  wf_tr t -> In (k, n) (ents [] (root t)) -> refl_fun f fa ->
  wf_tr (Tr (upd (nid n) f (root t)) (next t)).
Proof.
  intros WT H R. pose proof (ents_look _ _ _ (proj1 (proj2 (proj1 WT))) H) as L.
  exact (proj1 (upd_refines' t (entries t) k (info_of n) f fa WT (abs_entries t) L R)).
Qed.

Lemma removeEx_in rf h t path t' n p :
  wf_tr t -> RemoveEx rf h t path = Ok (t', n, p, true) ->
  exists kp pn nn, n = Some nn /\ p = Some pn /\ In (kp, pn) (ents [] (root t)) /\ In nn (nkids pn) /\
    t' = Tr (rem_child (nid pn) (nid nn) (root t)) (next t).
Proof.
  intros WT. unfold RemoveEx. destruct (search rf h t (full h path)) as [r| |] eqn:Es; try discriminate.
  cbn [bind]. destruct (s_node r) as [nn|] eqn:En; [|discriminate].
  destruct (s_partial r); [discriminate|]. destruct (s_parent r) as [pn|] eqn:Ep; [|discriminate].
  destruct (fst _); [|discriminate]. intros E. inversion E; subst.
  destruct (search_in _ _ _ _ _ Es nn En) as (k & Hk & [(-> & -> & X)|(kp & m & H1 & H2 & H3 & H4)]); [congruence|].
  rewrite Ep in H4. inversion H4; subst. exists kp, m, nn. auto.
Qed.

Theorem step_wf rf h t o t' r : wf_tr t -> t_step rf h t o = Ok (t', r) -> wf_tr t'.
Proof.
  intros WT. pose proof (abs_entries t) as A.
  assert (RD : forall A (x : res A) (f : A -> out), (do a <- x; Ok (t, f a)) = Ok (t', r) -> t' = t).
  { intros A0 x f. destruct x; cbn [bind]; try discriminate. now intros E; inversion E. }
  destruct o; cbn [t_step].
  - unfold Set_. destruct (insert_root_refines t _ (replace_byte 32 45 (full h path)) v WT A)
      as (t1 & ir & -> & WT' & _). cbn [bind]. intros E. inversion E; now subst.
  - unfold SetEx. destruct (insert_root_refines t _ (full h path) v WT A)
      as (t1 & ir & -> & WT' & _). cbn [bind]. intros E. inversion E; now subst.
  - unfold SetNode. destruct (insert_root_refines t _ (full h path) v WT A)
      as (t1 & ir & -> & WT' & A' & O & (i & L & Ei) & _). cbn [bind]. intros E. inversion E; subst.
    rewrite <- Ei. exact (proj1 (upd_refines' t1 _ _ i _ _ WT' A' L (refl_descs dc))).
  - unfold SetEmpty. destruct (insert_root_refines t _ (full h path) GNil WT A)
      as (t1 & ir & -> & WT' & A' & O & (i & L & Ei) & _). cbn [bind]. intros E. inversion E; subst.
    rewrite <- Ei. exact (proj1 (upd_refines' t1 _ _ i _ _ WT' A' L (refl_nodeop NSetEmpty))).
  - unfold Update. destruct (insert_root_refines t _ (full h path) GNil WT A)
      as (t1 & ir & -> & WT' & A' & O & (i & L & Ei) & _). cbn [bind]. intros E. inversion E; subst.
    rewrite <- Ei. exact (proj1 (upd_refines' t1 _ _ i _ _ WT' A' L (refl_nodeops _))).
  - unfold Set_. destruct (insert_root_refines t _ (replace_byte 32 45 (full h path)) v WT A)
      as (t1 & ir & -> & WT' & A' & O & (i & L & Ei) & _). cbn [bind]. intros E. inversion E; subst.
    rewrite <- Ei. exact (proj1 (upd_refines' t1 _ _ i _ _ WT' A' L (refl_nodeops _))).
  - unfold SetComment. destruct (search rf h t (full h path)) as [sr| |] eqn:Es; try discriminate.
    cbn [bind]. destruct (s_node sr) as [n|] eqn:En; cbn [bind]; intros E; inversion E; subst; auto.
    destruct (search_in _ _ _ _ _ Es n En) as (k & Hk & _).
    exact (upd_wf_tr t n k _ _ WT Hk (refl_nodeop (NSetComment desc cmt))).
  - unfold SetTag. destruct (search rf h t (full h path)) as [sr| |] eqn:Es; try discriminate.
    cbn [bind]. destruct (s_node sr) as [n|] eqn:En; cbn [bind]; intros E; inversion E; subst; auto.
    destruct (search_in _ _ _ _ _ Es n En) as (k & Hk & _).
    exact (upd_wf_tr t n k _ _ WT Hk (refl_nodeop (NSetTag tag))).
  - unfold Remove. destruct (RemoveEx rf h t path) as [[[[t1 n] p] b]| |] eqn:Er; try discriminate.
    cbn [bind]. intros E. inversion E; subst. destruct b.
    + destruct (removeEx_in _ _ _ _ _ _ _ WT Er) as (kp & pn & nn & -> & -> & H1 & H2 & ->).
      exact (proj1 (remove_refines t _ kp pn nn WT A H1 H2)).
    + revert Er. unfold RemoveEx. destruct (search rf h t (full h path)) as [sr| |]; try discriminate.
      cbn [bind]. destruct (s_node sr); [|intros E'; inversion E'; now subst].
      destruct (s_partial sr); [intros E'; inversion E'; now subst|].
      destruct (s_parent sr); [|intros E'; inversion E'; now subst].
      destruct (fst _); intros E'; inversion E'; now subst.
  - destruct (Get rf h t path) as [[v ok]| |]; cbn [bind]; intros E; inversion E; now subst.
  - destruct (MustGet rf h t path) as [v| |]; cbn [bind]; intros E; inversion E; now subst.
  - destruct (Query rf h t path) as [v| |]; cbn [bind]; intros E; inversion E; now subst.
  - destruct (Has rf h t path) as [v| |]; cbn [bind]; intros E; inversion E; now subst.
  - destruct (Search_ rf h t path) as [v| |]; cbn [bind]; intros E; inversion E; now subst.
  - destruct (Locate rf h t path) as [[[[[n br] pt] fd] kv]| |]; cbn [bind]; intros E; inversion E; now subst.
  - destruct (GetEx rf h t path) as [v| |]; cbn [bind]; intros E; inversion E; now subst.
  - destruct (GetDesc rf h t path) as [[v ok]| |]; cbn [bind]; intros E; inversion E; now subst.
  - destruct (GetComment rf h t path) as [[v ok]| |]; cbn [bind]; intros E; inversion E; now subst.
  - destruct (GetTag rf h t path) as [[v ok]| |]; cbn [bind]; intros E; inversion E; now subst.
Qed.

(** [reached t]: some history of API calls on the empty trie leads to [t] *)
Inductive reached : tr -> Prop :=
| reached_new : reached newTrie
| reached_step rf h o t t' r : reached t -> t_step rf h t o = Ok (t', r) -> reached t'.

Lemma run_wf rf hist : forall t t' outs, wf_tr t -> t_run rf hist t = Ok (t', outs) -> wf_tr t'.
Proof.
  induction hist as [|[h o] hist IH]; intros t t' outs WT; cbn [t_run].
  - intros E. inversion E; now subst.
  - destruct (t_step rf h t o) as [[t1 r]| |] eqn:E1; try discriminate. cbn [bind].
    destruct (t_run rf hist t1) as [[t2 rs]| |] eqn:E2; try discriminate. cbn [bind].
    intros E. inversion E; subst. apply (IH t1 t' rs); auto. exact (step_wf _ _ _ _ _ _ WT E1).
Qed.
Theorem reached_wf t : reached t -> wf_tr t.
Proof.
  induction 1 as [|rf h o t t' r _ IH E]; [exact newTrie_wf|exact (step_wf _ _ _ _ _ _ IH E)].
Qed.
Lemma run_reached rf hist : forall t t' outs,
  reached t -> t_run rf hist t = Ok (t', outs) -> reached t'.
Proof.
  induction hist as [|[h o] hist IH]; intros t t' outs R; cbn [t_run].
  - intros E. inversion E; now subst.
  - destruct (t_step rf h t o) as [[t1 r]| |] eqn:E1; try discriminate. cbn [bind].
    destruct (t_run rf hist t1) as [[t2 rs]| |] eqn:E2; try discriminate. cbn [bind].
    intros E. inversion E; subst. apply (IH t1 t' rs); auto. eapply reached_step; eauto.
Qed.
