(** Key sets, removal, views, attributes, copies. *)
From Coq Require Import List NArith Bool Arith Lia Permutation.
From Verif Require Import GoStr Utf8 Node NodeWf InsertProofs MatchProofs Trie TreeOps Spec Refine
  Climb ApiRefine Reach Effect Derived.
Import ListNotations.
Open Scope nat_scope.

(** ** the set of nodes is determined by the set of stored keys *)
(** the keys stored along a history *)
Fixpoint stored_keys (hist : list (hdl * op)) : list skey :=
  match hist with
  | [] => []
  | (h, o) :: rest => match stored h o with Some p => [runes p] | None => [] end ++ stored_keys rest
  end.

Lemma lcp3 w : forall a b, lcp w (lcp a b) = lcp w a \/ lcp w (lcp a b) = lcp a b.
Proof.
  induction w as [|c w IH]; intros [|x a] [|y b]; cbn; auto.
  destruct (N.eqb_spec x y) as [->|]; cbn.
  - destruct (N.eqb_spec c y) as [->|]; cbn; auto.
    destruct (IH a b) as [->| ->]; auto.
  - destruct (c =? x)%N; auto.
Qed.

Lemma skeys_set w v m k :
  In k (skeys (s_set w v m)) <-> k = w \/ In k (skeys m) \/ exists k', In k' (skeys m) /\ k = lcp w k'.
Proof.
  rewrite <- !smem_in, !smem_sget. split.
  - intros [a H]. rewrite s_set_get in H. destruct (str_eqb w k) eqn:E.
    { apply str_eqb_eq in E. auto. }
    destruct (sget m k) as [b|] eqn:G; [right; left; eauto|].
    destruct (existsb _ _) eqn:X; [|discriminate]. apply existsb_exists in X.
    destruct X as (k' & H1 & H2). apply str_eqb_eq in H2. right. right. exists k'. auto.
  - intros H. rewrite s_set_get. destruct (str_eqb w k) eqn:E; [eauto|].
    destruct (sget m k) as [b|] eqn:G; [eauto|].
    destruct H as [->|[[a H]|(k' & H1 & ->)]].
    + now rewrite str_eqb_refl in E.
    + discriminate.
    + replace (existsb _ _) with true; [eauto|]. symmetry. apply existsb_exists. exists k'.
      split; auto. apply str_eqb_refl.
Qed.
Lemma skeys_upd w f m k : In k (skeys (s_upd w f m)) <-> In k (skeys m).
Proof.
  rewrite <- !smem_in, !smem_sget, s_upd_get. destruct (str_eqb w k) eqn:E; [|tauto].
  apply str_eqb_eq in E. subst. destruct (sget m k) as [x|]; cbn; split; intros [y H]; try discriminate; eauto.
Qed.
Lemma skeys_ext m m' k : sget m k = sget m' k -> (In k (skeys m) <-> In k (skeys m')).
Proof. intros E. rewrite <- !smem_in, !smem_sget, E. tauto. Qed.

Definition closure (S : list skey) (k : skey) : Prop := k = [] \/ exists a b, In a S /\ In b S /\ k = lcp a b.

Lemma closure_same S S' : (forall x, In x S <-> In x S') -> forall k, closure S k <-> closure S' k.
Proof.
  intros H k. unfold closure. split; intros [->|(a & b & Ha & Hb & ->)]; auto; right; exists a, b; repeat split; auto; apply H; auto.
Qed.
Lemma closure_step S w k :
  closure (w :: S) k <-> k = w \/ closure S k \/ exists k', closure S k' /\ k = lcp w k'.
Proof.
  unfold closure. split.
  - intros [->|(a & b & Ha & Hb & ->)]; [auto|].
    destruct Ha as [<-|Ha], Hb as [<-|Hb].
    + left. apply lcp_refl.
    + right. right. exists b. split; auto. right. exists b, b. rewrite lcp_refl. auto.
    + right. right. exists a. rewrite lcp_comm. split; auto. right. exists a, a. rewrite lcp_refl. auto.
    + right. left. right. exists a, b. auto.
  - intros [->|[[->|(a & b & Ha & Hb & ->)]|(k' & [->|(a & b & Ha & Hb & ->)] & ->)]].
    + right. exists w, w. rewrite lcp_refl. cbn. auto.
    + auto.
    + right. exists a, b. cbn. auto.
    + left. now rewrite lcp_comm.
    + right. destruct (lcp3 w a b) as [->| ->]; [exists w, a|exists a, b]; cbn; auto.
Qed.

Lemma step_keys rf h t o t' r k :
  wf_tr t -> t_step rf h t o = Ok (t', r) -> (match o with ORemove _ => False | _ => True end) ->
  (In k (skeys (entries t')) <->
   In k (skeys (entries t)) \/
   match stored h o with
   | Some p => k = runes p \/ exists k', In k' (skeys (entries t)) /\ k = lcp (runes p) k'
   | None => False
   end).
Proof.
  intros WT E NR. destruct (step_nonremove _ _ _ _ _ _ WT E NR) as [(S & A & _)|(S & [->|(k0 & x & _ & A)])].
  - rewrite (skeys_ext _ (fst (s_step (view_of h) (entries t) o)) k) by now apply abs_get.
    destruct o; cbn [stored] in *; try congruence; cbn [s_step fst view_of v_pfx];
      rewrite ?skeys_upd, skeys_set; tauto.
  - rewrite S. tauto.
  - rewrite S. rewrite (skeys_ext _ (s_upd k0 (s_nodeop x) (entries t)) k) by now apply abs_get.
    rewrite skeys_upd. tauto.
Qed.

Lemma run_keys rf hist : forall t t' outs S,
  wf_tr t -> t_run rf hist t = Ok (t', outs) -> no_remove hist ->
  (forall k, In k (skeys (entries t)) <-> closure S k) ->
  forall k, In k (skeys (entries t')) <-> closure (stored_keys hist ++ S) k.
Proof.
  induction hist as [|[h o] hist IH]; intros t t' outs S WT E NR H k; cbn [t_run stored_keys] in *.
  - inversion E; subst. apply H.
  - inversion NR as [|? ? N1 N2]; subst. cbn [snd] in N1.
    destruct (t_step rf h t o) as [[t1 r]| |] eqn:E1; try discriminate. cbn [bind] in E.
    destruct (t_run rf hist t1) as [[t2 rs]| |] eqn:E2; try discriminate. cbn [bind] in E.
    inversion E; subst.
    rewrite (IH t1 t' rs (match stored h o with Some p => [runes p] | None => [] end ++ S)); auto.
    + apply closure_same. intros x. rewrite !in_app_iff. tauto.
    + exact (step_wf _ _ _ _ _ _ WT E1).
    + intros x. rewrite (step_keys _ _ _ _ _ _ _ WT E1 N1). destruct (stored h o) as [p|]; cbn [app].
      * rewrite closure_step, H. split.
        -- intros [X|[X|(k' & X & ->)]]; auto. rewrite H in X. eauto.
        -- intros [X|[X|(k' & X & ->)]]; auto. rewrite <- H in X. eauto.
      * rewrite H. tauto.
Qed.
(** the nodes of a trie nothing was removed from: the root, the stored keys and their
    branch points *)
Theorem keys_exact rf hist t outs :
  t_run rf hist newTrie = Ok (t, outs) -> no_remove hist ->
  forall k, (exists a, t_get t k = Some a) <->
            k = [] \/ exists a b, In a (stored_keys hist) /\ In b (stored_keys hist) /\ k = common a b.
Proof.
  intros E NR k. unfold t_get. rewrite <- smem_sget, smem_in.
  rewrite (run_keys rf hist newTrie t outs [] newTrie_wf E NR).
  - rewrite app_nil_r. reflexivity.
  - intros x. cbn. unfold closure. split; [intros [<-|[]]; auto|].
    intros [->|(a & b & [] & _)]. auto.
Qed.

Lemma lcp_extends a b k : k = lcp a b -> prefix k a /\ prefix k b.
Proof. intros ->. split; [apply lcp_prefix_l|apply lcp_prefix_r]. Qed.

(** ** C57: order of insertion *)
Fixpoint assoc_last (l : list (skey * gval)) (k : skey) (cur : option gval) : option gval :=
  match l with
  | [] => cur
  | (k', v) :: t => assoc_last t k (if str_eqb k' k then Some v else cur)
  end.
Definition sets (h : hdl) (kvs : list (gostring * gval)) : list (hdl * op) :=
  map (fun kv => (h, OSet (fst kv) (snd kv))) kvs.
Definition skv (h : hdl) (kv : gostring * gval) : skey * gval :=
  (runes (replace_byte 32 45 (full h (fst kv))), snd kv).

Lemma last_write_sets h kvs k cur : last_write (sets h kvs) k cur = assoc_last (map (skv h) kvs) k cur.
Proof. revert cur. induction kvs as [|[p v] kvs IH]; intros cur; cbn; auto. Qed.
Lemma assoc_last_in l k cur v :
  NoDup (map fst l) -> In (k, v) l -> assoc_last l k cur = Some v.
Proof.
  revert cur. induction l as [|[k' v'] l IH]; intros cur ND H; [destruct H|].
  cbn in *. inversion ND as [|? ? N1 N2]; subst. destruct H as [H|H].
  - inversion H; subst. rewrite str_eqb_refl. clear - N1. generalize (Some v) as c.
    induction l as [|[a b] l IH]; intros c; cbn in *; auto.
    destruct (str_eqb a k) eqn:E; [apply str_eqb_eq in E; tauto|]. apply IH. tauto.
  - now apply IH.
Qed.
Lemma assoc_last_notin l k cur : ~ In k (map fst l) -> assoc_last l k cur = cur.
Proof.
  revert cur. induction l as [|[k' v'] l IH]; intros cur H; cbn in *; auto.
  destruct (str_eqb k' k) eqn:E; [apply str_eqb_eq in E; tauto|]. apply IH. tauto.
Qed.
Lemma assoc_last_perm l l' k :
  Permutation l l' -> NoDup (map fst l) -> assoc_last l k None = assoc_last l' k None.
Proof.
  intros P ND. assert (ND' : NoDup (map fst l')).
  { eapply Permutation_NoDup; [|exact ND]. now apply Permutation_map. }
  destruct (in_dec (list_eq_dec N.eq_dec) k (map fst l)) as [H|H].
  - apply in_map_iff in H. destruct H as ([k' v] & <- & H). cbn.
    rewrite (assoc_last_in l k' None v) by auto. symmetry. apply assoc_last_in; auto.
    eapply Permutation_in; eauto.
  - rewrite !assoc_last_notin; auto. intros X. apply H.
    eapply Permutation_in; [|exact X]. apply Permutation_sym, Permutation_map, P.
Qed.
Lemma sets_no_remove h kvs : no_remove (sets h kvs).
Proof. apply Forall_forall. intros x Hx. apply in_map_iff in Hx. destruct Hx as (y & <- & _). exact I. Qed.
Lemma stored_keys_sets h kvs : stored_keys (sets h kvs) = map fst (map (skv h) kvs).
Proof.
  induction kvs as [|[p v] kvs IH]; auto. cbn [sets map stored_keys stored app].
  fold (sets h kvs). now rewrite IH.
Qed.

(** the same pairs in another order: same nodes, same data, same data flags *)
Theorem order_independent rf rf' h kvs kvs' t t' outs outs' :
  Permutation kvs kvs' -> NoDup (map (fun kv => fst (skv h kv)) kvs) ->
  t_run rf (sets h kvs) newTrie = Ok (t, outs) -> t_run rf' (sets h kvs') newTrie = Ok (t', outs') ->
  forall k, match t_get t k, t_get t' k with
            | Some a, Some a' => a_data a = a_data a' /\ a_has a = a_has a'
            | None, None => True
            | _, _ => False
            end.
Proof.
  intros P ND E E' k.
  pose proof (last_write_wins _ _ _ _ E (sets_no_remove h kvs) k) as L.
  pose proof (last_write_wins _ _ _ _ E' (sets_no_remove h kvs') k) as L'.
  pose proof (keys_exact _ _ _ _ E (sets_no_remove h kvs) k) as K.
  pose proof (keys_exact _ _ _ _ E' (sets_no_remove h kvs') k) as K'.
  rewrite last_write_sets in L, L'.
  rewrite <- (assoc_last_perm (map (skv h) kvs) (map (skv h) kvs') k) in L'.
  2: now apply Permutation_map.
  2: now rewrite map_map.
  assert (C : closure (stored_keys (sets h kvs)) k <-> closure (stored_keys (sets h kvs')) k).
  { apply closure_same. intros x. rewrite !stored_keys_sets. split; apply Permutation_in.
    - now apply Permutation_map, Permutation_map.
    - now apply Permutation_sym, Permutation_map, Permutation_map. }
  change (closure (stored_keys (sets h kvs)) k) with
    (k = [] \/ exists a b, In a (stored_keys (sets h kvs)) /\ In b (stored_keys (sets h kvs)) /\ k = common a b) in C.
  change (closure (stored_keys (sets h kvs')) k) with
    (k = [] \/ exists a b, In a (stored_keys (sets h kvs')) /\ In b (stored_keys (sets h kvs')) /\ k = common a b) in C.
  rewrite <- K, <- K' in C.
  destruct (t_get t k) as [a|], (t_get t' k) as [a'|]; auto.
  - destruct (assoc_last (map (skv h) kvs) k None); destruct L as [-> ->], L' as [-> ->]; auto.
  - destruct C as [C _]. destruct C as [b C]; [eauto|discriminate].
  - destruct C as [_ C]. destruct C as [b C]; [eauto|discriminate].
Qed.

(** ** C01: when is a fresh key found? *)
(** in a trie nothing was removed from, every branch except the root leads to a longer key *)
Definition branch_ext (m : smap) : Prop :=
  forall k a, sget m k = Some a -> a_leaf a = false -> k <> [] ->
    exists k', In k' (skeys m) /\ pprefix k k'.

Lemma branch_ext_set w v f m :
  (forall a, a_leaf (f a) = a_leaf a) ->
  branch_ext m -> branch_ext (s_upd w f (s_set w v m)).
Proof.
  intros Hf B k a G L Hk. rewrite s_upd_get, !s_set_get, str_eqb_refl in G. cbn [option_map] in G.
  assert (KK : forall x, In x (skeys m) -> In x (skeys (s_upd w f (s_set w v m)))).
  { intros x Hx. rewrite skeys_upd, skeys_set. auto. }
  destruct (str_eqb w k) eqn:E.
  - apply str_eqb_eq in E. subst k. inversion G; subst a. rewrite Hf in L.
    destruct (sget m w) as [a|] eqn:Gw.
    + cbn in L. destruct (B w a Gw L Hk) as (k' & H1 & H2). eauto.
    + cbn in L. apply negb_false_iff, existsb_exists in L. destruct L as (k' & H1 & H2).
      exists k'. split; auto. now apply sprefix_iff.
  - destruct (sget m k) as [a0|] eqn:Gk.
    + inversion G; subst a0. destruct (B k a Gk L Hk) as (k' & H1 & H2). eauto.
    + destruct (existsb _ _) eqn:X; [|discriminate]. apply existsb_exists in X.
      destruct X as (k' & H1 & H2). apply str_eqb_eq in H2. rewrite common_lcp in H2.
      exists k'. split; auto. destruct (prefix_cases k k') as [->|P]; auto.
      { rewrite <- H2. apply lcp_prefix_r. }
      exfalso. apply sget_none in Gk. auto.
Qed.
Lemma branch_ext_upd w f m :
  (forall a, a_leaf (f a) = a_leaf a) -> branch_ext m -> branch_ext (s_upd w f m).
Proof.
  intros Hf B k a G L Hk. rewrite s_upd_get in G. destruct (str_eqb w k) eqn:E.
  - apply str_eqb_eq in E. subst. destruct (sget m k) as [a0|] eqn:Gk; inversion G; subst.
    rewrite Hf in L. destruct (B k a0 Gk L Hk) as (k' & H1 & H2). exists k'. now rewrite skeys_upd.
  - destruct (B k a G L Hk) as (k' & H1 & H2). exists k'. now rewrite skeys_upd.
Qed.
Lemma branch_ext_eq m m' : (forall k, sget m k = sget m' k) -> branch_ext m -> branch_ext m'.
Proof.
  intros E B k a G L Hk. rewrite <- E in G. destruct (B k a G L Hk) as (k' & H1 & H2).
  exists k'. split; auto. now apply (skeys_ext m).
Qed.
Lemma s_upd_id w m k : sget (s_upd w (fun a => a) m) k = sget m k.
Proof.
  rewrite s_upd_get. destruct (str_eqb w k) eqn:E; auto. apply str_eqb_eq in E. subst.
  now destruct (sget m k).
Qed.
Lemma run_branch_ext rf hist : forall t t' outs,
  wf_tr t -> t_run rf hist t = Ok (t', outs) -> no_remove hist ->
  branch_ext (entries t) -> branch_ext (entries t').
Proof.
  induction hist as [|[h o] hist IH]; intros t t' outs WT E NR H; cbn [t_run] in *.
  - inversion E; now subst.
  - inversion NR as [|? ? N1 N2]; subst. cbn [snd] in N1.
    destruct (t_step rf h t o) as [[t1 r]| |] eqn:E1; try discriminate. cbn [bind] in E.
    destruct (t_run rf hist t1) as [[t2 rs]| |] eqn:E2; try discriminate. cbn [bind] in E.
    inversion E; subst. apply (IH t1 t' rs); auto; [exact (step_wf _ _ _ _ _ _ WT E1)|].
    destruct (step_nonremove _ _ _ _ _ _ WT E1 N1) as [(S & A & _)|(S & [->|(k0 & op & Hop & A)])]; auto.
    + apply (branch_ext_eq (fst (s_step (view_of h) (entries t) o))).
      { intros k. symmetry. now apply abs_get. }
      assert (P0 : forall w v, branch_ext (s_set w v (entries t))).
      { intros w v. apply (branch_ext_eq (s_upd w (fun a => a) (s_set w v (entries t)))).
        - intros k. apply s_upd_id.
        - now apply branch_ext_set. }
      destruct o; cbn [stored] in S; try congruence; cbn [s_step fst]; auto; apply branch_ext_set; auto.
      * apply descs_leaf.
      * intros a. apply nodeops_leaf.
      * intros a. apply nodeops_leaf.
    + apply (branch_ext_eq (s_upd k0 (s_nodeop op) (entries t))).
      { intros k. symmetry. now apply abs_get. }
      apply branch_ext_upd; auto. intros a. apply nodeop_leaf.
Qed.
Theorem branch_has_longer rf hist t outs k a :
  t_run rf hist newTrie = Ok (t, outs) -> no_remove hist ->
  t_get t k = Some a -> a_leaf a = false -> k <> [] ->
  exists p, In p (stored_keys hist) /\ pprefix k p.
Proof.
  intros E NR G L Hk.
  assert (B : branch_ext (entries t)).
  { apply (run_branch_ext _ _ _ _ _ newTrie_wf E NR). intros k0 a0 G0 L0 H0. exfalso. apply H0.
    destruct k0 as [|c k0]; auto. discriminate. }
  destruct (B k a G L Hk) as (k' & H1 & H2).
  assert (H3 : exists b, t_get t k' = Some b) by (now apply smem_sget, smem_in).
  apply (keys_exact _ _ _ _ E NR) in H3. destruct H3 as [->|(x & y & Hx & Hy & ->)].
  - destruct H2 as (c & z & X). destruct (app_cons_not_nil _ _ _ X).
  - exists x. split; auto. rewrite common_lcp in H2. destruct H2 as (c & z & X).
    destruct (lcp_prefix_l x y) as [u Hu]. exists c, (z ++ u). rewrite Hu at 1. rewrite X.
    now rewrite <- app_assoc.
Qed.

(** after any number of writes (no removals): Get right after Set finds the value, unless the
    key is empty or a longer stored key starts with it *)
Theorem set_get_found D rf hist t outs h path v :
  plain_hist D hist -> no_remove hist -> t_run (S rf) hist newTrie = Ok (t, outs) ->
  D (hdelim h) -> op_plain D (full h) (OSet path v) -> blank_free (full h path) ->
  full h path <> [] ->
  (forall p, In p (stored_keys hist) -> ~ pprefix (runes (full h path)) p) ->
  exists t' id old, Set_ h t path v = Ok (t', id, old) /\ Get (S rf) h t' path = Ok (v, true).
Proof.
  intros PH NR E Hd OP BF Hne HP.
  assert (R : plain_reach D t) by (eapply plain_reach_hist; eauto).
  destruct (set_get D rf h t path v R Hd OP BF) as (t' & id & old & q & ES & EQ & Q1 & Q2).
  exists t', id, old. split; auto. unfold Get. rewrite EQ. cbn [bind]. rewrite Q1, Q2.
  set (w := runes (full h path)) in *.
  assert (Hw : w <> []) by (intros X; apply Hne; now apply runes_nil_iff).
  replace (match t_get t w with Some a => a_leaf a | None => negb (existsb (sprefix w) (skeys (entries t))) end)
    with true; auto.
  symmetry. destruct (t_get t w) as [a|] eqn:G.
  - destruct (a_leaf a) eqn:L; auto. exfalso.
    destruct (branch_has_longer _ _ _ _ _ _ E NR G L Hw) as (p & H1 & H2). exact (HP p H1 H2).
  - apply negb_true_iff. destruct (existsb _ _) eqn:X; auto. exfalso.
    apply existsb_exists in X. destruct X as (k & H1 & H2). apply sprefix_iff in H2.
    assert (H3 : exists b, t_get t k = Some b) by (now apply smem_sget, smem_in).
    apply (keys_exact _ _ _ _ E NR) in H3. destruct H3 as [->|(x & y & Hx & Hy & ->)].
    + destruct H2 as (c & z & X). destruct (app_cons_not_nil _ _ _ X).
    + apply (HP x Hx). rewrite common_lcp in H2. destruct H2 as (c & z & X).
      destruct (lcp_prefix_l x y) as [u Hu]. exists c, (z ++ u). rewrite Hu at 1. rewrite X.
      now rewrite <- app_assoc.
Qed.

(** ** C05: walking *)
Theorem walk_once t :
  reached t ->
  exists ks, NoDup ks /\ length ks = length (walk (root t)) /\
    (forall h rf, Walk rf h t [] = Ok (walk (root t))) /\
    (forall k a, t_get t k = Some a <->
       exists n, In (k, n) (combine ks (walk (root t))) /\
         a = Attr (ndata n) (ndesc n) (ncmt n) (ntag n) (isLeaf n) (hasData n) (modified n)).
Proof.
  intros R. pose proof (reached_wf t R) as WT. pose proof (proj1 (proj2 (proj1 WT))) as W.
  exists (map fst (ents [] (root t))). rewrite (walk_ents [] (root t)).
  split; [now apply ents_nodup|]. split; [now rewrite !map_length|].
  split; [intros; unfold Walk; cbn [is_nil]; now rewrite (walk_ents [])|].
  assert (C : forall l : list (key_t * node), combine (map fst l) (map snd l) = l).
  { induction l as [|[a b] l IH]; cbn; congruence. }
  intros k a. rewrite C. unfold t_get, entries. rewrite entries_lookup. fold (look (root t) k).
  split.
  - intros E. destruct (look (root t) k) as [i|] eqn:L; inversion E; subst.
    apply look_in in L; auto. apply in_ients in L. destruct L as (n & Hn & <-). exists n.
    split; auto. unfold attr_of. cbn. now rewrite isLeaf_bit, hasData_bit, modified_bit.
  - intros (n & Hn & ->). rewrite (ents_look _ _ _ W Hn). cbn. unfold attr_of. cbn.
    now rewrite isLeaf_bit, hasData_bit, modified_bit.
Qed.
(** without removals the data nodes are exactly the stored keys *)
Lemma last_write_stored hist k : forall cur,
  (exists v, last_write hist k cur = Some v) <-> In k (stored_keys hist) \/ exists v, cur = Some v.
Proof.
  induction hist as [|[h o] hist IH]; intros cur; cbn.
  - split; [auto|]. intros [[]|H]; auto.
  - rewrite IH, in_app_iff. destruct (stored h o) as [p|]; cbn.
    + destruct (str_eqb (runes p) k) eqn:E.
      * apply str_eqb_eq in E. split; eauto.
      * split; [intros [H|H]; auto|]. intros [[[H|[]]|H]|H]; auto.
        subst. now rewrite str_eqb_refl in E.
    + tauto.
Qed.
Theorem data_iff_stored rf hist t outs k :
  t_run rf hist newTrie = Ok (t, outs) -> no_remove hist ->
  ((exists a, t_get t k = Some a /\ a_has a = true) <-> In k (stored_keys hist)).
Proof.
  intros E NR. pose proof (last_write_wins _ _ _ _ E NR k) as L.
  pose proof (last_write_stored hist k None) as S.
  split.
  - intros (a & G & Ha). rewrite G in L. destruct (last_write hist k None) as [v|] eqn:X.
    + destruct S as [S _]. destruct S as [S|[v0 S]]; eauto. discriminate.
    + destruct L; congruence.
  - intros H. destruct S as [_ S]. destruct S as [v S]; auto. rewrite S in L.
    destruct (t_get t k) as [a|]; [|discriminate]. exists a. tauto.
Qed.

(** one removal: what carried data still does, except below the removed key *)
Theorem data_step D rf h t o t' r k :
  plain_reach D t -> D (hdelim h) -> t_step (S rf) h t o = Ok (t', r) ->
  ((exists a, t_get t' k = Some a /\ a_has a = true) <->
   (exists p, stored h o = Some p /\ runes p = k) \/
   (exists a, t_get t k = Some a /\ a_has a = true) /\
   ~ (exists path f, o = ORemove path /\ r = RBool true /\ f <> [] /\
        s_search (hdelim h) (is_up h) (entries t) (full h path) = SFound f /\ prefix f k)).
Proof.
  intros R Hd E. destruct (plain_reach_step D rf h t o R Hd) as (t1 & E1 & WT1 & A1).
  rewrite E in E1. inversion E1; subst t1 r. clear E1.
  assert (SET : forall w v f x, (forall a, a_has a = true -> a_has (f a) = true) ->
     ((exists a, sget (s_upd w f (s_set w v (entries t))) x = Some a /\ a_has a = true) <->
      w = x \/ exists a, t_get t x = Some a /\ a_has a = true)).
  { intros w v f x Hf. rewrite s_upd_get, !s_set_get, str_eqb_refl. fold (t_get t x).
    destruct (str_eqb w x) eqn:Ex.
    - apply str_eqb_eq in Ex. split; auto. intros _. cbn. eexists; split; eauto. apply Hf.
      now destruct (sget (entries t) w).
    - fold (t_get t x). split.
      + intros (a & G & Ha). destruct (t_get t x); [right; eauto|].
        destruct (existsb _ _); inversion G; subst; discriminate.
      + intros [->|(a & G & Ha)]; [now rewrite str_eqb_refl in Ex|]. rewrite G. eauto. }
  assert (SET0 : forall w v x,
     ((exists a, sget (s_set w v (entries t)) x = Some a /\ a_has a = true) <->
      w = x \/ exists a, t_get t x = Some a /\ a_has a = true)).
  { intros w v x. rewrite <- (SET w v (fun a => a) x) by auto. now rewrite s_upd_id. }
  assert (UPD : forall w f x, (forall a, a_has (f a) = a_has a) ->
     ((exists a, sget (s_upd w f (entries t)) x = Some a /\ a_has a = true) <->
      exists a, t_get t x = Some a /\ a_has a = true)).
  { intros w f x Hf. rewrite s_upd_get. fold (t_get t x). destruct (str_eqb w x) eqn:Ex; [|tauto].
    apply str_eqb_eq in Ex. subst. fold (t_get t x). destruct (t_get t x) as [a|]; cbn.
    - split; intros (b & Gb & Hb); inversion Gb; subst.
      + rewrite Hf in Hb. eauto.
      + exists (f b). now rewrite Hf.
    - split; intros (b & Gb & _); discriminate. }
  rewrite (abs_get _ _ _ A1).
  assert (NRM : (forall path, o <> ORemove path) ->
     forall P : Prop, (P <-> (exists p, stored h o = Some p /\ runes p = k) \/ (exists a, t_get t k = Some a /\ a_has a = true)) ->
     (P <-> (exists p, stored h o = Some p /\ runes p = k) \/
        (exists a, t_get t k = Some a /\ a_has a = true) /\
        ~ (exists path f, o = ORemove path /\ snd (s_step (view_of h) (entries t) o) = RBool true /\ f <> [] /\
        s_search (hdelim h) (is_up h) (entries t) (full h path) = SFound f /\ prefix f k))).
  { intros Hno P ->. split; [|tauto]. intros [H|H]; auto. right. split; auto.
    intros (path & f & X & _). exact (Hno path X). }
  assert (SS : forall p, (exists q, Some p = Some q /\ runes q = k) <-> runes p = k).
  { intros p. split; [intros (q & X & Y); inversion X; now subst|eauto]. }
  assert (SN : (exists q : gostring, None = Some q /\ runes q = k) <-> False).
  { split; [intros (q & X & _); discriminate|tauto]. }
  destruct o; try (apply NRM; [discriminate|]; cbn [s_step fst stored view_of v_pfx v_delim v_up];
                   rewrite ?SS, ?SN; auto).
  all: try (destruct (s_query _ _ _) as [[? ?] ?]; cbn [fst]; fold (t_get t k); tauto).
  all: try (fold (t_get t k); tauto).
  - apply SET. intros a Ha. destruct dc as [|x [|y dc]]; auto.
  - apply SET. intros a Ha. now rewrite (proj2 (nodeops_data _ _)), Ha.
  - apply SET. intros a Ha. now rewrite (proj2 (nodeops_data _ _)), Ha.
  - destruct (s_search _ _ _ _) as [k0|[|c k0]|]; cbn [fst]; try (fold (t_get t k); tauto);
      rewrite UPD; auto; tauto.
  - destruct (s_search _ _ _ _) as [k0|[|c k0]|]; cbn [fst]; try (fold (t_get t k); tauto);
      rewrite UPD; auto; tauto.
  - cbn [s_step fst snd stored view_of v_pfx v_delim v_up]. rewrite SN. unfold s_remove.
    destruct (s_search _ _ _ _) as [k0|k0|] eqn:Es; cbn [s_hit].
    + destruct k0 as [|c k0]; cbn [fst snd].
      * fold (t_get t k). split; [|tauto]. intros H. right. split; auto.
        intros (pt & f & X & Y & _). discriminate.
      * rewrite (filter_sget (fun k' => negb (has_prefix (c :: k0) k'))). fold (t_get t k).
        destruct (has_prefix (c :: k0) k) eqn:Hp; cbn [negb].
        -- split; [intros (a & X & _); discriminate|]. intros [[]|[_ X]]. exfalso. apply X.
           exists path, (c :: k0). repeat split; auto; try discriminate. now apply has_prefix_iff.
        -- split; [|tauto]. intros H. right. split; auto. intros (pt & f & X & _ & _ & Y & Z).
           inversion X; subst pt. rewrite Es in Y. inversion Y; subst f.
           apply has_prefix_false in Hp. auto.
    + cbn [fst snd]. fold (t_get t k). split; [|tauto]. intros H. right. split; auto.
      intros (pt & f & X & Y & _). discriminate.
    + cbn [fst snd]. fold (t_get t k). split; [|tauto]. intros H. right. split; auto.
      intros (pt & f & X & Y & _). discriminate.
Qed.
