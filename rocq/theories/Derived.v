(** Consequences of the refinement, one per property. *)
From Coq Require Import List NArith Bool Arith Lia Permutation.
From Verif Require Import GoStr Utf8 Node NodeWf InsertProofs MatchProofs Trie TreeOps Spec Refine
  Climb ApiRefine Reach Effect.
Import ListNotations.
Open Scope nat_scope.

(** [plain_reach D t]: a history of calls through handles with delimiters in [D], storing only
    keys without ':'/'*' right after such a delimiter, leads to [t] *)
Inductive plain_reach (D : rune -> Prop) : tr -> Prop :=
| plain_new : plain_reach D newTrie
| plain_more rf h o t t' r :
    plain_reach D t -> D (hdelim h) -> op_plain D (full h) o ->
    t_step (S rf) h t o = Ok (t', r) -> plain_reach D t'.

Lemma plain_reach_inv D t : plain_reach D t -> wf_tr t /\ plain_all D (entries t).
Proof.
  induction 1 as [|rf h o t t' r R [WT PA] Hd OP E].
  - split; [exact newTrie_wf|]. intros d _. apply plain_init.
  - destruct (step_refines rf D h t (entries t) o Hd WT (abs_entries t) PA) as (t1 & E1 & WT1 & A1).
    rewrite E in E1. inversion E1; subst t1. split; auto.
    pose proof (plain_step D (view_of h) (entries t) o PA OP) as PS.
    intros d H k Hk. apply (PS d H). pose proof (proj1 (proj2 (proj1 WT1))) as W.
    apply (abs_dom _ _ W A1). now apply (abs_dom _ _ W (abs_entries t')).
Qed.
Lemma plain_reach_from D rf hist : forall t t' outs,
  plain_reach D t -> plain_hist D hist -> t_run (S rf) hist t = Ok (t', outs) -> plain_reach D t'.
Proof.
  induction hist as [|[h o] hist IH]; intros t t' outs R PH; cbn [t_run].
  - intros E. inversion E; now subst.
  - inversion PH as [|? ? [P1 P2] P3]; subst.
    destruct (t_step (S rf) h t o) as [[t1 r]| |] eqn:E1; try discriminate. cbn [bind].
    destruct (t_run (S rf) hist t1) as [[t2 rs]| |] eqn:E2; try discriminate. cbn [bind].
    intros E. inversion E; subst. apply (IH t1 t' rs); auto. eapply plain_more; eauto.
Qed.
Lemma plain_reach_hist D rf hist t outs :
  plain_hist D hist -> t_run (S rf) hist newTrie = Ok (t, outs) -> plain_reach D t.
Proof. apply plain_reach_from. constructor. Qed.
Lemma plain_reach_run D rf hist :
  plain_hist D hist -> exists t outs, t_run (S rf) hist newTrie = Ok (t, outs) /\ plain_reach D t.
Proof.
  intros PH. destruct (run_refines rf D hist newTrie s_init newTrie_wf newTrie_abs) as (t' & E' & _); auto.
  { intros d _. apply plain_init. }
  exists t'. eexists. split; eauto. eapply plain_reach_hist; eauto.
Qed.
Lemma plain_reach_reached D t : plain_reach D t -> reached t.
Proof. induction 1; [constructor|eapply reached_step; eauto]. Qed.

(** one more step *)
Lemma plain_reach_step D rf h t o :
  plain_reach D t -> D (hdelim h) ->
  exists t', t_step (S rf) h t o = Ok (t', snd (s_step (view_of h) (entries t) o)) /\
    wf_tr t' /\ abs (root t') (fst (s_step (view_of h) (entries t) o)).
Proof.
  intros R Hd. destruct (plain_reach_inv D t R) as [WT PA].
  exact (step_refines rf D h t (entries t) o Hd WT (abs_entries t) PA).
Qed.

(** ** C58 *)
Lemma agree_has_search rf h t p : Search_ rf h t p = Has rf h t p.
Proof. reflexivity. Qed.
Lemma agree_locate rf h t p :
  Has rf h t p = do (n, br, pt, fd, kv) <- Locate rf h t p; Ok fd.
Proof.
  unfold Has, Locate. destruct (search rf h t (full h p)) as [r| |]; auto. cbn [bind].
  unfold s_found. destruct (s_node r); reflexivity.
Qed.
Lemma agree_query_has rf h t p q :
  Query rf h t p = Ok q -> q_found q = true -> Has rf h t p = Ok true.
Proof.
  unfold Query, Has. destruct (search rf h t (full h p)) as [r| |]; try discriminate. cbn [bind].
  intros E. inversion E; subst. unfold query_of, s_found.
  destruct (s_node r); [|discriminate]. destruct (s_partial r); [discriminate|]. reflexivity.
Qed.
Lemma agree_getex rf h t p q :
  Query rf h t p = Ok q ->
  exists o, GetEx rf h t p = Ok o /\
    match o with
    | Some (n, v, br, kv) => q_found q = true /\ v = q_data q /\ br = q_branch q
    | None => q_found q = false
    end.
Proof.
  unfold Query, GetEx. destruct (search rf h t (full h p)) as [r| |]; try discriminate. cbn [bind].
  intros E. inversion E; subst. eexists; split; [reflexivity|].
  destruct (q_found (query_of (hdelim h) r)); auto.
Qed.
Lemma agree_attrs rf h t p q :
  Query rf h t p = Ok q ->
  (exists s, GetDesc rf h t p = Ok (s, q_found q)) /\
  (exists s, GetComment rf h t p = Ok (s, q_found q)) /\
  (exists s, GetTag rf h t p = Ok (s, q_found q)).
Proof.
  unfold Query, GetDesc, GetComment, GetTag, getNodeFast.
  destruct (search rf h t (full h p)) as [r| |]; try discriminate. cbn [bind].
  intros E. inversion E; subst. unfold query_of.
  destruct (s_node r) as [n|]; [|cbn; eauto 6]. destruct (s_partial r); [cbn; eauto 6|].
  destruct (isBranch n); [|cbn; eauto 6]. cbn [q_found].
  destruct (endsWith n (hdelim h)); cbn; eauto 6.
Qed.

(** ** reading one key *)
Definition blank_free (p : gostring) : Prop := ~ In 32%N p.
Lemma blank_free_replace p : blank_free p -> replace_byte 32 45 p = p.
Proof.
  unfold blank_free, replace_byte. induction p as [|b p IH]; cbn; auto. intros H.
  destruct (N.eqb_spec b 32) as [->|]; [exfalso; auto|]. rewrite IH; auto.
Qed.

Lemma probe_mem d m w : w <> [] -> smem m w = true -> s_probe d m w = SFound w.
Proof. intros H M. unfold s_probe, s_find. destruct w; [congruence|]. cbn [is_nil]. now rewrite M. Qed.
Lemma probe_nil d m : s_probe d m [] = SFound [].
Proof. reflexivity. Qed.
Lemma search_mem d up m p :
  (runes p = [] \/ smem m (runes p) = true) -> s_search d up m p = SFound (runes p).
Proof.
  intros H. unfold s_search. cbn [s_first]. destruct (runes p) as [|c w] eqn:E.
  - now rewrite probe_nil.
  - destruct H as [H|H]; [discriminate|]. now rewrite (probe_mem d m (c :: w)) by (auto; discriminate).
Qed.

Lemma entries_keys t k : In k (skeys (entries t)) <-> t_get t k <> None.
Proof.
  unfold t_get. rewrite <- smem_in, smem_sget. split; [intros [a ->]; discriminate|].
  destruct (sget (entries t) k); [eauto|congruence].
Qed.
Lemma root_get t : wf_tr t -> exists a, t_get t [] = Some a.
Proof.
  intros WT. assert (smem (entries t) [] = true) as M.
  { apply (root_mem t (entries t) WT (abs_entries t)). }
  apply smem_sget in M. exact M.
Qed.

(** Query of a path whose key is present *)
Lemma query_present D rf h t p a :
  plain_reach D t -> D (hdelim h) -> t_get t (runes (full h p)) = Some a ->
  exists q, Query (S rf) h t p = Ok q /\
    q_data q = (if a_has a then a_data a else GNil) /\
    q_branch q = negb (a_leaf a) /\
    q_found q = (a_leaf a || ends_with (hdelim h) (runes (full h p))).
Proof.
  intros R Hd G. destruct (plain_reach_inv D t R) as [WT PA].
  destruct (step_refines rf D h t (entries t) (OQuery p) Hd WT (abs_entries t) PA) as (t' & E & _).
  cbn [t_step s_step view_of v_delim v_pfx v_up snd] in E.
  rewrite search_mem in E.
  2:{ right. apply smem_sget. eauto. }
  unfold s_query, s_hit in E. unfold t_get in G. rewrite G in E. cbn [snd] in E.
  destruct (Query (S rf) h t p) as [q| |]; cbn [bind] in E; try discriminate.
  inversion E. exists q. auto.
Qed.

(** writes *)
Lemma set_refines h t path v :
  wf_tr t ->
  exists t' id, Set_ h t path v = Ok (t', id, s_old (runes (replace_byte 32 45 (full h path))) (entries t)) /\
    wf_tr t' /\ abs (root t') (s_set (runes (replace_byte 32 45 (full h path))) v (entries t)) /\
    exists i, look (root t') (runes (replace_byte 32 45 (full h path))) = Some i /\ i_id i = id.
Proof.
  intros WT. unfold Set_.
  destruct (insert_root_refines t (entries t) (replace_byte 32 45 (full h path)) v WT (abs_entries t))
    as (t' & ir & -> & WT' & A' & O & L & _). cbn [bind]. exists t', (ir_id ir). rewrite O. auto.
Qed.

Lemma set_run D h t path v t' id old :
  plain_reach D t -> D (hdelim h) -> op_plain D (full h) (OSet path v) ->
  Set_ h t path v = Ok (t', id, old) -> plain_reach D t'.
Proof.
  intros R Hd OP S. apply (plain_more D 0 h (OSet path v) t t' (ROld old)); auto.
  cbn [t_step]. now rewrite S.
Qed.

(** ** C01 *)
Theorem set_get D rf h t path v :
  plain_reach D t -> D (hdelim h) -> op_plain D (full h) (OSet path v) -> blank_free (full h path) ->
  exists t' id old q, Set_ h t path v = Ok (t', id, old) /\ Query (S rf) h t' path = Ok q /\
    q_data q = v /\
    q_found q = (match t_get t (runes (full h path)) with
                 | Some a => a_leaf a
                 | None => negb (existsb (sprefix (runes (full h path))) (skeys (entries t)))
                 end || ends_with (hdelim h) (runes (full h path))).
Proof.
  intros R Hd OP BF. destruct (plain_reach_inv D t R) as [WT PA].
  destruct (set_refines h t path v WT) as (t' & id & E & WT' & A' & _).
  rewrite (blank_free_replace _ BF) in *.
  assert (R' : plain_reach D t') by (eapply set_run; eauto).
  set (w := runes (full h path)) in *.
  destruct (query_present D rf h t' path
             (match t_get t w with
              | Some a => Attr v (a_desc a) (a_cmt a) (a_tag a) (a_leaf a) true (a_mod a)
              | None => bare (negb (existsb (sprefix w) (skeys (entries t)))) true v
              end)) as (q & Q & Q1 & Q2 & Q3); auto.
  { fold w. rewrite (abs_get _ _ _ A'), s_set_get, str_eqb_refl. reflexivity. }
  exists t', id, (s_old w (entries t)), q. split; auto. split; auto.
  split; [rewrite Q1; now destruct (t_get t w)|].
  rewrite Q3. fold w. f_equal. now destruct (t_get t w).
Qed.

(** ** C03, C04: every other key is left alone *)
Theorem set_frame h t path v t' id old k a :
  reached t -> Set_ h t path v = Ok (t', id, old) ->
  t_get t k = Some a -> k <> runes (replace_byte 32 45 (full h path)) -> t_get t' k = Some a.
Proof.
  intros R E G Hk. pose proof (reached_wf t R) as WT.
  destruct (set_refines h t path v WT) as (t1 & id1 & E1 & WT' & A' & _).
  rewrite E in E1. inversion E1; subst t1 id1. rewrite (abs_get _ _ _ A'), s_set_get.
  unfold t_get in G. rewrite G.
  destruct (str_eqb _ k) eqn:Ek; auto. apply str_eqb_eq in Ek. congruence.
Qed.
Theorem set_old h t path v :
  reached t ->
  exists t' id, Set_ h t path v =
    Ok (t', id, match t_get t (runes (replace_byte 32 45 (full h path))) with
                | Some a => a_data a | None => GNil end).
Proof.
  intros R. pose proof (reached_wf t R) as WT.
  destruct (set_refines h t path v WT) as (t1 & id1 & E1 & _). exists t1, id1. exact E1.
Qed.

(** the reported key of every other node stays, too *)
Lemma ins_rel_frame w v fp nx l l' nx' id old k i :
  ins_rel w v fp nx l l' nx' id old -> In (k, i) l -> k <> w ->
  exists i', In (k, i') l' /\ i_key i' = i_key i /\ attr_of i' = attr_of i.
Proof.
  intros R Hin Hk.
  destruct R as [l1 i0 l2|l1 l2 Hp|l1 k0 i0 l2 Hp|l1 k0 k1 i0 l2 l3 P1 P2 P3 Hp].
  - apply in_app_or in Hin. destruct Hin as [Hin|[Hin|Hin]].
    + exists i. split; auto. apply in_or_app. auto.
    + inversion Hin; congruence.
    + exists i. split; auto. apply in_or_app. right. now right.
  - exists i. split; auto. apply in_app_or in Hin. apply in_or_app. destruct Hin; auto. right. now right.
  - apply in_app_or in Hin. destruct Hin as [Hin|[Hin|Hin]].
    + exists i. split; auto. apply in_or_app. auto.
    + inversion Hin; subst. exists (with_id nx i). split; auto. apply in_or_app. right. right. now left.
    + exists i. split; auto. apply in_or_app. right. right. now right.
  - apply in_app_or in Hin. destruct Hin as [Hin|[Hin|Hin]].
    + exists i. split; auto. apply in_or_app. auto.
    + inversion Hin; subst. exists (with_id nx i). split; auto. apply in_or_app. right. right. now left.
    + exists i. split; auto. apply in_or_app. right. right. right.
      apply in_app_or in Hin. apply in_or_app. destruct Hin; auto. right. now right.
Qed.
Theorem set_frame_key h t path v t' id old k n :
  reached t -> Set_ h t path v = Ok (t', id, old) ->
  In (k, n) (ents [] (root t)) -> k <> runes (replace_byte 32 45 (full h path)) ->
  exists n', In (k, n') (ents [] (root t')) /\ key n' = key n /\
             ndata n' = ndata n /\ ndesc n' = ndesc n /\ ncmt n' = ncmt n /\ ntag n' = ntag n /\
             isLeaf n' = isLeaf n /\ hasData n' = hasData n /\ modified n' = modified n.
Proof.
  intros R E Hin Hk. pose proof (reached_wf t R) as WT. unfold Set_ in E.
  destruct (insert_root_refines t (entries t) (replace_byte 32 45 (full h path)) v WT (abs_entries t))
    as (t1 & ir & Ei & _ & _ & _ & _ & I & _).
  rewrite Ei in E. cbn [bind] in E. inversion E; subst.
  assert (Hi : In (k, info_of n) (ients [] (root t))) by (apply in_ients; eauto).
  destruct (ins_rel_frame _ _ _ _ _ _ _ _ _ _ _ I Hi Hk) as (i' & Hi' & K & A).
  apply in_ients in Hi'. destruct Hi' as (n' & Hn' & <-). exists n'. split; auto.
  unfold attr_of in A. injection A as A1 A2 A3 A4 A5 A6 A7.
  rewrite !isLeaf_bit, !hasData_bit, !modified_bit. auto 10.
Qed.

(** ** C02: the last write counts *)
Definition no_remove (hist : list (hdl * op)) : Prop :=
  Forall (fun ho => match snd ho with ORemove _ => False | _ => True end) hist.

(** data after the callback of Update *)
Definition cb_data (os : list nodeop) (v : gval) : gval :=
  fold_left (fun x o => match o with NSetData v => v | NSetEmpty => GNil | _ => x end) os v.
(** value an operation writes, given the value before *)
Definition written (o : op) (old : gval) : gval :=
  match o with
  | OSet _ v | OSetEx _ v | OSetNode _ v _ _ => v
  | OUpdate _ f => cb_data (f old) GNil
  | OSetWith _ v f => cb_data (f old) v
  | _ => GNil
  end.
(** the value last written under key [k], if any *)
Fixpoint last_write (hist : list (hdl * op)) (k : skey) (cur : option gval) : option gval :=
  match hist with
  | [] => cur
  | (h, o) :: rest =>
      last_write rest k
        (match stored h o with
         | Some p => if str_eqb (runes p) k
                     then Some (written o (match cur with Some v => v | None => GNil end))
                     else cur
         | None => cur
         end)
  end.

Definition holds (m : smap) (k : skey) (cur : option gval) : Prop :=
  match sget m k with
  | Some a => a_data a = match cur with Some v => v | None => GNil end /\
              a_has a = match cur with Some _ => true | None => false end
  | None => cur = None
  end.

Lemma nodeops_data os a :
  a_data (fold_left (fun a o => s_nodeop o a) os a) = cb_data os (a_data a) /\
  a_has (fold_left (fun a o => s_nodeop o a) os a) =
    (a_has a || existsb (fun o => match o with NSetData _ => true | _ => false end) os).
Proof.
  revert a. unfold cb_data. induction os as [|o os IH]; intros a; cbn.
  - now rewrite orb_false_r.
  - destruct (IH (s_nodeop o a)) as [-> ->]. destruct o; cbn; auto; split; auto; now rewrite !orb_true_r.
Qed.

Lemma holds_set m w v f k cur :
  (forall x, holds m x (cur x)) ->
  (forall a, a_has a = true -> a_has (f a) = true) ->
  holds (s_upd w f (s_set w v m)) k
    (if str_eqb w k
     then Some (a_data (f (match sget m w with
            | Some a => Attr v (a_desc a) (a_cmt a) (a_tag a) (a_leaf a) true (a_mod a)
            | None => bare (negb (existsb (sprefix w) (skeys m))) true v
            end)))
     else cur k).
Proof.
  intros H Hf. unfold holds. rewrite s_upd_get, !s_set_get, str_eqb_refl.
  destruct (str_eqb w k) eqn:E.
  - cbn [option_map]. split; auto. apply Hf. now destruct (sget m w).
  - specialize (H k). unfold holds in H. destruct (sget m k); auto. rewrite H.
    destruct (existsb _ _); auto.
Qed.
Lemma holds_set0 m w v k cur :
  (forall x, holds m x (cur x)) ->
  holds (s_set w v m) k (if str_eqb w k then Some v else cur k).
Proof.
  intros H. pose proof (holds_set m w v (fun a => a) k cur H (fun a X => X)) as G.
  unfold holds in *. rewrite s_upd_get, !s_set_get, str_eqb_refl in G. rewrite s_set_get.
  destruct (str_eqb w k); auto. cbn in G. destruct (sget m w); cbn in *; auto.
Qed.
Lemma holds_upd m k0 f k cur :
  (forall a, a_data (f a) = a_data a /\ a_has (f a) = a_has a) ->
  holds m k cur -> holds (s_upd k0 f m) k cur.
Proof.
  intros Hf H. unfold holds in *. rewrite s_upd_get. destruct (str_eqb k0 k) eqn:E; auto.
  apply str_eqb_eq in E. subst k0. destruct (sget m k) as [a|]; cbn; auto.
  now destruct (Hf a) as [-> ->].
Qed.

Lemma step_holds h m o k cur :
  match o with ORemove _ | OSetComment _ _ _ | OSetTag _ _ => False | _ => True end ->
  (forall x, holds m x (cur x)) ->
  holds (fst (s_step (view_of h) m o)) k
    (match stored h o with
     | Some p => if str_eqb (runes p) k
                 then Some (written o (match cur k with Some v => v | None => GNil end)) else cur k
     | None => cur k
     end).
Proof.
  intros NR H. destruct o; cbn [s_step fst stored written view_of v_pfx]; try (now destruct NR).
  - now apply holds_set0.
  - now apply holds_set0.
  - set (w := runes (full h path)).
    assert (Hd : forall a, a_data (s_descs dc a) = a_data a /\ a_has (s_descs dc a) = a_has a)
      by (intros a; destruct dc as [|x [|y dc]]; auto).
    pose proof (holds_set m w v (s_descs dc) k cur H) as G. destruct (str_eqb w k); [|apply G].
    + specialize (G (fun a X => eq_trans (proj2 (Hd a)) X)). rewrite (proj1 (Hd _)) in G.
      destruct (sget m w); exact G.
    + intros a X. now rewrite (proj2 (Hd a)).
  - set (w := runes (full h path)).
    pose proof (holds_set m w GNil (s_nodeop NSetEmpty) k cur H (fun a X => X)) as G.
    destruct (str_eqb w k); exact G.
  - set (w := runes (full h path)).
    pose proof (holds_set m w GNil (fun a => fold_left (fun a o => s_nodeop o a) (f (s_old w m)) a) k cur H) as G.
    assert (Eo : str_eqb w k = true -> s_old w m = match cur k with Some v => v | None => GNil end).
    { intros E. apply str_eqb_eq in E. rewrite <- E. specialize (H w). unfold holds in H. unfold s_old.
      destruct (sget m w); [tauto|now rewrite H]. }
    destruct (str_eqb w k).
    + rewrite (proj1 (nodeops_data _ _)) in G. rewrite <- Eo by reflexivity.
      replace (cb_data (f (s_old w m)) GNil) with
        (cb_data (f (s_old w m)) (a_data match sget m w with
          | Some a => Attr GNil (a_desc a) (a_cmt a) (a_tag a) (a_leaf a) true (a_mod a)
          | None => bare (negb (existsb (sprefix w) (skeys m))) true GNil end)) by (now destruct (sget m w)).
      apply G. intros a X. now rewrite (proj2 (nodeops_data _ _)), X.
    + apply G. intros a X. now rewrite (proj2 (nodeops_data _ _)), X.
  - set (w := runes (replace_byte 32 45 (full h path))).
    pose proof (holds_set m w v (fun a => fold_left (fun a o => s_nodeop o a) (f (s_old w m)) a) k cur H) as G.
    assert (Eo : str_eqb w k = true -> s_old w m = match cur k with Some v => v | None => GNil end).
    { intros E. apply str_eqb_eq in E. rewrite <- E. specialize (H w). unfold holds in H. unfold s_old.
      destruct (sget m w); [tauto|now rewrite H]. }
    destruct (str_eqb w k).
    + rewrite (proj1 (nodeops_data _ _)) in G. rewrite <- Eo by reflexivity.
      replace (cb_data (f (s_old w m)) v) with
        (cb_data (f (s_old w m)) (a_data match sget m w with
          | Some a => Attr v (a_desc a) (a_cmt a) (a_tag a) (a_leaf a) true (a_mod a)
          | None => bare (negb (existsb (sprefix w) (skeys m))) true v end)) by (now destruct (sget m w)).
      apply G. intros a X. now rewrite (proj2 (nodeops_data _ _)), X.
    + apply G. intros a X. now rewrite (proj2 (nodeops_data _ _)), X.
  - destruct (s_query _ _ _) as [[? ?] ?]; apply H.
  - destruct (s_query _ _ _) as [[? ?] ?]; apply H.
  - destruct (s_query _ _ _) as [[? ?] ?]; apply H.
  - destruct (s_query _ _ _) as [[? ?] ?]; apply H.
Qed.

(** what a call other than Remove does to the map of a trie, patterns or not *)
Lemma step_nonremove rf h t o t' r :
  wf_tr t -> t_step rf h t o = Ok (t', r) -> (match o with ORemove _ => False | _ => True end) ->
  (stored h o <> None /\ abs (root t') (fst (s_step (view_of h) (entries t) o)) /\
     r = snd (s_step (view_of h) (entries t) o)) \/
  (stored h o = None /\
     (t' = t \/ exists k x, (x = NSetComment [] [] \/ (exists a b, x = NSetComment a b) \/ exists v, x = NSetTag v) /\
                 abs (root t') (s_upd k (s_nodeop x) (entries t)))).
Proof.
  intros WT E NR. destruct (stored h o) as [p|] eqn:Es.
  { left. split; [congruence|].
    destruct (write_refines rf h t (entries t) o WT (abs_entries t)) as (t1 & E1 & WT1 & A1); [congruence|].
    rewrite E in E1. inversion E1; subst. auto. }
  right. split; auto.
  destruct o; cbn [stored] in Es; try discriminate; cbn [t_step] in E.
  - unfold SetComment in E. destruct (search rf h t (full h path)) as [sr| |] eqn:Esr; try discriminate.
    cbn [bind] in E. destruct (s_node sr) as [n|] eqn:En; cbn [bind] in E; inversion E; subst; [|auto].
    right. destruct (search_in _ _ _ _ _ Esr n En) as (k & Hk & _). exists k, (NSetComment desc cmt).
    split; [eauto|]. pose proof (ents_look _ _ _ (proj1 (proj2 (proj1 WT))) Hk) as L.
    exact (proj2 (upd_refines' t _ k _ _ _ WT (abs_entries t) L (refl_nodeop (NSetComment desc cmt)))).
  - unfold SetTag in E. destruct (search rf h t (full h path)) as [sr| |] eqn:Esr; try discriminate.
    cbn [bind] in E. destruct (s_node sr) as [n|] eqn:En; cbn [bind] in E; inversion E; subst; [|auto].
    right. destruct (search_in _ _ _ _ _ Esr n En) as (k & Hk & _). exists k, (NSetTag tag).
    split; [eauto|]. pose proof (ents_look _ _ _ (proj1 (proj2 (proj1 WT))) Hk) as L.
    exact (proj2 (upd_refines' t _ k _ _ _ WT (abs_entries t) L (refl_nodeop (NSetTag tag)))).
  - destruct NR.
  - left. destruct (Get rf h t path) as [[v ok]| |]; cbn [bind] in E; inversion E; now subst.
  - left. destruct (MustGet rf h t path) as [v| |]; cbn [bind] in E; inversion E; now subst.
  - left. destruct (Query rf h t path) as [v| |]; cbn [bind] in E; inversion E; now subst.
  - left. destruct (Has rf h t path) as [v| |]; cbn [bind] in E; inversion E; now subst.
  - left. destruct (Search_ rf h t path) as [v| |]; cbn [bind] in E; inversion E; now subst.
  - left. destruct (Locate rf h t path) as [[[[[n br] pt] fd] kv]| |]; cbn [bind] in E; inversion E; now subst.
  - left. destruct (GetEx rf h t path) as [v| |]; cbn [bind] in E; inversion E; now subst.
  - left. destruct (GetDesc rf h t path) as [[v ok]| |]; cbn [bind] in E; inversion E; now subst.
  - left. destruct (GetComment rf h t path) as [[v ok]| |]; cbn [bind] in E; inversion E; now subst.
  - left. destruct (GetTag rf h t path) as [[v ok]| |]; cbn [bind] in E; inversion E; now subst.
Qed.

Lemma holds_ext m m' k cur : sget m k = sget m' k -> holds m k cur -> holds m' k cur.
Proof. unfold holds. now intros ->. Qed.

Lemma run_holds rf hist : forall t t' outs cur,
  wf_tr t -> t_run rf hist t = Ok (t', outs) -> no_remove hist ->
  (forall x, holds (entries t) x (cur x)) ->
  forall k, holds (entries t') k (last_write hist k (cur k)).
Proof.
  induction hist as [|[h o] hist IH]; intros t t' outs cur WT E NR H k; cbn [t_run last_write] in *.
  - inversion E; subst. apply H.
  - inversion NR as [|? ? N1 N2]; subst. cbn [snd] in N1.
    destruct (t_step rf h t o) as [[t1 r]| |] eqn:E1; try discriminate. cbn [bind] in E.
    destruct (t_run rf hist t1) as [[t2 rs]| |] eqn:E2; try discriminate. cbn [bind] in E.
    inversion E; subst.
    set (cur1 := fun x => match stored h o with
       | Some p => if str_eqb (runes p) x
                   then Some (written o (match cur x with Some v => v | None => GNil end)) else cur x
       | None => cur x end).
    apply (IH t1 t' rs cur1); auto; [exact (step_wf _ _ _ _ _ _ WT E1)|].
    intros x. destruct (step_nonremove _ _ _ _ _ _ WT E1 N1) as [(S & A & _)|(S & [->|(k0 & op & Hop & A)])].
    + apply holds_ext with (m := fst (s_step (view_of h) (entries t) o)); [symmetry; now apply abs_get|].
      apply step_holds; auto. destruct o; auto; now apply S.
    + unfold cur1. rewrite S. apply H.
    + unfold cur1. rewrite S.
      apply holds_ext with (m := s_upd k0 (s_nodeop op) (entries t)); [symmetry; now apply abs_get|].
      apply holds_upd; [|apply H]. intros a.
      destruct Hop as [->|[(x1 & x2 & ->)|(x1 & ->)]]; auto.
Qed.
Theorem last_write_wins rf hist t outs :
  t_run rf hist newTrie = Ok (t, outs) -> no_remove hist ->
  forall k, match t_get t k with
            | Some a => match last_write hist k None with
                        | Some v => a_data a = v /\ a_has a = true
                        | None => a_data a = GNil /\ a_has a = false
                        end
            | None => last_write hist k None = None
            end.
Proof.
  intros E NR k. pose proof (run_holds rf hist newTrie t outs (fun _ => None) newTrie_wf E NR) as H.
  assert (H0 : forall x, holds (entries newTrie) x None).
  { intros x. destruct x; cbn; auto. }
  specialize (H H0 k). unfold holds in H. fold (t_get t k) in H.
  destruct (t_get t k) as [a|]; auto. destruct (last_write hist k None); tauto.
Qed.
(** as seen by Query *)
Theorem last_write_query D rf hist t outs h p :
  plain_hist D hist -> t_run (S rf) hist newTrie = Ok (t, outs) -> no_remove hist ->
  D (hdelim h) ->
  match last_write hist (runes (full h p)) None with
  | Some v => exists q, Query (S rf) h t p = Ok q /\ q_data q = v
  | None => last_write hist (runes (full h p) ++ [hdelim h]) None = None -> hmode h <> ModeUp ->
            exists q, Query (S rf) h t p = Ok q /\ q_data q = GNil
  end.
Proof.
  intros PH E NR Hd. pose proof (last_write_wins _ _ _ _ E NR) as LW.
  assert (R : plain_reach D t) by (eapply plain_reach_hist; eauto).
  set (w := runes (full h p)). destruct (last_write hist w None) as [v|] eqn:El.
  - specialize (LW w). rewrite El in LW. destruct (t_get t w) as [a|] eqn:G; [|discriminate].
    destruct (query_present D rf h t p a R Hd G) as (q & Q & Q1 & _).
    exists q. split; auto. rewrite Q1. now destruct LW as [-> ->].
  - intros El2 Hm. destruct (plain_reach_inv D t R) as [WT PA].
    destruct (step_refines rf D h t (entries t) (OQuery p) Hd WT (abs_entries t) PA) as (t1 & E1 & _).
    cbn [t_step s_step view_of v_delim v_pfx v_up snd] in E1.
    destruct (Query (S rf) h t p) as [q| |]; cbn [bind] in E1; [|destruct (s_query _ _ _) as [[? ?] ?]; discriminate..].
    exists q. split; auto.
    destruct (s_query (hdelim h) (entries t) (s_search (hdelim h) (is_up h) (entries t) (full h p))) as [[v br] ok] eqn:Eq.
    cbn [snd] in E1. injection E1 as _ Ev _ _. rewrite Ev. clear Ev.
    unfold s_query in Eq. unfold s_search in Eq.
    replace (is_up h) with false in Eq by (unfold is_up; destruct (hmode h); congruence).
    cbn [s_first] in Eq. fold w in Eq.
    assert (Hk : forall k, last_write hist k None = None ->
              forall a, sget (entries t) k = Some a -> (if a_has a then a_data a else GNil) = GNil).
    { intros k Hk a Ha. specialize (LW k). fold (t_get t k) in Ha. rewrite Ha, Hk in LW.
      now destruct LW as [-> ->]. }
    destruct (s_probe (hdelim h) (entries t) w) as [k| |] eqn:Ep; cbn [s_hit] in Eq; try (now inversion Eq).
    destruct (sget (entries t) k) as [a|] eqn:Ea; [|now inversion Eq].
    inversion Eq. apply (Hk k); auto.
    unfold s_probe in Ep. destruct (s_find (hdelim h) (entries t) w) as [k0|] eqn:Ef.
    + inversion Ep; subst k0. unfold s_find in Ef. destruct w as [|c w'].
      * inversion Ef; subst. exact El.
      * cbn [is_nil] in Ef. destruct (smem _ _); [inversion Ef; subst; exact El|].
        destruct (smem _ _); [inversion Ef; subst; exact El2|discriminate].
    + destruct (shortest _); [discriminate|]. destruct (filter _ _); discriminate.
Qed.
