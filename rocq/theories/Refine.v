(** The tree operations refine the map operations of Spec.v. *)
From Coq Require Import List NArith Bool Arith Lia Permutation.
From Verif Require Import GoStr Utf8 Node NodeWf InsertProofs MatchProofs Trie TreeOps Spec.
Import ListNotations.
Open Scope nat_scope.

(** ** flags *)
Lemma land_pow2_testbit t n : negb (N.land t (2 ^ n) =? 0)%N = N.testbit t n.
Proof.
  destruct (N.testbit t n) eqn:E.
  - destruct (N.eqb_spec (N.land t (2 ^ n)) 0) as [H|H]; auto. exfalso.
    assert (X : N.testbit (N.land t (2 ^ n)) n = true)
      by (rewrite N.land_spec, E, N.pow2_bits_true; reflexivity).
    rewrite H, N.bits_0 in X. discriminate.
  - replace (N.land t (2 ^ n)) with 0%N; auto. symmetry. apply N.bits_inj. intros m.
    rewrite N.land_spec, N.bits_0, N.pow2_bits_eqb. destruct (N.eqb_spec n m); [subst; now rewrite E|].
    apply andb_false_r.
Qed.
Definition t_leaf (t : N) : bool := N.testbit t 0.
Definition t_has (t : N) : bool := N.testbit t 2.
Definition t_mod (t : N) : bool := N.testbit t 3.
Lemma land1_01 t : N.land t 1 = (if N.testbit t 0 then 1 else 0)%N.
Proof.
  apply N.bits_inj. intros m. rewrite N.land_spec. change 1%N with (2 ^ 0)%N at 1.
  rewrite N.pow2_bits_eqb. destruct (N.eqb_spec 0 m) as [<-|H].
  - rewrite andb_true_r. now destruct (N.testbit t 0).
  - rewrite andb_false_r. destruct (N.testbit t 0); [|now rewrite N.bits_0].
    change 1%N with (2 ^ 0)%N. rewrite N.pow2_bits_eqb. symmetry. now apply N.eqb_neq.
Qed.
Lemma isLeaf_bit n : isLeaf n = t_leaf (ntype n).
Proof.
  unfold isLeaf, t_leaf. change NTMask with 1%N. rewrite land1_01.
  now destruct (N.testbit (ntype n) 0).
Qed.
Lemma isBranch_bit n : isBranch n = negb (t_leaf (ntype n)).
Proof.
  unfold isBranch, t_leaf. change NTMask with 1%N. rewrite land1_01.
  now destruct (N.testbit (ntype n) 0).
Qed.
Lemma hasData_bit n : hasData n = t_has (ntype n).
Proof. unfold hasData, t_has. change NTData with (2 ^ 2)%N. apply land_pow2_testbit. Qed.
Lemma modified_bit n : modified n = t_mod (ntype n).
Proof. unfold modified, t_mod. change NTModified with (2 ^ 3)%N. apply land_pow2_testbit. Qed.

(** ** abstraction *)
Definition attr_of (i : info) : attr :=
  Attr (i_data i) (i_desc i) (i_cmt i) (i_tag i)
       (t_leaf (i_type i)) (t_has (i_type i)) (t_mod (i_type i)).

Definition abs (s : node) (m : smap) : Prop :=
  forall k, option_map attr_of (look s k) = sget m k.

Definition wf_tr (t : tr) : Prop :=
  wf_root (root t) /\ ids_ok (next t) (ients [] (root t)).

Lemma common_lcp a b : common a b = lcp a b.
Proof. reflexivity. Qed.

(** ** facts about the map *)
Lemma smem_in m k : smem m k = true <-> In k (skeys m).
Proof.
  unfold smem. rewrite existsb_exists. split.
  - intros (k' & H & E). apply str_eqb_eq in E. now subst.
  - intros H. exists k. split; auto. apply str_eqb_refl.
Qed.
Lemma sget_none m k : sget m k = None <-> ~ In k (skeys m).
Proof.
  induction m as [|[k' a] m IH]; cbn; [tauto|]. destruct (str_eqb k' k) eqn:E.
  - apply str_eqb_eq in E. subst. split; [discriminate|tauto].
  - rewrite IH. split; [|tauto]. intros H [X|X]; [|tauto]. subst.
    rewrite str_eqb_refl in E. discriminate.
Qed.
Lemma smem_sget m k : smem m k = true <-> exists a, sget m k = Some a.
Proof.
  rewrite smem_in. destruct (sget m k) as [a|] eqn:E.
  - split; eauto. intros _. destruct (in_dec (list_eq_dec N.eq_dec) k (skeys m)); auto.
    apply sget_none in n. congruence.
  - apply sget_none in E. split; [tauto|intros [a H]; discriminate].
Qed.
Lemma smem_false m k : smem m k = false <-> sget m k = None.
Proof.
  rewrite sget_none, <- smem_in. destruct (smem m k); split; intros; congruence.
Qed.
Lemma sget_app a b k :
  sget (a ++ b) k = match sget a k with Some x => Some x | None => sget b k end.
Proof.
  induction a as [|[k' x] a IH]; cbn; auto. now destruct (str_eqb k' k).
Qed.
Lemma sget_in m k a : sget m k = Some a -> In (k, a) m.
Proof.
  induction m as [|[k' x] m IH]; cbn; [discriminate|]. destruct (str_eqb k' k) eqn:E.
  - intros X. inversion X; subst. apply str_eqb_eq in E. subst. auto.
  - auto.
Qed.
Lemma sprefix_iff p k : sprefix p k = true <-> pprefix p k.
Proof.
  unfold sprefix. rewrite andb_true_iff, negb_true_iff, has_prefix_iff. split.
  - intros [H E]. apply prefix_cases in H. destruct H as [->|H]; auto.
    rewrite str_eqb_refl in E. discriminate.
  - intros H. split; [now apply pprefix_prefix|]. apply pprefix_neq in H.
    destruct (str_eqb p k) eqn:E; auto. apply str_eqb_eq in E. congruence.
Qed.

Lemma forks_get w m k :
  sget (forks w m) k =
    if existsb (fun k' => str_eqb (common w k') k && negb (smem m k)) (skeys m)
    then Some (bare false false GNil) else None.
Proof.
  unfold forks. generalize (skeys m) as ks. induction ks as [|k' ks IH]; cbn; auto.
  destruct (smem m (common w k')) eqn:E; cbn.
  - rewrite IH. destruct (str_eqb (common w k') k) eqn:Ek; cbn; auto.
    apply str_eqb_eq in Ek. subst k. now rewrite E.
  - destruct (str_eqb (common w k') k) eqn:Ek; cbn; auto.
    apply str_eqb_eq in Ek. subst k. now rewrite E.
Qed.

(** the map after storing, key by key *)
Lemma s_set_get w v m k :
  sget (s_set w v m) k =
    if str_eqb w k then
      Some (match sget m w with
            | Some a => Attr v (a_desc a) (a_cmt a) (a_tag a) (a_leaf a) true (a_mod a)
            | None => bare (negb (existsb (sprefix w) (skeys m))) true v
            end)
    else match sget m k with
         | Some a => Some a
         | None => if existsb (fun k' => str_eqb (common w k') k) (skeys m)
                   then Some (bare false false GNil) else None
         end.
Proof.
  unfold s_set. cbn [sget]. destruct (str_eqb w k); auto.
  rewrite sget_app, forks_get. destruct (sget m k) as [a|] eqn:E.
  - assert (M : smem m k = true) by (apply smem_sget; eauto). rewrite M. cbn.
    replace (existsb _ _) with false; auto. symmetry.
    induction (skeys m); cbn; auto. now rewrite andb_false_r.
  - assert (M : smem m k = false) by now apply smem_false. rewrite M. cbn.
    replace (existsb (fun k' => str_eqb (common w k') k && true) (skeys m))
      with (existsb (fun k' => str_eqb (common w k') k) (skeys m)); [now destruct (existsb _ _)|].
    induction (skeys m); cbn; auto. rewrite andb_true_r. congruence.
Qed.

Section Abs.
Context (s : node) (m : smap) (W : wfn s) (A : abs s m).
Lemma abs_dom k : In k (skeys m) <-> dom [] s k.
Proof.
  specialize (A k). destruct (look s k) as [i|] eqn:E; cbn in A.
  - split; intros _.
    + apply dom_ients. exists i. now apply look_in.
    + apply smem_in, smem_sget. eauto.
  - symmetry in A. apply sget_none in A. apply look_none in E. tauto.
Qed.
Lemma abs_smem k : smem m k = true <-> dom [] s k.
Proof. rewrite smem_in. apply abs_dom. Qed.
Lemma abs_smem_false k : smem m k = false <-> ~ dom [] s k.
Proof. rewrite <- abs_smem. destruct (smem m k); split; congruence. Qed.
Lemma abs_ents k n : In (k, n) (ents [] s) -> sget m k = Some (attr_of (info_of n)).
Proof. intros H. rewrite <- A, (ents_look _ _ _ W H). reflexivity. Qed.
End Abs.

(** ** insertion *)
Lemma attr_with_data v i :
  attr_of (with_data v i) =
    let a := attr_of i in Attr v (a_desc a) (a_cmt a) (a_tag a) (a_leaf a) true (a_mod a).
Proof.
  unfold attr_of, with_data, t_leaf, t_has, t_mod. cbn [i_data i_desc i_cmt i_tag i_type].
  unfold NTData. rewrite !N.lor_spec. f_equal.
  - apply orb_false_r.
  - apply orb_true_r.
  - apply orb_false_r.
Qed.

Lemma ins_rel_old w v fp nx l l' nx' id old :
  ins_rel w v fp nx l l' nx' id old ->
  forall k i, In (k, i) l -> k <> w ->
  exists i', In (k, i') l' /\ (i' = i \/ i' = with_id nx i).
Proof.
  intros R k i H Hk.
  destruct R as [l1 i0 l2 | l1 l2 Hp | l1 k1 i0 l2 Hp | l1 k0 k1 i0 l2 l3 H1 H2 H3 Hp];
    rewrite in_app_iff in H; cbn [In] in H.
  - exists i. split; auto. rewrite in_app_iff. cbn. destruct H as [H|[H|H]]; auto. congruence.
  - exists i. split; auto. rewrite in_app_iff. cbn. tauto.
  - destruct H as [H|[H|H]].
    + exists i. split; auto. rewrite in_app_iff. auto.
    + inversion H; subst. exists (with_id nx i). split; auto. rewrite in_app_iff. cbn. auto.
    + exists i. split; auto. rewrite in_app_iff. cbn. auto.
  - rewrite in_app_iff in H. destruct H as [H|[H|[H|H]]].
    + exists i. split; auto. rewrite in_app_iff. auto.
    + inversion H; subst. exists (with_id nx i). split; auto. rewrite in_app_iff. cbn. auto.
    + exists i. split; auto. rewrite in_app_iff. cbn. rewrite in_app_iff. auto.
    + exists i. split; auto. rewrite in_app_iff. cbn. rewrite in_app_iff. cbn. auto 8.
Qed.

Lemma ins_rel_new w v fp nx l l' nx' id old :
  ins_rel w v fp nx l l' nx' id old ->
  forall k i', In (k, i') l' ->
  k = w \/ (exists i, In (k, i) l /\ (i' = i \/ i' = with_id nx i)) \/
  (exists k1 i1, In (k1, i1) l /\ pprefix k k1 /\ pprefix k w /\ k = lcp w k1 /\ i' = cut_info k k1 i1).
Proof.
  intros R k i' H.
  destruct R as [l1 i0 l2 | l1 l2 Hp | l1 k1 i0 l2 Hp | l1 k0 k1 i0 l2 l3 H1 H2 H3 Hp];
    rewrite in_app_iff in H; cbn [In] in H.
  - destruct H as [H|[H|H]].
    + right. left. exists i'. rewrite in_app_iff. auto.
    + left. congruence.
    + right. left. exists i'. rewrite in_app_iff. cbn. auto.
  - destruct H as [H|[H|H]].
    + right. left. exists i'. rewrite in_app_iff. auto.
    + left. congruence.
    + right. left. exists i'. rewrite in_app_iff. cbn. auto.
  - destruct H as [H|[H|[H|H]]].
    + right. left. exists i'. rewrite in_app_iff. auto.
    + left. congruence.
    + inversion H; subst. right. left. exists i0. rewrite in_app_iff. cbn. auto.
    + right. left. exists i'. rewrite in_app_iff. cbn. auto.
  - rewrite in_app_iff in H. cbn [In] in H. destruct H as [H|[H|[H|[H|[H|H]]]]].
    + right. left. exists i'. rewrite in_app_iff. auto.
    + inversion H; subst. right. right. exists k1, i0. rewrite in_app_iff. cbn. auto 8.
    + inversion H; subst. right. left. exists i0. rewrite in_app_iff. cbn. auto.
    + right. left. exists i'. rewrite in_app_iff. cbn. rewrite in_app_iff. auto 6.
    + left. congruence.
    + right. left. exists i'. rewrite in_app_iff. cbn. rewrite in_app_iff. auto 6.
Qed.

(** the entry stored at the key itself *)
Lemma ins_rel_at w v fp nx l l' nx' id old :
  ins_rel w v fp nx l l' nx' id old -> NoDup (map fst l') ->
  (exists i, In (w, i) l /\ In (w, with_data v i) l' /\ id = i_id i /\ old = i_data i) \/
  (~ In w (map fst l) /\ (forall k i, In (k, i) l -> ~ prefix w k) /\
   (exists nid, In (w, leaf_info nid fp v) l' /\ id = nid /\ nx <= nid) /\ old = GNil) \/
  (~ In w (map fst l) /\ old = GNil /\
   exists k i, In (k, i) l /\ pprefix w k /\ In (w, with_data v (cut_info w k i)) l' /\ id = i_id i).
Proof.
  intros R ND.
  destruct R as [l1 i0 l2 | l1 l2 Hp | l1 k1 i0 l2 Hp | l1 k0 k1 i0 l2 l3 H1 H2 H3 Hp].
  - left. exists i0. repeat split; auto; apply in_elt.
  - right. left. split.
    + intros X. apply in_map_iff in X. destruct X as ([k i] & E & X). cbn in E. subst.
      apply (Hp _ _ X). apply prefix_refl.
    + split; auto. split; auto. exists nx. split; [apply in_elt|auto].
  - right. right. split.
    + rewrite map_app in *. cbn in *. apply NoDup_remove_2 in ND. exact ND.
    + split; auto. exists k1, i0. repeat split; auto; apply in_elt.
  - right. left. split.
    + intros X. apply in_map_iff in X. destruct X as ([k i] & E & X). cbn in E. subst.
      apply (Hp _ _ X). apply prefix_refl.
    + split; auto. split; auto. exists (S nx). split; [|split; [auto|lia]].
      rewrite in_app_iff. cbn. rewrite in_app_iff. cbn. auto 8.
Qed.

Lemma attr_with_id id i : attr_of (with_id id i) = attr_of i.
Proof. reflexivity. Qed.
Lemma attr_cut k0 k i : attr_of (cut_info k0 k i) = bare false false GNil.
Proof. reflexivity. Qed.

Lemma insert_abs s s' m w v fp nx nx' id old :
  wfn s -> wfn s' -> abs s m ->
  ins_rel w v fp nx (ients [] s) (ients [] s') nx' id old ->
  abs s' (s_set w v m) /\ old = s_old w m.
Proof.
  intros W W' A R.
  pose proof (ins_rel_at _ _ _ _ _ _ _ _ _ R (ients_nodup [] s' W')) as At.
  assert (Ext : forall k i, In (k, i) (ients [] s) -> pprefix w k ->
            existsb (sprefix w) (skeys m) = true).
  { intros k i H P. apply existsb_exists. exists k. split; [|now apply sprefix_iff].
    apply (abs_dom s m W A). apply dom_ients. eauto. }
  assert (Old : old = s_old w m).
  { unfold s_old. rewrite <- (A w).
    destruct At as [(i & Hi & _ & _ & ->)|[(Hn & _ & _ & ->)|(Hn & -> & _)]].
    - apply look_in in Hi; auto. rewrite Hi. reflexivity.
    - apply lookup_none in Hn. unfold look. rewrite Hn. reflexivity.
    - apply lookup_none in Hn. unfold look. rewrite Hn. reflexivity. }
  split; auto. intros k. rewrite s_set_get. destruct (str_eqb w k) eqn:E.
  - apply str_eqb_eq in E. subst k.
    destruct At as [(i & Hi & Hi' & _)|[(Hn & Hp & (n0 & Hi' & _) & _)|(Hn & _ & k & i & Hi & P & Hi' & _)]];
      apply look_in in Hi'; auto; rewrite Hi'; cbn [option_map]; f_equal.
    + apply look_in in Hi; auto. rewrite <- (A w), Hi. cbn [option_map]. apply attr_with_data.
    + apply lookup_none in Hn. rewrite <- (A w). unfold look. rewrite Hn. cbn [option_map].
      replace (existsb (sprefix w) (skeys m)) with false; [reflexivity|]. symmetry.
      apply not_true_iff_false. intros X. apply existsb_exists in X. destruct X as (k & Hk & X).
      apply sprefix_iff in X. apply (abs_dom s m W A), dom_ients in Hk. destruct Hk as [i Hi].
      apply (Hp _ _ Hi). now apply pprefix_prefix.
    + apply lookup_none in Hn. rewrite <- (A w). unfold look. rewrite Hn. cbn [option_map].
      rewrite (Ext _ _ Hi P), attr_with_data. reflexivity.
  - assert (Hkw : k <> w) by (intros ->; rewrite str_eqb_refl in E; discriminate).
    rewrite <- (A k). destruct (look s k) as [i|] eqn:L; cbn [option_map].
    + apply look_in in L; auto. destruct (ins_rel_old _ _ _ _ _ _ _ _ _ R _ _ L Hkw) as (i' & Hi' & D).
      apply look_in in Hi'; auto. rewrite Hi'. cbn. destruct D as [->| ->]; reflexivity.
    + apply lookup_none in L. rewrite map_fst_ients in L.
      destruct (look s' k) as [i'|] eqn:L'; cbn [option_map].
      * apply look_in in L'; auto.
        destruct (ins_rel_new _ _ _ _ _ _ _ _ _ R _ _ L') as [X|[(i & Hi & _)|(k1 & i1 & H1 & P1 & P2 & E1 & ->)]].
        -- congruence.
        -- exfalso. apply L. rewrite <- map_fst_ients. apply in_map_iff. now exists (k, i).
        -- replace (existsb _ _) with true; [reflexivity|]. symmetry. apply existsb_exists.
           exists k1. split; [apply (abs_dom s m W A), dom_ients; eauto|].
           apply str_eqb_eq. now rewrite common_lcp.
      * replace (existsb _ _) with false; [reflexivity|]. symmetry.
        apply not_true_iff_false. intros X. apply existsb_exists in X. destruct X as (k1 & Hk & X).
        apply str_eqb_eq in X. rewrite common_lcp in X. subst k.
        apply (abs_dom s m W A), dom_ients in Hk. destruct Hk as [i Hi].
        apply look_none in L'. apply L'. apply dom_ients.
        assert (Hw : exists i, In (w, i) (ients [] s'))
          by (destruct At as [(?&?&?&?)|[(?&?&(?&?&?)&?)|(?&?&?&?&?&?&?&?)]]; eauto).
        destruct Hw as [iw Hw].
        destruct (list_eq_dec N.eq_dec k1 w) as [->|Hk1].
        -- exists iw. now rewrite lcp_refl.
        -- destruct (ins_rel_old _ _ _ _ _ _ _ _ _ R _ _ Hi Hk1) as (i1' & Hi1' & _).
           eapply ients_lcp; eauto.
Qed.

Lemma plen_ients pre s : plen pre s <-> forall k i, In (k, i) (ients pre s) -> length k <= length (i_key i).
Proof.
  unfold plen. split.
  - intros H k i Hi. apply in_ients in Hi. destruct Hi as (n & Hn & <-). now apply H.
  - intros H k n Hn. apply (H k (info_of n)). apply in_ients. eauto.
Qed.

Lemma ins_rel_plen w v fp nx l l' nx' id old :
  ins_rel w v fp nx l l' nx' id old -> length w <= length fp ->
  (forall k i, In (k, i) l -> length k <= length (i_key i)) ->
  (forall k i, In (k, i) l' -> length k <= length (i_key i)).
Proof.
  intros R Hw H k i' Hin.
  assert (C : forall k k1 i1, In (k1, i1) l -> pprefix k k1 ->
              length k <= length (i_key (cut_info k k1 i1))).
  { intros k2 k1 i1 Hi P. cbn. rewrite firstn_length. apply H in Hi.
    apply pprefix_len in P. lia. }
  destruct R as [l1 i0 l2 | l1 l2 Hp | l1 k1 i0 l2 Hp | l1 k0 k1 i0 l2 l3 H1 H2 H3 Hp];
    rewrite in_app_iff in Hin; cbn [In] in Hin.
  - destruct Hin as [X|[X|X]].
    + apply H. rewrite in_app_iff. auto.
    + inversion X; subst. apply (H _ i0). apply in_elt.
    + apply H. rewrite in_app_iff. cbn. auto.
  - destruct Hin as [X|[X|X]].
    + apply H. rewrite in_app_iff. auto.
    + inversion X; subst. exact Hw.
    + apply H. rewrite in_app_iff. cbn. auto.
  - destruct Hin as [X|[X|[X|X]]].
    + apply H. rewrite in_app_iff. auto.
    + inversion X; subst. apply (C k k1 i0); auto. apply in_elt.
    + inversion X; subst. apply (H _ i0). apply in_elt.
    + apply H. rewrite in_app_iff. cbn. auto.
  - rewrite in_app_iff in Hin. cbn [In] in Hin. destruct Hin as [X|[X|[X|[X|[X|X]]]]].
    + apply H. rewrite in_app_iff. auto.
    + inversion X; subst. apply (C (lcp w k1) k1 i0); auto. apply in_elt.
    + inversion X; subst. apply (H _ i0). apply in_elt.
    + apply H. rewrite in_app_iff. cbn. rewrite in_app_iff. auto.
    + inversion X; subst. exact Hw.
    + apply H. rewrite in_app_iff. cbn. rewrite in_app_iff. auto.
Qed.

(** insertion of a path into a tree *)
Lemma insert_root_refines t m path v :
  wf_tr t -> abs (root t) m ->
  exists t' ir, insert_root t path v = Ok (t', ir) /\
    wf_tr t' /\ abs (root t') (s_set (runes path) v m) /\
    ir_old ir = s_old (runes path) m /\
    (exists i, look (root t') (runes path) = Some i /\ i_id i = ir_id ir) /\
    ins_rel (runes path) v path (next t) (ients [] (root t)) (ients [] (root t')) (next t')
            (ir_id ir) (ir_old ir) /\
    Forall (eq (path, ir_old ir, ir_id ir)) (ir_calls ir) /\
    (ir_calls ir = [] <-> nkids (root t) = [] /\ runes path <> []).
Proof.
  intros [WR I] A. unfold insert_root.
  destruct (insert_root_spec (root t) (runes path) path v (next t) WR)
    as (ir & -> & W' & Hp' & R & C1 & C2).
  cbn [bind]. exists (Tr (ir_node ir) (ir_next ir)), ir. split; auto. cbn [root next].
  destruct WR as (Hp & W & PL).
  destruct (ins_rel_ids _ _ _ _ _ _ _ _ _ R I) as (I' & _ & (iw & Hiw & Eiw) & _).
  destruct (insert_abs _ _ m _ _ _ _ _ _ _ W W' A R) as [A' O].
  split; [split; [split; [|split]|]|]; auto.
  - apply plen_ients. eapply ins_rel_plen; eauto; [apply runes_length|]. now apply plen_ients.
  - split; auto. split; auto. split; auto. exists iw. split; auto. now apply look_in.
Qed.

(** ** in-place changes *)
Lemma upd_lookup id fi l k :
  lookup (map (upd_ent id fi) l) k =
    match lookup l k with
    | Some i => Some (if i_id i =? id then fi i else i)
    | None => None
    end.
Proof.
  induction l as [|[k' i] l IH]; cbn; auto. unfold upd_ent at 1. cbn [snd fst].
  destruct (i_id i =? id) eqn:E; destruct (str_eqb k' k) eqn:Ek; auto; now rewrite E.
Qed.
Lemma ids_inj nx l k1 i1 k2 i2 :
  ids_ok nx l -> In (k1, i1) l -> In (k2, i2) l -> i_id i1 = i_id i2 -> k1 = k2 /\ i1 = i2.
Proof.
  intros [ND _]. unfold eids in ND. induction l as [|[k i] l IH]; cbn; [tauto|].
  cbn in ND. inversion ND as [|? ? Hn ND']; subst. intros H1 H2 E.
  assert (X : forall k' i', In (k', i') l -> i_id i' = i_id i -> False).
  { intros k' i' Hi Ei. apply Hn. apply in_map_iff. exists (k', i'). auto. }
  destruct H1 as [H1|H1], H2 as [H2|H2].
  - inversion H1; inversion H2; subst. split; congruence.
  - inversion H1; subst. exfalso. eauto.
  - inversion H2; subst. exfalso. eauto.
  - auto.
Qed.

Lemma s_upd_get w f m k :
  sget (s_upd w f m) k = if str_eqb w k then option_map f (sget m w) else sget m k.
Proof.
  unfold s_upd. destruct (sget m w) eqn:E; cbn.
  - now destruct (str_eqb w k).
  - destruct (str_eqb w k) eqn:Ek; auto. apply str_eqb_eq in Ek. now subst.
Qed.

Lemma upd_refines t m w i f fi fa :
  wf_tr t -> abs (root t) m -> look (root t) w = Some i ->
  attr_fun f fi -> (forall j, i_key (fi j) = i_key j) ->
  (forall j, attr_of (fi j) = fa (attr_of j)) -> (forall j, i_id (fi j) = i_id j) ->
  let t' := Tr (upd (i_id i) f (root t)) (next t) in
  wf_tr t' /\ abs (root t') (s_upd w fa m).
Proof.
  intros [(Hp & W & PL) I] A L Hf Hk Ha Hi t'. subst t'. unfold wf_tr, wf_root. cbn [root next].
  rewrite (upd_npath _ _ fi) by assumption.
  assert (W' : wfn (upd (i_id i) f (root t))) by (eapply upd_wfn; eauto).
  split; [split; [split; [auto|split; [auto|]]|]|].
  - apply plen_ients. rewrite (upd_ients _ _ fi) by assumption. intros k j Hin.
    apply in_map_iff in Hin. destruct Hin as ([k' j'] & E & Hin). unfold upd_ent in E. cbn in E.
    rewrite plen_ients in PL. specialize (PL _ _ Hin).
    destruct (i_id j' =? i_id i); inversion E; subst; rewrite ?Hk; auto.
  - rewrite (upd_ients _ _ fi) by assumption. unfold ids_ok, eids in *.
    rewrite map_map. erewrite map_ext; [exact I|]. intros [k j]. unfold upd_ent. cbn.
    destruct (i_id j =? i_id i); cbn; auto.
  - intros k. unfold look. rewrite (upd_ients _ _ fi) by assumption. rewrite upd_lookup.
    fold (look (root t) k). rewrite s_upd_get. destruct (str_eqb w k) eqn:Ek.
    + apply str_eqb_eq in Ek. subst k. rewrite <- (A w), L, Nat.eqb_refl. cbn. now rewrite Ha.
    + rewrite <- (A k). destruct (look (root t) k) as [j|] eqn:Lk; cbn; auto.
      destruct (Nat.eqb_spec (i_id j) (i_id i)) as [E|]; auto. exfalso.
      apply look_in in L, Lk; auto. destruct (ids_inj _ _ _ _ _ _ I L Lk (eq_sym E)) as [-> _].
      rewrite str_eqb_refl in Ek. discriminate.
Qed.

(** ** removal *)
Lemma filter_lookup {B} (p : key_t -> bool) (l : list (key_t * B)) k :
  lookup (filter (fun e => p (fst e)) l) k = if p k then lookup l k else None.
Proof.
  induction l as [|[k' b] l IH]; cbn.
  - now destruct (p k).
  - destruct (p k') eqn:E; cbn; rewrite IH; destruct (str_eqb k' k) eqn:Ek; auto.
    + apply str_eqb_eq in Ek. subst. now rewrite E.
    + apply str_eqb_eq in Ek. subst. now rewrite E.
Qed.
Lemma filter_sget (p : key_t -> bool) (m : smap) k :
  sget (filter (fun e => p (fst e)) m) k = if p k then sget m k else None.
Proof.
  induction m as [|[k' b] l IH]; cbn.
  - now destruct (p k).
  - destruct (p k') eqn:E; cbn; rewrite IH; destruct (str_eqb k' k) eqn:Ek; auto.
    + apply str_eqb_eq in Ek. subst. now rewrite E.
    + apply str_eqb_eq in Ek. subst. now rewrite E.
Qed.

Lemma remove_refines t m kp p n :
  wf_tr t -> abs (root t) m -> In (kp, p) (ents [] (root t)) -> In n (nkids p) ->
  let t' := Tr (rem_child (nid p) (nid n) (root t)) (next t) in
  wf_tr t' /\
  abs (root t') (filter (fun e => negb (has_prefix (kp ++ npath n) (fst e))) m) /\
  ients [] (root t') = without (kp ++ npath n) (ients [] (root t)).
Proof.
  intros [(Hp & W & PL) I] A Hin Hn t'. subst t'. unfold wf_tr, wf_root. cbn [root next].
  destruct I as [ND LT]. fold (ids (root t)) in ND.
  destruct (rem_child_ients [] (root t) kp p n W ND Hin Hn) as [E W'].
  rewrite rem_child_npath.
  split; [split; [split; [auto|split; [auto|]]|]|split; [|exact E]].
  - apply plen_ients. rewrite E. intros k i Hi. apply filter_In in Hi.
    rewrite plen_ients in PL. now apply PL.
  - rewrite E. unfold ids_ok, eids, without in *. unfold ids, eids in ND. clear - ND LT.
    induction (ients [] (root t)) as [|e l IH]; cbn in *; [split; constructor|].
    inversion ND as [|? ? Hn ND']; inversion LT as [|? ? Hl LT']; subst.
    destruct (IH ND' LT') as [H1 H2]. destruct (negb _); cbn; [|auto]. split; constructor; auto.
    intros X. apply Hn. apply in_map_iff in X. destruct X as (e' & Ee & X).
    apply filter_In in X. apply in_map_iff. exists e'. tauto.
  - intros k. unfold look. rewrite E. unfold without.
    rewrite (filter_lookup (fun x => negb (has_prefix (kp ++ npath n) x))).
    rewrite (filter_sget (fun x => negb (has_prefix (kp ++ npath n) x))).
    rewrite <- (A k). fold (look (root t) k). now destruct (negb _).
Qed.
