(** Identities, in-place updates, removal and the lookup function of a tree. *)
From Coq Require Import List NArith Bool Arith Lia Permutation.
From Verif Require Import GoStr Utf8 Node NodeWf InsertProofs MatchProofs Trie.
Import ListNotations.
Open Scope nat_scope.

(** ** identities *)
Definition eids (l : list (key_t * info)) : list nat := map (fun e => i_id (snd e)) l.
Definition ids_ok (nx : nat) (l : list (key_t * info)) : Prop :=
  NoDup (eids l) /\ Forall (fun x => x < nx) (eids l).

Lemma eids_app a b : eids (a ++ b) = eids a ++ eids b.
Proof. apply map_app. Qed.

Lemma ins_rel_ids w v fp nx l l' nx' id old :
  ins_rel w v fp nx l l' nx' id old -> ids_ok nx l ->
  ids_ok nx' l' /\ nx <= nx' /\
  (exists i, In (w, i) l' /\ i_id i = id) /\
  (forall x, In x (eids l') -> In x (eids l) \/ nx <= x).
Proof.
  intros R [ND LT].
  assert (P : forall a b, Permutation a b -> NoDup b /\ Forall (fun x => x < nx') b ->
             NoDup a /\ Forall (fun x => x < nx') a).
  { intros a b H [H1 H2]. split.
    - eapply Permutation_NoDup; [symmetry; exact H|exact H1].
    - rewrite Forall_forall in *. intros x Hx. apply H2. eapply Permutation_in; eauto. }
  assert (Fr : forall x, nx <= x -> ~ In x (eids l)).
  { intros x Hx Hin. rewrite Forall_forall in LT. apply LT in Hin. lia. }
  assert (LT' : forall n, nx <= n -> Forall (fun x => x < n) (eids l)).
  { intros n Hn. eapply Forall_impl; [|exact LT]. cbn. intros; lia. }
  destruct R as [l1 i l2 | l1 l2 Hp | l1 k i l2 Hp | l1 k0 k i l2 l3 H1 H2 H3 Hp].
  - assert (E : eids (l1 ++ (w, with_data v i) :: l2) = eids (l1 ++ (w, i) :: l2))
      by (rewrite !eids_app; reflexivity).
    unfold ids_ok. rewrite E. split; [auto|]. split; [lia|]. split; [|auto].
    exists (with_data v i). split; [apply in_elt|reflexivity].
  - assert (E : Permutation (eids (l1 ++ (w, leaf_info nx fp v) :: l2)) (nx :: eids (l1 ++ l2)))
      by (rewrite !eids_app; cbn; symmetry; apply Permutation_middle).
    split; [|split; [lia|split]].
    + apply (P _ _ E). split; constructor; auto.
    + exists (leaf_info nx fp v). split; [apply in_elt|reflexivity].
    + intros x Hx. apply (Permutation_in _ E) in Hx. destruct Hx as [<-|Hx]; [right; lia|auto].
  - assert (E : Permutation (eids (l1 ++ (w, with_data v (cut_info w k i)) :: (k, with_id nx i) :: l2))
                            (nx :: eids (l1 ++ (k, i) :: l2))).
    { rewrite !eids_app; cbn. rewrite <- Permutation_middle.
      rewrite <- (Permutation_middle _ _ (i_id i)). rewrite <- Permutation_middle.
      apply perm_swap. }
    split; [|split; [lia|split]].
    + apply (P _ _ E). split; constructor; auto.
    + exists (with_data v (cut_info w k i)). split; [apply in_elt|reflexivity].
    + intros x Hx. apply (Permutation_in _ E) in Hx. destruct Hx as [<-|Hx]; [right; lia|auto].
  - assert (E : Permutation (eids (l1 ++ (k0, cut_info k0 k i) :: (k, with_id nx i) :: l2 ++
                   (w, leaf_info (S nx) fp v) :: l3))
                   (S nx :: nx :: eids (l1 ++ (k, i) :: l2 ++ l3))).
    { rewrite eids_app. cbn. rewrite eids_app. cbn. rewrite (eids_app l1). cbn.
      rewrite (eids_app l2).
      transitivity (eids l1 ++ (S nx :: nx :: i_id i :: eids l2 ++ eids l3)).
      - apply Permutation_app_head. rewrite <- (Permutation_middle (eids l2)).
        eapply perm_trans; [apply perm_skip, perm_swap|].
        eapply perm_trans; [apply perm_swap|]. apply perm_skip, perm_swap.
      - eapply perm_trans; [symmetry; apply Permutation_middle|]. apply perm_skip.
        symmetry. apply Permutation_middle. }
    split; [|split; [lia|split]].
    + apply (P _ _ E). split; constructor; auto; try constructor; auto.
      intros [X|X]; [lia|]. apply (Fr (S nx)); auto.
    + exists (leaf_info (S nx) fp v). split; [|reflexivity].
      apply in_or_app. right. right. right. apply in_elt.
    + intros x Hx. apply (Permutation_in _ E) in Hx. destruct Hx as [<-|[<-|Hx]]; auto; right; lia.
Qed.

(** ** lookup *)
Fixpoint lookup {B} (l : list (key_t * B)) (k : key_t) : option B :=
  match l with
  | [] => None
  | (k', b) :: t => if str_eqb k' k then Some b else lookup t k
  end.
Lemma lookup_in {B} (l : list (key_t * B)) k b :
  NoDup (map fst l) -> (lookup l k = Some b <-> In (k, b) l).
Proof.
  induction l as [|[k' b'] l IH]; intros N; cbn; [split; [discriminate|tauto]|].
  inversion N as [|? ? Hn N']; subst. destruct (str_eqb k' k) eqn:E.
  - apply str_eqb_eq in E. subst k'. split.
    + intros X. inversion X. auto.
    + intros [X|X]; [congruence|]. exfalso. apply Hn. apply in_map_iff. now exists (k, b).
  - rewrite IH by auto. split; [auto|]. intros [X|X]; auto. inversion X; subst.
    rewrite str_eqb_refl in E. discriminate.
Qed.
Lemma lookup_none {B} (l : list (key_t * B)) k :
  lookup l k = None <-> ~ In k (map fst l).
Proof.
  induction l as [|[k' b'] l IH]; cbn; [tauto|]. destruct (str_eqb k' k) eqn:E.
  - apply str_eqb_eq in E. subst. split; [discriminate|tauto].
  - rewrite IH. split; [|tauto]. intros H [X|X]; [|tauto]. subst.
    rewrite str_eqb_refl in E. discriminate.
Qed.

Definition look (s : node) (k : key_t) : option info := lookup (ients [] s) k.
Lemma look_in s k i : wfn s -> (look s k = Some i <-> In (k, i) (ients [] s)).
Proof. intros W. apply lookup_in. now apply ients_nodup. Qed.
Lemma look_none s k : look s k = None <-> ~ dom [] s k.
Proof.
  unfold look. rewrite lookup_none, map_fst_ients. unfold dom. split.
  - intros H [n Hn]. apply H. apply in_map_iff. now exists (k, n).
  - intros H Hin. apply in_map_iff in Hin. destruct Hin as ([k' n] & E & Hn). cbn in E. subst.
    apply H. now exists n.
Qed.
Lemma dom_ients s k : dom [] s k <-> exists i, In (k, i) (ients [] s).
Proof.
  unfold dom. split.
  - intros [n H]. exists (info_of n). apply in_ients. eauto.
  - intros [i H]. apply in_ients in H. destruct H as (n & H & _). now exists n.
Qed.
Lemma ents_look s k n : wfn s -> In (k, n) (ents [] s) -> look s k = Some (info_of n).
Proof. intros W H. apply look_in; auto. apply in_ients. eauto. Qed.

(** ** in-place update *)
Lemma map_ext_Forall' {A B} (f g : A -> B) l :
  Forall (fun x => f x = g x) l -> map f l = map g l.
Proof. induction 1; cbn; congruence. Qed.
Lemma flat_map_map {A B C} (f : B -> list C) (g : A -> B) l :
  flat_map f (map g l) = flat_map (fun x => f (g x)) l.
Proof. induction l; cbn; congruence. Qed.

(** [f] changes only attributes, as [fi] says *)
Definition attr_fun (f : node -> node) (fi : info -> info) : Prop :=
  forall n, npath (f n) = npath n /\ nkids (f n) = nkids n /\ info_of (f n) = fi (info_of n) /\
            i_id (fi (info_of n)) = nid n.
Definition upd_ent (id : nat) (fi : info -> info) (e : key_t * info) : key_t * info :=
  if i_id (snd e) =? id then (fst e, fi (snd e)) else e.

Lemma upd_eq id f n :
  upd id f n = set_kids (if nid n =? id then f n else n) (map (upd id f) (nkids n)).
Proof. now destruct n. Qed.

Lemma upd_npath id f fi n : attr_fun f fi -> npath (upd id f n) = npath n.
Proof.
  intros H. rewrite upd_eq. cbn. destruct (nid n =? id); auto. apply H.
Qed.
Lemma upd_ients id f fi pre n :
  attr_fun f fi -> ients pre (upd id f n) = map (upd_ent id fi) (ients pre n).
Proof.
  intros H. revert pre. induction n as [n IH] using node_ind'. intros pre.
  rewrite (ients_eq pre n), (ients_eq pre (upd id f n)), (upd_npath _ _ fi) by assumption.
  cbn [map]. f_equal.
  - rewrite upd_eq. unfold upd_ent. cbn [snd fst i_id].
    change (i_id (info_of n)) with (nid n).
    destruct (H n) as (H1 & H2 & H3 & H4). destruct (nid n =? id); cbn.
    + rewrite <- H3. destruct (f n); reflexivity.
    + destruct n; reflexivity.
  - rewrite upd_eq. cbn [nkids set_kids]. unfold kents. rewrite flat_map_map.
    rewrite map_flat_map. rewrite !flat_map_concat_map. f_equal. apply map_ext_Forall'.
    eapply Forall_impl; [|exact IH]. cbn. auto.
Qed.
Lemma upd_wfn id f fi n : attr_fun f fi -> wfn n -> wfn (upd id f n).
Proof.
  intros H. induction n as [n IH] using node_ind'. intros W.
  rewrite upd_eq. constructor; cbn [nkids set_kids].
  - rewrite map_map. erewrite map_ext; [apply (wfn_nodup _ W)|].
    intros c. unfold fst_rune. now rewrite (upd_npath _ _ fi).
  - apply Forall_map. rewrite Forall_forall in *. intros c Hc.
    destruct (wfn_kids _ _ W Hc). rewrite (upd_npath _ _ fi) by assumption. auto.
Qed.
Lemma map_upd_ent_fst id fi l : map fst (map (upd_ent id fi) l) = map fst l.
Proof.
  rewrite map_map. apply map_ext. intros [k i]. unfold upd_ent. cbn. now destruct (i_id i =? id).
Qed.

(** ** removal of a kid *)
Lemma rem_child_eq pid id n :
  rem_child pid id n =
    let ks := map (rem_child pid id) (nkids n) in
    if nid n =? pid then set_kids n (snd (remove_id id ks)) else set_kids n ks.
Proof. now destruct n. Qed.
Lemma rem_child_npath pid id n : npath (rem_child pid id n) = npath n.
Proof. rewrite rem_child_eq. cbn. now destruct (nid n =? pid). Qed.
Lemma rem_child_info pid id n : info_of (rem_child pid id n) = info_of n.
Proof. rewrite rem_child_eq. cbn. now destruct (nid n =? pid). Qed.
Lemma rem_child_nid pid id n : nid (rem_child pid id n) = nid n.
Proof. rewrite rem_child_eq. cbn. now destruct (nid n =? pid). Qed.

Definition ids (n : node) : list nat := eids (ients [] n).
Lemma eids_ients pre n : eids (ients pre n) = ids n.
Proof.
  unfold ids, eids, ients. rewrite !map_map. rewrite ents_shift, map_map. apply map_ext. reflexivity.
Qed.
Lemma ids_eq n : ids n = nid n :: flat_map ids (nkids n).
Proof.
  unfold ids. rewrite ients_eq. cbn. f_equal. unfold kents, eids. rewrite map_flat_map.
  rewrite !flat_map_concat_map. f_equal. apply map_ext. intros c. apply (eids_ients _ c).
Qed.
Lemma nid_in_ids pre n k m : In (k, m) (ents pre n) -> In (nid m) (ids n).
Proof.
  intros H. rewrite <- (eids_ients pre). unfold eids, ients. rewrite map_map. apply in_map_iff.
  exists (k, m). auto.
Qed.

Lemma rem_child_notin pid id n : ~ In pid (ids n) -> rem_child pid id n = n.
Proof.
  induction n as [n IH] using node_ind'. rewrite ids_eq. cbn [In]. intros H.
  rewrite rem_child_eq. cbn zeta. destruct (Nat.eqb_spec (nid n) pid); [tauto|].
  replace (map (rem_child pid id) (nkids n)) with (nkids n); [now destruct n|].
  rewrite <- (map_id (nkids n)) at 1. apply map_ext_Forall'. rewrite Forall_forall in *.
  intros c Hc. symmetry. apply IH; auto. intros X. apply H. right. apply in_flat_map. eauto.
Qed.

Lemma remove_id_spec id l n r :
  nid n = id -> (forall c, In c l -> nid c <> id) -> remove_id id (l ++ n :: r) = (true, l ++ r).
Proof.
  intros <- H. induction l as [|c l IH]; cbn.
  - now rewrite Nat.eqb_refl.
  - destruct (Nat.eqb_spec (nid c) (nid n)) as [E|_]; [exfalso; apply (H c); cbn; auto|].
    rewrite IH; auto. intros c' Hc'. apply H. cbn. auto.
Qed.

Lemma has_prefix_iff p k : has_prefix p k = true <-> prefix p k.
Proof.
  revert k; induction p as [|a p IH]; intros k; cbn.
  - split; auto. intros _. apply prefix_nil.
  - destruct k as [|b k]; [split; [discriminate|intros [z E]; discriminate]|].
    rewrite andb_true_iff, N.eqb_eq, IH. split.
    + intros [-> [z ->]]. now exists z.
    + intros [z E]. inversion E; subst. split; auto. now exists z.
Qed.
Lemma has_prefix_false p k : has_prefix p k = false <-> ~ prefix p k.
Proof. rewrite <- has_prefix_iff. destruct (has_prefix p k); split; congruence. Qed.

Definition without (k : key_t) (l : list (key_t * info)) : list (key_t * info) :=
  filter (fun e => negb (has_prefix k (fst e))) l.
Lemma without_app k a b : without k (a ++ b) = without k a ++ without k b.
Proof. apply filter_app. Qed.
Lemma without_all k l : (forall k' i, In (k', i) l -> prefix k k') -> without k l = [].
Proof.
  induction l as [|[k' i] l IH]; intros H; cbn; auto.
  replace (has_prefix k k') with true; cbn.
  - apply IH. intros k'' i' X. apply (H k'' i'). cbn. auto.
  - symmetry. apply has_prefix_iff. apply (H k' i). cbn. auto.
Qed.
Lemma without_none k l : (forall k' i, In (k', i) l -> ~ prefix k k') -> without k l = l.
Proof.
  induction l as [|[k' i] l IH]; intros H; cbn; auto.
  replace (has_prefix k k') with false; cbn.
  - f_equal. apply IH. intros k'' i' X. apply (H k'' i'). cbn. auto.
  - symmetry. apply has_prefix_false. apply (H k' i). cbn. auto.
Qed.

Lemma nodup_app_inv {A} (a b : list A) :
  NoDup (a ++ b) -> NoDup a /\ NoDup b /\ (forall x, In x a -> In x b -> False).
Proof.
  induction a as [|x a IH]; cbn; intros H.
  - split; [constructor|]. split; auto.
  - inversion H as [|? ? H1 H2]; subst. destruct (IH H2) as (Ha & Hb & Hd).
    split; [constructor; auto; intros X; apply H1; apply in_or_app; auto|].
    split; auto. intros y [<-|Hy] Hyb; [|eauto]. apply H1. apply in_or_app. auto.
Qed.
Lemma nodup_flat_map {A B} (f : A -> list B) l1 c l2 :
  NoDup (flat_map f (l1 ++ c :: l2)) ->
  NoDup (f c) /\ forall x c', In x (f c) -> In c' (l1 ++ l2) -> In x (f c') -> False.
Proof.
  rewrite flat_map_app. cbn. intros H. apply nodup_app_inv in H. destruct H as (_ & H & D1).
  apply nodup_app_inv in H. destruct H as (H & _ & D2). split; auto.
  intros x c' Hx Hc' Hx'. apply in_app_iff in Hc'. destruct Hc' as [Hc'|Hc'].
  - apply (D1 x); [apply in_flat_map; eauto|apply in_or_app; auto].
  - apply (D2 x); auto. apply in_flat_map; eauto.
Qed.

Lemma rem_child_ients pre s kp p n :
  wfn s -> NoDup (ids s) -> In (kp, p) (ents pre s) -> In n (nkids p) ->
  ients pre (rem_child (nid p) (nid n) s) = without (kp ++ npath n) (ients pre s) /\
  wfn (rem_child (nid p) (nid n) s).
Proof.
  revert pre. induction s as [s IH] using node_ind'. intros pre W ND Hp Hn.
  pose proof (wfn_forall _ W) as F. pose proof (wfn_nodup _ W) as NDk.
  rewrite ids_eq in ND. inversion ND as [|? ? NDs NDf]; subst.
  pose proof Hp as Hp0. apply ents_inv in Hp. destruct Hp as [[-> ->]|(c & Hc & Hp)].
  - (* the parent is this node *)
    rewrite rem_child_eq, Nat.eqb_refl. cbn zeta.
    replace (map (rem_child (nid s) (nid n)) (nkids s)) with (nkids s).
    2:{ rewrite <- (map_id (nkids s)) at 1. apply map_ext_Forall'. rewrite Forall_forall.
        intros c Hc. symmetry. apply rem_child_notin. intros X. apply NDs. apply in_flat_map. eauto. }
    apply in_split in Hn. destruct Hn as (l & r & Ek). rewrite Ek in *.
    rewrite remove_id_spec; auto.
    2:{ intros c Hc E. destruct (nodup_flat_map _ _ _ _ NDf) as [_ D].
        apply (D (nid n) c); [rewrite ids_eq; now left|apply in_or_app; auto|].
        rewrite <- E, ids_eq. now left. }
    cbn [snd]. split.
    + rewrite (ients_eq pre s), (ients_eq pre (set_kids s _)). cbn [npath set_kids nkids].
      change (info_of (set_kids s (l ++ r))) with (info_of s). rewrite Ek.
      rewrite kents_app, (kents_app _ l), kents_cons.
      change (?x :: ?a ++ ?b ++ ?c) with ([x] ++ a ++ b ++ c).
      rewrite !without_app. rewrite (without_all _ (ients _ n)).
      2:{ intros k' i Hin. now apply ients_prefix in Hin. }
      apply Forall_app in F. destruct F as [F1 F2].
      assert (Fn : npath n <> []) by (inversion F2; tauto).
      assert (F2' : Forall (fun k => npath k <> [] /\ wfn k) r) by (inversion F2; auto).
      destruct (npath n) as [|n0 np] eqn:En; [congruence|].
      assert (Hh : forall c, In c (l ++ r) -> fst_rune c <> Some n0).
      { intros c Hc E. rewrite map_app in NDk. cbn in NDk. apply NoDup_remove_2 in NDk.
        apply NDk. unfold fst_rune at 1. rewrite En. cbn. rewrite <- E, <- map_app. now apply in_map. }
      rewrite (without_none _ [_]), (without_none _ (kents _ l)), (without_none _ (kents _ r)).
      * reflexivity.
      * apply (kents_noprefix _ n0 np); auto. intros c Hc. apply Hh. apply in_or_app; auto.
      * apply (kents_noprefix _ n0 np); auto. intros c Hc. apply Hh. apply in_or_app; auto.
      * intros k' i [E|[]]. inversion E; subst. apply noprefix_self.
    + constructor; cbn [nkids set_kids].
      * rewrite map_app in *. cbn in NDk. now apply NoDup_remove_1 in NDk.
      * apply Forall_app in F. destruct F as [F1 F2]. inversion F2; subst. apply Forall_app; auto.
  - (* the parent is below the kid c *)
    assert (Hnp : nid s <> nid p).
    { intros E. apply NDs. apply in_flat_map. exists c. split; auto. rewrite E.
      eapply nid_in_ids; eauto. }
    rewrite rem_child_eq. cbn zeta. destruct (Nat.eqb_spec (nid s) (nid p)); [congruence|].
    apply in_split in Hc. destruct Hc as (l & r & Ek). rewrite Ek in *.
    destruct (nodup_flat_map _ _ _ _ NDf) as [NDc D].
    assert (Hpc : In (nid p) (ids c)) by (eapply nid_in_ids; eauto).
    assert (Em : map (rem_child (nid p) (nid n)) (l ++ c :: r) =
                 l ++ rem_child (nid p) (nid n) c :: r).
    { rewrite map_app. cbn. f_equal; [|f_equal].
      - rewrite <- (map_id l) at 2. apply map_ext_Forall'. rewrite Forall_forall. intros c' Hc'.
        apply rem_child_notin. intros X. apply (D (nid p) c'); auto. apply in_or_app; auto.
      - rewrite <- (map_id r) at 2. apply map_ext_Forall'. rewrite Forall_forall. intros c' Hc'.
        apply rem_child_notin. intros X. apply (D (nid p) c'); auto. apply in_or_app; auto. }
    rewrite Em.
    apply Forall_app in F. destruct F as [F1 F2]. inversion F2 as [|? ? [Fne Fw] F3]; subst.
    apply Forall_app in IH. destruct IH as [_ IH]. inversion IH as [|? ? IHc _]; subst.
    destruct (IHc (pre ++ npath s) Fw NDc Hp Hn) as [E1 W1].
    split.
    + rewrite (ients_eq pre s), (ients_eq pre (set_kids s _)). cbn [npath set_kids nkids].
      change (info_of (set_kids s _)) with (info_of s). rewrite Ek.
      rewrite kents_app, (kents_app _ l), !kents_cons, E1.
      change (?x :: ?a ++ ?b ++ ?c) with ([x] ++ a ++ b ++ c).
      rewrite !without_app.
      pose proof (ents_kid_head _ _ _ _ Fne Hp) as (r0 & y & Er & Ey).
      assert (Hh : forall c', In c' (l ++ r) -> fst_rune c' <> Some r0).
      { intros c' Hc' E. rewrite map_app in NDk. cbn in NDk. apply NoDup_remove_2 in NDk.
        apply NDk. rewrite Er, <- E, <- map_app. now apply in_map. }
      assert (Ekk : kp ++ npath n = (pre ++ npath s) ++ r0 :: (y ++ npath n))
        by (rewrite Ey, <- app_assoc; reflexivity).
      rewrite Ekk.
      rewrite (without_none _ [_]), (without_none _ (kents _ l)), (without_none _ (kents _ r)).
      * reflexivity.
      * apply (kents_noprefix _ r0 (y ++ npath n)); auto. intros c' Hc'. apply Hh. apply in_or_app; auto.
      * apply (kents_noprefix _ r0 (y ++ npath n)); auto. intros c' Hc'. apply Hh. apply in_or_app; auto.
      * intros k' i [E|[]]. inversion E; subst. apply noprefix_self.
    + constructor; cbn [nkids set_kids].
      * rewrite map_app in *. cbn in *. unfold fst_rune at 2. now rewrite rem_child_npath.
      * apply Forall_app. split; auto. constructor; auto. rewrite rem_child_npath. auto.
Qed.
