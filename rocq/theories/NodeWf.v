(** Entries of a tree and its well-formedness. *)
From Coq Require Import List NArith Bool Arith Lia.
From Verif Require Import GoStr Node.
Import ListNotations.
Open Scope nat_scope.

(** ** Induction over trees *)
Lemma node_ind' (P : node -> Prop) :
  (forall n, Forall P (nkids n) -> P n) -> forall n, P n.
Proof.
  intros H. fix IH 1. intros n. apply H.
  destruct n as [a b c ks e f g h i]. cbn.
  induction ks as [|k ks IHks]; constructor; [apply IH | apply IHks].
Qed.

(** ** Prefixes of keys *)
Definition key_t := list rune.
Definition prefix (p k : key_t) : Prop := exists y, k = p ++ y.
(** proper prefix *)
Definition pprefix (p k : key_t) : Prop := exists c y, k = p ++ c :: y.
(** longest common prefix *)
Fixpoint lcp (a b : key_t) : key_t :=
  match a, b with
  | x :: a', y :: b' => if (x =? y)%N then x :: lcp a' b' else []
  | _, _ => []
  end.

Lemma prefix_refl k : prefix k k.
Proof. exists []. now rewrite app_nil_r. Qed.
Lemma prefix_app p q k : prefix (p ++ q) k -> prefix p k.
Proof. intros [y ->]. exists (q ++ y). now rewrite app_assoc. Qed.
Lemma prefix_trans a b c : prefix a b -> prefix b c -> prefix a c.
Proof. intros [x ->] [y ->]. exists (x ++ y). now rewrite app_assoc. Qed.
Lemma prefix_app_r p q : prefix p (p ++ q).
Proof. now exists q. Qed.
Lemma pprefix_prefix p k : pprefix p k -> prefix p k.
Proof. intros (c & y & ->). now exists (c :: y). Qed.
Lemma pprefix_neq p k : pprefix p k -> p <> k.
Proof.
  intros (c & y & ->) H. apply (f_equal (@length _)) in H.
  rewrite app_length in H. cbn in H. lia.
Qed.
Lemma prefix_len p k : prefix p k -> length p <= length k.
Proof. intros [y ->]. rewrite app_length. lia. Qed.
Lemma pprefix_len p k : pprefix p k -> length p < length k.
Proof. intros (c & y & ->). rewrite app_length. cbn. lia. Qed.
Lemma prefix_cases p k : prefix p k -> p = k \/ pprefix p k.
Proof.
  intros [[|c y] ->]; [left; now rewrite app_nil_r | right; now exists c, y].
Qed.
Lemma prefix_nil k : prefix [] k.
Proof. now exists k. Qed.
Lemma app_inj_head {A} (a b : A) x u v : x ++ a :: u = x ++ b :: v -> a = b /\ u = v.
Proof. intros H. apply app_inv_head in H. now inversion H. Qed.
Lemma prefix_antisym a b : prefix a b -> prefix b a -> a = b.
Proof.
  intros H1 H2. destruct (prefix_cases _ _ H1) as [E|H]; [exact E|].
  apply pprefix_len in H. apply prefix_len in H2. lia.
Qed.
(** two prefixes of one key are comparable *)
Lemma prefix_comparable a b k : prefix a k -> prefix b k -> prefix a b \/ prefix b a.
Proof.
  intros [x ->] [y E]. revert b E. induction a as [|c a IH]; intros b E.
  - left. apply prefix_nil.
  - destruct b as [|c' b]; [right; apply prefix_nil|].
    cbn in E. inversion E; subst. destruct (IH _ H1) as [[z ->]|[z ->]].
    + left. now exists z.
    + right. now exists z.
Qed.

Lemma lcp_prefix_l a b : prefix (lcp a b) a.
Proof.
  revert b; induction a as [|x a IH]; intros [|y b]; cbn; try apply prefix_nil.
  destruct (x =? y)%N; [|apply prefix_nil]. destruct (IH b) as [z E]. exists z. cbn. congruence.
Qed.
Lemma lcp_comm a b : lcp a b = lcp b a.
Proof.
  revert b; induction a as [|x a IH]; intros [|y b]; cbn; auto.
  rewrite N.eqb_sym. destruct (N.eqb_spec y x); [subst; f_equal; auto | auto].
Qed.
Lemma lcp_prefix_r a b : prefix (lcp a b) b.
Proof. rewrite lcp_comm. apply lcp_prefix_l. Qed.
Lemma lcp_app p a b : lcp (p ++ a) (p ++ b) = p ++ lcp a b.
Proof. induction p; cbn; auto. rewrite N.eqb_refl. congruence. Qed.
Lemma lcp_self_app p a : lcp p (p ++ a) = p.
Proof.
  induction p; cbn; [reflexivity|]. rewrite N.eqb_refl. congruence.
Qed.
Lemma lcp_app_self p a : lcp (p ++ a) p = p.
Proof. rewrite lcp_comm. apply lcp_self_app. Qed.
Lemma lcp_refl p : lcp p p = p.
Proof. rewrite <- (app_nil_r p) at 2. apply lcp_self_app. Qed.
Lemma lcp_diff p a b x y : a <> b -> lcp (p ++ a :: x) (p ++ b :: y) = p.
Proof.
  intros H. rewrite lcp_app. cbn. destruct (N.eqb_spec a b); [congruence|]. apply app_nil_r.
Qed.
(** every pair of keys is a common part followed by diverging rests *)
Lemma lcp_split a b :
  exists x y, a = lcp a b ++ x /\ b = lcp a b ++ y /\
    match x, y with c :: _, e :: _ => c <> e | _, _ => True end.
Proof.
  revert b; induction a as [|c a IH]; intros [|e b]; cbn.
  - now exists [], [].
  - now exists [], (e :: b).
  - now exists (c :: a), [].
  - destruct (N.eqb_spec c e).
    + subst. destruct (IH b) as (x & y & E1 & E2 & H). exists x, y. cbn.
      rewrite <- E1, <- E2. auto.
    + now exists (c :: a), (e :: b).
Qed.
Lemma cpl_len_lcp a b : firstn (cpl_len a b) b = lcp a b.
Proof.
  revert b; induction a as [|x a IH]; intros [|y b]; cbn; auto.
  destruct (N.eqb_spec x y); cbn; [subst; f_equal; auto | reflexivity].
Qed.
Lemma cpl_len_length a b : cpl_len a b = length (lcp a b).
Proof.
  revert b; induction a as [|x a IH]; intros [|y b]; cbn; auto.
  destruct (x =? y)%N; cbn; auto.
Qed.

(** ** Entries *)
(** all nodes with their full keys, in preorder; [pre] is the key of the parent *)
Fixpoint ents (pre : key_t) (n : node) : list (key_t * node) :=
  (pre ++ npath n, n) :: flat_map (ents (pre ++ npath n)) (nkids n).

(** the observable fields of a node, including its identity, without key piece and kids *)
Record info := Info {
  i_id : nat;
  i_key : gostring;
  i_data : gval;
  i_desc : gostring;
  i_cmt : gostring;
  i_tag : gval;
  i_type : N }.
Definition info_of (n : node) : info :=
  Info (nid n) (npathS n) (ndata n) (ndesc n) (ncmt n) (ntag n) (ntype n).
Definition ient (e : key_t * node) : key_t * info := (fst e, info_of (snd e)).
Definition ients (pre : key_t) (n : node) : list (key_t * info) := map ient (ents pre n).
Definition kents (pre : key_t) (ks : list node) : list (key_t * info) :=
  flat_map (ients pre) ks.

Lemma ents_eq pre n :
  ents pre n = (pre ++ npath n, n) :: flat_map (ents (pre ++ npath n)) (nkids n).
Proof. now destruct n. Qed.
Lemma map_flat_map {A B C} (f : B -> C) (g : A -> list B) l :
  map f (flat_map g l) = flat_map (fun x => map f (g x)) l.
Proof. induction l; cbn; auto. rewrite map_app. congruence. Qed.
Lemma ients_eq pre n :
  ients pre n = (pre ++ npath n, info_of n) :: kents (pre ++ npath n) (nkids n).
Proof. unfold ients at 1. rewrite ents_eq. cbn. now rewrite map_flat_map. Qed.
Lemma kents_app pre a b : kents pre (a ++ b) = kents pre a ++ kents pre b.
Proof. apply flat_map_app. Qed.
Lemma kents_cons pre a b : kents pre (a :: b) = ients pre a ++ kents pre b.
Proof. reflexivity. Qed.
Lemma kents_nil pre : kents pre [] = [].
Proof. reflexivity. Qed.

Lemma in_ients pre n k i : In (k, i) (ients pre n) <-> exists m, In (k, m) (ents pre n) /\ info_of m = i.
Proof.
  unfold ients. rewrite in_map_iff. split.
  - intros ([k' m] & E & H). inversion E; subst. eauto.
  - intros (m & H & <-). exists (k, m). auto.
Qed.

Lemma ents_shift pre n : ents pre n = map (fun e => (pre ++ fst e, snd e)) (ents [] n).
Proof.
  revert pre. induction n as [n IH] using node_ind'. intros pre.
  rewrite (ents_eq pre), (ents_eq []). cbn [map fst snd app]. f_equal.
  rewrite map_flat_map. induction IH as [|k ks Hk _ IHks]; cbn; [reflexivity|].
  rewrite IHks. f_equal. rewrite (Hk (pre ++ npath n)), (Hk (npath n)), map_map.
  apply map_ext. intros [a b]. cbn. now rewrite app_assoc.
Qed.

Lemma ents_prefix pre n k m : In (k, m) (ents pre n) -> prefix (pre ++ npath n) k.
Proof.
  revert pre. induction n as [n IH] using node_ind'. intros pre.
  rewrite ents_eq. intros [E|H].
  - inversion E. apply prefix_refl.
  - apply in_flat_map in H. destruct H as (c & Hc & H).
    rewrite Forall_forall in IH. apply (IH _ Hc) in H. now apply prefix_app in H.
Qed.
Lemma ients_prefix pre n k i : In (k, i) (ients pre n) -> prefix (pre ++ npath n) k.
Proof. rewrite in_ients. intros (m & H & _). eapply ents_prefix; eauto. Qed.

(** ** Well-formed trees *)
Definition fst_rune (n : node) : option rune := hd_error (npath n).

(** kids have non-empty fragments with pairwise different first runes *)
Inductive wfn : node -> Prop :=
| wfn_intro n :
    NoDup (map fst_rune (nkids n)) ->
    Forall (fun k => npath k <> [] /\ wfn k) (nkids n) ->
    wfn n.

Lemma wfn_kids n k : wfn n -> In k (nkids n) -> npath k <> [] /\ wfn k.
Proof. intros H Hin. inversion H; subst. rewrite Forall_forall in H1. auto. Qed.
Lemma wfn_nodup n : wfn n -> NoDup (map fst_rune (nkids n)).
Proof. now inversion 1. Qed.
Lemma wfn_forall n : wfn n -> Forall (fun k => npath k <> [] /\ wfn k) (nkids n).
Proof. now inversion 1. Qed.
Lemma wfn_ents pre n k m : wfn n -> In (k, m) (ents pre n) -> wfn m.
Proof.
  revert pre. induction n as [n IH] using node_ind'. intros pre W.
  rewrite ents_eq. intros [E|H].
  - now inversion E; subst.
  - apply in_flat_map in H. destruct H as (c & Hc & H).
    rewrite Forall_forall in IH. eapply IH; eauto. now apply (wfn_kids n).
Qed.

(** the key of an entry below a kid continues with the kid's first rune *)
Lemma ents_kid_head pre c k m :
  npath c <> [] -> In (k, m) (ents pre c) ->
  exists r y, fst_rune c = Some r /\ k = pre ++ r :: y.
Proof.
  intros Hne H. apply ents_prefix in H. destruct H as [z ->].
  unfold fst_rune. destruct (npath c) as [|r p]; [congruence|].
  exists r, (p ++ z). split; [reflexivity|]. now rewrite <- app_assoc.
Qed.
Lemma kents_head pre ks k i :
  Forall (fun c => npath c <> [] /\ wfn c) ks -> In (k, i) (kents pre ks) ->
  exists c r y, In c ks /\ fst_rune c = Some r /\ k = pre ++ r :: y /\ In (k, i) (ients pre c).
Proof.
  intros F H. unfold kents in H. apply in_flat_map in H. destruct H as (c & Hc & H).
  rewrite Forall_forall in F. destruct (F _ Hc) as [Hne _].
  pose proof H as H0. apply in_ients in H. destruct H as (m & H & _).
  apply ents_kid_head in H; auto. destruct H as (r & y & E1 & E2). eauto 8.
Qed.

Lemma nodup_fst_eq ks a b :
  NoDup (map fst_rune ks) -> In a ks -> In b ks -> fst_rune a = fst_rune b -> a = b.
Proof.
  induction ks as [|k ks IH]; cbn; [tauto|]. intros H Ha Hb E.
  inversion H; subst. destruct Ha as [<-|Ha], Hb as [<-|Hb]; auto.
  - exfalso. apply H2. rewrite E. now apply in_map.
  - exfalso. apply H2. rewrite <- E. now apply in_map.
Qed.

(** keys of entries are pairwise different *)
Lemma ents_nodup pre n : wfn n -> NoDup (map fst (ents pre n)).
Proof.
  revert pre. induction n as [n IH] using node_ind'. intros pre W.
  rewrite ents_eq. cbn [map fst]. inversion W as [n' ND F]; subst.
  constructor.
  - rewrite in_map_iff. intros ([k m] & E & H). cbn in E. subst k.
    apply in_flat_map in H. destruct H as (c & Hc & H).
    rewrite Forall_forall in F. apply ents_kid_head in H; [|now apply F].
    destruct H as (r & y & _ & E). apply (f_equal (@length _)) in E.
    rewrite !app_length in E. cbn in E. lia.
  - rewrite map_flat_map. clear W. set (pre' := pre ++ npath n). clearbody pre'.
    induction (nkids n) as [|c ks IHks]; cbn; [constructor|].
    inversion IH; inversion ND; inversion F; subst.
    assert (Hd : forall k, In k (map fst (ents pre' c)) ->
                 ~ In k (flat_map (fun x => map fst (ents pre' x)) ks)).
    { intros k H Hk. apply in_map_iff in H. destruct H as ([k' m] & E & H). cbn in E; subst.
      apply in_flat_map in Hk. destruct Hk as (c' & Hc' & Hk).
      apply in_map_iff in Hk. destruct Hk as ([k'' m'] & E & Hk). cbn in E; subst.
      apply ents_kid_head in H; [|tauto].
      destruct H as (r & y & E1 & E2). subst k.
      rewrite Forall_forall in H10. apply ents_kid_head in Hk; [|now apply H10].
      destruct Hk as (r' & y' & E3 & E4). apply app_inj_head in E4. destruct E4 as [<- _].
      apply H5. rewrite E1, <- E3. now apply in_map. }
    assert (N1 : NoDup (map fst (ents pre' c))) by (apply H1; tauto).
    assert (N2 : NoDup (flat_map (fun x => map fst (ents pre' x)) ks)) by auto.
    clear - N1 N2 Hd. induction (map fst (ents pre' c)) as [|a l IHl]; cbn; auto.
    inversion N1; subst. constructor.
    + rewrite in_app_iff. intros [H|H]; [tauto|]. apply (Hd a); cbn; auto.
    + apply IHl; auto. intros k H. apply Hd. cbn. auto.
Qed.
Lemma map_fst_ients pre n : map fst (ients pre n) = map fst (ents pre n).
Proof. unfold ients. rewrite map_map. apply map_ext. now intros [a b]. Qed.
Lemma ients_nodup pre n : wfn n -> NoDup (map fst (ients pre n)).
Proof. rewrite map_fst_ients. apply ents_nodup. Qed.

Lemma nodup_fun {B} (l : list (key_t * B)) k a b :
  NoDup (map fst l) -> In (k, a) l -> In (k, b) l -> a = b.
Proof.
  induction l as [|[k' c] l IH]; cbn; [tauto|]. intros N H H'.
  inversion N as [|? ? Hn N']; subst.
  assert (X : forall v, In (k', v) l -> False).
  { intros v Hv. apply Hn. apply in_map_iff. now exists (k', v). }
  destruct H as [E|H], H' as [E'|H'].
  - congruence.
  - inversion E; subst. exfalso; eauto.
  - inversion E'; subst. exfalso; eauto.
  - auto.
Qed.
Lemma ents_fun pre n k a b : wfn n -> In (k, a) (ents pre n) -> In (k, b) (ents pre n) -> a = b.
Proof. intros W. apply nodup_fun. now apply ents_nodup. Qed.
Lemma ients_fun pre n k a b : wfn n -> In (k, a) (ients pre n) -> In (k, b) (ients pre n) -> a = b.
Proof. intros W. apply nodup_fun. now apply ients_nodup. Qed.

(** entries at keys extending an entry's key are below its node *)
Lemma ents_below pre n k m k' m' :
  wfn n -> In (k, m) (ents pre n) -> In (k', m') (ents pre n) -> prefix k k' ->
  exists pre', k = pre' ++ npath m /\ In (k', m') (ents pre' m).
Proof.
  revert pre. induction n as [n IH] using node_ind'. intros pre W H H' P.
  rewrite ents_eq in H, H'. destruct H as [E|H].
  - inversion E; subst. exists pre. split; auto. rewrite ents_eq. auto.
  - apply in_flat_map in H. destruct H as (c & Hc & H).
    destruct (wfn_kids _ _ W Hc) as [Hne Wc].
    pose proof H as Hh. apply ents_kid_head in Hh; auto. destruct Hh as (r & y & E1 & E2).
    destruct H' as [E|H'].
    + inversion E; subst. apply prefix_len in P. rewrite !app_length in P. cbn in P. lia.
    + apply in_flat_map in H'. destruct H' as (c' & Hc' & H').
      destruct (wfn_kids _ _ W Hc') as [Hne' _].
      pose proof H' as Hh'. apply ents_kid_head in Hh'; auto.
      destruct Hh' as (r' & y' & E1' & E2').
      assert (r' = r).
      { destruct P as [z E]. rewrite E2, E2' in E.
        rewrite <- (app_assoc (pre ++ npath n)) in E.
        now apply app_inj_head in E. }
      subst r'.
      assert (c = c') by (apply (nodup_fst_eq (nkids n)); auto using wfn_nodup; congruence). subst c'.
      rewrite Forall_forall in IH. eapply IH; eauto.
Qed.

(** the set of keys is closed under longest common prefixes *)
Lemma ents_lcp pre n k1 m1 k2 m2 :
  wfn n -> In (k1, m1) (ents pre n) -> In (k2, m2) (ents pre n) ->
  exists m, In (lcp k1 k2, m) (ents pre n).
Proof.
  revert pre. induction n as [n IH] using node_ind'. intros pre W H1 H2.
  pose proof (ents_prefix _ _ _ _ H1) as [x1 P1].
  pose proof (ents_prefix _ _ _ _ H2) as [x2 P2].
  rewrite ents_eq in H1, H2. destruct H1 as [E1|H1].
  { injection E1 as E1a E1b. rewrite <- E1a, P2, lcp_self_app. exists n. rewrite ents_eq. now left. }
  destruct H2 as [E2|H2].
  { injection E2 as E2a E2b. rewrite <- E2a, P1, lcp_app_self. exists n. rewrite ents_eq. now left. }
  apply in_flat_map in H1, H2. destruct H1 as (c1 & Hc1 & H1), H2 as (c2 & Hc2 & H2).
  destruct (wfn_kids _ _ W Hc1) as [Hn1 W1], (wfn_kids _ _ W Hc2) as [Hn2 W2].
  pose proof (ents_kid_head _ _ _ _ Hn1 H1) as (r1 & y1 & F1 & E1).
  pose proof (ents_kid_head _ _ _ _ Hn2 H2) as (r2 & y2 & F2 & E2).
  destruct (N.eq_dec r1 r2) as [->|Hr].
  - assert (c1 = c2) by (apply (nodup_fst_eq (nkids n)); auto using wfn_nodup; congruence). subst c2.
    rewrite Forall_forall in IH. destruct (IH _ Hc1 _ W1 H1 H2) as [m Hm].
    exists m. rewrite ents_eq. right. apply in_flat_map. eauto.
  - rewrite E1, E2, lcp_diff by assumption. exists n. rewrite ents_eq. now left.
Qed.
Lemma ients_lcp pre n k1 i1 k2 i2 :
  wfn n -> In (k1, i1) (ients pre n) -> In (k2, i2) (ients pre n) ->
  exists i, In (lcp k1 k2, i) (ients pre n).
Proof.
  rewrite !in_ients. intros W (m1 & H1 & _) (m2 & H2 & _).
  destruct (ents_lcp _ _ _ _ _ _ W H1 H2) as [m H]. exists (info_of m).
  apply in_ients. eauto.
Qed.
