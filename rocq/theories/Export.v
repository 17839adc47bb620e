(** What GetM and To return. *)
From Coq Require Import String.
From Coq Require Import List NArith Bool Arith Lia Permutation.
From Verif Require Import GoStr Utf8 Node NodeWf InsertProofs MatchProofs Trie TreeOps Spec Refine
  Climb ApiRefine Reach Effect Derived Derived2 Derived3 Derived4 Dur Cvter Nested CvterProofs.
Import ListNotations.
Open Scope nat_scope.
Open Scope list_scope.

(** ** specification *)
(** the nested map [m] holds the values of the keys in the relation [E], cut at the delimiter *)
Definition nested_of (d : rune) (E : gostring -> gval -> Prop) (m : gmap) : Prop :=
  forall q, q <> [] ->
    (forall v, is_map v = false ->
      (nget (GMap m) q = Some v <->
       exists s, E s v /\ q = split_str s (enc1 d) /\ forall s' v', E s' v' -> ~ seg_below d s' s)) /\
    ((exists m', nget (GMap m) q = Some (GMap m')) <->
       (exists s v, E s v /\ below q (split_str s (enc1 d))) /\
       forall s v, E s v -> ~ begins (split_str s (enc1 d)) q).
(** the flat map [m] holds the keys in the relation [E] *)
Definition flat_of (E : gostring -> gval -> Prop) (m : gmap) : Prop :=
  NoDup (map fst m) /\ forall s v, mget m s = Some v <-> E s v.
(** the filter looks only at the key and the attributes of a node *)
Definition filter_by (o : mopts) (fa : gostring -> attr -> bool) : Prop :=
  forall n, passes o n = fa (key n) (attr_of (info_of n)).
(** the exported keys that pass *)
Definition section (d : rune) (t : tr) (fa : gostring -> attr -> bool) (k0 : skey) (s : gostring) (v : gval) : Prop :=
  exists a, exports d t s v a /\ fa s a = true /\ prefix k0 (runes s).

Lemma nested_ext d (E E' : gostring -> gval -> Prop) m :
  (forall s v, E s v <-> E' s v) -> nested_of d E m -> nested_of d E' m.
Proof.
  intros X N q Hq. destruct (N q Hq) as [N1 N2]. split.
  - intros v Hv. rewrite (N1 v Hv). split; intros (s & H1 & H2 & H3); exists s; (split; [now apply X|]); split; auto;
      intros s' v' H'; apply X in H'; eauto.
  - rewrite N2. split; intros [(s & v & H1 & H2) H3]; (split; [exists s, v; split; auto; now apply X|]);
      intros s' v' H'; apply X in H'; eauto.
Qed.

Definition functional (l : list (gostring * gval)) : Prop :=
  forall k v v', In (k, v) l -> In (k, v') l -> v = v'.
Lemma last_of_fun l q v :
  (forall k v v', In (k, v) l -> In (k, v') l -> v = v') -> (last_of l q = Some v <-> In (q, v) l).
Proof.
  intros F. split; [apply last_of_in|]. intros H.
  destruct (last_of_some l q) as [w W]; [apply in_map_iff; exists (q, v); auto|].
  rewrite W. f_equal. apply last_of_in in W. eauto.
Qed.
(** paths [f s] for the keys [s] of a list *)
Lemma puts_nested d (l : list (gostring * gval)) :
  functional l -> (forall s v, In (s, v) l -> is_map v = false) ->
  nested_of d (fun s v => In (s, v) l) (puts (map (cut_key d) l) []).
Proof.
  intros F S q Hq.
  assert (S0 : scalars l) by (apply Forall_forall; intros [k v] H; eapply S; eauto).
  destruct (puts_spec _ (cut_ok d l S0) q Hq) as [S1 S2]. split.
  - intros v Hv. rewrite (S1 v Hv), last_of_fun.
    2:{ intros k v1 v2 H1 H2. apply in_map_iff in H1, H2. destruct H1 as ([k1 w1] & E1 & H1), H2 as ([k2 w2] & E2 & H2).
        unfold cut_key in E1, E2. cbn [fst snd] in E1, E2. injection E1 as A1 A2. injection E2 as B1 B2. subst.
        apply split_inj in B1. subst. eauto. }
    split.
    + intros [H1 H2]. apply in_map_iff in H1. destruct H1 as ([k v'] & E & Hin).
      unfold cut_key in E. cbn [fst snd] in E. injection E as E1 E2. subst q v'.
      exists k. split; auto. split; auto. intros k' v' H' B. apply H2.
      exists (split_str k' (enc1 d)). split; auto. apply cut_keys. eauto.
    + intros (k & H1 & -> & H2). split; [now apply cut_in|].
      intros (p & Hp & B). apply cut_keys in Hp. destruct Hp as (k' & v' & H' & ->). now apply (H2 k' v').
  - rewrite S2. split.
    + intros ((p & Hp & B) & H1 & H2). apply cut_keys in Hp. destruct Hp as (k & v & H & ->).
      split; [eauto|]. intros k' v' H' Bg. destruct (begins_cases _ _ Bg) as [<-|B'].
      * apply H1. apply cut_keys. eauto.
      * apply H2. exists (split_str k' (enc1 d)). split; auto. apply cut_keys. eauto.
    + intros ((k & v & H & B) & H1). split; [exists (split_str k (enc1 d)); split; auto; apply cut_keys; eauto|].
      split.
      * intros Hin. apply cut_keys in Hin. destruct Hin as (k' & v' & H' & E). apply (H1 k' v' H').
        exists []. now rewrite app_nil_r.
      * intros (p & Hp & B'). apply cut_keys in Hp. destruct Hp as (k' & v' & H' & ->).
        apply (H1 k' v' H'). now apply below_begins.
Qed.

(** ** maps without repeated keys *)
Lemma mset_keys m k v x : In x (map fst (mset m k v)) <-> In x (map fst m) \/ x = k.
Proof.
  induction m as [|[a b] m IH]; cbn; [intuition congruence|]. destruct (str_eqb a k) eqn:E; cbn.
  - apply str_eqb_eq in E. subst. intuition congruence.
  - rewrite IH. tauto.
Qed.
Lemma mset_nodup m k v : NoDup (map fst m) -> NoDup (map fst (mset m k v)).
Proof.
  induction m as [|[a b] m IH]; cbn; intros ND; [constructor; auto; constructor|].
  inversion ND as [|? ? H1 H2]; subst. destruct (str_eqb a k) eqn:E; cbn.
  - apply str_eqb_eq in E. subst. now constructor.
  - constructor; auto. rewrite mset_keys. intros [X|X]; auto. subst. now rewrite str_eqb_refl in E.
Qed.
Lemma assigns_nodup l : forall m, NoDup (map fst m) -> NoDup (map fst (assigns l m)).
Proof. induction l as [|a l IH]; intros m H; cbn; auto. apply IH. now apply mset_nodup. Qed.
Lemma mget_in m k v : NoDup (map fst m) -> (mget m k = Some v <-> In (k, v) m).
Proof.
  induction m as [|[a b] m IH]; cbn; [intuition discriminate|]. intros ND.
  inversion ND as [|? ? H1 H2]; subst. destruct (str_eqb a k) eqn:E.
  - apply str_eqb_eq in E. subst. split; [intros X; left; congruence|].
    intros [X|X]; [congruence|]. exfalso. apply H1. apply in_map_iff. exists (k, v). auto.
  - rewrite IH by assumption. split; auto. intros [X|X]; auto. inversion X; subst. now rewrite str_eqb_refl in E.
Qed.

(** ** one subtree *)
Section Sub.
Variables (d : rune) (t : tr) (o : mopts) (fa : gostring -> attr -> bool).
Hypothesis V : vreach t.
Hypothesis FO : filter_by o fa.

Definition chosen (n : node) : bool := exported d n && passes o n.
Definition leaves (n : node) : list node := filter chosen (walk n).
Definition kv_of (n : node) : gostring * gval := (key n, ndata n).

Lemma leaves_in k0 n : In (k0, n) (ents [] (root t)) ->
  forall s v, In (s, v) (map kv_of (leaves n)) <-> section d t fa k0 s v.
Proof.
  intros H s v. pose proof (reached_wf t (vreach_reached t V)) as WT.
  unfold leaves, kv_of, section, chosen. rewrite in_map_iff. setoid_rewrite filter_In.
  setoid_rewrite (subtree_in t k0 n _ WT H). setoid_rewrite andb_true_iff. split.
  - intros (m & E & (k' & P & Hm) & X & Y). inversion E; subst.
    apply (exported_iff d t k' m V Hm) in X. destruct X as [X ->]. exists (attr_of (info_of m)).
    split; auto. split; auto. now rewrite <- FO.
  - intros (a & X & Y & P). destruct (exports_node d t s v a V X) as (m & Hm & Xm & <- & <- & <-).
    exists m. split; auto. split; [exists (runes (key m)); auto|]. split; auto. now rewrite FO.
Qed.
Lemma leaves_fun k0 n : In (k0, n) (ents [] (root t)) -> functional (map kv_of (leaves n)).
Proof.
  intros H k v1 v2 H1 H2. pose proof (reached_wf t (vreach_reached t V)) as WT.
  apply in_map_iff in H1, H2. destruct H1 as (n1 & E1 & H1), H2 as (n2 & E2 & H2).
  unfold leaves, chosen in H1, H2. apply filter_In in H1, H2. destruct H1 as [H1 X1], H2 as [H2 X2].
  apply andb_true_iff in X1, X2.
  apply (subtree_in t k0 n _ WT H) in H1, H2. destruct H1 as (k1 & _ & H1), H2 as (k2 & _ & H2).
  inversion E1; inversion E2; subst.
  assert (n1 = n2) by (eapply (exported_fun d t); eauto; tauto). congruence.
Qed.

(** the walk of GetM("") that keeps the whole keys *)
Lemma root_cb_keep ns : forall m pre1, (o_keep o = true \/ pre1 = 0) ->
  foldM (getM_root_cb d o pre1) ns m = Ok (assigns (map kv_of (filter chosen ns)) m).
Proof.
  intros m pre1 K. revert m. induction ns as [|n ns IH]; intros m; cbn [foldM filter]; [reflexivity|].
  unfold getM_root_cb at 1. fold (chosen n). destruct (chosen n); [|cbn [bind]; apply IH].
  destruct (o_keep o) eqn:Ek; cbn [bind]; [apply IH|].
  destruct K as [K|K]; [discriminate|]. subst pre1. cbn [Nat.leb slice_from skipn bind]. apply IH.
Qed.
Lemma root_cb_pre ns : forall m p, o_keep o = false ->
  (Exists (fun n => chosen n = true /\ S (length (key n)) = p) ns ->
   foldM (getM_root_cb d o p) ns m = Panic) /\
  (Forall (fun n => chosen n = true -> S (length (key n)) <> p) ns ->
   foldM (getM_root_cb d o p) ns m =
   Ok (assigns (map (fun n => (skipn p (key n), ndata n)) (filter (fun n => chosen n && (p <=? length (key n))) ns)) m)).
Proof.
  intros m p K. revert m. induction ns as [|n ns IH]; intros m; cbn [foldM filter].
  { split; [intros X; inversion X|reflexivity]. }
  unfold getM_root_cb at 1 3. fold (chosen n). rewrite K. unfold slice_from. destruct (chosen n) eqn:C.
  - destruct (Nat.leb_spec p (S (length (key n)))) as [L|L].
    + destruct (Nat.leb_spec p (length (key n))) as [L2|L2]; cbn [bind andb].
      * destruct (IH (mset m (skipn p (key n)) (ndata n))) as [I1 I2]. split.
        -- intros X. inversion X as [? ? [_ Y]|? ? Y]; subst; [lia|]. now apply I1.
        -- intros X. inversion X; subst. cbn [map]. now apply I2.
      * split; [reflexivity|]. intros X. inversion X as [|? ? Y]; subst. exfalso. apply Y; auto. lia.
    + destruct (Nat.leb_spec p (length (key n))) as [L2|L2]; [lia|]. cbn [bind andb].
      destruct (IH m) as [I1 I2]. split.
      * intros X. inversion X as [? ? [_ Y]|? ? Y]; subst; [lia|]. now apply I1.
      * intros X. inversion X; subst. now apply I2.
  - cbn [bind andb]. destruct (IH m) as [I1 I2]. split.
    + intros X. inversion X as [? ? [Y _]|? ? Y]; subst; [congruence|]. now apply I1.
    + intros X. inversion X; subst. now apply I2.
Qed.

(** where GetM(path) puts a node *)
Definition strip (pre keys : segs) : segs :=
  if length pre <=? length keys then
    let kk := skipn (length pre) keys in if is_nil kk then skipn (length pre - 1) keys else kk
  else keys.
Definition place (pre : segs) (prelen : nat) (n : node) : segs :=
  if o_keep o then split_str (key n) (enc1 d)
  else if prelen + 1 =? length (key n) then strip pre (split_str (of_runes (npath n)) (enc1 d))
  else strip pre (split_str (skipn (prelen + 1) (key n)) (enc1 d)).
Definition placed (prelen : nat) (n : node) : bool := chosen n && (o_keep o || (prelen <? length (key n))).
Lemma put_strip keep pre m prefix v :
  put keep pre m prefix (enc1 d) v =
  putKeys m (if keep then split_str prefix (enc1 d) else strip pre (split_str prefix (enc1 d))) v.
Proof.
  unfold put, strip. destruct keep; auto. destruct (_ <=? _); auto. destruct (is_nil _); reflexivity.
Qed.
Lemma cb_puts pre prelen ns : forall m,
  foldM (getM_cb d o pre prelen) ns m =
  Ok (puts (map (fun n => (place pre prelen n, ndata n)) (filter (placed prelen) ns)) m).
Proof.
  induction ns as [|n ns IH]; intros m; cbn [foldM filter]; [reflexivity|].
  unfold getM_cb at 1. unfold placed at 1. fold (chosen n). destruct (chosen n) eqn:C; [|cbn [bind andb]; apply IH].
  destruct (o_keep o) eqn:K; cbn [andb orb].
  - cbn [bind map]. rewrite put_strip, IH. unfold place at 2. rewrite K. reflexivity.
  - destruct (Nat.eqb_spec (prelen + 1) (length (key n))) as [E|E].
    + destruct (Nat.ltb_spec prelen (length (key n))) as [L|L]; [|lia].
      cbn [bind map]. rewrite put_strip, IH. unfold place at 2. rewrite K, <- E, Nat.eqb_refl. reflexivity.
    + destruct (Nat.ltb_spec prelen (length (key n))) as [L|L]; [|cbn [bind]; apply IH].
      unfold slice_from. destruct (Nat.leb_spec (prelen + 1) (length (key n))) as [L2|L2]; [|lia].
      cbn [bind map]. rewrite put_strip, IH. unfold place at 2. rewrite K.
      destruct (Nat.eqb_spec (prelen + 1) (length (key n))) as [E2|E2]; [lia|]. reflexivity.
Qed.
End Sub.

(** ** C29 *)
Definition finish (order : gmap -> gmap) (d : rune) (o : mopts) (m : gmap) : option gmap :=
  Some (if o_noflat o then splitCompactKeys d (order m) else m).
(** without a prefix, or keeping it: exactly the exported keys of the whole store *)
Theorem getM_root rf order h t path o fa :
  vreach t -> filter_by o fa -> root_name path -> (hprefix h = [] \/ o_keep o = true) ->
  exists m, flat_of (fun s v => exists a, exports (hdelim h) t s v a /\ fa s a = true) m /\
    GetM rf order h t path o = Ok (finish order (hdelim h) o m).
Proof.
  rewrite <- (root_name_true path).
  intros V FO E K. unfold GetM. rewrite E.
  pose proof (reached_wf t (vreach_reached t V)) as WT. pose proof (root_ent t WT) as RE.
  rewrite (root_cb_keep (hdelim h) o).
  2:{ destruct K as [->|K]; auto. }
  cbn [bind]. eexists; split; [|reflexivity]. split; [apply assigns_nodup; constructor|].
  intros s v. rewrite assigns_get by (eapply leaves_fun; eauto).
  rewrite (leaves_in (hdelim h) t o fa V FO [] (root t) RE). unfold section. split.
  - intros (a & H1 & H2 & _). eauto.
  - intros (a & H1 & H2). exists a. split; auto. split; auto. exists (runes s). reflexivity.
Qed.
(** on a view with a prefix of l bytes, not keeping it: keys of the whole store without their
    first l+2 bytes; a key of l+1 bytes makes it panic *)
Theorem getM_root_prefix rf order h t path o fa :
  vreach t -> filter_by o fa -> root_name path -> hprefix h <> [] -> o_keep o = false ->
  let p := length (hprefix h) + 2 in
  ((exists s v a, exports (hdelim h) t s v a /\ fa s a = true /\ S (length s) = p) ->
     GetM rf order h t path o = Panic) /\
  ((forall s v a, exports (hdelim h) t s v a -> fa s a = true -> S (length s) <> p) ->
     exists m, GetM rf order h t path o = Ok (finish order (hdelim h) o m) /\
       (forall s' v, mget m s' = Some v ->
          exists s a, exports (hdelim h) t s v a /\ fa s a = true /\ p <= length s /\ s' = skipn p s) /\
       (forall s v a, exports (hdelim h) t s v a -> fa s a = true -> p <= length s ->
          mget m (skipn p s) <> None)).
Proof.
  rewrite <- (root_name_true path).
  intros V FO E Hp K p. unfold GetM. rewrite E.
  pose proof (reached_wf t (vreach_reached t V)) as WT. pose proof (root_ent t WT) as RE.
  destruct (is_nil (hprefix h)) eqn:En; [destruct (hprefix h); [congruence|discriminate]|]. fold p.
  destruct (root_cb_pre (hdelim h) o (walk (root t)) [] p K) as [R1 R2].
  assert (L : forall n, In n (walk (root t)) -> chosen (hdelim h) o n = true ->
              exports (hdelim h) t (key n) (ndata n) (attr_of (info_of n)) /\ fa (key n) (attr_of (info_of n)) = true).
  { intros n Hn C. apply andb_true_iff in C. destruct C as [C1 C2]. rewrite FO in C2.
    apply (root_walk_in t n WT) in Hn. destruct Hn as [k Hn].
    apply (exported_iff (hdelim h) t k n V Hn) in C1. tauto. }
  assert (L2 : forall s v a, exports (hdelim h) t s v a -> fa s a = true ->
              exists n, In n (walk (root t)) /\ chosen (hdelim h) o n = true /\ key n = s /\ ndata n = v).
  { intros s v a X Y. destruct (exports_node _ t s v a V X) as (n & Hn & Xn & K1 & K2 & K3).
    exists n. split; [apply (root_walk_in t n WT); eauto|]. split; auto.
    unfold chosen. rewrite Xn, FO, K1, K3. exact Y. }
  split.
  - intros (s & v & a & X & Y & Z). rewrite R1; [reflexivity|]. destruct (L2 s v a X Y) as (n & N1 & N2 & N3 & _).
    apply Exists_exists. exists n. split; auto. split; auto. now rewrite N3.
  - intros H. rewrite R2.
    2:{ apply Forall_forall. intros n Hn C. destruct (L n Hn C) as [L1 L3]. eauto. }
    cbn [bind]. eexists; split; [reflexivity|]. split.
    + intros s' v M. apply assigns_sound in M. destruct M as [M|M]; [|discriminate].
      apply in_map_iff in M. destruct M as (n & En2 & M). apply filter_In in M. destruct M as [M1 M2].
      apply andb_true_iff in M2. destruct M2 as [M2 M3]. inversion En2; subst.
      destruct (L n M1 M2) as [L1 L3]. exists (key n), (attr_of (info_of n)).
      split; auto. split; auto. split; auto. now apply Nat.leb_le.
    + intros s v a X Y Z. destruct (L2 s v a X Y) as (n & N1 & N2 & N3 & N4).
      apply (assigns_complete _ _ _ v). apply in_map_iff. exists n. rewrite N3, N4. split; auto.
      apply filter_In. split; auto. rewrite N2, N3. now apply Nat.leb_le.
Qed.

(** ** C30 *)
(** GetM on another path, in terms of the nodes of the subtree *)
Lemma getM_path D rf order h t path o :
  plain_reach D t -> D (hdelim h) -> ~ root_name path ->
  match s_search (hdelim h) (is_up h) (entries t) (full h path) with
  | SPart [] => GetM (S rf) order h t path o = Panic
  | SFound k0 | SPart k0 =>
      exists n, In (k0, n) (ents [] (root t)) /\
        let pre := split_str (Join (hdelim h) [hprefix h; path]) (enc1 (hdelim h)) in
        let pl := getM_prelen h path in
        GetM (S rf) order h t path o =
        Ok (finish order (hdelim h) o
             (puts (map (fun n => (place (hdelim h) o pre pl n, ndata n))
                        (filter (placed (hdelim h) o pl) (walk n))) []))
  | SMiss => GetM (S rf) order h t path o = Ok None
  end.
Proof.
  rewrite <- (root_name_false path).
  intros R Hd E. unfold GetM, Locate. rewrite E.
  destruct (plain_reach_search D rf h t (full h path) R Hd) as (r & Er & S & _). rewrite Er. cbn [bind].
  unfold search_ok in S. destruct (s_search _ _ _ _) as [k|[|c k]|].
  - destruct S as (n & Hn & S1 & S2 & _). rewrite S2. cbn [bind]. rewrite S1. cbn [negb orb].
    exists n. split; auto. cbn zeta. rewrite cb_puts. reflexivity.
  - destruct S as [S1 S2]. rewrite S2. cbn [bind]. now rewrite S1.
  - destruct S as (S1 & n & Hn & S2). rewrite S2. cbn [bind]. rewrite S1. cbn [negb orb].
    exists n. split; auto. cbn zeta. rewrite cb_puts. reflexivity.
  - destruct S as [S1 S2]. rewrite S2. cbn [bind]. now rewrite S1.
Qed.
Theorem getM_no_panic D rf order h t path o k a :
  plain_reach D t -> D (hdelim h) -> ~ root_name path ->
  t_get t k = Some a -> k <> [] -> exists m, GetM (S rf) order h t path o = Ok m.
Proof.
  rewrite <- (root_name_false path).
  intros R Hd E G Hk. pose proof (getM_path D rf order h t path o R Hd (proj1 (root_name_false path) E)) as H.
  destruct (s_search _ _ _ _) as [k0|[|c k0]|] eqn:Sr.
  - destruct H as (n & _ & X). eauto.
  - exfalso. apply Hk. apply (first_part_nil _ _ _ Sr). apply entries_keys. congruence.
  - destruct H as (n & _ & X). eauto.
  - eauto.
Qed.

(** keeping the prefix: the nested map of the whole keys of the subtree, for any path and prefix *)
Theorem getM_keep D rf order h t path o fa k0 :
  plain_reach D t -> vreach t -> D (hdelim h) -> filter_by o fa -> ~ root_name path -> o_keep o = true ->
  (s_search (hdelim h) (is_up h) (entries t) (full h path) = SFound k0 \/
   (k0 <> [] /\ s_search (hdelim h) (is_up h) (entries t) (full h path) = SPart k0)) ->
  (forall s v, section (hdelim h) t fa k0 s v -> is_map v = false) ->
  exists m, nested_of (hdelim h) (section (hdelim h) t fa k0) m /\
    GetM (S rf) order h t path o = Ok (finish order (hdelim h) o m).
Proof.
  rewrite <- (root_name_false path).
  intros R V Hd FO E K Sr Sc. pose proof (getM_path D rf order h t path o R Hd (proj1 (root_name_false path) E)) as H.
  assert (H' : exists n, In (k0, n) (ents [] (root t)) /\
    let pre := split_str (Join (hdelim h) [hprefix h; path]) (enc1 (hdelim h)) in
    let pl := getM_prelen h path in
    GetM (S rf) order h t path o =
    Ok (finish order (hdelim h) o
          (puts (map (fun n => (place (hdelim h) o pre pl n, ndata n))
                     (filter (placed (hdelim h) o pl) (walk n))) []))).
  { destruct Sr as [Sr|[Hk Sr]]; rewrite Sr in H; auto. destruct k0; [congruence|auto]. }
  clear H. destruct H' as (n & Hn & H). cbn zeta in H. eexists; split; [|exact H].
  assert (EQ : map (fun n => (place (hdelim h) o (split_str (Join (hdelim h) [hprefix h; path]) (enc1 (hdelim h))) (getM_prelen h path) n, ndata n))
                   (filter (placed (hdelim h) o (getM_prelen h path)) (walk n)) =
               map (cut_key (hdelim h)) (map kv_of (leaves (hdelim h) o n))).
  { rewrite map_map. unfold leaves.
    assert (F : filter (placed (hdelim h) o (getM_prelen h path)) (walk n) = filter (chosen (hdelim h) o) (walk n)).
    { apply filter_ext. intros x. unfold placed. rewrite K. cbn. apply andb_true_r. }
    rewrite F. apply map_ext. intros x. unfold place, cut_key, kv_of. now rewrite K. }
  rewrite EQ. pose proof (leaves_in (hdelim h) t o fa V FO k0 n Hn) as LI.
  apply (nested_ext _ (fun s v => In (s, v) (map kv_of (leaves (hdelim h) o n)))); auto.
  apply puts_nested; [eapply leaves_fun; eauto|]. intros s v X. apply LI in X. eauto.
Qed.

(** ** GetM(path) without options: the keys below path, relative to it *)
Lemma runes_valid_app p b : valid_utf8 p = true -> runes (p ++ b) = runes p ++ runes b.
Proof.
  intros H. apply valid_utf8_eq in H. apply runes_dec. rewrite <- H at 1.
  pose proof (runes_scalar p) as F. revert F. generalize (runes p). intros rs F.
  induction F as [|r rs Hr F IH]; cbn [of_runes flat_map app]; [apply dec_runes|].
  rewrite <- app_assoc. apply dec_enc1; auto.
Qed.
Lemma enc1_valid_utf8 d : is_scalar d = true -> valid_utf8 (enc1 d) = true /\ runes (enc1 d) = [d].
Proof.
  intros H. assert (E : runes (enc1 d) = [d]).
  { apply runes_dec. rewrite <- (app_nil_r (enc1 d)). apply dec_enc1; [exact H|constructor]. }
  split; auto. apply valid_utf8_eq. rewrite E. cbn. now rewrite app_nil_r.
Qed.
Lemma split_lead d rest : split_str (enc1 d ++ rest) (enc1 d) = [] :: split_str rest (enc1 d).
Proof. unfold split_str. rewrite split_sep; [reflexivity|]. apply enc1_unbordered. Qed.

(** if some key begins with [w], the search for [w] leads to a subtree with all such keys *)
Lemma probe_section d t w k1 :
  wf_tr t -> t_get t k1 <> None -> prefix w k1 -> w <> [] ->
  exists k0, (s_probe d (entries t) w = SFound k0 \/ (k0 <> [] /\ s_probe d (entries t) w = SPart k0)) /\ prefix w k0 /\
    (k0 = w ++ [d] \/ forall k, t_get t k <> None -> prefix w k -> prefix k0 k).
Proof.
  intros WT G P Hw. unfold s_probe, s_find. destruct w as [|c w']; [congruence|]. cbn [is_nil].
  set (w := c :: w') in *. destruct (smem (entries t) w) eqn:M.
  { exists w. split; auto. split; [apply prefix_refl|auto]. }
  destruct (smem (entries t) (w ++ [d])) eqn:M2.
  { exists (w ++ [d]). split; auto. split; [exists [d]; reflexivity|auto]. }
  assert (N : forall k, t_get t k <> None -> prefix w k -> sprefix w k = true).
  { intros k Gk Pk. apply sprefix_iff. destruct (prefix_cases _ _ Pk) as [<-|X]; auto.
    exfalso. apply smem_false in M. now apply Gk. }
  destruct (shortest (filter (sprefix w) (skeys (entries t)))) as [k0|] eqn:Sh.
  - destruct (shortest_spec _ _ Sh) as [S1 S2]. apply filter_In in S1. destruct S1 as [S1 S3].
    apply sprefix_iff in S3. exists k0. split; [right; split; [destruct S3 as (x & y & ->); discriminate|reflexivity]|].
    split; [now apply pprefix_prefix|]. right. intros k Gk Pk.
    pose proof (proj1 (proj2 (proj1 WT))) as W.
    assert (L : t_get t (lcp k0 k) <> None).
    { apply entries_keys. unfold entries, skeys. rewrite map_map. cbn.
      apply entries_keys in Gk. unfold entries, skeys in Gk, S1. rewrite map_map in Gk, S1. cbn in Gk, S1.
      apply in_map_iff in Gk, S1. destruct Gk as ([k' i'] & E' & Gk), S1 as ([k'' i''] & E'' & S1). cbn in E', E''. subst.
      destruct (ients_lcp [] (root t) k0 i'' k i' W S1 Gk) as [i Hi]. apply in_map_iff. exists (lcp k0 k, i). auto. }
    assert (Pl : prefix w (lcp k0 k)).
    { destruct Pk as [y ->]. apply pprefix_prefix in S3. destruct S3 as [z ->]. rewrite lcp_app. apply prefix_app_r. }
    assert (Le : length k0 <= length (lcp k0 k)).
    { apply S2. apply filter_In. split; [now apply entries_keys|]. now apply N. }
    assert (El : lcp k0 k = k0).
    { destruct (prefix_cases _ _ (lcp_prefix_l k0 k)) as [X|X]; auto. apply pprefix_len in X. lia. }
    rewrite <- El. apply lcp_prefix_r.
  - exfalso. assert (Hin : In k1 (filter (sprefix w) (skeys (entries t)))).
    { apply filter_In. split; [now apply entries_keys|]. auto. }
    apply shortest_none in Sh. rewrite Sh in Hin. destruct Hin.
Qed.

(** the values of the keys path+delimiter+rest, by rest *)
Definition relative (d : rune) (t : tr) (fa : gostring -> attr -> bool) (p rest : gostring) (v : gval) : Prop :=
  exists a, exports d t (p ++ enc1 d ++ rest) v a /\ fa (p ++ enc1 d ++ rest) a = true.

Lemma getM_list D rf order h t p o fa k1 a1 :
  plain_reach D t -> vreach t -> D (hdelim h) -> filter_by o fa -> ~ root_name p ->
  hprefix h = [] -> o_keep o = false -> is_scalar (hdelim h) = true -> valid_utf8 p = true ->
  (* something is stored below p *)
  t_get t k1 = Some a1 -> prefix (runes p ++ [hdelim h]) k1 ->
  (* whatever begins with p is below it *)
  (forall s v a, exports (hdelim h) t s v a -> fa s a = true -> prefix (runes p) (runes s) ->
     prefix (runes p ++ [hdelim h]) (runes s)) ->
  exists l, (forall rest v, In (rest, v) l <-> relative (hdelim h) t fa p rest v) /\
    GetM (S rf) order h t p o = Ok (finish order (hdelim h) o
      (puts (map (fun e => (strip (split_str p (enc1 (hdelim h)))
         (split_str (enc1 (hdelim h) ++ fst e) (enc1 (hdelim h))), snd e)) l) [])).
Proof.
  rewrite <- (root_name_false p).
  intros R V Hd FO E Hp K Sd Vp G1 P1 Cl. set (d := hdelim h) in *.
  assert (Hne : p <> []) by (intros ->; discriminate).
  assert (Hw : runes p <> []) by (intros X; apply Hne; now apply runes_nil_iff).
  pose proof (reached_wf t (vreach_reached t V)) as WT.
  pose proof (getM_path D rf order h t p o R Hd (proj1 (root_name_false p) E)) as H. fold d in H.
  assert (Ef : full h p = p) by (unfold full; now rewrite Hp).
  destruct (probe_section d t (runes p) k1 WT) as (k0 & Pr & Pw & Pk); auto; [congruence|now apply prefix_app in P1|].
  assert (Sr : s_search d (is_up h) (entries t) (full h p) = SFound k0 \/
               (k0 <> [] /\ s_search d (is_up h) (entries t) (full h p) = SPart k0)).
  { unfold s_search. cbn [s_first]. rewrite Ef. destruct Pr as [->|[X ->]]; auto. }
  assert (H' : exists n, In (k0, n) (ents [] (root t)) /\
    let pre := split_str (Join d [hprefix h; p]) (enc1 d) in
    let pl := getM_prelen h p in
    GetM (S rf) order h t p o =
    Ok (finish order d o
          (puts (map (fun n => (place d o pre pl n, ndata n)) (filter (placed d o pl) (walk n))) []))).
  { destruct Sr as [Sr|[Hk Sr]]; rewrite Sr in H; auto. destruct k0; [congruence|auto]. }
  clear H. destruct H' as (n & Hn & H). cbn zeta in H.
  assert (Ej : Join d [hprefix h; p] = p).
  { rewrite join_spec, Hp. destruct p; [congruence|reflexivity]. }
  assert (El : getM_prelen h p = length p - 1) by (unfold getM_prelen; now rewrite Hp).
  rewrite Ej, El in H.
  (* every chosen leaf of the subtree is p d rest *)
  assert (Sec : forall s v, section d t fa k0 s v <-> exists rest, s = p ++ enc1 d ++ rest /\ relative d t fa p rest v).
  { intros s v. split.
    - intros (a & X & Y & Z).
      assert (Z2 : prefix (runes p ++ [d]) (runes s)) by (apply (Cl s v a X Y); eapply prefix_trans; eauto).
      destruct Z2 as [y Z2]. pose proof (proj1 X) as Vs. apply valid_utf8_eq in Vs.
      exists (of_runes y). assert (Es : s = p ++ enc1 d ++ of_runes y).
      { rewrite <- Vs, Z2, !of_runes_app. cbn [of_runes flat_map]. rewrite app_nil_r, <- app_assoc.
        f_equal. now apply valid_utf8_eq. }
      split; auto. exists a. rewrite <- Es. auto.
    - intros (rest & -> & a & X & Y). exists a. split; auto. split; auto.
      rewrite !runes_valid_app by (auto; now apply enc1_valid_utf8).
      rewrite (proj2 (enc1_valid_utf8 d Sd)), app_assoc. destruct Pk as [->|Pk]; [apply prefix_app_r|].
      rewrite <- app_assoc. cbn [app].
      assert (Er : runes (p ++ enc1 d ++ rest) = runes p ++ d :: runes rest).
      { rewrite !runes_valid_app by (auto; now apply enc1_valid_utf8). now rewrite (proj2 (enc1_valid_utf8 d Sd)). }
      rewrite <- Er. apply Pk; [|rewrite Er; apply prefix_app_r]. destruct X as (_ & _ & X & _). congruence. }
  pose proof (leaves_in d t o fa V FO k0 n Hn) as LI.
  assert (Ln : forall x, In x (leaves d o n) -> exists rest, key x = p ++ enc1 d ++ rest /\ relative d t fa p rest (ndata x)).
  { intros x Hx. apply Sec, LI. apply in_map_iff. exists x. auto. }
  assert (Lp : 0 < length p) by (destruct p; [congruence|cbn; lia]).
  assert (Ld : 0 < length (enc1 d)) by (destruct (enc1_shape d) as (b & z & -> & _); cbn; lia).
  (* the subtree's list, cut at p *)
  set (tail_of := fun x => (skipn (length p + length (enc1 d)) (key x), ndata x)).
  assert (EQ : map (fun x => (place d o (split_str p (enc1 d)) (length p - 1) x, ndata x))
                   (filter (placed d o (length p - 1)) (walk n)) =
               map (fun e => (strip (split_str p (enc1 d)) (split_str (enc1 d ++ fst e) (enc1 d)), snd e))
                   (map tail_of (leaves d o n))).
  { assert (F : filter (placed d o (length p - 1)) (walk n) = leaves d o n).
    { unfold leaves. apply filter_ext_in. intros x Hx. unfold placed. destruct (chosen d o x) eqn:C; auto.
      destruct (Ln x) as (rest & Kx & _); [apply filter_In; auto|]. rewrite Kx, !app_length.
      rewrite K. cbn. apply Nat.ltb_lt. lia. }
    rewrite F, map_map. apply map_ext_in. intros x Hx. destruct (Ln x Hx) as (rest & Kx & Rx).
    unfold place, tail_of. rewrite K, Kx, !app_length. cbn [fst snd].
    destruct (Nat.eqb_spec (length p - 1 + 1) (length p + (length (enc1 d) + length rest))) as [X|X]; [lia|].
    replace (length p - 1 + 1) with (length p) by lia.
    rewrite skipn_app, skipn_all, Nat.sub_diag. cbn [skipn app]. f_equal. f_equal. f_equal. f_equal.
    rewrite skipn_app, skipn_all2 by lia. cbn [app].
    replace (length p + length (enc1 d) - length p) with (length (enc1 d)) by lia.
    now rewrite skipn_app, skipn_all, Nat.sub_diag. }
  rewrite EQ in H. exists (map tail_of (leaves d o n)). split; [|exact H]. clear H.
  assert (TI : forall rest v, In (rest, v) (map tail_of (leaves d o n)) <-> relative d t fa p rest v).
  { intros rest v. rewrite in_map_iff. split.
    - intros (x & Ex & Hx). destruct (Ln x Hx) as (r & Kx & Rx). unfold tail_of in Ex. rewrite Kx in Ex.
      inversion Ex as [[E1 E2]]. rewrite app_assoc, <- app_length, skipn_app, skipn_all, Nat.sub_diag. exact Rx.
    - intros Rx. assert (Sx : section d t fa k0 (p ++ enc1 d ++ rest) v) by (apply Sec; eauto).
      apply LI in Sx. apply in_map_iff in Sx. destruct Sx as (x & Ex & Hx). exists x. split; auto.
      unfold kv_of in Ex. inversion Ex as [[E1 E2]]. unfold tail_of.
      now rewrite E1, app_assoc, <- app_length, skipn_app, skipn_all, Nat.sub_diag. }
  exact TI.
Qed.
Lemma getM_rel D rf order h t p o fa k1 a1 :
  plain_reach D t -> vreach t -> D (hdelim h) -> filter_by o fa -> ~ root_name p ->
  hprefix h = [] -> o_keep o = false -> is_scalar (hdelim h) = true -> valid_utf8 p = true ->
  (* something is stored below p *)
  t_get t k1 = Some a1 -> prefix (runes p ++ [hdelim h]) k1 ->
  (* whatever begins with p is below it *)
  (forall s v a, exports (hdelim h) t s v a -> fa s a = true -> prefix (runes p) (runes s) ->
     prefix (runes p ++ [hdelim h]) (runes s)) ->
  (* the segments of p and those below it fit the counting of the code *)
  (forall rest v, relative (hdelim h) t fa p rest v ->
     is_map v = false /\
     strip (split_str p (enc1 (hdelim h))) (split_str (enc1 (hdelim h) ++ rest) (enc1 (hdelim h)))
       = split_str rest (enc1 (hdelim h))) ->
  exists m, nested_of (hdelim h) (relative (hdelim h) t fa p) m /\
    GetM (S rf) order h t p o = Ok (finish order (hdelim h) o m).
Proof.
  intros R V Hd FO E Hp K Sd Vp G1 P1 Cl Co.
  destruct (getM_list D rf order h t p o fa k1 a1 R V Hd FO E Hp K Sd Vp G1 P1 Cl) as (l & Hl & G).
  eexists. split; [|exact G].
  rewrite (map_ext_in _ (cut_key (hdelim h))).
  2:{ intros [r v] X. apply Hl in X. destruct (Co r v X) as [_ Y]. unfold cut_key. cbn [fst snd]. now rewrite Y. }
  apply (nested_ext _ (fun s v => In (s, v) l)); auto. apply puts_nested.
  - intros r v1 v2 H1 H2. apply Hl in H1, H2. destruct H1 as (b1 & (_ & _ & B1 & _ & B2) & _), H2 as (b2 & (_ & _ & C1 & _ & C2) & _).
    congruence.
  - intros s v X. apply Hl in X. now apply Co in X.
Qed.

(** a path of one segment *)
Theorem getM_one D rf order h t p o fa k1 a1 :
  plain_reach D t -> vreach t -> D (hdelim h) -> filter_by o fa -> ~ root_name p ->
  hprefix h = [] -> o_keep o = false -> is_scalar (hdelim h) = true -> valid_utf8 p = true ->
  contains (enc1 (hdelim h)) p = false ->
  t_get t k1 = Some a1 -> prefix (runes p ++ [hdelim h]) k1 ->
  (forall s v a, exports (hdelim h) t s v a -> fa s a = true -> prefix (runes p) (runes s) ->
     prefix (runes p ++ [hdelim h]) (runes s)) ->
  (forall rest v, relative (hdelim h) t fa p rest v -> is_map v = false) ->
  exists m, nested_of (hdelim h) (relative (hdelim h) t fa p) m /\
    GetM (S rf) order h t p o = Ok (finish order (hdelim h) o m).
Proof.
  intros R V Hd FO E Hp K Sd Vp C G1 P1 Cl Sc. eapply getM_rel; eauto.
  intros rest v X. split; [eauto|]. rewrite split_lead, (contains_split _ _ C). unfold strip. cbn [length Nat.leb skipn].
  destruct (split_str rest (enc1 (hdelim h))) as [|x l] eqn:S; [|reflexivity].
  now apply split_ne in S.
Qed.
(** a path of two segments with only keys of one segment below it *)
Theorem getM_two D rf order h t p o fa k1 a1 :
  plain_reach D t -> vreach t -> D (hdelim h) -> filter_by o fa -> ~ root_name p ->
  hprefix h = [] -> o_keep o = false -> is_scalar (hdelim h) = true -> valid_utf8 p = true ->
  length (split_str p (enc1 (hdelim h))) = 2 ->
  t_get t k1 = Some a1 -> prefix (runes p ++ [hdelim h]) k1 ->
  (forall s v a, exports (hdelim h) t s v a -> fa s a = true -> prefix (runes p) (runes s) ->
     prefix (runes p ++ [hdelim h]) (runes s)) ->
  (forall rest v, relative (hdelim h) t fa p rest v -> is_map v = false /\ contains (enc1 (hdelim h)) rest = false) ->
  exists m, nested_of (hdelim h) (relative (hdelim h) t fa p) m /\
    GetM (S rf) order h t p o = Ok (finish order (hdelim h) o m).
Proof.
  intros R V Hd FO E Hp K Sd Vp C G1 P1 Cl Sc. eapply getM_rel; eauto.
  intros rest v X. destruct (Sc rest v X) as [X1 X2]. split; auto.
  rewrite split_lead, (contains_split _ _ X2). destruct (split_str p (enc1 (hdelim h))) as [|x [|y [|z l]]]; try discriminate. reflexivity.
Qed.

(** ** a path of any number of segments *)
(** where the value of path+delimiter+rest lands, for a path of [n] segments and the segments
    [ss] of rest: [n]-1 leading segments are lost, but never the last one; when there are too
    few to be lost, none is, and an empty one is put in front *)
Definition landing (n : nat) (ss : segs) : segs :=
  if n <=? length ss then skipn (n - 1) ss
  else if length ss =? n - 1 then skipn (n - 2) ss
  else [] :: ss.
Lemma strip_landing (pre ss : segs) : pre <> [] -> ss <> [] -> strip pre ([] :: ss) = landing (length pre) ss.
Proof.
  intros Hp Hs. unfold strip, landing. cbv zeta.
  assert (Hn : 1 <= length pre) by (destruct pre; [congruence|cbn; lia]). assert (Hm : 1 <= length ss) by (destruct ss; [congruence|cbn; lia]).
  generalize dependent (length pre). intros n Hn. change (length (([] : gostring) :: ss)) with (S (length ss)).
  destruct (n <=? S (length ss)) eqn:L; [apply Nat.leb_le in L|apply Nat.leb_gt in L].
  - destruct n as [|n]; [lia|]. replace (S n - 1) with n by lia. change (skipn (S n) ([] :: ss)) with (skipn n ss).
    destruct (S n <=? length ss) eqn:L2; [apply Nat.leb_le in L2|apply Nat.leb_gt in L2].
    + destruct (skipn n ss) eqn:E; [|reflexivity]. exfalso. assert (length (skipn n ss) = 0) by now rewrite E.
      rewrite skipn_length in H. lia.
    + destruct (Nat.eqb_spec (length ss) n) as [E|E]; [|lia].
      rewrite (skipn_all2 ss) by lia. cbn [is_nil]. destruct n as [|n]; [lia|]. cbn [skipn]. f_equal. lia.
  - destruct (Nat.leb_spec n (length ss)); [lia|]. destruct (Nat.eqb_spec (length ss) (n - 1)); [lia|reflexivity].
Qed.
Lemma landing_ne n ss : 1 <= n -> ss <> [] -> landing n ss <> [].
Proof.
  intros Hn Hs. assert (1 <= length ss) by (destruct ss; [congruence|cbn; lia]). unfold landing.
  destruct (Nat.leb_spec n (length ss)).
  - intros E. assert (X : length (skipn (n - 1) ss) = 0) by now rewrite E. rewrite skipn_length in X. lia.
  - destruct (Nat.eqb_spec (length ss) (n - 1)); [|discriminate].
    intros E. assert (X : length (skipn (n - 2) ss) = 0) by now rewrite E. rewrite skipn_length in X. lia.
Qed.
(** the nested map of the landings: a value that nothing is in the way of is there, or another
    one that landed at the same place; there is nothing else *)
Definition landed (d : rune) (n : nat) (E : gostring -> gval -> Prop) (m : gmap) : Prop :=
  let at_ s := landing n (split_str s (enc1 d)) in
  forall q, q <> [] ->
    (forall v, is_map v = false -> nget (GMap m) q = Some v ->
       (exists s, E s v /\ q = at_ s) /\ forall s' v', E s' v' -> ~ below (at_ s') q) /\
    (forall s v, E s v -> q = at_ s -> (forall s' v', E s' v' -> ~ below (at_ s') q) ->
       exists s' v', E s' v' /\ q = at_ s' /\ nget (GMap m) q = Some v') /\
    ((exists m', nget (GMap m) q = Some (GMap m')) <->
       (exists s v, E s v /\ below q (at_ s)) /\ forall s v, E s v -> ~ begins (at_ s) q).

Lemma puts_landed d n (E : gostring -> gval -> Prop) (l : list (gostring * gval)) :
  1 <= n -> (forall s v, In (s, v) l <-> E s v) -> (forall s v, E s v -> is_map v = false) ->
  landed d n E (puts (map (fun e => (landing n (split_str (fst e) (enc1 d)), snd e)) l) []).
Proof.
  intros Hn HI Sc q Hq. cbv zeta.
  set (L := map (fun e => (landing n (split_str (fst e) (enc1 d)), snd e)) l).
  assert (LI : forall p v, In (p, v) L <-> exists s, E s v /\ p = landing n (split_str s (enc1 d))).
  { intros p v. unfold L. rewrite in_map_iff. split.
    - intros ([s w] & X & Y). cbn in X. injection X as X1 X2. subst w p. exists s. split; [now apply HI|reflexivity].
    - intros (s & X & ->). exists (s, v). split; [reflexivity|now apply HI]. }
  assert (LK : forall p, In p (map fst L) <-> exists s v, E s v /\ p = landing n (split_str s (enc1 d))).
  { intros p. rewrite in_map_iff. split.
    - intros ([p' v] & X & Y). cbn in X. subst p'. apply LI in Y. destruct Y as (s & Y1 & Y2). eauto.
    - intros (s & v & X & Y). exists (p, v). split; [reflexivity|]. apply LI. eauto. }
  assert (OK : Forall (fun e => fst e <> [] /\ is_map (snd e) = false) L).
  { apply Forall_forall. intros [p v] X. apply LI in X. destruct X as (s & X & ->). cbn [fst snd]. split; [|eauto].
    apply landing_ne; auto. apply split_ne. }
  destruct (puts_spec _ OK q Hq) as [S1 S2]. split; [|split].
  - intros v Hv G. apply (S1 v Hv) in G. destruct G as [G1 G2]. apply last_of_in in G1. apply LI in G1. split; [exact G1|].
    intros s' v' X B. apply G2. exists (landing n (split_str s' (enc1 d))). split; auto. apply LK. eauto.
  - intros s v X -> Sh. destruct (last_of_some L (landing n (split_str s (enc1 d)))) as [w W]; [apply LK; eauto|].
    pose proof (last_of_in _ _ _ W) as Wi. apply LI in Wi. destruct Wi as (s' & X' & Y'). exists s', w. split; auto. split; auto.
    apply (S1 w); [eauto|]. split; auto. intros (p & Hp & B). apply LK in Hp. destruct Hp as (s2 & v2 & X2 & ->). eapply Sh; eauto.
  - rewrite S2. split.
    + intros ((p & Hp & B) & H1 & H2). apply LK in Hp. destruct Hp as (s & v & H & ->).
      split; [eauto|]. intros s' v' H' Bg. destruct (begins_cases _ _ Bg) as [Eq|B'].
      * apply H1. apply LK. eauto.
      * apply H2. exists (landing n (split_str s' (enc1 d))). split; auto. apply LK. eauto.
    + intros ((s & v & H & B) & H1). split; [exists (landing n (split_str s (enc1 d))); split; auto; apply LK; eauto|].
      split.
      * intros Hin. apply LK in Hin. destruct Hin as (s' & v' & H' & Eq). apply (H1 s' v' H'). exists []. now rewrite app_nil_r.
      * intros (p & Hp & B'). apply LK in Hp. destruct Hp as (s' & v' & H' & ->). apply (H1 s' v' H'). now apply below_begins.
Qed.

Theorem getM_any D rf order h t p o fa k1 a1 :
  plain_reach D t -> vreach t -> D (hdelim h) -> filter_by o fa -> ~ root_name p ->
  hprefix h = [] -> o_keep o = false -> is_scalar (hdelim h) = true -> valid_utf8 p = true ->
  t_get t k1 = Some a1 -> prefix (runes p ++ [hdelim h]) k1 ->
  (forall s v a, exports (hdelim h) t s v a -> fa s a = true -> prefix (runes p) (runes s) ->
     prefix (runes p ++ [hdelim h]) (runes s)) ->
  (forall rest v, relative (hdelim h) t fa p rest v -> is_map v = false) ->
  exists m, landed (hdelim h) (length (split_str p (enc1 (hdelim h)))) (relative (hdelim h) t fa p) m /\
    GetM (S rf) order h t p o = Ok (finish order (hdelim h) o m).
Proof.
  intros R V Hd FO E Hp K Sd Vp G1 P1 Cl Sc.
  destruct (getM_list D rf order h t p o fa k1 a1 R V Hd FO E Hp K Sd Vp G1 P1 Cl) as (l & Hl & G).
  eexists. split; [|exact G].
  assert (Hn : split_str p (enc1 (hdelim h)) <> []) by apply split_ne.
  rewrite (map_ext _ (fun e => (landing (length (split_str p (enc1 (hdelim h)))) (split_str (fst e) (enc1 (hdelim h))), snd e))).
  - apply puts_landed; auto. destruct (split_str p (enc1 (hdelim h))); [congruence|cbn; lia].
  - intros [r v]. cbn [fst snd]. rewrite split_lead, strip_landing; auto. apply split_ne.
Qed.

(** ** To on the whole store *)
Theorem to_root rf order h t path o fa :
  vreach t -> filter_by o fa -> root_name path -> (hprefix h = [] \/ o_keep o = true) ->
  o_noflat o = false -> is_scalar (hdelim h) = true ->
  (forall m, Permutation m (order m)) ->
  (forall s v a, exports (hdelim h) t s v a -> fa s a = true -> is_map v = false) ->
  exists m, nested_of (hdelim h) (fun s v => exists a, exports (hdelim h) t s v a /\ fa s a = true) m /\
    To rf order h t path o = Ok (Some m).
Proof.
  rewrite <- (root_name_true path).
  intros V FO E K NF Sd Po Sc. destruct (getM_root rf order h t path o fa V FO (proj1 (root_name_true path) E) K) as (m & [ND F] & G).
  unfold To. rewrite G. unfold finish. rewrite NF. cbn [bind].
  eexists; split; [|reflexivity].
  pose proof (nodup_perm_fst _ _ (Po m) ND) as ND'.
  assert (I : forall s v, In (s, v) (order m) <-> exists a, exports (hdelim h) t s v a /\ fa s a = true).
  { intros s v. rewrite <- F, mget_in by assumption. split; apply Permutation_in; [apply Permutation_sym|]; apply Po. }
  apply (nested_ext _ (fun s v => In (s, v) (order m))); auto.
  rewrite (split_puts _ _ Sd). apply puts_nested.
  - intros k v1 v2 H1 H2. apply (mget_in _ _ _ ND') in H1, H2. congruence.
  - intros s v X. apply I in X. destruct X as (a & X1 & X2). eauto.
Qed.
