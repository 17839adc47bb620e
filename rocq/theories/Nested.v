(** Nested maps: what putKeys and splitCompactKeys build. *)
From Coq Require Import List NArith Bool Arith Lia Permutation.
From Verif Require Import GoStr Utf8 Node Trie Climb Dur Cvter.
Import ListNotations.
Open Scope nat_scope.

(** ** specification *)
(** the value at a path of keys inside nested maps *)
Fixpoint nget (v : gval) (ks : list gostring) : option gval :=
  match ks with
  | [] => Some v
  | k :: r => match v with
              | GMap m => match mget m k with Some v' => nget v' r | None => None end
              | _ => None
              end
  end.
Definition is_map (v : gval) : bool := match v with GMap _ => true | _ => false end.
Definition segs := list gostring.
Definition begins (p q : segs) : Prop := exists r, q = p ++ r.
Definition below (p q : segs) : Prop := exists a r, q = p ++ a :: r.

(** ** maps *)
Lemma mget_mset m k v k' : mget (mset m k v) k' = if str_eqb k k' then Some v else mget m k'.
Proof.
  induction m as [|[a b] m IH]; cbn; [reflexivity|].
  destruct (str_eqb a k) eqn:E; cbn.
  - apply str_eqb_eq in E. subst. now destruct (str_eqb k k').
  - rewrite IH. destruct (str_eqb k k') eqn:E2; auto.
    apply str_eqb_eq in E2. subst. now rewrite E.
Qed.
Lemma nget_nil_map k r : nget (GMap []) (k :: r) = None.
Proof. reflexivity. Qed.
Lemma nget_app p : forall v r, nget v (p ++ r) = match nget v p with Some v' => nget v' r | None => None end.
Proof.
  induction p as [|k p IH]; intros v r; cbn; auto.
  destruct v; auto. destruct (mget m k); auto.
Qed.
Lemma nget_scalar v k r : is_map v = false -> nget v (k :: r) = None.
Proof. destruct v; cbn; congruence. Qed.
Lemma str_eqb_sym a b : str_eqb a b = str_eqb b a.
Proof.
  destruct (str_eqb a b) eqn:E; symmetry.
  - apply str_eqb_eq in E. subst. apply str_eqb_refl.
  - apply not_true_iff_false. intros X. apply str_eqb_eq in X. subst. now rewrite str_eqb_refl in E.
Qed.
Lemma str_dec (a b : gostring) : {a = b} + {a <> b}.
Proof. apply (list_eq_dec N.eq_dec). Qed.
Lemma segs_dec (a b : segs) : {a = b} + {a <> b}.
Proof. apply (list_eq_dec str_dec). Qed.

(** ** one putKeys *)
(** a value that is no map at a proper prefix of the path *)
Definition blocked (m : gmap) (ks : segs) : Prop :=
  exists p v, p <> [] /\ below p ks /\ nget (GMap m) p = Some v /\ is_map v = false.

Lemma putKeys_eq m k k2 rest v : putKeys m (k :: k2 :: rest) v =
  match mget m k with
  | Some (GMap cm) => mset m k (GMap (putKeys cm (k2 :: rest) v))
  | Some _ => m
  | None => mset m k (GMap (putKeys [] (k2 :: rest) v))
  end.
Proof. reflexivity. Qed.

Lemma blocked_sub m k cm ks : mget m k = Some (GMap cm) -> blocked m (k :: ks) -> ks <> [] -> blocked cm ks.
Proof.
  intros E (p & v & Hp & (a & r & B) & G & S) Hk. destruct p as [|k' p]; [congruence|].
  cbn in B. inversion B; subst k' ks. cbn in G. rewrite E in G.
  destruct p as [|x p]; [cbn in G; inversion G; subst; discriminate|].
  exists (x :: p), v. repeat split; auto; [discriminate|exists a, r; reflexivity].
Qed.
Lemma blocked_up m k cm ks : mget m k = Some (GMap cm) -> blocked cm ks -> blocked m (k :: ks).
Proof.
  intros E (p & v & Hp & (a & r & B) & G & S). exists (k :: p), v.
  split; [discriminate|]. split; [exists a, r; cbn; congruence|]. cbn. rewrite E. auto.
Qed.

Lemma mset_same m k v : mget m k = Some v -> mset m k v = m.
Proof.
  induction m as [|[a b] m IH]; cbn; [discriminate|]. destruct (str_eqb a k) eqn:E; intros H.
  - apply str_eqb_eq in E. congruence.
  - now rewrite IH.
Qed.
Lemma not_below_one p k : p <> [] -> ~ below p [k].
Proof. intros Hp (a & r & B). destruct p as [|? p]; [congruence|]. inversion B. destruct p; discriminate. Qed.

(** the four cases of a lookup after putKeys *)
Lemma put_blocked ks v : forall m, blocked m ks -> putKeys m ks v = m.
Proof.
  induction ks as [|k ks IH]; intros m B; [reflexivity|].
  destruct ks as [|k2 rest].
  { destruct B as (p & w & Hp & B & _). destruct (not_below_one _ _ Hp B). }
  rewrite putKeys_eq. destruct (mget m k) as [w|] eqn:E.
  - destruct w; auto. rewrite IH; [now apply mset_same|].
    apply (blocked_sub _ _ _ _ E B). discriminate.
  - destruct B as (p & w & Hp & (a & r & B) & G & _). destruct p as [|x p]; [congruence|].
    cbn in B. inversion B; subst. cbn in G. now rewrite E in G.
Qed.
Lemma not_blocked_nil ks : ~ blocked [] ks.
Proof. intros (p & v & Hp & _ & G & _). destruct p; [congruence|]. discriminate. Qed.
Lemma put_at ks v : forall m, ks <> [] -> ~ blocked m ks ->
  forall r, nget (GMap (putKeys m ks v)) (ks ++ r) = nget v r.
Proof.
  induction ks as [|k ks IH]; intros m Hk NB r; [congruence|].
  destruct ks as [|k2 rest].
  { cbn. rewrite mget_mset, str_eqb_refl. reflexivity. }
  rewrite putKeys_eq. destruct (mget m k) as [w|] eqn:E.
  - destruct w; try (exfalso; apply NB; exists [k]; eexists;
      split; [discriminate|split; [exists k2, rest; reflexivity|split; [cbn; rewrite E; reflexivity|reflexivity]]]).
    rewrite <- app_comm_cons. cbn [nget]. rewrite mget_mset, str_eqb_refl. apply IH; [discriminate|].
    intros B. apply NB. now apply (blocked_up _ _ _ _ E).
  - rewrite <- app_comm_cons. cbn [nget]. rewrite mget_mset, str_eqb_refl. apply IH; [discriminate|].
    apply not_blocked_nil.
Qed.
Lemma put_above ks v : forall m q, ~ blocked m ks -> below q ks ->
  exists m', nget (GMap (putKeys m ks v)) q = Some (GMap m').
Proof.
  induction ks as [|k ks IH]; intros m q NB (a & r & B); [destruct q; discriminate|].
  destruct q as [|x q]; [eexists; reflexivity|]. cbn in B. injection B as Hx HB. subst x.
  destruct ks as [|k2 rest]; [destruct q; discriminate|].
  assert (Bq : below q (k2 :: rest)) by (exists a, r; assumption).
  rewrite putKeys_eq. destruct (mget m k) as [w|] eqn:E.
  - destruct w; try (exfalso; apply NB; exists [k]; eexists;
      split; [discriminate|split; [exists k2, rest; reflexivity|split; [cbn; rewrite E; reflexivity|reflexivity]]]).
    cbn [nget]. rewrite mget_mset, str_eqb_refl. apply IH; auto.
    intros B. apply NB. now apply (blocked_up _ _ _ _ E).
  - cbn [nget]. rewrite mget_mset, str_eqb_refl. apply IH; auto. apply not_blocked_nil.
Qed.
Lemma put_other ks v : forall m q, ~ begins ks q -> ~ begins q ks ->
  nget (GMap (putKeys m ks v)) q = nget (GMap m) q.
Proof.
  induction ks as [|k ks IH]; intros m q N1 N2; [reflexivity|].
  destruct q as [|x q]; [exfalso; apply N2; exists (k :: ks); reflexivity|].
  destruct ks as [|k2 rest].
  { cbn [putKeys nget]. rewrite mget_mset. destruct (str_eqb k x) eqn:X; auto.
    apply str_eqb_eq in X. subst. exfalso. apply N1. exists q. reflexivity. }
  assert (S : str_eqb k x = true -> ~ begins (k2 :: rest) q /\ ~ begins q (k2 :: rest)).
  { intros X. apply str_eqb_eq in X. subst x. split; intros (r & R).
    - apply N1. exists r. cbn. now rewrite R.
    - apply N2. exists r. cbn. now rewrite R. }
  rewrite putKeys_eq. destruct (mget m k) as [w|] eqn:E.
  - destruct w; auto. cbn [nget]. rewrite mget_mset.
    destruct (str_eqb k x) eqn:X; auto. destruct (S eq_refl) as [S1 S2].
    apply str_eqb_eq in X. subst x. rewrite E. now apply IH.
  - cbn [nget]. rewrite mget_mset.
    destruct (str_eqb k x) eqn:X; auto. destruct (S eq_refl) as [S1 S2].
    apply str_eqb_eq in X. subst x. rewrite E. rewrite IH by assumption.
    destruct q as [|y q]; [|reflexivity]. exfalso. apply S2. exists (k2 :: rest). reflexivity.
Qed.

(** ** many putKeys *)
Definition puts (l : list (segs * gval)) (m : gmap) : gmap :=
  fold_left (fun m e => putKeys m (fst e) (snd e)) l m.

(** What the nested map must be: the value of a path is stored unless a shorter path of the
    input begins it; proper prefixes of stored paths hold maps; nothing else is there. *)
Fixpoint last_of (l : list (segs * gval)) (q : segs) : option gval :=
  match l with
  | [] => None
  | (k, v) :: t => match last_of t q with
                   | Some w => Some w
                   | None => if segs_dec k q then Some v else None
                   end
  end.
Definition shadowed (l : list (segs * gval)) (q : segs) : Prop :=
  exists p, In p (map fst l) /\ below p q.
Definition nested_spec (l : list (segs * gval)) (m : gmap) : Prop :=
  forall q, q <> [] ->
    (forall v, is_map v = false ->
       (nget (GMap m) q = Some v <-> last_of l q = Some v /\ ~ shadowed l q)) /\
    ((exists m', nget (GMap m) q = Some (GMap m')) <->
       (exists k, In k (map fst l) /\ below q k) /\ ~ In q (map fst l) /\ ~ shadowed l q).

Lemma last_of_snoc l k v q : last_of (l ++ [(k, v)]) q = if segs_dec k q then Some v else last_of l q.
Proof.
  induction l as [|[a b] l IH]; cbn; [reflexivity|]. rewrite IH.
  destruct (segs_dec k q); reflexivity.
Qed.
Lemma last_of_in l q v : last_of l q = Some v -> In (q, v) l.
Proof.
  induction l as [|[a b] l IH]; cbn; [discriminate|]. destruct (last_of l q).
  - intros E. inversion E; subst. auto.
  - destruct (segs_dec a q); [|discriminate]. intros E. inversion E; subst. auto.
Qed.
Lemma last_of_some l q : In q (map fst l) -> exists v, last_of l q = Some v.
Proof.
  induction l as [|[a b] l IH]; cbn; [tauto|]. intros [->|H].
  - destruct (last_of l q); eauto. destruct (segs_dec q q); eauto. congruence.
  - destruct (IH H) as [v ->]. eauto.
Qed.
Lemma last_of_none l q : ~ In q (map fst l) -> last_of l q = None.
Proof.
  intros H. destruct (last_of l q) eqn:E; auto. exfalso. apply H. apply last_of_in in E.
  apply in_map_iff. eexists; split; [|exact E]. reflexivity.
Qed.
Lemma begins_cases p q : begins p q -> p = q \/ below p q.
Proof. intros [[|a r] ->]; [left; now rewrite app_nil_r|right; exists a, r; reflexivity]. Qed.
Lemma below_begins p q : below p q -> begins p q.
Proof. intros (a & r & ->). exists (a :: r). reflexivity. Qed.
Lemma below_trans p q r : begins p q -> below q r -> below p r.
Proof.
  intros [x ->] (a & y & ->). destruct x as [|b x].
  - exists a, y. now rewrite app_nil_r.
  - exists b, (x ++ a :: y). now rewrite <- app_assoc.
Qed.
Lemma below_irrefl p : ~ below p p.
Proof.
  intros (a & r & E). apply (f_equal (@length _)) in E. rewrite app_length in E. cbn in E. lia.
Qed.
Lemma begins_dec p q : {begins p q} + {~ begins p q}.
Proof.
  revert q. induction p as [|a p IH]; intros q; [left; exists q; reflexivity|].
  destruct q as [|b q]; [right; intros [r E]; discriminate|].
  destruct (str_dec a b) as [->|N]; [|right; intros [r E]; inversion E; congruence].
  destruct (IH q) as [H|H]; [left; destruct H as [r ->]; exists r; reflexivity|].
  right. intros [r E]. apply H. inversion E. exists r. reflexivity.
Qed.
Lemma below_dec p q : {below p q} + {~ below p q}.
Proof.
  destruct (begins_dec p q) as [B|B]; [|right; intros X; now apply B, below_begins].
  destruct (segs_dec p q) as [->|N]; [right; apply below_irrefl|].
  left. destruct (begins_cases p q B); congruence.
Qed.
Lemma shadowed_dec l q : {shadowed l q} + {~ shadowed l q}.
Proof.
  induction l as [|[k v] l IH]; [right; intros (p & [] & _)|].
  destruct (below_dec k q) as [B|B]; [left; exists k; cbn; auto|].
  destruct IH as [H|H].
  - left. destruct H as (p & Hp & Bp). exists p. cbn. auto.
  - right. intros (p & [<-|Hp] & Bp); [now apply B|]. apply H. exists p. auto.
Qed.
Lemma shadowed_snoc l k v q : shadowed (l ++ [(k, v)]) q <-> shadowed l q \/ below k q.
Proof.
  unfold shadowed. setoid_rewrite map_app. setoid_rewrite in_app_iff. cbn. split.
  - intros (p & [H|[<-|[]]] & B); eauto.
  - intros [(p & H & B)|B]; eauto.
Qed.
Lemma shadow_trans l p q : shadowed l p -> begins p q -> shadowed l q.
Proof.
  intros (x & Hx & B) [r ->]. exists x. split; auto. destruct B as (a & y & ->).
  exists a, (y ++ r). now rewrite <- app_assoc.
Qed.
Lemma in_keys_snoc (l : list (segs * gval)) k v q : In q (map fst (l ++ [(k, v)])) <-> In q (map fst l) \/ k = q.
Proof. rewrite map_app, in_app_iff. cbn. tauto. Qed.

(** the smallest path of the input that begins [q] *)
Lemma blocked_iff l m k :
  nested_spec l m -> Forall (fun e => fst e <> [] /\ is_map (snd e) = false) l ->
  (blocked m k <-> shadowed l k).
Proof.
  intros S F. split.
  - intros (p & v & Hp & B & G & NM). destruct (S p Hp) as [S1 _]. apply (S1 v NM) in G.
    destruct G as [G _]. apply last_of_in in G. exists p. split; auto.
    apply in_map_iff. exists (p, v). auto.
  - intros (p & Hp & B).
    assert (M : exists p0, In p0 (map fst l) /\ begins p0 p /\ ~ shadowed l p0).
    { assert (G : forall n p, length p <= n -> In p (map fst l) ->
                  exists p0, In p0 (map fst l) /\ begins p0 p /\ ~ shadowed l p0).
      { clear p Hp B. induction n as [|n IH]; intros p L Hp.
        - exists p. split; auto. split; [exists []; now rewrite app_nil_r|].
          intros (x & Hx & (a & r & E)). rewrite E, app_length in L. cbn in L. lia.
        - destruct (shadowed_dec l p) as [Y|Y].
          + destruct Y as (x & Hx & B). destruct (IH x) as (p0 & H1 & H2 & H3); auto.
            { destruct B as (a & r & E). rewrite E, app_length in L. cbn in L. lia. }
            exists p0. split; auto. split; auto. destruct H2 as [y ->]. destruct B as (a & r & ->).
            exists (y ++ a :: r). now rewrite <- app_assoc.
          + exists p. split; auto. split; auto. exists []. now rewrite app_nil_r. }
      apply (G (length p) p); auto. }
    destruct M as (p0 & H1 & H2 & H3). destruct (last_of_some l p0 H1) as [v V].
    pose proof (last_of_in _ _ _ V) as Hin. rewrite Forall_forall in F. destruct (F _ Hin) as [F1 F2].
    cbn in F1, F2. exists p0, v. split; auto. split; [now apply (below_trans p0 p)|].
    split; auto. apply (S p0 F1); auto.
Qed.

Theorem puts_spec l :
  Forall (fun e => fst e <> [] /\ is_map (snd e) = false) l -> nested_spec l (puts l []).
Proof.
  induction l as [|[k v] l IH] using rev_ind; intros F.
  - intros [|x q] Hq; [congruence|]. cbn. split.
    + intros v _. split; [discriminate|intros [X _]; discriminate].
    + split; [intros [m' X]; discriminate|intros [(k & [] & _) _]].
  - apply Forall_app in F. destruct F as [F Fk]. specialize (IH F).
    inversion Fk as [|? ? [Hk NM] _]; subst. cbn [fst snd] in *.
    unfold puts. rewrite fold_left_app. cbn [fold_left fst snd]. fold (puts l []).
    set (m := puts l []) in *. pose proof (blocked_iff l m k IH F) as BI.
    intros q Hq. destruct (IH q Hq) as [S1 S2].
    destruct (shadowed_dec l k) as [SK|SK].
    { rewrite put_blocked by now apply BI. split.
      - intros w Hw. rewrite (S1 w Hw), last_of_snoc, shadowed_snoc.
        destruct (segs_dec k q) as [->|N]; [split; [tauto|intros [_ X]; exfalso; tauto]|].
        split; [intros [H1 H2]; split; auto; intros [Y|Y]|tauto]; auto.
        apply H2. apply (shadow_trans l k q SK). now apply below_begins.
      - rewrite S2, shadowed_snoc, in_keys_snoc. split.
        + intros ((k' & Hk' & B) & H1 & H2). split; [exists k'; rewrite in_keys_snoc; auto|].
          split; [intros [Y| ->]; auto|intros [Y|Y]; auto].
          apply H2, (shadow_trans l k q SK), below_begins, Y.
        + intros ((k' & Hk' & B) & H1 & H2). split; [|tauto]. apply in_keys_snoc in Hk'.
          destruct Hk' as [Hk'| <-]; [exists k'; auto|].
          destruct SK as (p & Hp & Bp). exists p. split; auto.
          assert (C : begins p q \/ below q p).
          { destruct B as (a & r & E1), Bp as (b & s & E2). rewrite E1 in E2. clear - E2.
            revert p E2. induction q as [|x q IHq]; intros [|y p] E; cbn in E.
            - left. exists []. reflexivity.
            - right. exists y, p. reflexivity.
            - left. exists (x :: q). reflexivity.
            - inversion E; subst. destruct (IHq _ H1) as [[z ->]|(c & z & ->)].
              + left. exists z. reflexivity.
              + right. exists c, z. reflexivity. }
          destruct C as [C|C]; auto. exfalso. destruct (begins_cases _ _ C) as [->|C2]; [tauto|].
          apply H2. left. exists p. auto. }
    assert (NB : ~ blocked m k) by (rewrite BI; exact SK).
    destruct (begins_dec k q) as [B|B].
    { destruct (begins_cases k q B) as [<-|C].
      - (* the path itself *)
        pose proof (put_at k v m Hk NB []) as G. rewrite app_nil_r in G. cbn [nget] in G. rewrite G. split.
        + intros w Hw. rewrite last_of_snoc, shadowed_snoc. destruct (segs_dec k k) as [_|X]; [|congruence].
          split; [intros E; split; auto; intros [Y|Y]; [auto|now apply below_irrefl in Y]|tauto].
        + split; [intros [m' E]; inversion E; subst; discriminate|].
          intros (_ & Y & _). exfalso. apply Y, in_keys_snoc. auto.
      - (* below the path *)
        destruct C as (a & r & ->). rewrite (put_at k v m Hk NB (a :: r)), nget_scalar by assumption.
        assert (Sh : shadowed (l ++ [(k, v)]) (k ++ a :: r)).
        { apply shadowed_snoc. right. exists a, r. reflexivity. }
        split; [intros w _; split; [discriminate|tauto]|].
        split; [intros [m' E]; discriminate|tauto]. }
    destruct (begins_dec q k) as [C|C].
    { (* above the path *)
      destruct (begins_cases q k C) as [->|C2]; [exfalso; apply B; exists []; now rewrite app_nil_r|].
      destruct (put_above k v m q NB C2) as [m' G]. rewrite G.
      assert (Nq : ~ In q (map fst l)).
      { intros Hin. apply SK. exists q. auto. }
      assert (Nk : k <> q) by (intros ->; now apply below_irrefl in C2).
      assert (Ns : ~ shadowed l q).
      { intros Y. apply SK. now apply (shadow_trans l q k). }
      assert (Nb : ~ below k q) by (intros Y; apply B; now apply below_begins).
      split.
      - intros w Hw. rewrite last_of_snoc. destruct (segs_dec k q); [congruence|].
        rewrite last_of_none by assumption.
        split; [intros E; inversion E; subst; discriminate|intros [E _]; discriminate].
      - rewrite in_keys_snoc, shadowed_snoc. split; [intros _|eauto].
        split; [exists k; rewrite in_keys_snoc; auto|tauto]. }
    (* elsewhere *)
    assert (Nk : k <> q) by (intros ->; apply B; exists []; now rewrite app_nil_r).
    assert (Nb : ~ below k q) by (intros Y; apply B; now apply below_begins).
    assert (Nc : ~ below q k) by (intros Y; apply C; now apply below_begins).
    rewrite put_other by assumption. split.
    + intros w Hw. rewrite (S1 w Hw), last_of_snoc, shadowed_snoc.
      destruct (segs_dec k q); [congruence|]. tauto.
    + rewrite S2, in_keys_snoc, shadowed_snoc.
      assert (E : (exists k0, In k0 (map fst (l ++ [(k, v)])) /\ below q k0) <-> (exists k0, In k0 (map fst l) /\ below q k0)).
      { split; [|intros (x & H1 & H2); exists x; rewrite in_keys_snoc; auto].
        intros (x & H1 & H2). apply in_keys_snoc in H1. destruct H1 as [H1| <-]; [eauto|tauto]. }
      rewrite E. tauto.
Qed.

(** ** splitCompactKeys *)
Lemma contains_split d k : contains (enc1 d) k = false -> split_str k (enc1 d) = [k].
Proof.
  intros C. unfold split_str. rewrite split_last; auto. apply enc1_unbordered.
Qed.
Definition cut_key (d : rune) (e : gostring * gval) : segs * gval := (split_str (fst e) (enc1 d), snd e).
Lemma split_puts d m : is_scalar d = true -> splitCompactKeys d m = puts (map (cut_key d) m) [].
Proof.
  intros Hd. unfold splitCompactKeys, puts. generalize (@nil (gostring * gval)).
  induction m as [|[k v] m IH]; intros acc; cbn; auto. rewrite <- IH. f_equal.
  unfold containsRune, submap. rewrite Hd. cbn [andb].
  destruct (contains (enc1 d) k) eqn:C; auto.
  change (split_go (enc1 d) 0 [] k) with (split_str k (enc1 d)). now rewrite contains_split.
Qed.
Lemma split_flat d m : is_scalar d = false -> splitCompactKeys d m = fold_left (fun o e => mset o (fst e) (snd e)) m [].
Proof.
  intros Hd. unfold splitCompactKeys. unfold containsRune. now rewrite Hd.
Qed.
Lemma split_inj d a b : split_str a (enc1 d) = split_str b (enc1 d) -> a = b.
Proof.
  intros E. destruct (join_split (enc1 d) a (proj1 (enc1_unbordered d))) as [_ J1].
  destruct (join_split (enc1 d) b (proj1 (enc1_unbordered d))) as [_ J2]. congruence.
Qed.

(** ** C31 *)
(** [k2] names something inside [k1]: the segments of [k1] begin those of [k2] *)
Definition seg_below (d : rune) (k1 k2 : gostring) : Prop := below (split_str k1 (enc1 d)) (split_str k2 (enc1 d)).
Definition scalars (m : gmap) : Prop := Forall (fun e => is_map (snd e) = false) m.

Lemma cut_ok d m : scalars m -> Forall (fun e => fst e <> [] /\ is_map (snd e) = false) (map (cut_key d) m).
Proof.
  intros S. apply Forall_map. eapply Forall_impl; [|exact S]. intros [k v] H. split; [apply split_ne|exact H].
Qed.
Lemma last_of_nodup l q v : NoDup (map fst l) -> (last_of l q = Some v <-> In (q, v) l).
Proof.
  intros ND. split; [apply last_of_in|]. induction l as [|[a b] l IH]; cbn; [tauto|].
  inversion ND as [|? ? N1 N2]; subst. intros [E|H].
  - inversion E; subst. rewrite last_of_none by assumption. destruct (segs_dec q q); congruence.
  - now rewrite IH.
Qed.
Lemma nodup_split d (l : list gostring) : NoDup l -> NoDup (map (fun k => split_str k (enc1 d)) l).
Proof.
  induction l as [|x l IH]; intros ND; [constructor|].
  inversion ND as [|? ? Hx ND']; subst. cbn [map]. constructor; [|exact (IH ND')].
  rewrite in_map_iff. intros (y & E & Hy). apply split_inj in E. now subst.
Qed.
Lemma cut_nodup d m : NoDup (map fst m) -> NoDup (map fst (map (cut_key d) m)).
Proof.
  intros ND. apply (nodup_split d) in ND. rewrite map_map in ND. rewrite map_map. exact ND.
Qed.
Lemma cut_in d m k v : In (split_str k (enc1 d), v) (map (cut_key d) m) <-> In (k, v) m.
Proof.
  rewrite in_map_iff. split.
  - intros ([k' v'] & E & H). unfold cut_key in E. cbn [fst snd] in E. injection E as E1 E2.
    apply split_inj in E1. now subst.
  - intros H. exists (k, v). auto.
Qed.
Lemma cut_keys d m q : In q (map fst (map (cut_key d) m)) <-> exists k v, In (k, v) m /\ q = split_str k (enc1 d).
Proof.
  rewrite map_map, in_map_iff. split.
  - intros ([k v] & <- & H). exists k, v. auto.
  - intros (k & v & H & ->). exists (k, v). auto.
Qed.

(** The result in terms of the input: a path of keys leads to a value exactly if the path is
    the segments of an input key no shorter input key lies above of; it leads to a map exactly
    if it is above an input key and neither an input key nor below one. *)
Theorem split_exact d m :
  is_scalar d = true -> NoDup (map fst m) -> scalars m ->
  forall q, q <> [] ->
    (forall v, is_map v = false ->
      (nget (GMap (splitCompactKeys d m)) q = Some v <->
       exists k, In (k, v) m /\ q = split_str k (enc1 d) /\
         forall k' v', In (k', v') m -> ~ seg_below d k' k)) /\
    ((exists m', nget (GMap (splitCompactKeys d m)) q = Some (GMap m')) <->
       (exists k v, In (k, v) m /\ below q (split_str k (enc1 d))) /\
       forall k v, In (k, v) m -> ~ begins (split_str k (enc1 d)) q).
Proof.
  intros Hd ND S q Hq. rewrite (split_puts d m Hd).
  destruct (puts_spec _ (cut_ok d m S) q Hq) as [S1 S2]. split.
  - intros v Hv. rewrite (S1 v Hv), (last_of_nodup _ _ _ (cut_nodup d m ND)). split.
    + intros [H1 H2]. apply in_map_iff in H1. destruct H1 as ([k v'] & E & Hin).
      unfold cut_key in E. cbn [fst snd] in E. injection E as E1 E2. subst q v'.
      exists k. split; auto. split; auto. intros k' v' H' B. apply H2.
      exists (split_str k' (enc1 d)). split; auto. apply cut_keys. eauto.
    + intros (k & H1 & -> & H2). split; [now apply cut_in|].
      intros (p & Hp & B). apply cut_keys in Hp. destruct Hp as (k' & v' & H' & ->). now apply (H2 k' v').
  - rewrite S2. split.
    + intros ((p & Hp & B) & H1 & H2). apply cut_keys in Hp. destruct Hp as (k & v & H & ->).
      split; [eauto|]. intros k' v' H' Bg. destruct (begins_cases _ _ Bg) as [<-|B'].
      * apply H1. apply cut_keys. eauto.
      * apply H2. exists (split_str k' (enc1 d)). split; auto. apply cut_keys. eauto.
    + intros ((k & v & H & B) & H1). split; [exists (split_str k (enc1 d)); split; auto; apply cut_keys; eauto|].
      split.
      * intros Hin. apply cut_keys in Hin. destruct Hin as (k' & v' & H' & E). apply (H1 k' v' H').
        exists []. now rewrite app_nil_r.
      * intros (p & Hp & B'). apply cut_keys in Hp. destruct Hp as (k' & v' & H' & ->).
        apply (H1 k' v' H'). now apply below_begins.
Qed.

(** equality of what can be looked up *)
Definition same_lookups (a b : gval) : Prop :=
  forall q, (forall v, is_map v = false -> (nget a q = Some v <-> nget b q = Some v)) /\
            ((exists m, nget a q = Some (GMap m)) <-> (exists m, nget b q = Some (GMap m))).

Lemma mfold_get l : forall o k, NoDup (map fst l) ->
  forall v, mget (fold_left (fun o e => mset o (fst e) (snd e)) l o) k = Some v <->
            In (k, v) l \/ (~ In k (map fst l) /\ mget o k = Some v).
Proof.
  induction l as [|[a b] l IH]; intros o k ND v; cbn; [tauto|].
  inversion ND as [|? ? N1 N2]; subst. rewrite (IH _ _ N2), mget_mset. destruct (str_eqb a k) eqn:E.
  - apply str_eqb_eq in E. subst. split.
    + intros [H|[H E]]; [auto|left; left; congruence].
    + intros [[H|H]|[H _]]; [right; split; [auto|congruence]|auto|tauto].
  - assert (a <> k) by (intros ->; now rewrite str_eqb_refl in E). split.
    + intros [H1|[H1 H2]]; [auto|right; tauto].
    + intros [[X|X]|[X Y]]; [congruence|auto|tauto].
Qed.
Lemma nodup_perm_fst (m m' : gmap) : Permutation m m' -> NoDup (map fst m) -> NoDup (map fst m').
Proof. intros P. apply Permutation_NoDup. now apply Permutation_map. Qed.

(** without map values the iteration order does not matter *)
Theorem split_order d m m' :
  Permutation m m' -> NoDup (map fst m) -> scalars m ->
  same_lookups (GMap (splitCompactKeys d m)) (GMap (splitCompactKeys d m')).
Proof.
  intros P ND S. pose proof (nodup_perm_fst _ _ P ND) as ND'.
  assert (S' : scalars m') by (unfold scalars; now rewrite <- P).
  assert (I : forall k v, In (k, v) m <-> In (k, v) m').
  { intros k v. split; apply Permutation_in; auto. now apply Permutation_sym. }
  destruct (is_scalar d) eqn:Hd.
  - intros [|x q]; [cbn; split; [intros v H; split; intros E; inversion E; subst; discriminate|split; eauto]|].
    destruct (split_exact d m Hd ND S (x :: q)) as [A1 A2]; [discriminate|].
    destruct (split_exact d m' Hd ND' S' (x :: q)) as [B1 B2]; [discriminate|]. split.
    + intros v Hv. rewrite (A1 v Hv), (B1 v Hv). split; intros (k & H1 & H2 & H3); exists k; split; try now apply I.
      * split; auto. intros k' v' H'. apply I in H'. eauto.
      * split; auto. intros k' v' H'. apply I in H'. eauto.
    + rewrite A2, B2. split; intros [(k & v & H1 & H2) H3];
        (split; [exists k, v; split; [now apply I|auto]|]); intros k' v' H'; apply I in H'; eauto.
  - rewrite !split_flat by assumption.
    assert (G : forall x, mget (fold_left (fun o e => mset o (fst e) (snd e)) m []) x =
                          mget (fold_left (fun o e => mset o (fst e) (snd e)) m' []) x).
    { intros x. destruct (mget (fold_left (fun o e => mset o (fst e) (snd e)) m []) x) as [v|] eqn:E; symmetry.
      - apply mfold_get in E; auto. apply mfold_get; auto. destruct E as [E|[_ E]]; [left; now apply I|discriminate].
      - destruct (mget (fold_left (fun o e => mset o (fst e) (snd e)) m' []) x) as [v|] eqn:E'; auto.
        apply mfold_get in E'; auto. destruct E' as [E'|[_ E']]; [|discriminate].
        apply I in E'. assert (X : mget (fold_left (fun o e => mset o (fst e) (snd e)) m []) x = Some v) by (apply mfold_get; auto).
        congruence. }
    intros [|x q]; [cbn; split; [intros v H; split; intros E; inversion E; subst; discriminate|split; eauto]|].
    cbn [nget]. rewrite G. tauto.
Qed.

(** nothing is lost exactly if no key lies above another one *)
Theorem split_lossless d m :
  is_scalar d = true -> NoDup (map fst m) -> scalars m ->
  (forall k v, In (k, v) m -> nget (GMap (splitCompactKeys d m)) (split_str k (enc1 d)) = Some v) <->
  (forall k v k' v', In (k, v) m -> In (k', v') m -> ~ seg_below d k' k).
Proof.
  intros Hd ND S. split.
  - intros H k v k' v' Hk Hk' B.
    assert (Hv : is_map v = false) by (unfold scalars in S; rewrite Forall_forall in S; apply (S _ Hk)).
    specialize (H k v Hk). apply (split_exact d m Hd ND S) in H; auto; [|apply split_ne].
    destruct H as (k0 & _ & E & H). apply split_inj in E. subst k0. now apply (H k' v' Hk').
  - intros H k v Hk.
    assert (Hv : is_map v = false) by (unfold scalars in S; rewrite Forall_forall in S; apply (S _ Hk)).
    apply (split_exact d m Hd ND S); auto; [apply split_ne|]. exists k. split; auto. split; auto.
    intros k' v' H'. eapply H; eauto.
Qed.
