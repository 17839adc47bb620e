(** Proofs about Deflate, Normalize, flattenHCL, the gob codec and quote. *)
From Coq Require Import String.
From Coq Require Import List NArith ZArith Bool Arith Lia Permutation ZifyBool ZifyNat ZifyN.
From Verif Require Import GoStr Utf8 Trie Climb Cvter Nested Export MergeProofs Misc.
Import ListNotations.
Open Scope nat_scope.
Open Scope list_scope.

(** ** Deflate *)
Lemma dput_eq m k k2 rest v : dput m (k :: k2 :: rest) v =
  match mget m k with
  | Some (GMap cm) => mset m k (GMap (dput cm (k2 :: rest) v))
  | Some _ => dput m (k2 :: rest) v
  | None => mset m k (GMap (dput [] (k2 :: rest) v))
  end.
Proof. reflexivity. Qed.
Lemma dput_put ks v : forall m, ~ blocked m ks -> dput m ks v = putKeys m ks v.
Proof.
  induction ks as [|k ks IH]; intros m NB; [reflexivity|].
  destruct ks as [|k2 rest]; [reflexivity|]. rewrite dput_eq, putKeys_eq.
  destruct (mget m k) as [w|] eqn:E.
  - destruct w; try (exfalso; apply NB; exists [k]; eexists;
      split; [discriminate|split; [exists k2, rest; reflexivity|split; [cbn; rewrite E; reflexivity|reflexivity]]]).
    rewrite IH; auto. intros B. apply NB. now apply (blocked_up _ _ _ _ E).
  - rewrite IH; auto. apply not_blocked_nil.
Qed.
(** the keys of a map that can be deflated: no key names a place inside another *)
Definition prefix_free (ks : list segs) : Prop := forall a b, In a ks -> In b ks -> ~ below a b.
(** what a deflated map must be *)
Definition deflated (l : list (segs * gval)) (m : gmap) : Prop :=
  (forall k v r, In (k, v) l -> nget (GMap m) (k ++ r) = nget v r) /\
  (forall k v q, In (k, v) l -> below q k -> exists m', nget (GMap m) q = Some (GMap m')) /\
  (forall q, q <> [] -> (forall k, In k (map fst l) -> ~ begins k q /\ ~ below q k) -> nget (GMap m) q = None).
Definition dputs (l : list (segs * gval)) : gmap := fold_left (fun m e => dput m (fst e) (snd e)) l [].
Lemma dputs_spec l : NoDup (map fst l) -> prefix_free (map fst l) -> Forall (fun e => fst e <> []) l ->
  deflated l (dputs l).
Proof.
  induction l as [|[k v] l IH] using rev_ind; intros ND PF F.
  - split; [intros k v r []|]. split; [intros k v q []|]. intros [|x q] Hq _; [congruence|]. reflexivity.
  - assert (ND' : NoDup (map fst l)) by (rewrite map_app in ND; cbn in ND; apply NoDup_remove_1 in ND; now rewrite app_nil_r in ND).
    assert (PF' : prefix_free (map fst l)).
    { intros a b Ha Hb. apply PF; rewrite map_app, in_app_iff; auto. }
    apply Forall_app in F. destruct F as [F Fk]. inversion Fk as [|? ? Hk _]; subst. cbn [fst] in Hk.
    destruct (IH ND' PF' F) as (A & B & C). unfold dputs. rewrite fold_left_app. cbn [fold_left fst snd].
    fold (dputs l). set (m := dputs l) in *.
    assert (Kin : In k (map fst (l ++ [(k, v)]))) by (rewrite map_app, in_app_iff; cbn; auto).
    assert (Lin : forall a, In a (map fst l) -> In a (map fst (l ++ [(k, v)]))).
    { intros a Ha. rewrite map_app, in_app_iff. auto. }
    assert (Nk : ~ In k (map fst l)).
    { rewrite map_app in ND. cbn in ND. apply NoDup_remove_2 in ND. rewrite app_nil_r in ND. exact ND. }
    assert (NB : ~ blocked m k).
    { intros (p & w & Hp & Bp & G & NM).
      destruct (existsb (fun a => if below_dec p a then true else false) (map fst l)) eqn:X.
      - apply existsb_exists in X. destruct X as (a & Ha & Y). destruct (below_dec p a) as [Y'|]; [|discriminate].
        apply in_map_iff in Ha. destruct Ha as ([a' w'] & E & Ha). cbn in E. subst a'.
        destruct (B _ _ _ Ha Y') as [m' G']. rewrite G in G'. injection G' as ->. discriminate.
      - rewrite C in G; [discriminate|exact Hp|]. intros a Ha. split.
        + intros Bg. apply (PF a k); auto. now apply (below_trans a p).
        + intros Y. assert (existsb (fun a => if below_dec p a then true else false) (map fst l) = true); [|congruence].
          apply existsb_exists. exists a. split; auto. destruct (below_dec p a); tauto. }
    rewrite dput_put by exact NB.
    assert (Other : forall a, In a (map fst l) -> forall q, begins a q -> ~ begins k q /\ ~ begins q k).
    { intros a Ha q Bq. assert (a <> k) by (intros ->; tauto). split.
      - intros Bk. assert (Cmp : begins a k \/ begins k a).
        { destruct Bq as [x ->], Bk as [y E]. clear - E. revert k E. induction a as [|c a IHa]; intros [|d k] E.
          - left. exists []. reflexivity. - left. eexists. reflexivity. - right. eexists. reflexivity.
          - cbn in E. injection E as -> E. destruct (IHa _ E) as [[z ->]|[z ->]]; [left|right]; exists z; reflexivity. }
        destruct Cmp as [Z|Z]; apply begins_cases in Z; destruct Z as [Z|Z]; try congruence;
          [exact (PF a k (Lin a Ha) Kin Z)|exact (PF k a Kin (Lin a Ha) Z)].
      - intros Z. assert (begins a k) as Y by (destruct Bq as [x ->], Z as [y ->]; exists (x ++ y); now rewrite app_assoc).
        apply begins_cases in Y. destruct Y as [Y|Y]; [congruence|]. exact (PF a k (Lin a Ha) Kin Y). }
    split; [|split].
    + intros a w r Hin. apply in_app_or in Hin. destruct Hin as [Hin|[X|[]]].
      * assert (Ha : In a (map fst l)) by (apply in_map_iff; exists (a, w); auto).
        destruct (Other a Ha (a ++ r)) as [O1 O2]; [exists r; reflexivity|]. rewrite put_other by assumption. now apply A.
      * injection X as -> ->. now apply put_at.
    + intros a w q Hin Bq. destruct (below_dec q k) as [Y|Y]; [now apply put_above|].
      apply in_app_or in Hin. destruct Hin as [Hin|[X|[]]]; [|injection X as -> ->; tauto].
      assert (Ha : In a (map fst l)) by (apply in_map_iff; exists (a, w); auto).
      rewrite put_other; [now apply (B a w)| |].
      * intros Bk. apply (PF k a); auto. now apply (below_trans k q).
      * intros Z. apply begins_cases in Z. destruct Z as [->|Z]; [|tauto]. apply (PF k a); auto.
    + intros q Hq H. rewrite put_other; [apply C; auto| |].
      * now apply H.
      * intros Z. apply begins_cases in Z. destruct (H k Kin) as [H1 H2]. destruct Z as [->|Z]; [|tauto].
        apply H1. exists []. now rewrite app_nil_r.
Qed.

Definition paths (d : gostring) (m : gmap) : list (segs * gval) := map (fun e => (split_str (fst e) d, snd e)) m.
Lemma paths_fst d m : map fst (paths d m) = map (fun k => split_str k d) (map fst m).
Proof. unfold paths. rewrite !map_map. reflexivity. Qed.
Lemma Deflate_dputs m d : Deflate m d = dputs (paths d m).
Proof.
  unfold Deflate, dputs, paths. generalize (@nil (gostring * gval)) as acc.
  induction m as [|e m IH]; intros acc; cbn; auto.
Qed.
Lemma split_inj' d a b : d <> [] -> split_str a d = split_str b d -> a = b.
Proof. intros Hd E. destruct (join_split d a Hd) as [_ A], (join_split d b Hd) as [_ B]. rewrite <- A, <- B. now rewrite E. Qed.
Lemma paths_nodup d m : d <> [] -> NoDup (map fst m) -> NoDup (map fst (paths d m)).
Proof.
  intros Hd. rewrite paths_fst. induction 1 as [|k l Nk _ IH]; cbn; constructor; auto.
  intros H. apply in_map_iff in H. destruct H as (x & E & Hx). apply split_inj' in E; [|exact Hd]. subst x. contradiction.
Qed.
Theorem deflate_spec m d : d <> [] -> NoDup (map fst m) -> prefix_free (map (fun k => split_str k d) (map fst m)) ->
  deflated (paths d m) (Deflate m d).
Proof.
  intros Hd ND PF. rewrite Deflate_dputs. apply dputs_spec.
  - now apply paths_nodup.
  - now rewrite paths_fst.
  - unfold paths. rewrite Forall_forall. intros e He. apply in_map_iff in He. destruct He as (x & <- & _). apply split_ne.
Qed.
(** two answers that say the same: equal, or maps both *)
Definition same_place (a b : option gval) : Prop :=
  a = b \/ exists m m', a = Some (GMap m) /\ b = Some (GMap m').
Theorem deflate_order m m' d : d <> [] -> NoDup (map fst m) -> prefix_free (map (fun k => split_str k d) (map fst m)) ->
  Permutation m m' -> forall q, same_place (nget (GMap (Deflate m d)) q) (nget (GMap (Deflate m' d)) q).
Proof.
  intros Hd ND PF P q.
  assert (P2 : Permutation (map fst m) (map fst m')) by now apply Permutation_map.
  assert (ND' : NoDup (map fst m')) by (eapply Permutation_NoDup; eauto).
  assert (PF' : prefix_free (map (fun k => split_str k d) (map fst m'))).
  { assert (P3 : Permutation (map (fun k => split_str k d) (map fst m')) (map (fun k => split_str k d) (map fst m)))
      by (apply Permutation_map, Permutation_sym, P2).
    intros a b Ha Hb. apply PF; eapply Permutation_in; eauto. }
  destruct (deflate_spec m d Hd ND PF) as (A & B & C), (deflate_spec m' d Hd ND' PF') as (A' & B' & C').
  assert (PP : Permutation (paths d m) (paths d m')) by now apply Permutation_map.
  destruct q as [|x q]; [right; cbn; eauto|]. set (p := x :: q) in *.
  destruct (existsb (fun e => if begins_dec (fst e) p then true else false) (paths d m)) eqn:X1.
  { apply existsb_exists in X1. destruct X1 as ([k v] & Hin & Y). cbn [fst] in Y.
    destruct (begins_dec k p) as [[r E]|]; [|discriminate]. left. rewrite E. rewrite (A _ _ _ Hin).
    symmetry. apply (A' k v). eapply Permutation_in; eauto. }
  destruct (existsb (fun e => if below_dec p (fst e) then true else false) (paths d m)) eqn:X2.
  { apply existsb_exists in X2. destruct X2 as ([k v] & Hin & Y). cbn [fst] in Y.
    destruct (below_dec p k) as [Y'|]; [|discriminate]. right.
    destruct (B _ _ _ Hin Y') as [m1 E1], (B' k v p (Permutation_in _ PP Hin) Y') as [m2 E2]. eauto. }
  assert (NN : forall k, In k (map fst (paths d m)) -> ~ begins k p /\ ~ below p k).
  { intros k Hk. apply in_map_iff in Hk. destruct Hk as ([k' v] & E & Hin). cbn in E. subst k'. split; intros Y.
    - assert (existsb (fun e => if begins_dec (fst e) p then true else false) (paths d m) = true); [|congruence].
      apply existsb_exists. exists (k, v). split; auto. cbn. destruct (begins_dec k p); tauto.
    - assert (existsb (fun e => if below_dec p (fst e) then true else false) (paths d m) = true); [|congruence].
      apply existsb_exists. exists (k, v). split; auto. cbn. destruct (below_dec p k); tauto. }
  left. rewrite C by (try exact NN; discriminate). symmetry. apply C'; [discriminate|].
  intros k Hk. apply NN. apply Permutation_in with (map fst (paths d m')); auto.
  apply Permutation_map, Permutation_sym, PP.
Qed.
(** a value and a key below it: the order decides what the map is, and neither order keeps both *)
Theorem deflate_refuted a b v w : is_map v = false -> a <> b -> contains (s2b "."%string) a = false -> contains (s2b "."%string) b = false ->
  let k := a ++ s2b "."%string ++ b in
  Deflate [(a, v); (k, w)] (s2b "."%string) = [(a, v); (b, w)] /\
  Deflate [(k, w); (a, v)] (s2b "."%string) = [(a, v)].
Proof.
  intros Hv Hab Ha Hb k.
  assert (U : unbordered (s2b "."%string)) by apply (enc1_unbordered 46%N).
  assert (E1 : split_str a (s2b "."%string) = [a]).
  { pose proof (split_join (s2b "."%string) [a] U) as X. cbn in X. apply X; [discriminate|]. constructor; auto. }
  assert (E2 : split_str k (s2b "."%string) = [a; b]).
  { pose proof (split_join (s2b "."%string) [a; b] U) as X. cbn [join_str] in X. apply X; [discriminate|]. constructor; auto. }
  unfold Deflate. cbn [fold_left fst snd]. rewrite E1, E2. cbn [dput mget mset].
  rewrite str_eqb_refl. split.
  - destruct v; try discriminate; cbn [mset]; destruct (str_eqb a b) eqn:X; auto; apply str_eqb_eq in X; congruence.
  - reflexivity.
Qed.

(** a map and a key below it: in one order both are there, in the other the map replaces the key *)
Theorem deflate_map_refuted a b mm w : a <> b -> contains (s2b "."%string) a = false -> contains (s2b "."%string) b = false ->
  let k := a ++ s2b "."%string ++ b in
  Deflate [(a, GMap mm); (k, w)] (s2b "."%string) = [(a, GMap (mset mm b w))] /\
  Deflate [(k, w); (a, GMap mm)] (s2b "."%string) = [(a, GMap mm)].
Proof.
  intros Hab Ha Hb k.
  assert (U : unbordered (s2b "."%string)) by apply (enc1_unbordered 46%N).
  assert (E1 : split_str a (s2b "."%string) = [a]).
  { pose proof (split_join (s2b "."%string) [a] U) as X. cbn in X. apply X; [discriminate|]. constructor; auto. }
  assert (E2 : split_str k (s2b "."%string) = [a; b]).
  { pose proof (split_join (s2b "."%string) [a; b] U) as X. cbn [join_str] in X. apply X; [discriminate|]. constructor; auto. }
  unfold Deflate. cbn [fold_left fst snd]. rewrite E1, E2. cbn [dput mget mset].
  rewrite str_eqb_refl. split; reflexivity.
Qed.

(** ** Normalize *)
Section NormalizeProofs.
Variable sprint : gval -> gostring.
Notation normalize := (normalize sprint).
Notation Normalize := (Normalize sprint).

(** no map with keys of another type than string is reachable *)
Fixpoint anyfree (v : gval) : bool :=
  match v with
  | GAMap _ => false
  | GAMaps l => is_nil l
  | GList l => forallb anyfree l
  | GMap m => forallb (fun e => anyfree (snd e)) m
  | GMaps l => forallb (fun m => forallb (fun e : gostring * gval => anyfree (snd e)) m) l
  | GPkg v _ _ _ => anyfree v
  | _ => true
  end.
(** what Normalize handles: such maps sit in maps, or directly in a slice in a map *)
Fixpoint tame (v : gval) : bool :=
  match v with
  | GAMap m => forallb (fun e => tame (snd e)) m
  | GMap m => forallb (fun e => tame (snd e)) m
  | GList l => forallb (fun x => match x with GAMap _ | GMap _ => tame x | _ => anyfree x end) l
  | _ => anyfree v
  end.
Definition msets (l : list (gostring * gval)) (m : gmap) : gmap := fold_left (fun x e => mset x (fst e) (snd e)) l m.
Lemma forall_mset P m k (v : gval) : Forall (fun e : gostring * gval => P (snd e)) m -> P v ->
  Forall (fun e => P (snd e)) (mset m k v).
Proof.
  intros H Hv. induction H as [|[a b] m Hb Hm IH]; cbn; [constructor; auto|].
  destruct (str_eqb a k); constructor; cbn [snd] in *; assumption.
Qed.
Lemma forall_msets P l : Forall (fun e : gostring * gval => P (snd e)) l -> forall m,
  Forall (fun e => P (snd e)) m -> Forall (fun e => P (snd e)) (msets l m).
Proof.
  induction 1 as [|[k v] l Hv _ IH]; intros m Hm; cbn; auto. apply IH. now apply forall_mset.
Qed.
Lemma forallb_Forall {A} (f : A -> bool) l : forallb f l = true <-> Forall (fun x => f x = true) l.
Proof. rewrite forallb_forall, Forall_forall. tauto. Qed.
Theorem normalize_anyfree v : tame v = true -> anyfree (normalize v) = true.
Proof.
  induction v as [v Hv|l IH|m IH|m IH|l IH|l IH|v x y z IH] using gval_ind'; intros T; auto.
  - destruct v; try destruct Hv; auto.
  - cbn [normalize Misc.normalize anyfree tame] in *. apply forallb_Forall. apply forallb_Forall in T.
    rewrite Forall_map. rewrite Forall_forall in *. intros x Hx. specialize (IH x Hx). specialize (T x Hx). cbn beta in T.
    destruct x; auto.
  - cbn [normalize Misc.normalize anyfree tame] in *. apply forallb_Forall. apply forallb_Forall in T.
    rewrite Forall_map. rewrite Forall_forall in *. intros x Hx. cbn [snd]. auto.
  - cbn [normalize Misc.normalize anyfree tame] in *. apply forallb_Forall. apply forallb_Forall in T.
    apply (forall_msets (fun v => anyfree v = true)); [|constructor].
    rewrite Forall_map. rewrite Forall_forall in *. intros x Hx. cbn [snd]. auto.
Qed.
(** a slice in a slice, and a slice of maps, are left as they are *)
Theorem normalize_slice_refuted l l' l2 : In (GList l') l -> normalize (GList l) = GList l2 -> In (GList l') l2.
Proof.
  intros H E. cbn in E. injection E as <-. apply in_map_iff. exists (GList l'). auto.
Qed.
Theorem normalize_maps_refuted l : normalize (GAMaps l) = GAMaps l.
Proof. reflexivity. Qed.

Lemma mset_values_map f l : (forall e, In e l -> f (snd e) = snd e) -> map (fun e : gostring * gval => (fst e, f (snd e))) l = l.
Proof.
  intros H. induction l as [|e l IH]; cbn [map]; auto. rewrite (H e) by (cbn; auto). f_equal; [now destruct e|]. apply IH.
  intros x Hx. apply H. cbn. auto.
Qed.
Theorem normalize_idem v : normalize (normalize v) = normalize v.
Proof.
  induction v as [v Hv|l IH|m IH|m IH|l IH|l IH|v x y z IH] using gval_ind'; auto.
  - destruct v; try destruct Hv; auto.
  - cbn [normalize Misc.normalize]. f_equal. rewrite map_map. apply map_ext_in. intros x Hx.
    rewrite Forall_forall in IH. specialize (IH x Hx). destruct x; auto.
  - cbn [normalize Misc.normalize]. f_equal. apply mset_values_map. intros e He.
    apply in_map_iff in He. destruct He as (x & <- & Hx). cbn. rewrite Forall_forall in IH. now apply IH.
  - cbn [normalize Misc.normalize]. f_equal. apply mset_values_map.
    apply Forall_forall. apply (forall_msets (fun v => normalize v = v)); [|constructor].
    rewrite Forall_map. rewrite Forall_forall in *. intros e He. cbn. now apply IH.
Qed.
(** the value at a path, in the map as it was given: keys of another type are printed; where two keys
    print the same, the one the iteration meets last *)
Fixpoint alast (m : list (gval * gval)) (k : gostring) : option gval :=
  match m with
  | [] => None
  | (a, v) :: t => match alast t k with
                   | Some w => Some w
                   | None => if str_eqb (sprint a) k then Some v else None
                   end
  end.
Fixpoint aget (v : gval) (ks : segs) : option gval :=
  match ks with
  | [] => Some v
  | k :: r => match v with
              | GMap m => match mget m k with Some v' => aget v' r | None => None end
              | GAMap m => match alast m k with Some v' => aget v' r | None => None end
              | _ => None
              end
  end.
Lemma mget_map f (m : gmap) k : mget (map (fun e => (fst e, f (snd e))) m) k = option_map f (mget m k).
Proof. induction m as [|[a b] m IH]; cbn; auto. destruct (str_eqb a k); auto. Qed.
Lemma mget_msets_a f (m : list (gval * gval)) k : forall acc,
  mget (msets (map (fun e => (sprint (fst e), f (snd e))) m) acc) k =
  match alast m k with Some v => Some (f v) | None => mget acc k end.
Proof.
  induction m as [|[a b] m IH]; intros acc; cbn [map msets fold_left alast fst snd]; auto.
  fold (msets (map (fun e => (sprint (fst e), f (snd e))) m) (mset acc (sprint a) (f b))).
  rewrite IH. destruct (alast m k); auto. rewrite mget_mset. destruct (str_eqb (sprint a) k); auto.
Qed.
Theorem normalize_get ks : forall v, nget (normalize v) ks = option_map normalize (aget v ks).
Proof.
  induction ks as [|k ks IH]; intros v; [reflexivity|].
  destruct v; try reflexivity; cbn [nget aget normalize Misc.normalize].
  - rewrite mget_map. destruct (mget m k); cbn [option_map]; auto.
  - fold (msets (map (fun e => (sprint (fst e), normalize (snd e))) m) []).
    rewrite mget_msets_a. destruct (alast m k); cbn; auto.
Qed.
(** with distinct printed keys the iteration order does not matter *)
Lemma alast_in m k v : NoDup (map (fun e => sprint (fst e)) m) ->
  (alast m k = Some v <-> exists a, In (a, v) m /\ sprint a = k).
Proof.
  induction m as [|[a b] m IH]; cbn; intros ND.
  - split; [discriminate|intros (x & [] & _)].
  - inversion ND as [|? ? N1 N2]; subst. specialize (IH N2). destruct (alast m k) as [w|] eqn:E.
    + rewrite IH. split.
      * intros (x & Hx & Hk). exists x. auto.
      * intros (x & [X|Hx] & Hk); [|eauto]. injection X as -> ->. exfalso. subst k.
        apply N1.
        assert (Hw : exists a0, In (a0, w) m /\ sprint a0 = sprint x).
        { clear - E. induction m as [|[p q] m IH]; cbn in E; [discriminate|]. destruct (alast m (sprint x)) eqn:F.
          - destruct (IH E) as (a0 & H1 & H2). exists a0. cbn. auto.
          - destruct (str_eqb (sprint p) (sprint x)) eqn:G; [|discriminate]. apply str_eqb_eq in G.
            injection E as ->. exists p. cbn. auto. }
        destruct Hw as (a0 & H1 & H2). apply in_map_iff. exists (a0, w). auto.
    + destruct (str_eqb (sprint a) k) eqn:G.
      * apply str_eqb_eq in G. split.
        -- intros X. injection X as ->. exists a. auto.
        -- intros (x & [X|Hx] & Hk); [congruence|]. exfalso. apply N1. apply in_map_iff. exists (x, v). split; auto. cbn. congruence.
      * split; [discriminate|]. intros (x & [X|Hx] & Hk).
        -- injection X as -> ->. subst k. now rewrite str_eqb_refl in G.
        -- apply IH. exists x. auto.
Qed.
Theorem alast_order m m' k : NoDup (map (fun e => sprint (fst e)) m) -> Permutation m m' -> alast m k = alast m' k.
Proof.
  intros ND P. assert (ND' : NoDup (map (fun e => sprint (fst e)) m')).
  { eapply Permutation_NoDup; [|exact ND]. now apply Permutation_map. }
  destruct (alast m k) as [v|] eqn:E; destruct (alast m' k) as [w|] eqn:E'; auto.
  - pose proof (proj1 (alast_in m k v ND) E) as (a & Ha & Hk).
    assert (alast m' k = Some v); [|congruence]. apply (alast_in m' k v ND'). exists a. split; auto. eapply Permutation_in; eauto.
  - pose proof (proj1 (alast_in m k v ND) E) as (a & Ha & Hk).
    assert (alast m' k = Some v); [|congruence]. apply (alast_in m' k v ND'). exists a. split; auto. eapply Permutation_in; eauto.
  - pose proof (proj1 (alast_in m' k w ND') E') as (a & Ha & Hk).
    assert (alast m k = Some w); [|congruence]. apply (alast_in m k w ND). exists a. split; auto.
    eapply Permutation_in; [apply Permutation_sym|]; eauto.
Qed.
End NormalizeProofs.

(** two keys that print the same: one value is lost, which one depends on the order *)
Definition sprint1 (v : gval) : gostring := match v with GStr s => s | GInt _ => s2b "1"%string | _ => [] end.
Theorem normalize_collision_refuted :
  normalize sprint1 (GAMap [(GInt 1, GStr (s2b "x"%string)); (GStr (s2b "1"%string), GStr (s2b "y"%string))]) =
    GMap [(s2b "1"%string, GStr (s2b "y"%string))] /\
  normalize sprint1 (GAMap [(GStr (s2b "1"%string), GStr (s2b "y"%string)); (GInt 1, GStr (s2b "x"%string))]) =
    GMap [(s2b "1"%string, GStr (s2b "x"%string))].
Proof. split; vm_compute; reflexivity. Qed.

(** ** flattenHCL *)
(** no slice of one map is the value of a key on a path of maps *)
Fixpoint hcl_flat (v : gval) : bool :=
  match v with
  | GMaps [_] => false
  | GMap m => forallb (fun e => hcl_flat (snd e)) m
  | _ => true
  end.
Theorem hcl_no_single v : hcl_flat (hclVal v) = true.
Proof.
  induction v as [v Hv|l IH|m IH|m IH|l IH|l IH|v x y z IH] using gval_ind'; auto.
  - destruct v; try destruct Hv; auto.
  - cbn. apply forallb_forall. intros e He. apply in_map_iff in He. destruct He as (x & <- & Hx).
    rewrite Forall_forall in IH. now apply IH.
  - destruct l as [|m [|m2 l]]; auto. cbn. inversion IH as [|? ? Hm _]; subst.
    apply forallb_forall. intros e He. apply in_map_iff in He. destruct He as (x & <- & Hx).
    rewrite Forall_forall in Hm. now apply Hm.
Qed.
(** the value at a path, a slice of one map being read as that map *)
Fixpoint hget (v : gval) (ks : segs) : option gval :=
  match ks with
  | [] => Some v
  | k :: r => match v with
              | GMap m | GMaps [m] => match mget m k with Some v' => hget v' r | None => None end
              | _ => None
              end
  end.
Theorem hcl_get ks : forall v, nget (hclVal v) ks = option_map hclVal (hget v ks).
Proof.
  induction ks as [|k ks IH]; intros v; [reflexivity|].
  assert (X : forall m : gmap, nget (GMap (map (fun e => (fst e, hclVal (snd e))) m)) (k :: ks) =
    option_map hclVal (match mget m k with Some v' => hget v' ks | None => None end)).
  { intros m. cbn [nget]. rewrite mget_map. destruct (mget m k); cbn [option_map]; auto. }
  destruct v; try reflexivity; [apply X|]. destruct l as [|m [|m2 l]]; try reflexivity. apply X.
Qed.
Theorem hcl_keeps v : match v with GMap _ | GMaps [_] => True | _ => hclVal v = v end.
Proof. destruct v; auto. destruct l as [|m [|m2 l]]; auto. Qed.
Theorem hcl_idem v : hclVal (hclVal v) = hclVal v.
Proof.
  induction v as [v Hv|l IH|m IH|m IH|l IH|l IH|v x y z IH] using gval_ind'; auto.
  - destruct v; try destruct Hv; auto.
  - cbn. f_equal. apply mset_values_map. intros e He. apply in_map_iff in He. destruct He as (x & <- & Hx).
    rewrite Forall_forall in IH. cbn. now apply IH.
  - destruct l as [|m [|m2 l]]; auto. cbn. f_equal. inversion IH as [|? ? Hm _]; subst.
    apply mset_values_map. intros e He. apply in_map_iff in He. destruct He as (x & <- & Hx).
    rewrite Forall_forall in Hm. cbn. now apply Hm.
Qed.
(** the blocks of a repeated block are not flattened *)
Theorem hcl_repeated_refuted m1 m2 l : hclVal (GMaps (m1 :: m2 :: l)) = GMaps (m1 :: m2 :: l).
Proof. reflexivity. Qed.

(** ** gob *)
Theorem gob_marshal_refuted enc p m : snd (gob_Marshal enc p m) = [].
Proof. reflexivity. Qed.
Theorem gob_unmarshal_refuted decode p b b1 b2 :
  gob_Unmarshal decode (fst (gob_Unmarshal decode p b)) b1 = gob_Unmarshal decode (fst (gob_Unmarshal decode p b)) b2.
Proof. unfold gob_Unmarshal. destruct (decode (match g_dec p with Some r => r | None => b end)). reflexivity. Qed.
Theorem gob_unmarshal_first decode e b : snd (gob_Unmarshal decode (GobS None e) b) = fst (decode b).
Proof. unfold gob_Unmarshal. cbn. destruct (decode b). reflexivity. Qed.

(** ** quote *)
Definition unhex (c : N) : option N :=
  if (48 <=? c)%N && (c <=? 57)%N then Some (c - 48)%N
  else if (97 <=? c)%N && (c <=? 102)%N then Some (c - 87)%N else None.
(** reading a quoted string: specification *)
Fixpoint unq (s : gostring) : option gostring :=
  match s with
  | [] => None
  | c :: t =>
      if (c =? 34)%N then (if is_nil t then Some [] else None)
      else if (c =? 92)%N then
        match t with
        | e :: t' =>
            if (e =? 120)%N then
              match t' with
              | h :: l :: t2 => match unhex h, unhex l, unq t2 with
                                | Some a, Some b, Some r => Some ((a * 16 + b)%N :: r)
                                | _, _, _ => None
                                end
              | _ => None
              end
            else match unq t' with Some r => Some (e :: r) | None => None end
        | [] => None
        end
      else match unq t with Some r => Some (c :: r) | None => None end
  end.
Definition unquote (s : gostring) : option gostring :=
  match s with c :: t => if (c =? 34)%N then unq t else None | [] => None end.
Definition byte (b : N) : Prop := (b < 256)%N.
Lemma hex_unhex n : (n < 16)%N -> unhex (hex1 n) = Some n.
Proof.
  intros H. assert (C : In n (map N.of_nat (seq 0 16))).
  { apply in_map_iff. exists (N.to_nat n). split; [lia|]. apply in_seq. lia. }
  cbn in C. decompose [or] C; subst; try tauto; reflexivity.
Qed.
Lemma unq_hexesc b t : byte b -> unq (hexesc b ++ t) = match unq t with Some r => Some (b :: r) | None => None end.
Proof.
  intros H. unfold hexesc. cbn [app unq]. unfold byte in H.
  rewrite !hex_unhex by (try apply N.mod_lt; try apply N.div_lt_upper_bound; lia).
  change (92 =? 34)%N with false. change (92 =? 92)%N with true. change (120 =? 120)%N with true. cbn iota.
  destruct (unq t); auto. do 2 f_equal. rewrite N.mul_comm. symmetry. apply N.div_mod. lia.
Qed.
Lemma unq_hexescs bs t : Forall byte bs -> unq (flat_map hexesc bs ++ t) = match unq t with Some r => Some (bs ++ r) | None => None end.
Proof.
  induction 1 as [|b bs Hb _ IH]; cbn [flat_map app]; [destruct (unq t); auto|].
  rewrite <- app_assoc, unq_hexesc, IH by exact Hb. destruct (unq t); auto.
Qed.
Lemma quote_skip u : forall t, quote_go (length u) (u ++ t) = quote_go 0 t.
Proof. induction u as [|b u IH]; intros t; cbn; auto. Qed.
(** what dec1 answers: the width of the rune is what the code computes *)
Definition width_of (c : rune) (s : gostring) : nat :=
  if (c =? RuneError)%N then if (2 <? length s)%nat && str_eqb (firstn 3 s) (enc1 RuneError) then 3%nat else 1%nat
  else length (enc1 c).
Open Scope N_scope.
Ltac Zify.zify_post_hook ::= Z.div_mod_to_equations.
Lemma enc_len c : is_scalar c = true ->
  length (enc1 c) = if c <? 0x80 then 1%nat else if c <? 0x800 then 2%nat else if c <? 0x10000 then 3%nat else 4%nat.
Proof.
  intros S. unfold enc1. rewrite S. unfold enc1_valid.
  destruct (c <? 0x80); auto. destruct (c <? 0x800); auto. destruct (c <? 0x10000); auto.
Qed.
Lemma width_bad b0 t : 0x80 <= b0 ->
  (0xE0 <= b0 <= 0xEF -> match t with b1 :: b2 :: _ => ok3 b0 b1 && is_cont b2 = false | _ => True end) ->
  width_of RuneError (b0 :: t) = 1%nat.
Proof.
  intros H H3. unfold width_of. rewrite N.eqb_refl.
  destruct ((2 <? length (b0 :: t))%nat && str_eqb (firstn 3 (b0 :: t)) (enc1 RuneError)) eqn:E; auto.
  exfalso. apply andb_true_iff in E. destruct E as [_ E]. apply str_eqb_eq in E.
  change (enc1 RuneError) with [0xEF; 0xBF; 0xBD] in E.
  destruct t as [|b1 [|b2 t]]; try discriminate. cbn in E. injection E as -> -> ->.
  assert (X : ok3 0xEF 0xBF && is_cont 0xBD = false) by (apply H3; lia). vm_compute in X. discriminate.
Qed.
Lemma dec1_width b t : exists c u t', b :: t = u ++ t' /\ u <> [] /\ dec1 (b :: t) = (c, length u) /\
  ((0x80 <= c \/ c < 32) -> width_of c (b :: t) = length u) /\ (c < 0x80 -> u = [c] /\ enc1 c = [c]).
Proof.
  cbn [dec1]. destruct (N.ltb_spec b 0x80) as [L|L].
  { assert (S : is_scalar b = true) by (unfold is_scalar; lia).
    exists b, [b], t. split; [reflexivity|]. split; [discriminate|]. split; [reflexivity|]. split.
    - intros _. unfold width_of. replace (b =? RuneError) with false by (unfold RuneError; lia).
      rewrite enc_len by exact S. replace (b <? 0x80) with true by lia. reflexivity.
    - intros _. split; auto. unfold enc1, enc1_valid. rewrite S. replace (b <? 0x80) with true by lia. reflexivity. }
  assert (BAD : (0xE0 <= b <= 0xEF -> match t with b1 :: b2 :: _ => ok3 b b1 && is_cont b2 = false | _ => True end) ->
    exists c u t', b :: t = u ++ t' /\ u <> [] /\ (RuneError, 1%nat) = (c, length u) /\
      ((0x80 <= c \/ c < 32) -> width_of c (b :: t) = length u) /\ (c < 0x80 -> u = [c] /\ enc1 c = [c])).
  { intros H3. exists RuneError, [b], t. split; [reflexivity|]. split; [discriminate|]. split; [reflexivity|].
    split; [intros _; now apply width_bad|]. unfold RuneError. lia. }
  destruct ((0xC2 <=? b) && (b <=? 0xDF)) eqn:E2.
  { destruct t as [|b1 t1]; [apply BAD; lia|]. destruct (is_cont b1) eqn:C1; [|apply BAD; lia].
    set (c := (b - 0xC0) * 64 + (b1 - 0x80)).
    assert (R : 0x80 <= c < 0x800) by (unfold is_cont in C1; lia).
    exists c, [b; b1], t1. split; [reflexivity|]. split; [discriminate|]. split; [reflexivity|]. split; [|lia].
    intros _. unfold width_of. replace (c =? RuneError) with false by (unfold RuneError; lia).
    rewrite enc_len by (unfold is_scalar; lia). replace (c <? 0x80) with false by lia.
    replace (c <? 0x800) with true by lia. reflexivity. }
  destruct ((0xE0 <=? b) && (b <=? 0xEF)) eqn:E3.
  { destruct t as [|b1 [|b2 t2]]; try (apply BAD; auto; fail).
    destruct (ok3 b b1 && is_cont b2) eqn:C; [|apply BAD; auto].
    apply andb_true_iff in C. destruct C as [C1 C2].
    set (c := (b - 0xE0) * 4096 + (b1 - 0x80) * 64 + (b2 - 0x80)).
    assert (R : 0x800 <= c < 0x10000 /\ is_scalar c = true).
    { unfold is_scalar. unfold ok3, is_cont in C1, C2. destruct (N.eqb_spec b 0xE0); [lia|]. destruct (N.eqb_spec b 0xED); lia. }
    destruct R as [R S].
    exists c, [b; b1; b2], t2. split; [reflexivity|]. split; [discriminate|]. split; [reflexivity|]. split; [|lia].
    intros _. unfold width_of. destruct (N.eqb_spec c RuneError) as [X|X].
    - assert (Y : b = 0xEF /\ b1 = 0xBF /\ b2 = 0xBD).
      { unfold RuneError in X. unfold ok3, is_cont in C1, C2. destruct (N.eqb_spec b 0xE0); [lia|]. destruct (N.eqb_spec b 0xED); lia. }
      destruct Y as (-> & -> & ->). reflexivity.
    - rewrite enc_len by exact S. replace (c <? 0x80) with false by lia.
      replace (c <? 0x800) with false by lia. replace (c <? 0x10000) with true by lia. reflexivity. }
  destruct ((0xF0 <=? b) && (b <=? 0xF4)) eqn:E4; [|apply BAD; lia].
  destruct t as [|b1 [|b2 [|b3 t3]]]; try (apply BAD; lia).
  destruct (ok4 b b1 && is_cont b2 && is_cont b3) eqn:C; [|apply BAD; lia].
  apply andb_true_iff in C. destruct C as [C C3]. apply andb_true_iff in C. destruct C as [C1 C2].
  set (c := (b - 0xF0) * 262144 + (b1 - 0x80) * 4096 + (b2 - 0x80) * 64 + (b3 - 0x80)).
  assert (R : 0x10000 <= c /\ is_scalar c = true).
  { unfold is_scalar. unfold ok4, is_cont in C1, C2, C3. destruct (N.eqb_spec b 0xF0); [lia|]. destruct (N.eqb_spec b 0xF4); lia. }
  destruct R as [R S].
  exists c, [b; b1; b2; b3], t3. split; [reflexivity|]. split; [discriminate|]. split; [reflexivity|]. split; [|lia].
  intros _. unfold width_of. replace (c =? RuneError) with false by (unfold RuneError; lia).
  rewrite enc_len by exact S. replace (c <? 0x80) with false by lia.
  replace (c <? 0x800) with false by lia. replace (c <? 0x10000) with false by lia. reflexivity.
Qed.
(** one step of the loop: the bytes of one rune *)
Lemma quote_step b t : exists u t' here, b :: t = u ++ t' /\ u <> [] /\
  quote_go 0 (b :: t) = (do rest <- quote_go 0 t'; Ok (here ++ rest)) /\
  (here = flat_map hexesc u \/
   exists c, u = [c] /\ 32 <= c < 128 /\ here = (if (c =? qch) || (c =? bsl) then [bsl] else []) ++ [c]).
Proof.
  destruct (dec1_width b t) as (c & u & t' & E & Hu & D & W & A).
  assert (SK : quote_go (pred (length u)) t = quote_go 0 t').
  { destruct u as [|b' u]; [congruence|]. cbn in E. injection E as -> ->. apply quote_skip. }
  assert (Q : quote_go 0 (b :: t) =
    (do here <- (if (0x80 <=? c) || (c <? 32) then
                   if (width_of c (b :: t) <=? length (b :: t))%nat
                   then Ok (flat_map hexesc (firstn (width_of c (b :: t)) (b :: t))) else Panic
                 else Ok ((if (c =? qch) || (c =? bsl) then [bsl] else []) ++ enc1 c));
     do rest <- quote_go 0 t'; Ok (here ++ rest))).
  { rewrite <- SK. cbn [quote_go]. rewrite D. reflexivity. }
  destruct ((0x80 <=? c) || (c <? 32)) eqn:B.
  - exists u, t', (flat_map hexesc u). split; [exact E|]. split; [exact Hu|]. split; [|auto].
    rewrite Q, W by lia. rewrite E, app_length.
    replace (length u <=? length u + length t')%nat with true by lia.
    rewrite firstn_app, firstn_all, Nat.sub_diag. cbn [firstn bind]. now rewrite app_nil_r.
  - destruct A as [A1 A2]; [lia|]. exists u, t', ((if (c =? qch) || (c =? bsl) then [bsl] else []) ++ [c]).
    split; [exact E|]. split; [exact Hu|]. split; [rewrite Q, A2; reflexivity|].
    right. exists c. split; auto. split; [lia|reflexivity].
Qed.
Lemma quote_go_spec s : Forall byte s -> exists q, quote_go 0 s = Ok q /\
  unq (q ++ [qch]) = Some s /\ Forall (fun c => 32 <= c < 128) q.
Proof.
  induction s as [s IH] using length_ind. intros F. destruct s as [|b t].
  { exists []. split; [reflexivity|]. split; [reflexivity|constructor]. }
  destruct (quote_step b t) as (u & t' & here & E & Hu & Q & Hh). rewrite E in F. apply Forall_app in F.
  destruct F as [Fu Ft]. destruct (IH t') as (q & Q1 & Q2 & Q3); auto.
  { rewrite E, app_length. destruct u; [congruence|]. cbn. lia. }
  exists (here ++ q). rewrite Q, Q1. split; [reflexivity|]. rewrite E, <- app_assoc.
  destruct Hh as [->|(c & -> & Hc & ->)].
  - rewrite unq_hexescs, Q2 by exact Fu. split; [reflexivity|]. apply Forall_app. split; [|exact Q3].
    clear - Fu. induction Fu as [|x u Hx _ IH]; cbn [flat_map]; [constructor|]. apply Forall_app. split; [|exact IH].
    assert (HX : forall n, n < 16 -> 32 <= hex1 n < 128).
    { intros n Hn. assert (C : In n (map N.of_nat (seq 0 16))).
      { apply in_map_iff. exists (N.to_nat n). split; [lia|]. apply in_seq. lia. }
      cbn in C. decompose [or] C; subst; try tauto; vm_compute; split; congruence. }
    unfold byte in Hx. unfold hexesc. constructor; [lia|]. constructor; [lia|].
    constructor; [apply HX; apply N.div_lt_upper_bound; lia|]. constructor; [apply HX; apply N.mod_lt; lia|constructor].
  - unfold qch, bsl. split.
    + destruct ((c =? 34) || (c =? 92)) eqn:X; cbn [app].
      * cbn [unq]. change (92 =? 34) with false. change (92 =? 92) with true. cbn iota.
        replace (c =? 120) with false by lia. unfold qch in Q2. rewrite Q2. reflexivity.
      * cbn [unq]. replace (c =? 34) with false by lia. replace (c =? 92) with false by lia.
        unfold qch in Q2. rewrite Q2. reflexivity.
    + apply Forall_app. split; [|exact Q3]. apply Forall_app. split; [destruct ((c =? 34) || (c =? 92)); constructor; [lia|constructor]|].
      constructor; [lia|constructor].
Qed.
(** quote never panics, its result is printable ASCII (and DEL) and names exactly the given bytes *)
Theorem quote_spec s : Forall byte s -> exists q, quote s = Ok q /\ unquote q = Some s /\ Forall (fun c => (32 <= c < 128)%N) q.
Proof.
  intros F. destruct (quote_go_spec s F) as (q & Q1 & Q2 & Q3). exists ([qch] ++ q ++ [qch]).
  unfold quote. rewrite Q1. split; [reflexivity|]. split; [exact Q2|].
  apply Forall_app. split; [constructor; [unfold qch; lia|constructor]|]. apply Forall_app. split; [exact Q3|].
  constructor; [unfold qch; lia|constructor].
Qed.
Theorem quote_inj a b : Forall byte a -> Forall byte b -> quote a = quote b -> a = b.
Proof.
  intros Fa Fb E. destruct (quote_spec a Fa) as (q & Q1 & Q2 & _), (quote_spec b Fb) as (q' & Q1' & Q2' & _).
  assert (q = q') by congruence. congruence.
Qed.
