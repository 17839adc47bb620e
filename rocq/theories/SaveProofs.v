(** Saving a whole store and loading it again. *)
From Coq Require Import List NArith ZArith Bool Arith Lia Permutation.
From Verif Require Import GoStr Utf8 Node NodeWf InsertProofs MatchProofs Trie Spec Refine ApiRefine Reach Derived Derived2 Derived3
  Derived4 Climb Cvter Nested CvterProofs Export Store StoreProofs MergeProofs LoadProofs Misc Provider ProviderProofs WatchProofs Watch Follow Save.
Import ListNotations.
Open Scope nat_scope.

(** a value that loading stores as it is *)
Definition single (flat : bool) (v : gval) : bool :=
  match v with
  | GNil | GBool _ | GInt _ | GStr _ | GOther _ => true
  | GList _ | GMaps _ | GAMaps _ => negb flat
  | _ => false
  end.
(** a nested map with distinct keys and such values *)
Inductive tidy (flat : bool) : gval -> Prop :=
| T_leaf v : single flat v = true -> tidy flat v
| T_map m : NoDup (map fst m) -> Forall (fun e => tidy flat (snd e)) m -> tidy flat (GMap m).

Lemma single_map flat v : single flat v = true -> is_map v = false.
Proof. destruct v; cbn; congruence. Qed.
Lemma tidy_map flat m : tidy flat (GMap m) -> NoDup (map fst m) /\ Forall (fun e => tidy flat (snd e)) m.
Proof. intros H. inversion H; subst; [discriminate|auto]. Qed.

Lemma gleaves_tidy str flat d v : tidy flat v -> forall pos k x,
  In x (map segs_of (gleaves str flat d (fun l k => l ++ [k]) v pos k)) <->
  exists ks w, x = (pos ++ k :: ks, w) /\ nget v ks = Some w /\ is_map w = false.
Proof.
  induction v as [v Hv|l IH|m IH|m IH|l IH|l IH|v x y z IH] using gval_ind'; intros T pos k e.
  - assert (G : gleaves str flat d (fun l k => l ++ [k]) v pos k = [(pos, k, v)]).
    { destruct v; try destruct Hv; reflexivity. }
    rewrite G. cbn [map In segs_of fst snd]. split.
    + intros [<-|[]]. exists [], v. split; auto. split; auto. destruct v; try destruct Hv; reflexivity.
    + intros (ks & w & -> & N & _). destruct ks as [|a ks]; [injection N as <-; auto|].
      destruct v; try destruct Hv; discriminate.
  - assert (F : flat = false) by (inversion T as [? S|]; subst; cbn in S; destruct flat; auto; discriminate).
    cbn [gleaves]. rewrite F. cbn [map In segs_of fst snd]. split.
    + intros [<-|[]]. exists [], (GList l). auto.
    + intros (ks & w & -> & N & _). destruct ks as [|a ks]; [injection N as <-; auto|discriminate].
  - apply tidy_map in T. destruct T as [ND F]. cbn [gleaves].
    split.
    + intros H. apply in_map_iff in H. destruct H as (x & Ex & H). apply in_flat_map in H. destruct H as ([k' v'] & Hin & H).
      cbn [fst snd] in H. rewrite Forall_forall in IH, F. specialize (IH _ Hin (F _ Hin) (pos ++ [k]) k' e).
      cbn [snd] in IH. assert (X : In e (map segs_of (gleaves str flat d (fun l k => l ++ [k]) v' (pos ++ [k]) k'))) by (apply in_map_iff; eauto).
      apply IH in X. destruct X as (ks & w & -> & N & M).
      exists (k' :: ks), w. rewrite <- app_assoc. split; auto. split; auto. cbn [nget].
      apply mget_in in Hin; auto. now rewrite Hin.
    + intros (ks & w & -> & N & M). destruct ks as [|k' ks]; [injection N as <-; discriminate|]. cbn [nget] in N.
      destruct (mget m k') as [v'|] eqn:G; [|discriminate]. apply mget_in in G; auto.
      rewrite Forall_forall in IH, F. specialize (IH _ G (F _ G) (pos ++ [k]) k' (pos ++ k :: k' :: ks, w)). cbn [snd] in IH.
      destruct IH as [_ IH]. apply in_map_iff in IH.
      2:{ exists ks, w. rewrite <- app_assoc. auto. }
      destruct IH as (x & Ex & Hx). apply in_map_iff. exists x. split; auto. apply in_flat_map. exists (k', v'). auto.
  - inversion T; subst; discriminate.
  - assert (F : flat = false) by (inversion T as [? S|]; subst; cbn in S; destruct flat; auto; discriminate).
    cbn [gleaves]. rewrite F. cbn [map In segs_of fst snd]. split.
    + intros [<-|[]]. exists [], (GMaps l). auto.
    + intros (ks & w & -> & N & _). destruct ks as [|a ks]; [injection N as <-; auto|discriminate].
  - assert (F : flat = false) by (inversion T as [? S|]; subst; cbn in S; destruct flat; auto; discriminate).
    cbn [gleaves]. rewrite F. cbn [map In segs_of fst snd]. split.
    + intros [<-|[]]. exists [], (GAMaps l). auto.
    + intros (ks & w & -> & N & _). destruct ks as [|a ks]; [injection N as <-; auto|discriminate].
  - inversion T; subst; discriminate.
Qed.
Lemma leaves_tidy str flat d m : tidy flat (GMap m) -> forall ks v,
  In (ks, v) (leaves str flat d m) <-> ks <> [] /\ nget (GMap m) ks = Some v /\ is_map v = false.
Proof.
  intros T ks v. destruct (tidy_map _ _ T) as [ND F]. unfold leaves. rewrite in_flat_map. rewrite Forall_forall in F. split.
  - intros ([k' v'] & Hin & H). cbn [fst snd] in H. apply (gleaves_tidy str flat d v' (F _ Hin) [] k') in H.
    destruct H as (r & w & E & N & M). injection E as -> ->. split; [discriminate|]. split; auto. cbn [nget app].
    apply mget_in in Hin; auto. now rewrite Hin.
  - intros (H1 & H2 & H3). destruct ks as [|k' ks]; [congruence|]. cbn [nget] in H2. destruct (mget m k') as [v'|] eqn:G; [|discriminate].
    apply mget_in in G; auto. exists (k', v'). split; auto. cbn [fst snd].
    apply (gleaves_tidy str flat d v' (F _ G) [] k'). exists ks, v. auto.
Qed.

(** ** what splitCompactKeys makes is tidy *)
Lemma mset_tidy flat m k v : tidy flat (GMap m) -> tidy flat v -> tidy flat (GMap (mset m k v)).
Proof.
  intros T V. apply tidy_map in T. destruct T as [ND F]. apply T_map; [now apply mset_nodup|].
  rewrite Forall_forall in *. intros [a b] Hin. apply mget_in in Hin; [|now apply mset_nodup]. rewrite mget_mset in Hin.
  destruct (str_eqb k a); [injection Hin as <-; exact V|]. apply mget_in in Hin; [|assumption]. exact (F _ Hin).
Qed.
Lemma putKeys_tidy flat v : tidy flat v -> forall ks m, tidy flat (GMap m) -> tidy flat (GMap (putKeys m ks v)).
Proof.
  intros V. induction ks as [|k ks IH]; intros m T; [exact T|]. destruct ks as [|k2 rest].
  - cbn. now apply mset_tidy.
  - rewrite putKeys_eq. destruct (mget m k) as [w|] eqn:G.
    + destruct w; auto. apply mset_tidy; auto. apply IH. apply tidy_map in T. destruct T as [ND F].
      apply mget_in in G; auto. rewrite Forall_forall in F. exact (F _ G).
    + apply mset_tidy; auto. apply IH. apply T_map; constructor.
Qed.
Lemma split_tidy flat d m : is_scalar d = true -> Forall (fun e => tidy flat (snd e)) m -> tidy flat (GMap (splitCompactKeys d m)).
Proof.
  intros Sd F. rewrite split_puts by auto. unfold puts.
  assert (G : forall acc, tidy flat (GMap acc) -> tidy flat (GMap (fold_left (fun m e => putKeys m (fst e) (snd e)) (map (cut_key d) m) acc))).
  { induction F as [|[k v] m Hv _ IH]; intros acc T; cbn [map fold_left]; auto. apply IH. apply putKeys_tidy; auto. }
  apply G. apply T_map; constructor.
Qed.

(** ** the place of a key *)
(** keys that survive: no blank, no empty segment *)
Definition sound_key (d : rune) (s : gostring) : Prop :=
  blank_free s /\ Forall (fun p => p <> []) (split_str s (enc1 d)).
Lemma enc1_byte d : (d < 128)%N -> [delim_byte d] = enc1 d.
Proof.
  intros Hd. unfold delim_byte, enc1, is_scalar, enc1_valid. rewrite N.mod_small by lia.
  replace (d <? 0xD800)%N with true by (symmetry; apply N.ltb_lt; lia).
  replace (d <? 0x80)%N with true by (symmetry; apply N.ltb_lt; lia). reflexivity.
Qed.
Lemma nonempty_all l : Forall (fun p => p <> []) l -> nonempty l = l.
Proof. induction 1 as [|p l Hp _ IH]; auto. unfold nonempty in *. cbn [filter]. destruct p; [congruence|]. cbn. now rewrite IH. Qed.
Lemma join_of_split d s : (d < 128)%N -> sound_key d s -> Join d ([] :: split_str s (enc1 d)) = s.
Proof.
  intros Hd [_ H]. rewrite join_spec. change (nonempty ([] :: split_str s (enc1 d))) with (nonempty (split_str s (enc1 d))).
  rewrite nonempty_all by auto. rewrite enc1_byte by auto. apply join_split. rewrite <- enc1_byte by auto. discriminate.
Qed.
Lemma placed_key d s v : (d < 128)%N -> sound_key d s -> placed d [] (split_str s (enc1 d), v) = (runes s, v).
Proof.
  intros Hd H. unfold placed. cbn [fst snd]. rewrite join_of_split by auto. f_equal. f_equal. apply blank_free_replace. apply H.
Qed.
Lemma assoc_last_fun L k v : (forall v1 v2, In (k, v1) L -> In (k, v2) L -> v1 = v2) ->
  (assoc_last L k None = Some v <-> In (k, v) L).
Proof.
  intros H. split.
  - intros E. destruct (Follow.assoc_last_in L k None v E) as [X|[X _]]; auto. discriminate.
  - assert (G : forall cur, In (k, v) L -> exists v', assoc_last L k cur = Some v').
    { clear H. induction L as [|[a b] L IH]; intros cur Hin; [destruct Hin|]. cbn [assoc_last].
      destruct Hin as [E|Hin]; [|now apply IH]. injection E as -> ->. rewrite str_eqb_refl. clear IH.
      generalize v as w. induction L as [|[a b] L IH]; intros w; cbn [assoc_last]; eauto. destruct (str_eqb a k); apply IH. }
    intros Hin. destruct (G None Hin) as (v' & E). rewrite E. f_equal.
    destruct (Follow.assoc_last_in L k None v' E) as [X|[X _]]; [|discriminate]. eauto.
Qed.

(** ** what SaveAs hands to the codec *)
Definition holds (d : rune) (t : tr) (s : gostring) (v : gval) : Prop := exists a, exports d t s v a.
Lemma saveas_map rf order h t flat :
  vreach t -> hprefix h = [] -> is_scalar (hdelim h) = true -> (forall m, Permutation m (order m)) ->
  (forall s v, holds (hdelim h) t s v -> single flat v = true) ->
  exists m, GetM rf order h t [] (MOpts false true None) = Ok (Some m) /\ tidy flat (GMap m) /\
    nested_of (hdelim h) (holds (hdelim h) t) m.
Proof.
  intros V HP Sd Po Sc.
  destruct (getM_root rf order h t [] (MOpts false true None) (fun _ _ => true) V) as (m & [ND F] & G).
  - intros n. reflexivity.
  - now left.
  - now left.
  - rewrite G. unfold finish. cbn [o_noflat]. eexists. split; [reflexivity|].
    pose proof (nodup_perm_fst _ _ (Po m) ND) as ND'.
    assert (I : forall s v, In (s, v) (order m) <-> holds (hdelim h) t s v).
    { intros s v. unfold holds. split.
      - intros X. assert (Y : In (s, v) m) by (eapply Permutation_in; [apply Permutation_sym, Po|exact X]).
        apply mget_in in Y; auto. apply F in Y. destruct Y as (a & Y & _). eauto.
      - intros (a & X). eapply Permutation_in; [apply Po|]. apply mget_in; auto. apply F. eauto. }
    split.
    + apply split_tidy; auto. apply Forall_forall. intros [s v] Hin. apply T_leaf. apply (Sc s). now apply I.
    + apply (nested_ext _ (fun s v => In (s, v) (order m))); auto.
      rewrite (split_puts _ _ Sd). apply puts_nested.
      * intros k v1 v2 H1 H2. apply (mget_in _ _ _ ND') in H1, H2. congruence.
      * intros s v X. apply I in X. apply (single_map flat). eauto.
Qed.

(** ** save and load *)
(** a codec that keeps what can be looked up *)
Definition keeps (flat : bool) (enc : encoder) (dec : gostring -> option gmap * option lerr) : Prop :=
  forall m, tidy flat (GMap m) -> exists b m', enc m = inl b /\ dec b = (Some m', None) /\
    tidy flat (GMap m') /\ same_lookups (GMap m) (GMap m').
Theorem saveas_load rf order h t flat enc dec pc :
  vreach t -> hprefix h = [] -> (hdelim h < 128)%N -> (forall m, Permutation m (order m)) ->
  (forall s v, holds (hdelim h) t s v -> single flat v = true /\ sound_key (hdelim h) s) ->
  (forall s v s' v', holds (hdelim h) t s v -> holds (hdelim h) t s' v' -> ~ seg_below (hdelim h) s' s) ->
  (exists s v, holds (hdelim h) t s v) -> keeps flat enc dec ->
  exists b, loader_SaveAs rf order h (Some enc) (Some (pc, SkOnce None)) t = Ok (Some b, None) /\
  forall str json st t0 os pv,
    reached t0 -> so_loading st = false -> no_prefix os -> hprefix (so_h st) = [] -> hdelim (so_h st) = hdelim h ->
    so_flat (ld_s (the_loader st os)) = flat ->
    ld_pv (the_loader st os) = Some pv -> pv_read pv = (None, Some ENotImpl) -> pv_once pv = Some (b, None) ->
    decoder json (the_loader st os) = dec ->
    exists r, Load str json st t0 os = Ok r /\ lr_err r = None /\
      (forall s v, holds (hdelim h) t s v -> data_at (lr_t r) (runes s) = Some v) /\
      (forall k, (forall s v, holds (hdelim h) t s v -> runes s <> k) -> data_at (lr_t r) k = data_at t0 k).
Proof.
  intros V HP Hd Po Hk Hs (s0 & v0 & H0) KP.
  assert (Sd : is_scalar (hdelim h) = true) by (unfold is_scalar; replace (hdelim h <? 0xD800)%N with true; auto; symmetry; apply N.ltb_lt; lia).
  destruct (saveas_map rf order h t flat V HP Sd Po (fun s v H => proj1 (Hk s v H))) as (m & G & T & N).
  destruct (KP m T) as (b & m' & Eb & Ed & T' & SL).
  exists b. split.
  { unfold loader_SaveAs. rewrite G. cbn [bind]. destruct m as [|x m].
    - exfalso. destruct (N (split_str s0 (enc1 (hdelim h))) (split_ne _ _)) as [N1 _].
      specialize (N1 v0 (single_map _ _ (proj1 (Hk _ _ H0)))). destruct N1 as [_ N1].
      assert (X : nget (GMap []) (split_str s0 (enc1 (hdelim h))) = Some v0).
      { apply N1. exists s0. split; auto. split; auto. intros s' v' H'. eapply Hs; eauto. }
      pose proof (split_ne (enc1 (hdelim h)) s0). destruct (split_str s0 (enc1 (hdelim h))); [congruence|discriminate].
    - cbn [save_map]. rewrite Eb. reflexivity. }
  intros str json st t0 os pv R HL NP HPs HDs HF HPv HR HO HD.
  assert (HD' : decoder json (the_loader st os) b = (Some m', None)) by (now rewrite HD).
  destruct (load_bytes str json st t0 os pv b m' R HL HPv HR HO HD') as (r & E & E1 & _ & _ & _ & HA & _).
  exists r. split; auto. split; auto.
  set (L := lplaces str (ld_s (the_loader st os)) m') in *.
  assert (IL : forall k v, In (k, v) L <-> exists s, holds (hdelim h) t s v /\ k = runes s).
  { intros k v. unfold L, lplaces. rewrite HF. unfold the_loader. rewrite loader_h by auto. cbn [so_h set_loading].
    change (so_h (set_loading st true)) with (so_h st). rewrite HPs, HDs. rewrite in_map_iff.
    assert (Q : forall ks w, In (ks, w) (leaves str flat (hdelim h) m') <->
      exists s, holds (hdelim h) t s w /\ ks = split_str s (enc1 (hdelim h))).
    { intros ks w. rewrite (leaves_tidy str flat (hdelim h) m' T'). split.
      - intros (K1 & K2 & K3). apply (proj1 (SL ks)) in K2; auto. apply (proj1 (N ks K1)) in K2; auto.
        destruct K2 as (s & K2 & -> & _). eauto.
      - intros (s & K1 & ->). assert (M : is_map w = false) by (apply (single_map flat), (Hk s w K1)).
        split; [apply split_ne|]. split; auto. apply (proj1 (SL _)); auto. apply (proj1 (N _ (split_ne _ _))); auto.
        exists s. split; auto. split; auto. intros s' v' H'. eapply Hs; eauto. }
    split.
    - intros ([ks w] & X & Hin). apply Q in Hin. destruct Hin as (s & K1 & ->).
      rewrite placed_key in X by (auto; apply (Hk s w K1)). injection X as <- <-. eauto.
    - intros (s & K1 & ->). exists (split_str s (enc1 (hdelim h)), v). split.
      + apply placed_key; auto. apply (Hk s v K1).
      + apply Q. eauto. }
  assert (FU : forall k v1 v2, In (k, v1) L -> In (k, v2) L -> v1 = v2).
  { intros k v1 v2 H1 H2. apply IL in H1, H2. destruct H1 as (s1 & (a1 & A1) & ->), H2 as (s2 & (a2 & A2) & EK).
    destruct A1 as (_ & _ & G1 & _ & <-), A2 as (_ & _ & G2 & _ & <-). rewrite EK in G1. congruence. }
  split.
  - intros s v H. rewrite (holds_data _ _ _ HA). rewrite (proj2 (assoc_last_fun L (runes s) v (FU _))); auto. apply IL. eauto.
  - intros k Hn. rewrite (holds_data _ _ _ HA). rewrite assoc_last_out; auto. intros X. apply in_map_iff in X.
    destruct X as ([k' v] & E' & Hin). cbn in E'. subst k'. apply IL in Hin. destruct Hin as (s & K1 & ->). now apply (Hn s v K1).
Qed.

(** ** there is such a codec: one for values that are no slices *)
Definition ser_str (s : gostring) : list N := N.of_nat (length s) :: s.
Definition zenc (z : Z) : N := match z with Z0 => 0 | Zpos p => Npos (xO p) | Zneg p => Npos (xI p) end%N.
Definition zdec (n : N) : Z := match n with Npos (xO p) => Zpos p | Npos (xI p) => Zneg p | _ => Z0 end.
Fixpoint ser (v : gval) : list N :=
  match v with
  | GBool b => [1; if b then 1 else 0]%N
  | GInt z => [2; zenc z]%N
  | GStr s => 3%N :: ser_str s
  | GOther n => [4%N; n]
  | GMap m => 5%N :: N.of_nat (length m) :: flat_map (fun e => ser_str (fst e) ++ ser (snd e)) m
  | _ => [0%N]
  end.
Definition par_str (l : list N) : option (gostring * list N) :=
  match l with
  | n :: r => Some (firstn (N.to_nat n) r, skipn (N.to_nat n) r)
  | [] => None
  end.
Fixpoint par (f : nat) (l : list N) : option (gval * list N) :=
  match f with
  | 0 => None
  | S f =>
      match l with
      | 1%N :: b :: r => Some (GBool (N.eqb b 1), r)
      | 2%N :: n :: r => Some (GInt (zdec n), r)
      | 3%N :: r => match par_str r with Some (s, r) => Some (GStr s, r) | None => None end
      | 4%N :: n :: r => Some (GOther n, r)
      | 5%N :: n :: r =>
          match (fix go (c : nat) (l : list N) : option (gmap * list N) :=
                   match c with
                   | 0 => Some ([], l)
                   | S c => match par_str l with
                            | None => None
                            | Some (k, l) => match par f l with
                                             | None => None
                                             | Some (v, l) => match go c l with
                                                              | None => None
                                                              | Some (m, l) => Some ((k, v) :: m, l)
                                                              end
                                             end
                            end
                   end) (N.to_nat n) r with
          | Some (m, r) => Some (GMap m, r)
          | None => None
          end
      | 0%N :: r => Some (GNil, r)
      | _ => None
      end
  end.
Lemma par_ser_str s r : par_str (ser_str s ++ r) = Some (s, r).
Proof.
  unfold par_str, ser_str. cbn [app]. rewrite Nat2N.id. f_equal. f_equal.
  - rewrite firstn_app, Nat.sub_diag, firstn_all. cbn. now rewrite app_nil_r.
  - rewrite skipn_app, Nat.sub_diag, skipn_all. reflexivity.
Qed.
Lemma zdec_zenc z : zdec (zenc z) = z.
Proof. destruct z; reflexivity. Qed.
Fixpoint depth (v : gval) : nat :=
  match v with GMap m => S (fold_right (fun e n => Nat.max (depth (snd e)) n) 0 m) | _ => 0 end.
Lemma par_ser v : tidy true v -> forall f r, depth v < f -> par f (ser v ++ r) = Some (v, r).
Proof.
  induction v as [v Hv|l IH|m IH|m IH|l IH|l IH|v x y z IH] using gval_ind'; intros T f r Hf;
    try (inversion T; subst; discriminate).
  - destruct f as [|f]; [lia|]. destruct v; try destruct Hv; cbn [ser app par]; auto.
    + now destruct b.
    + now rewrite zdec_zenc.
    + now rewrite par_ser_str.

  - destruct f as [|f]; [lia|]. apply tidy_map in T. destruct T as [_ F]. cbn [ser app par]. rewrite Nat2N.id.
    match goal with |- match ?g (length m) _ with _ => _ end = _ => set (go := g) end.
    assert (G : go (length m) (flat_map (fun e => ser_str (fst e) ++ ser (snd e)) m ++ r) = Some (m, r)).
    { cbn [depth] in Hf. revert Hf IH F. induction m as [|[k v] m IHm]; intros Hf IH F; [reflexivity|].
      inversion IH as [|? ? I1 I2]; subst. inversion F as [|? ? F1 F2]; subst. cbn [fold_right snd] in *.
      cbn [length flat_map fst snd]. rewrite <- !app_assoc. unfold go at 1. rewrite par_ser_str. rewrite I1 by (auto; lia).
      fold go. rewrite IHm; auto. lia. }
    now rewrite G.
Qed.
Definition enc0 : encoder := fun m => inl (ser (GMap m)).
Definition dec0 (b : gostring) : option gmap * option lerr :=
  match par (S (length b)) b with Some (GMap m, []) => (Some m, None) | _ => (None, Some (EOther 1)) end.
Lemma depth_ser v : tidy true v -> depth v < length (ser v).
Proof.
  induction v as [v Hv|l IH|m IH|m IH|l IH|l IH|v x y z IH] using gval_ind'; intros T;
    try (inversion T; subst; discriminate).
  - destruct v; try destruct Hv; cbn; lia.
  - apply tidy_map in T. destruct T as [_ F]. cbn [depth ser length].
    assert (G : fold_right (fun e n => Nat.max (depth (snd e)) n) 0 m <= length (flat_map (fun e => ser_str (fst e) ++ ser (snd e)) m)).
    { induction m as [|[k v] m IHm]; [cbn; lia|]. inversion IH as [|? ? I1 I2]; subst. inversion F as [|? ? F1 F2]; subst.
      cbn [fold_right flat_map fst snd] in *. rewrite !app_length. specialize (I1 F1). specialize (IHm I2 F2). lia. }
    lia.
Qed.
Theorem codec_exists : keeps true enc0 dec0.
Proof.
  intros m T. exists (ser (GMap m)), m. split; [reflexivity|]. split.
  - unfold dec0. rewrite <- (app_nil_r (ser (GMap m))) at 2. rewrite par_ser; auto.
    pose proof (depth_ser _ T). lia.
  - split; auto. intros q. split; [intros v _|]; reflexivity.
Qed.
