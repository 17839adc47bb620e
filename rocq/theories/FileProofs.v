(** Saving to files and loading from them. *)
From Coq Require Import List NArith ZArith Bool Arith Lia Permutation.
From Verif Require Import GoStr Utf8 Node NodeWf InsertProofs MatchProofs Trie Spec Refine ApiRefine Reach Derived Derived2 Derived3
  Derived4 Climb Cvter Nested CvterProofs Export Store StoreProofs MergeProofs LoadProofs Follow Save SaveProofs Files.
Import ListNotations.
Open Scope nat_scope.
Open Scope list_scope.

(** the exported keys that pass *)
Definition passing (d : rune) (t : tr) (fa : attr -> bool) (s : gostring) (v : gval) : Prop :=
  exists a, exports d t s v a /\ fa a = true.
Lemma passing_fun d t fa s1 s2 v1 v2 : passing d t fa s1 v1 -> passing d t fa s2 v2 -> runes s1 = runes s2 -> v1 = v2.
Proof.
  intros (a1 & A1 & _) (a2 & A2 & _) E. destruct A1 as (_ & _ & G1 & _ & <-), A2 as (_ & _ & G2 & _ & <-).
  rewrite E in G1. congruence.
Qed.
(** keys that can be written in a nested map and read back *)
Definition writable (flat : bool) (d : rune) (E : gostring -> gval -> Prop) : Prop :=
  (forall s v, E s v -> single flat v = true /\ sound_key d s) /\
  (forall s v s' v', E s v -> E s' v' -> ~ seg_below d s' s).
(** the store [t'] is [t0] with exactly the pairs of [E] written over it *)
Definition over (E : gostring -> gval -> Prop) (t0 t' : tr) : Prop :=
  (forall s v, E s v -> data_at t' (runes s) = Some v) /\
  (forall k, (forall s v, E s v -> runes s <> k) -> data_at t' k = data_at t0 k).

(** the map that GetM makes of the passing keys *)
Lemma export_map rf order h t flat o fa :
  vreach t -> hprefix h = [] -> is_scalar (hdelim h) = true -> (forall m, Permutation m (order m)) ->
  o_noflat o = true -> (forall n, passes o n = fa (attr_of (info_of n))) ->
  (forall s v, passing (hdelim h) t fa s v -> single flat v = true) ->
  exists m, GetM rf order h t [] o = Ok (Some m) /\ tidy flat (GMap m) /\
    nested_of (hdelim h) (passing (hdelim h) t fa) m.
Proof.
  intros V HP Sd Po On Of Sc.
  destruct (getM_root rf order h t [] o (fun _ => fa) V) as (m & [ND F] & G).
  - exact Of.
  - now left.
  - now left.
  - rewrite G. unfold finish. rewrite On. eexists. split; [reflexivity|].
    pose proof (nodup_perm_fst _ _ (Po m) ND) as ND'.
    assert (I : forall s v, In (s, v) (order m) <-> passing (hdelim h) t fa s v).
    { intros s v. unfold passing. rewrite <- F. rewrite mget_in by auto. split; intros X.
      - eapply Permutation_in; [apply Permutation_sym, Po|exact X].
      - eapply Permutation_in; [apply Po|exact X]. }
    split.
    + apply split_tidy; auto. apply Forall_forall. intros [s v] Hin. apply T_leaf. apply (Sc s). now apply I.
    + apply (nested_ext _ (fun s v => In (s, v) (order m))); auto.
      rewrite (split_puts _ _ Sd). apply puts_nested.
      * intros k v1 v2 H1 H2. apply (mget_in _ _ _ ND') in H1, H2. congruence.
      * intros s v X. apply I in X. apply (single_map flat). eauto.
Qed.
(** a map made of such keys is empty only if there are none *)
Lemma nested_some flat d E x : writable flat d E -> nested_of d E [] -> E (fst x) (snd x) -> False.
Proof.
  destruct x as [s v]. cbn [fst snd]. intros [Hk Hs] N H.
  destruct (N (split_str s (enc1 d)) (split_ne _ _)) as [N1 _].
  specialize (N1 v (single_map _ _ (proj1 (Hk _ _ H)))). destruct N1 as [_ N1].
  assert (X : nget (GMap []) (split_str s (enc1 d)) = Some v).
  { apply N1. exists s. split; auto. split; auto. intros s' v' H'. eapply Hs; eauto. }
  pose proof (split_ne (enc1 d) s). destruct (split_str s (enc1 d)); [congruence|discriminate].
Qed.
Lemma nested_none flat d E m : tidy flat (GMap m) -> nested_of d E m -> (forall s v, ~ E s v) -> m = [].
Proof.
  intros T N H. destruct m as [|[k v] m]; auto. exfalso.
  destruct (N [k] ltac:(discriminate)) as [N1 N2]. cbn [nget] in N1, N2.
  assert (X : mget ((k, v) :: m) k = Some v) by (cbn; now rewrite str_eqb_refl).
  rewrite X in N1, N2. destruct (is_map v) eqn:M.
  - destruct v; try discriminate. destruct N2 as [N2 _]. destruct N2 as [(s & w & Y & _) _]; eauto. eapply H; eauto.
  - destruct (N1 v M) as [(s & Y & _) _]; auto. eapply H; eauto.
Qed.
(** loading such a map *)
Lemma load_written d E flat enc dec m : (d < 128)%N -> tidy flat (GMap m) -> nested_of d E m -> writable flat d E ->
  (forall s1 s2 v1 v2, E s1 v1 -> E s2 v2 -> runes s1 = runes s2 -> v1 = v2) -> keeps flat enc dec ->
  exists b, enc m = inl b /\
  forall str json st t0 os pv,
    reached t0 -> so_loading st = false -> no_prefix os -> hprefix (so_h st) = [] -> hdelim (so_h st) = d ->
    so_flat (ld_s (the_loader st os)) = flat ->
    ld_pv (the_loader st os) = Some pv -> pv_read pv = (None, Some ENotImpl) -> pv_once pv = Some (b, None) ->
    decoder json (the_loader st os) = dec ->
    exists r, Load str json st t0 os = Ok r /\ lr_err r = None /\ over E t0 (lr_t r).
Proof.
  intros Hd T N [Hk Hs] Hf KP.
  destruct (KP m T) as (b & m' & Eb & Ed & T' & SL). exists b. split; auto.
  intros str json st t0 os pv R HL NP HPs HDs HF HPv HR HO HD.
  assert (HD' : decoder json (the_loader st os) b = (Some m', None)) by (now rewrite HD).
  destruct (load_bytes str json st t0 os pv b m' R HL HPv HR HO HD') as (r & E' & E1 & _ & _ & _ & HA & _).
  exists r. split; auto. split; auto.
  set (L := lplaces str (ld_s (the_loader st os)) m') in *.
  assert (IL : forall k v, In (k, v) L <-> exists s, E s v /\ k = runes s).
  { intros k v. unfold L, lplaces. rewrite HF. unfold the_loader. rewrite loader_h by auto. cbn [so_h set_loading].
    change (so_h (set_loading st true)) with (so_h st). rewrite HPs, HDs. rewrite in_map_iff.
    assert (Q : forall ks w, In (ks, w) (leaves str flat d m') <-> exists s, E s w /\ ks = split_str s (enc1 d)).
    { intros ks w. rewrite (leaves_tidy str flat d m' T'). split.
      - intros (K1 & K2 & K3). apply (proj1 (SL ks)) in K2; auto. apply (proj1 (N ks K1)) in K2; auto.
        destruct K2 as (s & K2 & -> & _). eauto.
      - intros (s & K1 & ->). assert (M : is_map w = false) by (apply (single_map flat), (Hk s w K1)).
        split; [apply split_ne|]. split; auto. apply (proj1 (SL _)); auto. apply (proj1 (N _ (split_ne _ _))); auto.
        exists s. split; auto. split; auto. intros s' v' H'. eapply Hs; eauto. }
    split.
    - intros ([ks w] & X & Hin). apply Q in Hin. destruct Hin as (s & K1 & ->).
      rewrite placed_key in X by (auto; apply (Hk s w K1)). injection X as <- <-. eauto.
    - intros (s & K1 & ->). exists (split_str s (enc1 d), v). split.
      + apply placed_key; auto. apply (Hk s v K1).
      + apply Q. eauto. }
  assert (FU : forall k v1 v2, In (k, v1) L -> In (k, v2) L -> v1 = v2).
  { intros k v1 v2 H1 H2. apply IL in H1, H2. destruct H1 as (s1 & A1 & ->), H2 as (s2 & A2 & EK). eapply Hf; eauto. }
  split.
  - intros s v H. rewrite (holds_data _ _ _ HA). rewrite (proj2 (assoc_last_fun L (runes s) v (FU _))); auto. apply IL. eauto.
  - intros k Hn. rewrite (holds_data _ _ _ HA). rewrite assoc_last_out; auto. intros X. apply in_map_iff in X.
    destruct X as ([k' v] & E2 & Hin). cbn in E2. subst k'. apply IL in Hin. destruct Hin as (s & K1 & ->). now apply (Hn s v K1).
Qed.

(** ** files *)
(** a load of a store from the file [f] of the disk, with the codec [dec] *)
Record loads_from (w : disk) (f : gostring) (d : rune) (flat : bool) (dec : gostring -> option gmap * option lerr)
    (json : gostring -> option gmap * option lerr) (st : store) (os : list lopt) : Prop := LoadsFrom {
  lf_loading : so_loading st = false;
  lf_noprefix : no_prefix os;
  lf_root : hprefix (so_h st) = [];
  lf_delim : hdelim (so_h st) = d;
  lf_flat : so_flat (ld_s (the_loader st os)) = flat;
  lf_provider : exists pv, ld_pv (the_loader st os) = Some pv /\
    ((exists p, fp_file p = f /\ pv = file_provider w p) \/ pv = fs_provider w f);
  lf_decoder : decoder json (the_loader st os) = dec }.
Definition filed (w : disk) (f : gostring) (d : rune) (flat : bool) (dec : gostring -> option gmap * option lerr)
    (E : gostring -> gval -> Prop) : Prop :=
  forall str json st t0 os, reached t0 -> loads_from w f d flat dec json st os ->
    exists r, Load str json st t0 os = Ok r /\ lr_err r = None /\ over E t0 (lr_t r).
Lemma filed_written d E flat enc dec m w p : (d < 128)%N -> tidy flat (GMap m) -> nested_of d E m -> writable flat d E ->
  (forall s1 s2 v1 v2, E s1 v1 -> E s2 v2 -> runes s1 = runes s2 -> v1 = v2) -> keeps flat enc dec ->
  exists b, enc m = inl b /\ filed (put_file w p b) p d flat dec E.
Proof.
  intros Hd T N W F K. destruct (load_written d E flat enc dec m Hd T N W F K) as (b & Eb & H). exists b. split; auto.
  intros str json st t0 os R [L1 L2 L3 L4 L5 (pv & L6 & L7) L8].
  refine (H str json st t0 os pv R L1 L2 L3 L4 L5 L6 _ _ L8).
  - destruct L7 as [(q & _ & ->)| ->]; reflexivity.
  - destruct L7 as [(q & Hq & ->)| ->]; cbn [pv_once file_provider fs_provider]; unfold read_file, put_file;
      [rewrite Hq|]; now rewrite str_eqb_refl.
Qed.
Lemma put_other w f b g : g <> f -> put_file w f b g = w g.
Proof. intros H. unfold put_file. destruct (str_eqb f g) eqn:E; auto. apply str_eqb_eq in E. congruence. Qed.

Definition any_attr : attr -> bool := fun _ => true.
Lemma holds_passing d t s v : holds d t s v <-> passing d t any_attr s v.
Proof. split; intros (a & H); exists a; [split; auto|apply H]. Qed.

(** SaveAs to a file, with writing enabled: the file then holds the store, other files are as before *)
Theorem saveas_file rf order h t flat enc dec p w :
  vreach t -> hprefix h = [] -> (hdelim h < 128)%N -> (forall m, Permutation m (order m)) ->
  writable flat (hdelim h) (holds (hdelim h) t) -> (exists s v, holds (hdelim h) t s v) -> keeps flat enc dec ->
  fp_write p = true ->
  exists w', file_SaveAs rf order h enc p w t = Ok (w', None) /\
    (forall g, g <> fp_file p -> w' g = w g) /\ filed w' (fp_file p) (hdelim h) flat dec (holds (hdelim h) t).
Proof.
  intros V HP Hd Po W (s0 & v0 & H0) KP HW.
  assert (Sd : is_scalar (hdelim h) = true) by (unfold is_scalar; replace (hdelim h <? 0xD800)%N with true; auto; symmetry; apply N.ltb_lt; lia).
  destruct (saveas_map rf order h t flat V HP Sd Po (fun s v H => proj1 (proj1 W s v H))) as (m & G & T & N).
  assert (F : forall s1 s2 v1 v2, holds (hdelim h) t s1 v1 -> holds (hdelim h) t s2 v2 -> runes s1 = runes s2 -> v1 = v2).
  { intros s1 s2 v1 v2 A B. apply holds_passing in A, B. eapply passing_fun; eauto. }
  destruct (filed_written _ _ flat enc dec m w (fp_file p) Hd T N W F KP) as (b & Eb & Fb).
  exists (put_file w (fp_file p) b). split.
  - unfold file_SaveAs, loader_SaveAs. rewrite G. cbn [bind]. destruct m as [|x m].
    + exfalso. exact (nested_some flat _ _ (s0, v0) W N H0).
    + cbn [save_map]. rewrite Eb. unfold file_sink, written, file_Write. cbn [write_to fst snd]. now rewrite HW.
  - split; auto. intros g Hg. now apply put_other.
Qed.
(** Save to a file, with writing enabled: the file then holds exactly the modified keys.  If there are none
    nothing is written. *)
Definition modified_in (d : rune) (t : tr) : gostring -> gval -> Prop := passing d t a_mod.
Theorem save_file rf order ld t flat enc dec p w c pv :
  let h := so_h (ld_s ld) in
  vreach t -> hprefix h = [] -> (hdelim h < 128)%N -> (forall m, Permutation m (order m)) ->
  ld_codec ld = Some c -> ld_pv ld = Some pv ->
  writable flat (hdelim h) (modified_in (hdelim h) t) -> keeps flat enc dec -> fp_write p = true ->
  ((forall s v, ~ modified_in (hdelim h) t s v) -> file_Save rf order ld enc p w t = Ok (w, None)) /\
  ((exists s v, modified_in (hdelim h) t s v) ->
   exists w', file_Save rf order ld enc p w t = Ok (w', None) /\
     (forall g, g <> fp_file p -> w' g = w g) /\ filed w' (fp_file p) (hdelim h) flat dec (modified_in (hdelim h) t)).
Proof.
  intros h V HP Hd Po HC HPv W KP HW.
  assert (Sd : is_scalar (hdelim h) = true) by (unfold is_scalar; replace (hdelim h <? 0xD800)%N with true; auto; symmetry; apply N.ltb_lt; lia).
  destruct (export_map rf order h t flat (MOpts false true (Some modified)) a_mod V HP Sd Po eq_refl) as (m & G & T & N).
  { intros n. unfold passes. cbn. now rewrite modified_bit. }
  { intros s v H. apply (proj1 W s v H). }
  unfold file_Save, loader_Save, trySave. rewrite HC, HPv. fold h. rewrite G. cbn [bind]. split.
  - intros H. rewrite (nested_none flat _ _ m T N H). reflexivity.
  - intros (s0 & v0 & H0).
    destruct (filed_written _ _ flat enc dec m w (fp_file p) Hd T N W (fun s1 s2 v1 v2 => passing_fun _ _ _ s1 s2 v1 v2) KP) as (b & Eb & Fb).
    exists (put_file w (fp_file p) b). split.
    + destruct m as [|x m]; [exfalso; exact (nested_some flat _ _ (s0, v0) W N H0)|].
      cbn [save_map]. rewrite Eb. unfold file_sink, written, file_Write. cbn [write_to fst snd]. now rewrite HW.
    + split; auto. intros g Hg. now apply put_other.
Qed.
(** with writing disabled no file changes, whatever happens *)
Theorem save_disabled rf order ld h t enc p w : fp_write p = false ->
  (forall r, file_Save rf order ld enc p w t = Ok r -> fst r = w) /\
  (forall r, file_SaveAs rf order h enc p w t = Ok r -> fst r = w).
Proof.
  intros HW. assert (A : forall r, fst (written w p r) = w).
  { intros [[b|] e]; unfold written, file_Write; cbn [fst snd]; now rewrite ?HW. }
  split; intros r; unfold file_Save, file_SaveAs.
  - destruct (loader_Save _ _ _ _ _ _); cbn [bind]; try discriminate. intros E. injection E as <-. apply A.
  - destruct (loader_SaveAs _ _ _ _ _ _); cbn [bind]; try discriminate. intros E. injection E as <-. apply A.
Qed.
(** ... and if there is something to write, that is the error *)
Theorem save_refused rf order ld t flat enc dec p w c pv :
  let h := so_h (ld_s ld) in
  vreach t -> hprefix h = [] -> (hdelim h < 128)%N -> (forall m, Permutation m (order m)) ->
  ld_codec ld = Some c -> ld_pv ld = Some pv ->
  writable flat (hdelim h) (modified_in (hdelim h) t) -> keeps flat enc dec -> fp_write p = false ->
  (exists s v, modified_in (hdelim h) t s v) -> file_Save rf order ld enc p w t = Ok (w, Some EWriteOff).
Proof.
  intros h V HP Hd Po HC HPv W KP HW (s0 & v0 & H0).
  assert (Sd : is_scalar (hdelim h) = true) by (unfold is_scalar; replace (hdelim h <? 0xD800)%N with true; auto; symmetry; apply N.ltb_lt; lia).
  destruct (export_map rf order h t flat (MOpts false true (Some modified)) a_mod V HP Sd Po eq_refl) as (m & G & T & N).
  { intros n. unfold passes. cbn. now rewrite modified_bit. }
  { intros s v H. apply (proj1 W s v H). }
  unfold file_Save, loader_Save, trySave. rewrite HC, HPv. fold h. rewrite G. cbn [bind].
  destruct m as [|x m]; [exfalso; exact (nested_some flat _ _ (s0, v0) W N H0)|].
  destruct (KP (x :: m) T) as (b & _ & Eb & _). cbn [save_map]. rewrite Eb.
  unfold file_sink, written, file_Write. cbn [write_to fst snd]. now rewrite HW.
Qed.
Theorem saveas_refused rf order h t flat enc dec p w :
  vreach t -> hprefix h = [] -> (hdelim h < 128)%N -> (forall m, Permutation m (order m)) ->
  writable flat (hdelim h) (holds (hdelim h) t) -> keeps flat enc dec -> fp_write p = false ->
  (exists s v, holds (hdelim h) t s v) -> file_SaveAs rf order h enc p w t = Ok (w, Some EWriteOff).
Proof.
  intros V HP Hd Po W KP HW (s0 & v0 & H0).
  assert (Sd : is_scalar (hdelim h) = true) by (unfold is_scalar; replace (hdelim h <? 0xD800)%N with true; auto; symmetry; apply N.ltb_lt; lia).
  destruct (saveas_map rf order h t flat V HP Sd Po (fun s v H => proj1 (proj1 W s v H))) as (m & G & T & N).
  unfold file_SaveAs, loader_SaveAs. rewrite G. cbn [bind].
  destruct m as [|x m]; [exfalso; exact (nested_some flat _ _ (s0, v0) W N H0)|].
  destruct (KP (x :: m) T) as (b & _ & Eb & _). cbn [save_map]. rewrite Eb.
  unfold file_sink, written, file_Write. cbn [write_to fst snd]. now rewrite HW.
Qed.
(** a codec that cannot encode: no file changes, and its error is the answer *)
Theorem save_unencodable rf order ld t flat enc e p w c pv :
  let h := so_h (ld_s ld) in
  vreach t -> hprefix h = [] -> (hdelim h < 128)%N -> (forall m, Permutation m (order m)) ->
  ld_codec ld = Some c -> ld_pv ld = Some pv -> (forall m, enc m = inr e) ->
  (writable flat (hdelim h) (modified_in (hdelim h) t) -> (exists s v, modified_in (hdelim h) t s v) ->
   file_Save rf order ld enc p w t = Ok (w, Some e)) /\
  (writable flat (hdelim h) (holds (hdelim h) t) -> (exists s v, holds (hdelim h) t s v) ->
   file_SaveAs rf order h enc p w t = Ok (w, Some e)).
Proof.
  intros h V HP Hd Po HC HPv HE.
  assert (Sd : is_scalar (hdelim h) = true) by (unfold is_scalar; replace (hdelim h <? 0xD800)%N with true; auto; symmetry; apply N.ltb_lt; lia).
  split; intros W (s0 & v0 & H0).
  - destruct (export_map rf order h t flat (MOpts false true (Some modified)) a_mod V HP Sd Po eq_refl) as (m & G & T & N).
    { intros n. unfold passes. cbn. now rewrite modified_bit. }
    { intros s v H. apply (proj1 W s v H). }
    unfold file_Save, loader_Save, trySave. rewrite HC, HPv. fold h. rewrite G. cbn [bind].
    destruct m as [|x m]; [exfalso; exact (nested_some flat _ _ (s0, v0) W N H0)|].
    cbn [save_map]. now rewrite HE.
  - destruct (saveas_map rf order h t flat V HP Sd Po (fun s v H => proj1 (proj1 W s v H))) as (m & G & T & N).
    unfold file_SaveAs, loader_SaveAs. rewrite G. cbn [bind].
    destruct m as [|x m]; [exfalso; exact (nested_some flat _ _ (s0, v0) W N H0)|].
    cbn [save_map]. now rewrite HE.
Qed.
(** a missing file: the error of reading it, and the store is as before *)
Theorem load_missing w f d flat dec str json st t os :
  w f = None -> loads_from w f d flat dec json st os ->
  exists r, Load str json st t os = Ok r /\ lr_err r = Some ENoFile /\ lr_t r = t /\ lr_wr r = None.
Proof.
  intros Hw [L1 L2 L3 L4 L5 (pv & L6 & L7) L8].
  destruct (load_once_error str json st t os pv [] ENoFile L1 L6) as (r & A & B & _ & C & D & _).
  - destruct L7 as [(q & _ & ->)| ->]; reflexivity.
  - destruct L7 as [(q & Hq & ->)| ->]; cbn [pv_once file_provider fs_provider]; unfold read_file; [rewrite Hq|]; now rewrite Hw.
  - exists r. auto.
Qed.
