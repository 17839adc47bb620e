(** Loading, saving, external changes and closing. *)
From Coq Require Import List NArith Bool Arith Lia Permutation.
From Verif Require Import GoStr Utf8 Node NodeWf InsertProofs MatchProofs Trie Spec TreeOps Refine ApiRefine Reach
  Effect Derived Derived2 Derived3 Derived4 Derived5 Cvter Nested CvterProofs Export Store StoreProofs MergeProofs.
Import ListNotations.
Open Scope nat_scope.

(** the data after a list of assignments [L] on top of [t] *)
Definition holds_after (L : list (skey * gval)) (t t' : tr) : Prop :=
  forall k, match assoc_last L k None with
            | Some v => exists a, t_get t' k = Some a /\ a_data a = v /\ a_has a = true
            | None => match t_get t k with
                      | Some a => t_get t' k = Some a
                      | None => t_get t' k = None \/ t_get t' k = Some (bare false false GNil)
                      end
            end.
(** description, comment and tag *)
Definition meta_at (t : tr) (k : skey) : gostring * gostring * gval :=
  match t_get t k with Some a => (a_desc a, a_cmt a, a_tag a) | None => ([], [], GNil) end.

Lemma wrun_meta l : Forall (fun w => wr_user w = false) l -> forall t t' e, reached t ->
  wrun l t = Ok (t', e) -> forall k, meta_at t' k = meta_at t k.
Proof.
  induction 1 as [|w l Hw _ IH]; intros t t' e R E k; cbn [wrun] in E; [now injection E as <- _|].
  destruct (setKV_step 0 (wr_s w) t (wr_p w) (wr_v w) (wr_c w) (wr_o w) R) as (t1 & id & E1 & S1 & G1 & F1 & N1).
  fold (wr_key w) in *. rewrite E1 in E. cbn [bind] in E.
  destruct (wrun l t1) as [[t2 e2]| |] eqn:E2; try discriminate. injection E as <- _.
  rewrite (IH t1 t2 e2 (reached_step _ _ _ _ _ _ R S1) E2).
  unfold meta_at. destruct (list_eq_dec N.eq_dec k (wr_key w)) as [->|Hk].
  - rewrite G1. unfold wr_user in Hw. unfold wattr. destruct (so_loading (wr_s w)); [|discriminate].
    unfold fresh_attr. now destruct (t_get t (wr_key w)).
  - destruct (t_get t k) as [a|] eqn:G; [now rewrite (F1 k a Hk G)|].
    destruct (N1 k Hk G) as [->| ->]; reflexivity.
Qed.

(** ** the loader *)
Lemma set_loading_h s b : so_h (set_loading s b) = so_h s.
Proof. reflexivity. Qed.
(** whatever the options: the store of the loader shares the loading state of the receiver *)
Definition ld_ok (l : loader) : Prop :=
  so_loading (ld_s l) = true /\ match ld_recv l with Some r => so_loading r = true | None => True end.
Lemma apply_lopt_ok o l : ld_ok l -> ld_ok (apply_lopt l o).
Proof. intros [H1 H2]. destruct o; split; cbn; auto. destruct (ld_recv l); auto. Qed.
Lemma newLoader_ok s os : so_loading s = true -> ld_ok (newLoader s os).
Proof.
  intros H. unfold newLoader.
  assert (X : ld_ok (fold_left apply_lopt os (Ldr s None None None false))).
  { assert (Y : ld_ok (Ldr s None None None false)) by (split; cbn; auto).
    revert Y. generalize (Ldr s None None None false) as l. induction os as [|o os IH]; intros l Y; cbn; auto.
    apply IH. now apply apply_lopt_ok. }
  destruct X as [X1 X2]. split; auto.
Qed.

Lemma users_none l k : Forall (fun w => wr_user w = false) l ->
  existsb (fun w => wr_user w && str_eqb (wr_key w) k) l = false.
Proof. induction 1 as [|w l Hw _ IH]; auto. cbn [existsb]. now rewrite Hw, IH. Qed.


Lemma load_user s c os l : so_loading s = true -> Forall (fun w => wr_user w = false) (map (mkw s c os) l).
Proof.
  intros H. apply Forall_forall. intros w Hw. apply in_map_iff in Hw. destruct Hw as ([[p k] v] & <- & _).
  unfold wr_user. cbn. now rewrite H.
Qed.

(** the nested map [m] of a provider, stored below the prefix of the store: all scalars are there,
    nothing else changes, no handler is called, no key is marked modified, no metadata changes *)
Lemma loadMap_spec (str : gval -> gostring) s c m t :
  reached t -> so_loading s = true ->
  exists t', loadMap str s c [] m (hprefix (so_h s)) t = Ok (t', []) /\ reached t' /\
    holds_after (map (placed (hdelim (so_h s)) (hprefix (so_h s))) (leaves str (so_flat s) (hdelim (so_h s)) m)) t t' /\
    (forall k, mod_at t' k = mod_at t k) /\ (forall k, meta_at t' k = meta_at t k).
Proof.
  intros R HL. rewrite loadMap_wrun. set (p := hprefix (so_h s)).
  destruct (wrun_spec (map (mkw s c []) (flat_map (fun e => gl str s (snd e) p (fst e)) m))
              (mkw_meta _ _ _ _ (Forall_nil _)) t R) as (t' & e & E & R' & A & M).
  exists t'. assert (e = []) as -> by (eapply wrun_silent; [|exact E]; apply mkw_silent).
  split; auto. split; auto. split; [|split].
  - intros k. specialize (A k). rewrite loadMap_keys in A. exact A.
  - intros k. rewrite M. rewrite <- (orb_false_r (mod_at t k)) at 2. f_equal.
    apply users_none. now apply load_user.
  - refine (wrun_meta _ _ t t' [] R E). now apply load_user.
Qed.
Definition values (d : list (gostring * pkg)) : gmap := map (fun e => (fst e, p_value (snd e))) d.
Lemma loadDedicated_spec (str : gval -> gostring) s c d t :
  reached t -> so_loading s = true ->
  exists t', loadMapDedicated str s c d (hprefix (so_h s)) t = Ok (t', []) /\ reached t' /\
    holds_after (map (placed (hdelim (so_h s)) (hprefix (so_h s))) (leaves str (so_flat s) (hdelim (so_h s)) (values d))) t t' /\
    (forall k, mod_at t' k = mod_at t k) /\ (forall k, meta_at t' k = meta_at t k).
Proof.
  intros R HL. rewrite loadMapDedicated_wrun. set (p := hprefix (so_h s)).
  set (f := fun e : gostring * pkg => map (mkw s c [NSetComment (p_desc (snd e)) (p_cmt (snd e)); NSetTag (p_tag (snd e))])
                               (gl str s (p_value (snd e)) p (fst e))).
  assert (H1 : Forall (fun w => Forall meta_op (wr_o w)) (flat_map f d)).
  { apply Forall_flat_map. apply Forall_forall. intros e _. apply mkw_meta. repeat constructor. }
  assert (H2 : Forall (fun w => so_new (wr_s w) = [] /\ so_chg (wr_s w) = [] /\ so_parent (wr_s w) = None) (flat_map f d)).
  { apply Forall_flat_map. apply Forall_forall. intros e _. apply mkw_silent. }
  assert (H3 : Forall (fun w => wr_user w = false) (flat_map f d)).
  { apply Forall_flat_map. apply Forall_forall. intros e _. now apply load_user. }
  destruct (wrun_spec (flat_map f d) H1 t R) as (t' & e & E & R' & A & M).
  exists t'. assert (e = []) as -> by (eapply wrun_silent; eauto).
  split; auto. split; auto. split; [|split].
  - intros k. specialize (A k).
    replace (map (fun w => (wr_key w, wr_v w)) (flat_map f d)) with
      (map (placed (hdelim (so_h s)) p) (leaves str (so_flat s) (hdelim (so_h s)) (values d))) in A; [exact A|].
    clear. unfold leaves, values. induction d as [|[k v] d IH]; auto. cbn [flat_map map fst snd].
    rewrite !map_app, IH. f_equal. unfold f. cbn [fst snd]. now rewrite gl_placed.
  - intros k. rewrite M. rewrite <- (orb_false_r (mod_at t k)) at 2. f_equal.
    now apply users_none.
  - exact (wrun_meta _ H3 t t' _ R E).
Qed.

(** ** C44 *)
(** the store of the loader made for [os], the provider and the codec it ends up with *)
Definition the_loader (s : store) (os : list lopt) : loader := newLoader (set_loading s true) os.
Definition lplaces (str : gval -> gostring) (ls : store) (m : gmap) : list (skey * gval) :=
  map (placed (hdelim (so_h ls)) (hprefix (so_h ls))) (leaves str (so_flat ls) (hdelim (so_h ls)) m).

Lemma load_nothing (str : gval -> gostring) (json : gostring -> option gmap * option lerr) s t os : so_loading s = true -> Load str json s t os = Ok (LRes s t None [] None).
Proof. intros H. unfold Load. now rewrite H. Qed.

(** Read() works: its map is stored *)
Theorem load_read (str : gval -> gostring) (json : gostring -> option gmap * option lerr) s t os pv d :
  reached t -> so_loading s = false -> ld_pv (the_loader s os) = Some pv -> pv_read pv = (Some d, None) ->
  exists r, Load str json s t os = Ok r /\ lr_err r = None /\ lr_ev r = [] /\ so_loading (lr_s r) = false /\ lr_wr r <> None /\
    holds_after (lplaces str (ld_s (the_loader s os)) (values d)) t (lr_t r) /\
    (forall k, mod_at (lr_t r) k = mod_at t k) /\ (forall k, meta_at (lr_t r) k = meta_at t k).
Proof.
  intros R HL HP HR. unfold Load. rewrite HL. fold (the_loader s os). unfold tryLoad. rewrite HP, HR. cbn [bind].
  destruct (newLoader_ok (set_loading s true) os eq_refl) as [O1 O2]. fold (the_loader s os) in O1, O2.
  destruct (loadDedicated_spec str (ld_s (the_loader s os)) true d t R O1) as (t' & E & R' & A & M & MT).
  rewrite E. cbn [bind]. eexists. split; [reflexivity|]. cbn. repeat split; auto. discriminate.
Qed.

(** an error other than ErrNotImplemented: returned, nothing stored *)
Theorem load_error (str : gval -> gostring) (json : gostring -> option gmap * option lerr) s t os pv d n :
  so_loading s = false -> ld_pv (the_loader s os) = Some pv -> pv_read pv = (d, Some (EOther n)) ->
  exists r, Load str json s t os = Ok r /\ lr_err r = Some (EOther n) /\ lr_ev r = [] /\ lr_t r = t /\
    lr_wr r = None /\ so_loading (lr_s r) = false.
Proof.
  intros HL HP HR. unfold Load. rewrite HL. fold (the_loader s os). unfold tryLoad. rewrite HP, HR. cbn [bind].
  eexists. split; [reflexivity|]. cbn. auto 10.
Qed.

(** ErrNotImplemented, and ReadBytes() fails or is missing or the codec fails: its error, nothing stored *)
Theorem load_once_error (str : gval -> gostring) (json : gostring -> option gmap * option lerr) s t os pv b e :
  so_loading s = false -> ld_pv (the_loader s os) = Some pv -> pv_read pv = (None, Some ENotImpl) ->
  pv_once pv = Some (b, Some e) ->
  exists r, Load str json s t os = Ok r /\ lr_err r = Some e /\ lr_ev r = [] /\ lr_t r = t /\
    lr_wr r = None /\ so_loading (lr_s r) = false.
Proof.
  intros HL HP HR HO. unfold Load. rewrite HL. fold (the_loader s os). unfold tryLoad. rewrite HP, HR, HO. cbn [bind].
  eexists. split; [reflexivity|]. cbn. auto 10.
Qed.
Definition decoder (json : gostring -> option gmap * option lerr) (l : loader) : gostring -> option gmap * option lerr :=
  match ld_codec l with Some c => c | None => json end.
Theorem load_codec_error (str : gval -> gostring) (json : gostring -> option gmap * option lerr) s t os pv b m e :
  so_loading s = false -> ld_pv (the_loader s os) = Some pv -> pv_read pv = (None, Some ENotImpl) ->
  pv_once pv = Some (b, None) -> decoder json (the_loader s os) b = (m, Some e) ->
  exists r, Load str json s t os = Ok r /\ lr_err r = Some e /\ lr_ev r = [] /\ lr_t r = t /\
    lr_wr r = None /\ so_loading (lr_s r) = false.
Proof.
  intros HL HP HR HO HD. unfold Load. rewrite HL. fold (the_loader s os). unfold tryLoad. rewrite HP, HR, HO. cbn [bind].
  unfold decoder in HD. destruct (ld_codec (the_loader s os)) as [c|]; rewrite HD; cbn [bind];
    (eexists; split; [reflexivity|]; cbn; auto 10).
Qed.
(** ErrNotImplemented, ReadBytes() works and the codec too: the decoded map is stored *)
Theorem load_bytes (str : gval -> gostring) (json : gostring -> option gmap * option lerr) s t os pv b m :
  reached t -> so_loading s = false -> ld_pv (the_loader s os) = Some pv -> pv_read pv = (None, Some ENotImpl) ->
  pv_once pv = Some (b, None) -> decoder json (the_loader s os) b = (Some m, None) ->
  exists r, Load str json s t os = Ok r /\ lr_err r = None /\ lr_ev r = [] /\ so_loading (lr_s r) = false /\ lr_wr r <> None /\
    holds_after (lplaces str (ld_s (the_loader s os)) m) t (lr_t r) /\
    (forall k, mod_at (lr_t r) k = mod_at t k) /\ (forall k, meta_at (lr_t r) k = meta_at t k).
Proof.
  intros R HL HP HR HO HD. unfold Load. rewrite HL. fold (the_loader s os). unfold tryLoad. rewrite HP, HR, HO. cbn [bind].
  destruct (newLoader_ok (set_loading s true) os eq_refl) as [O1 O2]. fold (the_loader s os) in O1, O2.
  destruct (loadMap_spec str (ld_s (the_loader s os)) true m t R O1) as (t' & E & R' & A & M & MT).
  unfold decoder in HD. destruct (ld_codec (the_loader s os)) as [c|]; rewrite HD; cbn [bind]; rewrite E; cbn [bind];
    (eexists; split; [reflexivity|]; cbn; repeat split; auto; discriminate).
Qed.
(** the last option of a kind is the one that counts *)
Fixpoint last_opt {A} (f : lopt -> option A) (os : list lopt) : option A :=
  match os with
  | [] => None
  | o :: r => match last_opt f r with Some x => Some x | None => f o end
  end.
Definition opt_provider (o : lopt) := match o with LProvider p => Some p | _ => None end.
Definition opt_codec (o : lopt) := match o with LCodec c => Some c | _ => None end.
Definition opt_prefix (o : lopt) := match o with LStorePrefix p => Some p | _ => None end.
Definition opt_flat (o : lopt) := match o with LFlat b => Some b | _ => None end.
Definition opt_nowatch (o : lopt) := match o with LNoWatch b => Some b | _ => None end.
Definition pick {A} (o : option A) (d : A) : A := match o with Some x => x | None => d end.
Lemma fold_lopts os : forall l, let r := fold_left apply_lopt os l in
  ld_pv r = match last_opt opt_provider os with Some p => Some p | None => ld_pv l end /\
  ld_codec r = match last_opt opt_codec os with Some p => Some p | None => ld_codec l end /\
  hprefix (so_h (ld_s r)) = match last_opt opt_prefix os with Some p => Join (hdelim (so_h (ld_s l))) [p] | None => hprefix (so_h (ld_s l)) end /\
  hdelim (so_h (ld_s r)) = hdelim (so_h (ld_s l)) /\
  so_flat (ld_s r) = pick (last_opt opt_flat os) (so_flat (ld_s l)) /\
  ld_nowatch r = pick (last_opt opt_nowatch os) (ld_nowatch l).
Proof.
  induction os as [|o os IH]; intros l; cbn [fold_left last_opt]; [repeat split; reflexivity|].
  destruct (IH (apply_lopt l o)) as (H1 & H2 & H3 & H4 & H5 & H6). cbv zeta in *.
  rewrite H1, H2, H3, H4, H5, H6. clear.
  repeat split; destruct o; cbn; unfold pick; repeat match goal with |- context [last_opt ?f os] => destruct (last_opt f os) end; reflexivity.
Qed.
(** the provider, the decoder, the place and the flags of a load: the last option of each kind; without
    WithCodec the codec of the provider, without that json *)
Theorem loader_options (json : gostring -> option gmap * option lerr) s os : let l := the_loader s os in
  ld_pv l = last_opt opt_provider os /\
  decoder json l = (match last_opt opt_codec os with
                    | Some c => c
                    | None => match last_opt opt_provider os with
                              | Some p => match pv_codec p with Some c => c | None => json end
                              | None => json
                              end
                    end) /\
  hprefix (so_h (ld_s l)) = match last_opt opt_prefix os with Some p => Join (hdelim (so_h s)) [p] | None => hprefix (so_h s) end /\
  hdelim (so_h (ld_s l)) = hdelim (so_h s) /\
  so_flat (ld_s l) = pick (last_opt opt_flat os) (so_flat s) /\
  ld_nowatch l = pick (last_opt opt_nowatch os) false.
Proof.
  unfold the_loader, newLoader, decoder. cbv zeta.
  destruct (fold_lopts os (Ldr (set_loading s true) None None None false)) as (H1 & H2 & H3 & H4 & H5 & H6).
  cbn [ld_pv ld_codec ld_s ld_nowatch set_loading so_h so_flat] in *. rewrite H1, H2, H3, H4, H5, H6. repeat split.
  - destruct (last_opt opt_provider os); reflexivity.
  - destruct (last_opt opt_codec os); auto. destruct (last_opt opt_provider os) as [p|]; auto.
Qed.
(** streaming: every pair is stored, and then the decoder decides on no bytes at all *)
Definition sw (s : store) (c : bool) (kv : gostring * gval) : wr := Wr s (fst kv) (snd kv) c [].
Lemma stream_wrun s kvs : forall t, stream s kvs t = wrun (map (sw s true) kvs) t.
Proof.
  induction kvs as [|[k v] kvs IH]; intros t; cbn [stream map wrun sw wr_s wr_p wr_v wr_c wr_o fst snd]; auto.
  destruct (setKV _ _ _ _ _ _) as [[[[t1 id] o] e1]| |]; cbn [bind]; auto. now rewrite IH.
Qed.
Theorem load_stream (str : gval -> gostring) (json : gostring -> option gmap * option lerr) s t os pv kvs :
  reached t -> so_loading s = false -> ld_pv (the_loader s os) = Some pv -> pv_read pv = (None, Some ENotImpl) ->
  pv_once pv = None -> pv_stream pv = Some kvs -> fst (decoder json (the_loader s os) []) = None ->
  exists r, Load str json s t os = Ok r /\ lr_err r = snd (decoder json (the_loader s os) []) /\
    so_loading (lr_s r) = false /\ lr_wr r = None /\
    holds_after (map (skv (so_h (ld_s (the_loader s os)))) kvs) t (lr_t r) /\
    (forall k, mod_at (lr_t r) k = mod_at t k) /\ (forall k, meta_at (lr_t r) k = meta_at t k).
Proof.
  intros R HL HP HR HO HS HD. unfold Load. rewrite HL. fold (the_loader s os). unfold tryLoad. rewrite HP, HR, HO, HS.
  destruct (newLoader_ok (set_loading s true) os eq_refl) as [O1 O2]. fold (the_loader s os) in O1, O2.
  set (ls := ld_s (the_loader s os)) in *. rewrite stream_wrun.
  assert (H1 : Forall (fun w => Forall meta_op (wr_o w)) (map (sw ls true) kvs)).
  { apply Forall_forall. intros w Hw. apply in_map_iff in Hw. destruct Hw as (x & <- & _). constructor. }
  assert (H3 : Forall (fun w => wr_user w = false) (map (sw ls true) kvs)).
  { apply Forall_forall. intros w Hw. apply in_map_iff in Hw. destruct Hw as (x & <- & _). unfold wr_user, sw; cbn [wr_s]; now rewrite O1. }
  destruct (wrun_spec _ H1 t R) as (t' & e & E & R' & A & M). rewrite E. cbn [bind].
  assert (C : (forall k, mod_at t' k = mod_at t k) /\ (forall k, meta_at t' k = meta_at t k) /\
              holds_after (map (skv (so_h ls)) kvs) t t').
  { split; [|split].
    - intros k. rewrite M. rewrite <- (orb_false_r (mod_at t k)) at 2. f_equal.
      now apply users_none.
    - exact (wrun_meta _ H3 t t' _ R E).
    - intros k. specialize (A k). rewrite map_map in A. exact A. }
  destruct C as (C1 & C2 & C3).
  unfold decoder in *. destruct (ld_codec (the_loader s os)) as [c|].
  - destruct (c []) as [bin err]. cbn [fst snd] in *. subst bin. destruct err as [er|]; cbn [bind];
      (eexists; split; [reflexivity|]; cbn; repeat split; auto).
  - destruct (json []) as [bin err]. cbn [fst snd] in *. subst bin. destruct err as [er|]; cbn [bind];
      (eexists; split; [reflexivity|]; cbn; repeat split; auto).
Qed.

(** after any Load the receiver is out of the loading state, unless it was loading before *)
Theorem load_released (str : gval -> gostring) (json : gostring -> option gmap * option lerr) s t os r :
  Load str json s t os = Ok r -> so_loading (lr_s r) = so_loading s.
Proof.
  unfold Load. destruct (so_loading s) eqn:HL; [intros E; now injection E as <-|].
  destruct (tryLoad _ _ _ _ _) as [[[[[t1 e1] data] bin] err]| |]; cbn [bind]; try discriminate.
  destruct err; [intros E; now injection E as <-|].
  destruct (match data with Some d => _ | None => _ end) as [[t2 e2]| |]; cbn [bind]; try discriminate.
  destruct (match bin with Some d => _ | None => _ end) as [[t3 e3]| |]; cbn [bind]; try discriminate.
  intros E. now injection E as <-.
Qed.

(** ** C55 *)
Definition no_prefix (os : list lopt) : Prop := Forall (fun o => match o with LStorePrefix _ => False | _ => True end) os.
Lemma newLoader_plain s os : no_prefix os ->
  ld_recv (newLoader s os) = None /\ so_closers (ld_s (newLoader s os)) = so_closers s /\
  so_watch (ld_s (newLoader s os)) = so_watch s.
Proof.
  intros H. unfold newLoader. cbn [ld_recv ld_s].
  assert (X : forall l, ld_recv l = None -> so_closers (ld_s l) = so_closers s -> so_watch (ld_s l) = so_watch s ->
     ld_recv (fold_left apply_lopt os l) = None /\ so_closers (ld_s (fold_left apply_lopt os l)) = so_closers s /\
     so_watch (ld_s (fold_left apply_lopt os l)) = so_watch s).
  { induction H as [|o os Ho _ IH]; intros l H1 H2 H3; cbn [fold_left]; auto.
    apply IH; destruct o; cbn; auto; destruct Ho. }
  now apply X.
Qed.
(** the watcher of the provider, if the data was loaded and watching is on *)
Definition watched (s : store) (l : loader) (r : lres) : list nat :=
  match lr_wr r, ld_nowatch l, so_watch s, ld_pv l with
  | Some _, false, true, Some pv => match pv_watch pv with Some c => [c] | None => [] end
  | _, _, _, _ => []
  end.
Theorem load_closers (str : gval -> gostring) (json : gostring -> option gmap * option lerr) s t os r :
  so_loading s = false -> no_prefix os -> Load str json s t os = Ok r ->
  st_Close (lr_s r) = st_Close s ++ watched s (the_loader s os) r.
Proof.
  intros HL NP. unfold Load. rewrite HL. fold (the_loader s os).
  destruct (newLoader_plain (set_loading s true) os NP) as (O1 & O2 & O3). fold (the_loader s os) in O1, O2, O3.
  generalize dependent (the_loader s os). intros L O1 O2 O3. cbv zeta. rewrite O1. unfold st_Close, watched.
  destruct (tryLoad _ _ _ _ _) as [[[[[t1 e1] data] bin] err]| |]; cbn [bind]; try discriminate.
  destruct err. { intros E; injection E as <-. cbn [lr_s lr_wr set_loading so_closers]. rewrite O2. now rewrite app_nil_r. }
  destruct (match data with Some d => _ | None => _ end) as [[t2 e2]| |]; cbn [bind]; try discriminate.
  destruct (match bin with Some d => _ | None => _ end) as [[t3 e3]| |]; cbn [bind]; try discriminate.
  intros E. injection E as <-. cbn [lr_s lr_wr set_loading so_closers].
  unfold startWatch. rewrite O3. cbn [set_loading so_watch].
  destruct data, bin; cbn [andb]; rewrite ?O2, ?app_nil_r; cbn [set_loading so_closers]; auto;
    (destruct (ld_nowatch _); cbn [negb]; [now rewrite ?O2, ?app_nil_r|];
     destruct (so_watch s); [|now rewrite ?O2, ?app_nil_r];
     destruct (ld_pv _) as [pv|]; [|now rewrite ?O2, ?app_nil_r];
     destruct (pv_watch pv); cbn [add_closer so_closers]; now rewrite ?O2, ?app_nil_r).
Qed.

(** with a prefix the receiver keeps its closers as they are: the watcher is lost *)
Theorem load_prefix_closers (str : gval -> gostring) (json : gostring -> option gmap * option lerr) s t os p os' r :
  so_loading s = false -> os = LStorePrefix p :: os' -> no_prefix os' ->
  Load str json s t os = Ok r -> st_Close (lr_s r) = st_Close s.
Proof.
  intros HL -> NP. unfold Load. rewrite HL. cbn beta zeta.
  assert (O1 : ld_recv (newLoader (set_loading s true) (LStorePrefix p :: os')) = Some (set_loading s true)).
  { unfold newLoader. cbn [ld_recv fold_left]. 
    assert (X : forall l r0, ld_recv l = Some r0 -> ld_recv (fold_left apply_lopt os' l) = Some r0).
    { induction NP as [|o os' Ho _ IH]; intros l r0 H; cbn [fold_left]; auto. apply IH. destruct o; cbn; auto. destruct Ho. }
    now apply X. }
  rewrite O1. unfold st_Close.
  destruct (tryLoad _ _ _ _ _) as [[[[[t1 e1] data] bin] err]| |]; cbn [bind]; try discriminate.
  destruct err. { intros E; now injection E as <-. }
  destruct (match data with Some d => _ | None => _ end) as [[t2 e2]| |]; cbn [bind]; try discriminate.
  destruct (match bin with Some d => _ | None => _ end) as [[t3 e3]| |]; cbn [bind]; try discriminate.
  intros E. now injection E as <-.
Qed.

(** ** C45 *)
Definition only_modified (s : gostring) (a : attr) : bool := a_mod a.
Theorem save_exact rf order ld t c pv :
  vreach t -> ld_codec ld = Some c -> ld_pv ld = Some pv -> hprefix (so_h (ld_s ld)) = [] ->
  exists m, flat_of (fun s v => exists a, exports (hdelim (so_h (ld_s ld))) t s v a /\ a_mod a = true) m /\
    trySave rf order ld t = Ok (match splitCompactKeys (hdelim (so_h (ld_s ld))) (order m) with
                                | [] => None | x :: r => Some (x :: r) end).
Proof.
  intros V HC HP HN. unfold trySave. rewrite HC, HP.
  destruct (getM_root rf order (so_h (ld_s ld)) t [] (MOpts false true (Some modified)) only_modified V) as (m & F & E).
  - intros n. unfold passes, only_modified. cbn. now rewrite modified_bit.
  - now left.
  - now left.
  - exists m. split; auto. rewrite E. cbn [bind finish o_noflat]. destruct (splitCompactKeys _ _); reflexivity.
Qed.
(** without a codec or a provider nothing is written *)
Theorem save_nothing rf order ld t :
  ld_codec ld = None \/ ld_pv ld = None -> trySave rf order ld t = Ok None.
Proof. intros [H|H]; unfold trySave; rewrite H; auto. destruct (ld_codec ld); auto. Qed.

(** ** C54 *)
Lemma apply_sets_wrun s c kvs : forall t, apply_sets s c kvs t = wrun (map (sw s c) kvs) t.
Proof.
  induction kvs as [|[k v] kvs IH]; intros t; cbn [apply_sets map wrun sw wr_s wr_p wr_v wr_c wr_o fst snd]; auto.
  destruct (setKV _ _ _ _ _ _) as [[[[t1 id] o] e1]| |]; cbn [bind]; auto. now rewrite IH.
Qed.
(** create and write: every delivered pair is stored, nothing else changes, and the keys count as modified *)
Theorem change_sets rf s c t :
  reached t -> c_create c = true \/ c_write c = true ->
  exists t' e, applyExternalChanges rf s (EvPtr c) false t = Ok (t', e) /\ reached t' /\
    holds_after (map (skv (so_h s)) (c_pairs c)) t t' /\
    (so_loading s = false -> forall k, mod_at t' k = (mod_at t k || existsb (fun x => str_eqb (fst x) k) (map (skv (so_h s)) (c_pairs c)))).
Proof.
  intros R HC. unfold applyExternalChanges, applyChanges; cbn [as_Change].
  replace (c_create c || c_write c) with true by (destruct HC as [-> | ->]; rewrite ?orb_true_r; reflexivity).
  rewrite apply_sets_wrun.
  assert (H1 : Forall (fun w => Forall meta_op (wr_o w)) (map (sw s (c_create c)) (c_pairs c))).
  { apply Forall_forall. intros w Hw. apply in_map_iff in Hw. destruct Hw as (x & <- & _). constructor. }
  destruct (wrun_spec _ H1 t R) as (t' & e & E & R' & A & M). exists t', e. split; auto. split; auto. split.
  - intros k. specialize (A k). rewrite map_map in A. exact A.
  - intros HL k. rewrite M. f_equal. clear - HL. induction (c_pairs c) as [|x l IH]; auto.
    cbn [map existsb]. rewrite IH. unfold wr_user. cbn [sw wr_s]. rewrite HL. reflexivity.
Qed.
(** neither create, write nor remove: nothing *)
Theorem change_none rf s c t :
  c_create c = false -> c_write c = false -> c_remove c = false ->
  applyExternalChanges rf s (EvPtr c) false t = Ok (t, []).
Proof. intros H1 H2 H3. unfold applyExternalChanges, applyChanges; cbn [as_Change]. now rewrite H1, H2, H3. Qed.
(** remove: each delivered key is removed in turn, as Remove does *)
Fixpoint removals (d : rune) (kvs : list skey) (t : tr) (P : tr -> Prop) : Prop :=
  match kvs with
  | [] => P t
  | w :: r => exists t1,
      (forall k, t_get t1 k = match target d t w with
                              | Some f => if has_prefix f k then None else t_get t k
                              | None => t_get t k
                              end) /\ removals d r t1 P
  end.
Theorem change_removes D rf s c t :
  plain_reach D t -> D (hdelim (so_h s)) -> hmode (so_h s) <> ModeUp ->
  c_create c = false -> c_write c = false -> c_remove c = true ->
  exists t' e, applyExternalChanges (S rf) s (EvPtr c) false t = Ok (t', e) /\ plain_reach D t' /\
    removals (hdelim (so_h s)) (map (fun kv => runes (full (so_h s) (fst kv))) (c_pairs c)) t (eq t').
Proof.
  intros R Hd Hm H1 H2 H3. unfold applyExternalChanges, applyChanges; cbn [as_Change]. rewrite H1, H2, H3. cbn [orb].
  generalize (c_pairs c) as kvs. clear - R Hd Hm. intros kvs. revert t R.
  induction kvs as [|[k v] kvs IH]; intros t R; cbn [apply_removes map removals fst].
  - exists t, []. repeat split; auto.
  - destruct (remove_events D rf s t k R Hd Hm) as (t1 & E1 & E1').
    assert (R1 : plain_reach D t1).
    { eapply (plain_more D rf (so_h s) (ORemove k) t); eauto; [intros d _; exact I|].
      cbn [t_step]. rewrite E1'. reflexivity. }
    destruct (remove_spec D rf (so_h s) t k R Hd Hm) as (t1' & E1'' & G). rewrite E1' in E1''. injection E1'' as <-.
    destruct (IH t1 R1) as (t2 & e2 & E2 & R2 & C2).
    destruct (target _ t (runes (full (so_h s) k))) as [f|] eqn:T; rewrite E1; cbn [bind]; rewrite E2; cbn [bind];
      exists t2; eexists; (split; [reflexivity|]); split; auto; exists t1; split; auto.
Qed.

(** ** C39 *)
(** Sets through any handles, loading or not *)
Fixpoint st_sets (rf : nat) (l : list (store * gostring * gval)) (t : tr) : res (tr * list ev) :=
  match l with
  | [] => Ok (t, [])
  | (s, p, v) :: r =>
      do (t1, _, _, e1) <- st_Set rf s t p v;
      do (t2, e2) <- st_sets rf r t1; Ok (t2, e1 ++ e2)
  end.
Theorem sets_modified rf l : forall t t' e, reached t -> st_sets rf l t = Ok (t', e) ->
  forall k, mod_at t' k =
    (mod_at t k || existsb (fun x => negb (so_loading (fst (fst x))) && str_eqb (wkey (so_h (fst (fst x))) (snd (fst x))) k) l).
Proof.
  induction l as [|[[s p] v] l IH]; intros t t' e R E k; cbn [st_sets] in E.
  - injection E as <- _. cbn. now rewrite orb_false_r.
  - unfold st_Set in E. destruct (Query rf (so_h s) t p) as [q| |]; cbn [bind] in E; try discriminate.
    assert (H1 : Forall (fun w => Forall meta_op (wr_o w)) [Wr s p v (negb (q_found q)) []]) by repeat constructor.
    destruct (wrun_spec _ H1 t R) as (t1 & e1 & E1 & R1 & _ & M1).
    cbn [wrun wr_s wr_p wr_v wr_c wr_o] in E1.
    destruct (setKV s t p v (negb (q_found q)) []) as [[[[t2 id] o] e2]| |]; cbn [bind] in E, E1; try discriminate.
    injection E1 as <- _. destruct (st_sets rf l t2) as [[t3 e3]| |] eqn:E3; cbn [bind] in E; try discriminate.
    injection E as <- _. rewrite (IH t2 t3 e3 R1 E3 k), M1. cbn [existsb fst snd]. unfold wr_user, wr_key.
    cbn [wr_s wr_p]. now rewrite orb_false_r, orb_assoc.
Qed.
(** Remove leaves the marks of the keys that stay *)
Theorem remove_modified D rf s t path :
  plain_reach D t -> D (hdelim (so_h s)) -> hmode (so_h s) <> ModeUp ->
  exists t' b e, st_Remove (S rf) s t path = Ok (t', b, e) /\
    forall k, t_get t' k <> None -> mod_at t' k = mod_at t k.
Proof.
  intros R Hd Hm. destruct (remove_events D rf s t path R Hd Hm) as (t' & E & E').
  destruct (remove_spec D rf (so_h s) t path R Hd Hm) as (t1 & E1 & G). rewrite E' in E1. injection E1 as <-.
  assert (X : forall k, t_get t' k <> None -> mod_at t' k = mod_at t k).
  { intros k Hk. unfold mod_at. rewrite G in *.
    destruct (target _ t _) as [f|]; auto. destruct (has_prefix f k); [congruence|auto]. }
  destruct (target _ t _) as [f|]; rewrite E; eauto 10.
Qed.

(** ** C38 *)
Theorem view_silent D rf s ps t path v :
  plain_reach D t -> D (hdelim (so_h s)) -> hmode (so_h s) <> ModeUp -> full (so_h (st_withPrefix s ps)) path <> [] ->
  exists t' id old, st_Set (S rf) (st_withPrefix s ps) t path v = Ok (t', id, old, []).
Proof.
  intros R Hd Hm Hne. destruct (set_events D rf (st_withPrefix s ps) t path v R Hd Hm Hne) as (t' & id & E).
  exists t', id. eexists. rewrite E. cbn. now match goal with |- context [if ?b then [] else []] => destruct b end.
Qed.
