(** What New, Dup of a store, the registry of codecs and the pretty option do. *)
From Coq Require Import String.
From Coq Require Import List NArith ZArith Bool Arith Lia.
From Verif Require Import GoStr Utf8 Node NodeWf Trie Spec Refine ApiRefine Reach Derived Cvter Store StoreProofs Provider ProviderProofs Build.
Import ListNotations.
Open Scope nat_scope.
Open Scope list_scope.

(** ** New *)
(** the last of the options that [pick] takes says [x]; [d] if there is none *)
Definition says {A} (pick : nopt -> option A) (d : A) (os : list nopt) (x : A) : Prop :=
  (exists a o b, os = a ++ o :: b /\ pick o = Some x /\ forall o', In o' b -> pick o' = None) \/
  (x = d /\ forall o, In o os -> pick o = None).
Definition delim_of (o : nopt) := match o with NDelimiter d => Some d | _ => None end.
Definition prefix_of_opt (o : nopt) := match o with NPrefix p => Some p | _ => None end.
Definition flat_of (o : nopt) := match o with NFlatten b => Some b | _ => None end.
Definition watch_of (o : nopt) := match o with NWatch b => Some b | _ => None end.
Definition chg_of (o : nopt) := match o with NOnChange hs => hs | _ => [] end.
Definition new_of (o : nopt) := match o with NOnNew hs => hs | _ => [] end.
Definition del_of (o : nopt) := match o with NOnDelete hs => hs | _ => [] end.

Lemma says_snoc {A} pick (d x : A) os o : says pick d os x ->
  says pick d (os ++ [o]) (match pick o with Some y => y | None => x end).
Proof.
  intros S. destruct (pick o) as [y|] eqn:E.
  - left. exists os, o, []. split; [reflexivity|]. split; [exact E|now intros].
  - destruct S as [(a & o1 & b & -> & P & N)|[-> N]].
    + left. exists a, o1, (b ++ [o]). split; [now rewrite <- app_assoc|]. split; [exact P|]. intros o' H.
      apply in_app_iff in H. destruct H as [H|[<-|[]]]; auto.
    + right. split; [reflexivity|]. intros o' H. apply in_app_iff in H. destruct H as [H|[<-|[]]]; auto.
Qed.
Lemma says_one {A} pick (d : A) os x y : says pick d os x -> says pick d os y -> x = y.
Proof.
  revert x y. induction os as [|o os IH] using rev_ind; intros x y X Y.
  - destruct X as [(a & o & b & E & _)|[-> _]]; [destruct a; discriminate|].
    destruct Y as [(a & o & b & E & _)|[-> _]]; [destruct a; discriminate|reflexivity].
  - assert (G : forall z, says pick d (os ++ [o]) z -> pick o = Some z \/ pick o = None /\ says pick d os z).
    { intros z [(a & o1 & b & E & P & N)|[-> N]].
      - destruct b as [|o2 b] using rev_ind.
        + apply app_inj_tail in E. destruct E as [-> ->]. now left.
        + clear IHb. rewrite app_comm_cons, app_assoc in E. apply app_inj_tail in E. destruct E as [-> ->]. right.
          split; [apply N, in_app_iff; right; now left|]. left. exists a, o1, b. split; [reflexivity|]. split; [exact P|].
          intros o' H. apply N, in_app_iff. now left.
      - right. split; [apply N, in_app_iff; right; now left|]. right. split; [reflexivity|]. intros o' H. apply N, in_app_iff. now left. }
    destruct (G x X) as [A1|[A1 A2]], (G y Y) as [B1|[B1 B2]]; try congruence. now apply IH.
Qed.

Definition made (os : list nopt) (s : store) : Prop :=
  says delim_of dotChar os (hdelim (so_h s)) /\ says prefix_of_opt [] os (hprefix (so_h s)) /\ hmode (so_h s) = ModeNone /\
  says flat_of false os (so_flat s) /\ says watch_of false os (so_watch s) /\
  so_chg s = concat (map chg_of os) /\ so_new s = concat (map new_of os) /\ so_del s = concat (map del_of os) /\
  so_loading s = false /\ so_closers s = [] /\ so_parent s = None.
Lemma new_made os : made os (fold_left apply_nopt os bareStore).
Proof.
  induction os as [|o os IH] using rev_ind.
  - repeat split; try reflexivity; right; (split; [reflexivity|now intros]).
  - rewrite fold_left_app. cbn [fold_left]. revert IH. generalize (fold_left apply_nopt os bareStore). intros s.
    destruct s as [[p d md] ld cl ch nw dl pa fl wt]. unfold made.
    cbn [so_h so_flat so_watch so_chg so_new so_del so_loading so_closers so_parent hdelim hprefix hmode].
    intros (D & P & M & F & W & C & N & L & R). rewrite !map_app, !concat_app. cbn [map concat]. rewrite !app_nil_r.
    pose proof (says_snoc delim_of dotChar d os o D) as D'. pose proof (says_snoc prefix_of_opt [] p os o P) as P'.
    pose proof (says_snoc flat_of false fl os o F) as F'. pose proof (says_snoc watch_of false wt os o W) as W'.
    destruct o; cbn [delim_of prefix_of_opt flat_of watch_of chg_of new_of del_of] in *;
      cbn [apply_nopt setDelimiter setPrefix so_h so_flat so_watch so_chg so_new so_del so_loading so_closers so_parent hdelim hprefix hmode];
      rewrite ?app_nil_r; repeat split; auto; try tauto; try congruence.
Qed.
(** options of different kinds may be given in any order *)
Definition kind (o : nopt) : nat :=
  match o with NDelimiter _ => 0 | NPrefix _ => 1 | NOnChange _ => 2 | NOnNew _ => 3 | NOnDelete _ => 4 | NFlatten _ => 5 | NWatch _ => 6 end.
Definition of_kind (n : nat) (os : list nopt) : list nopt := filter (fun o => kind o =? n) os.
Lemma says_kind {A} (pick : nopt -> option A) d n os x : (forall o, kind o <> n -> pick o = None) ->
  says pick d os x -> says pick d (of_kind n os) x.
Proof.
  intros K. revert x. induction os as [|o os IH] using rev_ind; intros x S.
  - destruct S as [(a & o & b & E & _)|[-> _]]; [destruct a; discriminate|]. right. split; [reflexivity|now intros].
  - unfold of_kind. rewrite filter_app. cbn [filter].
    destruct (pick o) as [y|] eqn:E.
    + assert (X : x = y). { apply (says_one pick d (os ++ [o])); [exact S|]. left. exists os, o, []. split; [reflexivity|]. split; [exact E|now intros]. }
      subst y. destruct (Nat.eqb_spec (kind o) n) as [H|H]; [|rewrite K in E; [discriminate|exact H]].
      left. exists (filter (fun o => kind o =? n) os), o, []. split; [reflexivity|]. split; [exact E|now intros].
    + assert (S' : says pick d os x).
      { destruct S as [(a & o1 & b & Eo & P & N)|[-> N]].
        - destruct b as [|o2 b] using rev_ind.
          + apply app_inj_tail in Eo. destruct Eo as [-> ->]. congruence.
          + clear IHb. rewrite app_comm_cons, app_assoc in Eo. apply app_inj_tail in Eo. destruct Eo as [-> ->].
            left. exists a, o1, b. split; [reflexivity|]. split; [exact P|]. intros o' H. apply N, in_app_iff. now left.
        - right. split; [reflexivity|]. intros o' H. apply N, in_app_iff. now left. }
      specialize (IH x S'). destruct (kind o =? n); [|now rewrite app_nil_r].
      pose proof (says_snoc pick d x (of_kind n os) o IH) as Z. rewrite E in Z. exact Z.
Qed.
Lemma concat_kind {A} (f : nopt -> list A) n os : (forall o, kind o <> n -> f o = []) -> concat (map f (of_kind n os)) = concat (map f os).
Proof.
  intros K. induction os as [|o os IH]; [reflexivity|]. unfold of_kind in *. cbn [filter map concat].
  destruct (Nat.eqb_spec (kind o) n) as [H|H]; [cbn [map concat]; now rewrite IH|]. rewrite K; [exact IH|exact H].
Qed.
Lemma new_order os os' : (forall n, of_kind n os = of_kind n os') ->
  fold_left apply_nopt os bareStore = fold_left apply_nopt os' bareStore.
Proof.
  intros K.
  pose proof (new_made os) as A. pose proof (new_made os') as B. revert A B.
  generalize (fold_left apply_nopt os bareStore) (fold_left apply_nopt os' bareStore).
  intros [[p d md] ld cl ch nw dl pa fl wt] [[p' d' md'] ld' cl' ch' nw' dl' pa' fl' wt']. unfold made.
  cbn [so_h so_flat so_watch so_chg so_new so_del so_loading so_closers so_parent hdelim hprefix hmode].
  intros (D & P & -> & F & W & -> & -> & -> & -> & -> & ->) (D' & P' & -> & F' & W' & -> & -> & -> & -> & -> & ->).
  assert (EQ : forall A (pick : nopt -> option A) dd n x y, (forall o, kind o <> n -> pick o = None) -> says pick dd os x -> says pick dd os' y -> x = y).
  { intros A pick dd n x y KP X Y. apply (says_one pick dd (of_kind n os)); [now apply says_kind|]. rewrite (K n). now apply says_kind. }
  assert (D0 : d = d') by (apply (EQ _ delim_of dotChar 0); auto; intros []; cbn; congruence).
  assert (P0 : p = p') by (apply (EQ _ prefix_of_opt [] 1); auto; intros []; cbn; congruence).
  assert (F0 : fl = fl') by (apply (EQ _ flat_of false 5); auto; intros []; cbn; congruence).
  assert (W0 : wt = wt') by (apply (EQ _ watch_of false 6); auto; intros []; cbn; congruence).
  subst d' p' fl' wt'.
  rewrite <- (concat_kind chg_of 2 os), <- (concat_kind new_of 3 os), <- (concat_kind del_of 4 os) by (intros []; cbn; congruence).
  rewrite !K. rewrite (concat_kind chg_of 2 os'), (concat_kind new_of 3 os'), (concat_kind del_of 4 os') by (intros []; cbn; congruence).
  reflexivity.
Qed.
(** the first Set of a new store: the handlers for new keys, in the order in which they were given *)
Lemma live_app a b : live (a ++ b) = live a ++ live b.
Proof. induction a as [|[i|] a IH]; cbn; congruence. Qed.
Lemma live_concat ls : live (concat ls) = concat (map live ls).
Proof. induction ls as [|l ls IH]; [reflexivity|]. cbn [concat map]. now rewrite live_app, IH. Qed.
Lemma no_key w : w <> [] -> t_get newTrie w = None.
Proof. destruct w; [now intros H|]. reflexivity. Qed.
Lemma app_cons_not_nil' {A} (l : list A) x : l ++ [x] <> [].
Proof. now destruct l. Qed.
Lemma first_set rf env os k v : let '(env', s, t) := newStore env os in
  full (so_h s) k <> [] -> blank_free (full (so_h s) k) ->
  exists t' id, st_Set (S rf) s t k v =
    Ok (t', id, GNil, map (fun i => ENew i k v true) (concat (map (fun o => live (new_of o)) os))).
Proof.
  unfold newStore. pose proof (new_made os) as M. revert M. generalize (fold_left apply_nopt os bareStore). intros s M NE BF.
  assert (HM : hmode (so_h s) <> ModeUp) by (destruct M as (_ & _ & -> & _); discriminate).
  assert (G1 : t_get newTrie (runes (full (so_h s) k)) = None) by (apply no_key; intros X; apply NE; now apply runes_nil_iff).
  destruct (@set_new (fun d => d = hdelim (so_h s)) rf s newTrie k v (plain_new _) eq_refl HM NE BF G1 (no_key _ (app_cons_not_nil' _ _))) as (t' & id & E).
  exists t', id. rewrite E. destruct M as (_ & _ & _ & _ & _ & _ & N & _ & L & _ & P). rewrite L.
  assert (Z : listeners so_new s = concat (map (fun o => live (new_of o)) os)).
  { destruct s as [h ld cl ch nw dl pa fl wt]. cbn [so_new so_parent so_loading] in *. subst. cbn [listeners so_new so_parent].
    now rewrite app_nil_r, live_concat, map_map. }
  now rewrite Z.
Qed.

(** ** New and the environment *)
Lemma cut_named k v : ~ In 61%N k -> cut_eq (k ++ s2b "="%string ++ v) = Some (k, v).
Proof.
  induction k as [|c k IH]; intros N; [reflexivity|]. cbn [app cut_eq]. destruct (N.eqb_spec c 61) as [->|_]; [now elim N; left|].
  rewrite IH; [reflexivity|]. intros H. apply N. now right.
Qed.
Lemma setenv_loop lower o k v : k <> [] -> ~ In 61%N k -> is_nil (e_prefix o) = false -> has_prefix (e_prefix o) k = false ->
  forall env m keys, env_loop lower o (setenv k v env) m keys = env_loop lower o env m keys.
Proof.
  intros K N P H.
  assert (Z : env_entry o (k ++ s2b "="%string ++ v) = None).
  { unfold env_entry. rewrite (cut_named k v N), P, H. cbn. destruct k; [now elim K|reflexivity]. }
  induction env as [|p r IH]; intros m keys.
  - cbn [setenv env_loop]. now rewrite Z.
  - cbn [setenv]. destruct (cut_eq p) as [[k' w]|] eqn:C.
    + destruct (str_eqb k' k) eqn:E; cbn [env_loop].
      * rewrite Z. apply Utf8.str_eqb_eq in E. subst k'. unfold env_entry at 1. rewrite C, P, H. cbn. destruct k; [now elim K|reflexivity].
      * destruct (env_entry o p) as [[kk vv]|]; [|apply IH]. destruct (env_key lower o kk); cbn [bind]; auto.
    + cbn [env_loop]. unfold env_entry. rewrite C. apply IH.
Qed.
Lemma new_env lower o env os : is_nil (e_prefix o) = false -> has_prefix (e_prefix o) versionName = false ->
  env_prepare lower o (fst (fst (newStore env os))) = env_prepare lower o env.
Proof.
  intros P H. cbn [newStore fst]. unfold env_prepare. apply setenv_loop; auto; [discriminate|].
  intros X. vm_compute in X. repeat (destruct X as [X|X]; [discriminate|]). exact X.
Qed.

(** ** Dup of a store *)
Lemma dup_same clone s t : let (s', t') := st_Dup clone s t in
  so_h s' = so_h s /\ so_flat s' = so_flat s /\ so_watch s' = so_watch s /\ so_loading s' = so_loading s /\ t' = Dup clone t.
Proof. cbn. auto. Qed.
(** nothing that is done through a copy calls a handler or closes a watcher of the original *)
Lemma dup_set_silent rf clone s t u k v t' id old es : let (s', _) := st_Dup clone s t in
  st_Set rf s' u k v = Ok (t', id, old, es) -> es = [].
Proof.
  cbn [st_Dup]. unfold st_Set, setKV. destruct (Query _ _ _ _) as [q| |]; cbn [bind]; try discriminate.
  destruct (Set_ _ _ _ _) as [[[t1 i] o]| |]; cbn [bind]; try discriminate. intros E.
  apply (f_equal (fun r => match r with Ok (_, e) => e | _ => [] end)) in E. cbn beta iota in E. rewrite <- E, tryOnSet_listeners. cbn [listeners dupS so_new so_chg so_parent live app map]. now destruct (if negb _ then _ else _).
Qed.
Lemma dup_remove_silent rf clone s t u k t' b es : let (s', _) := st_Dup clone s t in
  st_Remove rf s' u k = Ok (t', b, es) -> es = [].
Proof.
  cbn [st_Dup]. unfold st_Remove. destruct (RemoveEx _ _ _ _) as [[[[t1 n] par] r]| |]; cbn [bind]; try discriminate.
  intros E. apply (f_equal (fun r => match r with Ok (_, e) => e | _ => [] end)) in E. cbn beta iota in E. rewrite <- E.
  destruct r; [|reflexivity]. destruct n; [|reflexivity]. now rewrite tryOnDelete_listeners.
Qed.
Lemma dup_close clone s t : st_Close (fst (st_Dup clone s t)) = [].
Proof. reflexivity. Qed.
(** a copy made while the original was loading never loads anything *)
Lemma dup_loading str json clone s t u os : so_loading s = true -> let (s', _) := st_Dup clone s t in
  Load str json s' u os = Ok (LRes s' u None [] None).
Proof. intros L. cbn [st_Dup]. unfold Load. cbn [dupS so_loading]. now rewrite L. Qed.

(** ** the registry *)
Fixpoint nodupb_s (l : list gostring) : bool := match l with [] => true | a :: r => negb (existsb (str_eqb a) r) && nodupb_s r end.
Definition about (e : gostring) (o : rop) : Prop := match o with Register e' _ | Deregister e' => e' = e end.
(** what the map has under [e] after [ops]: what the last call about [e] left there, or what was there before *)
Definition left_at (e : gostring) (before : option cgetter) (ops : list rop) (now : option cgetter) : Prop :=
  (exists a o b, ops = a ++ o :: b /\ about e o /\ (forall o', In o' b -> ~ about e o') /\
     now = match o with Register _ g => Some g | Deregister _ => None end) \/
  ((forall o, In o ops -> ~ about e o) /\ now = before).
Lemma reg_get_set m e g e' : reg_get (reg_set m e g) e' = if str_eqb e e' then Some g else reg_get m e'.
Proof.
  induction m as [|[x y] m IH]; cbn [reg_set reg_get]; [now destruct (str_eqb e e')|].
  destruct (str_eqb x e) eqn:X; cbn [reg_get].
  - apply Utf8.str_eqb_eq in X. subst x. now destruct (str_eqb e e').
  - rewrite IH. destruct (str_eqb x e') eqn:Y; [|reflexivity]. apply Utf8.str_eqb_eq in Y. subst x.
    destruct (str_eqb e e') eqn:Z; [|reflexivity]. apply Utf8.str_eqb_eq in Z. subst e. rewrite (proj2 (Utf8.str_eqb_eq e' e') eq_refl) in X. discriminate.
Qed.
Lemma reg_get_del m e e' : reg_get (reg_del m e) e' = if str_eqb e e' then None else reg_get m e'.
Proof.
  induction m as [|[x y] m IH]; cbn [reg_del reg_get]; [now destruct (str_eqb e e')|].
  destruct (str_eqb x e) eqn:X; cbn [reg_get].
  - rewrite IH. apply Utf8.str_eqb_eq in X. subst x. now destruct (str_eqb e e').
  - rewrite IH. destruct (str_eqb x e') eqn:Y; [|reflexivity]. apply Utf8.str_eqb_eq in Y. subst x.
    destruct (str_eqb e e') eqn:Z; [|reflexivity]. apply Utf8.str_eqb_eq in Z. subst e. rewrite (proj2 (Utf8.str_eqb_eq e' e') eq_refl) in X. discriminate.
Qed.
Lemma registry_after e ops m : left_at e (reg_get m e) ops (reg_get (fold_left reg_op ops m) e).
Proof.
  induction ops as [|o ops IH] using rev_ind; [right; split; [now intros|reflexivity]|].
  rewrite fold_left_app. cbn [fold_left].
  assert (D : {about e o} + {~ about e o}).
  { destruct o; cbn [about]; apply (list_eq_dec N.eq_dec). }
  destruct D as [A|A].
  - left. exists ops, o, []. split; [reflexivity|]. split; [exact A|]. split; [now intros|].
    destruct o; cbn [about reg_op] in *; subst; [rewrite reg_get_set|rewrite reg_get_del]; now rewrite (proj2 (Utf8.str_eqb_eq e e) eq_refl).
  - assert (E : reg_get (reg_op (fold_left reg_op ops m) o) e = reg_get (fold_left reg_op ops m) e).
    { destruct o as [x g|x]; cbn [about reg_op] in *; [rewrite reg_get_set|rewrite reg_get_del];
        (destruct (str_eqb x e) eqn:X; [apply Utf8.str_eqb_eq in X; tauto|reflexivity]). }
    rewrite E. destruct IH as [(a & o1 & b & -> & A1 & N & V)|[N V]].
    + left. exists a, o1, (b ++ [o]). split; [now rewrite <- app_assoc|]. split; [exact A1|]. split; [|exact V].
      intros o' H. apply in_app_iff in H. destruct H as [H|[<-|[]]]; auto.
    + right. split; [|exact V]. intros o' H. apply in_app_iff in H. destruct H as [H|[<-|[]]]; auto.
Qed.
Lemma codec_after e ops m : exists x, left_at e (reg_get m e) ops x /\
  Codec (fold_left reg_op ops m) e = match x with Some g => (g, true) | None => (None, false) end /\
  call (MustCodec (fold_left reg_op ops m) e) = match x with Some (Some c) => Ok c | _ => Panic end.
Proof.
  exists (reg_get (fold_left reg_op ops m) e). split; [apply registry_after|]. unfold Codec, MustCodec, call.
  destruct (reg_get _ e) as [[c|]|]; auto.
Qed.
(** the extension as filepath.Ext gives it *)
Lemma ext_back_spec r acc : ext_back r acc = [] \/ exists x, ext_back r acc = 46%N :: x.
Proof. revert acc. induction r as [|c r IH]; intros acc; cbn; [now left|]. destruct (N.eqb_spec c 47); [now left|]. destruct (N.eqb_spec c 46) as [->|]; [right; eauto|apply IH]. Qed.
Lemma ext_none name : Ext name <> [] -> Codec suffixCodecMap (Ext name) = (None, false).
Proof.
  unfold Ext. destruct (ext_back_spec (rev name) []) as [->|[x ->]]; [now intros H|]. intros _. reflexivity.
Qed.
Lemma ext_back_at r acc x : ~ In 46%N x -> ~ In 47%N x -> ext_back (rev x ++ 46%N :: r) acc = 46%N :: x ++ acc.
Proof.
  revert acc. induction x as [|c x IH] using rev_ind; intros acc A B; [reflexivity|].
  rewrite rev_unit. cbn [app ext_back].
  destruct (N.eqb_spec c 47) as [->|_]; [elim B; apply in_app_iff; right; now left|].
  destruct (N.eqb_spec c 46) as [->|_]; [elim A; apply in_app_iff; right; now left|].
  rewrite IH; [now rewrite <- app_assoc| |]; intros H; [apply A|apply B]; apply in_app_iff; now left.
Qed.
Lemma ext_of_name dir x : ~ In 46%N x -> ~ In 47%N x -> Ext (dir ++ 46%N :: x) = 46%N :: x.
Proof. intros A B. unfold Ext. rewrite rev_app_distr. cbn [rev]. rewrite <- app_assoc. cbn [app]. rewrite (ext_back_at _ [] x A B). now rewrite app_nil_r. Qed.
Lemma reg_get_in m e g : NoDup (map fst m) -> In (e, g) m -> reg_get m e = Some g.
Proof.
  induction m as [|[x y] m IH]; intros ND H; [destruct H|]. destruct H as [H|H]; cbn [reg_get].
  - injection H as -> ->. now rewrite (proj2 (Utf8.str_eqb_eq e e) eq_refl).
  - inversion_clear ND as [|? ? N ND']. destruct (str_eqb x e) eqn:X; [|now apply IH].
    apply Utf8.str_eqb_eq in X. subst x. elim N. apply in_map_iff. now exists (e, g).
Qed.
Lemma suffixes_once : NoDup (map fst suffixCodecMap).
Proof.
  assert (X : forall l : list gostring, nodupb_s l = true -> NoDup l).
  { induction l as [|a l IH]; cbn; intros H; [constructor|]. apply andb_true_iff in H. destruct H as [H1 H2]. constructor; [|auto].
    intros I. rewrite (proj2 (existsb_exists (str_eqb a) l)) in H1; [discriminate|]. exists a. split; [exact I|now apply Utf8.str_eqb_eq]. }
  apply X. vm_compute. reflexivity.
Qed.
Lemma suffix_plain e g : In (e, g) suffixCodecMap -> ~ In 46%N e /\ ~ In 47%N e.
Proof.
  intros H. assert (X : forallb (fun eg => negb (existsb (fun c => (c =? 46)%N || (c =? 47)%N) (fst eg))) suffixCodecMap = true) by (vm_compute; reflexivity).
  rewrite forallb_forall in X. specialize (X _ H). cbn [fst] in X. apply negb_true_iff in X.
  split; intros I; (rewrite (proj2 (existsb_exists _ e)) in X; [discriminate|]); [exists 46%N|exists 47%N]; split; auto.
Qed.
(** without its dot it finds the codec of the list *)
Lemma ext_found dir e g : In (e, g) suffixCodecMap -> Codec suffixCodecMap (skipn 1 (Ext (dir ++ 46%N :: e))) = (g, true).
Proof.
  intros H. destruct (suffix_plain e g H) as [A B]. rewrite (ext_of_name dir e A B). cbn [skipn].
  unfold Codec. now rewrite (reg_get_in _ e g suffixes_once H).
Qed.
