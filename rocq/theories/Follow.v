(** The store as a replica: histories of writes and removals, and the store behind the watchers of
    consul and etcd. *)
From Coq Require Import List NArith Bool Arith Lia Permutation.
From Verif Require Import GoStr Utf8 Node NodeWf InsertProofs MatchProofs Trie Spec TreeOps Refine Climb ApiRefine Reach
  Effect Derived Derived2 Derived3 Derived4 Derived5 Cvter Nested CvterProofs Export Store StoreProofs MergeProofs LoadProofs
  Misc Provider ProviderProofs WatchProofs Watch.
Import ListNotations.
Open Scope nat_scope.

(** the data held at a key *)
Definition data_at (t : tr) (k : skey) : option gval :=
  match t_get t k with Some a => if a_has a then Some (a_data a) else None | None => None end.

(** ** writes and removals *)
Inductive rop := RSet (h : hdl) (p : gostring) (v : gval) | RRem (h : hdl) (p : gostring).
Definition r_call (o : rop) : hdl * op := match o with RSet h p v => (h, OSet p v) | RRem h p => (h, ORemove p) end.
(** the effect on a map of keys: the removal of a key takes along every key that begins with it *)
Definition r_eff (f : skey -> option gval) (o : rop) : skey -> option gval :=
  match o with
  | RSet h p v => fun k => if str_eqb (wkey h p) k then Some v else f k
  | RRem h p => fun k => if has_prefix (runes (full h p)) k then None else f k
  end.
(** the calls considered: keys without pattern characters, no recursive view, and a removal is of a key
    that holds something, or of one that nothing begins with *)
Definition r_ok (D : rune -> Prop) (f : skey -> option gval) (o : rop) : Prop :=
  match o with
  | RSet h p v => D (hdelim h) /\ op_plain D (full h) (OSet p v)
  | RRem h p => D (hdelim h) /\ hmode h <> ModeUp /\ full h p <> [] /\
      (f (runes (full h p)) <> None \/ forall k, f k <> None -> has_prefix (runes (full h p)) k = false)
  end.
Fixpoint r_all (D : rune -> Prop) (f : skey -> option gval) (l : list rop) : Prop :=
  match l with [] => True | o :: r => r_ok D f o /\ r_all D (r_eff f o) r end.
Definition agree (t : tr) (f : skey -> option gval) : Prop := forall k, data_at t k = f k.

Lemma has_prefix_trans a b k : has_prefix (a ++ b) k = true -> has_prefix a k = true.
Proof. intros H. apply has_prefix_ex in H. destruct H as [x ->]. rewrite <- app_assoc. apply has_prefix_app. Qed.

Lemma target_data d t w f : w <> [] -> agree t f ->
  (f w <> None \/ forall k, f k <> None -> has_prefix w k = false) ->
  forall t', (forall k, t_get t' k = match target d t w with
                              | Some g => if has_prefix g k then None else t_get t k
                              | None => t_get t k
                              end) ->
  agree t' (fun k => if has_prefix w k then None else f k).
Proof.
  intros Hw A C t' G k. unfold data_at. rewrite G. pose proof (A k) as Ak. unfold data_at in Ak.
  unfold target. destruct w as [|c w]; [congruence|]. set (W := c :: w) in *.
  destruct (t_get t W) as [a|] eqn:Ga.
  - destruct (has_prefix W k); auto.
  - assert (N : forall k, f k <> None -> has_prefix W k = false).
    { destruct C as [C|C]; auto. exfalso. apply C. rewrite <- A. unfold data_at. now rewrite Ga. }
    assert (Z : has_prefix W k = true -> f k = None).
    { intros Hp. destruct (f k) eqn:Fk; auto. rewrite (N k) in Hp; congruence. }
    destruct (t_get t (W ++ [d])) as [a|].
    + destruct (has_prefix (W ++ [d]) k) eqn:Hp.
      * apply has_prefix_trans in Hp. now rewrite Hp.
      * destruct (has_prefix W k); auto. rewrite Ak. auto.
    + destruct (has_prefix W k); auto. rewrite Ak. auto.
Qed.

Lemma r_step D rf t f o : plain_reach D t -> agree t f -> r_ok D f o ->
  exists t' r, t_step (S rf) (fst (r_call o)) t (snd (r_call o)) = Ok (t', r) /\ plain_reach D t' /\ agree t' (r_eff f o).
Proof.
  intros R A. destruct o as [h p v|h p]; cbn [r_ok r_call fst snd r_eff].
  - intros [Hd OP]. destruct (setKV_step (S rf) (quiet h) t p v false [] (plain_reach_reached D t R))
      as (t' & id & _ & S1 & G1 & F1 & N1). cbn [quiet so_h so_loading wop] in *.
    exists t'. eexists. split; [exact S1|]. split; [eapply plain_more; eauto|].
    intros k. unfold data_at. destruct (str_eqb (wkey h p) k) eqn:Ek.
    + apply str_eqb_eq in Ek. subst k. rewrite G1. unfold wattr, fresh_attr. now destruct (t_get t (wkey h p)).
    + assert (Hk : k <> wkey h p) by (intros ->; rewrite str_eqb_refl in Ek; discriminate).
      rewrite <- (A k). unfold data_at. destruct (t_get t k) as [a|] eqn:G; [now rewrite (F1 k a Hk G)|].
      now destruct (N1 k Hk G) as [-> | ->].
  - intros (Hd & Hm & Hne & C). destruct (remove_spec D rf h t p R Hd Hm) as (t' & E & G).
    assert (S1 : t_step (S rf) h t (ORemove p) = Ok (t', RBool (match target (hdelim h) t (runes (full h p)) with Some _ => true | None => false end))).
    { cbn [t_step]. now rewrite E. }
    exists t'. eexists. split; [exact S1|]. split.
    + eapply plain_more; eauto. intros d _. exact I.
    + eapply target_data; eauto. intros X. apply Hne. now apply runes_nil_iff.
Qed.

(** the store is the map of its history *)
Theorem r_history D rf l : forall t f, plain_reach D t -> agree t f -> r_all D f l ->
  exists t' outs, t_run (S rf) (map r_call l) t = Ok (t', outs) /\ plain_reach D t' /\ agree t' (fold_left r_eff l f).
Proof.
  induction l as [|o l IH]; intros t f R A H; cbn [map t_run fold_left].
  - exists t, []. auto.
  - destruct H as [H1 H2]. destruct (r_step D rf t f o R A H1) as (t1 & r & E & R1 & A1).
    destruct (IH t1 _ R1 A1 H2) as (t2 & outs & E2 & R2 & A2).
    exists t2. eexists. destruct (r_call o) as [h oo]. cbn [fst snd] in E. rewrite E. cbn [bind]. rewrite E2. cbn [bind].
    split; [reflexivity|]. auto.
Qed.
Lemma agree_new : agree newTrie (fun _ => None).
Proof. intros k. unfold data_at. vm_compute. destruct k; reflexivity. Qed.

(** reading the map back *)
Theorem r_read D rf t f h p v : plain_reach D t -> agree t f -> D (hdelim h) -> blank_free (full h p) -> f (wkey h p) = Some v ->
  exists q, Query (S rf) h t p = Ok q /\ q_data q = v.
Proof.
  intros R A Hd B F. rewrite <- A in F. unfold wkey, data_at in F. rewrite (blank_free_replace _ B) in F.
  destruct (t_get t (runes (full h p))) as [a|] eqn:G; [|discriminate]. destruct (a_has a) eqn:Ha; [|discriminate].
  injection F as <-. destruct (query_present D rf h t p a R Hd G) as (q & E & Q & _). exists q. rewrite Ha in Q. auto.
Qed.

(** when no key in use begins with another one a removal is of the key only *)
Definition antichain (K : skey -> Prop) : Prop := forall a b, K a -> K b -> has_prefix a b = true -> a = b.
Definition r_keys (l : list rop) : list skey :=
  map (fun o => match o with RSet h p _ => wkey h p | RRem h p => runes (full h p) end) l.
(** the last operation on the key decides *)
Fixpoint r_last (l : list rop) (k : skey) (cur : option gval) : option gval :=
  match l with
  | [] => cur
  | RSet h p v :: r => r_last r k (if str_eqb (wkey h p) k then Some v else cur)
  | RRem h p :: r => r_last r k (if str_eqb (runes (full h p)) k then None else cur)
  end.
Definition r_plain (D : rune -> Prop) (o : rop) : Prop :=
  match o with
  | RSet h p v => D (hdelim h) /\ op_plain D (full h) (OSet p v)
  | RRem h p => D (hdelim h) /\ hmode h <> ModeUp /\ full h p <> []
  end.
Lemma r_chain D K l : antichain K -> forall f, (forall k, f k <> None -> K k) -> Forall K (r_keys l) -> Forall (r_plain D) l ->
  r_all D f l /\ (forall k, fold_left r_eff l f k = r_last l k (f k)).
Proof.
  intros AC. induction l as [|o l IH]; intros f Hf HK HP; [split; [exact I|auto]|].
  cbn [r_keys map] in HK. inversion HK as [|? ? K1 K2]; subst. inversion HP as [|? ? P1 P2]; subst.
  assert (Hf' : forall k, r_eff f o k <> None -> K k).
  { intros k. destruct o as [h p v|h p]; cbn [r_eff].
    - destruct (str_eqb (wkey h p) k) eqn:Ek; auto. apply str_eqb_eq in Ek. now subst.
    - destruct (has_prefix (runes (full h p)) k); [congruence|auto]. }
  destruct (IH (r_eff f o) Hf' K2 P2) as [I1 I2]. split.
  - split; auto. destruct o as [h p v|h p]; cbn [r_ok r_plain] in *; auto.
    destruct P1 as (Hd & Hm & Hne). split; auto. split; auto. split; auto.
    destruct (f (runes (full h p))) eqn:Fp; [left; discriminate|right].
    intros k Hk. destruct (has_prefix (runes (full h p)) k) eqn:Hp; auto.
    pose proof (AC _ _ K1 (Hf k Hk) Hp). subst. congruence.
  - intros k. cbn [fold_left]. rewrite I2. destruct o as [h p v|h p]; cbn [r_eff r_last]; auto. f_equal.
    destruct (str_eqb (runes (full h p)) k) eqn:Ek.
    + apply str_eqb_eq in Ek. subst. replace (has_prefix _ _) with true; auto. symmetry.
      rewrite <- (app_nil_r (runes (full h p))) at 2. apply has_prefix_app.
    + destruct (has_prefix (runes (full h p)) k) eqn:Hp; auto. destruct (f k) eqn:Fk; auto.
      assert (Kk : K k) by (apply Hf; congruence). pose proof (AC _ _ K1 Kk Hp). subst.
      rewrite str_eqb_refl in Ek. discriminate.
Qed.
Theorem r_last_op D rf K l : antichain K -> Forall K (r_keys l) -> Forall (r_plain D) l ->
  exists t outs, t_run (S rf) (map r_call l) newTrie = Ok (t, outs) /\ plain_reach D t /\
    forall k, data_at t k = r_last l k None.
Proof.
  intros AC HK HP. destruct (r_chain D K l AC (fun _ => None) (fun k H => False_ind _ (H eq_refl)) HK HP) as [A1 A2].
  destruct (r_history D rf l newTrie (fun _ => None) (plain_new D) agree_new A1) as (t & outs & E & R & A).
  exists t, outs. split; auto. split; auto. intros k. rewrite A. apply A2.
Qed.

(** ** a store that watches consul *)
Lemma holds_data L t t' : holds_after L t t' ->
  forall k, data_at t' k = match assoc_last L k None with Some v => Some v | None => data_at t k end.
Proof.
  intros H k. specialize (H k). unfold data_at. destruct (assoc_last L k None) as [v|].
  - destruct H as (a & -> & <- & ->). reflexivity.
  - destruct (t_get t k) as [a|]; [now rewrite H|]. now destruct H as [-> | ->].
Qed.
Lemma removals_data d kvs : forall t P, removals d kvs t P ->
  (forall w, In w kvs -> w <> [] /\ data_at t w <> None) ->
  (forall a b, In a kvs -> In b kvs -> has_prefix a b = true -> a = b) -> NoDup kvs ->
  exists t', P t' /\ forall x, data_at t' x = if existsb (fun w => has_prefix w x) kvs then None else data_at t x.
Proof.
  induction kvs as [|w kvs IH]; intros t P H HD AC ND; cbn [removals] in H.
  - exists t. auto.
  - destruct H as (t1 & G & H). inversion ND as [|? ? N1 N2]; subst.
    destruct (HD w (or_introl eq_refl)) as [Hw Dw].
    pose proof (target_data d t w (data_at t) Hw (fun k => eq_refl) (or_introl Dw) t1 G) as A1.
    destruct (IH t1 P H) as (t' & Pt & X); auto.
    + intros w' Hin. destruct (HD w' (or_intror Hin)) as [E1 E2]. split; auto. rewrite A1.
      destruct (has_prefix w w') eqn:Hp; auto. exfalso. apply N1.
      rewrite (AC w w'); cbn; auto.
    + intros a b Ha Hb. apply AC; cbn; auto.
    + exists t'. split; auto. intros x. rewrite X, A1. cbn [existsb].
      destruct (has_prefix w x); cbn [orb]; [|reflexivity].
      match goal with |- context [if ?b then _ else _] => now destruct b end.
Qed.

Lemma existsb_map' {A B} (g : A -> B) f l : existsb f (map g l) = existsb (fun x => f (g x)) l.
Proof. induction l as [|x l IH]; cbn; [auto|]. now rewrite IH. Qed.

Section Replica.
Variable D : rune -> Prop.
Variable rf : nat.
Variable st : store.
Variable o : nkopts.
Variable bytes : gostring -> gval.
(** where the key of consul is kept *)
Definition place (k : gostring) : skey := wkey (so_h st) (NormalizeKey o k).
(** the keys of consul that may occur: ordinary ones, and no place begins with another one *)
Definition keyspace (K : gostring -> Prop) : Prop :=
  (forall a, K a -> full (so_h st) (NormalizeKey o a) <> [] /\ blank_free (full (so_h st) (NormalizeKey o a)) /\
                    forall d, D d -> plain d (place a)) /\
  (forall a b, K a -> K b -> has_prefix (place a) (place b) = true -> a = b).
(** the store holds what consul holds, as a string or as bytes *)
Definition replica (K : gostring -> Prop) (t : tr) (w : list kvpair) : Prop :=
  forall k, K k -> match kvget w k with
                   | Some p => data_at t (place k) = Some (GStr (kv_val p)) \/ data_at t (place k) = Some (bytes (kv_val p))
                   | None => data_at t (place k) = None
                   end.
(** what is not at or below a place of consul's *)
Definition others (K : gostring -> Prop) (t t' : tr) : Prop :=
  forall k, (forall a, K a -> has_prefix (place a) k = false) -> data_at t' k = data_at t k.

Hypothesis Hd : D (hdelim (so_h st)).
Hypothesis Hm : hmode (so_h st) <> ModeUp.

Lemma place_full K a : keyspace K -> K a -> place a = runes (full (so_h st) (NormalizeKey o a)) /\ place a <> [].
Proof.
  intros [H _] Ka. destruct (H a Ka) as (H1 & H2 & _). unfold place, wkey. rewrite (blank_free_replace _ H2).
  split; auto. intros E. apply H1. now apply runes_nil_iff.
Qed.
Lemma prefix_self (a : skey) : has_prefix a a = true.
Proof. rewrite <- (app_nil_r a) at 2. apply has_prefix_app. Qed.
Lemma ext_set K t k v c : keyspace K -> K k -> plain_reach D t -> c_create c = true \/ c_write c = true ->
  c_pairs c = [(NormalizeKey o k, v)] ->
  exists t' e, applyExternalChanges (S rf) st (EvPtr c) false t = Ok (t', e) /\ plain_reach D t' /\
    forall x, data_at t' x = if str_eqb (place k) x then Some v else data_at t x.
Proof.
  intros KS Kk R C P. destruct (change_sets (S rf) st c t (plain_reach_reached D t R) C) as (t' & e & E & _ & H & _).
  exists t', e. split; auto. split.
  - unfold applyExternalChanges, applyChanges in E; cbn [as_Change] in E.
    replace (c_create c || c_write c) with true in E by (destruct C as [-> | ->]; rewrite ?orb_true_r; reflexivity).
    rewrite apply_sets_wrun in E. refine (wrun_plain D _ t R _ t' e E). rewrite P. constructor; [|constructor].
    split; auto. destruct KS as [KS _]. destruct (KS k Kk) as (_ & _ & Pl). exact Pl.
  - intros x. rewrite (holds_data _ _ _ H x), P. cbn [map assoc_last skv fst snd]. fold (wkey (so_h st) (NormalizeKey o k)).
    fold (place k). now destruct (str_eqb (place k) x).
Qed.
Lemma ext_remove K t ks c : keyspace K -> Forall K ks -> NoDup ks -> plain_reach D t ->
  c_create c = false -> c_write c = false -> c_remove c = true ->
  map fst (c_pairs c) = map (NormalizeKey o) ks -> (forall k, In k ks -> data_at t (place k) <> None) ->
  exists t' e, applyExternalChanges (S rf) st (EvPtr c) false t = Ok (t', e) /\ plain_reach D t' /\
    forall x, data_at t' x = if existsb (fun k => has_prefix (place k) x) ks then None else data_at t x.
Proof.
  intros KS FK ND R C1 C2 C3 P HD. destruct (change_removes D rf st c t R Hd Hm C1 C2 C3) as (t' & e & E & R' & RM).
  exists t', e. split; auto. split; auto. rewrite Forall_forall in FK.
  assert (M : map (fun kv => runes (full (so_h st) (fst kv))) (c_pairs c) = map place ks).
  { rewrite <- (map_map fst (fun x => runes (full (so_h st) x))), P, map_map. apply map_ext_in.
    intros a Ha. symmetry. apply (place_full K a KS (FK a Ha)). }
  rewrite M in RM. clear M. apply removals_data in RM.
  - destruct RM as (t1 & <- & X). intros x. rewrite X, existsb_map'. reflexivity.
  - intros w Hw. apply in_map_iff in Hw. destruct Hw as (k & <- & Hk). split; auto. apply (place_full K k KS (FK k Hk)).
  - intros a b Ha Hb Hp. apply in_map_iff in Ha, Hb. destruct Ha as (x & <- & Hx), Hb as (y & <- & Hy).
    f_equal. destruct KS as [_ KS]. apply KS; auto.
  - assert (I : forall x y, In x ks -> In y ks -> place x = place y -> x = y).
    { intros x y Hx Hy E1. destruct KS as [_ KS]. apply KS; auto. rewrite E1. apply prefix_self. }
    clear - ND I. induction ks as [|k ks IH]; [constructor|]. inversion ND; subst. cbn. constructor.
    + intros Hin. apply in_map_iff in Hin. destruct Hin as (y & Ey & Hy). apply I in Ey; cbn; auto. now subst.
    + apply IH; auto. intros x y Hx Hy. apply I; cbn; auto.
Qed.

Definition op_keys (K : gostring -> Prop) (op : kvop) : Prop := match op with KPut k _ => K k | KDel _ => True end.
Theorem consul_store K w cur s t op idx :
  keyspace K -> plain_reach D t -> kv_world w cur -> (cur < idx)%N -> WatchProofs.known s = Some w ->
  Forall K (map kv_key w) -> op_keys K op -> replica K t w ->
  exists s' t' e, consul_handle (S rf) st o bytes s t (kv_step w op idx) idx = Ok (s', t', e) /\
    WatchProofs.known s' = Some (kv_step w op idx) /\ kv_world (kv_step w op idx) idx /\
    Forall K (map kv_key (kv_step w op idx)) /\
    plain_reach D t' /\ replica K t' (kv_step w op idx) /\ others K t t'.
Proof.
  intros KS R W L Kn FK OK RP.
  destruct (consul_follows w cur s (fun k => option_map kv_val (kvget w k)) op idx W L Kn (fun k => eq_refl))
    as (s' & o1 & ps & E & K' & W' & _ & X).
  assert (FK' : Forall K (map kv_key (kv_step w op idx))).
  { rewrite Forall_forall in *. intros k Hk. apply in_map_iff in Hk. destruct Hk as (p & <- & Hp).
    destruct op as [k v|ks]; cbn [kv_step op_keys] in *.
    - unfold kv_put in Hp. destruct (kvget w k).
      + apply in_map_iff in Hp. destruct Hp as (q & Eq & Hq). destruct (str_eqb (kv_key q) k); subst p; auto. apply FK. now apply in_map.
      + apply in_app_or in Hp. destruct Hp as [Hp|[<-|[]]]; auto. apply FK. now apply in_map.
    - apply filter_In in Hp. apply FK. apply in_map. tauto. }
  unfold consul_handle. rewrite E. cbn [bind]. destruct op as [k v|ks]; cbn [op_keys] in OK.
  - destruct X as [Op Ep]. destruct ps as [|p [|? ?]]; try discriminate. injection Ep as Ek Ev.
    destruct (ext_set K t k (bytes v) (consul_change o bytes o1 [p]) KS OK R) as (t' & e & E' & R' & G).
    { destruct Op as [[_ ->]|[_ ->]]; [left|right]; reflexivity. }
    { cbn. now rewrite Ek, Ev. }
    exists s', t', e. rewrite E'. cbn [bind]. repeat (split; auto).
    + intros k' Kk'. rewrite G. pose proof (kvget_put w k v idx k') as GP. cbn [kv_step].
      destruct (str_eqb k k') eqn:Q.
      * apply str_eqb_eq in Q. subst k'. rewrite str_eqb_refl. destruct (kvget (kv_put w k v idx) k); [|discriminate].
        injection GP as ->. auto.
      * replace (str_eqb (place k) (place k')) with false.
        { specialize (RP k' Kk'). destruct (kvget w k'), (kvget (kv_put w k v idx) k'); try discriminate; auto. injection GP as ->. auto. }
        symmetry. apply not_true_iff_false. intros Q'. apply str_eqb_eq in Q'.
        destruct KS as [_ KS]. rewrite (KS k k') in Q; [now rewrite str_eqb_refl in Q|auto|auto|]. rewrite Q'. apply prefix_self.
    + intros x Hx. rewrite G. destruct (str_eqb (place k) x) eqn:Q; auto. apply str_eqb_eq in Q. subst x.
      specialize (Hx k OK). rewrite prefix_self in Hx. discriminate.
  - destruct X as [-> Ep].
    assert (FW : forall p, In p ps -> In p w /\ existsb (str_eqb (kv_key p)) ks = true) by (intros p Hp; rewrite Ep in Hp; now apply filter_In in Hp).
    destruct W as [NDw Fw].
    destruct (ext_remove K t (map kv_key ps) (consul_change o bytes OpRemove ps) KS) as (t' & e & E' & R' & G); auto.
    { rewrite Forall_forall in *. intros k Hk. apply in_map_iff in Hk. destruct Hk as (p & <- & Hp). apply FK, in_map. now apply FW. }
    { rewrite Ep. clear - NDw. induction w as [|p w IH]; [constructor|]. inversion NDw; subst. cbn [filter].
      destruct (existsb (str_eqb (kv_key p)) ks); auto. cbn [map]. constructor; auto. intros Y. apply H1. apply in_map_iff in Y.
      destruct Y as (q & Eq & Hq). apply filter_In in Hq. apply in_map_iff. exists q. tauto. }
    { cbn. rewrite !map_map. reflexivity. }
    { intros k Hk. apply in_map_iff in Hk. destruct Hk as (p & <- & Hp). destruct (FW p Hp) as [Hw _].
      assert (Kp : K (kv_key p)) by (rewrite Forall_forall in FK; apply FK; now apply in_map).
      specialize (RP _ Kp). destruct (kvget w (kv_key p)) eqn:Gp; [destruct RP as [-> | ->]; discriminate|].
      apply kvget_none in Gp. exfalso. apply Gp. now apply in_map. }
    exists s', t', e. rewrite E'. cbn [bind]. repeat (split; auto).
    + intros k Kk. rewrite G.
      assert (EX : existsb (fun k' => has_prefix (place k') (place k)) (map kv_key ps) = existsb (str_eqb k) (map kv_key ps)).
      { assert (KP : Forall K (map kv_key ps)).
        { rewrite Forall_forall in *. intros k' Hk. apply in_map_iff in Hk. destruct Hk as (p & <- & Hp). apply FK, in_map. now apply FW. }
        clear - KS KP Kk. induction (map kv_key ps) as [|x l IH]; auto. inversion KP; subst. cbn. rewrite IH; auto. f_equal.
        destruct (str_eqb k x) eqn:Q; [apply str_eqb_eq in Q; subst; apply prefix_self|].
        destruct (has_prefix (place x) (place k)) eqn:Hp; auto. destruct KS as [_ KS]. rewrite (KS x k) in Q; auto.
        now rewrite str_eqb_refl in Q. }
      rewrite EX. specialize (RP k Kk).
      assert (GV : kvget (kv_step w (KDel ks) idx) k = if existsb (str_eqb k) (map kv_key ps) then None else kvget w k).
      { rewrite Ep. cbn [kv_step]. clear - NDw. unfold kvget. induction w as [|p w IH]; [reflexivity|]. inversion NDw as [|? ? N1 N2]; subst.
        cbn [filter find]. destruct (existsb (str_eqb (kv_key p)) ks) eqn:X; cbn [negb].
        - cbn [map existsb]. rewrite IH; auto. destruct (str_eqb k (kv_key p)) eqn:Q; cbn [orb].
          + apply str_eqb_eq in Q. subst k.
            match goal with |- (if ?b then _ else _) = _ => destruct b end; auto. destruct (find (fun p0 => str_eqb (kv_key p0) (kv_key p)) w) as [q|] eqn:Fq; auto.
            apply find_some in Fq. destruct Fq as [F1 F2]. apply str_eqb_eq in F2. exfalso. apply N1. rewrite <- F2. now apply in_map.
          + replace (str_eqb (kv_key p) k) with false; auto. symmetry. apply not_true_iff_false. intros Y. apply str_eqb_eq in Y.
            subst k. now rewrite str_eqb_refl in Q.
        - cbn [find]. destruct (str_eqb (kv_key p) k) eqn:Q; [|now apply IH].
          apply str_eqb_eq in Q. subst k. match goal with |- _ = (if ?b then _ else _) => destruct b eqn:Y end; auto.
          apply existsb_exists in Y. destruct Y as (x & Hx & Ex). apply str_eqb_eq in Ex. subst x.
          apply in_map_iff in Hx. destruct Hx as (q & Eq & Hq). apply filter_In in Hq. destruct Hq as [Hq1 Hq2].
          rewrite Eq, X in Hq2. discriminate. }
      rewrite GV. destruct (existsb (str_eqb k) (map kv_key ps)); auto.
    + intros x Hx. rewrite G. match goal with |- (if ?b then _ else _) = _ => destruct b eqn:Y end; auto. apply existsb_exists in Y. destruct Y as (k & Hk & Hp).
      rewrite Hx in Hp; [discriminate|]. apply in_map_iff in Hk. destruct Hk as (p & <- & Hp'). rewrite Forall_forall in FK. apply FK, in_map. now apply FW.
Qed.

(** a whole history, one event per transaction *)
Fixpoint consul_run (s : chg) (t : tr) (w : list kvpair) (h : list (kvop * N)) : res (chg * tr * list kvpair) :=
  match h with
  | [] => Ok (s, t, w)
  | (op, idx) :: r =>
      do (s', t', _) <- consul_handle (S rf) st o bytes s t (kv_step w op idx) idx;
      consul_run s' t' (kv_step w op idx) r
  end.
Theorem consul_store_history K h : forall w cur s t,
  keyspace K -> plain_reach D t -> kv_world w cur -> growing cur h -> WatchProofs.known s = Some w ->
  Forall K (map kv_key w) -> Forall (fun e => op_keys K (fst e)) h -> replica K t w ->
  exists s' t' w', consul_run s t w h = Ok (s', t', w') /\ w' = fold_left (fun w e => kv_step w (fst e) (snd e)) h w /\
    plain_reach D t' /\ replica K t' w' /\ others K t t'.
Proof.
  induction h as [|[op idx] h IH]; intros w cur s t KS R W G Kn FK OK RP.
  - exists s, t, w. split; [reflexivity|]. split; [reflexivity|]. split; auto. split; auto. intros k _. reflexivity.
  - destruct G as [L G]. inversion OK as [|? ? O1 O2]; subst. cbn [fst] in O1.
    destruct (consul_store K w cur s t op idx KS R W L Kn FK O1 RP) as (s1 & t1 & e & E & K1 & W1 & FK1 & R1 & RP1 & OT1).
    destruct (IH _ idx s1 t1 KS R1 W1 G K1 FK1 O2 RP1) as (s2 & t2 & w2 & E2 & Ew & R2 & RP2 & OT2).
    exists s2, t2, w2. cbn [consul_run]. rewrite E. cbn [bind]. repeat (split; auto).
    intros k Hk. rewrite (OT2 k Hk). now apply OT1.
Qed.

(** several pairs written at once *)
Lemma ext_sets K t ps op : keyspace K -> Forall K (map kv_key ps) -> plain_reach D t -> op = OpCreate \/ op = OpWrite ->
  exists t' e, applyExternalChanges (S rf) st (EvPtr (consul_change o bytes op ps)) false t = Ok (t', e) /\ plain_reach D t' /\
    forall x, data_at t' x = match assoc_last (map (fun p => (place (kv_key p), bytes (kv_val p))) ps) x None with
                             | Some v => Some v | None => data_at t x end.
Proof.
  intros KS FK R C. set (c := consul_change o bytes op ps).
  assert (C' : c_create c = true \/ c_write c = true) by (destruct C as [-> | ->]; [left|right]; reflexivity).
  destruct (change_sets (S rf) st c t (plain_reach_reached D t R) C') as (t' & e & E & _ & H & _).
  exists t', e. split; auto. split.
  - unfold applyExternalChanges, applyChanges in E; cbn [as_Change] in E.
    replace (c_create c || c_write c) with true in E by (destruct C' as [-> | ->]; rewrite ?orb_true_r; reflexivity).
    rewrite apply_sets_wrun in E. refine (wrun_plain D _ t R _ t' e E). rewrite Forall_forall in *.
    intros w Hw. apply in_map_iff in Hw. destruct Hw as (kv & <- & Hkv).
    unfold c, consul_change in Hkv. cbn [c_pairs] in Hkv. apply in_map_iff in Hkv. destruct Hkv as (p & <- & Hp).
    split; auto. destruct KS as [KS _]. destruct (KS (kv_key p)) as (_ & _ & Pl); [apply FK; now apply in_map|]. exact Pl.
  - intros x. rewrite (holds_data _ _ _ H x). unfold c, consul_change. cbn [c_pairs]. rewrite map_map. reflexivity.
Qed.
Lemma assoc_last_in L k : forall cur v, assoc_last L k cur = Some v -> In (k, v) L \/ (cur = Some v /\ ~ In k (map fst L)).
Proof.
  induction L as [|[k' v'] L IH]; intros cur v H; cbn [assoc_last] in H; [auto|].
  destruct (IH _ _ H) as [X|[X Y]]; [left; cbn; auto|]. destruct (str_eqb k' k) eqn:E.
  - apply str_eqb_eq in E. injection X as <-. subst. left. cbn. auto.
  - right. split; auto. cbn. intros [Z|Z]; auto. subst. now rewrite str_eqb_refl in E.
Qed.
(** the first event after New *)
Theorem consul_store_first K w cur t idx :
  keyspace K -> plain_reach D t -> kv_world w cur -> Forall K (map kv_key w) -> replica K t w ->
  exists s' t' e, consul_handle (S rf) st o bytes chg0 t w idx = Ok (s', t', e) /\
    WatchProofs.known s' = Some w /\ plain_reach D t' /\ replica K t' w /\ others K t t'.
Proof.
  intros KS R W FK RP. unfold consul_handle.
  destruct (consul_event_spec chg0 [] w idx eq_refl) as (s' & V & [(NE & op & Op & E)|(NE & E)]); rewrite E; cbn [bind];
    assert (Kn : WatchProofs.known s' = Some w) by (unfold WatchProofs.known; now rewrite V).
  - set (ps := filter (changed idx) w) in *.
    assert (IN : forall p, In p ps -> In p w) by (intros p Hp; now apply filter_In in Hp).
    assert (FP : Forall K (map kv_key ps)).
    { rewrite Forall_forall in *. intros k Hk. apply in_map_iff in Hk. destruct Hk as (p & <- & Hp). apply FK, in_map. auto. }
    destruct (ext_sets K t ps op KS FP R Op) as (t' & e & E' & R' & G). exists s', t', e. rewrite E'. cbn [bind].
    split; auto. split; auto. split; auto.
    assert (AL : forall x v, assoc_last (map (fun p => (place (kv_key p), bytes (kv_val p))) ps) x None = Some v ->
                   exists p, In p w /\ K (kv_key p) /\ x = place (kv_key p) /\ v = bytes (kv_val p)).
    { intros x v Hx. destruct (assoc_last_in _ _ _ _ Hx) as [Hin|[? _]]; [|discriminate].
      apply in_map_iff in Hin. destruct Hin as (p & Ep & Hp). injection Ep as E1 E2. exists p.
      split; auto. split; [|auto]. rewrite Forall_forall in FP. apply FP. now apply in_map. }
    split.
    + intros k Kk. rewrite G. destruct (assoc_last _ (place k) None) as [v|] eqn:A; [|now apply RP].
      destruct (AL _ _ A) as (p & Hp & Kp & Ek & ->). destruct KS as [_ KS].
      assert (k = kv_key p) as -> by (apply KS; auto; rewrite Ek; apply prefix_self).
      destruct W as [ND _]. assert (Gp : kvget w (kv_key p) = Some p).
      { clear - ND Hp. unfold kvget. induction w as [|q w IH]; [destruct Hp|]. inversion ND; subst. cbn [find].
        destruct (str_eqb (kv_key q) (kv_key p)) eqn:Q.
        - apply str_eqb_eq in Q. destruct Hp as [->|Hp]; auto. exfalso. apply H1. rewrite Q. now apply in_map.
        - destruct Hp as [->|Hp]; [now rewrite str_eqb_refl in Q|]. auto. }
      rewrite Gp. auto.
    + intros x Hx. rewrite G. destruct (assoc_last _ x None) as [v|] eqn:A; auto.
      destruct (AL _ _ A) as (p & Hp & Kp & -> & ->). specialize (Hx _ Kp). rewrite prefix_self in Hx. discriminate.
  - exists s', t. eexists. split; [reflexivity|]. split; auto. split; auto. split; [exact RP|]. intros k _. reflexivity.
Qed.

(** ** a store that watches etcd *)
(** the history of etcd: a key is written, or removed; the revisions *)
Inductive eop := EPut (k v : gostring) | EDel (k : gostring).
(** the event sent for an operation at revision [rev]: of a key that exists, created at [c], or not; the
    removal of a key that does not exist sends none *)
Definition eev_of (w : list kvpair) (op : eop) (rev : N) : list eev :=
  match op with
  | EPut k v => [EEv true k v (match kvget w k with Some p => kv_create p | None => rev end) rev]
  | EDel k => match kvget w k with Some _ => [EEv false k [] 0 rev] | None => [] end
  end.
Definition etcd_step (w : list kvpair) (op : eop) (rev : N) : list kvpair :=
  match op with EPut k v => kv_put w k v rev | EDel k => kv_step w (KDel [k]) rev end.
Fixpoint etcd_world (w : list kvpair) (h : list (eop * N)) : list kvpair * list eev :=
  match h with
  | [] => (w, [])
  | (op, rev) :: r => let (w', es) := etcd_world (etcd_step w op rev) r in (w', eev_of w op rev ++ es)
  end.
Fixpoint revisions (cur : N) (h : list (eop * N)) : Prop :=
  match h with [] => True | (_, rev) :: r => (cur < rev)%N /\ revisions rev r end.
Definition eop_key (op : eop) : gostring := match op with EPut k _ => k | EDel k => k end.

Lemma replica_put K t t' w k v rev : keyspace K -> K k -> replica K t w ->
  (forall x, data_at t' x = if str_eqb (place k) x then Some (GStr v) else data_at t x) ->
  replica K t' (kv_put w k v rev) /\ others K t t'.
Proof.
  intros KS OK RP G. split.
  - intros k' Kk'. rewrite G. pose proof (kvget_put w k v rev k') as GP.
    destruct (str_eqb k k') eqn:Q.
    + apply str_eqb_eq in Q. subst k'. rewrite str_eqb_refl. destruct (kvget (kv_put w k v rev) k); [|discriminate].
      injection GP as ->. auto.
    + replace (str_eqb (place k) (place k')) with false.
      { specialize (RP k' Kk'). destruct (kvget w k'), (kvget (kv_put w k v rev) k'); try discriminate; auto. injection GP as ->. auto. }
      symmetry. apply not_true_iff_false. intros Q'. apply str_eqb_eq in Q'.
      destruct KS as [_ KS]. rewrite (KS k k') in Q; [now rewrite str_eqb_refl in Q|auto|auto|]. rewrite Q'. apply prefix_self.
  - intros x Hx. rewrite G. destruct (str_eqb (place k) x) eqn:Q; auto. apply str_eqb_eq in Q. subst x.
    specialize (Hx k OK). rewrite prefix_self in Hx. discriminate.
Qed.
Lemma kvget_del w k rev k' : kvget (kv_step w (KDel [k]) rev) k' = if str_eqb k' k then None else kvget w k'.
Proof.
  cbn [kv_step]. unfold kvget. induction w as [|p w IH]; [now destruct (str_eqb k' k)|]. cbn [filter find].
  replace (existsb (str_eqb (kv_key p)) [k]) with (str_eqb (kv_key p) k) by (cbn; now rewrite orb_false_r). destruct (str_eqb (kv_key p) k) eqn:P; cbn [negb].
  - rewrite IH. apply str_eqb_eq in P. destruct (str_eqb k' k) eqn:Q; auto. rewrite P.
    replace (str_eqb k k') with false; auto. symmetry. apply not_true_iff_false. intros X. apply str_eqb_eq in X. subst.
    now rewrite str_eqb_refl in Q.
  - cbn [find]. destruct (str_eqb (kv_key p) k') eqn:Q; [|exact IH]. apply str_eqb_eq in Q. subst k'. now rewrite P.
Qed.
Theorem etcd_store_history K h : forall w cur t,
  keyspace K -> plain_reach D t -> kv_world w cur -> revisions cur h ->
  Forall (fun e => K (eop_key (fst e))) h -> replica K t w ->
  exists t' e, etcd_handles (S rf) st o t (snd (etcd_world w h)) = Ok (t', e) /\
    plain_reach D t' /\ replica K t' (fst (etcd_world w h)) /\ others K t t'.
Proof.
  induction h as [|[op rev] h IH]; intros w cur t KS R W G OK RP.
  - exists t, []. split; [reflexivity|]. split; auto. split; auto. intros k _. reflexivity.
  - destruct G as [L G]. inversion OK as [|? ? O1 O2]; subst. cbn [fst] in O1. cbn [etcd_world].
    assert (W' : kv_world (etcd_step w op rev) rev) by (destruct op; [apply (kv_put_world w cur)|apply (kv_step_world w cur)]; auto).
    assert (ST : exists t1 e1, etcd_handles (S rf) st o t (eev_of w op rev) = Ok (t1, e1) /\ plain_reach D t1 /\
                   replica K t1 (etcd_step w op rev) /\ others K t t1).
    { destruct op as [k v|k]; cbn [eop_key eev_of etcd_step] in *.
      - set (e := EEv true k v _ rev).
        destruct (ext_set K t k (GStr v) (etcd_change o e) KS O1 R) as (t1 & e1 & E1 & R1 & G1).
        { destruct (etcd_op_spec e) as (H1 & H2 & _); [discriminate|]. unfold etcd_change. cbn [c_create c_write]. rewrite H1, H2.
          cbn [e ee_put andb]. destruct (ee_create e =? ee_mod e)%N; auto. }
        { reflexivity. }
        exists t1. eexists. cbn [etcd_handles]. unfold etcd_handle. rewrite E1. cbn [bind]. split; [reflexivity|]. split; auto.
        now apply replica_put.
      - destruct (kvget w k) as [p|] eqn:Gk.
        + set (e := EEv false k [] 0 rev).
          destruct (ext_remove K t [k] (etcd_change o e) KS) as (t1 & e1 & E1 & R1 & G1); auto.
          { repeat constructor. intros []. }
          { destruct (etcd_op_spec e) as (H1 & H2 & _); [cbn; lia|]. unfold etcd_change. cbn [c_create]. now rewrite H1. }
          { destruct (etcd_op_spec e) as (H1 & H2 & _); [cbn; lia|]. unfold etcd_change. cbn [c_write]. now rewrite H2. }
          { destruct (etcd_op_spec e) as (H1 & H2 & H3); [cbn; lia|]. unfold etcd_change. cbn [c_remove]. now rewrite H3. }
          { intros k' [<-|[]]. specialize (RP k O1). rewrite Gk in RP. destruct RP as [-> | ->]; discriminate. }
          exists t1. eexists. cbn [etcd_handles]. unfold etcd_handle. rewrite E1. cbn [bind]. split; [reflexivity|]. split; auto.
          cbn [existsb] in G1. split.
          * intros k' Kk'. rewrite kvget_del, G1, orb_false_r. specialize (RP k' Kk'). destruct (str_eqb k' k) eqn:Q.
            { apply str_eqb_eq in Q. subst. now rewrite prefix_self. }
            { destruct (has_prefix (place k) (place k')) eqn:Hp; auto. destruct KS as [_ KS]. rewrite (KS k k') in Q; auto.
              now rewrite str_eqb_refl in Q. }
          * intros x Hx. rewrite G1, (Hx k O1). reflexivity.
        + exists t, []. split; [reflexivity|]. split; auto. split; [|intros x _; reflexivity].
          intros k' Kk'. rewrite kvget_del. specialize (RP k' Kk'). destruct (str_eqb k' k) eqn:Q; auto.
          apply str_eqb_eq in Q. subst. now rewrite Gk in RP. }
    destruct ST as (t1 & e1 & E1 & R1 & RP1 & OT1).
    destruct (IH _ rev t1 KS R1 W' G O2 RP1) as (t2 & e2 & E2 & R2 & RP2 & OT2).
    destruct (etcd_world (etcd_step w op rev) h) as [w' es]. cbn [fst snd] in *.
    assert (AP : forall l1 l2 t, etcd_handles (S rf) st o t (l1 ++ l2) =
      do (t1, e1) <- etcd_handles (S rf) st o t l1; do (t2, e2) <- etcd_handles (S rf) st o t1 l2; Ok (t2, e1 ++ e2)).
    { clear. induction l1 as [|x l1 IH]; intros l2 t; cbn [app etcd_handles bind].
      - destruct (etcd_handles _ _ _ t l2) as [[? ?]| |]; reflexivity.
      - destruct (etcd_handle _ _ _ t x) as [[ta ea]| |]; cbn [bind]; auto. rewrite IH.
        destruct (etcd_handles _ _ _ ta l1) as [[tb eb]| |]; cbn [bind]; auto.
        destruct (etcd_handles _ _ _ tb l2) as [[tc ec]| |]; cbn [bind]; auto. now rewrite app_assoc. }
    rewrite AP, E1. cbn [bind]. rewrite E2. cbn [bind]. exists t2. eexists. split; [reflexivity|]. split; auto. split; auto.
    intros x Hx. rewrite (OT2 x Hx). now apply OT1.
Qed.
End Replica.

(** ** loading from providers whose values are scalars *)
Definition flat_pkgs (d : list (gostring * pkg)) : Prop :=
  Forall (fun e => match p_value (snd e) with GNil | GBool _ | GInt _ | GStr _ | GOther _ => True | _ => False end) d.
Definition at_keys (h : hdl) (d : list (gostring * pkg)) : list (skey * gval) :=
  map (fun e => (wkey h (fst e), p_value (snd e))) d.
Lemma loader_h s os : no_prefix os -> so_h (ld_s (newLoader s os)) = so_h s.
Proof.
  intros H. unfold newLoader. cbn [ld_s].
  assert (X : forall l, so_h (ld_s l) = so_h s -> so_h (ld_s (fold_left apply_lopt os l)) = so_h s).
  { induction H as [|x os Hx _ IH]; intros l H1; cbn [fold_left]; auto. apply IH. destruct x; cbn; auto. destruct Hx. }
  now apply X.
Qed.
Lemma lplaces_flat str ls d : flat_pkgs d -> lplaces str ls (values d) = at_keys (so_h ls) d.
Proof.
  intros H. unfold lplaces, leaves, values, at_keys.
  induction H as [|[k [v ds c g]] d Hv _ IH]; [reflexivity|]. cbn [p_value snd fst map flat_map] in *.
  rewrite map_app, IH. unfold wkey. rewrite full_join. destruct v; try destruct Hv; reflexivity.
Qed.
Theorem load_flat str json s t os pv d :
  reached t -> so_loading s = false -> no_prefix os -> ld_pv (the_loader s os) = Some pv -> pv_read pv = (Some d, None) -> flat_pkgs d ->
  exists r, Load str json s t os = Ok r /\ lr_err r = None /\
    forall k, data_at (lr_t r) k = match assoc_last (at_keys (so_h s) d) k None with Some v => Some v | None => data_at t k end.
Proof.
  intros R HL NP HP HR F. destruct (load_read str json s t os pv d R HL HP HR) as (r & E & E1 & _ & _ & _ & H & _).
  exists r. split; auto. split; auto. intros k. rewrite (holds_data _ _ _ H k), lplaces_flat by auto.
  unfold the_loader. now rewrite loader_h.
Qed.
(** distinct places: every entry is found *)
Lemma assoc_last_nodup L k v : NoDup (map fst L) -> In (k, v) L -> forall cur, assoc_last L k cur = Some v.
Proof.
  induction L as [|[k' v'] L IH]; intros ND Hin cur; [destruct Hin|]. inversion ND as [|? ? N1 N2]; subst. cbn [assoc_last].
  destruct Hin as [E|Hin].
  - injection E as -> ->. rewrite str_eqb_refl. clear IH ND N2. cbn [fst] in N1.
    revert N1. generalize (Some v). induction L as [|[a b] L IH]; intros cur0 N1; auto. cbn [assoc_last]. cbn in N1.
    replace (str_eqb a k) with false; [apply IH; tauto|]. symmetry. apply not_true_iff_false. intros X. apply str_eqb_eq in X. subst. tauto.
  - now apply IH.
Qed.
Lemma assoc_last_out L k : ~ In k (map fst L) -> forall cur, assoc_last L k cur = cur.
Proof.
  induction L as [|[a b] L IH]; intros N cur; auto. cbn in *. replace (str_eqb a k) with false; [apply IH; tauto|].
  symmetry. apply not_true_iff_false. intros X. apply str_eqb_eq in X. subst. tauto.
Qed.
(** loading keeps the reach of ordinary keys *)
Lemma load_reach D str json s t os pv d r :
  plain_reach D t -> D (hdelim (so_h (ld_s (the_loader s os)))) -> so_loading s = false ->
  ld_pv (the_loader s os) = Some pv -> pv_read pv = (Some d, None) ->
  (forall e d', In e (lplaces str (ld_s (the_loader s os)) (values d)) -> D d' -> plain d' (fst e)) ->
  Load str json s t os = Ok r -> plain_reach D (lr_t r).
Proof.
  intros R Hd HL HP HR PL E. unfold Load in E. rewrite HL in E. fold (the_loader s os) in E. unfold tryLoad in E.
  rewrite HP, HR in E. cbn [bind] in E. rewrite loadMapDedicated_wrun in E.
  set (ls := ld_s (the_loader s os)) in *.
  match type of E with context [wrun ?l t] => set (L := l) in * end.
  destruct (wrun L t) as [[t' e]| |] eqn:W; try discriminate. injection E as <-. cbn [lr_t].
  refine (wrun_plain D L t R _ t' e W). subst L. apply Forall_flat_map. apply Forall_forall. intros [k p] Hin. cbn [fst snd].
  apply Forall_forall. intros w Hw. split.
  - apply in_map_iff in Hw. destruct Hw as ([[p' k'] v'] & <- & _). exact Hd.
  - intros d' Dd. apply (PL (wr_key w, wr_v w) d'); auto. unfold lplaces, leaves, values.
    assert (X : In (wr_key w, wr_v w) (map (fun w => (wr_key w, wr_v w))
                 (map (mkw ls true [NSetComment (p_desc p) (p_cmt p); NSetTag (p_tag p)]) (gl str ls (p_value p) (hprefix (so_h ls)) k)))).
    { apply in_map_iff. exists w. split; auto. }
    rewrite gl_placed in X. apply in_map_iff in X. destruct X as (x & <- & Hx). apply in_map.
    apply in_flat_map. exists (k, p_value p). split; [|exact Hx]. apply in_map_iff. exists (k, p). auto.
Qed.
(** a provider with scalars whose keys have different places *)
Theorem load_named str json s t os pv d :
  reached t -> so_loading s = false -> no_prefix os -> ld_pv (the_loader s os) = Some pv -> pv_read pv = (Some d, None) -> flat_pkgs d ->
  NoDup (map (fun e => wkey (so_h s) (fst e)) d) ->
  exists r, Load str json s t os = Ok r /\ lr_err r = None /\
    (forall k p, In (k, p) d -> data_at (lr_t r) (wkey (so_h s) k) = Some (p_value p)) /\
    (forall x, (forall k p, In (k, p) d -> wkey (so_h s) k <> x) -> data_at (lr_t r) x = data_at t x).
Proof.
  intros R HL NP HP HR F ND. destruct (load_flat str json s t os pv d R HL NP HP HR F) as (r & E & E1 & H).
  exists r. split; auto. split; auto. unfold at_keys in H. split.
  - intros k p Hin. rewrite H, (assoc_last_nodup _ _ (p_value p)); auto.
    + rewrite map_map. exact ND.
    + apply in_map_iff. exists (k, p). auto.
  - intros x Hx. rewrite H, assoc_last_out; auto. rewrite map_map. intros X. apply in_map_iff in X.
    destruct X as ([k p] & <- & Hin). now apply (Hx k p Hin).
Qed.

(** ** the environment and the flags *)
Lemma nodup_by {A B} (f : A -> B) l : NoDup l -> (forall x y, In x l -> In y l -> f x = f y -> x = y) -> NoDup (map f l).
Proof.
  induction 1 as [|x l N _ IH]; intros H; cbn; constructor.
  - intros X. apply in_map_iff in X. destruct X as (y & E & Hy). apply N. rewrite (H x y); cbn; auto.
  - apply IH. intros a b Ha Hb. apply H; cbn; auto.
Qed.
Lemma env_loop_shape lower o vec : forall m ks s, env_loop lower o vec m ks = Ok s ->
  NoDup (map fst m) -> (forall k v, In (k, v) m -> exists b, v = GStr b) ->
  NoDup (map fst (e_m s)) /\ forall k v, In (k, v) (e_m s) -> exists b, v = GStr b.
Proof.
  induction vec as [|p vec IH]; intros m ks s E ND F; cbn [env_loop] in E.
  - injection E as <-. auto.
  - destruct (env_entry o p) as [[k v]|]; [|eauto]. destruct (env_key lower o k) as [k'| |]; try discriminate. cbn [bind] in E.
    apply (IH _ _ _ E); [now apply mset_nodup|]. intros x y Hin.
    apply mget_in in Hin; [|now apply mset_nodup]. rewrite mget_mset in Hin. destruct (str_eqb k' x).
    + injection Hin as <-. eauto.
    + apply mget_in in Hin; auto. eauto.
Qed.
Theorem env_store lower str json s t os o vec :
  reached t -> so_loading s = false -> no_prefix os ->
  (forall k v, In (k, v) (taken o vec) -> e_u2d o = true -> bare lower o k <> []) ->
  (forall n n' v v' k k', In (n, v) (taken o vec) -> In (n', v') (taken o vec) -> env_key lower o n = Ok k -> env_key lower o n' = Ok k' ->
     wkey (so_h s) k = wkey (so_h s) k' -> k = k') ->
  exists es, env_prepare lower o vec = Ok es /\
    (ld_pv (the_loader s os) = Some (map_provider (e_m es)) ->
    exists r, Load str json s t os = Ok r /\ lr_err r = None /\
    (forall a n v b k, taken o vec = a ++ (n, v) :: b -> env_key lower o n = Ok k ->
       (forall n' v', In (n', v') b -> env_key lower o n' <> Ok k) -> data_at (lr_t r) (wkey (so_h s) k) = Some (GStr v)) /\
    (forall x, (forall n v k, In (n, v) (taken o vec) -> env_key lower o n = Ok k -> wkey (so_h s) k <> x) -> data_at (lr_t r) x = data_at t x)).
Proof.
  intros R HL NP H INJ. destruct (env_prepare_spec lower o vec H) as (es & E & _ & PM & _ & V).
  exists es. split; auto. intros HP.
  destruct (env_loop_shape lower o vec [] [] es E) as [ND F]; [constructor|intros k v []|].
  assert (KS : forall k v, In (k, v) (e_m es) -> exists n b, v = GStr b /\ In (n, b) (taken o vec) /\ env_key lower o n = Ok k).
  { intros k v Hin. destruct (F k v Hin) as (b & ->). apply mget_in in Hin; auto. apply V in Hin.
    destruct Hin as (a & n & c & Et & En & _). exists n, b. split; auto. split; auto. rewrite Et. apply in_or_app. cbn. auto. }
  assert (FP : flat_pkgs (map (fun e => (fst e, Pkg (snd e) [] [] GNil)) (e_m es))).
  { apply Forall_forall. intros x Hx. apply in_map_iff in Hx. destruct Hx as ([k v] & <- & Hin). cbn.
    destruct (F k v Hin) as (b & ->). exact I. }
  assert (NP' : NoDup (map (fun e => wkey (so_h s) (fst e)) (map (fun e => (fst e, Pkg (snd e) [] [] GNil)) (e_m es)))).
  { rewrite map_map. cbn [fst]. rewrite <- (map_map fst (wkey (so_h s))). apply nodup_by; auto.
    intros x y Hx Hy Q. apply in_map_iff in Hx, Hy. destruct Hx as ([x' vx] & <- & Hx), Hy as ([y' vy] & <- & Hy). cbn [fst] in *.
    destruct (KS _ _ Hx) as (n & bx & _ & Tx & Kx), (KS _ _ Hy) as (n' & b' & _ & Ty & Ky).
    exact (INJ n n' bx b' x' y' Tx Ty Kx Ky Q). }
  destruct (load_named str json s t os (map_provider (e_m es)) _ R HL NP HP eq_refl FP NP') as (r & Er & E1 & G & U).
  exists r. split; auto. split; auto. split.
  - intros a n v b k Et En Hl. apply (G k (Pkg (GStr v) [] [] GNil)). apply in_map_iff. exists (k, GStr v). split; auto.
    apply mget_in; auto. apply V. exists a, n, b. auto.
  - intros x Hx. apply U. intros k p Hin. apply in_map_iff in Hin. destruct Hin as ([k' v] & Q & Hin). injection Q as <- <-.
    destruct (KS _ _ Hin) as (n & bx & _ & Tx & Kx). exact (Hx n bx k' Tx Kx).
Qed.

(** ** consul and etcd: load, then follow *)
(** reading: of the pairs whose keys are the same after normalizing the last one stays *)
Lemma pset_find {A} (m : list (gostring * A)) k v q : find (fun e => str_eqb (fst e) q) (pset m k v) =
  if str_eqb k q then Some (k, v) else find (fun e => str_eqb (fst e) q) m.
Proof.
  induction m as [|[a b] m IH]; cbn [pset find fst]; [now destruct (str_eqb k q)|].
  destruct (str_eqb a k) eqn:E; cbn [find fst].
  - apply str_eqb_eq in E. subst a. now destruct (str_eqb k q).
  - rewrite IH. destruct (str_eqb a q) eqn:Q; auto. destruct (str_eqb k q) eqn:Q'; auto.
    apply str_eqb_eq in Q. apply str_eqb_eq in Q'. subst. now rewrite str_eqb_refl in E.
Qed.
Lemma pset_in {A} (m : list (gostring * A)) k v x : In x (map fst (pset m k v)) -> x = k \/ In x (map fst m).
Proof.
  induction m as [|[a b] m IH]; cbn [pset map fst In]; [intuition|]. destruct (str_eqb a k) eqn:E; cbn [map fst In].
  - apply str_eqb_eq in E. subst. intuition.
  - intros [H|H]; auto. apply IH in H. tauto.
Qed.
Lemma pset_keys {A} (m : list (gostring * A)) k v : NoDup (map fst m) -> NoDup (map fst (pset m k v)).
Proof.
  induction m as [|[a b] m IH]; intros ND; cbn [pset map fst]; [repeat constructor; auto|].
  inversion ND as [|? ? N1 N2]; subst. destruct (str_eqb a k) eqn:E; cbn [map fst].
  - apply str_eqb_eq in E. subst. now constructor.
  - constructor; auto. intros X. apply pset_in in X as [->|X]; [now rewrite str_eqb_refl in E|contradiction].
Qed.
Lemma pset_last {A B} (key : A -> gostring) (val : A -> B) l k :
  let m := fold_left (fun m p => pset m (key p) (val p)) l [] in
  NoDup (map fst m) /\ find (fun e => str_eqb (fst e) k) m =
  option_map (fun p => (k, val p)) (find (fun p => str_eqb (key p) k) (rev l)).
Proof.
  induction l as [|x l IH] using rev_ind; cbn [fold_left rev]; [split; constructor|].
  rewrite fold_left_app, rev_app_distr. cbn [fold_left rev app find]. destruct IH as [I1 I2]. split.
  - now apply pset_keys.
  - rewrite pset_find, I2. destruct (str_eqb (key x) k) eqn:E; auto. apply str_eqb_eq in E. now subst.
Qed.
Theorem consul_read_last o meta w k :
  NoDup (map fst (consul_ReadAll o meta w)) /\
  find (fun e => str_eqb (fst e) k) (consul_ReadAll o meta w) =
  option_map (fun p => (k, Pkg (GStr (kv_val p)) [] [] (meta p))) (find (fun p => str_eqb (NormalizeKey o (kv_key p)) k) (rev w)).
Proof. exact (pset_last (fun p => NormalizeKey o (kv_key p)) (fun p => Pkg (GStr (kv_val p)) [] [] (meta p)) w k). Qed.
Theorem etcd_read_last o kvs k :
  NoDup (map fst (etcd_Read o kvs)) /\
  find (fun e => str_eqb (fst e) k) (etcd_Read o kvs) =
  option_map (fun p => (k, Pkg (GStr (snd p)) [] [] GNil)) (find (fun p => str_eqb (NormalizeKey o (fst p)) k) (rev kvs)).
Proof. exact (pset_last (fun p : gostring * gostring => NormalizeKey o (fst p)) (fun p => Pkg (GStr (snd p)) [] [] GNil) kvs k). Qed.

Lemma pset_fresh {A} (m : list (gostring * A)) k v : ~ In k (map fst m) -> pset m k v = m ++ [(k, v)].
Proof.
  induction m as [|[a b] m IH]; intros H; cbn [pset app]; auto. cbn in H. destruct (str_eqb a k) eqn:E.
  - apply str_eqb_eq in E. tauto.
  - rewrite IH; tauto.
Qed.
Lemma pset_all {A B} (key : A -> gostring) (val : A -> B) l : NoDup (map key l) ->
  fold_left (fun m p => pset m (key p) (val p)) l [] = map (fun p => (key p, val p)) l.
Proof.
  intros ND. assert (G : forall acc, (forall x, In x l -> ~ In (key x) (map fst acc)) ->
    fold_left (fun m p => pset m (key p) (val p)) l acc = acc ++ map (fun p => (key p, val p)) l); [|now apply (G [])].
  induction l as [|x l IH]; intros acc H; cbn [fold_left map]; [now rewrite app_nil_r|].
  inversion ND as [|? ? N1 N2]; subst. rewrite pset_fresh by (apply H; cbn; auto). rewrite IH; auto.
  - rewrite <- app_assoc. reflexivity.
  - intros y Hy X. rewrite map_app in X. apply in_app_or in X. destruct X as [X|[X|[]]].
    + apply (H y); cbn; auto.
    + apply N1. cbn [fst] in X. rewrite X. now apply in_map.
Qed.
Lemma keyspace_inj D st o K a b : keyspace D st o K -> K a -> K b -> NormalizeKey o a = NormalizeKey o b -> a = b.
Proof.
  intros [_ H] Ka Kb E. apply H; auto. unfold place. rewrite E. apply prefix_self.
Qed.
(** what is read and loaded is a replica *)
Lemma read_store D str json st o bytes os pv K w t (val : kvpair -> pkg) :
  keyspace D st o K -> D (hdelim (so_h st)) -> plain_reach D t -> Forall K (map kv_key w) -> NoDup (map kv_key w) ->
  so_loading st = false -> no_prefix os -> ld_pv (the_loader st os) = Some pv ->
  pv_read pv = (Some (map (fun p => (NormalizeKey o (kv_key p), val p)) w), None) ->
  (forall p, p_value (val p) = GStr (kv_val p)) ->
  (forall k, K k -> kvget w k = None -> data_at t (place st o k) = None) ->
  exists r, Load str json st t os = Ok r /\ lr_err r = None /\ plain_reach D (lr_t r) /\
    replica st o bytes K (lr_t r) w /\ others st o K t (lr_t r).
Proof.
  intros KS Hd R FK ND HL NP HP HR HV HN. set (d := map (fun p => (NormalizeKey o (kv_key p), val p)) w) in *.
  rewrite Forall_forall in FK.
  assert (FP : flat_pkgs d).
  { apply Forall_forall. intros x Hx. apply in_map_iff in Hx. destruct Hx as (p & <- & _). cbn [snd]. now rewrite HV. }
  assert (NDP : NoDup (map (fun e => wkey (so_h st) (fst e)) d)).
  { unfold d. rewrite map_map. cbn [fst]. rewrite <- (map_map kv_key (place st o)). apply nodup_by; auto.
    intros x y Hx Hy E. apply KS; auto. rewrite E. apply prefix_self. }
  destruct (load_named str json st t os pv d (plain_reach_reached D t R) HL NP HP HR FP NDP) as (r & E & E1 & G & U).
  exists r. split; auto. split; auto. split; [|split].
  - refine (load_reach D str json st t os pv d r R _ HL HP HR _ E).
    + unfold the_loader. now rewrite loader_h.
    + intros e d' He Dd. rewrite lplaces_flat in He by exact FP. unfold the_loader in He. rewrite loader_h in He by auto.
      unfold at_keys, d in He. rewrite map_map in He. apply in_map_iff in He. destruct He as (p & <- & Hp). cbn [fst].
      destruct KS as [KS _]. destruct (KS (kv_key p)) as (_ & _ & X); [apply FK; now apply in_map|]. now apply X.
  - intros k Kk. destruct (kvget w k) as [p|] eqn:Q.
    + left. unfold kvget in Q. apply find_some in Q. destruct Q as [Hp Q]. apply str_eqb_eq in Q. subst k. unfold place.
      rewrite <- HV. apply (G (NormalizeKey o (kv_key p)) (val p)). unfold d. apply in_map_iff. eauto.
    + rewrite U; [now apply HN|]. intros k' p' Hin X. unfold d in Hin. apply in_map_iff in Hin.
      destruct Hin as (p & Ep & Hp). injection Ep as <- <-.
      assert (kv_key p = k) as <-.
      { apply KS; auto; [apply FK; now apply in_map|]. unfold place. rewrite X. apply prefix_self. }
      unfold kvget in Q. pose proof (find_none _ _ Q p Hp) as Y. cbn in Y. now rewrite str_eqb_refl in Y.
  - intros x Hx. apply U. intros k' p' Hin X. unfold d in Hin. apply in_map_iff in Hin.
    destruct Hin as (p & Ep & Hp). injection Ep as <- <-. assert (Y : K (kv_key p)) by (apply FK; now apply in_map).
    specialize (Hx _ Y). unfold place in Hx. rewrite X, prefix_self in Hx. discriminate.
Qed.
Lemma norm_nodup D st o K w : keyspace D st o K -> Forall K (map kv_key w) -> NoDup (map kv_key w) ->
  NoDup (map (fun p => NormalizeKey o (kv_key p)) w).
Proof.
  intros KS FK ND. rewrite <- (map_map kv_key (NormalizeKey o)). apply nodup_by; auto. rewrite Forall_forall in FK.
  intros x y Hx Hy E. eapply keyspace_inj; eauto.
Qed.
(** consul: Load, the first event of the watch, and any number of writes and deletes *)
Theorem consul_load_follow (D : rune -> Prop) rf str json st o bytes meta os pv K w cur t h idx :
  keyspace D st o K -> D (hdelim (so_h st)) -> hmode (so_h st) <> ModeUp -> plain_reach D t ->
  kv_world w cur -> Forall K (map kv_key w) -> growing cur h -> Forall (fun e => op_keys K (fst e)) h ->
  so_loading st = false -> no_prefix os -> ld_pv (the_loader st os) = Some pv ->
  pv_read pv = (Some (consul_ReadAll o meta w), None) ->
  (forall k, K k -> kvget w k = None -> data_at t (place st o k) = None) ->
  exists r s1 t1 e1 s2 t2, Load str json st t os = Ok r /\ lr_err r = None /\
    consul_handle (S rf) st o bytes chg0 (lr_t r) w idx = Ok (s1, t1, e1) /\
    consul_run rf st o bytes s1 t1 w h = Ok (s2, t2, fold_left (fun w e => kv_step w (fst e) (snd e)) h w) /\
    replica st o bytes K t2 (fold_left (fun w e => kv_step w (fst e) (snd e)) h w) /\ others st o K t t2.
Proof.
  intros KS Hd Hm R W FK G OK HL NP HP HR HN.
  unfold consul_ReadAll in HR. rewrite (pset_all (fun p => NormalizeKey o (kv_key p))) in HR by (apply (norm_nodup D st o K); auto; apply W).
  destruct (read_store D str json st o bytes os pv K w t _ KS Hd R FK (proj1 W) HL NP HP HR (fun p => eq_refl) HN)
    as (r & E & E1 & R1 & RP & OT).
  destruct (consul_store_first D rf st o bytes Hd K w cur (lr_t r) idx KS R1 W FK RP) as (s1 & t1 & e1 & E2 & Kn & R2 & RP2 & OT2).
  destruct (consul_store_history D rf st o bytes Hd Hm K h w cur s1 t1 KS R2 W G Kn FK OK RP2) as (s2 & t2 & w' & E3 & -> & _ & RP3 & OT3).
  exists r, s1, t1, e1, s2, t2. repeat split; auto.
  intros x Hx. rewrite OT3, OT2, OT; auto.
Qed.
(** etcd: Load, and any number of writes and deletes *)
Theorem etcd_load_follow (D : rune -> Prop) rf str json st o bytes os pv K w cur t h :
  keyspace D st o K -> D (hdelim (so_h st)) -> hmode (so_h st) <> ModeUp -> plain_reach D t ->
  kv_world w cur -> Forall K (map kv_key w) -> revisions cur h -> Forall (fun e => K (eop_key (fst e))) h ->
  so_loading st = false -> no_prefix os -> ld_pv (the_loader st os) = Some pv ->
  pv_read pv = (Some (etcd_Read o (map (fun p => (kv_key p, kv_val p)) w)), None) ->
  (forall k, K k -> kvget w k = None -> data_at t (place st o k) = None) ->
  exists r t2 e2, Load str json st t os = Ok r /\ lr_err r = None /\
    etcd_handles (S rf) st o (lr_t r) (snd (etcd_world w h)) = Ok (t2, e2) /\
    replica st o bytes K t2 (fst (etcd_world w h)) /\ others st o K t t2.
Proof.
  intros KS Hd Hm R W FK G OK HL NP HP HR HN.
  unfold etcd_Read in HR. rewrite (pset_all (fun kv => NormalizeKey o (fst kv))) in HR.
  2:{ rewrite map_map. apply (norm_nodup D st o K); auto. apply W. }
  rewrite map_map in HR. cbn [fst snd] in HR.
  destruct (read_store D str json st o bytes os pv K w t _ KS Hd R FK (proj1 W) HL NP HP HR (fun p => eq_refl) HN)
    as (r & E & E1 & R1 & RP & OT).
  destruct (etcd_store_history D rf st o bytes Hd Hm K h w cur (lr_t r) KS R1 W G OK RP) as (t2 & e2 & E2 & _ & RP2 & OT2).
  exists r, t2, e2. repeat split; auto. intros x Hx. rewrite OT2, OT; auto.
Qed.
