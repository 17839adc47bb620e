(** Copies, attributes, per-method specifications. *)
From Coq Require Import List NArith Bool Arith Lia Permutation.
From Verif Require Import GoStr Utf8 Node NodeWf InsertProofs MatchProofs Trie TreeOps Spec Refine
  Climb ApiRefine Reach Effect Derived Derived2 Derived3 Derived4.
Import ListNotations.
Open Scope nat_scope.

(** ** C17 *)
Fixpoint dupKids (clone : gval -> gval) (cs : list node) (x : nat) : list node * nat :=
  match cs with
  | [] => ([], x)
  | c :: cs' => let '(c', x1) := dupNode clone c x in
                let '(cs'', x2) := dupKids clone cs' x1 in (c' :: cs'', x2)
  end.
Lemma dupNode_eq clone n nx :
  dupNode clone n nx =
    let '(ks, nx') := dupKids clone (nkids n) (S nx) in
    (mkNode nx (npath n) (npathS n) ks (clone (ndata n)) [] [] GNil (ntype n), nx').
Proof.
  destruct n as [a p b ks e f g h i]. cbn [dupNode nkids npath npathS ndata ntype].
  match goal with |- (let '(_, _) := ?F ks (S nx) in _) = _ =>
    assert (E : forall l x, F l x = dupKids clone l x) end.
  { induction l as [|c l IH]; intros x; cbn [dupKids]; auto.
    destruct (dupNode clone c x) as [c' x1]. now rewrite IH. }
  now rewrite E.
Qed.

Definition dup_info (clone : gval -> gval) (i j : info) : Prop :=
  i_key j = i_key i /\ i_data j = clone (i_data i) /\ i_desc j = [] /\ i_cmt j = [] /\
  i_tag j = GNil /\ i_type j = i_type i.
Definition dup_ent (clone : gval -> gval) (e f : key_t * info) : Prop :=
  fst f = fst e /\ dup_info clone (snd e) (snd f).

Lemma forall2_flat {A B} (R : A -> A -> Prop) (f g : B -> list A) :
  forall l l', Forall2 (fun x y => Forall2 R (f x) (g y)) l l' -> Forall2 R (flat_map f l) (flat_map g l').
Proof. induction 1; cbn; auto. apply Forall2_app; auto. Qed.

Lemma dupKids_spec clone cs :
  Forall (fun n => forall pre x, let '(n', x') := dupNode clone n x in
    Forall2 (dup_ent clone) (ients pre n) (ients pre n') /\ npath n' = npath n /\
    x <= x' /\ NoDup (ids n') /\ Forall (fun i => x <= i < x') (ids n') /\ (wfn n -> wfn n')) cs ->
  forall pre x, let '(cs', x') := dupKids clone cs x in
    Forall2 (dup_ent clone) (kents pre cs) (kents pre cs') /\ map npath cs' = map npath cs /\
    x <= x' /\ NoDup (flat_map ids cs') /\ Forall (fun i => x <= i < x') (flat_map ids cs') /\
    (Forall wfn cs -> Forall wfn cs').
Proof.
  induction 1 as [|c cs Hc _ IH]; intros pre x; cbn [dupKids].
  - cbn. repeat split; auto using NoDup_nil.
  - specialize (Hc pre x). destruct (dupNode clone c x) as [c' x1].
    specialize (IH pre x1). destruct (dupKids clone cs x1) as [cs' x2].
    destruct Hc as (H1 & H2 & H3 & H4 & H5 & H6), IH as (I1 & I2 & I3 & I4 & I5 & I6).
    split; [|split; [|split; [|split; [|split]]]].
    + rewrite !kents_cons. now apply Forall2_app.
    + cbn. now rewrite H2, I2.
    + lia.
    + cbn [flat_map]. rewrite Forall_forall in H5, I5. clear - H4 I4 H5 I5.
      induction (ids c') as [|a l IH]; cbn; auto. inversion H4; subst. constructor.
      * rewrite in_app_iff. intros [X|X]; [auto|]. specialize (H5 a (or_introl eq_refl)).
        specialize (I5 a X). lia.
      * apply IH; auto. intros y Hy. apply H5. now right.
    + cbn [flat_map]. apply Forall_app. split; (eapply Forall_impl; [|eassumption]); cbn; lia.
    + intros HW. inversion HW; subst. constructor; auto.
Qed.
Lemma dupNode_spec clone : forall n pre x, let '(n', x') := dupNode clone n x in
  Forall2 (dup_ent clone) (ients pre n) (ients pre n') /\ npath n' = npath n /\
  x <= x' /\ NoDup (ids n') /\ Forall (fun i => x <= i < x') (ids n') /\ (wfn n -> wfn n').
Proof.
  induction n as [n IH] using node_ind'. intros pre x. rewrite dupNode_eq.
  pose proof (dupKids_spec clone (nkids n) IH (pre ++ npath n) (S x)) as K.
  destruct (dupKids clone (nkids n) (S x)) as [ks x'].
  destruct K as (K1 & K2 & K3 & K4 & K5 & K6).
  split; [|split; [|split; [|split; [|split]]]].
  - rewrite !ients_eq. constructor; [|exact K1]. split; [reflexivity|]. repeat split.
  - reflexivity.
  - lia.
  - rewrite ids_eq. cbn [nid nkids]. constructor; auto. intros X. rewrite Forall_forall in K5.
    specialize (K5 _ X). lia.
  - rewrite ids_eq. cbn [nid nkids]. constructor; [lia|]. eapply Forall_impl; [|exact K5]. cbn. lia.
  - intros W. constructor; cbn [nkids].
    + replace (map fst_rune ks) with (map fst_rune (nkids n)); [now apply wfn_nodup|].
      unfold fst_rune. rewrite <- !(map_map npath (@hd_error rune)). now rewrite K2.
    + pose proof (wfn_forall n W) as F.
      assert (Forall wfn ks) as F2 by (apply K6; eapply Forall_impl; [|exact F]; intros c [_ Hc]; exact Hc).
      apply Forall_forall. intros c Hc. split; [|rewrite Forall_forall in F2; auto].
      assert (X : In (npath c) (map npath (nkids n))) by (rewrite <- K2; now apply in_map).
      apply in_map_iff in X. destruct X as (c0 & <- & Hc0). rewrite Forall_forall in F. now apply F.
Qed.

Lemma dup_lookup clone l l' :
  Forall2 (dup_ent clone) l l' -> forall k,
  match lookup l k, lookup l' k with
  | Some i, Some j => dup_info clone i j
  | None, None => True
  | _, _ => False
  end.
Proof.
  induction 1 as [|[k1 i] [k2 j] l l' [H1 H2] _ IH]; intros k; cbn; auto.
  cbn in H1. subst. destruct (str_eqb k1 k); auto. apply IH.
Qed.
Lemma dup_wf clone t : wf_tr t -> wf_tr (Dup clone t).
Proof.
  intros WT. unfold Dup. pose proof (dupNode_spec clone (root t) [] (next t)) as DS.
  destruct (dupNode clone (root t) (next t)) as [r nx].
  destruct DS as (D1 & D2 & D3 & D4 & D5 & D6). destruct WT as [(W1 & W2 & W3) WI].
  split; cbn [root next].
  - split; [congruence|]. split; auto. apply plen_ients. intros k j Hj.
    assert (exists i, In (k, i) (ients [] (root t)) /\ dup_info clone i j) as (i & Hi & DI).
    { clear - D1 Hj. induction D1 as [|[k1 i1] [k2 i2] l l' [H1 H2] _ IH]; [destruct Hj|].
      cbn in H1. subst. destruct Hj as [X|X].
      - inversion X; subst. exists i1. split; auto. now left.
      - destruct (IH X) as (i & Hi & DI). exists i. split; auto. now right. }
    destruct DI as (-> & _). rewrite plen_ients in W3. exact (W3 _ _ Hi).
  - split; [exact D4|]. eapply Forall_impl; [|exact D5]. cbn. lia.
Qed.
Theorem dup_same clone t :
  wf_tr t ->
  forall k, t_get (Dup clone t) k =
    option_map (fun a => Attr (clone (a_data a)) [] [] GNil (a_leaf a) (a_has a) (a_mod a)) (t_get t k).
Proof.
  intros WT k. unfold t_get, entries. rewrite !entries_lookup. unfold Dup.
  pose proof (dupNode_spec clone (root t) [] (next t)) as DS.
  destruct (dupNode clone (root t) (next t)) as [r nx]. destruct DS as (D1 & _). cbn [root].
  pose proof (dup_lookup clone _ _ D1 k) as L.
  destruct (lookup (ients [] (root t)) k) as [i|], (lookup (ients [] r) k) as [j|]; cbn; try tauto.
  destruct L as (_ & L2 & L3 & L4 & L5 & L6). unfold attr_of. rewrite L2, L3, L4, L5, L6. reflexivity.
Qed.
Theorem dup_keys clone t :
  map (fun n => (key n, npath n)) (walk (root (Dup clone t))) = map (fun n => (key n, npath n)) (walk (root t)).
Proof.
  unfold Dup.
  assert (G : forall n x, map (fun n => (key n, npath n)) (walk (fst (dupNode clone n x))) =
                          map (fun n => (key n, npath n)) (walk n)).
  { induction n as [n IH] using node_ind'. intros x. rewrite dupNode_eq.
    assert (K : forall cs y, Forall (fun n => forall x, map (fun n => (key n, npath n)) (walk (fst (dupNode clone n x))) =
                          map (fun n => (key n, npath n)) (walk n)) cs ->
      map (fun n => (key n, npath n)) (flat_map walk (fst (dupKids clone cs y))) =
      map (fun n => (key n, npath n)) (flat_map walk cs)).
    { induction cs as [|c cs IHc]; intros y HF; cbn [dupKids]; auto.
      inversion HF as [|? ? Hc HF']; subst. specialize (Hc y). destruct (dupNode clone c y) as [c' y1].
      specialize (IHc y1 HF'). destruct (dupKids clone cs y1) as [cs' y2]. cbn [fst flat_map] in *.
      rewrite !map_app. now rewrite Hc, IHc. }
    specialize (K (nkids n) (S x) IH). destruct (dupKids clone (nkids n) (S x)) as [ks x'].
    cbn [fst] in *. destruct n. cbn in *. f_equal. exact K. }
  specialize (G (root t) (next t)). destruct (dupNode clone (root t) (next t)). exact G.
Qed.
(** no node of the copy is a node of the original, so pointers into one tree never reach the other *)
Theorem dup_fresh clone t :
  wf_tr t -> forall n m, In n (walk (root t)) -> In m (walk (root (Dup clone t))) -> nid n <> nid m.
Proof.
  intros WT n m Hn Hm. unfold Dup in Hm. pose proof (dupNode_spec clone (root t) [] (next t)) as DS.
  destruct (dupNode clone (root t) (next t)) as [r nx]. destruct DS as (_ & _ & _ & _ & D5 & _).
  cbn [root] in Hm. rewrite (walk_ents []) in Hn, Hm. apply in_map_iff in Hn, Hm.
  destruct Hn as ([k n'] & <- & Hn), Hm as ([k' m'] & <- & Hm). cbn [snd].
  apply nid_in_ids in Hn, Hm. rewrite Forall_forall in D5. specialize (D5 _ Hm).
  destruct WT as [_ [_ WI]]. rewrite Forall_forall in WI. specialize (WI _ Hn). lia.
Qed.
Lemma upd_notin id f n : ~ In id (ids n) -> upd id f n = n.
Proof.
  induction n as [n IH] using node_ind'. rewrite ids_eq. intros H. rewrite upd_eq.
  destruct (Nat.eqb_spec (nid n) id) as [E|_]; [exfalso; apply H; now left|].
  assert (K : map (upd id f) (nkids n) = nkids n).
  { assert (H' : ~ In id (flat_map ids (nkids n))) by (intros X; apply H; now right). clear H.
    induction (nkids n) as [|c cs IHc]; auto. inversion IH as [|? ? Ic IH']; subst. cbn in *.
    rewrite Ic, IHc; auto; intros X; apply H'; apply in_or_app; auto. }
  rewrite K. destruct n; reflexivity.
Qed.
(** writing through a pointer into the original leaves the copy as it is, and vice versa *)
Theorem dup_independent clone t f g :
  wf_tr t ->
  (forall n, In n (walk (root t)) -> upd (nid n) f (root (Dup clone t)) = root (Dup clone t)) /\
  (forall m, In m (walk (root (Dup clone t))) -> upd (nid m) g (root t) = root t) /\
  (forall p n, In p (walk (root t)) -> rem_child (nid p) (nid n) (root (Dup clone t)) = root (Dup clone t)) /\
  (forall p n, In p (walk (root (Dup clone t))) -> rem_child (nid p) (nid n) (root t) = root t).
Proof.
  intros WT. pose proof (dup_fresh clone t WT) as F.
  assert (I : forall r id, In id (ids r) -> exists m, In m (walk r) /\ nid m = id).
  { intros r id H. unfold ids, eids in H. apply in_map_iff in H. destruct H as ([k i] & <- & H).
    apply in_ients in H. destruct H as (m & Hm & <-). exists m. split; auto. rewrite (walk_ents []).
    apply in_map_iff. exists (k, m). auto. }
  repeat split.
  - intros n Hn. apply upd_notin. intros X. destruct (I _ _ X) as (m & Hm & E). exact (F n m Hn Hm (eq_sym E)).
  - intros m Hm. apply upd_notin. intros X. destruct (I _ _ X) as (n & Hn & E). exact (F n m Hn Hm E).
  - intros p n Hp. apply rem_child_notin. intros X. destruct (I _ _ X) as (m & Hm & E). exact (F p m Hp Hm (eq_sym E)).
  - intros p n Hp. apply rem_child_notin. intros X. destruct (I _ _ X) as (m & Hm & E). exact (F m p Hm Hp E).
Qed.

(** ** C03 in general, C18: attributes stay with their key *)
Theorem write_frame rf h t o t' r k a p :
  reached t -> t_step rf h t o = Ok (t', r) -> stored h o = Some p ->
  t_get t k = Some a -> k <> runes p -> t_get t' k = Some a.
Proof.
  intros R E Hs G Hk. pose proof (reached_wf t R) as WT.
  destruct (write_refines rf h t (entries t) o WT (abs_entries t)) as (t1 & E1 & _ & A1); [congruence|].
  rewrite E in E1. inversion E1; subst t1. rewrite (abs_get _ _ _ A1).
  assert (X : forall w v f, w = runes p -> sget (s_upd w f (s_set w v (entries t))) k = Some a).
  { intros w v f ->. rewrite s_upd_get, !s_set_get.
    destruct (str_eqb (runes p) k) eqn:Ek; [apply str_eqb_eq in Ek; congruence|].
    unfold t_get in G. now rewrite G. }
  destruct o; cbn [stored] in Hs; inversion Hs; subst p; cbn [s_step fst view_of v_pfx].
  - rewrite <- (s_upd_id (runes (replace_byte 32 45 (full h path)))). now apply X.
  - rewrite <- (s_upd_id (runes (full h path))). now apply X.
  - now apply X.
  - now apply X.
  - now apply X.
  - now apply X.
Qed.

(** what SetComment and SetTag do to a key that exists *)
Lemma setattr_present D rf h t p a (o : op) (x : nodeop) :
  (exists d c, o = OSetComment p d c /\ x = NSetComment d c) \/ (exists v, o = OSetTag p v /\ x = NSetTag v) ->
  plain_reach D t -> D (hdelim h) -> t_get t (runes (full h p)) = Some a ->
  exists t', t_step (S rf) h t o = Ok (t', RBool true) /\
    forall k, t_get t' k = if str_eqb (runes (full h p)) k then Some (s_nodeop x a) else t_get t k.
Proof.
  intros HO R Hd G. destruct (plain_reach_step D rf h t o R Hd) as (t' & E & _ & A). exists t'.
  assert (S : s_search (hdelim h) (is_up h) (entries t) (full h p) = SFound (runes (full h p))).
  { apply search_mem. right. apply smem_sget. eauto. }
  assert (U : forall k, sget (s_upd (runes (full h p)) (s_nodeop x) (entries t)) k =
              if str_eqb (runes (full h p)) k then Some (s_nodeop x a) else t_get t k).
  { intros k. rewrite s_upd_get. fold (t_get t (runes (full h p))). rewrite G. reflexivity. }
  destruct HO as [(d & c & -> & ->)|(v & -> & ->)];
    cbn [s_step view_of v_delim v_pfx v_up] in E, A; rewrite S in E, A; cbn [fst snd] in E, A;
    (split; [exact E|]); intros k; rewrite (abs_get _ _ _ A); apply U.
Qed.
Theorem setcomment_present D rf h t p desc cmt a :
  plain_reach D t -> D (hdelim h) -> t_get t (runes (full h p)) = Some a ->
  exists t', SetComment (S rf) h t p desc cmt = Ok (t', true) /\
    forall k, t_get t' k =
      if str_eqb (runes (full h p)) k
      then Some (Attr (a_data a) desc cmt (a_tag a) (a_leaf a) (a_has a) (a_mod a)) else t_get t k.
Proof.
  intros R Hd G.
  destruct (setattr_present D rf h t p a (OSetComment p desc cmt) (NSetComment desc cmt)) as (t' & E & H); auto.
  { left. eauto. }
  exists t'. split; auto. cbn [t_step] in E.
  destruct (SetComment (S rf) h t p desc cmt) as [[t1 b]| |]; inversion E; now subst.
Qed.
Theorem settag_present D rf h t p tag a :
  plain_reach D t -> D (hdelim h) -> t_get t (runes (full h p)) = Some a ->
  exists t', SetTag (S rf) h t p tag = Ok (t', true) /\
    forall k, t_get t' k =
      if str_eqb (runes (full h p)) k
      then Some (Attr (a_data a) (a_desc a) (a_cmt a) tag (a_leaf a) (a_has a) (a_mod a)) else t_get t k.
Proof.
  intros R Hd G.
  destruct (setattr_present D rf h t p a (OSetTag p tag) (NSetTag tag)) as (t' & E & H); auto.
  { right. eauto. }
  exists t'. split; auto. cbn [t_step] in E.
  destruct (SetTag (S rf) h t p tag) as [[t1 b]| |]; inversion E; now subst.
Qed.
(** a path that matches nothing, not even partially *)
Theorem setcomment_absent D rf h t p desc cmt tag :
  plain_reach D t -> D (hdelim h) ->
  s_search (hdelim h) (is_up h) (entries t) (full h p) = SMiss ->
  SetComment (S rf) h t p desc cmt = Ok (t, false) /\ SetTag (S rf) h t p tag = Ok (t, false).
Proof.
  intros R Hd M. destruct (plain_reach_search D rf h t (full h p) R Hd) as (r & E & SO & _).
  rewrite M in SO. destruct SO as [_ N]. unfold SetComment, SetTag. rewrite E. cbn [bind]. rewrite N. auto.
Qed.
(** in every case at most one key changes, and only in description/comment (tag) *)
Theorem setcomment_one D rf h t p desc cmt :
  plain_reach D t -> D (hdelim h) ->
  exists t' b, SetComment (S rf) h t p desc cmt = Ok (t', b) /\
    (b = false -> t' = t) /\
    exists k0, forall k, t_get t' k =
      if b && str_eqb k0 k
      then option_map (fun a => Attr (a_data a) desc cmt (a_tag a) (a_leaf a) (a_has a) (a_mod a)) (t_get t k)
      else t_get t k.
Proof.
  intros R Hd. destruct (plain_reach_step D rf h t (OSetComment p desc cmt) R Hd) as (t' & E & _ & A).
  cbn [t_step s_step view_of v_delim v_pfx v_up] in E, A.
  destruct (SetComment (S rf) h t p desc cmt) as [[t1 b]| |] eqn:ES; cbn [bind] in E;
    try (destruct (s_search _ _ _ _) as [?|[|? ?]|]; discriminate).
  exists t1, b. split; auto. split.
  { intros ->. unfold SetComment in ES. destruct (search _ _ _ _) as [r| |]; try discriminate.
    cbn [bind] in ES. destruct (s_node r); inversion ES; now subst. }
  assert (U : forall k0 k, sget (s_upd k0 (s_nodeop (NSetComment desc cmt)) (entries t)) k =
     if str_eqb k0 k
     then option_map (fun a => Attr (a_data a) desc cmt (a_tag a) (a_leaf a) (a_has a) (a_mod a)) (t_get t k)
     else t_get t k).
  { intros k0 k. rewrite s_upd_get. destruct (str_eqb k0 k) eqn:Ek; auto. apply str_eqb_eq in Ek. now subst. }
  destruct (s_search _ _ _ _) as [k0|[|c k0]|]; cbn [fst snd] in E, A; inversion E; subst.
  - exists k0. intros k. rewrite (abs_get _ _ _ A). apply U.
  - exists []. intros k. now rewrite (abs_get _ _ _ A).
  - exists (c :: k0). intros k. rewrite (abs_get _ _ _ A). apply U.
  - exists []. intros k. now rewrite (abs_get _ _ _ A).
Qed.

(** ** C19 – C22 *)
(** the attributes a key has right after its data was stored *)
Definition fresh_attr (t : tr) (w : skey) (v : gval) : attr :=
  match t_get t w with
  | Some a => Attr v (a_desc a) (a_cmt a) (a_tag a) (a_leaf a) true (a_mod a)
  | None => Attr v [] [] GNil (negb (existsb (sprefix w) (skeys (entries t)))) true false
  end.
Lemma upd_set_at t w v f :
  sget (s_upd w f (s_set w v (entries t))) w = Some (f (fresh_attr t w v)).
Proof.
  rewrite s_upd_get, str_eqb_refl, s_set_get, str_eqb_refl. reflexivity.
Qed.
Theorem setnode_attr h t p v tag dc :
  reached t ->
  exists t' id, SetNode h t p v tag dc = Ok (t', id, s_old (runes (full h p)) (entries t)) /\
    t_get t' (runes (full h p)) =
      Some (let a := fresh_attr t (runes (full h p)) v in
            match dc with
            | [] => a
            | [x] => Attr v x (a_cmt a) (a_tag a) (a_leaf a) true (a_mod a)
            | x :: rest => Attr v x (join_str rest [10%N]) (a_tag a) (a_leaf a) true (a_mod a)
            end).
Proof.
  intros R. pose proof (reached_wf t R) as WT.
  destruct (write_refines 0 h t (entries t) (OSetNode p v tag dc) WT (abs_entries t)) as (t' & E & _ & A); [discriminate|].
  cbn [t_step s_step view_of v_pfx fst snd] in E, A.
  destruct (SetNode h t p v tag dc) as [[[t1 id] old]| |]; inversion E; subst.
  exists t', id. split; auto. rewrite (abs_get _ _ _ A), upd_set_at. f_equal.
  assert (X : a_has (fresh_attr t (runes (full h p)) v) = true /\ a_data (fresh_attr t (runes (full h p)) v) = v).
  { unfold fresh_attr. destruct (t_get t _); auto. }
  destruct X as [X1 X2]. destruct dc as [|x [|y dc]]; auto; cbn [s_descs s_nodeop]; rewrite X1, X2; reflexivity.
Qed.
Theorem setempty_attr h t p :
  reached t ->
  exists t', SetEmpty h t p = Ok (t', s_old (runes (full h p)) (entries t)) /\
    (exists a, t_get t' (runes (full h p)) = Some a /\ a_data a = GNil /\ a_tag a = GNil /\ a_has a = true) /\
    (forall k a, k <> runes (full h p) -> t_get t k = Some a -> t_get t' k = Some a).
Proof.
  intros R. pose proof (reached_wf t R) as WT.
  destruct (write_refines 0 h t (entries t) (OSetEmpty p) WT (abs_entries t)) as (t' & E & _ & A); [discriminate|].
  assert (FR : forall k a, k <> runes (full h p) -> t_get t k = Some a -> t_get t' k = Some a).
  { intros k a Hk G. eapply (write_frame 0 h t (OSetEmpty p)); eauto. reflexivity. }
  cbn [t_step s_step view_of v_pfx fst snd] in E, A.
  destruct (SetEmpty h t p) as [[t1 old]| |]; inversion E; subst.
  exists t'. split; auto. split; auto. rewrite (abs_get _ _ _ A), upd_set_at.
  eexists; split; [reflexivity|]. cbn. repeat split. unfold fresh_attr. destruct (t_get t _); auto.
Qed.
Theorem update_attr h t p f :
  reached t ->
  exists t', Update h t p (fun old n => fold_left (fun n o => n_nodeop o n) (f old) n) = Ok t' /\
    t_get t' (runes (full h p)) =
      Some (fold_left (fun a o => s_nodeop o a)
              (f (match t_get t (runes (full h p)) with Some a => a_data a | None => GNil end))
              (fresh_attr t (runes (full h p)) GNil)) /\
    (forall k a, k <> runes (full h p) -> t_get t k = Some a -> t_get t' k = Some a).
Proof.
  intros R. pose proof (reached_wf t R) as WT.
  destruct (write_refines 0 h t (entries t) (OUpdate p f) WT (abs_entries t)) as (t' & E & _ & A); [discriminate|].
  assert (FR : forall k a, k <> runes (full h p) -> t_get t k = Some a -> t_get t' k = Some a).
  { intros k a Hk G. eapply (write_frame 0 h t (OUpdate p f)); eauto. reflexivity. }
  cbn [t_step s_step view_of v_pfx fst snd] in E, A.
  destruct (Update h t p _) as [t1| |]; inversion E; subst.
  exists t'. split; auto. split; auto. rewrite (abs_get _ _ _ A), upd_set_at. reflexivity.
Qed.
(** the value Update leaves: what the callback stores, otherwise nothing *)
Theorem update_value h t p f :
  reached t ->
  exists t' a, Update h t p (fun old n => fold_left (fun n o => n_nodeop o n) (f old) n) = Ok t' /\
    t_get t' (runes (full h p)) = Some a /\
    a_data a = cb_data (f (match t_get t (runes (full h p)) with Some b => a_data b | None => GNil end)) GNil.
Proof.
  intros R. destruct (update_attr h t p f R) as (t' & E & G & _). exists t'. eexists.
  split; eauto. split; eauto. rewrite (proj1 (nodeops_data _ _)). f_equal.
  unfold fresh_attr. now destruct (t_get t (runes (full h p))).
Qed.
Theorem setex_calls h t p v :
  reached t ->
  exists t' calls n,
    SetEx h t p v = Ok (t', match t_get t (runes (full h p)) with Some a => a_data a | None => GNil end, calls) /\
    In n (walk (root t')) /\ ndata n = v /\ hasData n = true /\
    (forall c, In c calls -> c = (full h p, match t_get t (runes (full h p)) with Some a => a_data a | None => GNil end, nid n)) /\
    (calls = [] <-> nkids (root t) = [] /\ full h p <> []).
Proof.
  intros R. pose proof (reached_wf t R) as WT. unfold SetEx.
  destruct (insert_root_refines t (entries t) (full h p) v WT (abs_entries t))
    as (t' & ir & -> & WT' & A' & O & (i & L & Ei) & _ & C1 & C2). cbn [bind].
  pose proof (proj1 (proj2 (proj1 WT'))) as W'.
  pose proof (proj1 (look_in _ _ _ W') L) as Hin. apply in_ients in Hin. destruct Hin as (n & Hn & Hi).
  exists t', (ir_calls ir), n. split; [rewrite O; reflexivity|].
  split; [rewrite (walk_ents []); apply in_map_iff; exists (runes (full h p), n); auto|].
  assert (X : sget (s_set (runes (full h p)) v (entries t)) (runes (full h p)) = Some (attr_of i)).
  { rewrite <- (A' _), L. reflexivity. }
  rewrite s_set_get, str_eqb_refl in X.
  assert (Y : i_data i = v /\ t_has (i_type i) = true).
  { destruct (sget (entries t) (runes (full h p))); inversion X; auto. }
  split; [now rewrite <- (proj1 Y), <- Hi|].
  split; [rewrite hasData_bit; rewrite <- (proj2 Y), <- Hi; reflexivity|].
  split.
  - intros c Hc. rewrite Forall_forall in C1. specialize (C1 c Hc). rewrite <- C1, O, <- Ei, <- Hi. reflexivity.
  - rewrite C2. split; intros [X1 X2]; split; auto; intros Y1; apply X2; now apply runes_nil_iff.
Qed.

(** ** C27 *)
Theorem br_first D rf h t p :
  plain_reach D t -> D (hdelim h) -> hmode h = ModeUp ->
  exists b, Has (S rf) h t p = Ok b /\
    b = s_has (s_first (hdelim h) (entries t) (full h p :: s_ups (hdelim h) (full h p))).
Proof.
  intros R Hd Hm. destruct (plain_reach_search D rf h t (full h p) R Hd) as (r & E & SO & _).
  exists (s_found r). unfold Has. rewrite E. split; auto. rewrite (search_found _ _ _ SO).
  unfold s_search, is_up. now rewrite Hm.
Qed.
(** the candidates for a path of segments s1 ... sn: s1 ... si sn with i = n-2, ..., 1 *)
Theorem br_candidates d segs :
  segs <> [] -> Forall (fun p => contains (enc1 d) p = false) segs ->
  s_ups d (join_str segs (enc1 d)) =
    map (fun i => join_str (firstn i segs ++ [last segs []]) (enc1 d)) (rev (seq 1 (length segs - 2))).
Proof.
  intros Hn HF. unfold s_ups. rewrite split_join; auto. apply enc1_unbordered.
Qed.
(** the nearest owner: the first candidate that is a key, if the ones before it neither are
    keys nor lead into or past one *)
Theorem br_nearest D rf h t p before c after a :
  plain_reach D t -> D (hdelim h) -> hmode h = ModeUp ->
  full h p :: s_ups (hdelim h) (full h p) = before ++ c :: after ->
  (forall x, In x before -> s_probe (hdelim h) (entries t) (runes x) = SMiss) ->
  t_get t (runes c) = Some a ->
  exists q, Query (S rf) h t p = Ok q /\ q_data q = (if a_has a then a_data a else GNil) /\
    q_found q = (a_leaf a || ends_with (hdelim h) (runes c)).
Proof.
  intros R Hd Hm EL HB G.
  assert (S : s_search (hdelim h) (is_up h) (entries t) (full h p) = SFound (runes c)).
  { unfold s_search, is_up. rewrite Hm, EL. clear EL. induction before as [|x before IH]; cbn [app s_first].
    - destruct (runes c) as [|y w] eqn:Ec; [reflexivity|]. rewrite probe_mem; auto; [discriminate|].
      apply smem_sget. eauto.
    - rewrite HB by now left. apply IH. intros z Hz. apply HB. now right. }
  destruct (plain_reach_step D rf h t (OQuery p) R Hd) as (t' & E & _).
  cbn [t_step s_step view_of v_delim v_pfx v_up] in E. rewrite S in E. unfold s_query, s_hit in E.
  unfold t_get in G. rewrite G in E. cbn [snd] in E.
  destruct (Query (Datatypes.S rf) h t p) as [q| |]; cbn [bind] in E; try discriminate.
  inversion E. exists q. auto.
Qed.

(** ** C53 *)
Theorem delimiter_irrelevant D rf h d' t p a :
  plain_reach D t -> D (hdelim h) -> D d' -> hprefix h = [] -> t_get t (runes p) = Some a ->
  exists q q', Query (S rf) h t p = Ok q /\ Query (S rf) (setDelimiter h d') t p = Ok q' /\
    q_data q = (if a_has a then a_data a else GNil) /\ q_data q' = q_data q /\ q_branch q' = q_branch q.
Proof.
  intros R Hd Hd' Hp G.
  assert (F : full h p = p) by (unfold full; now rewrite Hp).
  assert (F' : full (setDelimiter h d') p = p) by (unfold full; cbn; now rewrite Hp).
  destruct (query_present D rf h t p a R Hd) as (q & Q & Q1 & Q2 & _); [now rewrite F|].
  destruct (query_present D rf (setDelimiter h d') t p a R Hd') as (q' & Q' & Q1' & Q2' & _); [now rewrite F'|].
  exists q, q'. rewrite Q1, Q1', Q2, Q2'. auto.
Qed.

(** ** C56 *)
Theorem accessors n b :
  isBranch n = negb (isLeaf n) /\ isEmpty n = negb (hasData n) /\
  modified (setModified b n) = b /\ modified (toggleModified n) = negb (modified n) /\
  modified (resetModified n) = false /\
  (forall f, f = setModified b \/ f = toggleModified \/ f = resetModified ->
     isLeaf (f n) = isLeaf n /\ isBranch (f n) = isBranch n /\ hasData (f n) = hasData n /\
     ndata (f n) = ndata n /\ ndesc (f n) = ndesc n /\ ncmt (f n) = ncmt n /\ ntag (f n) = ntag n /\
     key (f n) = key n /\ npath (f n) = npath n /\ nkids (f n) = nkids n).
Proof.
  split; [now rewrite isBranch_bit, isLeaf_bit|].
  split; [unfold isEmpty, hasData; now rewrite negb_involutive|].
  rewrite !modified_bit.
  split; [|split; [|split]].
  - unfold t_mod, setModified, set_type. cbn [ntype]. destruct b.
    + rewrite N.lor_spec. cbn. now rewrite orb_true_r.
    + rewrite N.ldiff_spec. cbn. now rewrite andb_false_r.
  - unfold t_mod, toggleModified, set_type. cbn [ntype]. rewrite N.lxor_spec. cbn. now rewrite xorb_true_r.
  - unfold t_mod, resetModified, set_type. cbn [ntype]. rewrite N.ldiff_spec. cbn. now rewrite andb_false_r.
  - intros f Hf. rewrite !isLeaf_bit, !isBranch_bit, !hasData_bit. unfold t_leaf, t_has.
    destruct Hf as [->|[->| ->]]; unfold setModified, toggleModified, resetModified, set_type; cbn [ntype];
      [destruct b|..]; rewrite ?N.lor_spec, ?N.ldiff_spec, ?N.lxor_spec; cbn [NTModified];
      change (N.testbit 8 0) with false; change (N.testbit 8 2) with false;
      rewrite ?orb_false_r, ?andb_true_r, ?xorb_false_r; repeat split.
Qed.

(** the statements about Dup for every store that can be reached *)
Theorem dup_same_reached clone t :
  reached t ->
  forall k, t_get (Dup clone t) k =
    option_map (fun a => Attr (clone (a_data a)) [] [] GNil (a_leaf a) (a_has a) (a_mod a)) (t_get t k).
Proof. intros R. exact (dup_same clone t (reached_wf t R)). Qed.
Theorem dup_fresh_reached clone t :
  reached t -> forall n m, In n (walk (root t)) -> In m (walk (root (Dup clone t))) -> nid n <> nid m.
Proof. intros R. exact (dup_fresh clone t (reached_wf t R)). Qed.
Theorem dup_independent_reached clone t f g :
  reached t ->
  (forall n, In n (walk (root t)) -> upd (nid n) f (root (Dup clone t)) = root (Dup clone t)) /\
  (forall m, In m (walk (root (Dup clone t))) -> upd (nid m) g (root t) = root t) /\
  (forall p n, In p (walk (root t)) -> rem_child (nid p) (nid n) (root (Dup clone t)) = root (Dup clone t)) /\
  (forall p n, In p (walk (root (Dup clone t))) -> rem_child (nid p) (nid n) (root t) = root t).
Proof. intros R. exact (dup_independent clone t f g (reached_wf t R)). Qed.
