(** Set and Remove of the store in memory: alone, and beside each other. *)
From Coq Require Import List NArith Bool Arith Lia.
From Verif Require Import GoStr Utf8 Node NodeWf InsertProofs MatchProofs Trie TreeOps Spec Refine Climb ApiRefine Reach Effect
  Derived Derived2 Derived3 Derived4 Derived5 Store StoreProofs Heap HeapProofs HeapWalk HeapRace HeapGet HeapGetProofs
  HeapRemoveProofs HeapFair HeapEnds HeapStore.
Import ListNotations.
Open Scope nat_scope.

(** ** alone *)
Definition marks (n : node) : node := fold_left (fun n o => n_nodeop o n) ([] ++ [NSetModified true]) n.
Lemma marks_acts : acts (fun s => w_type (N.lor (htype s) NTModified) s) marks.
Proof.
  split; [|split]; auto. intros m s (P1 & P2 & P3 & P4 & P5 & P6 & P7). unfold fits. cbn. rewrite <- P7. auto 10.
Qed.
Lemma setModified_run h R k n : tree_in h R -> In (k, n) (ents [] R) ->
  exists h', run (p_setModified (nid n)) h = Ok (h', tt) /\ nn h' = nn h /\ tree_in h' (upd (nid n) marks R).
Proof.
  intros (W & RR & WT) IN.
  destruct (attr_spec _ _ (nid n) h R marks_acts W RR) as (h' & RUN & W' & N' & R' & _ & _).
  { apply sub_in. now apply ents_sub with (1 := IN). }
  exists h'. split; [|split; [exact N'|]].
  - unfold p_setModified. cbn [run] in *. destruct (hn h (nid n)) as [s|]; [exact RUN|discriminate].
  - split; [exact W'|]. split; [exact R'|]. rewrite N'. exact (upd_wf_tr (Tr R (nn h)) n k _ _ WT IN (refl_nodeops _)).
Qed.
Lemma setKV_run grow s t h0 path v c t' id old es : tree_in h0 (root t) -> next t = nn h0 ->
  setKV s t path v c [] = Ok (t', id, old, es) ->
  exists h', run (p_setKV grow s (nid (root t)) path v c) h0 = Ok (h', (old, es)) /\ tree_in h' (root t') /\ next t' = nn h'.
Proof.
  intros T N E. unfold setKV, Set_ in E. set (k := replace_byte 32 45 (full (so_h s) path)) in *.
  destruct (set_grown grow h0 (root t) k v T) as (h1 & t1 & ir & EI & RUN & N1 & (T1 & _) & _).
  rewrite <- N in EI. replace (Tr (root t) (next t)) with t in EI by now destruct t. rewrite EI in E. cbn [bind] in E.
  pose proof T as (_ & _ & WT). rewrite <- N in WT. replace (Tr (root t) (next t)) with t in WT by now destruct t.
  destruct (insert_root_refines t (entries t) k v WT (abs_entries t)) as (t1' & ir' & EI' & WT1 & _ & _ & (i & L & Ei) & _).
  rewrite EI in EI'. injection EI' as <- <-. unfold p_setKV. fold k. rewrite run_seq, RUN.
  injection E as <- <- <- <-. destruct (so_loading s); cbn [negb seqp run].
  - exists h1. auto.
  - apply look_in in L; [|apply WT1]. unfold ients in L. apply in_map_iff in L. destruct L as ([k' n] & X & IN). injection X as -> <-.
    cbn [info_of i_id] in Ei. destruct (setModified_run h1 (root t1) (runes k) n T1 IN) as (h2 & RUN2 & N2 & T2).
    rewrite run_seq. rewrite Ei in RUN2. rewrite RUN2. exists h2. split; [reflexivity|]. rewrite <- Ei. split; [exact T2|].
    cbn [next]. congruence.
Qed.
Lemma storeSet_run grow rf s t h0 path v dep t' id old es : tree_in h0 (root t) -> next t = nn h0 -> depth (root t) <= dep ->
  st_Set rf s t path v = Ok (t', id, old, es) ->
  exists h', run (p_storeSet grow rf dep s (nid (root t)) path v) h0 = Ok (h', (old, es)) /\ tree_in h' (root t') /\ next t' = nn h'.
Proof.
  intros T N D E. unfold st_Set in E. destruct (Query rf (so_h s) t path) as [q| |] eqn:Q; cbn [bind] in E; try discriminate.
  unfold p_storeSet. rewrite run_seq. pose proof T as (W & RR & _).
  assert (Q' : Query rf (so_h s) (Tr (root t) (next t)) path = Ok q) by (destruct t; exact Q).
  rewrite (query_run h0 rf (so_h s) (root t) (next t) dep path q W RR D Q'). now apply setKV_run with (t' := t') (id := id).
Qed.
Lemma storeRemove_run grow rf s t h0 path dep t' b es : tree_in h0 (root t) -> depth (root t) <= dep ->
  st_Remove rf s t path = Ok (t', b, es) ->
  exists h', run (p_storeRemove grow rf dep s (nid (root t)) path) h0 = Ok (h', (b, es)) /\ tree_in h' (root t').
Proof.
  intros TI DP E0. pose proof TI as (W & RR & WT). unfold st_Remove in E0. set (h := so_h s) in *.
  destruct (RemoveEx rf h t path) as [[[[t1 n] par] b1]| |] eqn:E; cbn [bind] in E0; try discriminate.
  injection E0 as <- <- <-.
  destruct (removeEx_run grow rf h h0 t dep path t1 n par b1 TI DP E) as (h' & RUN & T' & _).
  exists h'. split; [|exact T'].
  unfold RemoveEx in E. destruct (search rf h t (full h path)) as [r| |] eqn:S; cbn [bind] in E; try discriminate.
  assert (S' : search rf h (Tr (root t) (next t)) (full h path) = Ok r) by (destruct t; exact S).
  unfold p_storeRemove. fold h. unfold HeapRemove.p_removeEx in RUN. rewrite run_seq in RUN. rewrite run_seq.
  rewrite (search_run h0 rf h (root t) (next t) dep _ r W RR DP S') in RUN |- *. cbn [sids hs_node hs_partial hs_parent] in *.
  destruct (Trie.s_node r) as [c|] eqn:N; cbn [option_map] in *.
  2: { injection E as <- <- <- <-. cbn [run] in *. congruence. }
  destruct (Trie.s_partial r); [injection E as <- <- <- <-; cbn [run] in *; congruence|].
  destruct (Trie.s_parent r) as [f|] eqn:P; cbn [option_map] in *; [|injection E as <- <- <- <-; cbn [run] in *; congruence].
  rewrite run_seq, RUN. destruct (fst (remove_id (nid c) (nkids f))) eqn:FST; injection E as <- <- <- <-; [|reflexivity].
  cbn [run].
  destruct (search_in rf h t _ r S c N) as (k & Hk & PO).
  assert (Rc : repr h0 c) by (apply sub_repr with (1 := RR); now apply ents_sub with (1 := Hk)).
  apply repr_eq in Rc. destruct Rc as [(sc & Ec & (_ & _ & P3 & _) & _) _].
  rewrite P in PO. destruct PO as [(_ & _ & X)|(kp & f' & Hf & Hc & Ek & X)]; [discriminate|]. injection X as <-.
  assert (Rf : repr h0 f) by (apply sub_repr with (1 := RR); now apply ents_sub with (1 := Hf)).
  apply repr_eq in Rf. destruct Rf as [(sf & Ef & _ & Kf) _].
  destruct (remove_spec grow h0 (nid f) sf (nid c) W Ef) as (h1 & sl & b1 & RUN1 & _ & _ & _ & E1 & _ & FR).
  rewrite RUN in RUN1. injection RUN1 as <- _. destruct (Nat.eq_dec (nid c) (nid f)) as [Q|Q].
  - rewrite Q in *. rewrite E1. assert (sc = sf) as -> by congruence. cbn [w_kids hdata]. now rewrite P3.
  - destruct (FR _ _ Ec Q) as [-> _]. now rewrite P3.
Qed.

(** ** beside each other *)
(** [t] is [s] but for the value and the bits for data and for modified *)
Definition like (s t : hnode) : Prop :=
  hpath t = hpath s /\ hpathS t = hpathS s /\ hkids t = hkids s /\ hdesc t = hdesc s /\ hcmt t = hcmt s /\ htag t = htag s /\
  exists m, htype t = N.lor (htype s) m /\ N.lor m 12 = 12%N.
Definition has_bit (b y : N) : Prop := N.land y b <> 0%N.
Lemma like_same s t : like s t -> same s t.
Proof. intros (A & B & C & _). repeat split; auto. Qed.
Lemma like_refl s : like s s.
Proof. repeat split. exists 0%N. split; [now rewrite N.lor_0_r|reflexivity]. Qed.
Lemma like_type s t b : like s t -> N.lor b 12 = 12%N -> exists m, N.lor (htype t) b = N.lor (htype s) m /\ N.lor m 12 = 12%N.
Proof.
  intros (_ & _ & _ & _ & _ & _ & m & E & M) B. exists (N.lor m b). rewrite E, N.lor_assoc. split; [reflexivity|].
  now rewrite <- N.lor_assoc, B.
Qed.
Lemma like_branch a b s t : like s t -> isBranch (view a t) = isBranch (view b s).
Proof.
  intros (_ & _ & _ & _ & _ & _ & m & E & M). unfold isBranch, view. cbn [ntype]. rewrite E, N.land_lor_distr_l.
  replace (N.land m NTMask) with 0%N; [now rewrite N.lor_0_r|].
  assert (X : N.land (N.lor m 12) NTMask = N.land 12 NTMask) by now rewrite M.
  rewrite N.land_lor_distr_l in X. change (N.land 12 NTMask) with 0%N in X. rewrite N.lor_0_r in X. now symmetry.
Qed.
Lemma has_lor b x : b <> 0%N -> has_bit b (N.lor x b).
Proof.
  intros B X. rewrite N.land_lor_distr_l, N.land_diag in X. apply N.lor_eq_0_iff in X. now destruct X.
Qed.
Lemma has_lor_l b x y : has_bit b x -> has_bit b (N.lor x y).
Proof. intros B X. rewrite N.land_lor_distr_l in X. apply N.lor_eq_0_iff in X. now destruct X. Qed.

Section Duty.
Variable h0 : heap.
Variable may : nat -> gval -> Prop.   (* the values that may be written, by address *)
Variable lod : nat -> gval -> Prop.   (* those of them written by loading *)

(** the program reads and overwrites values and sets the two bits.  [dd]: addresses where it has seen to the bit for data;
    [l]: those where it will still write the value; [lm]: those it will still settle - by marking them as modified or by a
    loaded value -, either itself or, for [rest], what comes after it.  A type without the mark and a value not loaded are
    written only where this is still to come. *)
Inductive duty {A} (Q : list nat -> A -> Prop) (rest : list nat) : list nat -> list nat -> list nat -> prog A -> Prop :=
| du_ret dd lm x : Q dd x -> incl lm rest -> duty Q rest dd [] lm (Ret x)
| du_node dd l lm a s k : hn h0 a = Some s ->
    (forall t, like s t -> hdata t = hdata s \/ may a (hdata t) -> (In a dd -> has_bit NTData (htype t)) -> duty Q rest dd l lm (k t)) ->
    duty Q rest dd l lm (GetN a k)
| du_elem dd l lm r i c k : nth_error (ha h0 r) i = Some c -> duty Q rest dd l lm (k c) -> duty Q rest dd l lm (GetA r i k)
| du_type dd l lm lm' a s y m k : hn h0 a = Some s -> (exists v, may a v) -> y = N.lor (htype s) m -> N.lor m 12 = 12%N ->
    has_bit NTData y -> has_bit NTModified y \/ In a lm' ->
    (forall b, In b lm -> b = a /\ has_bit NTModified y \/ In b lm') ->
    duty Q rest (a :: dd) l lm' k -> duty Q rest dd l lm (UpdN a (w_type y) k)
| du_data dd l l' lm lm' a s v k : hn h0 a = Some s -> may a v -> In a dd -> (forall b, In b l -> b = a \/ In b l') ->
    lod a v \/ In a lm' -> (forall b, In b lm -> b = a /\ lod a v \/ In b lm') ->
    duty Q rest dd l' lm' k -> duty Q rest dd l lm (UpdN a (w_data v) k).

Lemma duty_less {A} Q rest dd l lm lm1 (p : prog A) : duty Q rest dd l lm p -> incl lm1 lm -> duty Q rest dd l lm1 p.
Proof.
  intros D. revert lm1.
  induction D as [dd lm x HQ I|dd l lm a s k E _ IH|dd l lm r i c k E _ IH|dd l lm lm' a s y m k E V Y M B1 B2 I D IH|dd l l' lm lm' a s v k E V B I B2 J D IH];
    intros lm1 L.
  - constructor; auto. now apply incl_tran with lm.
  - apply du_node with s; auto.
  - apply du_elem with c; auto.
  - apply du_type with (lm' := lm') (s := s) (m := m); auto.
  - apply du_data with (l' := l') (lm' := lm') (s := s); auto.
Qed.
Lemma duty_mono {A} (Q Q' : list nat -> A -> Prop) rest dd l lm p : (forall dd x, Q dd x -> Q' dd x) -> duty Q rest dd l lm p -> duty Q' rest dd l lm p.
Proof.
  intros H D.
  induction D as [dd lm x HQ I|dd l lm a s k E _ IH|dd l lm r i c k E _ IH|dd l lm lm' a s y m k E V Y M B1 B2 I D IH|dd l l' lm lm' a s v k E V B I B2 J D IH].
  - constructor; auto.
  - apply du_node with s; auto.
  - apply du_elem with c; auto.
  - apply du_type with (lm' := lm') (s := s) (m := m); auto.
  - apply du_data with (l' := l') (lm' := lm') (s := s); auto.
Qed.
Lemma duty_frame {A} Q f rest dd l lm (p : prog A) : duty Q rest dd l lm p -> duty Q (rest ++ f) dd l (lm ++ f) p.
Proof.
  intros D.
  induction D as [dd lm x HQ I|dd l lm a s k E _ IH|dd l lm r i c k E _ IH|dd l lm lm' a s y m k E V Y M B1 B2 I D IH|dd l l' lm lm' a s v k E V B I B2 J D IH].
  - constructor; auto. intros b. rewrite !in_app_iff. intros [X|X]; auto.
  - apply du_node with s; auto.
  - apply du_elem with c; auto.
  - apply du_type with (lm' := lm' ++ f) (s := s) (m := m); auto.
    + destruct B2; auto. right. apply in_app_iff. auto.
    + intros b. rewrite !in_app_iff. intros [X|X]; auto. destruct (I b X); auto.
  - apply du_data with (l' := l') (lm' := lm' ++ f) (s := s); auto.
    + destruct B2; auto. right. apply in_app_iff. auto.
    + intros b. rewrite !in_app_iff. intros [X|X]; auto. destruct (J b X); auto.
Qed.
Lemma duty_seq {A B} Q rest (Q' : list nat -> B -> Prop) rest' dd l l2 lm (p : prog A) (q : A -> prog B) : duty Q rest dd l lm p ->
  (forall dd' x, Q dd' x -> duty Q' rest' dd' l2 rest (q x)) -> duty Q' rest' dd (l ++ l2) lm (seqp p q).
Proof.
  intros D H.
  induction D as [dd lm x HQ I|dd l lm a s k E _ IH|dd l lm r i c k E _ IH|dd l lm lm' a s y m k E V Y M B1 B2 I D IH|dd l l' lm lm' a s v k E V B0 I B2 J D IH];
    cbn [seqp].
  - cbn [app]. apply duty_less with rest; auto.
  - apply du_node with s; auto.
  - apply du_elem with c; auto.
  - apply du_type with (lm' := lm') (s := s) (m := m); auto.
  - apply du_data with (l' := l' ++ l2) (lm' := lm') (s := s); auto. intros b. rewrite !in_app_iff. intros [X|X]; auto. destruct (I b X); auto.
Qed.
Lemma reads_duty {A B} (x : A) p Q rest dd l lm (q : A -> prog B) : reads h0 x p -> duty Q rest dd l lm (q x) ->
  duty Q rest dd l lm (seqp p q).
Proof.
  intros R D. induction R as [|a s k E _ IH|r i c k E _ IH]; cbn [seqp]; auto.
  - apply du_node with s; auto using like_same.
  - apply du_elem with c; auto.
Qed.

(** memory at some time *)
Record cond (h : heap) : Prop := {
  cd_arr : ha h = ha h0;
  cd_nn : nn h = nn h0 /\ na h = na h0;
  cd_none : forall a, hn h0 a = None -> hn h a = None;
  cd_node : forall a s, hn h0 a = Some s -> exists t, hn h a = Some t /\ like s t /\ (hdata t = hdata s \/ may a (hdata t)) /\
    (htype t = htype s \/ exists v, may a v) }.
Lemma cond_refl : cond h0.
Proof. constructor; auto. intros a s E. exists s. split; [exact E|]. split; [apply like_refl|auto]. Qed.
Definition at_node (h : heap) (a : nat) (P : hnode -> Prop) : Prop := exists t, hn h a = Some t /\ P t.
Definition flagged h a := at_node h a (fun t => has_bit NTData (htype t)).
Definition settled h a := at_node h a (fun t => has_bit NTModified (htype t) \/ lod a (hdata t)).
Definition stored h a := at_node h a (fun t => may a (hdata t) /\ has_bit NTData (htype t)).

Lemma access_duty {A} Q rest dd l lm (p : prog A) h p' h' : cond h -> (forall a, In a dd -> flagged h a) ->
  duty Q rest dd l lm p -> access p h = Some (p', h') ->
  cond h' /\ (forall a, flagged h a -> flagged h' a) /\ (forall a, stored h a -> stored h' a) /\
  exists dd' l' lm', duty Q rest dd' l' lm' p' /\ (forall a, In a dd' -> flagged h' a) /\
    (forall b, In b l -> stored h' b \/ In b l') /\ (forall b, In b lm \/ settled h b -> settled h' b \/ In b lm').
Proof.
  intros S FL D.
  destruct D as [dd lm x HQ I|dd l lm a s k E H|dd l lm r i c k E H|dd l lm lm' a s y m k E V Y M B1 B2 I H|dd l l' lm lm' a s v k E V B I B2 J H];
    cbn [access]; try discriminate.
  - destruct (cd_node h S a s E) as (t & Et & LK & DT & _). rewrite Et. intros X. injection X as <- <-.
    split; [exact S|]. split; [auto|]. split; [auto|]. exists dd, l, lm. split; [|split; [auto|split; [auto|tauto]]].
    apply H; auto. intros Ha. destruct (FL a Ha) as (t' & Et' & F). assert (t' = t) as -> by congruence. exact F.
  - rewrite (cd_arr h S), E. intros X. injection X as <- <-. split; [exact S|]. split; [auto|]. split; [auto|]. exists dd, l, lm.
    split; [exact H|]. split; [auto|]. split; [auto|tauto].
  - destruct (cd_node h S a s E) as (t & Et & (A1 & A2 & A3 & A4 & A5 & A6 & _) & DT & _). rewrite Et. intros X. injection X as <- <-.
    split; [|split; [|split]].
    + constructor; cbn; [apply (cd_arr h S)|apply (cd_nn h S)| |].
      * intros b Eb. destruct (Nat.eqb_spec b a) as [->|N]; [congruence|now apply (cd_none h S)].
      * intros b sb Eb. destruct (Nat.eqb_spec b a) as [->|N]; [|now apply (cd_node h S)].
        assert (sb = s) as -> by congruence. eexists. split; [reflexivity|]. split; [|split; [exact DT|right; exact V]].
        unfold like. cbn. repeat split; auto. eauto.
    + intros b (u & Eu & Mu). unfold flagged, at_node. cbn. destruct (Nat.eqb_spec b a) as [->|N]; [|eauto].
      eexists. split; [reflexivity|]. exact B1.
    + intros b (u & Eu & Mu & Fu). unfold stored, at_node. cbn. destruct (Nat.eqb_spec b a) as [->|N]; [|eauto].
      eexists. split; [reflexivity|]. cbn. assert (u = t) as -> by congruence. auto.
    + exists (a :: dd), l, lm'. split; [exact H|]. split; [|split; [auto|]].
      * intros b [<-|Hb].
        { unfold flagged, at_node. cbn. rewrite Nat.eqb_refl. eexists. split; [reflexivity|]. exact B1. }
        destruct (FL b Hb) as (u & Eu & Fu). unfold flagged, at_node. cbn. destruct (Nat.eqb_spec b a) as [->|N]; [|eauto].
        eexists. split; [reflexivity|]. exact B1.
      * assert (MA : has_bit NTModified y -> settled (set_node h a (w_type y t)) a).
        { intros MY. unfold settled, at_node. cbn. rewrite Nat.eqb_refl. eexists. split; [reflexivity|]. left. exact MY. }
        intros b [Hb|(u & Eu & Mu)].
        { destruct (I b Hb) as [[-> MY]|Hb']; auto. }
        destruct (Nat.eq_dec b a) as [->|N].
        { destruct B2 as [MY|Hb]; auto. }
        left. unfold settled, at_node. cbn. destruct (Nat.eqb_spec b a); [easy|]. eauto.
  - destruct (cd_node h S a s E) as (t & Et & LK & DT & TY). rewrite Et. intros X. injection X as <- <-.
    assert (KT : forall b (P : N -> Prop), at_node h b (fun t => P (htype t)) -> at_node (set_node h a (w_data v t)) b (fun t => P (htype t))).
    { intros b P (u & Eu & Pu). unfold at_node. cbn. destruct (Nat.eqb_spec b a) as [->|N]; [|eauto].
      eexists. split; [reflexivity|]. cbn. assert (u = t) as -> by congruence. exact Pu. }
    assert (ST : forall b, b = a \/ stored h b -> stored (set_node h a (w_data v t)) b).
    { intros b Hb. unfold stored, at_node. cbn. destruct (Nat.eqb_spec b a) as [->|N].
      - eexists. split; [reflexivity|]. cbn. split; [exact V|]. destruct (FL a B) as (u & Eu & Fu). assert (u = t) as -> by congruence. exact Fu.
      - destruct Hb as [->|(u & Eu & Pu)]; [easy|]. eauto. }
    split; [|split; [|split]].
    + constructor; cbn; [apply (cd_arr h S)|apply (cd_nn h S)| |].
      * intros b Eb. destruct (Nat.eqb_spec b a) as [->|N]; [congruence|now apply (cd_none h S)].
      * intros b sb Eb. destruct (Nat.eqb_spec b a) as [->|N]; [|now apply (cd_node h S)].
        assert (sb = s) as -> by congruence. eexists. split; [reflexivity|]. split; [exact LK|]. split; [right; exact V|exact TY].
    + intros b. apply KT.
    + auto.
    + exists dd, l', lm'. split; [exact H|]. split; [|split].
      * intros b Hb. apply (KT b (has_bit NTData)). now apply FL.
      * intros b Hb. destruct (I b Hb) as [->|]; auto.
      * assert (MA : lod a v -> settled (set_node h a (w_data v t)) a).
        { intros LV. unfold settled, at_node. cbn. rewrite Nat.eqb_refl. eexists. split; [reflexivity|]. right. exact LV. }
        intros b [Hb|(u & Eu & Mu)].
        { destruct (J b Hb) as [[-> LV]|Hb']; auto. }
        destruct (Nat.eq_dec b a) as [->|N].
        { destruct B2 as [LV|Hb]; auto. }
        left. unfold settled, at_node. cbn. destruct (Nat.eqb_spec b a); [easy|]. eauto.
Qed.

(** all programs do their duty; [L i]: what program [i] is to write; [T]: what is to be settled in the end *)
Definition busy {A} (Q : nat -> A -> Prop) (L : nat -> list nat) (T : nat -> Prop) (ps : list (prog A)) (h : heap) : Prop :=
  cond h /\ exists lm : nat -> list nat,
  (forall i p, nth_error ps i = Some p -> exists dd l', duty (fun _ => Q i) [] dd l' (lm i) p /\ (forall a, In a dd -> flagged h a) /\
     forall b, In b (L i) -> stored h b \/ In b l') /\
  (forall b, T b -> settled h b \/ exists i, i < length ps /\ In b (lm i)).
Lemma nth_put {A} (l : list A) i j x : nth_error (put l i x) j = if j =? i then match nth_error l i with Some _ => Some x | None => None end else nth_error l j.
Proof.
  revert i j. induction l as [|a l IH]; intros [|i] [|j]; cbn; auto; now destruct (j =? i).
Qed.
Lemma turn_busy {A} Q L T (ps : list (prog A)) h i : busy Q L T ps h -> busy Q L T (fst (turn ps h i)) (snd (turn ps h i)).
Proof.
  intros (S & lm & B & TT). unfold turn. destruct (nth_error ps i) as [p|] eqn:E; [|split; eauto].
  destruct (access p h) as [[p' h']|] eqn:AC; [|split; eauto]. cbn [fst snd].
  destruct (B i p E) as (dd & l' & D & FL & W). destruct (access_duty _ _ _ _ _ _ _ _ _ S FL D AC) as (S' & F' & ST & dd2 & l2 & lm2 & D2 & FL2 & W2 & M2).
  split; [exact S'|]. exists (fun j => if j =? i then lm2 else lm j). split.
  - intros j q. rewrite nth_put, E. destruct (Nat.eqb_spec j i) as [->|N].
    + intros X. injection X as <-. exists dd2, l2. split; [exact D2|]. split; [exact FL2|]. intros b Hb. destruct (W b Hb); auto.
    + intros Eq. destruct (B j q Eq) as (dd3 & l3 & D3 & FL3 & W3). exists dd3, l3. split; [exact D3|]. split; [auto|].
      intros b Hb. destruct (W3 b Hb); auto.
  - intros b Hb. rewrite put_length. assert (LI : i < length ps) by (apply nth_error_Some; congruence).
    assert (Z : settled h' b \/ In b lm2 -> settled h' b \/ exists j, j < length ps /\ In b (if j =? i then lm2 else lm j)).
    { intros [X|X]; [auto|]. right. exists i. now rewrite Nat.eqb_refl. }
    destruct (TT b Hb) as [M|(j & Lj & Ij)]; [auto|]. destruct (Nat.eq_dec j i) as [->|N]; [auto|].
    right. exists j. destruct (Nat.eqb_spec j i); [easy|auto].
Qed.
Lemma schedule_busy {A} Q L T sch : forall (ps : list (prog A)) h, busy Q L T ps h ->
  busy Q L T (fst (schedule sch ps h)) (snd (schedule sch ps h)).
Proof.
  unfold schedule. induction sch as [|i sch IH]; intros ps h F; [exact F|]. cbn [fold_left fst snd].
  pose proof (turn_busy Q L T ps h i F) as X. destruct (turn ps h i) as [ps1 h1]. now apply IH.
Qed.

(** ** Set of a key that exists is such a program *)
Variable grow : nat -> nat.
Definition reached_key (m : node) (dd : list nat) (r : nat * gval * list cbcall) : Prop :=
  fst (fst r) = nid m /\ In (nid m) dd /\ (snd (fst r) = ndata m \/ may (nid m) (snd (fst r))).
Lemma insert_duty rest f : forall n word m fp v dd, hwf h0 -> repr h0 n -> wfn n -> In (word, m) (ents [] n) -> may (nid m) v ->
  length word + (match npath n with [] => 1 | _ => 0 end) < f -> (rest = [nid m] \/ rest = [] /\ lod (nid m) v) ->
  duty (reached_key m) rest dd [nid m] [nid m] (p_insert grow f (nid n) word fp v).
Proof.
  induction f as [|f IH]; intros n word m fp v dd W R WF IN M L RS; [lia|].
  pose proof R as R0. apply repr_eq in R. destruct R as [(s & E & Ft & K) Rk]. pose proof Ft as (P1 & _ & P3 & _).
  cbn [p_insert]. apply du_node with s; [exact E|]. intros t (T1 & _ & T3 & _) _ _. rewrite T1, T3, P1.
  rewrite (kids_len h0 _ s _ W E K), map_length. rewrite ents_eq in IN. cbn [app] in IN. destruct IN as [X|X].
  - injection X as <- <-.
    replace ((length (npath n) =? 0) && ((0 <? length (npath n)) && (length (nkids n) =? 0))) with false
      by (destruct (npath n); reflexivity).
    replace (if (0 <? length (npath n)) && (0 <? length (npath n)) then cpl_len (npath n) (npath n) else 0) with (length (npath n)).
    2: { destruct (npath n) as [|a p]; [reflexivity|]. cbn [length Nat.ltb Nat.leb andb].
         pose proof (cpl_app (a :: p) []) as H. rewrite app_nil_r in H. now rewrite H. }
    rewrite Nat.ltb_irrefl. cbn [seqp]. apply du_node with s; [exact E|]. intros b LK _ _.
    destruct (like_type s b NTData LK eq_refl) as (m & Em & Mm).
    apply du_type with (lm' := [nid n]) (s := s) (m := m); eauto.
    { now apply has_lor. }
    { right. now left. }
    apply du_node with s; [exact E|]. intros b' _ DT _. apply du_data with (l' := []) (lm' := rest) (s := s); auto; [now left| | | |].
    { intros b0 [<-|[]]. auto. }
    { destruct RS as [->|[_ LV]]; [right; now left|now left]. }
    { intros b0 [<-|[]]. destruct RS as [->|[_ LV]]; [right; now left|now left]. }
    constructor; [|apply incl_refl]. split; [reflexivity|]. split; [now left|]. cbn [fst snd]. rewrite <- P3. exact DT.
  - apply in_flat_map in X. destruct X as (c & Hc & X). rewrite ents_shift in X. apply in_map_iff in X.
    destruct X as ((w' & q) & X & IN). cbn in X. injection X as <- ->.
    destruct (wfn_kids _ _ WF Hc) as [NE Wc]. destruct (ents_head _ _ _ IN) as [z Ez].
    assert (NE' : w' <> []) by (intros ->; destruct (npath c); [congruence|discriminate]).
    destruct w' as [|w0 w']; [congruence|].
    replace (length (nkids n) =? 0) with false by (symmetry; apply Nat.eqb_neq; destruct (nkids n); [easy|cbn; lia]).
    rewrite !andb_false_r.
    replace (if (0 <? length (npath n)) && (0 <? length (npath n ++ w0 :: w')) then cpl_len (npath n ++ w0 :: w') (npath n) else 0)
      with (length (npath n)).
    2: { rewrite cpl_app. destruct (npath n); reflexivity. }
    rewrite Nat.ltb_irrefl. cbn [seqp].
    replace (length (npath n) <? length (npath n ++ w0 :: w')) with true
      by (symmetry; apply Nat.ltb_lt; rewrite app_length; cbn; lia).
    replace (if 0 <? length (npath n) then skipn (length (npath n)) (npath n ++ w0 :: w') else npath n ++ w0 :: w') with (w0 :: w').
    2: { destruct (npath n) as [|a p]; [reflexivity|]. symmetry. apply skip_app. }
    apply du_node with s; [exact E|]. intros b (_ & _ & B3 & _) _ _. rewrite B3.
    pose proof (kids_len h0 _ s _ W E K) as KL. rewrite map_length in KL.
    assert (FR : fst_rune c = Some w0).
    { unfold fst_rune. destruct (npath c) as [|x p]; [congruence|]. cbn in Ez. now injection Ez as ->. }
    destruct (matchChildren_spec w0 w' (nkids n)) as [(l & c' & rr & MC & Ek & FR')|[_ NO]].
    { apply Forall_forall. intros k Hk. now apply (wfn_kids n). }
    2: { exfalso. now apply (NO c). }
    assert (c' = c) as ->.
    { apply (nodup_fst_eq (nkids n)); [now apply wfn_nodup| |exact Hc|congruence]. rewrite Ek. apply in_app_iff. right. now left. }
    rewrite KL. apply reads_duty with (x := Some (nid c)).
    + apply match_reads with l rr; auto. cbn [skipn]. rewrite <- KL. exact K.
    + change [nid m] with ([nid m] ++ []) at 1. eapply duty_seq.
      * rewrite Forall_forall in Rk. apply IH; auto. destruct (npath c) as [|x p]; [congruence|].
        rewrite app_length in L. cbn [length] in L. destruct (npath n); cbn [length] in *; lia.
      * intros dd' [[id old] calls] HQ. constructor; [exact HQ|apply incl_refl].
Qed.
Lemma query_duty rf h R nx dep p r dd lm : hwf h0 -> repr h0 R -> depth R <= dep ->
  search rf h (Tr R nx) (full h p) = Ok r ->
  duty (fun _ q => q_found q = q_found (query_of (hdelim h) r)) lm dd [] lm (p_query rf dep h (nid R) p).
Proof.
  intros W RR D S. unfold p_query. eapply reads_duty; [apply search_reads with (nx := nx); eauto|].
  unfold query_of, sids. cbn [hs_node hs_partial hs_kv].
  destruct (Trie.s_node r) as [n|] eqn:N; cbn [option_map]; [|constructor; [reflexivity|apply incl_refl]].
  destruct (Trie.s_partial r); [constructor; [reflexivity|apply incl_refl]|].
  pose proof (sub_repr _ _ _ RR (search_child _ _ _ _ _ _ _ S N)) as Rn. apply repr_eq in Rn. destruct Rn as [(s & E & Ft & _) _].
  destruct Ft as (P1 & P2 & P3 & P4 & P5 & P6 & P7).
  assert (BR : isBranch (view (nid n) s) = isBranch n) by (unfold isBranch, view; cbn; now rewrite P7).
  assert (EN : forall t, same s t -> endsWith (view (nid n) t) (hdelim h) = endsWith n (hdelim h))
    by (intros t (T & _); unfold endsWith, view; cbn; now rewrite T, P1).
  apply du_node with s; auto. intros t1 A1 _ _. rewrite (like_branch _ (nid n) s t1 A1), BR.
  assert (X : reads h0 (if isBranch n then endsWith n (hdelim h) else true)
     (if isBranch n then GetN (nid n) (fun n2 => Ret (endsWith (view (nid n) n2) (hdelim h))) else Ret true)).
  { destruct (isBranch n); [|constructor]. apply reads_node with s; auto. intros t2 A2. rewrite EN; auto. constructor. }
  eapply reads_duty; [exact X|]. apply du_node with s; auto. intros t3 A3 _ _.
  destruct (hasData (view (nid n) t3)); [apply du_node with s; auto; intros t4 _ _ _|]; (constructor; [reflexivity|apply incl_refl]).
Qed.
End Duty.

(** the key Set of the store writes to, radix/trie.go:384-398 *)
Definition skey (s : store) (p : gostring) : gostring := replace_byte 32 45 (full (so_h s) p).
Definition some_put (jobs : list (list (store * gostring * gval))) (R : node) (a : nat) (v : gval) : Prop :=
  exists job s p, In job jobs /\ In (s, p, v) job /\ key_at R (skey s p) a.
(** and this by a handle within loading *)
Definition some_load (jobs : list (list (store * gostring * gval))) (R : node) (a : nat) (v : gval) : Prop :=
  exists job s p, In job jobs /\ In (s, p, v) job /\ key_at R (skey s p) a /\ so_loading s = true.
(** what a Set gives: an old value, and the calls for it *)
Definition told rf (may : nat -> gval -> Prop) (R : node) (nx : nat) (e : store * gostring * gval) (x : gval * list ev) : Prop :=
  let '(s, p, v) := e in exists m q, In (runes (skey s p), m) (ents [] R) /\ Query rf (so_h s) (Tr R nx) p = Ok q /\
    (fst x = ndata m \/ may (nid m) (fst x)) /\
    snd x = tryOnSet s p (negb (so_loading s)) (fst x) v
      (if negb (so_loading s) then if gval_is_nil (fst x) then negb (q_found q) else false else negb (q_found q)).

Lemma reload_repr' h0 (may : nat -> gval -> Prop) h n : repr h0 n -> cond h0 may h -> repr h (reload h n).
Proof.
  intros R S. induction n as [n IH] using node_ind'. apply repr_eq in R. destruct R as [(s & E & Ft & K) Rk].
  destruct (cd_node _ _ _ S _ _ E) as (t & Et & (A1 & A2 & A3 & A4 & A5 & A6 & _) & _).
  apply repr_eq. rewrite reload_eq, Et. cbn [nid nkids]. split.
  - exists t. split; [exact Et|]. destruct Ft as (P1 & P2 & P3 & P4 & P5 & P6 & P7). split.
    + unfold fits. cbn. repeat split; congruence.
    + unfold kids_of. rewrite A3, (cd_arr _ _ _ S). rewrite map_map. erewrite map_ext; [exact K|]. intros k. now rewrite reload_eq.
  - apply Forall_map. rewrite Forall_forall in *. auto.
Qed.
Lemma repr_ents h n pre k m : repr h n -> In (k, m) (ents pre n) -> exists s, hn h (nid m) = Some s /\ fits m s.
Proof.
  revert pre k. induction n as [n IH] using node_ind'. intros pre k RR. apply repr_eq in RR. destruct RR as [(s & E & Ft & _) Rk].
  rewrite ents_eq. intros [X|X].
  - injection X as <- <-. eauto.
  - apply in_flat_map in X. destruct X as (c & Hc & X). rewrite Forall_forall in IH, Rk. apply (IH c Hc _ _ (Rk c Hc) X).
Qed.
Lemma key_at_unique h R k a b : tree_in h R -> key_at R k a -> key_at R k b -> a = b.
Proof.
  intros (_ & _ & (_ & WF & _) & _) (m & Hm & <-) (m' & Hm' & <-). cbn [root] in *.
  assert (X : Some (info_of m) = Some (info_of m')).
  { transitivity (look R (runes k)).
    - symmetry. apply look_in; auto. unfold ients. apply in_map_iff. exists (runes k, m). auto.
    - apply look_in; auto. unfold ients. apply in_map_iff. exists (runes k, m'). auto. }
  injection X as X. congruence.
Qed.

Lemma schedule_length {A} sch : forall (ps : list (prog A)) h, length (fst (schedule sch ps h)) = length ps.
Proof.
  unfold schedule. induction sch as [|i sch IH]; intros ps h; [reflexivity|]. cbn [fold_left fst snd].
  assert (X : length (fst (turn ps h i)) = length ps).
  { unfold turn. destruct (nth_error ps i) as [p|]; [|reflexivity]. destruct (access p h) as [[p' h']|]; [|reflexivity]. apply put_length. }
  destruct (turn ps h i) as [ps1 h1]. now rewrite IH.
Qed.

Section Jobs.
Variable grow : nat -> nat.
Variable rf : nat.
Lemma storeSet_duty h0 (may lod : nat -> gval -> Prop) s R nx p v m q dep dd : tree_in h0 R -> depth R <= dep ->
  (so_loading s = true -> lod (nid m) v) ->
  In (runes (skey s p), m) (ents [] R) -> may (nid m) v -> Query rf (so_h s) (Tr R nx) p = Ok q ->
  duty h0 may lod (fun _ => told rf may R nx (s, p, v)) [] dd [nid m] [nid m] (p_storeSet grow rf dep s (nid R) p v).
Proof.
  intros (W & RR & (WR & WF & PL) & ID) D NL IN MV EQ. cbn [root] in *. unfold p_storeSet.
  unfold Query in EQ. destruct (search rf (so_h s) (Tr R nx) (full (so_h s) p)) as [r| |] eqn:S; cbn [bind] in EQ; try discriminate.
  injection EQ as <-. change [nid m] with ([] ++ [nid m]) at 1. eapply duty_seq.
  - apply query_duty with (nx := nx) (r := r); auto.
  - intros dd1 q1 Q1. unfold p_setKV. fold (skey s p). change [nid m] with ([nid m] ++ []) at 1.
    apply duty_seq with (Q := reached_key may m) (rest := if so_loading s then [] else [nid m]).
    + unfold p_set. apply insert_duty; eauto; [rewrite WR; lia|]. destruct (so_loading s); auto.
    + intros dd2 [[a old] calls] (X & I2 & O). cbn [fst snd] in X, O. subst a.
      assert (TO : told rf may R nx (s, p, v) (old, tryOnSet s p (negb (so_loading s)) old v
         (if negb (so_loading s) then if gval_is_nil old then negb (q_found q1) else false else negb (q_found q1)))).
      { unfold told. exists m, (query_of (hdelim (so_h s)) r). split; [exact IN|]. cbn [fst snd].
        split; [unfold Query; rewrite S; reflexivity|]. split; [exact O|]. now rewrite Q1. }
      destruct (so_loading s); cbn [negb seqp] in *; [constructor; [exact TO|apply incl_refl]|].
      apply repr_ents with (2 := IN) in RR. destruct RR as (sm & Em & _).
      unfold p_setModified. cbn [seqp]. apply du_node with sm; [exact Em|]. intros t LK _ FL.
      destruct (like_type sm t NTModified LK eq_refl) as (b & Eb & Mb).
      apply du_type with (lm' := []) (s := sm) (m := b); eauto.
      * apply has_lor_l. auto.
      * left. now apply has_lor.
      * intros c [<-|[]]. left. split; [reflexivity|now apply has_lor].
      * constructor; [exact TO|intros c []].
Qed.
Lemma storeSets_duty h0 (may lod : nat -> gval -> Prop) R nx dep job : tree_in h0 R -> depth R <= dep ->
  (forall s p v, In (s, p, v) job -> (exists a, key_at R (skey s p) a /\ may a v /\ (so_loading s = true -> lod a v)) /\
     exists q, Query rf (so_h s) (Tr R nx) p = Ok q) ->
  exists l, (forall dd, duty h0 may lod (fun _ => Forall2 (told rf may R nx) job) [] dd l l (p_storeSets grow rf dep (nid R) job)) /\
    forall s p v a, In (s, p, v) job -> key_at R (skey s p) a -> In a l.
Proof.
  intros T D. induction job as [|[[s p] v] job IH]; intros H; cbn [p_storeSets].
  - exists []. split; [|easy]. intros dd. constructor; [constructor|apply incl_refl].
  - destruct IH as (l & DU & I); [intros s' p' v' X; apply H; now right|].
    destruct (H s p v (or_introl eq_refl)) as ((a & Ka & Ma & La) & q & Eq). pose proof Ka as (m & Hm & <-).
    exists ([nid m] ++ l). split.
    + intros dd. eapply duty_seq.
      * apply (duty_frame _ _ _ (fun _ => told rf may R nx (s, p, v)) l [] dd [nid m] [nid m]). apply storeSet_duty with (q := q); auto.
      * cbn [app]. intros dd1 x Hx. replace l with (l ++ []) at 1 by apply app_nil_r. eapply duty_seq; [apply DU|].
        intros dd2 xs Hxs. constructor; [now constructor|apply incl_refl].
    + intros s' p' v' a [X|X] K.
      * injection X as <- <- <-. left. now apply key_at_unique with (1 := T) (2 := Ka).
      * apply in_app_iff. right. eauto.
Qed.

Lemma race_store h0 R nx jobs dep sch : tree_in h0 R -> depth R <= dep ->
  (forall job s p v, In job jobs -> In (s, p, v) job -> (exists a, key_at R (skey s p) a) /\
     exists q, Query rf (so_h s) (Tr R nx) p = Ok q) ->
  let (ps, h) := schedule sch (map (p_storeSets grow rf dep (nid R)) jobs) h0 in
  (forall p, In p ps -> p <> Die /\ p <> Spin) /\
  (forall i job xs, nth_error jobs i = Some job -> nth_error ps i = Some (Ret xs) -> Forall2 (told rf (some_put jobs R) R nx) job xs) /\
  exists R', repr h R' /\ map shape (ents [] R') = map shape (ents [] R) /\
    (forall k m', In (k, m') (ents [] R') -> exists m, In (k, m) (ents [] R) /\ nid m' = nid m /\
       (ndata m' = ndata m \/ some_put jobs R (nid m) (ndata m')) /\
       ((forall v, ~ some_put jobs R (nid m) v) -> ndata m' = ndata m /\ ntype m' = ntype m) /\
       ((forall p, In p ps -> exists x, p = Ret x) -> (exists v, some_put jobs R (nid m) v) ->
          some_put jobs R (nid m) (ndata m') /\ hasData m' = true /\
          (modified m' = true \/ some_load jobs R (nid m) (ndata m')))).
Proof.
  intros T D H. set (may := some_put jobs R). set (lod := some_load jobs R). pose proof T as (W & RR & _).
  assert (EX : exists L : nat -> list nat, forall i job, nth_error jobs i = Some job ->
     (forall dd, duty h0 may lod (fun _ => Forall2 (told rf may R nx) job) [] dd (L i) (L i) (p_storeSets grow rf dep (nid R) job)) /\
     forall s p v a, In (s, p, v) job -> key_at R (skey s p) a -> In a (L i)).
  { assert (Y : forall js, incl js jobs -> exists L : nat -> list nat, forall i job, nth_error js i = Some job ->
     (forall dd, duty h0 may lod (fun _ => Forall2 (told rf may R nx) job) [] dd (L i) (L i) (p_storeSets grow rf dep (nid R) job)) /\
     forall s p v a, In (s, p, v) job -> key_at R (skey s p) a -> In a (L i)); [|apply Y, incl_refl].
    induction js as [|j js IH]; intros I; [exists (fun _ => []); intros [|i]; discriminate|].
    destruct IH as (L & HL); [intros x Hx; apply I; now right|].
    destruct (storeSets_duty h0 may lod R nx dep j T D) as (l & DU & O).
    { intros s p v Hin. destruct (H j s p v (I j (or_introl eq_refl)) Hin) as ((a & Ha) & Q). split; [|exact Q].
      exists a. split; [exact Ha|]. split; [|intros LO]; exists j, s, p; (split; [apply I; now left|]); auto. }
    exists (fun i => match i with O => l | S i => L i end). intros [|i] job X; cbn in X; [|now apply HL].
    injection X as <-. auto. }
  destruct EX as (L & HL).
  set (Q := fun i xs => forall job, nth_error jobs i = Some job -> Forall2 (told rf may R nx) job xs).
  assert (B : busy h0 may lod Q L (fun b => exists i, i < length jobs /\ In b (L i)) (map (p_storeSets grow rf dep (nid R)) jobs) h0).
  { split; [apply cond_refl|]. exists L. split.
    - intros i p X. rewrite nth_error_map in X. destruct (nth_error jobs i) as [job|] eqn:Ej; [|discriminate]. injection X as <-.
      exists [], (L i). split; [|split; [easy|auto]]. destruct (HL i job Ej) as [DU _].
      eapply duty_mono; [|apply DU]. cbn. intros _ x Hx j Ej'. assert (j = job) as -> by congruence. exact Hx.
    - intros b X. right. now rewrite map_length. }
  apply schedule_busy with (sch := sch) in B. pose proof (schedule_length sch (map (p_storeSets grow rf dep (nid R)) jobs) h0) as LEN.
  rewrite map_length in LEN. destruct (schedule sch _ h0) as [ps h]. cbn [fst snd] in *. destruct B as (S & lm & B & TT). split; [|split].
  - intros p Hp. apply In_nth_error in Hp. destruct Hp as [i Ei]. destruct (B i p Ei) as (dd & l & DU & _).
    split; intros ->; inversion DU.
  - intros i job xs Ej Ei. destruct (B i _ Ei) as (dd & l & DU & _). inversion DU; subst. auto.
  - exists (reload h R). split; [now apply reload_repr' with (2 := S)|]. split; [apply reload_shape|].
    intros k m' Hin. rewrite reload_ents in Hin. apply in_map_iff in Hin. destruct Hin as ([k0 m] & X & Hm). cbn in X.
    injection X as -> <-. exists m. split; [exact Hm|]. split; [now rewrite reload_eq|].
    destruct (repr_ents _ _ _ _ _ RR Hm) as (s & Es & Fs). pose proof Fs as (_ & _ & P3 & _ & _ & _ & P7).
    destruct (cd_node _ _ _ S _ _ Es) as (t & Et & LK & DT & TY).
    rewrite reload_eq, Et. unfold modified, hasData. cbn [ndata ntype]. rewrite P3, P7 in *. split; [exact DT|]. split.
    + intros NO. split; [|destruct TY as [TY|(v & V)]; [exact TY|now destruct (NO v)]].
      destruct DT as [DT|V]; [exact DT|now destruct (NO _ V)].
    + intros FIN (v & job & s1 & p1 & Hj & Hk & Ka). apply In_nth_error in Hj. destruct Hj as [i Ei].
      destruct (HL i job Ei) as [_ O]. specialize (O _ _ _ _ Hk Ka).
      assert (RET : forall j q, nth_error ps j = Some q -> exists x, q = Ret x) by (intros j q Eq; apply FIN; now apply nth_error_In with j).
      assert (Li : i < length jobs) by (apply nth_error_Some; congruence).
      destruct (nth_error ps i) as [p|] eqn:Ep; [|apply nth_error_None in Ep; lia].
      destruct (B i p Ep) as (dd & l & DU & _ & ST). destruct (RET i p Ep) as [x ->]. inversion DU; subst.
      destruct (ST _ O) as [(t1 & Et1 & V1 & F1)|[]]. assert (t1 = t) as -> by congruence. split; [exact V1|].
      destruct (TT (nid m)) as [(t2 & Et2 & M2)|(j & Lj & Ij)]; [eauto| |].
      * assert (t2 = t) as -> by congruence. unfold has_bit in *.
        split; [apply negb_true_iff, N.eqb_neq; assumption|]. destruct M2 as [M2|M2]; [left|right; exact M2].
        apply negb_true_iff, N.eqb_neq; assumption.
      * destruct (nth_error ps j) as [pj|] eqn:Epj; [|apply nth_error_None in Epj; lia].
        destruct (B j pj Epj) as (dd1 & l1 & DU1 & _). destruct (RET j pj Epj) as [y ->]. inversion DU1 as [? ? ? ? NI| | | |]; subst.
        now destruct (NI _ Ij).
Qed.
End Jobs.

(** keys that exist as leaves: the change handlers, with an old value *)
Lemma race_leaves grow rf D h0 t jobs dep sch : tree_in h0 (root t) -> plain_reach D t -> depth (root t) <= dep ->
  (forall job s p v, In job jobs -> In (s, p, v) job -> so_loading s = false /\ D (hdelim (so_h s)) /\ blank_free (full (so_h s) p) /\
     exists a, t_get t (runes (full (so_h s) p)) = Some a /\ a_leaf a = true) ->
  let (ps, h) := schedule sch (map (p_storeSets grow (S rf) dep (nid (root t))) jobs) h0 in
  (forall p, In p ps -> p <> Die /\ p <> Spin) /\
  (forall i job xs, nth_error jobs i = Some job -> nth_error ps i = Some (Ret xs) ->
     Forall2 (fun e x => let '(s, p, v) := e in exists a, t_get t (runes (full (so_h s) p)) = Some a /\
        (fst x = a_data a \/ exists job' s' p', In job' jobs /\ In (s', p', fst x) job' /\
           runes (full (so_h s') p') = runes (full (so_h s) p)) /\
        snd x = map (fun i => EChange i p v (fst x) true) (listeners so_chg s)) job xs) /\
  exists R', repr h R' /\ map shape (ents [] R') = map shape (ents [] (root t)) /\
    ((forall p, In p ps -> exists x, p = Ret x) -> forall job s p v, In job jobs -> In (s, p, v) job ->
       exists m' job' s' p', In (runes (full (so_h s) p), m') (ents [] R') /\ modified m' = true /\ hasData m' = true /\
         In job' jobs /\ In (s', p', ndata m') job' /\ runes (full (so_h s') p') = runes (full (so_h s) p)).
Proof.
  intros T PR DP H. destruct (plain_reach_inv D t PR) as [WT PA].
  assert (SK : forall job s p v, In job jobs -> In (s, p, v) job -> skey s p = full (so_h s) p).
  { intros job s p v Hj Hk. destruct (H job s p v Hj Hk) as (_ & _ & B & _). unfold skey. now apply blank_free_replace. }
  assert (NODE : forall w a, t_get t w = Some a -> exists m, In (w, m) (ents [] (root t)) /\ a = attr_of (info_of m)).
  { intros w a Ha. unfold t_get in Ha. rewrite <- (abs_entries t) in Ha.
    destruct (look (root t) w) as [i|] eqn:L; [|discriminate]. injection Ha as <-. apply look_in in L; [|apply WT].
    unfold ients in L. apply in_map_iff in L. destruct L as ([k m] & X & IN). injection X as -> <-. eauto. }
  assert (INJ : forall k1 m1 k2 m2, In (k1, m1) (ents [] (root t)) -> In (k2, m2) (ents [] (root t)) -> nid m1 = nid m2 -> k1 = k2 /\ info_of m1 = info_of m2).
  { intros k1 m1 k2 m2 I1 I2 E. apply (ids_inj (next t) (ients [] (root t))); auto; [apply WT| |].
    - unfold ients. apply in_map_iff. exists (k1, m1). auto.
    - unfold ients. apply in_map_iff. exists (k2, m2). auto. }
  pose proof (race_store grow (S rf) h0 (root t) (next t) jobs dep sch T DP) as RS.
  assert (HQ : forall job s p v a, In job jobs -> In (s, p, v) job -> t_get t (runes (full (so_h s) p)) = Some a ->
     exists q, Query (S rf) (so_h s) (Tr (root t) (next t)) p = Ok q /\ q_found q = (a_leaf a || ends_with (hdelim (so_h s)) (runes (full (so_h s) p)))).
  { intros job s p v a Hj Hk Ha. destruct (H job s p v Hj Hk) as (_ & Dd & _).
    destruct (query_present D rf (so_h s) t p a PR Dd Ha) as (q & EQ & _ & _ & Q3). exists q. destruct t. auto. }
  destruct (schedule sch _ h0) as [ps h]. destruct RS as (ND & TOLD & R' & RR & SH & FIN).
  { intros job s p v Hj Hk. destruct (H job s p v Hj Hk) as (NL & Dd & B & a & Ha & _). split.
    - rewrite (SK job s p v Hj Hk). destruct (NODE _ _ Ha) as (m & IN & _). exists (nid m), m. auto.
    - destruct (HQ job s p v a Hj Hk Ha) as (q & EQ & _). eauto. }
  split; [exact ND|]. split.
  - intros i job xs Ej Ei. specialize (TOLD i job xs Ej Ei). apply nth_error_In in Ej.
    assert (Y : forall js, incl js job -> forall xs, Forall2 (told (S rf) (some_put jobs (root t)) (root t) (next t)) js xs ->
      Forall2 (fun e x => let '(s, p, v) := e in exists a, t_get t (runes (full (so_h s) p)) = Some a /\
        (fst x = a_data a \/ exists job' s' p', In job' jobs /\ In (s', p', fst x) job' /\
           runes (full (so_h s') p') = runes (full (so_h s) p)) /\
        snd x = map (fun i => EChange i p v (fst x) true) (listeners so_chg s)) js xs); [|now apply (Y job (incl_refl _))].
    intros js I ys F. induction F as [|[[s p] v] x js ys TL F IH]; constructor.
    2: { apply IH. intros z Hz. apply I. now right. }
    assert (Hk : In (s, p, v) job) by (apply I; now left). destruct (H job s p v Ej Hk) as (NL & _ & _ & a & Ha & LF).
    exists a. split; [exact Ha|]. destruct TL as (m & q & IN & EQ & OLD & EV). rewrite (SK job s p v Ej Hk) in IN.
    destruct (NODE _ _ Ha) as (m1 & IN1 & ->).
    assert (M1 : info_of m = info_of m1).
    { assert (X : Some (info_of m) = Some (info_of m1)); [|congruence].
      transitivity (look (root t) (runes (full (so_h s) p))).
      - symmetry. apply look_in; [apply WT|]. unfold ients. apply in_map_iff. exists (runes (full (so_h s) p), m). auto.
      - apply look_in; [apply WT|]. unfold ients. apply in_map_iff. exists (runes (full (so_h s) p), m1). auto. }
    split.
    + destruct OLD as [OLD|(job' & s' & p' & Hj' & Hk' & (m2 & IN2 & E2))].
      * left. rewrite OLD. rewrite <- M1. reflexivity.
      * right. exists job', s', p'. split; [exact Hj'|]. split; [exact Hk'|]. rewrite (SK job' s' p' _ Hj' Hk') in IN2.
        now destruct (INJ _ _ _ _ IN2 IN E2).
    + destruct (HQ job s p v _ Ej Hk Ha) as (q' & EQ' & F'). assert (q' = q) as -> by congruence. rewrite LF in F'. cbn [orb] in F'.
      rewrite EV, F', NL, tryOnSet_listeners. cbn [negb]. now destruct (gval_is_nil (fst x)).
  - exists R'. split; [exact RR|]. split; [exact SH|]. intros ALL job s p v Hj Hk.
    destruct (H job s p v Hj Hk) as (_ & _ & _ & a & Ha & LF). destruct (NODE _ _ Ha) as (m & IN & _).
    assert (EX : exists m', In (runes (full (so_h s) p), m') (ents [] R') /\ nid m' = nid m).
    { assert (Z : In (shape (runes (full (so_h s) p), m)) (map shape (ents [] R'))) by (rewrite SH; now apply in_map).
      apply in_map_iff in Z. destruct Z as ([k m'] & E & IN'). unfold shape in E. cbn in E. injection E as -> E _ _ _ _ _. eauto. }
    destruct EX as (m' & IN' & E'). destruct (FIN _ _ IN') as (m0 & IN0 & E0 & _ & _ & F).
    assert (N0 : nid m0 = nid m) by congruence. destruct (F ALL) as ((job' & s' & p' & Hj' & Hk' & (m2 & IN2 & E2)) & HD & [MO|(jl & sl & pl & Hjl & Hkl & _ & LO)]).
    { exists v, job, s, p. split; [exact Hj|]. split; [exact Hk|]. exists m. rewrite (SK job s p v Hj Hk). auto. }
    2: { destruct (H jl sl pl _ Hjl Hkl) as (NL & _). congruence. }
    exists m', job', s', p'. split; [exact IN'|]. split; [exact MO|]. split; [exact HD|]. split; [exact Hj'|]. split; [exact Hk'|].
    rewrite (SK job' s' p' _ Hj' Hk') in IN2. rewrite N0 in E2. now destruct (INJ _ _ _ _ IN2 IN E2).
Qed.
(** they all come to an end *)
Lemma store_ends grow rf h0 R nx jobs dep f : tree_in h0 R -> depth R <= dep ->
  (forall job s p v, In job jobs -> In (s, p, v) job -> (exists a, key_at R (skey s p) a) /\
     exists q, Query rf (so_h s) (Tr R nx) p = Ok q) -> fair (length jobs) f ->
  exists n, forall p, In p (fst (schedule (map f (seq 0 n)) (map (p_storeSets grow rf dep (nid R)) jobs) h0)) -> exists x, p = Ret x.
Proof.
  intros T D H F. apply ends_if; [|now rewrite map_length]. intros n p Hp.
  pose proof (race_store grow rf h0 R nx jobs dep (map f (seq 0 n)) T D H) as X.
  destruct (schedule _ _ _) as [ps h]. destruct X as (X & _). exact (X p Hp).
Qed.

(** ** runs with surprises *)
From Coq Require Import String.
Definition sto (i : nat) (loading : bool) : store := Sto defaultHdl loading [] [Some i] [Some i] [Some i] None false false.
Definition setting_k (i : nat) (loading : bool) (k : string) (c : N) : prog (list (gval * list ev)) :=
  p_storeSets no_room 1 5 0 [(sto i loading, s2b k, GStr [c])].
(** whether Get finds the key, for a goroutine that comes after *)
Definition found_in (h : heap) (k : string) : option bool :=
  match run (p_query 1 5 defaultHdl 0 (s2b k)) h with Ok (_, q) => Some (q_found q) | _ => None end.
Definition is_marked (h : heap) (a : nat) : option bool := option_map (fun n => negb (N.land (htype n) NTModified =? 0)%N) (hn h a).
Definition removing_k (i : nat) (k : string) : prog (bool * list ev) := p_storeRemove no_room 1 5 (sto i false) 0 (s2b k).
(** two Sets of a new key: both take it for new *)
Lemma new_twice : exists sch, fst (schedule sch [setting_k 7 false "d" 49; setting_k 8 false "d" 50] h_abc) =
  [Ret [(GNil, [ENew 7 (s2b "d") (GStr [49%N]) true])]; Ret [(GNil, [ENew 8 (s2b "d") (GStr [50%N]) true])]].
Proof. exists (cut_in 20). vm_compute. reflexivity. Qed.
(** two Removes of a: both report a, and b is gone without a report *)
Lemma delete_twice : exists sch, let (ps, h) := schedule sch [removing_k 7 "a"; removing_k 8 "a"] h_abc in
  ps = [Ret (true, [EDelete 7 (s2b "a") (GStr [49%N]) true]); Ret (true, [EDelete 8 (s2b "a") (GStr [49%N]) true])] /\
  found_in h_abc "b" = Some true /\ found_in h "b" = Some false.
Proof. exists (cut_in 8). vm_compute. auto. Qed.
(** a Set by a handle in WithinLoading beside one by a user: the mark is lost *)
Lemma mark_lost : exists sch, let (ps, h) := schedule sch [setting_k 7 false "a" 49; setting_k 8 true "a" 50] h_abc in
  ps = [Ret [(GStr [49%N], [EChange 7 (s2b "a") (GStr [49%N]) (GStr [49%N]) true])];
        Ret [(GStr [49%N], [EChange 8 (s2b "a") (GStr [50%N]) (GStr [49%N]) false])]] /\ is_marked h 1 = Some false.
Proof. exists (cut_in 15). vm_compute. auto. Qed.
