(** Dup on the tree in memory while other goroutines overwrite values: programs that own what they allocate. *)
From Coq Require Import List NArith Bool Arith Lia.
From Verif Require Import GoStr Utf8 Node NodeWf InsertProofs MatchProofs Trie TreeOps Spec Refine Climb ApiRefine Reach Effect
  Derived Derived2 Derived3 Derived4 Derived5 Heap HeapProofs HeapWalk HeapRace HeapGet HeapGetProofs HeapOwn.
Import ListNotations.
Open Scope nat_scope.

(** ** the copy *)
(** two trees of the same shape, related node by node *)
Inductive twin (P : node -> node -> Prop) : node -> node -> Prop :=
| twin_intro n n' : P n n' -> Forall2 (twin P) (nkids n) (nkids n') -> twin P n n'.
Lemma twin_head P n n' : twin P n n' -> P n n'.
Proof. now inversion 1. Qed.
Lemma twin_ents (P : node -> node -> Prop) n n' : (forall a b, P a b -> npath b = npath a) -> twin P n n' ->
  forall pre, Forall2 (fun e f => fst f = fst e /\ twin P (snd e) (snd f)) (ents pre n) (ents pre n').
Proof.
  intros HP. revert n'. induction n as [n IH] using node_ind'. intros n' T pre. inversion T as [a b H1 H2]; subst a b.
  rewrite !ents_eq. rewrite (HP _ _ H1). constructor; [cbn; auto|]. apply forall2_flat.
  clear -IH H2. induction H2 as [|k k' ks ks' Hk _ IHk]; constructor; inversion IH; subst; auto.
Qed.
Lemma twin_wfn (P : node -> node -> Prop) n n' : (forall a b, P a b -> npath b = npath a) -> twin P n n' -> wfn n -> wfn n'.
Proof.
  intros HP. revert n'. induction n as [n IH] using node_ind'. intros n' T W. inversion T as [a b H1 H2]; subst a b.
  assert (X : map npath (nkids n') = map npath (nkids n)).
  { clear -H2 HP. induction H2 as [|k k' ks ks' Hk _ IHk]; cbn; f_equal; auto. apply HP. now apply twin_head. }
  constructor.
  - replace (map fst_rune (nkids n')) with (map fst_rune (nkids n)); [now apply wfn_nodup|].
    unfold fst_rune. rewrite <- !(map_map npath (@hd_error rune)). now rewrite X.
  - pose proof (wfn_forall n W) as F. clear -F IH H2 HP. induction H2 as [|k k' ks ks' Hk _ IHk]; constructor.
    + inversion IH; subst. inversion F as [|? ? [F1 F2] F3]; subst. split; [|auto]. now rewrite (HP _ _ (twin_head _ _ _ Hk)).
    + inversion IH; subst. inversion F; subst. auto.
Qed.
Lemma Forall2_in_r {A B} (P : A -> B -> Prop) l r b : Forall2 P l r -> In b r -> exists a, In a l /\ P a b.
Proof. induction 1 as [|x y l r H F IH]; [easy|]. intros [->|X]; [exists x; cbn; auto|]. destruct (IH X) as (a & Ha & Pa). exists a. cbn. auto. Qed.
Lemma twin_root (P : node -> node -> Prop) n n' nx : (forall a b, P a b -> npath b = npath a /\ npathS b = npathS a) -> twin P n n' -> wf_tr (Tr n nx) ->
  forall nx', NoDup (ids n') -> Forall (fun a => a < nx') (ids n') -> wf_tr (Tr n' nx').
Proof.
  intros HP T [(W1 & W2 & W3) _] nx' ND LT. assert (HP1 : forall a b, P a b -> npath b = npath a) by (intros; now apply HP).
  split; [|split; auto]. cbn [root] in *. split; [|split].
  - rewrite (HP1 _ _ (twin_head _ _ _ T)). exact W1.
  - now apply twin_wfn with (P := P) (n := n).
  - intros k m' Hin. destruct (Forall2_in_r _ _ _ _ (twin_ents P n n' HP1 T []) Hin) as ([k0 m] & Hm & E & Tm). cbn in E, Tm. subst k0.
    rewrite (proj2 (HP _ _ (twin_head _ _ _ Tm))). now apply W3.
Qed.

Section Copy.
Variable h0 : heap.
Variable may : nat -> gval -> Prop.
Variable grow : nat -> nat.
Variable clone : gval -> gval.
(** [n'] is a copy of [n], some of its values as they were written meanwhile *)
Definition copy1 (n n' : node) : Prop :=
  npath n' = npath n /\ npathS n' = npathS n /\ (exists v, ndata n' = clone v /\ (v = ndata n \/ may (nid n) v)) /\
  ndesc n' = [] /\ ncmt n' = [] /\ ntag n' = GNil /\ (ntype n' = ntype n \/ ntype n' = N.lor (ntype n) NTData).
Definition copied : node -> node -> Prop := twin copy1.

Definition dupped (n : node) (L L' : mine) (x : nat) : Prop :=
  within L L' /\ lwf L' /\ exists n', nid n' = x /\ copied n n' /\ lrep (news L L') n' /\ NoDup (ids n').
(** the loop, when [pre] has been copied to [done] *)
Record middle (L B : mine) (x r k : nat) (m : hnode) (pre done : list node) (C : mine) : Prop := {
  mi_wf : lwf C;
  mi_x : mn C x = Some (w_kids (Sl r (length done)) m);
  mi_r : exists l, ma C r = Some l /\ length l = k /\ firstn (length done) l = map nid done;
  mi_in : within L C;
  mi_copy : Forall2 copied pre done;
  mi_rep : Forall (lrep (news B C)) done;
  mi_nd : NoDup (flat_map ids done) }.

Lemma dups_owns L B x r k m dup : mn L x = None -> ma L r = None -> r <> 0 ->
  (forall a, mn B a <> None <-> mn L a <> None \/ a = x) -> (forall q, ma B q <> None <-> ma L q <> None \/ q = r) ->
  forall R i todo, R < na h0 -> (forall j n, nth_error todo j = Some n -> nth_error (ha h0 R) (i + j) = Some (nid n)) ->
  Forall (fun n => forall C, lwf C -> owns (whole h0) (overw may) nopath lwf (dupped n C) C (dup (nid n))) todo ->
  forall pre done C, length done = i -> i + length todo <= k -> middle L B x r k m pre done C ->
  owns (whole h0) (overw may) nopath lwf (fun C' _ => exists done', length done' = i + length todo /\ middle L B x r k m (pre ++ todo) done' C') C
    (p_dups grow dup x R i (length todo)).
Proof.
  intros NX NR R0 DB DA R i todo LR0. revert i. induction todo as [|n todo IH]; intros i EL F pre done C LD LK M; cbn [p_dups length].
  - constructor. exists done. rewrite app_nil_r. split; [lia|exact M].
  - inversion F as [|n0 t0 Fn Ft]; subst n0 t0. apply ow_elem with (ha h0 R) (nid n).
    { cbn [ma whole]. now rewrite (proj2 (Nat.ltb_lt _ _) LR0). }
    { specialize (EL 0 n eq_refl). now rewrite Nat.add_0_r in EL. }
    eapply owns_bind; [apply Fn; apply M|]. intros C1 c' ([W1 W2] & LW1 & n' & <- & CP & LR & ND).
    destruct M as [M1 M2 (l & M3 & M4 & M5) [M6 M6'] M7 M8 M9]. rewrite LD in *. cbn [length] in LK.
    apply ow_mynode with (w_kids (Sl r i) m); [now apply W1|]. unfold p_append. cbn [hkids w_kids sl_arr sl_len seqp].
    apply ow_mycap with l; [now apply W2|]. rewrite M4. rewrite (proj2 (Nat.ltb_lt _ _)) by lia. cbn [seqp].
    apply ow_myput with l; [now apply W2|lia|apply lwf_put; [exact LW1|now apply W2]|]. cbn [seqp].
    set (C2 := addn (adda C1 r (put l i (nid n'))) x (w_kids (Sl r (S i)) m)).
    assert (LW : lwf C2).
    { constructor; cbn.
      - intros a s. destruct (Nat.eqb_spec a x) as [->|Nx]; intros X.
        + injection X as <-. right. cbn. rewrite Nat.eqb_refl. eexists. split; [reflexivity|]. rewrite put_length. lia.
        + destruct (lwf_in _ LW1 a s X) as [Y|(l' & Y1 & Y2)]; [auto|right].
          destruct (Nat.eqb_spec (sl_arr (hkids s)) r) as [Q1|Q1]; [|eauto]. eexists. split; [reflexivity|].
          rewrite put_length. rewrite Q1 in Y1. rewrite (W2 r l M3) in Y1. injection Y1 as <-. exact Y2.
      - assert (X1 : forall b t, mn C1 b = Some t -> b <> x -> sl_arr (hkids t) = r -> False).
        { intros b t Eb Nb Q1. apply R0. rewrite <- Q1. apply (lwf_own _ LW1 b x t (w_kids (Sl r i) m)); auto. }
        intros a b s t. destruct (Nat.eqb_spec a x) as [->|Na]; intros X; destruct (Nat.eqb_spec b x) as [->|Nb]; intros X' D Q1; try tauto.
        + injection X as <-. cbn in Q1. destruct (X1 b t); auto.
        + injection X' as <-. cbn in Q1. destruct (X1 a s); auto.
        + now apply (lwf_own _ LW1 a b s t).
      - destruct r; [congruence|apply LW1]. }
    apply ow_myset with (w_kids (Sl r i) m); [cbn; now apply W1|discriminate|exact LW|].
    change (addn (adda C1 r (put l i (nid n'))) x (w_kids (Sl r (S i)) (w_kids (Sl r i) m))) with C2.
    assert (XL : forall a s, mn L a = Some s -> a <> x) by (intros a s E ->; congruence).
    assert (RL : forall q s, ma L q = Some s -> q <> r) by (intros q s E ->; congruence).
    assert (BX : forall a, mn B a = None -> a <> x) by (intros a E ->; apply (proj2 (DB x)); auto).
    assert (BR : forall a, ma B a = None -> a <> r) by (intros a E ->; apply (proj2 (DA r)); auto).
    assert (M' : middle L B x r k m (pre ++ [n]) (done ++ [n']) C2).
    { constructor.
      - exact LW.
      - cbn. rewrite Nat.eqb_refl, app_length, LD. cbn. now rewrite Nat.add_comm.
      - cbn. rewrite Nat.eqb_refl. eexists. split; [reflexivity|]. rewrite put_length. split; [exact M4|].
        rewrite app_length, LD. cbn [length]. rewrite Nat.add_comm. cbn [Nat.add]. rewrite firstn_put by lia. rewrite M5, map_app. reflexivity.
      - split; cbn.
        + intros a s E. destruct (Nat.eqb_spec a x) as [->|_]; [congruence|auto].
        + intros q s E. destruct (Nat.eqb_spec q r) as [->|_]; [congruence|auto].
      - apply Forall2_app; auto.
      - apply Forall_app. split.
        + eapply Forall_impl; [|exact M8]. intros d. apply lrep_mono. apply within_news; cbn; intros a s EB E; (split; [exact EB|]).
          * destruct (Nat.eqb_spec a x) as [->|_]; [destruct (BX x EB eq_refl)|auto].
          * destruct (Nat.eqb_spec a r) as [->|_]; [destruct (BR r EB eq_refl)|auto].
        + constructor; [|constructor]. eapply lrep_mono; [|exact LR]. apply within_news; cbn; intros a s EC E.
          * assert (a <> x) as Nx by (intros ->; congruence).
            split; [|destruct (Nat.eqb_spec a x); [tauto|exact E]].
            destruct (mn B a) eqn:EB; [|reflexivity]. destruct (proj1 (DB a)) as [Y|Y]; [congruence| |tauto].
            destruct (mn L a) eqn:El; [|tauto]. rewrite (M6 a _ El) in EC. discriminate.
          * assert (a <> r) as Nr by (intros ->; congruence).
            split; [|destruct (Nat.eqb_spec a r); [tauto|exact E]].
            destruct (ma B a) eqn:EB; [|reflexivity]. destruct (proj1 (DA a)) as [Y|Y]; [congruence| |tauto].
            destruct (ma L a) eqn:El; [|tauto]. rewrite (M6' a _ El) in EC. discriminate.
      - rewrite flat_map_app. cbn. rewrite app_nil_r. apply NoDup_app_intro; auto.
        intros a Ha Hb. destruct (lrep_dom _ _ LR a Hb) as [s Es]. cbn in Es.
        apply in_flat_map in Ha. destruct Ha as (d & Hd & Ha). rewrite Forall_forall in M8.
        destruct (lrep_dom _ _ (M8 d Hd) a Ha) as [s' Es']. cbn in Es'. destruct (mn B a); [discriminate|].
        rewrite Es' in Es. discriminate. }
    specialize (IH (S i)).
    assert (E2 : length (done ++ [n']) = S i) by (rewrite app_length, LD; cbn; lia).
    specialize (IH ltac:(intros j nj Ej; specialize (EL (S j) nj Ej); now rewrite Nat.add_succ_r in EL) Ft (pre ++ [n]) (done ++ [n']) C2 E2 ltac:(lia) M').
    rewrite <- app_assoc in IH. cbn [app] in IH. replace (i + S (length todo)) with (S i + length todo) by lia. exact IH.
Qed.

Lemma dup_owns f : hwf h0 -> forall n L, repr h0 n -> depth n <= f -> lwf L -> owns (whole h0) (overw may) nopath lwf (dupped n L) L (p_dup grow clone f (nid n)).
Proof.
  intros W0. induction f as [|f IH]; intros n L RP D LW; [destruct n; cbn in D; lia|].
  apply repr_eq in RP. destruct RP as [(s & E & Ft & K) Rk]. cbn [p_dup].
  assert (SL : sl_len (hkids s) = length (nkids n)).
  { destruct (hwf_in h0 W0 _ _ E) as (_ & _ & B3). apply (f_equal (@length nat)) in K. unfold kids_of in K.
    rewrite firstn_length, map_length in K. lia. }
  apply ow_node with s; [exact E|]. intros t [(A1 & A2 & A3 & A4 & A5 & A6 & A7) AD].
  apply ow_new; [intros a NX N0 _; now apply lwf_new|]. intros x NX N0 _.
  apply ow_newa. { intros r NR _ R0. apply lwf_arr; auto. apply lwf_new; auto. } intros r NR NRS R0.
  rewrite A3, SL.
  set (m := HN (hpath t) (hpathS t) (Sl 0 0) GNil [] [] GNil (htype t)).
  set (l0 := repeat 0 (length (nkids n))). set (L2 := adda (addn L x m) r l0). set (B := addn L2 x (w_kids (Sl r 0) m)).
  assert (NR' : ma L r = None) by exact NR. clear NR.
  assert (LO : forall a u, mn L a = Some u -> sl_arr (hkids u) <> r).
  { intros a u Eu Q. destruct (lwf_in _ LW a u Eu) as [Y|(l & Y1 & _)]; [rewrite Y in Q; cbn in Q; congruence|congruence]. }
  assert (LWB : lwf B).
  { constructor; cbn.
    - intros a u. destruct (Nat.eqb_spec a x) as [->|Na]; intros X.
      + injection X as <-. right. cbn. rewrite Nat.eqb_refl. eexists. split; [reflexivity|]. lia.
      + destruct (lwf_in _ LW a u X) as [Y|(l & Y1 & Y2)]; [auto|right]. destruct (Nat.eqb_spec (sl_arr (hkids u)) r) as [Q|Q]; [|eauto].
        destruct (LO a u X Q).
    - intros a b u v. destruct (Nat.eqb_spec a x) as [->|Na]; intros X; destruct (Nat.eqb_spec b x) as [->|Nb]; intros X' Dab Q; try tauto.
      + injection X as <-. cbn in Q. destruct (LO b v X'); auto.
      + injection X' as <-. cbn in Q. destruct (LO a u X); auto.
      + now apply (lwf_own _ LW a b u v).
    - destruct r; [congruence|apply LW]. }
  apply ow_myset with m; [cbn; now rewrite Nat.eqb_refl|discriminate|exact LWB|]. fold B.
  assert (LB : within L B).
  { split; cbn.
    - intros a u X. destruct (Nat.eqb_spec a x) as [->|_]; [congruence|auto].
    - intros q l X. destruct (Nat.eqb_spec q r) as [->|_]; [congruence|auto]. }
  eapply owns_bind.
  { apply dups_owns with (L := L) (B := B) (r := r) (k := length (nkids n)) (m := m) (pre := []) (done := []); auto.
    - intros a. cbn. destruct (Nat.eqb_spec a x); intuition congruence.
    - intros q. cbn. destruct (Nat.eqb_spec q r); intuition congruence.
    - now destruct (hwf_in h0 W0 _ _ E) as (_ & B2 & _).
    - intros j k Hj. apply (map_nth_error nid) in Hj. rewrite <- K in Hj. cbn. unfold kids_of in Hj. clear -Hj.
      revert Hj. generalize (sl_len (hkids s)) (ha h0 (sl_arr (hkids s))) j. clear. 
      intros q. induction q as [|q IH]; intros [|y l] [|j]; cbn; try discriminate; auto.
    - rewrite Forall_forall in *. intros k Hk C LC. apply IH; auto. pose proof (depth_kid n k Hk). lia.
    - constructor; cbn; auto.
      + now rewrite Nat.eqb_refl.
      + rewrite Nat.eqb_refl. exists l0. split; [reflexivity|]. split; [apply repeat_length|reflexivity].
      + constructor. }
  intros C _ (done & LD & [M1 M2 (l & M3 & M4 & M5) [M6 M6'] M7 M8 M9]). cbn [app] in M7. cbn [Nat.add] in LD.
  apply ow_node with s; [exact E|]. intros t' [(A1' & A2' & A3' & A4' & A5' & A6' & A7') AD'].
  set (s' := w_data (clone (hdata t')) (w_kids (Sl r (length done)) m)).
  assert (LWC : lwf (addn C x s')).
  { constructor; cbn.
    - intros a u. destruct (Nat.eqb_spec a x) as [->|Na]; intros X; [|now apply (lwf_in _ M1 a)]. injection X as <-. apply (lwf_in _ M1 x _ M2).
    - intros a b u v. destruct (Nat.eqb_spec a x) as [->|Na]; intros X; destruct (Nat.eqb_spec b x) as [->|Nb]; intros X' Dab Q; try tauto.
      + injection X as <-. apply (lwf_own _ M1 x b _ v M2 X' Dab Q).
      + injection X' as <-. apply (lwf_own _ M1 a x u _ X M2 Dab Q).
      + now apply (lwf_own _ M1 a b u v).
    - apply M1. }
  apply ow_myset with (w_kids (Sl r (length done)) m); [exact M2|discriminate|exact LWC|]. fold s'. constructor.
  split.
  { split; cbn; auto. intros a u X. destruct (Nat.eqb_spec a x) as [->|_]; [congruence|auto]. }
  split; [exact LWC|]. destruct Ft as (P1 & P2 & P3 & P4 & P5 & P6 & P7).
  exists (mkNode x (npath n) (npathS n) done (clone (hdata t')) [] [] GNil (htype t)). split; [reflexivity|].
  assert (KD : forall a, mn B a = None -> a <> x) by (intros a Ea ->; cbn in Ea; rewrite Nat.eqb_refl in Ea; discriminate).
  split; [|split].
  - constructor; [|exact M7]. unfold copy1. cbn. split; [reflexivity|]. split; [reflexivity|]. split.
    + exists (hdata t'). split; [reflexivity|]. rewrite <- P3. exact AD'.
    + rewrite <- P7. auto.
  - assert (WN : within (news B C) (news L (addn C x s'))).
    { apply within_news; cbn [mn ma addn].
      - intros a u EB EC. split.
        + destruct (mn L a) eqn:El; [|reflexivity]. rewrite (proj1 LB a _ El) in EB. discriminate.
        + destruct (Nat.eqb_spec a x) as [->|_]; [destruct (KD x EB eq_refl)|exact EC].
      - intros q u EB EC. split; [|exact EC]. destruct (ma L q) eqn:El; [|reflexivity]. rewrite (proj2 LB q _ El) in EB. discriminate. }
    apply lrep_intro with s' l; cbn [nid nkids].
    + cbn. now rewrite NX, Nat.eqb_refl.
    + unfold fits. cbn. repeat split; congruence.
    + right. cbn. now rewrite NR'.
    + cbn [s' hkids w_data w_kids sl_len]. exact M5.
    + eapply Forall_impl; [|exact M8]. intros d. now apply lrep_mono.
  - rewrite ids_eq. cbn [nid nkids]. constructor; [|exact M9]. intros X. apply in_flat_map in X. destruct X as (d & Hd & Ha).
    rewrite Forall_forall in M8. destruct (lrep_dom _ _ (M8 d Hd) x Ha) as [u Eu]. cbn in Eu. rewrite Nat.eqb_refl in Eu. discriminate.
Qed.
End Copy.

(** ** memory not yet allocated is empty *)
Lemma access_unborn {A} (p : prog A) h p' h' : unborn h -> access p h = Some (p', h') -> unborn h'.
Proof.
  intros U. destruct p as [x| | |a k|a f k|n k|r i k|r i x k|r k|l k]; cbn [access]; try discriminate.
  - intros X. injection X as <- <-. exact U.
  - destruct (hn h a); intros X; injection X as <- <-; exact U.
  - intros X. injection X as <- <-. exact U.
  - intros X. injection X as <- <-. exact U.
  - destruct (i <? length (ha h r)) eqn:E; intros X; injection X as <- <-; [|exact U]. intros q Hq. cbn in *.
    destruct (Nat.eqb_spec q r) as [->|N]; [|now apply U]. apply Nat.ltb_lt in E. rewrite U in E by exact Hq. cbn in E. lia.
  - intros X. injection X as <- <-. exact U.
  - intros X. injection X as <- <-. intros q Hq. cbn in *. destruct (Nat.eqb_spec q (na h)) as [->|N]; [lia|]. apply U. lia.
Qed.
Lemma run_unborn {A} (p : prog A) : forall h h' x, unborn h -> run p h = Ok (h', x) -> unborn h'.
Proof.
  assert (S : forall (q : prog A) h q' h1, access q h = Some (q', h1) -> unborn h -> unborn h1) by (intros; eapply access_unborn; eauto).
  induction p as [x| | |a k IH|a f k IH|n k IH|r i k IH|r i x k IH|r k IH|l k IH]; intros h h' y U; cbn [run]; try discriminate.
  - intros X. injection X as <- <-. exact U.
  - destruct (hn h a); [|discriminate]. eauto.
  - destruct (hn h a) eqn:E; [|discriminate]. apply IH. apply (S (UpdN a f k) h k); auto. cbn [access]. now rewrite E.
  - apply IH. exact U.
  - destruct (nth_error _ i); [|discriminate]. eauto.
  - destruct (_ <? _) eqn:E; [|discriminate]. apply IH. apply (S (SetA r i x k) h k); auto. cbn [access]. now rewrite E.
  - eauto.
  - apply IH. apply (S (NewA l k) h (k (na h))); auto.
Qed.
Lemma unborn_new : unborn newHeap.
Proof. intros r H. reflexivity. Qed.

(** ** Dup beside goroutines that overwrite values *)
Inductive outcome := Done | Copy (x : nat).
Definition overwriting grow rt (job : list (gostring * gval)) : prog outcome := let* _ := p_sets grow rt job in Ret Done.
Definition copying grow clone dep rt : prog outcome := let* x := p_dup grow clone dep rt in Ret (Copy x).

Lemma reload_joint h0 may LL h n : unborn h0 -> hwf h0 -> repr h0 n -> joint (whole h0) (overw may) nopath lwf LL h -> repr h (reload h n).
Proof.
  intros U W R J. induction n as [n IH] using node_ind'. apply repr_eq in R. destruct R as [(s & E & Ft & K) Rk].
  destruct (jo_node _ _ _ _ _ _ J _ _ E) as (t & Et & [(A1 & A2 & A3 & A4 & A5 & A6 & _) _] & _).
  apply repr_eq. rewrite reload_eq, Et. cbn [nid nkids]. split.
  - exists t. split; [exact Et|]. destruct Ft as (P1 & P2 & P3 & P4 & P5 & P6 & P7). split.
    + unfold fits. cbn. repeat split; congruence.
    + unfold kids_of. destruct (hwf_in h0 W _ _ E) as (_ & B2 & _). assert (MA : ma (whole h0) (sl_arr (hkids s)) = Some (ha h0 (sl_arr (hkids s)))) by (cbn [ma whole]; now rewrite (proj2 (Nat.ltb_lt _ _) B2)).
      rewrite A3, (proj1 (jo_arr _ _ _ _ _ _ J _ _ MA)).
      rewrite map_map. erewrite map_ext; [exact K|]. intros k. now rewrite reload_eq.
  - apply Forall_map. rewrite Forall_forall in *. auto.
Qed.
(** the tree itself, some of its values as they were written meanwhile *)
Definition same1 (may : nat -> gval -> Prop) (n n' : node) : Prop :=
  nid n' = nid n /\ npath n' = npath n /\ npathS n' = npathS n /\ (ndata n' = ndata n \/ may (nid n) (ndata n')) /\
  ndesc n' = ndesc n /\ ncmt n' = ncmt n /\ ntag n' = ntag n /\ (ntype n' = ntype n \/ ntype n' = N.lor (ntype n) NTData).
Lemma reload_twin h0 may LL h n : repr h0 n -> joint (whole h0) (overw may) nopath lwf LL h -> twin (same1 may) n (reload h n).
Proof.
  intros R J. induction n as [n IH] using node_ind'. apply repr_eq in R. destruct R as [(s & E & Ft & K) Rk].
  destruct (jo_node _ _ _ _ _ _ J _ _ E) as (t & Et & [(A1 & A2 & A3 & A4 & A5 & A6 & A7) AD] & _). destruct Ft as (P1 & P2 & P3 & P4 & P5 & P6 & P7).
  constructor.
  - rewrite reload_eq, Et. unfold same1. cbn. rewrite <- P3, <- P7. auto 12.
  - rewrite reload_eq. cbn [nkids]. clear -IH Rk. induction (nkids n) as [|k ks IHk]; constructor; inversion IH; inversion Rk; subst; auto.
Qed.
Lemma reload_ids h n : ids (reload h n) = ids n.
Proof.
  induction n as [n IH] using node_ind'. rewrite !ids_eq, reload_eq. cbn [nid nkids]. f_equal. rewrite !flat_map_concat_map, map_map.
  f_equal. apply map_ext_in. rewrite Forall_forall in IH. exact IH.
Qed.

Lemma race_dup grow clone h0 R jobs c dep sch : tree_in h0 R -> unborn h0 -> depth R <= dep ->
  (forall job k v, In job jobs -> In (k, v) job -> exists a, key_at R k a) ->
  let (ps, m) := schedule sch (map (overwriting grow (nid R)) jobs ++ repeat (copying grow clone dep (nid R)) c) h0 in
  (exists R1, tree_in m R1 /\ twin (same1 (some_set jobs R)) R R1) /\
  (forall p, In p ps -> p <> Die /\ p <> Spin) /\
  (forall i x, i < c -> nth_error ps (length jobs + i) = Some (Ret x) -> exists R', x = Copy (nid R') /\
     tree_in m R' /\ copied (some_set jobs R) clone R R' /\ apart R' R /\
     (forall j y, j < c -> j <> i -> nth_error ps (length jobs + j) = Some (Ret y) ->
        exists R'', y = Copy (nid R'') /\ tree_in m R'' /\ copied (some_set jobs R) clone R R'' /\ apart R' R'')).
Proof.
  intros T U D H. pose proof T as (W & RR & WT). set (may := some_set jobs R).
  set (Qc := fun (L : mine) (x : outcome) => exists R', x = Copy (nid R') /\ copied may clone R R' /\ lrep L R' /\ NoDup (ids R')).
  assert (ST : side (whole h0) (overw may) nopath lwf (map (fun _ _ _ => True) jobs ++ repeat Qc c)
     (map (overwriting grow (nid R)) jobs ++ repeat (copying grow clone dep (nid R)) c) h0).
  { exists (fun _ => nothing). split; [apply whole_start; [exact W|exact lwf_nothing]|].
    split; [rewrite !app_length, !map_length, !repeat_length; reflexivity|]. split; [reflexivity|].
    intros i Q p EQ Ep. destruct (Nat.lt_ge_cases i (length jobs)) as [Hi|Hi].
    - rewrite nth_error_app1 in EQ by (rewrite map_length; exact Hi). rewrite nth_error_app1 in Ep by (rewrite map_length; exact Hi).
      rewrite nth_error_map in EQ, Ep. destruct (nth_error jobs i) as [j|] eqn:Ej; [|discriminate]. injection EQ as <-. injection Ep as <-.
      apply nth_error_In in Ej. destruct (sets_calm grow h0 may R j T) as (l & C & O).
      { intros k v Hin. destruct (H j k v Ej Hin) as [a Ha]. exists a. split; [exact Ha|]. exists j, k. auto. }
      apply (polite_owns may lwf h0 (fun _ => True)); [exact U|]. eapply calm_polite; [exact C|]. intros. constructor. exact Logic.I.
    - rewrite nth_error_app2 in EQ by (rewrite map_length; exact Hi). rewrite nth_error_app2 in Ep by (rewrite map_length; exact Hi).
      apply nth_error_In, repeat_spec in EQ. apply nth_error_In, repeat_spec in Ep. subst Q p.
      eapply owns_bind; [apply dup_owns; auto; apply lwf_nothing|]. intros L' x (_ & _ & n' & <- & CP & LR & ND). constructor. exists n'.
      split; [reflexivity|]. split; [exact CP|]. split; [|exact ND]. eapply lrep_mono; [|exact LR]. split; cbn; auto. }
  apply (schedule_side _ _ _ _ sch) in ST. destruct (schedule sch _ h0) as [ps m]. cbn [fst snd] in ST.
  pose proof (fun p => side_alive _ _ _ _ _ ps m p ST) as ALIVE. destruct ST as (LL & J & LN & _ & F).
  assert (HW : hwf m).
  { apply (joint_hwf _ _ _ _ LL m) with (3 := J); [intros a s t [(_ & _ & A3 & _) _]; exact A3|now apply whole_swf|apply J]. }
  assert (LP : length ps = length jobs + c) by (rewrite <- LN, app_length, map_length, repeat_length; reflexivity).
  assert (QN : forall i, i < c -> nth_error (map (fun _ _ _ => True) jobs ++ repeat Qc c) (length jobs + i) = Some Qc).
  { intros i Hi. rewrite nth_error_app2 by (rewrite map_length; lia). rewrite map_length.
    replace (length jobs + i - length jobs) with i by lia. now rewrite nth_error_repeat. }
  split; [|split].
  - exists (reload m R). pose proof (reload_twin h0 may LL m R RR J) as TW. split; [|exact TW]. split; [exact HW|].
    pose proof (reload_joint h0 may LL m R U W RR J) as RM. split; [exact RM|].
    apply twin_root with (1 := fun a b (X : same1 may a b) => conj (proj1 (proj2 X)) (proj1 (proj2 (proj2 X)))) (2 := TW) (3 := WT).
    + rewrite reload_ids. apply (proj2 WT).
    + now apply repr_alloc.
  - exact ALIVE.
  - assert (G : forall i x, i < c -> nth_error ps (length jobs + i) = Some (Ret x) -> exists R', x = Copy (nid R') /\
       tree_in m R' /\ copied may clone R R' /\ lrep (LL (length jobs + i)) R').
    { intros i x Hi Ei. pose proof (F _ _ _ (QN i Hi) Ei) as O. apply owns_ret in O. destruct O as (R' & -> & CP & LR & ND).
      exists R'. split; [reflexivity|]. split; [|split; [exact CP|exact LR]].
      assert (RM : repr m R') by (eapply lrep_repr; [apply whole_swf, W|exact J|apply within_refl|exact LR]).
      split; [exact HW|]. split; [exact RM|].
      apply twin_root with (1 := fun a b (X : copy1 may clone a b) => conj (proj1 X) (proj1 (proj2 X))) (2 := CP) (3 := WT); auto.
      now apply repr_alloc. }
    intros i x Hi Ei. destruct (G i x Hi Ei) as (R' & -> & TI & CP & LR). exists R'. split; [reflexivity|]. split; [exact TI|]. split; [exact CP|].
    split.
    + intros a Ha Hb. destruct (lrep_dom _ _ LR a Ha) as [s Es]. destruct (jo_mn _ _ _ _ _ _ J _ _ _ Es) as (_ & N0 & _).
      assert (X : exists t, hn h0 a = Some t).
      { clear -RR Hb. induction R as [n IH] using node_ind'. apply repr_eq in RR. destruct RR as [(s & E & _) Rk]. rewrite ids_eq in Hb.
        destruct Hb as [<-|Hb]; [eauto|]. apply in_flat_map in Hb. destruct Hb as (k & Hk & Ha). rewrite Forall_forall in *. eapply IH; eauto. }
      destruct X; cbn in N0; congruence.
    + intros j y Hj Nj Ej. destruct (G j y Hj Ej) as (R'' & -> & TI' & CP' & LR'). exists R''. split; [reflexivity|]. split; [exact TI'|]. split; [exact CP'|].
      intros a Ha Hb. destruct (lrep_dom _ _ LR a Ha) as [s Es]. destruct (lrep_dom _ _ LR' a Hb) as [t Et].
      apply (jo_dn _ _ _ _ _ _ J (length jobs + i) (length jobs + j) a s t); auto. lia.
Qed.

(** ** in terms of keys *)
(** what the copy may have at the key [k] where the tree has [a] *)
Definition copied_at (clone : gval -> gval) (jobs : list (list (gostring * gval))) (k : skey) (a b : attr) : Prop :=
  (exists v, a_data b = clone v /\ (v = a_data a \/ exists job w, In job jobs /\ In (w, v) job /\ runes w = k)) /\
  a_desc b = [] /\ a_cmt b = [] /\ a_tag b = GNil /\ a_leaf b = a_leaf a /\ a_mod b = a_mod a /\ (a_has a = true -> a_has b = true).
Lemma twin_lookup (P : node -> node -> Prop) l l' : Forall2 (fun e f : key_t * node => fst f = fst e /\ twin P (snd e) (snd f)) l l' -> forall k,
  match lookup l k, lookup l' k with Some n, Some n' => P n n' | None, None => True | _, _ => False end.
Proof.
  induction 1 as [|[k1 n] [k2 n'] l l' [H1 H2] _ IH]; intros k; cbn; auto. cbn in H1, H2. subst k2.
  destruct (str_eqb k1 k); [now apply twin_head|apply IH].
Qed.
Lemma t_get_ents t k : t_get t k = option_map (fun n => attr_of (info_of n)) (lookup (ents [] (root t)) k).
Proof. unfold t_get, entries. rewrite entries_lookup. unfold ients.
  induction (ents [] (root t)) as [|[k' n] l IH]; cbn; auto. destruct (str_eqb k' k); auto. Qed.
Lemma copied_keys (may : nat -> gval -> Prop) clone R R' jobs nx nx' : wf_tr (Tr R nx) -> (forall a v, may a v -> some_set jobs R a v) -> copied may clone R R' ->
  forall k, match t_get (Tr R nx) k, t_get (Tr R' nx') k with
            | Some a, Some b => copied_at clone jobs k a b
            | None, None => True
            | _, _ => False
            end.
Proof.
  intros WT HM C k. rewrite !t_get_ents. cbn [root].
  pose proof (twin_ents _ R R' (fun a b (X : copy1 may clone a b) => proj1 X) C []) as F. apply twin_lookup with (k := k) in F.
  destruct (lookup (ents [] R) k) as [n|] eqn:E, (lookup (ents [] R') k) as [n'|]; cbn [option_map]; auto.
  destruct F as (_ & _ & (v & E1 & E2) & D1 & D2 & D3 & D4). split; [|split; [|split; [|split; [|split; [|split]]]]]; cbn; auto.
  - exists v. split; [exact E1|]. destruct E2 as [->|E2]; [auto|right]. apply HM in E2. destruct E2 as (job & w & J1 & J2 & (mw & M1 & M2)).
    exists job, w. split; [exact J1|]. split; [exact J2|]. apply lookup_in in E; [|apply ents_nodup; apply WT].
    destruct (ids_inj nx (ients [] R) (runes w) (info_of mw) k (info_of n)) as [X _]; auto; [apply WT| |].
    + unfold ients. apply in_map_iff. exists (runes w, mw). auto.
    + unfold ients. apply in_map_iff. exists (k, n). auto.
  - destruct D4 as [->| ->]; auto. unfold t_leaf. rewrite N.lor_spec. now destruct (N.testbit (ntype n) 0).
  - destruct D4 as [->| ->]; auto. unfold t_mod. rewrite N.lor_spec. now destruct (N.testbit (ntype n) 3).
  - destruct D4 as [->| ->]; auto. unfold t_has. intros H. rewrite N.lor_spec, H. reflexivity.
Qed.
Lemma race_dup_keys grow clone h0 t jobs c dep sch : tree_in h0 (root t) -> wf_tr t -> unborn h0 -> depth (root t) <= dep ->
  (forall job k v, In job jobs -> In (k, v) job -> exists a, key_at (root t) k a) ->
  let (ps, m) := schedule sch (map (overwriting grow (nid (root t))) jobs ++ repeat (copying grow clone dep (nid (root t))) c) h0 in
  (forall p, In p ps -> p <> Die /\ p <> Spin) /\
  (forall i x, i < c -> nth_error ps (length jobs + i) = Some (Ret x) -> exists t', x = Copy (nid (root t')) /\
     tree_in m (root t') /\ wf_tr t' /\ apart (root t') (root t) /\
     forall k, match t_get t k, t_get t' k with
               | Some a, Some b => copied_at clone jobs k a b
               | None, None => True
               | _, _ => False
               end).
Proof.
  intros T WT U D H. pose proof (race_dup grow clone h0 (root t) jobs c dep sch T U D H) as RD. destruct (schedule sch _ h0) as [ps m].
  destruct RD as (_ & ND & G). split; [exact ND|]. intros i x Hi Ei. destruct (G i x Hi Ei) as (R' & -> & TI & CP & AP & _).
  exists (Tr R' (nn m)). split; [reflexivity|]. split; [exact TI|]. split; [apply TI|]. split; [exact AP|].
  destruct t as [R nx]. cbn [root] in *. apply copied_keys with (may := some_set jobs R); auto.
Qed.

(** ** copies with surprises *)
From Coq Require Import String.
From Verif Require Import HeapRemove HeapSee HeapSeeProofs.
(** the tree below an address: keys, branches and values *)
Definition tree_at (m : heap) (x : nat) : option (list (gostring * bool * gval)) :=
  match run (p_Walk 1 5 defaultHdl x []) m with
  | Ok (_, l) => Some (map (fun s => (sw_key s, sw_branch s, sw_data s)) l)
  | _ => None
  end.
(** Dup takes [i] steps, the other goroutine [j], then Dup goes on, then the other *)
Definition sch_copy (i j : nat) : list nat := repeat 1 i ++ repeat 0 j ++ repeat 1 90 ++ repeat 0 90.
Definition beside_copy (w : prog outcome) : list (prog outcome) := [w; copying no_room (fun v => v) 5 0].
(** the copy and the tree *)
Definition copy_beside (w : prog outcome) (h : heap) (i j : nat) :=
  let (ps, m) := schedule (sch_copy i j) (beside_copy w) h in
  match nth_error ps 1 with Some (Ret (Copy x)) => Some (tree_at m x, tree_at m 0) | _ => None end.
(** the tree at all times *)
Definition moments (w : prog outcome) (h : heap) (i j : nat) : list (option (list (gostring * bool * gval))) :=
  map (fun n => tree_at (snd (schedule (firstn n (sch_copy i j)) (beside_copy w) h)) 0) (seq 0 (S (List.length (sch_copy i j)))).
Definition over_ab : prog outcome := overwriting no_room 0 [(s2b "a"%string, GStr [55%N]); (s2b "b"%string, GStr [56%N])].
Definition new_apricot : prog outcome := overwriting no_room 0 [(s2b "apricot"%string, GStr [50%N])].
Definition gone_a : prog outcome := let* _ := p_removeEx no_room 1 5 defaultHdl 0 (s2b "a"%string) in Ret Done.
Definition ltree (l : list (gostring * bool * gval)) := Some (rt0 :: l).
Definition lfv (s : string) (c : N) : gostring * bool * gval := (s2b s, false, GStr [c]).
Definition eq_shown (x y : option (list (gostring * bool * gval))) : bool :=
  match x, y with
  | Some l, Some r => if list_eq_dec N.eq_dec
      (flat_map (fun e => match snd e with GStr s => s | _ => [0%N] end) l)
      (flat_map (fun e => match snd e with GStr s => s | _ => [0%N] end) r) then true else false
  | None, None => true
  | _, _ => false
  end.
Lemma mixed_copy : copy_beside over_ab h_abc 10 90 =
  Some (ltree [lfv "a" 49%N; lfv "b" 56%N; lfv "c" 51%N], ltree [lfv "a" 55%N; lfv "b" 56%N; lfv "c" 51%N]).
Proof. vm_compute. reflexivity. Qed.
Lemma mixed_never : ~ In (ltree [lfv "a" 49%N; lfv "b" 56%N; lfv "c" 51%N]) (moments over_ab h_abc 10 90).
Proof.
  assert (X : existsb (eq_shown (ltree [lfv "a" 49%N; lfv "b" 56%N; lfv "c" 51%N])) (moments over_ab h_abc 10 90) = false)
    by (vm_compute; reflexivity).
  intros H. enough (Y : existsb (eq_shown (ltree [lfv "a" 49%N; lfv "b" 56%N; lfv "c" 51%N])) (moments over_ab h_abc 10 90) = true)
    by (rewrite X in Y; discriminate).
  apply existsb_exists. eexists. split; [exact H|]. vm_compute. reflexivity.
Qed.
Lemma empty_copy : copy_beside new_apricot h_apple 6 90 =
  Some (ltree [(s2b "apple", false, GNil)], ltree [(s2b "ap", true, GNil); lfv "apple" 49%N; lfv "apricot" 50%N]).
Proof. vm_compute. reflexivity. Qed.
Lemma phantom_copy : copy_beside new_apricot h_apple 0 9 =
  Some (ltree [lfv "ap" 49%N], ltree [(s2b "ap", true, GNil); lfv "apple" 49%N; lfv "apricot" 50%N]).
Proof. vm_compute. reflexivity. Qed.
Lemma double_copy : copy_beside gone_a h_abc 5 90 =
  Some (ltree [lfv "a" 49%N; lfv "c" 51%N; lfv "c" 51%N], ltree [lfv "b" 50%N; lfv "c" 51%N]).
Proof. vm_compute. reflexivity. Qed.
(** Remove on such a copy, and what is there afterwards *)
Definition double_remove : option (bool * option (list (gostring * bool * gval))) :=
  let (ps, m) := schedule (sch_copy 5 90) (beside_copy gone_a) h_abc in
  match nth_error ps 1 with
  | Some (Ret (Copy x)) =>
      match run (p_removeEx no_room 1 5 defaultHdl x (s2b "c"%string)) m with Ok (m', ok) => Some (ok, tree_at m' x) | _ => None end
  | _ => None
  end.
Lemma double_stays : double_remove = Some (true, ltree [lfv "a" 49%N; lfv "c" 51%N]).
Proof. vm_compute. reflexivity. Qed.
Lemma calm_copy : copy_beside gone_a h_abc 90 90 =
    Some (ltree [lfv "a" 49%N; lfv "b" 50%N; lfv "c" 51%N], ltree [lfv "b" 50%N; lfv "c" 51%N]) /\
  copy_beside gone_a h_abc 0 90 = Some (ltree [lfv "b" 50%N; lfv "c" 51%N], ltree [lfv "b" 50%N; lfv "c" 51%N]) /\
  copy_beside new_apricot h_apple 90 90 =
    Some (ltree [lfv "apple" 49%N], ltree [(s2b "ap", true, GNil); lfv "apple" 49%N; lfv "apricot" 50%N]).
Proof. repeat split; vm_compute; reflexivity. Qed.
