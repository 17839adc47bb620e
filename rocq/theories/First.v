(** First come, first served: a key that is written while its path meets no pattern is found under its path from then on,
    whatever is written later.  Only proofs. *)
From Coq Require Import List NArith ZArith Bool Arith Lia.
From Verif Require Import GoStr Utf8 Node NodeWf InsertProofs MatchProofs Trie Spec TreeOps Refine ApiRefine Reach.
From Verif Require Import Climb Effect Derived Pattern Route Aside.
Import ListNotations.
Open Scope nat_scope.
Open Scope list_scope.

(** the fragment of the node, behind the key [q], does not start with a rune that [B] tells to catch the search *)
Definition mild (B : key_t -> rune -> bool) (q : key_t) (k : node) : Prop :=
  forall y0 y, npath k = y0 :: y -> B q y0 = false.
(** the rune [y0] behind [q] is a pattern *)
Definition pat (d : rune) (q : key_t) (y0 : rune) : bool :=
  lrd_end d false q && ((y0 =? colon) || (y0 =? star))%N.

(** the way to the key [pre ++ w] in the subtree [s] passes nothing that is tried before and catches the search *)
Inductive lead (d : key_t -> rune -> bool) : key_t -> node -> key_t -> Prop :=
| lead_here pre s : lead d pre s (npath s)
| lead_kid pre s l c r w :
    nkids s = l ++ c :: r -> Forall (mild d (pre ++ npath s)) l -> lead d (pre ++ npath s) c w ->
    lead d pre s (npath s ++ w).

Lemma lead_dom d pre s w : lead d pre s w -> dom pre s (pre ++ w).
Proof.
  induction 1 as [pre s|pre s l c r w E _ _ [n IH]]; [apply dom_self|].
  exists n. rewrite app_assoc. eapply ents_kid; [|exact IH]. rewrite E. apply in_elt.
Qed.

(** ** lookups *)
Lemma lead_match rf d pre s w : lead (pat d) pre s w -> forall par kv,
  wfn s -> npath s <> [] ->
  exists n p, matchR (S rf) d s w (lrd_end d false pre) par kv = Ok (MRes true false (Some n) p kv) /\
    In (pre ++ w, n) (ents pre s) /\ par_ok pre s par (pre ++ w) n p.
Proof.
  induction 1 as [pre s|pre s l c r w E M L IH]; intros par kv W Hne.
  - exists s, par. split; [|split; [rewrite ents_eq; now left|left; auto]].
    rewrite matchR_eq by assumption. rewrite scan_spec, lcp_refl. cbv zeta. cbn [plus].
    assert (0 < length (npath s)) by (destruct (npath s); [congruence|cbn; lia]).
    rewrite Nat.min_id, Nat.ltb_irrefl. cbn [bind]. unfold after_loop. rewrite Nat.min_id, Nat.ltb_irrefl, Nat.leb_refl, Nat.eqb_refl.
    destruct (Nat.eqb_spec (S (length (npath s))) (length (npath s))); [lia|]. cbn [andb].
    destruct (Nat.ltb_spec 0 (length (npath s))); [|lia]. cbn [andb negb]. reflexivity.
  - assert (Hc : In c (nkids s)) by (rewrite E; apply in_elt).
    destruct (wfn_kids _ _ W Hc) as [Hnc Wc].
    assert (Hw : exists w0 w', w = w0 :: w' /\ fst_rune c = Some w0).
    { clear - L Hnc. unfold fst_rune. destruct L as [? c|? c ? ? ? w1 ? ? ?]; destruct (npath c) as [|y0 y]; try congruence.
      - now exists y0, y.
      - now exists y0, (y ++ w1). }
    destruct Hw as (w0 & w' & -> & Hf).
    destruct (IH (Some s) kv Wc Hnc) as (n & p & EM & Hin & HP).
    exists n, p. rewrite app_assoc.
    split; [|split; [eapply ents_kid; eauto|]].
    + rewrite matchR_eq by (destruct (npath s); discriminate). rewrite scan_spec, lcp_app_self.
      cbv zeta. cbn [plus].
      assert (P0 : 0 < length (npath s)) by (destruct (npath s); [congruence|cbn; lia]).
      assert (LW : length (npath s ++ w0 :: w') = length (npath s) + S (length w')) by (rewrite app_length; reflexivity).
      replace (Nat.min (length (npath s)) (length (npath s ++ w0 :: w'))) with (length (npath s)) by lia.
      rewrite Nat.ltb_irrefl. cbn [bind]. unfold after_loop.
      replace (Nat.min (length (npath s)) (length (npath s ++ w0 :: w'))) with (length (npath s)) by lia.
      rewrite Nat.ltb_irrefl, Nat.leb_refl, Nat.eqb_refl.
      destruct (Nat.eqb_spec (S (length (npath s))) (length (npath s))); [lia|]. cbn [andb].
      destruct (Nat.ltb_spec 0 (length (npath s))); [|lia]. cbn [andb negb].
      destruct (Nat.ltb_spec (length (npath s)) (length (npath s ++ w0 :: w'))); [|lia].
      cbn [Nat.eqb]. rewrite skipn_here, <- lrd_end_app.
      assert (G : forall last, m_kv last = kv ->
        kids_loop (S rf) d (w0 :: w') (lrd_end d false (pre ++ npath s)) s (nkids s) last = Ok (MRes true false (Some n) p kv)).
      { rewrite E. assert (Fl : forall k, In k l -> In k (nkids s) /\ fst_rune k <> Some w0).
        { intros k Hk. split; [rewrite E; apply in_or_app; now left|]. intros X.
          pose proof (wfn_nodup _ W) as ND. rewrite E, map_app in ND. cbn [map] in ND.
          apply NoDup_remove_2 in ND. apply ND. apply in_or_app. left. rewrite Hf, <- X. now apply in_map. }
        clear E. induction l as [|k l IHl]; intros last Kl; cbn [app kids_loop].
        - rewrite Kl, EM. reflexivity.
        - inversion M as [|? ? Mk M']; subst. destruct (Fl k (or_introl eq_refl)) as [Ik Nk].
          destruct (npath k) as [|y0 y] eqn:Ek; [destruct (wfn_kids _ _ W Ik); congruence|].
          rewrite (skip_node rf d k w0 w' _ _ _ y0 y Ek).
          + cbn [bind m_matched m_partial orb]. apply IHl; auto. intros k' Hk'. apply Fl. now right.
          + intros ->. apply Nk. unfold fst_rune. now rewrite Ek.
          + exact (Mk y0 y Ek). }
      destruct (nkids s) as [|k0 ks] eqn:Ek; [destruct Hc|]. apply G. reflexivity.
    + right. destruct HP as [(-> & E1 & ->)|(kp & m & H1 & H2 & H3 & H4)].
      * exists (pre ++ npath s), s. repeat split; auto. rewrite ents_eq. now left.
      * exists kp, m. repeat split; auto. eapply ents_kid; eauto.
Qed.

(** ** what keeps the way *)
Lemma lead_cong d pre s s' w : npath s' = npath s -> nkids s' = nkids s -> lead d pre s w -> lead d pre s' w.
Proof.
  intros E1 E2 H. destruct H as [pre s|pre s l c r w E M L].
  - rewrite <- E1. apply lead_here.
  - rewrite <- E1. apply (lead_kid d pre s' l c r w); rewrite ?E1, ?E2; auto.
Qed.
Lemma mild_fst d q k k' : fst_rune k' = fst_rune k -> mild d q k -> mild d q k'.
Proof.
  unfold mild, fst_rune. intros E H y0 y Ek. rewrite Ek in E. destruct (npath k) as [|z0 z]; [discriminate|].
  inversion E; subst. eapply H; reflexivity.
Qed.

Lemma list_cut {A} (l : list A) : forall c r l' c' r',
  l ++ c :: r = l' ++ c' :: r' ->
  (l = l' /\ c = c' /\ r = r') \/ (exists m, l' = l ++ c :: m /\ r = m ++ c' :: r') \/
  (exists m, l = l' ++ c' :: m /\ r' = m ++ c :: r).
Proof.
  induction l as [|a l IH]; intros c r [|a' l'] c' r' E; cbn in E; inversion E; subst; auto.
  - right. left. exists l'. auto.
  - right. right. exists l. auto.
  - destruct (IH _ _ _ _ _ H1) as [(-> & -> & ->)|[(m & -> & ->)|(m & -> & ->)]]; auto.
    + right. left. exists m. auto.
    + right. right. exists m. auto.
Qed.

(** a kid is replaced by one with the same first rune *)
Lemma lead_swap d pre s w l c c' r :
  nkids s = l ++ c :: r -> lead d pre s w -> fst_rune c' = fst_rune c ->
  (forall w', lead d (pre ++ npath s) c w' -> lead d (pre ++ npath s) c' w') ->
  lead d pre (set_kids s (l ++ c' :: r)) w.
Proof.
  intros E H Hf Hc. destruct H as [pre s|pre s l0 c0 r0 w E0 M L].
  - change (npath s) with (npath (set_kids s (l ++ c' :: r))). apply lead_here.
  - rewrite E in E0. change (npath s) with (npath (set_kids s (l ++ c' :: r))).
    destruct (list_cut _ _ _ _ _ _ E0) as [(-> & -> & ->)|[(m & -> & ->)|(m & -> & ->)]].
    + apply (lead_kid d pre _ l0 c' r0); auto.
    + apply (lead_kid d pre _ (l ++ c' :: m) c0 r0); auto.
      * cbn [nkids set_kids]. now rewrite <- app_assoc.
      * cbn [npath set_kids]. rewrite Forall_app in M |- *. destruct M as [M1 M2]. split; auto.
        inversion M2; subst. constructor; auto. eapply mild_fst; eauto.
    + apply (lead_kid d pre _ l0 c0 (m ++ c' :: r)); auto. cbn [nkids set_kids].
      rewrite <- app_assoc. reflexivity.
Qed.
(** kids are added behind the others *)
Lemma lead_more d pre s w x : lead d pre s w -> lead d pre (set_kids s (nkids s ++ x)) w.
Proof.
  intros H. destruct H as [pre s|pre s l c r w E M L].
  - change (npath s) with (npath (set_kids s (nkids s ++ x))). apply lead_here.
  - change (npath s) with (npath (set_kids s (nkids s ++ x))).
    apply (lead_kid d pre _ l c (r ++ x)); auto. cbn [nkids set_kids]. rewrite E, <- app_assoc. reflexivity.
Qed.
(** a node is cut in two *)
Lemma lead_split d pre s w pos nx b :
  split s pos nx = Ok b -> lead d pre s w -> lead d pre b w.
Proof.
  unfold split. destruct (_ <=? _); [|discriminate]. intros E; inversion E; subst b; clear E. intros H.
  set (lo := mkNode nx _ _ _ _ _ _ _ _). set (b := mkNode _ _ _ [lo] _ _ _ _ _).
  assert (P : npath b ++ npath lo = npath s) by apply firstn_skipn.
  destruct H as [pre s|pre s l c r w E M L].
  - rewrite <- P. apply (lead_kid d pre b [] lo []); auto. apply lead_here.
  - rewrite <- P, <- app_assoc. apply (lead_kid d pre b [] lo []); auto.
    apply (lead_kid d _ lo l c r); auto; rewrite <- app_assoc, P; auto.
Qed.

Lemma cpl_lcp w p : cpl_len w p = length (lcp w p).
Proof. revert p; induction w as [|a w IH]; intros [|b p]; cbn; auto. destruct (N.eqb_spec a b); cbn; auto. Qed.

Lemma insert_lead d fp v : forall fuel s pre word nx ir w,
  wfn s -> insertInternal fuel s word fp v nx = Ok ir ->
  (npath s <> [] -> exists w0 w', word = w0 :: w' /\ fst_rune s = Some w0) ->
  lead d pre s w -> lead d pre (ir_node ir) w /\ fst_rune (ir_node ir) = fst_rune s.
Proof.
  induction fuel as [|fuel IH]; intros s pre word nx ir w W; [discriminate|]. cbn [insertInternal].
  destruct ((length (npath s) =? 0) && _) eqn:B0.
  { intros E _ L. inversion E; subst ir. cbn [ir_node]. unfold insertAsLeaf. split; [now apply lead_more|].
    reflexivity. }
  clear B0. set (cpl := if (0 <? length (npath s)) && (0 <? length word) then cpl_len word (npath s) else 0).
  destruct (if cpl <? length (npath s) then _ else _) as [[base nx1]| |] eqn:EB; try discriminate.
  cbn [bind]. intros E Hh L.
  assert (B : lead d pre base w /\ fst_rune base = fst_rune s /\
    (forall c, In c (nkids base) -> wfn c /\ npath c <> [])).
  { destruct (Nat.ltb_spec cpl (length (npath s))) as [HC|HC].
    - destruct (split s cpl nx) as [b| |] eqn:ES; try discriminate. cbn [bind] in EB. inversion EB; subst b nx1.
      split; [eapply lead_split; eauto|].
      assert (Hp : exists y0 y, npath s = y0 :: y) by (destruct (npath s) as [|y0 y]; [cbn in HC; lia|eauto]).
      destruct Hp as (y0 & y & Ey). destruct Hh as (w0 & w' & -> & Hf); [congruence|].
      assert (C1 : 0 < cpl).
      { unfold cpl. rewrite Ey. cbn. unfold fst_rune in Hf. rewrite Ey in Hf. inversion Hf; subst. rewrite N.eqb_refl. lia. }
      unfold split in ES. destruct (_ <=? _); [|discriminate]. inversion ES; subst base. cbn [nkids]. split.
      + unfold fst_rune. cbn [npath]. rewrite Ey. destruct cpl; [lia|]. reflexivity.
      + intros c [<-|[]]. split.
        * constructor; cbn [nkids]; [apply (wfn_nodup _ W)|apply (wfn_forall _ W)].
        * cbn [npath]. intros X. apply (f_equal (@length _)) in X. rewrite skipn_length in X. cbn in X. lia.
    - inversion EB; subst base nx1. split; [exact L|]. split; [reflexivity|].
      intros c Hc. destruct (wfn_kids _ _ W Hc). auto. }
  destruct B as (LB & FB & KB). clear EB.
  destruct (cpl <? length word) eqn:CW.
  - destruct (matchChildren _ _) as [[[[l c] r]|]| |] eqn:EM; try discriminate; cbn [bind] in E.
    + set (word' := if 0 <? cpl then skipn cpl word else word) in *.
      destruct (insertInternal fuel c word' fp v nx1) as [ir1| |] eqn:EI; try discriminate. cbn [bind] in E.
      inversion E; subst ir. cbn [ir_node].
      assert (MC : nkids base = l ++ c :: r /\ exists w0 w', word' = w0 :: w' /\ fst_rune c = Some w0).
      { clear - EM. revert l EM. generalize (nkids base). induction l as [|k ks IHk]; intros l; cbn [matchChildren]; [discriminate|].
        destruct (npath k) as [|c0 p] eqn:Ek; [discriminate|]. destruct word' as [|w0 w'] eqn:Ew; [discriminate|].
        destruct (N.eqb_spec c0 w0).
        - intros X. inversion X; subst. split; auto. exists w0, w'. split; auto. unfold fst_rune. now rewrite Ek.
        - destruct (matchChildren (w0 :: w') ks) as [[[[l1 c1] r1]|]| |] eqn:E1; cbn [bind]; try discriminate.
          intros X. inversion X; subst. destruct (IHk _ eq_refl) as [-> H]. split; [reflexivity|exact H]. }
      destruct MC as [EK HW]. destruct (KB c) as [Wc Nc]; [rewrite EK; apply in_elt|].
      split; [|exact FB].
      apply (lead_swap d pre base w l c (ir_node ir1) r EK LB).
      * destruct (IH c (pre ++ npath base) word' nx1 ir1 (npath c) Wc EI (fun _ => HW) (lead_here _ _ _)) as [_ X]. exact X.
      * intros w1 L1. exact (proj1 (IH c (pre ++ npath base) word' nx1 ir1 w1 Wc EI (fun _ => HW) L1)).
    + inversion E; subst ir. cbn [ir_node]. unfold insertAsLeaf. split; [now apply lead_more|exact FB].
  - inversion E; subst ir. cbn [ir_node]. split; [|exact FB]. eapply lead_cong; [..|exact LB]; reflexivity.
Qed.

Lemma upd_lead d id f fi : attr_fun f fi -> forall s pre w, lead d pre s w -> lead d pre (upd id f s) w.
Proof.
  intros AF s pre w H. induction H as [pre s|pre s l c r w E M L IH].
  - rewrite <- (upd_npath id f fi s AF). apply lead_here.
  - rewrite <- (upd_npath id f fi s AF). apply (lead_kid d pre _ (map (upd id f) l) (upd id f c) (map (upd id f) r)).
    + rewrite upd_eq. cbn [nkids set_kids]. rewrite E, map_app. reflexivity.
    + rewrite (upd_npath id f fi s AF). apply Forall_map. eapply Forall_impl; [|exact M].
      intros k. apply mild_fst. unfold fst_rune. now rewrite (upd_npath id f fi k AF).
    + now rewrite (upd_npath id f fi s AF).
Qed.

Lemma remove_id_cut id (ks : list node) :
  snd (remove_id id ks) = ks \/ exists l c r, ks = l ++ c :: r /\ snd (remove_id id ks) = l ++ r.
Proof.
  induction ks as [|k ks IH]; cbn; auto. destruct (nid k =? id).
  - right. exists [], k, ks. auto.
  - destruct (remove_id id ks) as [b ks']. cbn in *. destruct IH as [->|(l & c & r & -> & ->)]; auto.
    right. exists (k :: l), c, r. auto.
Qed.

Lemma rem_lead d pid id : forall s pre w,
  wfn s -> lead d pre s w -> dom pre (rem_child pid id s) (pre ++ w) -> lead d pre (rem_child pid id s) w.
Proof.
  intros s pre w W H. revert W. induction H as [pre s|pre s l c r w E M L IH]; intros W D.
  - rewrite <- (rem_child_npath pid id s). apply lead_here.
  - set (f := rem_child pid id) in *.
    assert (Hc : In c (nkids s)) by (rewrite E; apply in_elt).
    destruct (wfn_kids _ _ W Hc) as [Hnc Wc].
    assert (Np : forall k, npath (f k) = npath k) by (intros; apply rem_child_npath).
    assert (Ff : forall k, fst_rune (f k) = fst_rune k) by (intros; unfold fst_rune; now rewrite Np).
    assert (Hw : exists w0 w', w = w0 :: w' /\ fst_rune c = Some w0).
    { clear - L Hnc. unfold fst_rune. destruct L as [? c|? c ? ? ? w1 ? ? ?]; destruct (npath c) as [|y0 y]; try congruence.
      - now exists y0, y.
      - now exists y0, (y ++ w1). }
    destruct Hw as (w0 & w' & -> & Hf).
    (* the kids that are left *)
    assert (K : exists l' r', nkids (f s) = l' ++ f c :: r' /\ incl l' (map f l) \/
                (exists ks, nkids (f s) = ks /\ forall k, In k ks -> exists k0, In k0 (l ++ r) /\ k = f k0)).
    { assert (KS : nkids (f s) = if nid s =? pid then snd (remove_id id (map f l ++ f c :: map f r)) else map f l ++ f c :: map f r).
      { unfold f at 1. rewrite rem_child_eq. fold f. cbv zeta. rewrite E, map_app. cbn [map]. now destruct (nid s =? pid). }
      rewrite KS. clear KS. destruct (nid s =? pid).
      2:{ exists (map f l), (map f r). left. split; auto. apply incl_refl. }
      destruct (remove_id_cut id (map f l ++ f c :: map f r)) as [->|(l1 & c1 & r1 & E1 & ->)].
      { exists (map f l), (map f r). left. split; auto. apply incl_refl. }
      destruct (list_cut _ _ _ _ _ _ E1) as [(E3 & _ & E5)|[(m & -> & E2)|(m & E2 & ->)]].
      + exists [], []. right. exists (l1 ++ r1). split; [reflexivity|]. intros k Hk. rewrite <- E3, <- E5, <- map_app in Hk.
        apply in_map_iff in Hk. destruct Hk as (k0 & <- & Hk0). eauto.
      + exists (map f l), (m ++ r1). left. split; [now rewrite <- app_assoc|apply incl_refl].
      + exists (l1 ++ m), (map f r). left. split; [now rewrite <- app_assoc|]. rewrite E2.
        intros x Hx. apply in_app_iff in Hx. apply in_or_app. cbn. tauto. }
    rewrite app_assoc in D. apply dom_inv in D. rewrite Np in D. destruct D as [D|(k & Hk & D)].
    { exfalso. apply (f_equal (@length _)) in D. rewrite !app_length in D. cbn in D. lia. }
    assert (NDs : forall k0, In k0 (l ++ r) -> fst_rune k0 <> Some w0).
    { intros k0 Hk0 X. pose proof (wfn_nodup _ W) as ND. rewrite E, map_app in ND. cbn [map] in ND.
      apply NoDup_remove_2 in ND. apply ND. rewrite <- map_app, Hf, <- X. now apply in_map. }
    assert (HD : forall k0, In k0 (nkids s) -> dom (pre ++ npath s) (f k0) ((pre ++ npath s) ++ w0 :: w') -> fst_rune k0 = Some w0).
    { intros k0 Hk0 D0. destruct (wfn_kids _ _ W Hk0) as [Hn0 _].
      destruct (dom_head _ (f k0) _ ltac:(rewrite Np; exact Hn0) D0) as (r1 & y1 & E1 & E2).
      apply app_inv_head in E2. inversion E2; subst. now rewrite <- Ff. }
    destruct K as (l' & r' & [[EK I]|(ks & EK & I)]).
    + assert (k = f c).
      { rewrite EK in Hk. apply in_app_iff in Hk.
        assert (Old : exists k0, In k0 (l ++ c :: r) /\ k = f k0).
        { assert (Hk2 : In k (nkids (f s))) by (rewrite EK; apply in_or_app; exact Hk).
          unfold f in Hk2. rewrite rem_child_eq in Hk2. fold f in Hk2. cbv zeta in Hk2. rewrite E in Hk2.
          assert (In k (map f (l ++ c :: r))).
          { destruct (nid s =? pid); cbn [nkids set_kids] in Hk2; auto.
            destruct (remove_id_cut id (map f (l ++ c :: r))) as [X|(l1 & c1 & r1 & E1 & X)]; rewrite X in Hk2; auto.
            rewrite E1. apply in_app_iff in Hk2. apply in_or_app. cbn. tauto. }
          apply in_map_iff in H. destruct H as (k0 & <- & H0). eauto. }
        destruct Old as (k0 & Hk0 & ->). rewrite <- E in Hk0. pose proof (HD k0 Hk0 D) as F0.
        f_equal. apply (nodup_fst_eq (nkids s)); auto using wfn_nodup. congruence. }
      subst k. rewrite <- (Np s). apply (lead_kid d pre (f s) l' (f c) r' (w0 :: w') EK).
      * rewrite Np. rewrite Forall_forall in M |- *. intros x Hx. apply I in Hx. apply in_map_iff in Hx.
        destruct Hx as (x0 & <- & Hx0). eapply mild_fst; [apply Ff|]. now apply M.
      * rewrite Np. apply IH; auto.
    + exfalso. rewrite EK in Hk. destruct (I k Hk) as (k0 & Hk0 & ->).
      apply (NDs k0 Hk0). apply HD; auto. rewrite E. apply in_app_iff in Hk0. apply in_or_app. cbn. tauto.
Qed.

(** ** where the way is there *)
Lemma aside_lead d : forall s pre w,
  wfn s -> aside_tree d pre s w -> dom pre s (pre ++ w) -> lead (pat d) pre s w.
Proof.
  induction s as [s IH] using node_ind'. intros pre w W AS D.
  apply dom_inv in D. destruct D as [D|(c & Hc & D)].
  { apply app_inv_head in D. subst w. apply lead_here. }
  destruct (dom_prefix _ _ _ D) as [z Ez]. rewrite <- !app_assoc in Ez. apply app_inv_head in Ez. subst w.
  destruct (wfn_kids _ _ W Hc) as [Hnc Wc]. rewrite Forall_forall in IH.
  destruct (in_split _ _ Hc) as (l & r & E).
  apply (lead_kid (pat d) pre s l c r); auto.
  - rewrite Forall_forall. intros k Hk y0 y Ek.
    unfold pat. destruct (_ && _) eqn:B; auto. exfalso. apply andb_true_iff in B. destruct B as [L B].
    assert (Hk' : In k (nkids s)) by (rewrite E; apply in_or_app; now left).
    destruct (npath c) as [|c0 p] eqn:Ec; [congruence|].
    assert (X : c0 = y0).
    { apply (AS ((pre ++ npath s) ++ npath k)) with (q := pre ++ npath s) (y := y) (z := p ++ z).
      - exists k. eapply ents_kid; [exact Hk'|]. rewrite ents_eq. now left.
      - now rewrite Ek.
      - exact L.
      - apply orb_true_iff in B. destruct B as [B|B]; apply N.eqb_eq in B; auto.
      - rewrite <- app_assoc. reflexivity. }
    pose proof (wfn_nodup _ W) as ND. rewrite E, map_app in ND. cbn [map] in ND.
    apply NoDup_remove_2 in ND. apply ND. apply in_or_app. left.
    assert (FK : fst_rune k = fst_rune c) by (unfold fst_rune; rewrite Ek, Ec; now rewrite X). rewrite <- FK. now apply in_map.
  - apply IH; auto.
    + apply aside_tree_kid; auto.
    + now rewrite <- app_assoc.
Qed.

Lemma lead_root rf d s w kv :
  lead (pat d) [] s w -> wfn s -> npath s = [] ->
  exists n p, matchR (S rf) d s w false None kv = Ok (MRes true false (Some n) p kv) /\ In (w, n) (ents [] s).
Proof.
  intros H W Hp. destruct w as [|w0 w].
  { exists s, None. split; [now destruct s|]. rewrite ents_eq, Hp. now left. }
  inversion H as [? ? Es|? ? l c r w1 E M L E1 Ew]; subst; [congruence|]. rewrite Hp in *. cbn [app] in *. subst w1.
  assert (Hc : In c (nkids s)) by (rewrite E; apply in_elt).
  destruct (wfn_kids _ _ W Hc) as [Hnc Wc].
  assert (Hf : fst_rune c = Some w0).
  { destruct (dom_head _ _ _ Hnc (lead_dom _ _ _ _ L)) as (r1 & y1 & E1 & E2). cbn in E2. congruence. }
  destruct (lead_match rf d [] c (w0 :: w) L (Some s) kv Wc Hnc) as (n & p & EM & Hin & _).
  exists n, p. split; [|eapply ents_kid; [exact Hc|]; rewrite Hp; exact Hin].
  rewrite matchR_eq by discriminate. rewrite Hp. cbn [scan length Nat.min].
  cbv zeta. change (0 <? 0) with false. cbn [bind].
  unfold after_loop. rewrite Hp. cbn [length Nat.min]. cbn [Nat.eqb Nat.ltb Nat.leb andb].
  assert (G : forall last, m_kv last = kv ->
    kids_loop (S rf) d (w0 :: w) false s (nkids s) last = Ok (MRes true false (Some n) p kv)).
  { rewrite E. assert (Fl : forall k, In k l -> In k (nkids s) /\ fst_rune k <> Some w0).
    { intros k Hk. split; [rewrite E; apply in_or_app; now left|]. intros X.
      pose proof (wfn_nodup _ W) as ND. rewrite E, map_app in ND. cbn [map] in ND.
      apply NoDup_remove_2 in ND. apply ND. apply in_or_app. left. rewrite Hf, <- X. now apply in_map. }
    clear E H. induction l as [|k l IHl]; intros last Kl; cbn [app kids_loop].
    - rewrite Kl. cbn [lrd_end fold_left] in EM. rewrite EM. reflexivity.
    - inversion M as [|? ? Mk M']; subst. destruct (Fl k (or_introl eq_refl)) as [Ik Nk].
      destruct (npath k) as [|y0 y] eqn:Ek; [destruct (wfn_kids _ _ W Ik); congruence|].
      rewrite (skip_node rf d k w0 w _ _ _ y0 y Ek).
      + cbn [bind m_matched m_partial orb]. apply IHl; auto. intros k' Hk'. apply Fl. now right.
      + intros ->. apply Nk. unfold fst_rune. now rewrite Ek.
      + exact (Mk y0 y Ek). }
  destruct (nkids s) as [|k0 ks] eqn:Ek; [destruct Hc|]. apply G. reflexivity.
Qed.

Lemma lead_query rf h t p a :
  wf_tr t -> lead (pat (hdelim h)) [] (root t) (runes (full h p)) -> t_get t (runes (full h p)) = Some a ->
  exists q, Query (S rf) h t p = Ok q /\
    q_data q = (if a_has a then a_data a else GNil) /\
    q_branch q = negb (a_leaf a) /\
    q_found q = (a_leaf a || ends_with (hdelim h) (runes (full h p))).
Proof.
  intros WT L G. unfold Query, search, probe.
  destruct (lead_root rf (hdelim h) (root t) (runes (full h p)) [] L (proj1 (proj2 (proj1 WT))) (proj1 (proj1 WT)))
    as (n & pn & E & Hin).
  rewrite E. cbn [bind m_matched m_partial orb m_child m_parent m_kv]. eexists; split; [reflexivity|].
  unfold query_of. cbn [s_node s_partial s_kv q_data q_branch q_found].
  pose proof (ents_attr t _ _ WT Hin) as GA. rewrite G in GA. inversion GA; subst a.
  rewrite hasData_bit, isBranch_bit, (endsWith_key (hdelim h) t WT _ _ Hin). split; [reflexivity|]. split; [reflexivity|].
  cbn [a_leaf attr_of i_type info_of]. now destruct (t_leaf (ntype n)).
Qed.

(** ** every call *)
Lemma insert_root_lead d t path v t' ir w :
  wf_tr t -> insert_root t path v = Ok (t', ir) -> lead d [] (root t) w -> lead d [] (root t') w.
Proof.
  intros WT. unfold insert_root.
  destruct (insertInternal _ _ _ _ _ _) as [ir0| |] eqn:E; try discriminate. cbn [bind].
  intros X. inversion X; subst. cbn [root]. intros L.
  apply (insert_lead d path v _ (root t) [] (runes path) (next t) ir w (proj1 (proj2 (proj1 WT))) E); auto.
  rewrite (proj1 (proj1 WT)). congruence.
Qed.

Lemma step_lead rf h t o t' r d w :
  wf_tr t -> t_step rf h t o = Ok (t', r) -> t_get t' w <> None ->
  lead d [] (root t) w -> lead d [] (root t') w.
Proof.
  intros WT E G L.
  assert (RD : forall A (x : res A) (f : A -> out), (do a <- x; Ok (t, f a)) = Ok (t', r) -> lead d [] (root t') w).
  { intros A0 x f. destruct x; cbn [bind]; try discriminate. intros X; inversion X; subst; exact L. }
  assert (UP : forall t0 id f fa, refl_fun f fa -> lead d [] (root t0) w -> lead d [] (upd id f (root t0)) w).
  { intros t0 id f fa (fi & AF & _) L0. exact (upd_lead d id f fi AF _ _ _ L0). }
  destruct o; cbn [t_step] in E; try (now apply RD in E);
    try (match type of E with bind ?x _ = _ => destruct x as [y| |]; cbn [bind] in E; try discriminate end;
         repeat match goal with y : (_ * _)%type |- _ => destruct y end; inversion E; subst; exact L).
  - unfold Set_ in E. destruct (insert_root _ _ _) as [[t1 ir]| |] eqn:EI; try discriminate. cbn [bind] in E.
    inversion E; subst. eapply insert_root_lead; eauto.
  - unfold SetEx in E. destruct (insert_root _ _ _) as [[t1 ir]| |] eqn:EI; try discriminate. cbn [bind] in E.
    inversion E; subst. eapply insert_root_lead; eauto.
  - unfold SetNode in E. destruct (insert_root _ _ _) as [[t1 ir]| |] eqn:EI; try discriminate. cbn [bind] in E.
    inversion E; subst. cbn [root]. eapply UP; [apply refl_descs|]. eapply insert_root_lead; eauto.
  - unfold SetEmpty in E. destruct (insert_root _ _ _) as [[t1 ir]| |] eqn:EI; try discriminate. cbn [bind] in E.
    inversion E; subst. cbn [root]. eapply UP; [apply (refl_nodeop NSetEmpty)|]. eapply insert_root_lead; eauto.
  - unfold Update in E. destruct (insert_root _ _ _) as [[t1 ir]| |] eqn:EI; try discriminate. cbn [bind] in E.
    inversion E; subst. cbn [root]. eapply UP; [apply (refl_nodeops (f (ir_old ir)))|]. eapply insert_root_lead; eauto.
  - unfold Set_ in E. destruct (insert_root _ _ _) as [[t1 ir]| |] eqn:EI; try discriminate. cbn [bind] in E.
    inversion E; subst. cbn [root]. eapply UP; [apply (refl_nodeops (f (ir_old ir)))|]. eapply insert_root_lead; eauto.
  - unfold SetComment in E. destruct (search _ _ _ _) as [r0| |]; try discriminate. cbn [bind] in E.
    destruct (s_node r0) as [n|]; cbn [bind] in E; inversion E; subst; auto. cbn [root].
    eapply UP; [apply (refl_nodeop (NSetComment desc cmt))|exact L].
  - unfold SetTag in E. destruct (search _ _ _ _) as [r0| |]; try discriminate. cbn [bind] in E.
    destruct (s_node r0) as [n|]; cbn [bind] in E; inversion E; subst; auto. cbn [root].
    eapply UP; [apply (refl_nodeop (NSetTag tag))|exact L].
  - unfold Remove, RemoveEx in E. destruct (search _ _ _ _) as [r0| |]; try discriminate. cbn [bind] in E.
    destruct (s_node r0) as [n|]; [|inversion E; subst; auto]. destruct (s_partial r0); [inversion E; subst; auto|].
    destruct (s_parent r0) as [p|]; [|inversion E; subst; auto].
    destruct (fst _); cbn [bind] in E; inversion E; subst; auto. cbn [root] in *.
    apply rem_lead; auto; [exact (proj1 (proj2 (proj1 WT)))|]. apply dom_get in G. exact G.
Qed.

(** trees reached by further calls through any handles, during which the key [w] stays *)
Inductive later (w : skey) (t : tr) : tr -> Prop :=
| later_now : later w t t
| later_step rf h o t1 t2 r :
    later w t t1 -> t_step rf h t1 o = Ok (t2, r) -> t_get t2 w <> None -> later w t t2.

Lemma later_lead d w t t' :
  wf_tr t -> lead d [] (root t) w -> later w t t' -> wf_tr t' /\ lead d [] (root t') w.
Proof.
  intros WT L H. induction H as [|rf h o t1 t2 r _ IH E G]; auto. destruct IH as [WT1 L1].
  split; [eapply step_wf; eauto|eapply step_lead; eauto].
Qed.

Theorem first_served rf h t path v t1 id old t2 :
  reached t -> (forall k, t_get t k <> None -> aside (hdelim h) k (runes (full h path))) ->
  blank_free (full h path) -> Set_ h t path v = Ok (t1, id, old) ->
  later (runes (full h path)) t1 t2 ->
  exists a q, t_get t2 (runes (full h path)) = Some a /\ Query (S rf) h t2 path = Ok q /\
    q_data q = (if a_has a then a_data a else GNil) /\
    q_branch q = negb (a_leaf a) /\
    q_found q = (a_leaf a || ends_with (hdelim h) (runes (full h path))).
Proof.
  intros R AS BF ES LT. pose proof (reached_wf t R) as WT.
  destruct (set_refines h t path v WT) as (t1' & id' & E & WT1 & A' & _).
  rewrite ES in E. inversion E; subst t1'. clear E.
  rewrite (blank_free_replace _ BF) in *. set (w := runes (full h path)) in *.
  pose proof (proj1 (proj2 (proj1 WT1))) as W1.
  assert (D1 : dom [] (root t1) w).
  { apply (abs_dom _ _ W1 A'). unfold s_set, skeys. cbn. now left. }
  assert (L1 : lead (pat (hdelim h)) [] (root t1) w).
  { apply aside_lead; auto. intros k D. cbn [app].
    apply (abs_dom _ _ W1 A') in D. revert k D. apply (keys_set (fun k => aside (hdelim h) k w)).
    - intros p k. apply aside_prefix.
    - intros k Hk. apply AS. now apply entries_keys.
    - apply aside_self. }
  destruct (later_lead _ _ _ _ WT1 L1 LT) as [WT2 L2].
  pose proof (lead_dom _ _ _ _ L2) as D2. apply dom_get in D2. cbn [app] in D2.
  destruct (t_get t2 w) as [a|] eqn:G; [|congruence].
  destruct (lead_query rf h t2 path a WT2 L2 G) as (q & Q). exists a, q. tauto.
Qed.
