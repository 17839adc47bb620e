(** The order in which Walk visits the nodes, computed from the keys written. *)
From Coq Require Import List NArith ZArith Bool Arith Lia.
From Verif Require Import GoStr Utf8 Node NodeWf InsertProofs MatchProofs TreeOps Trie Spec Refine ApiRefine Reach Derived Derived2 Order Size.
Import ListNotations.
Open Scope nat_scope.

(** the elements up to the first that does not satisfy [p], and the others *)
Fixpoint part {A} (p : A -> bool) (l : list A) : list A * list A :=
  match l with
  | [] => ([], [])
  | x :: r => if p x then let '(a, b) := part p r in (x :: a, b) else ([], l)
  end.
(** the longest text with which both [w] and a key of [l] begin *)
Definition deepest (w : skey) (l : list skey) : skey := firstn (fold_right Nat.max 0 (map (fun k => length (common w k)) l)) w.
(** a key is written: the keys that share the longest text with it stand together; the text comes in front of them, the
    key behind them, unless they are there *)
Definition put_key (w : skey) (l : list skey) : list skey :=
  let m := deepest w l in
  let '(a, r) := @part skey (fun k => negb (has_prefix m k)) l in
  let '(s, z) := @part skey (has_prefix m) r in
  a ++ (if existsb (str_eqb m) l then [] else [m]) ++ s ++ (if str_eqb m w then [] else [w]) ++ z.

Lemma part_app {A} p (l : list A) a b : part p l = (a, b) -> l = a ++ b.
Proof.
  revert a b. induction l as [|x l IH]; intros a b; cbn [part]; [now intros [= <- <-]|]. destruct (p x); [|now intros [= <- <-]].
  destruct (part p l) as [a' b']. intros [= <- <-]. cbn. f_equal. now apply IH.
Qed.
Lemma part_at {A} p (a r : list A) : (forall x, In x a -> p x = true) -> (forall x, hd_error r = Some x -> p x = false) -> part p (a ++ r) = (a, r).
Proof.
  intros Ha Hr. induction a as [|x a IH]; cbn [app part].
  - destruct r as [|x r]; auto. cbn [part]. now rewrite (Hr x eq_refl).
  - rewrite (Ha x (or_introl eq_refl)), IH; auto. intros y I. apply Ha. now right.
Qed.
Lemma lcp_len w k : length (lcp w k) <= length w.
Proof. pose proof (lcp_prefix_l w k) as [y E]. revert E. generalize (lcp w k). intros m ->. rewrite app_length. lia. Qed.
Lemma deepest_is w l k0 : In k0 l -> (forall k, In k l -> length (lcp w k) <= length (lcp w k0)) -> deepest w l = lcp w k0.
Proof.
  intros I H. unfold deepest. assert (M : fold_right Nat.max 0 (map (fun k => length (common w k)) l) = length (lcp w k0)).
  { apply Nat.le_antisymm.
    - clear I. induction l as [|x l IH]; cbn [map fold_right]; [lia|]. change (common w x) with (lcp w x). apply Nat.max_lub; [apply H; now left|].
      apply IH. intros k J. apply H. now right.
    - clear H. induction l as [|x l IH]; [destruct I|]. cbn [map fold_right]. change (common w x) with (lcp w x). destruct I as [->|I]; [lia|]. specialize (IH I). lia. }
  rewrite M. pose proof (lcp_prefix_l w k0) as [y E]. clear - E. revert E. generalize (lcp w k0). intros m ->. now rewrite firstn_app, Nat.sub_diag, firstn_all, firstn_O, app_nil_r.
Qed.
Lemma deepest_ex w (l : list skey) : l <> [] -> exists k0, In k0 l /\ forall k, In k l -> length (lcp w k) <= length (lcp w k0).
Proof.
  induction l as [|x l IH]; [congruence|]. intros _. destruct l as [|y l].
  - exists x. split; [now left|]. intros k [->|[]]. lia.
  - destruct IH as (k0 & I & H); [discriminate|]. destruct (le_lt_dec (length (lcp w x)) (length (lcp w k0))) as [L|L].
    + exists k0. split; [now right|]. intros k [<-|J]; auto.
    + exists x. split; [now left|]. intros k [<-|J]; [lia|]. specialize (H k J). lia.
Qed.
Lemma hp_iff p k : has_prefix p k = true <-> prefix p k.
Proof. apply has_prefix_iff. Qed.
Lemma hp_no p k : ~ prefix p k -> has_prefix p k = false.
Proof. intros N. destruct (has_prefix p k) eqn:E; auto. apply hp_iff in E. contradiction. Qed.
Lemma has_it (m : skey) l : In m l -> existsb (str_eqb m) l = true.
Proof. intros I. apply existsb_exists. exists m. split; [exact I|]. now apply str_eqb_eq. Qed.
Lemma has_not (m : skey) l : ~ In m l -> existsb (str_eqb m) l = false.
Proof.
  intros I. destruct (existsb (str_eqb m) l) eqn:E; auto. apply existsb_exists in E. destruct E as (x & J & E). apply str_eqb_eq in E. subst. contradiction.
Qed.
Lemma put_at (w : skey) (l : list skey) (m : skey) (a s z : list skey) : deepest w l = m -> l = a ++ s ++ z -> s <> [] ->
  (forall x, In x a -> ~ prefix m x) -> (forall x, In x s -> prefix m x) -> (forall x, hd_error z = Some x -> ~ prefix m x) ->
  put_key w l = a ++ (if existsb (str_eqb m) l then [] else [m]) ++ s ++ (if str_eqb m w then [] else [w]) ++ z.
Proof.
  intros D -> NS Ha Hs Hz. unfold put_key. rewrite D. rewrite (@part_at skey (fun k => negb (has_prefix m k)) a (s ++ z)).
  - rewrite (@part_at skey (has_prefix m) s z); auto.
    + intros x I. apply hp_iff. auto.
    + intros x I. apply hp_no. auto.
  - intros x I. now rewrite hp_no by auto.
  - intros x I. destruct s as [|y s]; [congruence|]. cbn in I. injection I as <-. rewrite (proj2 (hp_iff m y)); auto. apply Hs. now left.
Qed.

Lemma order_wf t : wf_tr t -> wfn (root t).
Proof. intros WT. exact (proj1 (proj2 (proj1 WT))). Qed.
Lemma order_lcp t a b : wf_tr t -> In a (order t) -> In b (order t) -> In (lcp a b) (order t).
Proof.
  intros WT Ia Ib. apply keys_ent in Ia, Ib. destruct Ia as (n1 & I1), Ib as (n2 & I2).
  apply keys_ent. exact (ents_lcp _ _ _ _ _ _ (order_wf t WT) I1 I2).
Qed.
(** nothing of a section comes before its upper node *)
Lemma first_above t a m r : wf_tr t -> order t = a ++ m :: r -> forall x, In x a -> ~ prefix m x.
Proof.
  intros WT E x I P. pose proof (order_nodup t WT) as ND. assert (B : before (order t) x m).
  { apply in_split in I. destruct I as (u & v & ->). apply before_iff. exists u, v, r. rewrite E. now rewrite <- app_assoc. }
  destruct (before_in _ _ _ B) as [Ix Im]. destruct (prefix_cases _ _ P) as [->|PP].
  - exact (before_asym _ _ _ ND B B).
  - exact (before_asym _ _ _ ND B (above_before [] (root t) m x (order_wf t WT) Im Ix PP)).
Qed.
Lemma in_between t a m s w z : wf_tr t -> order t = a ++ m :: s ++ w :: z -> prefix m w -> forall x, In x s -> prefix m x.
Proof.
  intros WT E P x I. apply (section_between [] (root t) m m x w (order_wf t WT)); auto using prefix_refl. fold (order t). rewrite E.
  apply in_split in I. destruct I as (u & v & ->). change [m; x; w] with ([] ++ [m] ++ [x] ++ [w]). rewrite <- app_assoc. cbn [app].
  change [m; x; w] with ([] ++ [m; x; w]). apply sub_app; [apply sub_none|]. apply sub_take. change [x; w] with ([] ++ [x; w]).
  apply sub_app; [apply sub_none|]. apply sub_take. apply sub_one. apply in_elt.
Qed.
Lemma split_same {A} (u1 u2 v1 v2 : list A) w : NoDup (u1 ++ w :: u2) -> u1 ++ w :: u2 = v1 ++ w :: v2 -> u1 = v1 /\ u2 = v2.
Proof.
  revert v1. induction u1 as [|d u1 IH]; intros v1 N Q; destruct v1 as [|e v1]; cbn in *.
  - injection Q as ->. auto.
  - injection Q as <- ->. inversion N; subst. exfalso. apply H1. apply in_elt.
  - injection Q as -> <-. inversion N; subst. exfalso. apply H1. apply in_elt.
  - injection Q as -> Q. inversion N; subst. destruct (IH v1) as [-> ->]; auto.
Qed.
(** nothing of the section of [m] comes behind the new key *)
Lemma last_new t t1 w l1 l2 m : wf_tr t1 -> tailed [] w (root t1) -> order t1 = l1 ++ w :: l2 ->
  prefix m w -> (forall k, In k (order t) -> length (lcp w k) <= length m) -> (forall p, In p (order t1) -> p = w \/ p = m \/ In p (order t)) ->
  forall x, In x l2 -> ~ prefix m x.
Proof.
  intros WT (u & v & EK & _ & TL) E PM MX HP x I PX. pose proof (order_nodup t1 WT) as ND. cbn [app] in EK, TL. fold (order t1) in EK.
  change (order t1 = (npath (root t1) :: u) ++ w :: v) in EK. rewrite EK in E. rewrite EK in ND.
  destruct (split_same _ _ _ _ _ ND E) as [EU ->]. destruct (TL x I) as (p & Ip & Pp & Np).
  assert (IP : In p (order t1)). { rewrite EK. apply in_app_iff. now left. }
  destruct (HP p IP) as [->|[->|J]]; [|contradiction|].
  - apply NoDup_remove_2 in ND. apply ND. apply in_app_iff. now left.
  - specialize (MX p J). assert (LP : lcp w p = p). { destruct Pp as [y ->]. now rewrite lcp_app_self. } rewrite LP in MX.
    apply Np. eapply prefix_trans; [|exact PX]. destruct (prefix_comparable _ _ _ Pp PM) as [X|X]; [exact X|].
    destruct X as [y ->]. rewrite app_length in MX. assert (y = []) as -> by (destruct y; [auto|cbn in MX; lia]). rewrite app_nil_r. apply prefix_refl.
Qed.

Theorem insert_put t p v t1 ir : wf_tr t -> insert_root t p v = Ok (t1, ir) -> order t1 = put_key (runes p) (order t).
Proof.
  intros WT E. destruct (insert_order t p v t1 ir WT E) as (WT1 & _ & _ & _ & TL).
  destruct (insert_root_refines t _ p v WT (abs_entries t)) as (t' & ir' & E' & _ & _ & _ & _ & R & _).
  rewrite E in E'. injection E' as <- <-. pose proof (order_nodup t1 WT1) as ND.
  assert (OT : order t = map fst (ients [] (root t))) by (unfold order; now rewrite keys_ients).
  assert (OT1 : order t1 = map fst (ients [] (root t1))) by (unfold order; now rewrite keys_ients).
  set (w := runes p) in *.
  destruct R as [l1 i l2|l1 l2 Hp|l1 k i l2 Hp|l1 k0 k i l2 l3 H1 H2 H3 Hp]; rewrite ?map_app in *; cbn [map fst] in *; rewrite ?map_app in *; cbn [map fst] in *.
  - (* there already *)
    assert (D : deepest w (order t) = w).
    { rewrite (deepest_is w (order t) w); [apply lcp_refl| |].
      - rewrite OT. apply in_elt.
      - intros k _. rewrite lcp_refl. apply lcp_len. }
    unfold put_key. rewrite D. destruct (part _ (order t)) as [a r] eqn:P1. apply part_app in P1. destruct (part _ r) as [s z] eqn:P2. apply part_app in P2.
    rewrite has_it by (rewrite OT; apply in_elt). rewrite (proj2 (str_eqb_eq w w)) by reflexivity. cbn [app]. rewrite <- P2, <- P1. now rewrite OT, OT1.
  - (* a new leaf *)
    assert (NW : forall x, In x (order t) -> ~ prefix w x).
    { intros x I. rewrite OT, <- map_app in I. apply in_map_iff in I. destruct I as ([x' i] & Q & I). cbn in Q. subst. exact (Hp x i I). }
    destruct (deepest_ex w (order t)) as (k0 & I0 & MX). { unfold order. rewrite keys_eq. discriminate. }
    pose proof (deepest_is w (order t) k0 I0 MX) as D. set (m := lcp w k0) in *.
    assert (HP : forall x, In x (order t1) -> x = w \/ x = m \/ In x (order t)).
    { intros x. rewrite OT, OT1, !in_app_iff. cbn [In]. intuition. }
    assert (MW : m <> w). { intros Q. apply (NW k0 I0). rewrite <- Q. apply lcp_prefix_r. }
    assert (IW : In w (order t1)) by (rewrite OT1; apply in_elt).
    assert (I01 : In k0 (order t1)) by (rewrite OT in I0; rewrite OT1; rewrite in_app_iff in *; cbn [In]; tauto).
    pose proof (order_lcp t1 w k0 WT1 IW I01) as IM1. fold m in IM1.
    assert (IM : In m (order t)). { rewrite OT1, in_app_iff in IM1. cbn [In] in IM1. rewrite OT, in_app_iff. intuition congruence. }
    assert (PW : prefix m w) by apply lcp_prefix_l.
    pose proof (last_new t t1 w (map fst l1) (map fst l2) m WT1 (TL NW) OT1 PW MX HP) as AFT.
    assert (IL : In m (map fst l1)).
    { rewrite OT, in_app_iff in IM. destruct IM as [X|X]; [exact X|]. exfalso. exact (AFT m X (prefix_refl m)). }
    apply in_split in IL. destruct IL as (a & c & EL). rewrite EL in OT, OT1.
    rewrite (put_at w (order t) m a (m :: c) (map fst l2)); auto.
    + rewrite has_it by exact IM. destruct (str_eqb m w) eqn:Q; [apply str_eqb_eq in Q; contradiction|]. rewrite OT1. cbn [app]. now rewrite <- app_assoc.
    + rewrite OT. now rewrite <- app_assoc.
    + discriminate.
    + apply (first_above t1 a m (c ++ w :: map fst l2) WT1). rewrite OT1. now rewrite <- app_assoc.
    + intros x [<-|I]; [apply prefix_refl|]. apply (in_between t1 a m c w (map fst l2) WT1); auto. rewrite OT1. now rewrite <- app_assoc.
    + intros x I. apply AFT. destruct (map fst l2); [discriminate|]. cbn in I. injection I as ->. now left.
  - (* in front of a key that goes on *)
    assert (D : deepest w (order t) = w).
    { assert (LK : lcp w k = w). { destruct Hp as (c & y & ->). apply lcp_self_app. }
      rewrite (deepest_is w (order t) k); [exact LK| |].
      - rewrite OT. apply in_elt.
      - intros x _. rewrite LK. apply lcp_len. }
    assert (NI : ~ In w (order t)).
    { rewrite OT1 in ND. apply NoDup_remove_2 in ND. intros I. apply ND. now rewrite OT in I. }
    unfold put_key. rewrite D, OT. rewrite (@part_at skey _ (map fst l1) (k :: map fst l2)).
    + destruct (@part skey (has_prefix w) (k :: map fst l2)) as [s z] eqn:P2. apply part_app in P2. rewrite <- OT, has_not by exact NI.
      rewrite (proj2 (str_eqb_eq w w)) by reflexivity. cbn [app]. rewrite <- P2. exact OT1.
    + intros x I. rewrite hp_no; auto. exact (first_above t1 (map fst l1) w (k :: map fst l2) WT1 OT1 x I).
    + intros x Q. cbn in Q. injection Q as <-. rewrite (proj2 (hp_iff w k)); auto. now apply pprefix_prefix.
  - (* a new fork *)
    assert (NW : forall x, In x (order t) -> ~ prefix w x).
    { intros x I. rewrite OT in I. assert (X : In x (map fst (l1 ++ (k, i) :: l2 ++ l3))) by (rewrite map_app; cbn [map fst]; now rewrite map_app).
      apply in_map_iff in X. destruct X as ([x' i'] & Q & X). cbn in Q. subst. exact (Hp x i' X). }
    assert (IK : In k (order t)) by (rewrite OT; apply in_elt).
    assert (N0 : ~ In k0 (order t)).
    { rewrite OT1 in ND. apply NoDup_remove_2 in ND. intros I. apply ND. rewrite OT in I.
      rewrite !in_app_iff in *. cbn [In] in *. rewrite !in_app_iff in *. cbn [In]. tauto. }
    assert (MX : forall x, In x (order t) -> length (lcp w x) <= length (lcp w k)).
    { intros x I. destruct (le_lt_dec (length (lcp w x)) (length (lcp w k))) as [L|L]; auto. exfalso. apply N0.
      rewrite <- H3, <- (lcp_turn w k x L). exact (order_lcp t x k WT I IK). }
    pose proof (deepest_is w (order t) k IK MX) as D. rewrite H3 in D. rewrite H3 in MX.
    assert (HP : forall x, In x (order t1) -> x = w \/ x = k0 \/ In x (order t)).
    { intros x. rewrite OT, OT1. rewrite ?in_app_iff; cbn [In]; rewrite ?in_app_iff; cbn [In]; rewrite ?in_app_iff. intuition. }
    assert (OT1' : order t1 = (map fst l1 ++ k0 :: k :: map fst l2) ++ w :: map fst l3).
    { rewrite OT1. rewrite <- app_assoc. cbn [app]. reflexivity. }
    pose proof (last_new t t1 w _ (map fst l3) k0 WT1 (TL NW) OT1' (pprefix_prefix _ _ H2) MX HP) as AFT.
    rewrite (put_at w (order t) k0 (map fst l1) (k :: map fst l2) (map fst l3)); auto.
    + rewrite has_not by exact N0. destruct (str_eqb k0 w) eqn:Q; [apply str_eqb_eq in Q; exfalso; exact (pprefix_neq _ _ H2 Q)|].
      rewrite OT1. reflexivity.
    + discriminate.
    + exact (first_above t1 (map fst l1) k0 (k :: map fst l2 ++ w :: map fst l3) WT1 OT1).
    + intros x [<-|I]; [now apply pprefix_prefix|]. apply (in_between t1 (map fst l1) k0 (k :: map fst l2) w (map fst l3) WT1 OT1 (pprefix_prefix _ _ H2)). now right.
    + intros x I. apply AFT. destruct (map fst l3); [discriminate|]. cbn in I. injection I as ->. now left.
Qed.

(** one call *)
Theorem step_put rf h t o t' r : reached t -> t_step rf h t o = Ok (t', r) -> (forall path, o <> ORemove path) ->
  order t' = match stored h o with Some p => put_key (runes p) (order t) | None => order t end.
Proof.
  intros R E N. pose proof (reached_wf t R) as WT. pose proof (step_shape rf h t o t' r WT E) as X. destruct (stored h o) as [p|].
  - destruct X as (v & t1 & ir & EI & ->). exact (insert_put t p v t1 ir WT EI).
  - destruct X as [X|(path & q & -> & _)]; [exact X|exfalso; exact (N path eq_refl)].
Qed.
(** any history without Remove, from any tree *)
Theorem run_put rf hist : forall t t' outs, wf_tr t -> t_run rf hist t = Ok (t', outs) -> no_remove hist ->
  order t' = fold_left (fun l w => put_key w l) (stored_keys hist) (order t).
Proof.
  induction hist as [|[h o] hist IH]; intros t t' outs WT E NR; cbn [t_run stored_keys] in *.
  - injection E as <- _. reflexivity.
  - inversion NR as [|? ? N1 N2]; subst. cbn [snd] in N1.
    destruct (t_step rf h t o) as [[t1 r]| |] eqn:E1; try discriminate. cbn [bind] in E.
    destruct (t_run rf hist t1) as [[t2 rs]| |] eqn:E2; try discriminate. cbn [bind] in E. injection E as <- _.
    rewrite (IH t1 t2 rs (step_wf _ _ _ _ _ _ WT E1) E2 N2). rewrite fold_left_app. f_equal.
    pose proof (step_shape rf h t o t1 r WT E1) as X. destruct (stored h o) as [p|]; cbn [fold_left].
    + destruct X as (v & t3 & ir & EI & ->). exact (insert_put t p v t3 ir WT EI).
    + destruct X as [X|(path & q & -> & _)]; [exact X|contradiction].
Qed.
(** Remove leaves out the keys that are gone *)
Theorem step_gone rf h t path t' r : reached t -> t_step rf h t (ORemove path) = Ok (t', r) ->
  order t' = filter (fun k => match t_get t' k with Some _ => true | None => false end) (order t).
Proof.
  intros R E. pose proof (reached_wf t R) as WT. pose proof (step_wf _ _ _ _ _ _ WT E) as WT'.
  assert (F : exists f, order t' = filter f (order t)).
  { pose proof (step_shape rf h t _ t' r WT E) as X. cbn [stored] in X. destruct X as [X|(p & q & _ & X)]; [|eauto].
    exists (fun _ => true). rewrite X. clear. induction (order t) as [|k l IH]; cbn; auto. now f_equal. }
  destruct F as (f & F). rewrite F at 1. apply filter_ext_in. intros k I.
  pose proof (order_get t' k WT') as G. rewrite F, filter_In in G. destruct (t_get t' k) as [a|].
  - destruct (proj2 G) as [_ X]; eauto.
  - destruct (f k); auto. destruct (proj1 G) as [a X]; auto. discriminate.
Qed.
