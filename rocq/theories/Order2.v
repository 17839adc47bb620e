(** The order in which Walk visits the nodes, from the keys written alone. *)
From Coq Require Import List NArith ZArith Bool Arith Lia.
From Verif Require Import GoStr Utf8 Node NodeWf InsertProofs MatchProofs TreeOps Trie Spec Refine ApiRefine Reach Derived Derived2 Order.
Import ListNotations.
Open Scope nat_scope.

(** the first of the keys [l] that begins with [A] or with [B] begins with [A] *)
Fixpoint leads (A B : skey) (l : list skey) : bool :=
  match l with
  | [] => false
  | k :: r => if has_prefix A k then true else if has_prefix B k then false else leads A B r
  end.
(** the keys of [l], each where it is for the first time *)
Fixpoint firsts (l : list skey) : list skey :=
  match l with
  | [] => []
  | k :: r => k :: filter (fun x => negb (str_eqb k x)) (firsts r)
  end.

Lemma leads_split A B l : leads A B l = true -> exists u w v, l = u ++ w :: v /\ prefix A w /\ forall x, In x u -> ~ prefix B x.
Proof.
  induction l as [|k l IH]; cbn [leads]; [discriminate|]. destruct (has_prefix A k) eqn:HA.
  - intros _. exists [], k, l. split; [reflexivity|]. split; [now apply has_prefix_iff|intros x []].
  - destruct (has_prefix B k) eqn:HB; [discriminate|]. intros L. destruct (IH L) as (u & w & v & -> & P & Q).
    exists (k :: u), w, v. split; [reflexivity|]. split; [exact P|]. intros x [<-|I]; [|auto].
    intros X. apply has_prefix_iff in X. congruence.
Qed.
Lemma leads_either A B l k : In k l -> prefix A k \/ prefix B k -> leads A B l = true \/ leads B A l = true.
Proof.
  intros I P. induction l as [|x l IH]; [destruct I|]. cbn [leads]. destruct (has_prefix A x) eqn:HA; [now left|].
  destruct (has_prefix B x) eqn:HB; [now right|]. destruct I as [->|I]; [|auto]. exfalso.
  destruct P as [P|P]; apply has_prefix_iff in P; congruence.
Qed.
Lemma leads_filter A B k l : has_prefix A k = false -> has_prefix B k = false ->
  leads A B (filter (fun x => negb (str_eqb k x)) l) = leads A B l.
Proof.
  intros HA HB. induction l as [|x l IH]; cbn [filter]; auto. destruct (str_eqb k x) eqn:E; cbn [negb leads].
  - apply str_eqb_eq in E. subst. now rewrite HA, HB.
  - now rewrite IH.
Qed.
Lemma leads_firsts A B l : leads A B (firsts l) = leads A B l.
Proof.
  induction l as [|k l IH]; cbn [firsts leads]; auto. destruct (has_prefix A k) eqn:HA; auto. destruct (has_prefix B k) eqn:HB; auto.
  now rewrite leads_filter, IH.
Qed.
Lemma firsts_in l x : In x (firsts l) <-> In x l.
Proof.
  induction l as [|k l IH]; cbn [firsts In]; [tauto|]. rewrite filter_In, IH. destruct (str_eqb k x) eqn:E; cbn [negb].
  - apply str_eqb_eq in E. tauto.
  - intuition.
Qed.

(** two keys: one begins the other, or they part somewhere *)
Lemma parting (a : skey) : forall b, a = b \/ pprefix a b \/ pprefix b a \/
  exists c ra rb x y, ra <> rb /\ a = c ++ ra :: x /\ b = c ++ rb :: y.
Proof.
  induction a as [|p a IH]; intros [|q b]; auto.
  - right. left. now exists q, b.
  - right. right. left. now exists p, a.
  - destruct (N.eq_dec p q) as [<-|N].
    + destruct (IH b) as [->|[(c & y & ->)|[(c & y & ->)|(c & ra & rb & x & y & N & -> & ->)]]]; auto.
      * right. left. now exists c, y.
      * right. right. left. now exists c, y.
      * right. right. right. exists (p :: c), ra, rb, x, y. auto.
    + right. right. right. exists [], p, q, a, b. auto.
Qed.
Lemma pref_step (c : skey) r x : prefix (c ++ [r]) (c ++ r :: x).
Proof. exists x. now rewrite <- app_assoc. Qed.

Lemma stored_below rf hist t outs k : t_run rf hist newTrie = Ok (t, outs) -> no_remove hist -> In k (order t) -> k <> [] ->
  exists w, In w (stored_keys hist) /\ prefix k w.
Proof.
  intros E NR I N. pose proof (run_wf _ _ _ _ _ newTrie_wf E) as WT. apply (order_get t k WT) in I.
  apply (keys_exact _ _ _ _ E NR) in I. destruct I as [->|(a & b & Ia & _ & ->)]; [congruence|].
  exists a. split; [exact Ia|]. rewrite common_lcp. apply lcp_prefix_l.
Qed.

(** the place of two nodes: the upper one first, else the one below whose part a key was written first *)
Theorem order_exact rf hist t outs a b : t_run rf hist newTrie = Ok (t, outs) -> no_remove hist ->
  In a (order t) -> In b (order t) ->
  (before (order t) a b <-> (exists r y, b = a ++ r :: y) \/
    exists c ra rb x y, ra <> rb /\ a = c ++ ra :: x /\ b = c ++ rb :: y /\ leads (c ++ [ra]) (c ++ [rb]) (stored_keys hist) = true).
Proof.
  intros E NR Ia Ib. pose proof (run_wf _ _ _ _ _ newTrie_wf E) as WT. pose proof (order_nodup t WT) as ND.
  assert (LB : forall c ra rb x y, ra <> rb -> leads (c ++ [ra]) (c ++ [rb]) (stored_keys hist) = true ->
    In (c ++ ra :: x) (order t) -> In (c ++ rb :: y) (order t) -> before (order t) (c ++ ra :: x) (c ++ rb :: y)).
  { intros c ra rb x y N L I J. destruct (leads_split _ _ _ L) as (u & w & v & ES & P & Q).
    apply (first_first rf hist t outs c ra rb u w v E NR N ES P Q); auto; apply pref_step. }
  pose proof (proj1 (proj2 (proj1 WT))) as W.
  split.
  - intros B. destruct (parting a b) as [->|[P|[P|(c & ra & rb & x & y & N & -> & ->)]]].
    + exfalso. exact (before_asym _ _ _ ND B B).
    + now left.
    + exfalso. exact (before_asym _ _ _ ND B (above_before [] (root t) b a W Ib Ia P)).
    + right. exists c, ra, rb, x, y. repeat split; auto.
      destruct (stored_below _ _ _ _ _ E NR Ia) as (w & Iw & Pw); [now destruct c|].
      assert (PA : prefix (c ++ [ra]) w) by (eapply prefix_trans; [apply pref_step|exact Pw]).
      destruct (leads_either (c ++ [ra]) (c ++ [rb]) (stored_keys hist) w Iw (or_introl PA)) as [L|L]; [exact L|].
      exfalso. exact (before_asym _ _ _ ND B (LB c rb ra y x (not_eq_sym N) L Ib Ia)).
  - intros [P|(c & ra & rb & x & y & N & -> & -> & L)]; [exact (above_before [] (root t) a b W Ia Ib P)|]. now apply LB.
Qed.

Lemma same_order {A} (l : list A) : forall m, NoDup l -> NoDup m -> (forall x, In x l <-> In x m) ->
  (forall x y, In x l -> In y l -> before l x y -> before m x y) -> l = m.
Proof.
  induction l as [|a l IH]; intros m NL NM HI HB.
  - destruct m as [|b m]; auto. exfalso. apply (proj2 (HI b)). now left.
  - destruct m as [|b m]; [exfalso; apply (proj1 (HI a)); now left|].
    assert (AB : a = b).
    { destruct (proj1 (HI a) (or_introl eq_refl)) as [X|IA]; [now symmetry|]. destruct (proj2 (HI b) (or_introl eq_refl)) as [X|IB]; [exact X|]. exfalso.
      apply (before_asym (b :: m) a b NM); [apply HB; cbn; auto|]; apply sub_take; now apply sub_one. }
    subst b. f_equal. inversion NL as [|? ? N1 N2]; subst. inversion NM as [|? ? M1 M2]; subst. apply IH; auto.
    + intros x. specialize (HI x). cbn [In] in HI. split; intros I.
      * destruct (proj1 HI (or_intror I)) as [<-|J]; [contradiction|exact J].
      * destruct (proj2 HI (or_intror I)) as [<-|J]; [contradiction|exact J].
    + intros x y Ix Iy B. specialize (HB x y (or_intror Ix) (or_intror Iy) (sub_skip _ _ _ B)).
      inversion HB as [|? ? ? B'|? ? ? B']; subst; [exact B'|contradiction].
Qed.

(** so only the order in which the keys are written for the first time counts *)
Theorem order_firsts rf rf' hist hist' t t' outs outs' :
  t_run rf hist newTrie = Ok (t, outs) -> t_run rf' hist' newTrie = Ok (t', outs') -> no_remove hist -> no_remove hist' ->
  firsts (stored_keys hist) = firsts (stored_keys hist') -> order t = order t'.
Proof.
  intros E E' NR NR' F. pose proof (run_wf _ _ _ _ _ newTrie_wf E) as WT. pose proof (run_wf _ _ _ _ _ newTrie_wf E') as WT'.
  assert (SK : forall x, In x (stored_keys hist) <-> In x (stored_keys hist')). { intros x. now rewrite <- firsts_in, F, firsts_in. }
  assert (HI : forall x, In x (order t) <-> In x (order t')).
  { intros x. rewrite (order_get t x WT), (order_get t' x WT'), (keys_exact _ _ _ _ E NR x), (keys_exact _ _ _ _ E' NR' x).
    split; (intros [->|(a & b & Ia & Ib & ->)]; [now left|right; exists a, b; repeat split; auto; now apply SK]). }
  apply same_order; auto using order_nodup.
  intros x y Ix Iy B. apply (order_exact _ _ _ _ x y E NR Ix Iy) in B.
  apply (order_exact _ _ _ _ x y E' NR'); [now apply HI|now apply HI|]. destruct B as [P|(c & ra & rb & u & v & N & -> & -> & L)]; [now left|].
  right. exists c, ra, rb, u, v. repeat split; auto. now rewrite <- leads_firsts, <- F, leads_firsts.
Qed.

(** a write of a key that is a node already leaves the order as it is *)
Lemma insert_again t p v t1 ir : wf_tr t -> insert_root t p v = Ok (t1, ir) -> In (runes p) (order t) -> order t1 = order t.
Proof.
  intros WT E I. destruct (insert_root_refines t _ p v WT (abs_entries t)) as (t' & ir' & E' & WT' & _ & _ & _ & R & _).
  rewrite E in E'. injection E' as <- <-. pose proof (order_nodup t1 WT') as ND. unfold order in *. rewrite !keys_ients in *.
  destruct R as [l1 i l2|l1 l2 Hp|l1 k i l2 Hp|l1 k0 k i l2 l3 H1 H2 H3 Hp].
  - now rewrite !map_app.
  - exfalso. apply in_map_iff in I. destruct I as ([k i] & Q & I). cbn in Q. subst k. exact (Hp _ i I (prefix_refl _)).
  - exfalso. rewrite map_app in ND, I. cbn [map fst] in ND, I. apply NoDup_remove_2 in ND. apply ND.
    rewrite in_app_iff in *. cbn [In] in *. tauto.
  - exfalso. apply in_map_iff in I. destruct I as ([k' i'] & Q & I). cbn in Q. subst k'. exact (Hp _ i' I (prefix_refl _)).
Qed.
Theorem step_again rf h t o t' r : reached t -> t_step rf h t o = Ok (t', r) -> (forall path, o <> ORemove path) ->
  (forall p, stored h o = Some p -> In (runes p) (order t)) -> order t' = order t.
Proof.
  intros R E N H. pose proof (reached_wf t R) as WT. pose proof (step_shape rf h t o t' r WT E) as X. destruct (stored h o) as [p|].
  - destruct X as (v & t1 & ir & EI & ->). exact (insert_again t p v t1 ir WT EI (H p eq_refl)).
  - destruct X as [X|(path & q & -> & _)]; [exact X|exfalso; exact (N path eq_refl)].
Qed.
