(** The order in which Walk visits the nodes. *)
From Coq Require Import List NArith ZArith Bool Arith Lia.
From Verif Require Import GoStr Utf8 Node NodeWf InsertProofs MatchProofs TreeOps Trie Spec Refine ApiRefine Reach Derived Derived2.
Import ListNotations.
Open Scope nat_scope.

(** ** one list within another, in the same order *)
Inductive sub {A} : list A -> list A -> Prop :=
| sub_nil : sub [] []
| sub_skip x a b : sub a b -> sub a (x :: b)
| sub_take x a b : sub a b -> sub (x :: a) (x :: b).
Lemma sub_refl {A} (l : list A) : sub l l.
Proof. induction l; [apply sub_nil|now apply sub_take]. Qed.
Lemma sub_none {A} (l : list A) : sub [] l.
Proof. induction l; [apply sub_nil|now apply sub_skip]. Qed.
Lemma sub_trans {A} (b c : list A) : sub b c -> forall a, sub a b -> sub a c.
Proof.
  induction 1 as [|x b c _ IH|x b c _ IH]; intros a S; auto.
  - apply sub_skip. auto.
  - inversion S; subst; [apply sub_skip|apply sub_take]; auto.
Qed.
Lemma sub_app {A} (a b c d : list A) : sub a b -> sub c d -> sub (a ++ c) (b ++ d).
Proof. induction 1; intros; cbn; auto; [apply sub_skip|apply sub_take]; auto. Qed.
Lemma sub_in {A} (a b : list A) x : sub a b -> In x a -> In x b.
Proof. induction 1; cbn; auto. intros [->|I]; auto. Qed.
Lemma sub_filter {A} (f : A -> bool) l : sub (filter f l) l.
Proof. induction l; cbn; [constructor|]. destruct (f a); [apply sub_take|apply sub_skip]; auto. Qed.
Lemma sub_one {A} (x : A) l : sub [x] l <-> In x l.
Proof.
  split; [intros S; eapply sub_in; [exact S|now left]|]. induction l as [|y l IH]; [intros []|].
  intros [->|I]; [apply sub_take, sub_none|apply sub_skip; auto].
Qed.

(** [before l a b]: [a] comes before [b] in [l] *)
Definition before {A} (l : list A) (a b : A) : Prop := sub [a; b] l.
Lemma before_iff {A} (l : list A) a b : before l a b <-> exists x y z, l = x ++ a :: y ++ b :: z.
Proof.
  unfold before. split.
  - induction l as [|c l IH]; intros S; [inversion S|]. inversion S as [|? ? ? S'|? ? ? S']; subst.
    + destruct (IH S') as (x & y & z & ->). now exists (c :: x), y, z.
    + apply sub_one, in_split in S'. destruct S' as (y & z & ->). now exists [], y, z.
  - intros (x & y & z & ->). apply (sub_app [] x [a; b]); [apply sub_none|]. apply sub_take.
    apply (sub_app [] y [b]); [apply sub_none|]. apply sub_take, sub_none.
Qed.
Lemma before_in {A} (l : list A) a b : before l a b -> In a l /\ In b l.
Proof. intros S. split; eapply sub_in; try exact S; cbn; auto. Qed.
Lemma before_total {A} (l : list A) a b : In a l -> In b l -> a = b \/ before l a b \/ before l b a.
Proof.
  induction l as [|c l IH]; [intros []|]. intros [->|I] [->|J]; auto.
  - right. left. apply sub_take. now apply sub_one.
  - right. right. apply sub_take. now apply sub_one.
  - destruct (IH I J) as [E|[B|B]]; auto; right; [left|right]; apply sub_skip; exact B.
Qed.
Lemma before_trans3 {A} (l : list A) a b c : NoDup l -> before l a b -> before l b c -> sub [a; b; c] l.
Proof.
  induction l as [|d l IH]; intros N B C; [inversion B|]. inversion N as [|? ? ND N']; subst.
  inversion B as [|? ? ? B'|? ? ? B']; subst.
  - inversion C as [|? ? ? C'|? ? ? C']; subst; [apply sub_skip; apply IH; auto|]. exfalso. apply ND. eapply sub_in; [exact B'|cbn; auto].
  - inversion C as [|? ? ? C'|? ? ? C']; subst; [apply sub_take; exact C'|]. exfalso. apply ND. eapply sub_in; [exact B'|cbn; auto].
Qed.
Lemma before_asym {A} (l : list A) a b : NoDup l -> before l a b -> before l b a -> False.
Proof.
  intros N B C. pose proof (before_trans3 l a b a N B C) as S. clear B C.
  induction l as [|d l IH]; [inversion S|]. inversion N as [|? ? ND N']; subst. inversion S as [|? ? ? S'|? ? ? S']; subst; auto.
  apply ND. eapply sub_in; [exact S'|cbn; auto].
Qed.

(** ** the keys in the order of Walk *)
Definition keys (pre : key_t) (n : node) : list key_t := map fst (ents pre n).
(** the full key of every node, in the order in which Walk("") visits them *)
Definition order (t : tr) : list skey := keys [] (root t).
Lemma keys_eq pre n : keys pre n = (pre ++ npath n) :: flat_map (keys (pre ++ npath n)) (nkids n).
Proof. unfold keys. rewrite ents_eq. cbn [map fst]. now rewrite map_flat_map. Qed.
Lemma keys_ients pre n : keys pre n = map fst (ients pre n).
Proof. symmetry. apply map_fst_ients. Qed.
Lemma keys_ent pre n k : In k (keys pre n) <-> exists m, In (k, m) (ents pre n).
Proof.
  unfold keys. rewrite in_map_iff. split; [intros ([k' m] & E & I); cbn in E; subst; eauto|intros (m & I); exists (k, m); auto].
Qed.
Lemma keys_prefix pre n k : In k (keys pre n) -> prefix (pre ++ npath n) k.
Proof. intros H. apply keys_ent in H. destruct H as (m & H). eapply ents_prefix; eauto. Qed.
Lemma keys_head pre c k : npath c <> [] -> In k (keys pre c) -> exists r y, fst_rune c = Some r /\ k = pre ++ r :: y.
Proof. intros N H. apply keys_ent in H. destruct H as (m & H). eapply ents_kid_head; eauto. Qed.
Lemma walk_ents n : forall pre, walk n = map snd (ents pre n).
Proof.
  induction n as [n IH] using node_ind'. intros pre. rewrite ents_eq. destruct n as [a b c ks e f g h i]. cbn [walk map snd npath nkids].
  f_equal. rewrite map_flat_map. cbn in IH. induction IH as [|k ks Hk _ IHk]; cbn; auto. rewrite (Hk (pre ++ b)). now rewrite IHk.
Qed.

(** ** the nodes of a section are visited together *)
Lemma section_node q n : forall pre, wfn n ->
  exists l1 l2 l3, keys pre n = l1 ++ l2 ++ l3 /\ (forall k, In k l2 -> prefix q k) /\ (forall k, In k (l1 ++ l3) -> ~ prefix q k).
Proof.
  induction n as [n IH] using node_ind'. intros pre W.
  destruct (has_prefix q (pre ++ npath n)) eqn:Q.
  - apply has_prefix_iff in Q. exists [], (keys pre n), []. rewrite app_nil_r. split; [reflexivity|]. split; [|intros k []].
    intros k I. eapply prefix_trans; [exact Q|]. now apply keys_prefix.
  - apply has_prefix_false in Q.
    destruct (has_prefix (pre ++ npath n) q) eqn:P.
    2:{ apply has_prefix_false in P. exists (keys pre n), [], []. rewrite !app_nil_r. split; [reflexivity|]. split; [intros k []|].
        intros k I X. apply keys_prefix in I. destruct (prefix_comparable _ _ _ I X); contradiction. }
    apply has_prefix_iff in P. destruct P as [[|c z] ->]; [rewrite app_nil_r in Q; exfalso; apply Q, prefix_refl|].
    rewrite keys_eq. set (own := pre ++ npath n) in *.
    assert (NB : forall k0, In k0 (nkids n) -> fst_rune k0 <> Some c -> forall k, In k (keys own k0) -> ~ prefix (own ++ c :: z) k).
    { intros k0 H0 HF k I [y E]. destruct (wfn_kids _ _ W H0) as [Hn _]. destruct (keys_head _ _ _ Hn I) as (r & y' & E1 & E2).
      subst k. rewrite <- app_assoc in E2. apply app_inj_head in E2. destruct E2 as [-> _]. congruence. }
    destruct (find (fun k0 => match fst_rune k0 with Some r => N.eqb r c | None => false end) (nkids n)) as [kid|] eqn:FD.
    + apply find_some in FD. destruct FD as [IK EK]. destruct (fst_rune kid) as [r|] eqn:ER; [|discriminate].
      apply N.eqb_eq in EK. subst r. pose proof (wfn_nodup _ W) as ND. pose proof (wfn_kids _ _ W IK) as [_ WK].
      rewrite Forall_forall in IH. destruct (IH kid IK own WK) as (l1 & l2 & l3 & E & H2 & H13).
      apply in_split in IK. destruct IK as (L & R & EQ). rewrite EQ in *.
      rewrite map_app in ND. cbn [map] in ND. apply NoDup_remove_2 in ND. rewrite ER in ND.
      exists (own :: flat_map (keys own) L ++ l1), l2, (l3 ++ flat_map (keys own) R). split.
      { rewrite flat_map_app. cbn [flat_map]. rewrite E. cbn [app]. now rewrite <- !app_assoc. }
      split; [exact H2|]. intros k I. cbn [app In] in I. rewrite !in_app_iff in I.
      assert (SIB : forall k0, In k0 (L ++ R) -> In k (keys own k0) -> ~ prefix (own ++ c :: z) k).
      { intros k0 H0. apply NB; [rewrite in_app_iff in *; cbn; tauto|]. intros X. apply ND. rewrite <- map_app, <- X. now apply in_map. }
      destruct I as [<-|[[I|I]|[I|I]]].
      * exact Q.
      * apply in_flat_map in I. destruct I as (k0 & H0 & I). apply (SIB k0); auto. apply in_app_iff. auto.
      * apply H13. apply in_app_iff. auto.
      * apply H13. apply in_app_iff. auto.
      * apply in_flat_map in I. destruct I as (k0 & H0 & I). apply (SIB k0); auto. apply in_app_iff. auto.
    + exists (own :: flat_map (keys own) (nkids n)), [], []. rewrite !app_nil_r. split; [reflexivity|]. split; [intros k []|].
      intros k [<-|I]; [exact Q|]. apply in_flat_map in I. destruct I as (k0 & H0 & I). apply (NB k0); auto.
      intros X. pose proof (find_none _ _ FD k0 H0) as F. cbn in F. rewrite X in F. now rewrite N.eqb_refl in F.
Qed.
(** no key outside a section between two of it *)
Lemma sub_app_inv {A} (a b : list A) : forall l, sub l (a ++ b) -> exists u v, l = u ++ v /\ sub u a /\ sub v b.
Proof.
  induction a as [|c a IH]; cbn; intros l S.
  - exists [], l. repeat split; auto. constructor.
  - inversion S as [|? ? ? S'|? ? ? S']; subst.
    + destruct (IH _ S') as (u & v & -> & U & V). exists u, v. repeat split; auto. now apply sub_skip.
    + destruct (IH _ S') as (u & v & -> & U & V). exists (c :: u), v. repeat split; auto. now apply sub_take.
Qed.
Lemma section_between pre n q a b c : wfn n -> sub [a; b; c] (keys pre n) -> prefix q a -> prefix q c -> prefix q b.
Proof.
  intros W S Ha Hc. destruct (section_node q n pre W) as (l1 & l2 & l3 & E & H2 & H13). rewrite E in S.
  assert (NO : forall x, prefix q x -> ~ In x l1 /\ ~ In x l3).
  { intros x Hx. split; intros I; apply (H13 x); auto; apply in_app_iff; auto. }
  apply sub_app_inv in S. destruct S as (u & v & E1 & S1 & S2). apply sub_app_inv in S2. destruct S2 as (v1 & v2 & -> & S2 & S3).
  destruct u as [|u0 u]; cbn in E1.
  - destruct v1 as [|x [|y v1]]; cbn in E1.
    + subst v2. exfalso. apply (proj2 (NO a Ha)). eapply sub_in; [exact S3|cbn; auto].
    + injection E1 as <- <-. exfalso. apply (proj2 (NO c Hc)). eapply sub_in; [exact S3|cbn; auto].
    + injection E1 as <- <- _. apply H2. eapply sub_in; [exact S2|cbn; auto].
  - injection E1 as <- _. exfalso. apply (proj1 (NO a Ha)). eapply sub_in; [exact S1|cbn; auto].
Qed.
Lemma above_before pre n a b : wfn n -> In a (keys pre n) -> In b (keys pre n) -> pprefix a b -> before (keys pre n) a b.
Proof.
  revert pre. induction n as [n IH] using node_ind'. intros pre W Ia Ib P. rewrite keys_eq in *.
  destruct Ia as [<-|Ia].
  - apply sub_take. apply sub_one. destruct Ib as [E|I]; auto. rewrite E in P. exfalso. exact (pprefix_neq _ _ P eq_refl).
  - apply sub_skip. destruct Ib as [<-|Ib].
    + apply in_flat_map in Ia. destruct Ia as (c & Hc & Ia). destruct (wfn_kids _ _ W Hc) as [Hn _].
      destruct (keys_head _ _ _ Hn Ia) as (r & y & _ & E). apply pprefix_len in P. rewrite E in P. rewrite app_length in P. lia.
    + apply in_flat_map in Ia. destruct Ia as (c & Hc & Ia). apply in_flat_map in Ib. destruct Ib as (c' & Hc' & Ib).
      destruct (wfn_kids _ _ W Hc) as [Hn Wc], (wfn_kids _ _ W Hc') as [Hn' _].
      destruct (keys_head _ _ _ Hn Ia) as (r & y & F & E), (keys_head _ _ _ Hn' Ib) as (r' & y' & F' & E').
      assert (c = c') as <-.
      { apply (nodup_fst_eq (nkids n)); auto using wfn_nodup. rewrite F, F'. destruct P as (x & z & Q). rewrite E, E', <- (app_assoc (pre ++ npath n)) in Q.
        apply app_inj_head in Q. destruct Q as [-> _]. reflexivity. }
      rewrite Forall_forall in IH. pose proof (IH c Hc _ Wc Ia Ib P) as B.
      apply in_split in Hc. destruct Hc as (L & R & ->). rewrite flat_map_app. cbn [flat_map].
      apply (sub_app [] _ [a; b]); [apply sub_none|]. rewrite <- (app_nil_r [a; b]). apply sub_app; [exact B|apply sub_none].
Qed.

(** ** where an insertion puts a new leaf *)
(** behind everything below its parent: what comes after it is not below some node above it *)
Definition tailed (pre word : key_t) (n : node) : Prop :=
  exists l1 l2, keys pre n = (pre ++ npath n) :: l1 ++ (pre ++ word) :: l2 /\ prefix (pre ++ npath n) (pre ++ word) /\
    forall k, In k l2 -> exists p, In p ((pre ++ npath n) :: l1) /\ prefix p (pre ++ word) /\ ~ prefix p k.
Lemma tail_full f s pre w0 w fp v nx ir :
  wfn s ->
  (forall c irc, In c (nkids s) -> fst_rune c = Some w0 -> insertInternal f c (w0 :: w) fp v nx = Ok irc ->
     npath (ir_node irc) <> [] /\ fst_rune (ir_node irc) = fst_rune c /\ tailed (pre ++ npath s) (w0 :: w) (ir_node irc)) ->
  (do m <- matchChildren (w0 :: w) (nkids s);
   match m with
   | Some (l, child, r) =>
       do ir <- insertInternal f child (w0 :: w) fp v nx;
       Ok (IRes (set_kids s (l ++ ir_node ir :: r)) (ir_next ir) (ir_id ir) (ir_old ir) (ir_calls ir ++ [(fp, ir_old ir, ir_id ir)]))
   | None => Ok (IRes (insertAsLeaf s (w0 :: w) fp v nx) (S nx) nx GNil [(fp, GNil, nx)])
   end) = Ok ir ->
  npath (ir_node ir) = npath s /\ tailed pre (npath s ++ w0 :: w) (ir_node ir).
Proof.
  intros W IH E. pose proof (wfn_forall _ W) as F. pose proof (wfn_nodup _ W) as ND.
  destruct (matchChildren_spec w0 w (nkids s) F) as [(l & c & r & EM & Ek & Hc)|[EM Hno]]; rewrite EM in E; cbn [bind] in E.
  - assert (Hin : In c (nkids s)) by (rewrite Ek; apply in_elt).
    destruct (insertInternal f c (w0 :: w) fp v nx) as [irc| |] eqn:EI; try discriminate. cbn [bind] in E. injection E as <-.
    destruct (IH c irc Hin Hc EI) as (Hne & Hf & l1 & l2 & EK & P & T). cbn [ir_node]. split; [reflexivity|].
    set (own := pre ++ npath s) in *. unfold tailed. rewrite keys_eq. cbn [npath set_kids nkids]. fold own.
    rewrite flat_map_app. cbn [flat_map]. rewrite EK.
    exists (flat_map (keys own) l ++ (own ++ npath (ir_node irc)) :: l1), (l2 ++ flat_map (keys own) r).
    rewrite (app_assoc pre (npath s)). fold own. split; [f_equal; repeat (rewrite <- app_assoc; cbn [app]); reflexivity|].
    split; [apply prefix_app_r|]. intros k I. apply in_app_iff in I. destruct I as [I|I].
    + destruct (T k I) as (p & Ip & Pp & Np). exists p. split; auto. right. apply in_app_iff. now right.
    + exists (own ++ npath (ir_node irc)). split; [right; apply in_app_iff; right; now left|]. split; [exact P|]. intros X.
      apply in_flat_map in I. destruct I as (c' & Hc' & I).
      assert (Hk : In c' (nkids s)) by (rewrite Ek; apply in_app_iff; right; now right).
      destruct (wfn_kids _ _ W Hk) as [Hn' _]. destruct (keys_head _ _ _ Hn' I) as (r' & y' & F' & E').
      rewrite Ek, map_app in ND. cbn [map] in ND. apply NoDup_remove_2 in ND. apply ND. apply in_app_iff. right.
      rewrite <- Hf. unfold fst_rune at 1. destruct (npath (ir_node irc)) as [|x z]; [congruence|]. cbn [hd_error].
      destruct X as [z' EX]. rewrite E', <- app_assoc in EX. apply app_inj_head in EX. destruct EX as [<- _].
      rewrite <- F'. now apply in_map.
  - injection E as <-. cbn [ir_node]. split; [reflexivity|]. unfold tailed, insertAsLeaf. rewrite keys_eq. cbn [npath set_kids nkids].
    rewrite flat_map_app. cbn [flat_map]. rewrite (keys_eq _ (new_leaf _ _ _ _)). cbn [npath new_leaf nkids flat_map app].
    exists (flat_map (keys (pre ++ npath s)) (nkids s)), []. rewrite <- app_assoc. split; [reflexivity|]. split; [|intros k []].
    rewrite app_assoc. apply prefix_app_r.
Qed.
Lemma tail_node fp v : forall f s pre word nx ir,
  length word < f -> wfn s -> npath s <> [] -> plen pre s -> hd_error word = fst_rune s ->
  insertInternal f s word fp v nx = Ok ir -> (forall k, In k (keys pre s) -> ~ prefix (pre ++ word) k) -> tailed pre word (ir_node ir).
Proof.
  induction f as [|f IH]; intros s pre word nx ir Hf W Hne PL Hhd E NB; [lia|].
  cbn [insertInternal] in E.
  assert (Hpl : 0 < length (npath s)) by (destruct (npath s); [congruence|cbn; lia]).
  assert (Hwl : 0 < length word).
  { destruct word; [|cbn; lia]. unfold fst_rune in Hhd. destruct (npath s); [congruence|discriminate]. }
  destruct (Nat.eqb_spec (length (npath s)) 0) as [|_]; [lia|]. cbn [andb] in E.
  destruct (Nat.ltb_spec 0 (length (npath s))) as [_|]; [|lia].
  destruct (Nat.ltb_spec 0 (length word)) as [_|]; [|lia]. cbn [andb] in E.
  set (c := cpl_len word (npath s)) in *.
  pose proof (cpl_len_lcp word (npath s)) as Hl. fold c in Hl.
  pose proof (cpl_len_length word (npath s)) as Hc. fold c in Hc.
  destruct (lcp_split word (npath s)) as (x & y & Ex & Ey & Hd).
  assert (Hp0 : lcp word (npath s) <> []).
  { clear - Hpl Hwl Hhd. unfold fst_rune in *.
    destruct word as [|a w], (npath s) as [|b p]; cbn in *; try lia.
    inversion Hhd; subst. rewrite N.eqb_refl. discriminate. }
  remember (lcp word (npath s)) as p0 eqn:Ep0.
  assert (Hcpos : 0 < c) by (destruct p0; [congruence | cbn in *; lia]).
  assert (Hskw : skipn c word = x).
  { rewrite Ex, Hc. rewrite skipn_app, skipn_all, Nat.sub_diag. reflexivity. }
  assert (Hskp : skipn c (npath s) = y).
  { rewrite Ey at 1. rewrite Hc, skipn_app, skipn_all, Nat.sub_diag. reflexivity. }
  assert (Hwlen : length word = c + length x) by (rewrite Ex at 1; rewrite app_length; lia).
  assert (Hplen : length (npath s) = c + length y) by (rewrite Ey at 1; rewrite app_length; lia).
  destruct (Nat.ltb_spec 0 c) as [_|]; [|lia].
  rewrite Hskw in E.
  assert (Hx : x <> []).
  { intros ->. rewrite app_nil_r in Ex. apply (NB (pre ++ npath s)); [rewrite keys_eq; now left|]. rewrite Ey, <- Ex, app_assoc. apply prefix_app_r. }
  destruct x as [|x0 x']; [congruence|].
  destruct (Nat.ltb_spec c (length word)) as [_|]; [|cbn in Hwlen; lia].
  destruct (Nat.ltb_spec c (length (npath s))) as [Hlt|Hge].
  - assert (Hy : y <> []) by (destruct y; [cbn in Hplen; lia|discriminate]).
    unfold split in E. pose proof (plen_self _ _ PL) as Hps. rewrite app_length in Hps.
    destruct (Nat.leb_spec (length (npath s) - c) (length (npathS s))) as [Hle|]; [|lia].
    cbn [bind] in E. rewrite Hl, Hskp in E.
    destruct y as [|y0 y']; [congruence|].
    cbn [nkids matchChildren npath] in E. destruct (N.eqb_spec y0 x0); [congruence|]. cbn [bind] in E. injection E as <-. cbn [ir_node].
    unfold tailed, insertAsLeaf. rewrite keys_eq. cbn [npath set_kids nkids]. rewrite flat_map_app. cbn [flat_map].
    rewrite (keys_eq _ (new_leaf _ _ _ _)). cbn [npath new_leaf nkids flat_map]. rewrite app_nil_r.
    eexists _, []. rewrite <- (app_assoc pre p0 (x0 :: x')), <- Ex. split; [reflexivity|]. split; [|intros k []].
    rewrite Ex, app_assoc. apply prefix_app_r.
  - assert (Ey0 : y = []) by (destruct y; [reflexivity|cbn in Hplen; lia]).
    rewrite Ey0, app_nil_r in Ey. cbn [bind] in E. rewrite Ex, <- Ey.
    refine (proj2 (tail_full f s pre x0 x' fp v nx ir W _ E)).
    intros ch irc Hin Hch EI. destruct (wfn_kids _ _ W Hin) as [Hnc Wc].
    destruct (insert_nonroot fp v f ch (pre ++ npath s) (x0 :: x') nx) as (ir' & E' & W' & Hn' & Hf' & _); auto.
    { lia. } { now apply plen_kid. }
    rewrite EI in E'. injection E' as <-. split; [exact Hn'|]. split; [exact Hf'|].
    apply (IH ch (pre ++ npath s) (x0 :: x') nx irc); auto.
    + lia.
    + now apply plen_kid.
    + intros k I X. apply (NB k); [rewrite keys_eq; right; apply in_flat_map; eauto|].
      rewrite Ex, <- Ey, app_assoc. exact X.
Qed.
Lemma tail_root s word fp v nx ir : wf_root s -> insertInternal (S (S (length word))) s word fp v nx = Ok ir ->
  (forall k, In k (keys [] s) -> ~ prefix word k) -> tailed [] word (ir_node ir).
Proof.
  intros (Hp & W & PL) E NB. remember (S (length word)) as f eqn:Ef. cbn [insertInternal] in E. rewrite Hp in E. cbn [length] in E.
  change (0 =? 0) with true in E. cbn [andb] in E.
  assert (Hw : word <> []). { intros ->. apply (NB []); [rewrite keys_eq, Hp; now left|apply prefix_refl]. }
  destruct word as [|w0 w]; [congruence|].
  destruct (nkids s) as [|k0 ks0] eqn:Ek.
  - cbn in E. injection E as <-. cbn [ir_node]. unfold tailed, insertAsLeaf. rewrite keys_eq. cbn [npath set_kids nkids].
    rewrite Ek, Hp. cbn. exists [], []. repeat split; [apply prefix_nil|intros k []].
  - cbn [length] in E. rewrite andb_false_r in E. change (0 <? 0) with false in E. change (0 <? S (length w)) with true in E. cbn [andb bind] in E.
    pose proof (tail_full f s [] w0 w fp v nx ir W) as X. rewrite Hp in X. refine (proj2 (X _ E)). clear X.
    intros ch irc Hin Hch EI. destruct (wfn_kids _ _ W Hin) as [Hnc Wc]. pose proof (plen_kid _ _ _ PL Hin) as PLc. rewrite Hp in PLc.
    destruct (insert_nonroot fp v f ch [] (w0 :: w) nx) as (ir' & E' & W' & Hn' & Hf' & _); auto.
    { lia. }
    rewrite EI in E'. injection E' as <-. split; [exact Hn'|]. split; [exact Hf'|].
    apply (tail_node fp v f ch [] (w0 :: w) nx irc); auto.
    + lia.
    + intros k I. apply NB. rewrite keys_eq. right. apply in_flat_map. rewrite Hp. eauto.
Qed.

(** ** what a call does to the order *)
Lemma upd_keys id f fa n : refl_fun f fa -> keys [] (upd id f n) = keys [] n.
Proof. intros (fi & A & _). rewrite !keys_ients, (upd_ients id f fi) by exact A. apply map_upd_ent_fst. Qed.
Lemma step_shape rf h t o t' r : wf_tr t -> t_step rf h t o = Ok (t', r) ->
  match stored h o with
  | Some p => exists v t1 ir, insert_root t p v = Ok (t1, ir) /\ order t' = order t1
  | None => order t' = order t \/ exists path q, o = ORemove path /\ order t' = filter (fun k => negb (has_prefix q k)) (order t)
  end.
Proof.
  intros WT. unfold order. destruct o; cbn [t_step stored].
  - unfold Set_. destruct (insert_root t _ v) as [[t1 ir]| |] eqn:EI; try discriminate. cbn [bind]. intros E. inversion E; subst. eauto.
  - unfold SetEx. destruct (insert_root t _ v) as [[t1 ir]| |] eqn:EI; try discriminate. cbn [bind]. intros E. inversion E; subst. eauto.
  - unfold SetNode. destruct (insert_root t _ v) as [[t1 ir]| |] eqn:EI; try discriminate. cbn [bind]. intros E. inversion E; subst.
    exists v, t1, ir. split; auto. exact (upd_keys _ _ _ _ (refl_descs dc)).
  - unfold SetEmpty. destruct (insert_root t _ GNil) as [[t1 ir]| |] eqn:EI; try discriminate. cbn [bind]. intros E. inversion E; subst.
    exists GNil, t1, ir. split; auto. exact (upd_keys _ _ _ _ (refl_nodeop NSetEmpty)).
  - unfold Update. destruct (insert_root t _ GNil) as [[t1 ir]| |] eqn:EI; try discriminate. cbn [bind]. intros E. inversion E; subst.
    exists GNil, t1, ir. split; auto. exact (upd_keys _ _ _ _ (refl_nodeops _)).
  - unfold Set_. destruct (insert_root t _ v) as [[t1 ir]| |] eqn:EI; try discriminate. cbn [bind]. intros E. inversion E; subst.
    exists v, t1, ir. split; auto. exact (upd_keys _ _ _ _ (refl_nodeops _)).
  - unfold SetComment. destruct (search rf h t (full h path)) as [sr| |] eqn:Es; try discriminate.
    cbn [bind]. destruct (s_node sr) as [n|] eqn:En; cbn [bind]; intros E; inversion E; subst; auto.
    left. exact (upd_keys _ _ _ _ (refl_nodeop (NSetComment desc cmt))).
  - unfold SetTag. destruct (search rf h t (full h path)) as [sr| |] eqn:Es; try discriminate.
    cbn [bind]. destruct (s_node sr) as [n|] eqn:En; cbn [bind]; intros E; inversion E; subst; auto.
    left. exact (upd_keys _ _ _ _ (refl_nodeop (NSetTag tag))).
  - unfold Remove. destruct (RemoveEx rf h t path) as [[[[t1 n] p] b]| |] eqn:Er; try discriminate.
    cbn [bind]. intros E. inversion E; subst. destruct b.
    + destruct (removeEx_in _ _ _ _ _ _ _ WT Er) as (kp & pn & nn & -> & -> & H1 & H2 & ->).
      right. exists path, (kp ++ npath nn). split; [reflexivity|]. cbn [root].
      destruct (remove_refines t _ kp pn nn WT (abs_entries t) H1 H2) as (_ & _ & Q). cbn [root] in Q.
      rewrite !keys_ients, Q. clear. unfold without. induction (ients [] (root t)) as [|[k i] l IH]; cbn; auto.
      destruct (has_prefix _ k); cbn; auto. now rewrite IH.
    + left. revert Er. unfold RemoveEx. destruct (search rf h t (full h path)) as [sr| |]; try discriminate.
      cbn [bind]. destruct (s_node sr); [|intros E'; inversion E'; now subst].
      destruct (s_partial sr); [intros E'; inversion E'; now subst|].
      destruct (s_parent sr); [|intros E'; inversion E'; now subst].
      destruct (fst _); intros E'; inversion E'; now subst.
  - destruct (Get rf h t path) as [[v ok]| |]; cbn [bind]; intros E; inversion E; subst; auto.
  - destruct (MustGet rf h t path) as [v| |]; cbn [bind]; intros E; inversion E; subst; auto.
  - destruct (Query rf h t path) as [v| |]; cbn [bind]; intros E; inversion E; subst; auto.
  - destruct (Has rf h t path) as [v| |]; cbn [bind]; intros E; inversion E; subst; auto.
  - destruct (Search_ rf h t path) as [v| |]; cbn [bind]; intros E; inversion E; subst; auto.
  - destruct (Locate rf h t path) as [[[[[n br] pt] fd] kv]| |]; cbn [bind]; intros E; inversion E; subst; auto.
  - destruct (GetEx rf h t path) as [v| |]; cbn [bind]; intros E; inversion E; subst; auto.
  - destruct (GetDesc rf h t path) as [[v ok]| |]; cbn [bind]; intros E; inversion E; subst; auto.
  - destruct (GetComment rf h t path) as [[v ok]| |]; cbn [bind]; intros E; inversion E; subst; auto.
  - destruct (GetTag rf h t path) as [[v ok]| |]; cbn [bind]; intros E; inversion E; subst; auto.
Qed.
Lemma ins_sub w v fp nx l l' nx' id old : ins_rel w v fp nx l l' nx' id old -> sub (map fst l) (map fst l').
Proof.
  destruct 1 as [l1 i l2|l1 l2 Hp|l1 k i l2 Hp|l1 k0 k i l2 l3 H1 H2 H3 Hp]; rewrite ?map_app; cbn [map fst]; rewrite ?map_app; cbn [map fst].
  - apply sub_refl.
  - apply sub_app; [apply sub_refl|]. apply sub_skip, sub_refl.
  - apply sub_app; [apply sub_refl|]. apply sub_skip, sub_refl.
  - apply sub_app; [apply sub_refl|]. apply sub_skip, sub_take. apply sub_app; [apply sub_refl|]. apply sub_skip, sub_refl.
Qed.
(** a key that an insertion adds is the new one, or above an old one *)
Lemma ins_added w v fp nx l l' nx' id old k : ins_rel w v fp nx l l' nx' id old -> In k (map fst l') ->
  In k (map fst l) \/ k = w \/ exists k', In k' (map fst l) /\ prefix k k'.
Proof.
  destruct 1 as [l1 i l2|l1 l2 Hp|l1 k1 i l2 Hp|l1 k0 k1 i l2 l3 H1 H2 H3 Hp]; rewrite ?map_app; cbn [map fst]; rewrite ?map_app; cbn [map fst].
  - auto.
  - rewrite !in_app_iff. cbn [In]. intuition.
  - rewrite !in_app_iff. cbn [In]. intuition.
  - rewrite !in_app_iff. cbn [In]. rewrite !in_app_iff. cbn [In]. intros [I|[<-|[<-|[I|[<-|I]]]]]; auto 8.
    right. right. exists k1. split; [|now apply pprefix_prefix]. rewrite !in_app_iff. cbn. auto.
Qed.
Lemma insert_order t p v t1 ir : wf_tr t -> insert_root t p v = Ok (t1, ir) ->
  wf_tr t1 /\ sub (order t) (order t1) /\ In (runes p) (order t1) /\
  (forall k, In k (order t1) -> In k (order t) \/ k = runes p \/ exists k', In k' (order t) /\ prefix k k') /\
  ((forall k, In k (order t) -> ~ prefix (runes p) k) -> tailed [] (runes p) (root t1)).
Proof.
  intros WT E. destruct (insert_root_refines t _ p v WT (abs_entries t)) as (t' & ir' & E' & WT' & _ & _ & (i & L & _) & R & _).
  rewrite E in E'. injection E' as <- <-. unfold order. rewrite !keys_ients. split; [exact WT'|]. split; [eapply ins_sub; exact R|]. split.
  { apply look_in in L; [|exact (proj1 (proj2 (proj1 WT')))]. apply in_map_iff. now exists (runes p, i). }
  split; [intros k; eapply ins_added; exact R|].
  rewrite <- keys_ients. intros NB. unfold insert_root in E. destruct (insertInternal _ _ _ _ _ _) as [ir0| |] eqn:EI; try discriminate.
  cbn [bind] in E. injection E as <- _. cbn [root]. eapply tail_root; [exact (proj1 WT)|exact EI|exact NB].
Qed.
Lemma order_nodup t : wf_tr t -> NoDup (order t).
Proof. intros WT. apply ents_nodup. exact (proj1 (proj2 (proj1 WT))). Qed.

(** no call changes the order of the keys it does not add or remove *)
Theorem step_order rf h t o t' r : wf_tr t -> t_step rf h t o = Ok (t', r) ->
  match o with ORemove _ => sub (order t') (order t) | _ => sub (order t) (order t') end.
Proof.
  intros WT E. pose proof (step_shape rf h t o t' r WT E) as X. destruct (stored h o) as [p|] eqn:ST.
  - destruct X as (v & t1 & ir & EI & ->). destruct (insert_order t p v t1 ir WT EI) as (_ & Y & _). destruct o; try exact Y. discriminate.
  - destruct X as [->|(path & q & -> & ->)]; [destruct o; apply sub_refl|apply sub_filter].
Qed.

(** ** who came first stays first *)
(** the keys below [A] come before those below [B] *)
Definition led (A B : skey) (t : tr) : Prop := forall a b, In a (order t) -> In b (order t) -> prefix A a -> prefix B b -> before (order t) a b.
Lemma apart c ra rb x y k : ra <> rb -> prefix (c ++ ra :: x) k -> prefix (c ++ rb :: y) k -> False.
Proof. intros N [u ->] [z E]. rewrite <- !app_assoc in E. apply app_inj_head in E. destruct E. congruence. Qed.
Lemma led_insert c ra rb t p v t1 ir : wf_tr t -> insert_root t p v = Ok (t1, ir) -> ra <> rb ->
  (exists a, In a (order t) /\ prefix (c ++ [ra]) a) -> led (c ++ [ra]) (c ++ [rb]) t -> led (c ++ [ra]) (c ++ [rb]) t1.
Proof.
  intros WT E NR (a0 & I0 & P0) LD a b Ia Ib Pa Pb.
  destruct (insert_order t p v t1 ir WT E) as (WT1 & SB & Iw & AD & TL).
  pose proof (order_nodup t1 WT1) as ND. pose proof (proj1 (proj2 (proj1 WT1))) as W1.
  assert (J0 : In a0 (order t1)) by (exact (sub_in _ _ _ SB ltac:(eassumption))).
  destruct (before_total (order t1) a b Ia Ib) as [->|[B|B]]; [exfalso; exact (apart c ra rb [] [] b NR Pa Pb)|exact B|exfalso].
  (* b before a *)
  assert (BA0 : before (order t1) b a0).
  { destruct (before_total (order t1) b a0 Ib J0) as [->|[X|X]]; [exfalso; exact (apart c ra rb [] [] a0 NR P0 Pb)|exact X|].
    exfalso. pose proof (before_trans3 _ _ _ _ ND X B) as S3.
    exact (apart c ra rb [] [] b NR (section_between [] (root t1) (c ++ [ra]) a0 b a W1 S3 P0 Pa) Pb). }
  destruct (AD b Ib) as [Ob|[->|(k' & Ik & Pk)]].
  - apply (before_asym (order t1) a0 b ND); [|exact BA0]. eapply sub_trans; [exact SB|]. apply LD; auto.
  - (* the new key: is there an old one in its section? *)
    destruct (existsb (fun k => has_prefix (c ++ [rb]) k) (order t)) eqn:EX.
    + apply existsb_exists in EX. destruct EX as (b0 & Ib0 & Pb0). apply has_prefix_iff in Pb0.
      assert (J1 : In b0 (order t1)) by (exact (sub_in _ _ _ SB ltac:(eassumption))).
      assert (A0B : before (order t1) a0 b0) by (eapply sub_trans; [exact SB|]; apply LD; auto).
      pose proof (before_trans3 _ _ _ _ ND BA0 A0B) as S3.
      exact (apart c ra rb [] [] a0 NR P0 (section_between [] (root t1) (c ++ [rb]) (runes p) a0 b0 W1 S3 Pb Pb0)).
    + assert (NOB : forall k, In k (order t) -> ~ prefix (c ++ [rb]) k).
      { intros k Ik X. apply has_prefix_iff in X. assert (existsb (fun k => has_prefix (c ++ [rb]) k) (order t) = true) by (apply existsb_exists; eauto). congruence. }
      destruct TL as (l1 & l2 & EK & _ & TL). { intros k Ik X. apply (NOB k Ik). eapply prefix_trans; eauto. }
      cbn [app] in EK, TL. fold (order t1) in EK.
      change (order t1 = (npath (root t1) :: l1) ++ runes p :: l2) in EK.
      assert (A2 : In a0 l2).
      { apply before_iff in BA0. destruct BA0 as (x & y & z & EQ). rewrite EQ in EK.
        assert (U : forall (u1 u2 v1 v2 : list skey) w, NoDup (u1 ++ w :: u2) -> u1 ++ w :: u2 = v1 ++ w :: v2 -> u2 = v2).
        { clear. induction u1 as [|d u1 IH]; intros u2 v1 v2 w N Q; destruct v1 as [|e v1]; cbn in *; try congruence.
          - injection Q as <- ->. inversion N; subst. exfalso. apply H1. apply in_elt.
          - injection Q as -> <-. inversion N; subst. exfalso. apply H1. apply in_elt.
          - injection Q as _ Q. inversion N; subst. eapply IH; eauto. }
        rewrite EQ in ND. rewrite <- (U _ _ _ _ _ ND EK). apply in_elt. }
      destruct (TL a0 A2) as (q & Iq & Pq & Nq).
      assert (Bq : prefix (c ++ [rb]) q).
      { destruct (prefix_comparable _ _ _ Pb Pq) as [X|X]; [exact X|]. exfalso. apply Nq.
        destruct (prefix_cases _ _ X) as [->|X']; [exfalso|].
        - destruct (AD (c ++ [rb])) as [O|[O|(k' & Ik & Pk)]].
          + rewrite EK. apply in_app_iff. now left.
          + apply (NOB _ O), prefix_refl.
          + rewrite EK, <- O in ND. apply NoDup_remove_2 in ND. apply ND. apply in_app_iff. now left.
          + exact (NOB _ Ik Pk).
        - destruct X' as (d & z & Q). destruct P0 as [u ->]. exists (skipn (length q) c ++ [ra] ++ u).
          assert (LQ : length q <= length c). { apply (f_equal (@length _)) in Q. rewrite !app_length in Q. cbn in Q. lia. }
          assert (QC : q = firstn (length q) c).
          { apply (f_equal (firstn (length q))) in Q. rewrite firstn_app, (proj2 (Nat.sub_0_le _ _) LQ), app_nil_r in Q.
            rewrite firstn_app, firstn_all, Nat.sub_diag, app_nil_r in Q. now symmetry. }
          rewrite QC at 1. rewrite (app_assoc (firstn _ _)), firstn_skipn. now rewrite <- app_assoc. }
      destruct (AD q) as [O|[O|(k' & Ik & Pk)]].
      * rewrite EK. apply in_app_iff. now left.
      * exact (NOB _ O Bq).
      * rewrite EK, <- O in ND. apply NoDup_remove_2 in ND. apply ND. apply in_app_iff. now left.
      * apply (NOB _ Ik). eapply prefix_trans; eauto.
  - (* a fork in front of an old key *)
    assert (Pk' : prefix (c ++ [rb]) k') by (eapply prefix_trans; eauto).
    assert (J1 : In k' (order t1)) by (exact (sub_in _ _ _ SB ltac:(eassumption))).
    assert (A0B : before (order t1) a0 k') by (eapply sub_trans; [exact SB|]; apply LD; auto).
    pose proof (before_trans3 _ _ _ _ ND BA0 A0B) as S3.
    exact (apart c ra rb [] [] a0 NR P0 (section_between [] (root t1) (c ++ [rb]) b a0 k' W1 S3 Pb Pk')).
Qed.
Lemma order_get t k : wf_tr t -> In k (order t) <-> exists a, t_get t k = Some a.
Proof.
  intros WT. unfold order. rewrite keys_ent. change (dom [] (root t) k <-> exists a, t_get t k = Some a).
  rewrite <- (abs_dom (root t) (entries t) (proj1 (proj2 (proj1 WT))) (abs_entries t)), <- smem_in, smem_sget. reflexivity.
Qed.
Lemma step_keep rf h t o t' r : wf_tr t -> t_step rf h t o = Ok (t', r) -> (match o with ORemove _ => False | _ => True end) ->
  order t' = order t \/ exists p v t1 ir, stored h o = Some p /\ insert_root t p v = Ok (t1, ir) /\ order t' = order t1.
Proof.
  intros WT E NR. pose proof (step_shape rf h t o t' r WT E) as X. destruct (stored h o) as [p|].
  - destruct X as (v & t1 & ir & A & B). right. exists p, v, t1, ir. auto.
  - destruct X as [X|(path & q & -> & _)]; [now left|contradiction].
Qed.
Theorem run_order rf hist : forall t t' outs, wf_tr t -> t_run rf hist t = Ok (t', outs) -> no_remove hist -> sub (order t) (order t').
Proof.
  induction hist as [|[h o] hist IH]; intros t t' outs WT E NR; cbn [t_run] in E.
  - injection E as <- _. apply sub_refl.
  - inversion NR as [|? ? N1 N2]; subst. cbn [snd] in N1.
    destruct (t_step rf h t o) as [[t1 r]| |] eqn:E1; try discriminate. cbn [bind] in E.
    destruct (t_run rf hist t1) as [[t2 rs]| |] eqn:E2; try discriminate. cbn [bind] in E. injection E as <- _.
    eapply sub_trans; [exact (IH t1 t2 rs (step_wf _ _ _ _ _ _ WT E1) E2 N2)|].
    destruct (step_keep _ _ _ _ _ _ WT E1 N1) as [->|(p & v & t3 & ir & _ & EI & ->)]; [apply sub_refl|].
    exact (proj1 (proj2 (insert_order _ _ _ _ _ WT EI))).
Qed.
Lemma led_run rf c ra rb hist : ra <> rb -> forall t t' outs, wf_tr t -> t_run rf hist t = Ok (t', outs) -> no_remove hist ->
  (exists a, In a (order t) /\ prefix (c ++ [ra]) a) -> led (c ++ [ra]) (c ++ [rb]) t -> led (c ++ [ra]) (c ++ [rb]) t'.
Proof.
  intros N. induction hist as [|[h o] hist IH]; intros t t' outs WT E NR HA LD; cbn [t_run] in E.
  - injection E as <- _. exact LD.
  - inversion NR as [|? ? N1 N2]; subst. cbn [snd] in N1.
    destruct (t_step rf h t o) as [[t1 r]| |] eqn:E1; try discriminate. cbn [bind] in E.
    destruct (t_run rf hist t1) as [[t2 rs]| |] eqn:E2; try discriminate. cbn [bind] in E. injection E as <- _.
    apply (IH t1 t2 rs (step_wf _ _ _ _ _ _ WT E1) E2 N2).
    + destruct HA as (a & Ia & Pa). exists a. split; auto.
      destruct (step_keep _ _ _ _ _ _ WT E1 N1) as [->|(p & v & t3 & ir & _ & EI & ->)]; auto.
      exact (sub_in _ _ _ (proj1 (proj2 (insert_order _ _ _ _ _ WT EI))) Ia).
    + unfold led. destruct (step_keep _ _ _ _ _ _ WT E1 N1) as [->|(p & v & t3 & ir & _ & EI & ->)]; [exact LD|].
      exact (led_insert c ra rb t p v t3 ir WT EI N HA LD).
Qed.
Lemma step_none rf q h t o t' r : wf_tr t -> t_step rf h t o = Ok (t', r) -> (match o with ORemove _ => False | _ => True end) ->
  (forall p, stored h o = Some p -> ~ prefix q (runes p)) -> (forall k, In k (order t) -> ~ prefix q k) -> forall k, In k (order t') -> ~ prefix q k.
Proof.
  intros WT E N NP NB k. destruct (step_keep _ _ _ _ _ _ WT E N) as [->|(p & v & t1 & ir & ST & EI & ->)]; [apply NB|].
  intros I P. destruct (insert_order _ _ _ _ _ WT EI) as (_ & _ & _ & AD & _). destruct (AD k I) as [O|[->|(k' & Ik & Pk)]].
  - exact (NB k O P).
  - exact (NP p ST P).
  - apply (NB k' Ik). eapply prefix_trans; eauto.
Qed.
Lemma first_run rf c ra rb hist : ra <> rb -> forall t t' outs u w v, wf_tr t -> t_run rf hist t = Ok (t', outs) -> no_remove hist ->
  (forall k, In k (order t) -> ~ prefix (c ++ [rb]) k) ->
  stored_keys hist = u ++ w :: v -> prefix (c ++ [ra]) w -> (forall x, In x u -> ~ prefix (c ++ [rb]) x) -> led (c ++ [ra]) (c ++ [rb]) t'.
Proof.
  intros N. induction hist as [|[h o] hist IH]; intros t t' outs u w v WT E NR NB ES Pw Hu; cbn [t_run stored_keys] in *.
  - destruct u; discriminate.
  - inversion NR as [|? ? N1 N2]; subst. cbn [snd] in N1.
    destruct (t_step rf h t o) as [[t1 r]| |] eqn:E1; try discriminate. cbn [bind] in E.
    destruct (t_run rf hist t1) as [[t2 rs]| |] eqn:E2; try discriminate. cbn [bind] in E. injection E as <- _.
    pose proof (step_wf _ _ _ _ _ _ WT E1) as WT1.
    destruct (stored h o) as [p|] eqn:ST; cbn [app] in ES.
    + destruct u as [|u0 u]; cbn [app] in ES.
      * injection ES as <- _.
        assert (NB1 : forall k, In k (order t1) -> ~ prefix (c ++ [rb]) k).
        { refine (step_none rf (c ++ [rb]) h t o t1 r WT E1 N1 _ NB). intros p' E' X. rewrite ST in E'. injection E' as <-. exact (apart c ra rb [] [] _ N Pw X). }
        apply (led_run rf c ra rb hist N t1 t2 rs WT1 E2 N2).
        -- exists (runes p). split; [|exact Pw].
           pose proof (step_shape rf h t o t1 r WT E1) as X. rewrite ST in X. destruct X as (v' & t3 & ir & EI & ->).
           exact (proj1 (proj2 (proj2 (insert_order _ _ _ _ _ WT EI)))).
        -- intros a b _ Ib _ Pb. exfalso. exact (NB1 b Ib Pb).
      * injection ES as <- ES. apply (IH t1 t2 rs u w v WT1 E2 N2); auto.
        -- refine (step_none rf (c ++ [rb]) h t o t1 r WT E1 N1 _ NB). intros p' E' X. rewrite ST in E'. injection E' as <-. exact (Hu (runes p) (or_introl eq_refl) X).
        -- intros x Ix. apply Hu. now right.
    + apply (IH t1 t2 rs u w v WT1 E2 N2); auto. refine (step_none rf (c ++ [rb]) h t o t1 r WT E1 N1 _ NB). intros p' E'. congruence.
Qed.
(** the sections below a common prefix are in the order in which the first key of each was written *)
Theorem first_first rf hist t outs c ra rb u w v :
  t_run rf hist newTrie = Ok (t, outs) -> no_remove hist -> ra <> rb ->
  stored_keys hist = u ++ w :: v -> prefix (c ++ [ra]) w -> (forall x, In x u -> ~ prefix (c ++ [rb]) x) ->
  forall a b, In a (order t) -> In b (order t) -> prefix (c ++ [ra]) a -> prefix (c ++ [rb]) b -> before (order t) a b.
Proof.
  intros E NR N ES Pw Hu. apply (first_run rf c ra rb hist N newTrie t outs u w v newTrie_wf E NR); auto.
  intros k [<-|[]] X. apply prefix_len in X. rewrite app_length in X. cbn in X. lia.
Qed.
Theorem later_later rf hist t t' outs c ra rb : reached t -> t_run rf hist t = Ok (t', outs) -> no_remove hist -> ra <> rb ->
  (exists a y, In a (order t) /\ a = (c ++ [ra]) ++ y) -> (forall k, In k (order t) -> ~ exists y, k = (c ++ [rb]) ++ y) ->
  forall a b, In a (order t') -> In b (order t') -> (exists y, a = (c ++ [ra]) ++ y) -> (exists y, b = (c ++ [rb]) ++ y) -> before (order t') a b.
Proof.
  intros R E NR N (a0 & y & I0 & P0) NB. apply (led_run rf c ra rb hist N t t' outs (reached_wf t R) E NR).
  - exists a0. split; [exact I0|now exists y].
  - intros a b _ Ib _ Pb. exfalso. exact (NB b Ib Pb).
Qed.
(** two Sets with different first runes, in both orders *)
Theorem order_depends rf h a b va vb ra rb x y :
  runes (replace_byte 32 45 (full h a)) = ra :: x -> runes (replace_byte 32 45 (full h b)) = rb :: y -> ra <> rb ->
  exists t o t' o', t_run rf [(h, OSet a va); (h, OSet b vb)] newTrie = Ok (t, o) /\ t_run rf [(h, OSet b vb); (h, OSet a va)] newTrie = Ok (t', o') /\
    before (order t) (ra :: x) (rb :: y) /\ before (order t') (rb :: y) (ra :: x).
Proof.
  intros Ea Eb N.
  assert (G : forall p q vp vq rp rq xp xq, runes (replace_byte 32 45 (full h p)) = rp :: xp -> runes (replace_byte 32 45 (full h q)) = rq :: xq -> rp <> rq ->
    exists t o, t_run rf [(h, OSet p vp); (h, OSet q vq)] newTrie = Ok (t, o) /\ before (order t) (rp :: xp) (rq :: xq)).
  { clear. intros p q vp vq rp rq xp xq Ep Eq N.
    destruct (write_refines rf h newTrie _ (OSet p vp) newTrie_wf (abs_entries _) ltac:(discriminate)) as (t1 & E1 & WT1 & _).
    destruct (write_refines rf h t1 _ (OSet q vq) WT1 (abs_entries _) ltac:(discriminate)) as (t2 & E2 & WT2 & _).
    assert (R : exists o, t_run rf [(h, OSet p vp); (h, OSet q vq)] newTrie = Ok (t2, o)) by (cbn [t_run]; rewrite E1; cbn [bind]; rewrite E2; cbn [bind]; eauto).
    destruct R as (o & R). exists t2, o. split; [exact R|].
    pose proof (step_shape rf h newTrie _ t1 _ newTrie_wf E1) as S1. cbn [stored] in S1. destruct S1 as (v1 & u1 & i1 & I1 & O1).
    pose proof (step_shape rf h t1 _ t2 _ WT1 E2) as S2. cbn [stored] in S2. destruct S2 as (v2 & u2 & i2 & I2 & O2).
    destruct (insert_order _ _ _ _ _ newTrie_wf I1) as (_ & _ & J1 & _). destruct (insert_order _ _ _ _ _ WT1 I2) as (_ & SB & J2 & _).
    rewrite <- O1, Ep in J1. rewrite <- O2, Eq in J2. rewrite <- O2 in SB.
    apply (first_first rf _ t2 o [] rp rq [] (rp :: xp) [rq :: xq] R); auto.
    - repeat constructor.
    - cbn [stored_keys stored app]. now rewrite Ep, Eq.
    - now exists xp.
    - exact (sub_in _ _ _ SB J1).
    - now exists xp.
    - now exists xq. }
  destruct (G a b va vb ra rb x y Ea Eb N) as (t & o & E & B). destruct (G b a vb va rb ra y x Eb Ea (fun X => N (eq_sym X))) as (t' & o' & E' & B').
  exists t, o, t', o'. auto.
Qed.
Lemma order_differs rf h a b va vb ra rb x y :
  runes (replace_byte 32 45 (full h a)) = ra :: x -> runes (replace_byte 32 45 (full h b)) = rb :: y -> ra <> rb ->
  exists t o t' o', t_run rf [(h, OSet a va); (h, OSet b vb)] newTrie = Ok (t, o) /\ t_run rf [(h, OSet b vb); (h, OSet a va)] newTrie = Ok (t', o') /\
    before (order t) (ra :: x) (rb :: y) /\ before (order t') (rb :: y) (ra :: x) /\ order t <> order t'.
Proof.
  intros Ea Eb N. destruct (order_depends rf h a b va vb ra rb x y Ea Eb N) as (t & o & t' & o' & E & E' & B & B').
  exists t, o, t', o'. repeat (split; [assumption|]). intros Q. rewrite <- Q in B'.
  exact (before_asym (order t) _ _ (order_nodup t (run_wf _ _ _ _ _ newTrie_wf E)) B B').
Qed.
Theorem walk_order t : reached t ->
  exists ns, (forall rf h, Walk rf h t [] = Ok ns) /\ NoDup (order t) /\
    (forall k, In k (order t) <-> exists a, t_get t k = Some a) /\
    forall k a, t_get t k = Some a <-> exists n, In (k, n) (combine (order t) ns) /\ a = Attr (ndata n) (ndesc n) (ncmt n) (ntag n) (isLeaf n) (hasData n) (modified n).
Proof.
  intros R. pose proof (reached_wf t R) as WT. exists (walk (root t)). split; [reflexivity|]. split; [exact (order_nodup t WT)|].
  split; [intros k; exact (order_get t k WT)|]. intros k a. pose proof (proj1 (proj2 (proj1 WT))) as W.
  assert (C : combine (order t) (walk (root t)) = ents [] (root t)).
  { rewrite (walk_ents (root t) []). unfold order, keys. induction (ents [] (root t)) as [|[k0 n0] l IH]; cbn; auto. now rewrite IH. }
  rewrite C. assert (AT : forall n, In (k, n) (ents [] (root t)) -> t_get t k = Some (Attr (ndata n) (ndesc n) (ncmt n) (ntag n) (isLeaf n) (hasData n) (modified n))).
  { intros n I. unfold t_get. rewrite (abs_ents (root t) (entries t) W (abs_entries t) k n I). f_equal. unfold attr_of. cbn.
    now rewrite isLeaf_bit, hasData_bit, modified_bit. }
  split.
  - intros G. pose proof (proj2 (order_get t k WT) (ex_intro _ a G)) as I. apply keys_ent in I. destruct I as (n & I).
    exists n. split; [exact I|]. rewrite (AT n I) in G. congruence.
  - intros (n & I & ->). exact (AT n I).
Qed.
