(** Goroutines that set keys below nodes of their own, at the same time. *)
From Coq Require Import List NArith Bool Arith Lia Permutation.
From Verif Require Import GoStr Utf8 Node NodeWf InsertProofs MatchProofs Trie TreeOps Spec Refine Climb ApiRefine Reach Effect
  Derived Derived2 Derived3 Derived4 Derived5 Heap HeapProofs HeapWalk HeapRace HeapGet HeapGetProofs HeapOwn NoId HeapFair.
Import ListNotations.
Open Scope nat_scope.

(** nodes of [L] outside [P] are as they were *)
Definition keep (L L' : mine) (P : nat -> Prop) : Prop :=
  forall a s, mn L a = Some s -> ~ P a -> mn L' a = Some s /\ forall l, arr_in L (hkids s) l -> arr_in L' (hkids s) l.
Lemma keep_refl L P : keep L L P.
Proof. intros a s E _. auto. Qed.
Lemma keep_trans L L1 L2 P Q : keep L L1 P -> keep L1 L2 Q -> (forall a s, mn L a = Some s -> Q a -> P a) -> keep L L2 P.
Proof.
  intros A B H a s E N. destruct (A a s E N) as [A1 A2]. destruct (B a s A1) as [B1 B2]; [|auto]. intros X. apply N. eapply H; eauto.
Qed.
Lemma keep_weaken L L' (P Q : nat -> Prop) : keep L L' P -> (forall a, P a -> Q a) -> keep L L' Q.
Proof. intros A H a s E N. apply A; auto. Qed.
Lemma lrep_keep L L' P n : keep L L' P -> lrep L n -> (forall a, In a (ids n) -> ~ P a) -> lrep L' n.
Proof.
  intros K. induction n as [n IH] using node_ind'. intros H N. inversion H as [n0 s l H1 H2 H3 H4 H5]; subst.
  destruct (K _ _ H1) as [K1 K2]; [apply N; rewrite ids_eq; now left|].
  apply lrep_intro with s l; auto. rewrite Forall_forall in *. intros k Hk. apply IH; auto.
  intros a Ha. apply N. rewrite ids_eq. right. apply in_flat_map. eauto.
Qed.

Section Sect.
Variable grow : nat -> nat.
Variable sh : mine.
Variable pth : nat -> option (list rune).
Hypothesis Z0 : ma sh 0 = Some [].
Definition asis (a : nat) (s t : hnode) : Prop := t = s.
Definition any (L : mine) : Prop := True.
Notation owned := (owns sh asis pth any).

Lemma mine_set {A} (Q : mine -> A -> Prop) L a s f k : mn L a = Some s -> pth a = None \/ hpath (f s) = hpath s /\ pth a = Some (hpath s) ->
  owned Q (addn L a (f s)) k -> owned Q L (UpdN a f k).
Proof.
  intros E P O. apply ow_myset with s; auto; [|exact I]. intros p Hp. destruct P as [P|[P1 P2]]; congruence.
Qed.
Lemma read_owned L r l : ma L r = Some l -> forall k i, i + k <= length l ->
  owned (fun L' x => L' = L /\ x = firstn k (skipn i l)) L (p_read r i k).
Proof.
  intros E k. induction k as [|k IH]; intros i LE; cbn [p_read]; [constructor; auto|].
  destruct (nth_error l i) as [c|] eqn:En; [|apply nth_error_None in En; lia]. apply ow_myelem with l c; auto.
  eapply owns_bind; [apply IH; lia|]. intros L' x [-> ->]. constructor. split; [reflexivity|].
  clear -En. revert i En. induction l as [|x l IH]; intros [|i] En; cbn in *; try discriminate; [congruence|]. now apply IH.
Qed.
(** append to a slice of its own *)
Definition appended (L : mine) (sl : slice) (x : nat) (L' : mine) (sl' : slice) : Prop :=
  exists r l, L' = adda L r l /\ sl' = Sl r (S (sl_len sl)) /\ r <> 0 /\ S (sl_len sl) <= length l /\
    (r = sl_arr sl \/ ma L r = None) /\
    forall l0, arr_in L sl l0 -> firstn (S (sl_len sl)) l = firstn (sl_len sl) l0 ++ [x].
Lemma append_owned L sl x : lwf L -> (sl = Sl 0 0 \/ exists l, ma L (sl_arr sl) = Some l /\ sl_len sl <= length l) ->
  owned (appended L sl x) L (p_append grow sl x).
Proof.
  intros LW S. unfold p_append. destruct S as [->|(l & E & LE)].
  - cbn [sl_arr sl_len]. apply ow_cap with []; [exact Z0|]. cbn [length Nat.ltb Nat.leb p_read seqp app]. apply ow_newa; [easy|]. intros r N _ R0.
    constructor. exists r, (x :: repeat 0 (grow 0)). split; [reflexivity|]. split; [reflexivity|]. split; [exact R0|]. split; [cbn; lia|]. split; [auto|].
    intros l0 [[_ ->]|X]; cbn; [reflexivity|]. cbn in X. now rewrite (lwf_nil _ LW) in X.
  - assert (R0 : sl_arr sl <> 0) by (intros Q0; rewrite Q0, (lwf_nil _ LW) in E; discriminate).
    assert (AR : forall l0, arr_in L sl l0 -> l0 = l).
    { intros l0 [[X _]|X]; [|congruence]. rewrite X in R0. cbn in R0. congruence. }
    apply ow_mycap with l; [exact E|]. destruct (Nat.ltb_spec (sl_len sl) (length l)) as [LT|GE]; cbn [seqp].
    + apply ow_myput with l; auto; [exact I|]. constructor. exists (sl_arr sl), (put l (sl_len sl) x). split; [reflexivity|]. split; [reflexivity|].
      split; [exact R0|]. split; [rewrite put_length; lia|]. split; [auto|]. intros l0 X. rewrite (AR l0 X). now apply firstn_put.
    + eapply owns_bind; [apply read_owned with (1 := E); lia|]. intros L' x' [-> ->]. cbn [skipn]. apply ow_newa; [easy|]. intros r N _ R1.
      constructor. exists r, (firstn (sl_len sl) l ++ x :: repeat 0 (grow (sl_len sl))). split; [reflexivity|]. split; [reflexivity|]. split; [exact R1|].
      split; [rewrite app_length, firstn_length; cbn; lia|]. split; [auto|]. intros l0 X. rewrite (AR l0 X).
      assert (EL : length (firstn (sl_len sl) l) = sl_len sl) by (rewrite firstn_length; lia).
      rewrite firstn_app, EL. replace (S (sl_len sl) - sl_len sl) with 1 by lia.
      rewrite (firstn_all2 (n := S (sl_len sl))) by lia. reflexivity.
Qed.

(** [n'] has replaced [n] *)
Record became (L : mine) (n : node) (L' : mine) (n' : node) (P : nat -> Prop) : Prop := {
  be_wf : lwf L';
  be_rep : lrep L' n';
  be_nd : NoDup (ids n');
  be_id : nid n' = nid n;
  be_keep : keep L L' P;
  be_ids : forall a, In a (ids n') -> In a (ids n) \/ mn L a = None /\ pth a = None }.

(** insertAsLeaf *)
Lemma leaf_owned L b word fp v : lwf L -> lrep L b -> NoDup (ids b) ->
  pth (nid b) = None \/ pth (nid b) = Some (npath b) ->
  owned (fun L' x => became L b L' (insertAsLeaf b word fp v x) (fun a => a = nid b)) L (p_leaf grow (nid b) word fp v).
Proof.
  intros LW R ND PT. inversion R as [n0 s l H1 H2 H3 H4 H5]; subst n0. unfold p_leaf.
  apply ow_new; [easy|]. intros x NX NS NP. set (lf := HN word fp (Sl 0 0) v [] [] GNil (N.lor NTLeaf NTData)).
  assert (BX : nid b <> x) by congruence.
  apply ow_mynode with s. { cbn. destruct (Nat.eqb_spec (nid b) x); [tauto|exact H1]. }
  eapply owns_bind; [apply append_owned; [now apply lwf_new|exact (lwf_in _ LW _ _ H1)]|].
  intros L' sl' (r & l' & -> & -> & R0 & LL & FR & FN).
  assert (E1 : mn (adda (addn L x lf) r l') (nid b) = Some s) by (cbn; destruct (Nat.eqb_spec (nid b) x); [tauto|exact H1]).
  apply mine_set with s; [exact E1|cbn [w_kids hpath]; rewrite (proj1 H2); tauto|].
  set (s' := w_kids (Sl r (S (sl_len (hkids s)))) s). set (L' := addn (adda (addn L x lf) r l') (nid b) s').
  assert (FR' : r = sl_arr (hkids s) \/ ma L r = None) by exact FR.
  assert (OTHER : forall a t, mn L a = Some t -> a <> nid b -> sl_arr (hkids t) <> r).
  { intros a t Et Na Qa. destruct FR' as [->|FR'].
    - apply R0. rewrite <- Qa. apply (lwf_own _ LW a (nid b) t s Et H1 Na Qa).
    - destruct (lwf_in _ LW a t Et) as [X|(l1 & X & _)]; [rewrite X in Qa; cbn in Qa; congruence|congruence]. }
  assert (LW' : lwf L').
  { apply lwf_kids with r (S (sl_len (hkids s))) l'; auto.
    - destruct FR' as [FR'|FR'].
      + destruct (lwf_in _ LW _ _ H1) as [X|(l1 & X & _)]; [rewrite X in FR'; cbn in FR'; congruence|]. rewrite <- FR' in X.
        constructor; cbn.
        * intros a t. destruct (Nat.eqb_spec a x) as [->|Na]; intros Et; [injection Et as <-; auto|].
          destruct (lwf_in _ LW a t Et) as [Y|(l2 & Y1 & Y2)]; [auto|right]. destruct (Nat.eqb_spec (sl_arr (hkids t)) r) as [Qr|Qr]; [|eauto].
          exists l'. split; [reflexivity|]. destruct (Nat.eq_dec a (nid b)) as [->|Nb]; [assert (t = s) as -> by congruence; lia|].
          destruct (OTHER a t Et Nb Qr).
        * apply (lwf_own _ (lwf_new L x lf LW NX eq_refl)).
        * destruct r; [congruence|apply LW].
      + apply lwf_arr; auto. now apply lwf_new.
    - cbn. intros a t. destruct (Nat.eqb_spec a x) as [->|Na]; intros Et Nb; [injection Et as <-; cbn; congruence|]. eapply OTHER; eauto.
    - cbn. now rewrite Nat.eqb_refl. }
  assert (KP : keep L L' (fun a => a = nid b)).
  { intros a t Et Na. split.
    - cbn. destruct (Nat.eqb_spec a (nid b)); [tauto|]. destruct (Nat.eqb_spec a x); [congruence|exact Et].
    - intros l1 [[X Y]|X]; [left; auto|right]. cbn. destruct (Nat.eqb_spec (sl_arr (hkids t)) r) as [Qr|]; [destruct (OTHER a t Et Na Qr)|exact X]. }
  constructor. constructor; auto.
  - unfold insertAsLeaf. apply lrep_intro with s' l'; cbn [nid set_kids nkids].
    + cbn. now rewrite Nat.eqb_refl.
    + exact H2.
    + right. cbn. now rewrite Nat.eqb_refl.
    + cbn [s' w_kids hkids sl_len]. rewrite map_app. cbn [map new_leaf nid]. rewrite (FN l), H4; [reflexivity|].
      destruct H3 as [X|X]; [now left|right; exact X].
    + apply Forall_app. split.
      * rewrite Forall_forall in *. intros k Hk. apply lrep_keep with (1 := KP); auto. intros a Ha ->.
        rewrite ids_eq in ND. inversion ND as [|? ? X _]; subst. apply X. apply in_flat_map. eauto.
      * constructor; [|constructor]. apply lrep_intro with lf []; cbn.
        -- destruct (Nat.eqb_spec x (nid b)); [congruence|]. now rewrite Nat.eqb_refl.
        -- unfold fits. cbn. auto 12.
        -- left. auto.
        -- reflexivity.
        -- constructor.
  - rewrite ids_eq. unfold insertAsLeaf. cbn [nid set_kids nkids]. rewrite flat_map_app. rewrite ids_eq in ND. inversion ND as [|? ? X ND']; subst.
    cbn [flat_map]. rewrite (ids_eq (new_leaf word fp v x)). cbn [new_leaf nid nkids flat_map app]. constructor.
    + rewrite in_app_iff. cbn. intros [Y|[Y|[]]]; [tauto|congruence].
    + apply NoDup_app_intro; auto; [repeat constructor; auto|]. intros a Ha [<-|[]].
      apply in_flat_map in Ha. destruct Ha as (k & Hk & Ha). rewrite Forall_forall in H5. destruct (lrep_dom _ _ (H5 k Hk) x Ha). congruence.
  - intros a. rewrite ids_eq. unfold insertAsLeaf. cbn [nid set_kids nkids]. rewrite flat_map_app. rewrite (ids_eq b). cbn [flat_map].
    rewrite (ids_eq (new_leaf word fp v x)). cbn [new_leaf nid nkids flat_map app In]. rewrite in_app_iff. cbn [In].
    intros [Y|[Y|[Y|[]]]]; auto. subst a. right. split; [exact NX|exact NP].
Qed.

(** split *)
Lemma split_owned L n pos : lwf L -> lrep L n -> NoDup (ids n) -> pth (nid n) = None -> length (npath n) - pos <= length (npathS n) ->
  owned (fun L' _ => exists x b, split n pos x = Ok b /\ became L n L' b (fun a => a = nid n)) L (p_split (nid n) pos).
Proof.
  intros LW R ND PT LE. inversion R as [n0 s l H1 H2 H3 H4 H5]; subst n0. pose proof H2 as (P1 & P2 & P3 & P4 & P5 & P6 & P7).
  unfold p_split. apply ow_mynode with s; [exact H1|]. apply ow_new; [easy|]. intros x NX NS NP.
  assert (BX : nid n <> x) by congruence. assert (XB : (nid n =? x) = false) by now apply Nat.eqb_neq.
  set (lo := HN (skipn pos (hpath s)) (hpathS s) (hkids s) (hdata s) (hdesc s) (hcmt s) (htag s) (htype s)).
  apply mine_set with s; [cbn; now rewrite XB|auto|].
  rewrite (proj2 (Nat.leb_le _ _)) by now rewrite P1, P2.
  repeat (eapply mine_set; [cbn; rewrite ?Nat.eqb_refl; reflexivity|auto|]).
  apply ow_newa; [easy|]. intros r N _ R0.
  repeat (eapply mine_set; [cbn; rewrite ?Nat.eqb_refl; reflexivity|auto|]).
  constructor.
  match goal with |- exists x b, _ /\ became _ _ ?l _ _ => set (L' := l) end.
  set (up := HN (firstn pos (hpath s)) (firstn (length (hpathS s) - (length (hpath s) - pos)) (hpathS s)) (Sl r 1) GNil [] [] GNil NTBranch).
  assert (MN : forall a, mn L' a = if a =? nid n then Some up else if a =? x then Some lo else mn L a).
  { intros a. unfold L'. cbn. destruct (a =? nid n); reflexivity. }
  assert (MA : forall q, ma L' q = if q =? r then Some [x] else ma L q) by reflexivity.
  assert (N' : ma L r = None) by exact N. clearbody L'. clear N.
  assert (NR : forall a t, mn L a = Some t -> sl_arr (hkids t) <> r).
  { intros a t Et Qa. destruct (lwf_in _ LW a t Et) as [X|(l1 & X & _)]; [rewrite X in Qa; cbn in Qa; congruence|congruence]. }
  exists x. eexists. split; [unfold split; rewrite (proj2 (Nat.leb_le _ _)) by exact LE; reflexivity|].
  rewrite ids_eq in ND. apply NoDup_cons_iff in ND. destruct ND as [NI ND].
  assert (NXI : ~ In x (flat_map ids (nkids n))).
  { intros Ha. apply in_flat_map in Ha. destruct Ha as (k & Hk & Ha). rewrite Forall_forall in H5. destruct (lrep_dom _ _ (H5 k Hk) x Ha). congruence. }
  assert (KP : keep L L' (fun a => a = nid n)).
  { intros a t Et Na. split.
    - rewrite MN. destruct (Nat.eqb_spec a (nid n)); [tauto|]. destruct (Nat.eqb_spec a x); [congruence|exact Et].
    - intros l1 [[X Y]|X]; [left; auto|right]. rewrite MA. destruct (Nat.eqb_spec (sl_arr (hkids t)) r) as [Qr|]; [destruct (NR a t Et Qr)|exact X]. }
  constructor; auto.
  - constructor.
    + intros a t. rewrite MN. destruct (Nat.eqb_spec a (nid n)) as [->|Na]; [|destruct (Nat.eqb_spec a x) as [->|Nx]]; intros Et.
      * injection Et as <-. right. cbn. rewrite MA, Nat.eqb_refl. exists [x]. auto.
      * injection Et as <-. cbn [lo hkids]. destruct (lwf_in _ LW _ _ H1) as [X|(l1 & X1 & X2)]; [auto|right]. exists l1. rewrite MA.
        destruct (Nat.eqb_spec (sl_arr (hkids s)) r); [congruence|auto].
      * destruct (lwf_in _ LW _ _ Et) as [X|(l1 & X1 & X2)]; [auto|right]. exists l1. rewrite MA.
        destruct (Nat.eqb_spec (sl_arr (hkids t)) r); [congruence|auto].
    + intros a b t u. rewrite !MN.
      destruct (Nat.eqb_spec a (nid n)) as [->|Na]; [|destruct (Nat.eqb_spec a x) as [->|Nx]]; intros Et;
      (destruct (Nat.eqb_spec b (nid n)) as [->|Nb]; [|destruct (Nat.eqb_spec b x) as [->|Nx']]); intros Eu D Q; try tauto.
      * injection Et as <-. injection Eu as <-. cbn in Q. destruct (NR _ _ H1); auto.
      * injection Et as <-. cbn in Q. destruct (NR _ _ Eu); auto.
      * injection Et as <-. injection Eu as <-. cbn in *. destruct (NR _ _ H1); auto.
      * injection Et as <-. cbn in *. apply (lwf_own _ LW (nid n) b s u); auto.
      * injection Eu as <-. cbn in *. destruct (NR _ _ Et); auto.
      * injection Eu as <-. cbn in *. apply (lwf_own _ LW a (nid n) t s); auto.
      * now apply (lwf_own _ LW a b t u).
    + rewrite MA. destruct r; [congruence|apply LW].
  - apply lrep_intro with up [x]; cbn [nid nkids map].
    + rewrite MN, Nat.eqb_refl. reflexivity.
    + unfold fits, up. cbn. rewrite P1, P2. auto 12.
    + right. cbn. rewrite MA, Nat.eqb_refl. reflexivity.
    + reflexivity.
    + constructor; [|constructor]. apply lrep_intro with lo l; cbn [nid nkids].
      * rewrite MN, Nat.eqb_refl. destruct (Nat.eqb_spec x (nid n)); [congruence|reflexivity].
      * unfold fits, lo. cbn. rewrite P1. auto 12.
      * destruct H3 as [X|X]; [now left|right]. cbn [lo hkids]. rewrite MA. destruct (Nat.eqb_spec (sl_arr (hkids s)) r); [congruence|exact X].
      * exact H4.
      * rewrite Forall_forall in *. intros k Hk. apply lrep_keep with (1 := KP); auto. intros a Ha ->. apply NI. apply in_flat_map. eauto.
  - rewrite ids_eq. cbn [nid nkids flat_map]. rewrite app_nil_r, ids_eq. cbn [nid nkids]. constructor; [|constructor; auto].
    intros [Y|Y]; [congruence|tauto].
  - intros a. rewrite ids_eq. cbn [nid nkids flat_map]. rewrite app_nil_r, ids_eq. cbn [nid nkids]. rewrite (ids_eq n). cbn [In].
    intros [Y|[Y|Y]]; auto. subst a. auto.
Qed.

(** matchChildren, over nodes whose paths may be read *)
Definition readable (L : mine) (a : nat) (p : list rune) : Prop :=
  (exists s, mn L a = Some s /\ hpath s = p) \/ (exists s, mn sh a = Some s /\ hpath s = p) \/ pth a = Some p.
Lemma node_readable {A} (Q : mine -> A -> Prop) L a p k : readable L a p -> (forall t, hpath t = p -> owned Q L (k t)) -> owned Q L (GetN a k).
Proof.
  intros [(s & E & P)|[(s & E & P)|E]] H.
  - apply ow_mynode with s; auto.
  - apply ow_node with s; auto. intros t ->. auto.
  - apply ow_path with p; auto.
Qed.
Lemma match_owned L word r l : ma L r = Some l \/ ma sh r = Some l -> forall ks i, firstn (length ks) (skipn i l) = map nid ks ->
  Forall (fun k => readable L (nid k) (npath k)) ks ->
  match matchChildren word ks with
  | Ok (Some (_, c, _)) => owned (fun L' m => L' = L /\ m = Some (nid c)) L (p_match word r i (length ks))
  | Ok None => owned (fun L' m => L' = L /\ m = None) L (p_match word r i (length ks))
  | _ => True
  end.
Proof.
  intros E ks. induction ks as [|k ks IH]; intros i F R; cbn [length p_match matchChildren]; [constructor; auto|].
  inversion R as [|? ? Rk R']; subst. cbn [length map] in F. destruct (skipn i l) as [|x t] eqn:Es; [discriminate|]. cbn [firstn] in F. injection F as -> F.
  pose proof (nth_error_skipn _ _ _ _ Es) as En.
  assert (ST : forall (Q : mine -> option nat -> Prop) q, owned Q L (q (nid k)) -> owned Q L (GetA r i q)).
  { intros Q q O. destruct E as [E|E]; [apply ow_myelem with l (nid k); auto|apply ow_elem with l (nid k); auto]. }
  assert (T' : skipn (S i) l = t).
  { clear -Es. revert i Es. induction l as [|a l IH]; intros [|i] Es; cbn in *; try discriminate; [congruence|auto]. }
  specialize (IH (S i)). rewrite T' in IH. specialize (IH F R').
  destruct (npath k) as [|c0 p] eqn:Ep; [exact I|]. destruct word as [|w word]; [exact I|]. destruct (c0 =? w)%N eqn:Ec.
  - apply ST. apply node_readable with (c0 :: p); auto. intros u ->. rewrite Ec. constructor. auto.
  - destruct (matchChildren (w :: word) ks) as [[[[a d] e]|]| |]; cbn [bind]; auto;
      (apply ST; apply node_readable with (c0 :: p); auto; intros u ->; rewrite Ec; exact IH).
Qed.
Lemma lrep_readable L n : lrep L n -> readable L (nid n) (npath n).
Proof. intros R. inversion R as [n0 s l H1 H2 H3 H4 H5]; subst. left. exists s. split; [exact H1|apply H2]. Qed.
Lemma match_split word ks l c r : matchChildren word ks = Ok (Some (l, c, r)) -> ks = l ++ c :: r.
Proof.
  revert l c r. induction ks as [|k ks IH]; intros l c r; cbn [matchChildren]; [discriminate|].
  destruct (npath k) as [|c0 p]; [discriminate|]. destruct word as [|w w']; [discriminate|].
  destruct (c0 =? w)%N; [intros X; injection X as <- <- <-; reflexivity|].
  destruct (matchChildren (w :: w') ks) as [[[[a d] e]|]| |]; cbn [bind]; try discriminate.
  intros X. injection X as <- <- <-. cbn. f_equal. now apply IH.
Qed.
Lemma kids_len_l L n s l : lwf L -> mn L (nid n) = Some s -> arr_in L (hkids s) l -> firstn (sl_len (hkids s)) l = map nid (nkids n) ->
  sl_len (hkids s) = length (nkids n).
Proof.
  intros LW E A F. apply (f_equal (@length nat)) in F. rewrite firstn_length, map_length in F.
  destruct (lwf_in _ LW _ _ E) as [X|(l1 & X1 & X2)].
  - rewrite X in *. cbn in *. lia.
  - destruct A as [[A _]|A]; [rewrite A in *; cbn in *; lia|]. assert (l1 = l) as -> by congruence. lia.
Qed.

(** insertInternal on a tree of its own *)
Lemma insert_owned f : forall n n0 L word fp v nx ir, noid n = noid n0 -> lwf L -> lrep L n -> NoDup (ids n) ->
  (forall k a, In k (nkids n) -> In a (ids k) -> pth a = None) ->
  (pth (nid n) = None \/ pth (nid n) = Some (npath n) /\ exists rest, word = npath n ++ rest) ->
  insertInternal f n0 word fp v nx = Ok ir ->
  owned (fun L' x => snd (fst x) = ir_old ir /\ exists n', noid n' = noid (ir_node ir) /\ spot n' (fst (fst x)) (ir_node ir) (ir_id ir) /\ became L n L' n' (fun a => In a (ids n))) L (p_insert grow f (nid n) word fp v).
Proof.
  induction f as [|f IH]; intros n n0 L word fp v nx ir NE LW R ND PK PN; [discriminate|].
  pose proof R as R0. inversion R as [n1 s l H1 H2 H3 H4 H5]; subst n1. pose proof H2 as (P1 & _).
  assert (SELF : In (nid n) (ids n)) by (rewrite ids_eq; now left).
  cbn [insertInternal p_insert]. rewrite <- (noid_path _ _ NE), <- (noid_len _ _ NE). intros EI. apply ow_mynode with s; [exact H1|].
  rewrite P1, (kids_len_l L n s l LW H1 H3 H4).
  assert (PN' : pth (nid n) = None \/ pth (nid n) = Some (npath n)) by tauto.
  assert (WK : forall L1 b L2 b', became L n L1 b (fun a => a = nid n) -> nid b = nid n -> became L1 b L2 b' (fun a => In a (ids b)) ->
    became L n L2 b' (fun a => In a (ids n))).
  { intros L1 b L2 b' [A1 A2 A3 A4 A5 A6] Ib [B1 B2 B3 B4 B5 B6]. constructor; auto; [congruence| |].
    - apply keep_trans with L1 (fun a => In a (ids b)).
      + apply keep_weaken with (1 := A5). intros a ->. exact SELF.
      + exact B5.
      + intros a t Et Hb. destruct (A6 a Hb) as [X|[X _]]; [exact X|congruence].
    - intros a Ha. destruct (B6 a Ha) as [X|[X Y]].
      + destruct (A6 a X); auto.
      + destruct (mn L a) as [t|] eqn:Et; [|auto]. destruct (in_dec Nat.eq_dec a (ids n)) as [|Ni]; [auto|].
        destruct (A5 a t Et) as [Z _]; [intros ->; tauto|]. congruence. }
  pose proof NE as NE0. destruct ((length (npath n) =? 0) && ((0 <? length word) && (length (nkids n) =? 0))).
  { injection EI as <-. cbn [ir_node]. eapply owns_bind; [apply leaf_owned; auto|]. intros L' x B. constructor. split; [reflexivity|].
    exists (insertAsLeaf n word fp v x). apply noid_inv in NE as [Hd K]. split; [|split].
    - apply noid_kids; [exact Hd|]. rewrite !map_app. now rewrite K.
    - now apply spot_leaf.
    - destruct B as [B1 B2 B3 B4 B5 B6]. constructor; auto. apply keep_weaken with (1 := B5). intros a ->. exact SELF. }
  set (cpl := if (0 <? length (npath n)) && (0 <? length word) then cpl_len word (npath n) else 0) in *.
  destruct (if cpl <? length (npath n) then do b <- split n0 cpl nx; Ok (b, S nx) else Ok (n0, nx)) as [[b nx1]| |] eqn:EB; cbn [bind] in EI; try discriminate.
  eapply owns_bind with (Q := fun L1 _ => exists b', noid b' = noid b /\ became L n L1 b' (fun a => a = nid n) /\
    (pth (nid b') = None \/ pth (nid b') = Some (npath b'))).
  { destruct (cpl <? length (npath n)) eqn:EC.
    - assert (PT : pth (nid n) = None).
      { destruct PN as [PN|(PN & rest & ->)]; [exact PN|]. unfold cpl in EC. rewrite no_split, Nat.ltb_irrefl in EC. discriminate. }
      destruct (split n0 cpl nx) as [b1| |] eqn:ES; cbn [bind] in EB; try discriminate. injection EB as <- <-.
      assert (LE : length (npath n) - cpl <= length (npathS n)).
      { unfold split in ES. rewrite <- (noid_path _ _ NE) in ES. apply noid_inv in NE as [(_ & NS & _) _]. rewrite NS. destruct (Nat.leb_spec (length (npath n) - cpl) (length (npathS n0))); [auto|discriminate]. }
      eapply owns_mono; [apply split_owned; auto|]. cbn. intros L' _ (x & b' & Ex & B). exists b'.
      pose proof (split_noid n n0 cpl x nx NE) as SN. rewrite Ex, ES in SN. split; [exact SN|]. split; [exact B|].
      left. rewrite (be_id _ _ _ _ _ B). exact PT.
    - injection EB as <- <-. constructor. exists n. split; [exact NE|]. split; [|exact PN']. constructor; auto. apply keep_refl. }
  intros L1 _ (b' & Nb & B & PB). pose proof (be_id _ _ _ _ _ B) as Ib.
  pose proof (be_rep _ _ _ _ _ B) as Rb. pose proof (be_wf _ _ _ _ _ B) as LWb. pose proof (be_nd _ _ _ _ _ B) as NDb.
  inversion Rb as [n1 sb lb G1 G2 G3 G4 G5]; subst n1. rewrite Ib in G1.
  assert (PK' : forall k a, In k (nkids b') -> In a (ids k) -> pth a = None).
  { intros k a Hk Ha. destruct (be_ids _ _ _ _ _ B a) as [X|[_ X]]; [rewrite ids_eq; right; apply in_flat_map; eauto| |exact X].
    rewrite ids_eq in X. destruct X as [X|X]; [|apply in_flat_map in X; destruct X as (q & Hq & Hi); eapply PK; eauto].
    exfalso. rewrite ids_eq in NDb. inversion NDb as [|? ? Y _]; subst. apply Y. rewrite Ib. apply in_flat_map. eauto. }
  destruct (cpl <? length word) eqn:EW.
  - set (word' := if 0 <? cpl then skipn cpl word else word) in *. apply ow_mynode with sb; [exact G1|].
    pose proof (kids_len_l L1 b' sb lb LWb (eq_ind_r (fun a => mn L1 a = Some sb) G1 Ib) G3 G4) as KL. rewrite KL.
    pose proof Nb as Nb'. apply noid_inv in Nb' as [Hd K]. pose proof (match_noid word' _ _ K) as MN.
    assert (EQ0 : nkids b' = [] \/ ma L1 (sl_arr (hkids sb)) = Some lb).
    { destruct G3 as [[X Y]|X]; [left|auto]. rewrite X in KL. cbn in KL. destruct (nkids b'); [auto|discriminate]. }
    assert (MO : match matchChildren word' (nkids b') with
      | Ok (Some (_, c, _)) => owned (fun L' m => L' = L1 /\ m = Some (nid c)) L1 (p_match word' (sl_arr (hkids sb)) 0 (length (nkids b')))
      | Ok None => owned (fun L' m => L' = L1 /\ m = None) L1 (p_match word' (sl_arr (hkids sb)) 0 (length (nkids b')))
      | _ => True
      end).
    { destruct EQ0 as [->|EQ0]; [cbn; constructor; auto|]. apply match_owned with lb; [auto|cbn [skipn]; rewrite <- KL; exact G4|].
      eapply Forall_impl; [|exact G5]. intros k. apply lrep_readable. }
    destruct (matchChildren word' (nkids b)) as [[[[ml mc] mr]|]| |]; cbn [bind] in EI; try discriminate;
      destruct (matchChildren word' (nkids b')) as [[[[ml' mc'] mr']|]| |] eqn:EM; try tauto.
    + destruct MN as (MN1 & MN2 & MN3). eapply owns_bind; [exact MO|]. cbn. intros L' m [-> ->].
      apply match_split in EM. 
      destruct (insertInternal f mc word' fp v nx1) as [ir0| |] eqn:E1; cbn [bind] in EI; try discriminate. injection EI as <-. cbn [ir_node ir_id].
      rewrite EM in G5, PK'. apply Forall_app in G5. destruct G5 as [Rl Rc]. inversion Rc as [|? ? Rc1 Rr]; subst.
      pose proof NDb as NDb'. rewrite ids_eq, EM, flat_map_app in NDb. cbn [flat_map] in NDb. apply NoDup_cons_iff in NDb. destruct NDb as [NI ND1].
      pose proof (NoDup_app_remove_l _ _ ND1) as NDc. apply NoDup_app_remove_r in NDc.
      assert (IC : In mc' (ml' ++ mc' :: mr')) by (apply in_app_iff; right; now left).
      eapply owns_bind; [apply (IH mc' mc L1 word' fp v nx1 ir0); auto|].
      { intros k a Hk Ha. apply (PK' mc' a IC). rewrite ids_eq. right. apply in_flat_map. eauto. }
      { left. apply (PK' mc' (nid mc') IC). rewrite ids_eq. now left. }
      intros L2 [[id old] calls] (Eo & c2 & Nc & Sc & Bc). constructor. split; [cbn in *; congruence|]. exists (set_kids b' (ml' ++ c2 :: mr')).
      assert (DJ : forall k, In k (ml' ++ mr') -> forall a, In a (ids k) -> ~ In a (ids mc')).
      { intros k Hk a Ha Hc. apply in_app_iff in Hk. destruct Hk as [Hk|Hk].
        - apply (NoDup_app_disjoint _ _ ND1 a); [apply in_flat_map; eauto|apply in_app_iff; auto].
        - apply NoDup_app_remove_l in ND1. apply (NoDup_app_disjoint _ _ ND1 a); [auto|apply in_flat_map; eauto]. }
      destruct Bc as [C1 C2 C3 C4 C5 C6].
      split; [apply noid_kids; [exact Hd|]; rewrite !map_app; cbn [map]; congruence|].
      split; [apply (f_equal (@length node)) in MN1; rewrite !map_length in MN1; apply (spot_kid _ _ ml' ml c2 (ir_node ir0) mr' mr); auto|].
      assert (NIc : ~ In (nid n) (ids mc')).
      { intros X. apply NI. rewrite Ib. rewrite !in_app_iff. auto. }
      assert (OLD : forall a, In a (nid b' :: flat_map ids ml' ++ flat_map ids mr') -> exists t, mn L1 a = Some t).
      { intros a Ha. apply (lrep_dom L1 b' Rb). rewrite ids_eq, EM, flat_map_app. cbn [flat_map]. destruct Ha as [->|Ha]; [now left|right].
        rewrite !in_app_iff in *. tauto. }
      apply WK with (1 := B) (2 := Ib). constructor; auto.
      * destruct (C5 (nid n) sb G1 NIc) as [D1 D2]. apply lrep_intro with sb lb; cbn [nid set_kids nkids].
        -- rewrite Ib. exact D1.
        -- exact G2.
        -- now apply D2.
        -- rewrite G4, EM, !map_app. cbn [map]. now rewrite C4.
        -- apply Forall_app. rewrite Forall_forall in Rl, Rr. split; [|constructor; [exact C2|]]; apply Forall_forall; intros k Hk;
             (apply lrep_keep with (1 := C5); [auto|]); apply DJ; apply in_app_iff; auto.
      * rewrite ids_eq. cbn [nid set_kids nkids]. rewrite flat_map_app. cbn [flat_map].
        assert (FR : forall a, In a (ids c2) -> In a (nid b' :: flat_map ids ml' ++ flat_map ids mr') -> False).
        { intros a Ha Hb. destruct (C6 a Ha) as [X|[X _]].
          - destruct Hb as [<-|Hb]; [rewrite Ib in X; tauto|]. rewrite in_app_iff, !in_flat_map in Hb.
            destruct Hb as [(k & Hk & Hb)|(k & Hk & Hb)]; apply (DJ k) with a; auto; apply in_app_iff; auto.
          - destruct (OLD a Hb). congruence. }
        constructor.
        -- rewrite !in_app_iff. intros [X|[X|X]].
           ++ apply NI. rewrite !in_app_iff. auto.
           ++ apply (FR (nid b')); [exact X|now left].
           ++ apply NI. rewrite !in_app_iff. auto.
        -- apply NoDup_app_intro; [now apply NoDup_app_remove_r in ND1| |].
           ++ apply NoDup_app_intro; [exact C3|now apply NoDup_app_remove_l, NoDup_app_remove_l in ND1|].
              intros a Ha Hb. apply (FR a Ha). right. apply in_app_iff. auto.
           ++ intros a Ha. rewrite in_app_iff. intros [Hb|Hb].
              ** apply (FR a Hb). right. apply in_app_iff. auto.
              ** apply (NoDup_app_disjoint _ _ ND1 a Ha). apply in_app_iff. auto.
      * apply keep_weaken with (1 := C5). intros a Ha. rewrite ids_eq, EM, flat_map_app. cbn [flat_map]. right. rewrite !in_app_iff. auto.
      * intros a. rewrite (ids_eq (set_kids b' (ml' ++ c2 :: mr'))), (ids_eq b'), EM. cbn [nid set_kids nkids]. rewrite !flat_map_app. cbn [flat_map In]. rewrite !in_app_iff.
        intros [X|[X|[X|X]]]; auto. destruct (C6 a X); auto.
    + eapply owns_bind; [exact MO|]. cbn beta. intros L' m [-> ->]. injection EI as <-. cbn [ir_node].
      eapply owns_bind; [rewrite <- Ib; apply leaf_owned; auto|]. intros L2 x B2. constructor. split; [reflexivity|]. exists (insertAsLeaf b' word' fp v x). split; [|split].
      * apply noid_kids; [exact Hd|]. rewrite !map_app. cbn [map]. f_equal. exact K.
      * now apply spot_leaf.
      * apply WK with (1 := B) (2 := Ib). destruct B2 as [C1 C2 C3 C4 C5 C6]. constructor; auto.
        apply keep_weaken with (1 := C5). intros a ->. rewrite ids_eq. now left.
  - injection EI as <-. cbn [ir_node ir_id]. apply ow_mynode with sb; [exact G1|]. pose proof G2 as (Q1 & Q2 & Q3 & Q4 & Q5 & Q6 & Q7).
    rewrite Ib in PB. assert (PB' : pth (nid n) = None \/ pth (nid n) = Some (hpath sb)) by (rewrite Q1; exact PB).
    apply mine_set with sb; [exact G1|cbn; tauto|].
    eapply ow_mynode; [cbn; rewrite Nat.eqb_refl; reflexivity|]. eapply mine_set; [cbn; rewrite Nat.eqb_refl; reflexivity|cbn; tauto|]. constructor.
    split; [cbn; apply noid_inv in Nb as [(_ & _ & Nd & _) _]; congruence|].
    match goal with |- exists n', _ /\ _ /\ became _ _ ?l _ _ => set (L2 := l) end.
    set (s2 := w_data v (w_type (N.lor (htype sb) NTData) sb)).
    assert (MM : forall a, mn L2 a = if a =? nid n then Some s2 else mn L1 a).
    { intros a. unfold L2. cbn. destruct (a =? nid n); reflexivity. }
    assert (MA : forall r, ma L2 r = ma L1 r) by reflexivity. clearbody L2.
    exists (setData v b'). split.
    { apply noid_inv in Nb as [(A & A' & C & D & F & G & H) K]. apply noid_inv. split; [repeat split; cbn; congruence|exact K]. }
    split; [cbn; rewrite <- Ib; apply (spot_self (setData v b') (setData v b))|].
    apply WK with (1 := B) (2 := Ib).
    assert (KP : keep L1 L2 (fun a => a = nid n)).
    { intros a t Et Na. split.
      - rewrite MM. destruct (Nat.eqb_spec a (nid n)); [tauto|exact Et].
      - intros l1 [X|X]; [left; exact X|right]. rewrite MA. exact X. }
    assert (SD : ids (setData v b') = ids b') by (rewrite !ids_eq; reflexivity).
    constructor.
    + constructor.
      * intros a t. rewrite MM. destruct (Nat.eqb_spec a (nid n)) as [->|Na]; intros Et.
        -- injection Et as <-. cbn [s2 w_data w_type hkids]. destruct (lwf_in _ LWb _ _ G1) as [X|(l1 & X1 & X2)]; [auto|right; exists l1; rewrite MA; auto].
        -- destruct (lwf_in _ LWb _ _ Et) as [X|(l1 & X1 & X2)]; [auto|right; exists l1; rewrite MA; auto].
      * intros a c t u. rewrite !MM. destruct (Nat.eqb_spec a (nid n)) as [->|Na]; intros Et; destruct (Nat.eqb_spec c (nid n)) as [->|Nc]; intros Eu D Q; try tauto.
        -- injection Et as <-. cbn in *. now apply (lwf_own _ LWb (nid n) c sb u).
        -- injection Eu as <-. cbn in *. now apply (lwf_own _ LWb a (nid n) t sb).
        -- now apply (lwf_own _ LWb a c t u).
      * rewrite MA. apply LWb.
    + apply lrep_intro with s2 lb; cbn [setData nid nkids].
      * rewrite MM, Ib, Nat.eqb_refl. reflexivity.
      * unfold fits. cbn. rewrite Q7. auto 12.
      * destruct G3 as [X|X]; [left; exact X|right]. rewrite MA. exact X.
      * exact G4.
      * rewrite Forall_forall in *. intros k Hk. apply lrep_keep with (1 := KP); auto. intros a Ha ->.
        rewrite ids_eq in NDb. inversion NDb as [|? ? X _]; subst. apply X. rewrite Ib. apply in_flat_map. eauto.
    + rewrite SD. exact NDb.
    + reflexivity.
    + apply keep_weaken with (1 := KP). intros a ->. rewrite <- Ib. rewrite ids_eq. now left.
    + intros a. rewrite SD. auto.
Qed.

(** down to the hole, through nodes that all may read *)
Definition cid (C : ctx) (hid : nat) : nat := match C with Hole => hid | Down n _ _ _ => nid n end.
Fixpoint cshare (C : ctx) (hid : nat) (hp : list rune) : Prop :=
  match C with
  | Hole => pth hid = Some hp
  | Down n l C r =>
      (exists s arr, mn sh (nid n) = Some s /\ hpath s = npath n /\ ma sh (sl_arr (hkids s)) = Some arr /\
         sl_len (hkids s) = length l + S (length r) /\ firstn (sl_len (hkids s)) arr = map nid l ++ cid C hid :: map nid r) /\
      Forall (fun k => readable nothing (nid k) (npath k)) (l ++ r) /\ cshare C hid hp
  end.
Lemma readable_any L a p : readable nothing a p -> readable L a p.
Proof. intros [(s & E & _)|X]; [discriminate|right; exact X]. Qed.
Lemma cid_plug C m : nid (plug C m) = cid C (nid m).
Proof. destruct C; reflexivity. Qed.
Lemma cshare_top C hid hp : cshare C hid hp -> readable nothing (cid C hid) (cpath C hp).
Proof.
  destruct C as [|n l C r]; cbn [cshare cid cpath]; intros H; [right; right; exact H|].
  destruct H as ((s & arr & E & P & _) & _). right. left. eauto.
Qed.
Lemma down_owned (Q : mine -> nat -> gval -> Prop) C m f L rest fp v : cok C (npath m) -> cshare C (nid m) (npath m) ->
  owned (fun L' x => Q L' (fst (fst x)) (snd (fst x))) L (p_insert grow f (nid m) (npath m ++ rest) fp v) ->
  owned (fun L' x => Q L' (fst (fst x)) (snd (fst x))) L (p_insert grow (clen C + f) (cid C (nid m)) (cpre C ++ npath m ++ rest) fp v).
Proof.
  intros OK SH O. induction C as [|n l C IH r]; [exact O|].
  destruct (down_facts n l C r (npath m) rest OK) as (w & word & E & HW). destruct OK as (NE & F & OK).
  destruct SH as ((s & arr & E1 & E2 & E3 & E4 & E5) & RD & SH). specialize (IH OK SH).
  cbn [clen Nat.add cpre cid p_insert]. apply ow_node with s; [exact E1|]. intros t ->. rewrite E2, E4. rewrite <- app_assoc, E in *.
  replace (length l + S (length r) =? 0) with false by (rewrite Nat.add_succ_r; reflexivity).
  rewrite !andb_false_r. rewrite no_split, Nat.ltb_irrefl. cbn [seqp].
  replace (length (npath n) <? length (npath n ++ w :: word)) with true by (symmetry; apply Nat.ltb_lt; rewrite app_length; cbn; lia).
  replace (if 0 <? length (npath n) then skipn (length (npath n)) (npath n ++ w :: word) else npath n ++ w :: word) with (w :: word).
  2: { destruct (npath n) as [|a p]; [reflexivity|]. symmetry. apply skip_app. }
  apply ow_node with s; [exact E1|]. intros t ->. rewrite E4.
  pose proof (match_owned L (w :: word) (sl_arr (hkids s)) arr (or_intror E3) (l ++ plug C m :: r) 0) as MO.
  rewrite match_left in MO; [|intros k Hk; rewrite <- HW; now apply F|now rewrite plug_path].
  rewrite app_length in MO. cbn [length] in MO. eapply owns_bind; [apply MO|].
  - cbn [skipn]. rewrite <- E4, E5, map_app. cbn [map]. now rewrite cid_plug.
  - apply Forall_app in RD. destruct RD as [RD1 RD2]. apply Forall_app. split; [|constructor].
    + eapply Forall_impl; [|exact RD1]. intros k. apply readable_any.
    + rewrite cid_plug, plug_path. apply readable_any. now apply cshare_top.
    + eapply Forall_impl; [|exact RD2]. intros k. apply readable_any.
  - cbn beta. intros L' x [-> ->]. rewrite cid_plug. eapply owns_bind; [exact IH|]. intros L' [[id old] calls] H. constructor. exact H.
Qed.

Lemma sets_owned C job : forall L m m0 n0, lwf L -> lrep L m -> NoDup (ids m) ->
  (forall k a, In k (nkids m) -> In a (ids k) -> pth a = None) ->
  cok C (npath m) -> cshare C (nid m) (npath m) -> pth (nid m) = Some (npath m) ->
  (forall k v, In (k, v) job -> exists rest, runes k = cpre C ++ npath m ++ rest) ->
  noid m = noid m0 -> sec_sets (clen C) (length (cpre C)) job m0 = Ok n0 ->
  owned (fun L' _ => exists n', noid n' = noid n0 /\ became L m L' n' (fun a => In a (ids m))) L (p_sets grow (cid C (nid m)) job).
Proof.
  induction job as [|[k v] job IH]; intros L m m0 n0 LW R ND PK OK SH PT H E SE; cbn [p_sets sec_sets] in *.
  - constructor. injection SE as <-. exists m. split; [exact E|]. constructor; auto. apply keep_refl.
  - destruct (H k v (or_introl eq_refl)) as [rest Er]. pose proof (clen_le C (npath m) OK) as CL.
    set (f := S (S (length (runes k))) - clen C) in *.
    assert (F : S (S (length (runes k))) = clen C + f) by (subst f; rewrite Er, app_assoc, app_length; lia).
    replace (skipn (length (cpre C)) (runes k)) with (npath m ++ rest) in SE by (rewrite Er; symmetry; apply skip_app).
    destruct (insertInternal f m0 (npath m ++ rest) k v 0) as [ir| |] eqn:EI; cbn [bind] in SE; try discriminate.
    pose proof EI as EI0. rewrite (noid_path _ _ E) in EI0. pose proof (ins_path _ _ _ _ _ _ _ EI0) as EP. rewrite <- (noid_path _ _ E) in EP.
    unfold p_set. rewrite F, Er. eapply owns_bind.
    { apply down_owned with (Q := fun L' a old => old = ir_old ir /\ exists n', noid n' = noid (ir_node ir) /\ spot n' a (ir_node ir) (ir_id ir) /\ became L m L' n' (fun a => In a (ids m))); auto.
      apply insert_owned with (n0 := m0) (nx := 0); eauto. }
    cbn beta. intros L1 x1 (_ & m1 & N1 & _ & B1). destruct B1 as [A1 A2 A3 A4 A5 A6]. pose proof (noid_path _ _ N1) as P1. rewrite EP in P1. rewrite <- A4.
    eapply owns_mono.
    { apply (IH L1 m1 (ir_node ir) n0); auto; try congruence.
      - intros k' a Hk Ha. destruct (A6 a) as [X|[_ X]]; [rewrite ids_eq; right; apply in_flat_map; eauto| |exact X].
        rewrite ids_eq in X. destruct X as [X|X]; [|apply in_flat_map in X; destruct X as (q & Hq & Hi); eapply PK; eauto].
        exfalso. rewrite ids_eq in A3. inversion A3 as [|? ? Y _]; subst. apply Y. rewrite A4. apply in_flat_map. eauto.
      - rewrite P1. intros k' v' Hin. apply (H k' v'). now right. }
    cbn beta. intros L2 _ (n' & N2 & [B1 B2 B3 B4 B5 B6]). exists n'. split; [exact N2|]. constructor; auto; [congruence| |].
    + apply keep_trans with L1 (fun a => In a (ids m1)); auto. intros a t Et Hb. destruct (A6 a Hb) as [X|[X _]]; [exact X|congruence].
    + intros a Ha. destruct (B6 a Ha) as [X|[X Y]]; [now apply A6|]. destruct (mn L a) as [t|] eqn:Et; [|auto].
      destruct (in_dec Nat.eq_dec a (ids m)) as [|Ni]; [auto|]. destruct (A5 a t Et Ni). congruence.
Qed.
End Sect.

(** ** where sections lie *)
Inductive under (m : node) : node -> Prop :=
| un_refl : under m m
| un_kid n k : In k (nkids n) -> under m k -> under m n.
Lemma under_ids m n a : under m n -> In a (ids m) -> In a (ids n).
Proof. induction 1 as [|n k Hk _ IH]; auto. intros Ha. rewrite ids_eq. right. apply in_flat_map. eauto. Qed.
Lemma under_self m n : under m n -> In (nid m) (ids n).
Proof. intros U. apply under_ids with (1 := U). rewrite ids_eq. now left. Qed.
Lemma under_repr h m n : under m n -> repr h n -> repr h m.
Proof. induction 1 as [|n k Hk _ IH]; auto. intros R. apply repr_eq in R. destruct R as [_ R]. rewrite Forall_forall in R. auto. Qed.
Lemma under_trans a b c : under a b -> under b c -> under a c.
Proof. intros U V. induction V as [|n k Hk _ IH]; auto. now apply un_kid with k. Qed.
Lemma plug_under C m : under m (plug C m).
Proof. induction C as [|n l C IH r]; [constructor|]. apply un_kid with (plug C m); [|exact IH]. cbn. apply in_app_iff. right. now left. Qed.
Lemma ids_kids n k k' a : NoDup (ids n) -> In k (nkids n) -> In k' (nkids n) -> In a (ids k) -> In a (ids k') -> k = k'.
Proof.
  rewrite ids_eq. intros ND Hk Hk' Ha Ha'. inversion ND as [|? ? _ ND']; subst. clear ND. revert ND' Hk Hk'. generalize (nkids n). clear n.
  induction l as [|c l IH]; [easy|]. cbn [flat_map]. intros ND [->|Hk] [->|Hk']; auto.
  - exfalso. apply (NoDup_app_disjoint _ _ ND a Ha). apply in_flat_map. eauto.
  - exfalso. apply (NoDup_app_disjoint _ _ ND a Ha'). apply in_flat_map. eauto.
  - apply IH; auto. now apply NoDup_app_remove_l in ND.
Qed.
Lemma nodup_kid n k : NoDup (ids n) -> In k (nkids n) -> NoDup (ids k).
Proof.
  rewrite ids_eq. intros ND Hk. inversion ND as [|? ? _ ND']; subst. apply in_split in Hk. destruct Hk as (l & r & E). rewrite E in ND'.
  rewrite flat_map_app in ND'. cbn [flat_map] in ND'. apply NoDup_app_remove_l, NoDup_app_remove_r in ND'. exact ND'.
Qed.
Lemma repr_dom h n : repr h n -> forall a, In a (ids n) -> exists s, hn h a = Some s.
Proof.
  induction n as [n IH] using node_ind'. intros RP a. apply repr_eq in RP. destruct RP as [(s & E & _) F]. rewrite ids_eq. intros [<-|X]; [eauto|].
  apply in_flat_map in X. destruct X as (k & Hk & Ha). rewrite Forall_forall in *. eapply IH; eauto.
Qed.
Lemma under_nodup m n : under m n -> NoDup (ids n) -> NoDup (ids m).
Proof. induction 1 as [|n k Hk _ IH]; auto. intros ND. apply IH. now apply nodup_kid with n. Qed.
(** a child of a node outside [m] is outside, or [m] itself *)
Lemma under_parent R m n k : NoDup (ids R) -> under m R -> under n R -> In k (nkids n) -> In (nid k) (ids m) -> nid k = nid m \/ In (nid n) (ids m).
Proof.
  intros ND. revert n k m. induction R as [R IH] using node_ind'. intros n k m Um Un Hk Ha.
  inversion Um as [|R0 c Hc Uc]; subst; [right; now apply under_self|].
  assert (Hac : In (nid k) (ids c)) by now apply under_ids with m.
  inversion Un as [|R1 d Hd Ud]; subst.
  - left. assert (k = c) as -> by (apply (ids_kids R k c (nid k)); auto; rewrite ids_eq; now left).
    inversion Uc as [|R2 e He Ue]; subst; [reflexivity|]. exfalso.
    pose proof (nodup_kid _ _ ND Hc) as NDc. rewrite ids_eq in NDc. inversion NDc as [|? ? X _]; subst. apply X. apply in_flat_map. exists e. split; [exact He|].
    now apply under_ids with m.
  - assert (d = c) as ->.
    { apply (ids_kids R d c (nid k)); auto. apply under_ids with (1 := Ud). rewrite ids_eq. right. apply in_flat_map. exists k. split; [exact Hk|]. rewrite ids_eq. now left. }
    rewrite Forall_forall in IH. apply (IH c Hc (nodup_kid _ _ ND Hc) n k m); auto.
Qed.

Lemma graft_same g g' n : (forall a, match g a, g' a with Some x, Some y => noid x = noid y | None, None => True | _, _ => False end) ->
  noid (graft g n) = noid (graft g' n).
Proof.
  intros H. induction n as [n IH] using node_ind'. rewrite !graft_eq. specialize (H (nid n)).
  destruct (g (nid n)), (g' (nid n)); try tauto. apply noid_kids; [repeat split|]. cbn [nkids set_kids]. rewrite !map_map. apply map_ext_in.
  intros k Hk. rewrite Forall_forall in IH. auto.
Qed.
Lemma pairs_nodup {A} (P : A -> A -> Prop) l : NoDup l -> (forall x y, In x l -> In y l -> x <> y -> P x y) -> ForallOrdPairs P l.
Proof.
  induction l as [|a l IH]; intros ND H; constructor; inversion ND as [|? ? N ND']; subst.
  - apply Forall_forall. intros y Hy. apply H; [now left|now right|]. intros <-. auto.
  - apply IH; auto. intros x y Hx Hy. apply H; now right.
Qed.
Lemma choose_list {A B} (l : list A) : forall P : nat -> A -> B -> Prop, (forall i x, nth_error l i = Some x -> exists y, P i x y) ->
  exists l', length l' = length l /\ forall i x y, nth_error l i = Some x -> nth_error l' i = Some y -> P i x y.
Proof.
  induction l as [|a l IH]; intros P H.
  - exists []. split; [reflexivity|]. intros [|i]; discriminate.
  - destruct (H 0 a eq_refl) as [y Hy]. destruct (IH (fun i => P (S i))) as (l' & LN & F).
    { intros i x. exact (H (S i) x). }
    exists (y :: l'). split; [cbn; congruence|]. intros [|i] x z; cbn.
    + intros E1 E2. injection E1 as <-. injection E2 as <-. exact Hy.
    + apply F.
Qed.
Section Race.
Variable grow : nat -> nat.
Variable h0 : heap.
Variable R : node.
Variable secs : list section.
Hypothesis T : tree_in h0 R.
Hypothesis SI : Forall (sec_in R) secs.
(** no section lies in another *)
Hypothesis DJ : forall i j s s' a, i <> j -> nth_error secs i = Some s -> nth_error secs j = Some s' ->
  In a (ids (sc_node s)) -> In a (ids (sc_node s')) -> False.
Hypothesis SPN : forall s s' a, In s secs -> In s' secs -> In a (spine (sc_ctx s)) -> In a (ids (sc_node s')) -> False.

Definition inb (a : nat) (l : list nat) : bool := existsb (Nat.eqb a) l.
Lemma inb_in a l : inb a l = true <-> In a l.
Proof.
  unfold inb. rewrite existsb_exists. split.
  - intros (b & Hb & E). apply Nat.eqb_eq in E. now subst.
  - intros H. exists a. split; [exact H|apply Nat.eqb_refl].
Qed.
Definition arrs (n : node) : list nat := flat_map (fun a => match hn h0 a with Some s => [sl_arr (hkids s)] | None => [] end) (ids n).
Lemma in_arrs n r : In r (arrs n) <-> exists a s, In a (ids n) /\ hn h0 a = Some s /\ sl_arr (hkids s) = r.
Proof.
  unfold arrs. rewrite in_flat_map. split.
  - intros (a & Ha & X). destruct (hn h0 a) as [s|] eqn:E; [|easy]. destruct X as [<-|[]]. eauto.
  - intros (a & s & Ha & E & <-). exists a. split; [exact Ha|]. rewrite E. now left.
Qed.
Definition insideb (a : nat) : bool := existsb (fun s => inb a (ids (sc_node s))) secs.
Lemma insideb_in a : insideb a = true <-> exists s, In s secs /\ In a (ids (sc_node s)).
Proof. unfold insideb. rewrite existsb_exists. split; intros (s & Hs & X); exists s; (split; [exact Hs|now apply inb_in]). Qed.
Definition common : mine := Mine (fun a => if insideb a then None else hn h0 a)
  (fun r => if negb (r =? 0) && existsb (fun s => inb r (arrs (sc_node s))) secs then None else if r <? na h0 then Some (ha h0 r) else None).
Definition own (s : section) : mine := Mine (fun a => if inb a (ids (sc_node s)) then hn h0 a else None)
  (fun r => if negb (r =? 0) && inb r (arrs (sc_node s)) then Some (ha h0 r) else None).
Definition owner (i : nat) : mine := match nth_error secs i with Some s => own s | None => nothing end.
Definition root_path (a : nat) : option (list rune) := option_map (fun s => npath (sc_node s)) (find (fun s => nid (sc_node s) =? a) secs).

Lemma hw : hwf h0. Proof. apply T. Qed.
Lemma nd : NoDup (ids R). Proof. now apply tree_in_nodup with h0. Qed.
Lemma sec_plug s : In s secs -> plug (sc_ctx s) (sc_node s) = R.
Proof. intros H. rewrite Forall_forall in SI. now apply SI. Qed.
Lemma sec_under s : In s secs -> under (sc_node s) R.
Proof. intros H. rewrite <- (sec_plug s H). apply plug_under. Qed.
Lemma sec_repr s : In s secs -> repr h0 (sc_node s).
Proof. intros H. apply under_repr with R; [now apply sec_under|apply T]. Qed.
Lemma sec_same s s' a : In s secs -> In s' secs -> In a (ids (sc_node s)) -> In a (ids (sc_node s')) -> s = s'.
Proof.
  intros H H' Ha Ha'. apply In_nth_error in H, H'. destruct H as [i Hi], H' as [j Hj]. destruct (Nat.eq_dec i j) as [->|N]; [congruence|].
  exfalso. eapply DJ; eauto.
Qed.
Lemma common_arr a s : hn h0 a = Some s -> insideb a = false -> ma common (sl_arr (hkids s)) = Some (ha h0 (sl_arr (hkids s))).
Proof.
  intros E I. cbn [ma common]. destruct (hwf_in h0 hw _ _ E) as (_ & A2 & _). rewrite (proj2 (Nat.ltb_lt _ _) A2).
  destruct (Nat.eqb_spec (sl_arr (hkids s)) 0) as [Z|Z]; [reflexivity|]. cbn [negb andb].
  destruct (existsb _ secs) eqn:X; [|reflexivity]. exfalso. apply existsb_exists in X. destruct X as (s' & Hs & X). apply inb_in, in_arrs in X.
  destruct X as (b & t & Hb & Eb & Q). apply Z. apply (hwf_own h0 hw a b s t); auto. intros ->.
  assert (insideb b = true) by (apply insideb_in; eauto). congruence.
Qed.
Lemma common_swf : swf common.
Proof.
  split; [|split].
  - cbn [mn common]. intros a s. destruct (insideb a) eqn:I; [discriminate|]. intros E. exists (ha h0 (sl_arr (hkids s))).
    split; [now apply common_arr with a|]. now destruct (hwf_in h0 hw _ _ E) as (_ & _ & A3).
  - cbn [mn common]. intros a b s t. destruct (insideb a); [discriminate|]. destruct (insideb b); [discriminate|]. apply (hwf_own h0 hw).
  - cbn [ma common Nat.eqb negb andb]. destruct (hwf_nil h0 hw) as [A B]. rewrite (proj2 (Nat.ltb_lt _ _) B). now rewrite A.
Qed.
Lemma own_wf s : lwf (own s).
Proof.
  constructor; cbn [mn ma own].
  - intros a t. destruct (inb a _) eqn:I; [|discriminate]. intros E. destruct (hwf_in h0 hw _ _ E) as (_ & A2 & A3). destruct (hwf_nil h0 hw) as [Z _].
    destruct (hkids t) as [r k] eqn:Ek. cbn [sl_arr sl_len] in *. destruct (Nat.eqb_spec r 0) as [->|N].
    + left. rewrite Z in A3. cbn in A3. f_equal. lia.
    + right. cbn [negb andb]. rewrite (proj2 (inb_in _ _)); [eauto|]. apply in_arrs. exists a, t. rewrite Ek. apply inb_in in I. auto.
  - intros a b t u. destruct (inb a _); [|discriminate]. destruct (inb b _); [|discriminate]. apply (hwf_own h0 hw).
  - reflexivity.
Qed.
Lemma own_rep s n : under n (sc_node s) -> repr h0 n -> lrep (own s) n.
Proof.
  induction n as [n IH] using node_ind'. intros U RP. apply repr_eq in RP. destruct RP as [(t & E & Ft & K) Rk].
  apply lrep_intro with t (ha h0 (sl_arr (hkids t))); auto.
  - cbn [mn own]. rewrite (proj2 (inb_in _ _)); [exact E|now apply under_self].
  - destruct (hwf_in h0 hw _ _ E) as (_ & A2 & A3). destruct (hwf_nil h0 hw) as [Z _]. unfold arr_in.
    destruct (hkids t) as [r k] eqn:Ek. cbn [sl_arr sl_len] in *. destruct (Nat.eqb_spec r 0) as [->|N].
    + left. rewrite Z in *. cbn in A3. split; [f_equal; lia|reflexivity].
    + right. cbn [ma own]. destruct (Nat.eqb_spec r 0); [tauto|]. cbn [negb andb]. rewrite (proj2 (inb_in _ _)); [reflexivity|].
      apply in_arrs. exists (nid n), t. rewrite Ek. split; [now apply under_self|auto].
  - rewrite Forall_forall in *. intros k Hk. apply IH; auto. apply under_trans with n; [|exact U]. apply un_kid with k; [exact Hk|constructor].
Qed.
Lemma repr_path n n' : repr h0 n -> repr h0 n' -> nid n = nid n' -> npath n = npath n'.
Proof.
  intros A B E. apply repr_eq in A, B. destruct A as [(s & E1 & F1 & _) _], B as [(t & E2 & F2 & _) _].
  assert (s = t) by congruence. subst. now rewrite <- (proj1 F1), <- (proj1 F2).
Qed.
Lemma root_path_at s : In s secs -> root_path (nid (sc_node s)) = Some (npath (sc_node s)).
Proof.
  intros H. unfold root_path. destruct (find _ secs) as [s'|] eqn:E.
  - apply find_some in E. destruct E as [H' E]. apply Nat.eqb_eq in E. cbn. f_equal. apply repr_path; auto using sec_repr.
  - apply (find_none _ _ E) in H. now rewrite Nat.eqb_refl in H.
Qed.
Lemma root_path_some a p : root_path a = Some p -> exists s, In s secs /\ nid (sc_node s) = a /\ p = npath (sc_node s).
Proof.
  unfold root_path. destruct (find _ secs) as [s|] eqn:E; [|discriminate]. intros X. injection X as <-. apply find_some in E.
  destruct E as [H E]. apply Nat.eqb_eq in E. eauto.
Qed.
Lemma start : joint common asis root_path any owner h0.
Proof.
  destruct (hwf_nil h0 hw) as [Z0 Z1]. constructor.
  - exact Z1.
  - cbn [ma common]. intros r l. destruct (_ && _); [discriminate|]. destruct (Nat.ltb_spec r (na h0)); [|discriminate]. intros X. injection X as <-. auto.
  - cbn [mn common]. intros a s. destruct (insideb a); [discriminate|]. intros E. exists s. split; [exact E|]. split; [reflexivity|]. now apply (hwf_in h0 hw _ _ E).
  - intros a p X. apply root_path_some in X. destruct X as (s & Hs & <- & ->). pose proof (sec_repr s Hs) as RP. apply repr_eq in RP.
    destruct RP as [(t & E & Ft & _) _]. exists t. split; [exact E|]. split; [apply Ft|]. now apply (hwf_in h0 hw _ _ E).
  - intros i. exact I.
  - intros i a s. unfold owner. destruct (nth_error secs i) as [c|] eqn:Ei; [|discriminate]. cbn [mn own common].
    destruct (inb a _) eqn:X; [|discriminate]. intros E. split; [exact E|]. apply inb_in in X.
    rewrite (proj2 (insideb_in a)); [|exists c; split; [eapply nth_error_In; eauto|exact X]]. split; [reflexivity|]. now apply (hwf_in h0 hw _ _ E).
  - intros i r l. unfold owner. destruct (nth_error secs i) as [c|] eqn:Ei; [|discriminate]. cbn [ma own common].
    destruct (negb (r =? 0)) eqn:N; [|discriminate]. cbn [andb]. destruct (inb r _) eqn:X; [|discriminate]. intros Q. injection Q as <-.
    split; [reflexivity|]. pose proof X as X'. apply inb_in, in_arrs in X'. destruct X' as (a & s & Ha & E & <-). split; [|now apply (hwf_in h0 hw _ _ E)].
    replace (existsb _ secs) with true; [reflexivity|]. symmetry. apply existsb_exists. exists c. split; [eapply nth_error_In; eauto|exact X].
  - intros i j a s t N. unfold owner. destruct (nth_error secs i) as [c|] eqn:Ei; [|discriminate]. destruct (nth_error secs j) as [d|] eqn:Ej; [|discriminate].
    cbn [mn own]. destruct (inb a (ids (sc_node c))) eqn:X; [|discriminate]. destruct (inb a (ids (sc_node d))) eqn:Y; [|discriminate].
    intros _ _. apply inb_in in X, Y. eapply DJ; eauto.
  - intros i j r l m N. unfold owner. destruct (nth_error secs i) as [c|] eqn:Ei; [|discriminate]. destruct (nth_error secs j) as [d|] eqn:Ej; [|discriminate].
    cbn [ma own]. destruct (Nat.eqb_spec r 0) as [|Nr]; [discriminate|]. cbn [negb andb].
    destruct (inb r (arrs (sc_node c))) eqn:X; [|discriminate]. destruct (inb r (arrs (sc_node d))) eqn:Y; [|discriminate].
    intros _ _. apply inb_in, in_arrs in X, Y. destruct X as (a & s & Ha & Ea & Qa), Y as (b & t & Hb & Eb & Qb). apply Nr. rewrite <- Qa.
    apply (hwf_own h0 hw a b s t Ea Eb); [|congruence]. intros ->. exact (DJ i j c d b N Ei Ej Ha Hb).
  - intros a s E. destruct (insideb a) eqn:X.
    + right. apply insideb_in in X. destruct X as (c & Hc & X). apply In_nth_error in Hc. destruct Hc as [i Hi]. exists i. unfold owner. rewrite Hi. cbn.
      now rewrite (proj2 (inb_in _ _)).
    + left. exists s. cbn. now rewrite X.
Qed.
(** nodes outside all sections or at the top of one *)
Lemma edge n k : under n R -> insideb (nid n) = false -> In k (nkids n) -> insideb (nid k) = true ->
  exists s, In s secs /\ nid k = nid (sc_node s).
Proof.
  intros U I Hk X. apply insideb_in in X. destruct X as (s & Hs & X). exists s. split; [exact Hs|].
  destruct (under_parent R (sc_node s) n k nd (sec_under s Hs) U Hk X) as [Y|Y]; [exact Y|].
  assert (insideb (nid n) = true) by (apply insideb_in; eauto). congruence.
Qed.
Lemma edge_readable n k : under n R -> insideb (nid n) = false -> In k (nkids n) -> readable common root_path nothing (nid k) (npath k).
Proof.
  intros U I Hk. assert (Uk : under k R) by (apply under_trans with n; [apply un_kid with k; [exact Hk|constructor]|exact U]).
  assert (RK : repr h0 k) by (apply under_repr with (1 := Uk); apply T).
  destruct (insideb (nid k)) eqn:X.
  - destruct (edge n k U I Hk X) as (s & Hs & E). right. right. rewrite E, (root_path_at s Hs). f_equal. symmetry. apply repr_path; auto using sec_repr.
  - right. left. apply repr_eq in RK. destruct RK as [(t & E & Ft & _) _]. exists t. cbn. rewrite X. split; [exact E|apply Ft].
Qed.
Lemma sec_share C m : under (plug C m) R -> (forall a, In a (spine C) -> insideb a = false) -> root_path (nid m) = Some (npath m) ->
  cshare common root_path C (nid m) (npath m).
Proof.
  induction C as [|n l C IH r]; cbn [cshare spine]; intros U S P; [exact P|].
  assert (In0 : insideb (nid n) = false) by (apply S; now left). set (n' := plug (Down n l C r) m) in *.
  assert (E' : nid n' = nid n) by reflexivity. assert (Ek : nkids n' = l ++ plug C m :: r) by reflexivity.
  split; [|split].
  - assert (RP : repr h0 n') by (apply under_repr with (1 := U); apply T). pose proof RP as RP0. apply repr_eq in RP. destruct RP as [(t & E & Ft & K) _].
    exists t, (ha h0 (sl_arr (hkids t))). rewrite E' in E. split; [cbn; now rewrite In0|]. split; [apply Ft|]. split; [now apply common_arr with (nid n)|].
    pose proof (kids_len h0 _ t _ hw E K) as KL. rewrite map_length, Ek, app_length in KL. cbn [length] in KL. split; [exact KL|].
    unfold kids_of in K. rewrite K, Ek, map_app. cbn [map]. now rewrite cid_plug.
  - apply Forall_forall. intros k Hk. apply edge_readable with n'; auto. rewrite Ek. rewrite !in_app_iff in *. cbn. tauto.
  - apply IH; [|intros a Ha; apply S; now right|exact P]. apply under_trans with n'; [|exact U].
    apply un_kid with (plug C m); [|constructor]. rewrite Ek. apply in_app_iff. right. now left.
Qed.

(** every goroutine owns what is below its node *)
Lemma sec_owned s n0 : In s secs -> sec_run s = Ok n0 ->
  owns common asis root_path any
    (fun L' _ => exists n', noid n' = noid n0 /\ became root_path (own s) (sc_node s) L' n' (fun a => In a (ids (sc_node s))))
    (own s) (p_sets grow (nid R) (sc_job s)).
Proof.
  intros Hs E. pose proof (sec_plug s Hs) as Pl. replace (nid R) with (cid (sc_ctx s) (nid (sc_node s))) by (rewrite <- Pl; symmetry; apply cid_plug).
  apply sets_owned with (sc_node s); auto using own_wf, root_path_at.
  - apply common_swf.
  - apply own_rep; [constructor|now apply sec_repr].
  - apply under_nodup with R; [now apply sec_under|apply nd].
  - intros k a Hk Ha. destruct (root_path a) as [p|] eqn:Pa; [|reflexivity]. exfalso. apply root_path_some in Pa. destruct Pa as (s' & Hs' & <- & _).
    assert (Ha' : In (nid (sc_node s')) (ids (sc_node s))) by (rewrite ids_eq; right; apply in_flat_map; eauto).
    assert (s' = s) as -> by (apply (sec_same s' s (nid (sc_node s'))); auto; rewrite ids_eq; now left).
    assert (ND' : NoDup (ids (sc_node s))) by (apply under_nodup with R; [now apply sec_under|apply nd]).
    rewrite ids_eq in ND'. inversion ND' as [|? ? X _]; subst. apply X. apply in_flat_map. eauto.
  - apply wfn_cok. rewrite Pl. apply T.
  - apply sec_share; auto using root_path_at.
    + rewrite Pl. constructor.
    + intros a Ha. destruct (insideb a) eqn:X; [|reflexivity]. exfalso. apply insideb_in in X. destruct X as (s' & Hs' & X). exact (SPN s s' a Hs Hs' Ha X).
  - rewrite Forall_forall in SI. now apply SI.
Qed.

(** ** when all are done *)
Lemma grown_some l a x : grown_by l a = Some x -> exists s, In (s, x) l /\ nid (sc_node s) = a.
Proof.
  induction l as [|[s n] l IH]; cbn; [discriminate|]. unfold also. destruct (Nat.eqb_spec a (nid (sc_node s))) as [->|_].
  - intros E. injection E as ->. eauto.
  - intros E. destruct (IH E) as (s' & H & Q). eauto.
Qed.
Lemma grown_not l a s n : grown_by l a = None -> In (s, n) l -> nid (sc_node s) <> a.
Proof.
  induction l as [|[s' n'] l IH]; cbn; [easy|]. unfold also. destruct (Nat.eqb_spec a (nid (sc_node s'))) as [->|N]; [discriminate|].
  intros E [X|X]; [injection X as -> ->; congruence|auto].
Qed.
Lemma combine_nth_in {A B} (l : list A) : forall (l' : list B) x y, In (x, y) (combine l l') -> exists i, nth_error l i = Some x /\ nth_error l' i = Some y.
Proof.
  induction l as [|a l IH]; intros [|b l'] x y; cbn; try easy. intros [X|X].
  - injection X as -> ->. exists 0. auto.
  - destruct (IH l' x y X) as [i Hi]. exists (S i). exact Hi.
Qed.
Lemma combine_has {A B} (l : list A) : forall (l' : list B) x, length l' = length l -> In x l -> exists y, In (x, y) (combine l l').
Proof.
  induction l as [|a l IH]; intros [|b l'] x LN; cbn in *; try easy. intros [->|H]; [eauto|].
  destruct (IH l' x) as [y Hy]; auto. eauto.
Qed.
Section Done.
Variable LL : nat -> mine.
Variable h : heap.
Variable ns : list node.
Hypothesis J : joint common asis root_path any LL h.
Hypothesis LN : length ns = length secs.
Hypothesis GR : forall i s n, nth_error secs i = Some s -> nth_error ns i = Some n ->
  lwf (LL i) /\ lrep (LL i) n /\ NoDup (ids n) /\ nid n = nid (sc_node s).
Definition now_at : nat -> option node := grown_by (combine secs ns).
Lemma now_some a x : now_at a = Some x -> exists i s, nth_error secs i = Some s /\ nth_error ns i = Some x /\ nid (sc_node s) = a.
Proof. intros E. apply grown_some in E. destruct E as (s & H & <-). apply combine_nth_in in H. destruct H as (i & A & B). eauto. Qed.
Lemma now_none a s : now_at a = None -> In s secs -> nid (sc_node s) <> a.
Proof. intros E H. destruct (combine_has secs ns s LN H) as [y Hy]. exact (grown_not _ _ _ _ E Hy). Qed.
Lemma now_id n : nid (graft now_at n) = nid n.
Proof.
  rewrite graft_eq. destruct (now_at (nid n)) as [x|] eqn:E; [|reflexivity]. apply now_some in E. destruct E as (i & s & A & B & <-). now apply (GR i s x A B).
Qed.
Definition edgy (n : node) : Prop := insideb (nid n) = false \/ exists s, In s secs /\ nid n = nid (sc_node s).
Lemma edgy_none n : edgy n -> now_at (nid n) = None -> insideb (nid n) = false.
Proof. intros [X|(s & Hs & X)] E; [exact X|]. exfalso. apply (now_none _ s E Hs). now symmetry. Qed.
Lemma edgy_kid n k : under n R -> insideb (nid n) = false -> In k (nkids n) -> under k R /\ edgy k.
Proof.
  intros U I Hk. split; [apply under_trans with n; [apply un_kid with k; [exact Hk|constructor]|exact U]|].
  unfold edgy. destruct (insideb (nid k)) eqn:X; [right|now left]. now apply edge with n.
Qed.
Lemma done_repr n : under n R -> edgy n -> repr h (graft now_at n).
Proof.
  induction n as [n IH] using node_ind'. intros U D. rewrite graft_eq. destruct (now_at (nid n)) as [x|] eqn:G.
  - apply now_some in G. destruct G as (i & s & A & B & _). destruct (GR i s x A B) as (_ & LR & _).
    apply lrep_repr with (1 := proj2 (proj2 common_swf)) (2 := J) (i := i) (L := LL i); [|exact LR]. split; auto.
  - pose proof (edgy_none n D G) as I0. assert (RP : repr h0 n) by (apply under_repr with (1 := U); apply T). apply repr_eq in RP.
    destruct RP as [(t & E & Ft & K) _]. apply repr_eq. cbn [nid nkids set_kids]. split.
    + exists t. destruct (jo_node _ _ _ _ _ _ J (nid n) t) as (t' & E' & -> & _); [cbn; now rewrite I0|]. split; [exact E'|]. split; [exact Ft|].
      rewrite map_map. erewrite map_ext by apply now_id. rewrite <- K. unfold kids_of. f_equal.
      now apply (jo_arr _ _ _ _ _ _ J), common_arr with (nid n).
    + apply Forall_forall. intros k' Hk'. apply in_map_iff in Hk'. destruct Hk' as (k & <- & Hk). rewrite Forall_forall in IH.
      destruct (edgy_kid n k U I0 Hk) as [Uk Dk]. now apply IH.
Qed.
(** whose node an address is now *)
Lemma done_ids n a : under n R -> edgy n -> In a (ids (graft now_at n)) ->
  In a (ids n) /\ insideb a = false \/
  exists i s x, nth_error secs i = Some s /\ nth_error ns i = Some x /\ In (nid (sc_node s)) (ids n) /\ In a (ids x).
Proof.
  induction n as [n IH] using node_ind'. intros U D. rewrite graft_eq. destruct (now_at (nid n)) as [x|] eqn:G.
  - intros Ha. right. apply now_some in G. destruct G as (i & s & A & B & E). exists i, s, x. split; [exact A|]. split; [exact B|].
    split; [|exact Ha]. rewrite E, ids_eq. now left.
  - pose proof (edgy_none n D G) as I0. rewrite ids_eq. cbn [nid nkids set_kids]. intros [<-|Ha].
    + left. split; [|exact I0]. rewrite ids_eq. now left.
    + apply in_flat_map in Ha. destruct Ha as (k' & Hk' & Ha). apply in_map_iff in Hk'. destruct Hk' as (k & <- & Hk).
      destruct (edgy_kid n k U I0 Hk) as [Uk Dk]. rewrite Forall_forall in IH. destruct (IH k Hk Uk Dk Ha) as [[X Y]|(i & s & x & A & B & X & Y)].
      * left. split; [|exact Y]. rewrite ids_eq. right. apply in_flat_map. eauto.
      * right. exists i, s, x. split; [exact A|]. split; [exact B|]. split; [|exact Y]. rewrite ids_eq. right. apply in_flat_map. eauto.
Qed.
Lemma done_shared i s x a : nth_error secs i = Some s -> nth_error ns i = Some x -> In a (ids x) -> In a (ids R) -> insideb a = true.
Proof.
  intros A B Ha HR. destruct (insideb a) eqn:X; [reflexivity|]. exfalso. destruct (GR i s x A B) as (_ & LR & _).
  destruct (lrep_dom _ _ LR a Ha) as [t Et]. destruct (jo_mn _ _ _ _ _ _ J i a t Et) as (_ & N & _). cbn in N. rewrite X in N.
  destruct T as (_ & RP & _). destruct (repr_dom h0 R RP a HR) as [u Hu]. congruence.
Qed.
Lemma done_nodup n : under n R -> edgy n -> NoDup (ids (graft now_at n)).
Proof.
  induction n as [n IH] using node_ind'. intros U D. rewrite graft_eq. destruct (now_at (nid n)) as [x|] eqn:G.
  - apply now_some in G. destruct G as (i & s & A & B & _). now apply (GR i s x A B).
  - pose proof (edgy_none n D G) as I0. assert (ND : NoDup (ids n)) by (apply under_nodup with R; [exact U|apply nd]).
    rewrite ids_eq. cbn [nid nkids set_kids]. constructor.
    + intros Ha. apply in_flat_map in Ha. destruct Ha as (k' & Hk' & Ha). apply in_map_iff in Hk'. destruct Hk' as (k & <- & Hk).
      destruct (edgy_kid n k U I0 Hk) as [Uk Dk]. destruct (done_ids k _ Uk Dk Ha) as [[X _]|(i & s & x & A & B & X & Y)].
      * rewrite ids_eq in ND. inversion ND as [|? ? N _]; subst. apply N. apply in_flat_map. eauto.
      * assert (insideb (nid n) = true) by (apply (done_shared i s x); auto; now apply under_self). congruence.
    + rewrite ids_eq in ND. inversion ND as [|? ? _ ND']; subst. clear ND.
      assert (KS : forall k, In k (nkids n) -> under k R /\ edgy k /\ NoDup (ids (graft now_at k))).
      { intros k Hk. destruct (edgy_kid n k U I0 Hk) as [Uk Dk]. rewrite Forall_forall in IH. auto. }
      clear IH. revert KS ND'. generalize (nkids n). induction l as [|k l IHl]; intros KS ND'; cbn [map flat_map] in *; [constructor|].
      destruct (KS k (or_introl eq_refl)) as (Uk & Dk & Nk). apply NoDup_app_intro; [exact Nk| |].
      * apply IHl; [intros c Hc; apply KS; now right|]. now apply NoDup_app_remove_l in ND'.
      * intros a Ha Hb. apply in_flat_map in Hb. destruct Hb as (c' & Hc' & Hb). apply in_map_iff in Hc'. destruct Hc' as (c & <- & Hc).
        destruct (KS c (or_intror Hc)) as (Uc & Dc & _).
        assert (DIS : forall b, In b (ids k) -> In b (ids c) -> False).
        { intros b Hk Hb'. apply (NoDup_app_disjoint _ _ ND' b Hk). apply in_flat_map. eauto. }
        destruct (done_ids k a Uk Dk Ha) as [[X X']|(i & s & x & A & B & X & Y)], (done_ids c a Uc Dc Hb) as [[Z Z']|(j & s' & x' & A' & B' & Z & Y')].
        -- eauto.
        -- assert (insideb a = true) by (apply (done_shared j s' x'); auto; now apply under_ids with k). congruence.
        -- assert (insideb a = true) by (apply (done_shared i s x); auto; now apply under_ids with c). congruence.
        -- destruct (Nat.eq_dec i j) as [<-|N].
           ++ assert (s' = s) as -> by congruence. eauto.
           ++ destruct (GR i s x A B) as (_ & LR & _), (GR j s' x' A' B') as (_ & LR' & _).
              destruct (lrep_dom _ _ LR a Y) as [t Et], (lrep_dom _ _ LR' a Y') as [u Eu]. exact (jo_dn _ _ _ _ _ _ J i j a t u N Et Eu).
Qed.
Lemma edgy_top : edgy R.
Proof.
  unfold edgy. destruct (insideb (nid R)) eqn:X; [right|now left]. apply insideb_in in X. destruct X as (s & Hs & X). exists s. split; [exact Hs|].
  pose proof (sec_under s Hs) as U. inversion U as [|R0 k Hk Uk]; subst; [congruence|]. exfalso.
  pose proof nd as ND. rewrite ids_eq in ND. inversion ND as [|? ? N _]; subst. apply N. apply in_flat_map. exists k. split; [exact Hk|].
  now apply under_ids with (sc_node s).
Qed.
Lemma done_tree t' : wf_tr t' -> noid (root t') = noid (graft now_at R) -> (forall i, length secs <= i -> LL i = nothing) ->
  tree_in h (graft now_at R).
Proof.
  intros W E NO. assert (H : hwf h).
  { apply (joint_hwf _ _ _ _ LL h) with (3 := J).
    - intros a s t ->. reflexivity.
    - exact common_swf.
    - intros i. destruct (Nat.lt_ge_cases i (length secs)) as [L|L]; [|rewrite NO by exact L; apply lwf_nothing].
      destruct (nth_error secs i) as [s|] eqn:A; [|apply nth_error_None in A; lia].
      destruct (nth_error ns i) as [x|] eqn:B; [|apply nth_error_None in B; lia]. now apply (GR i s x A B). }
  assert (RP : repr h (graft now_at R)) by (apply done_repr; [constructor|apply edgy_top]).
  split; [exact H|]. split; [exact RP|]. split; [apply noid_root with (root t'); [exact E|apply W]|]. split.
  - apply done_nodup; [constructor|apply edgy_top].
  - now apply repr_alloc.
Qed.
End Done.

Lemma secs_nodup : NoDup secs.
Proof.
  apply NoDup_nth_error. intros i j Hi E. destruct (nth_error secs i) as [s|] eqn:A; [|apply nth_error_None in A; lia].
  destruct (Nat.eq_dec i j) as [|N]; [auto|]. exfalso. apply (DJ i j s s (nid (sc_node s)) N); auto; rewrite ids_eq; now left.
Qed.
(** whatever the order in which they are done one after the other *)
Lemma sections_race sch secs' : Permutation secs secs' ->
  let out := schedule sch (map (fun s => p_sets grow (nid R) (sc_job s)) secs) h0 in
  (forall p, In p (fst out) -> p <> Die /\ p <> Spin) /\
  (Forall (eq (Ret tt)) (fst out) -> exists R' t', tree_in (snd out) R' /\ nid R' = nid R /\
     t_sets (concat (map sc_job secs')) (Tr R (nn h0)) = Ok t' /\ wf_tr t' /\ noid R' = noid (root t')).
Proof.
  intros PM out. assert (IN : forall s, In s (rev secs') <-> In s secs).
  { intros s. rewrite <- in_rev. split; apply Permutation_in; [now symmetry|exact PM]. }
  destruct (seq_sections R (nn h0)) with (secs := rev secs') as (ns0 & t' & E1 & E2 & W & E3).
  { apply T. }
  { apply Forall_forall. intros s Hs. rewrite Forall_forall in SI. now apply SI, IN. }
  { assert (AP : forall s s', In s secs -> In s' secs -> s <> s' -> sec_apart s s').
    { intros s s' Hs Hs' N. split; intros X.
      - apply (SPN s' s _ Hs' Hs X). rewrite ids_eq. now left.
      - apply N. apply (sec_same s s' (nid (sc_node s))); auto. rewrite ids_eq. now left. }
    apply pairs_nodup.
    - apply NoDup_rev. apply (Permutation_NoDup PM secs_nodup).
    - intros s s' Hs Hs' N. rewrite IN in Hs, Hs'. split; apply AP; auto. }
  rewrite rev_involutive in E2.
  assert (LN0 : length ns0 = length (rev secs')) by (apply (f_equal (@length _)) in E1; rewrite !map_length in E1; congruence).
  assert (RUN : forall s n, In (s, n) (combine (rev secs') ns0) -> sec_run s = Ok n).
  { intros s n H. apply combine_nth_in in H. destruct H as (i & A & B). apply (f_equal (fun l => nth_error l i)) in E1.
    rewrite !nth_error_map, A, B in E1. cbn in E1. congruence. }
  set (Q := fun s (L' : mine) (_ : unit) => exists n0 n', sec_run s = Ok n0 /\ noid n' = noid n0 /\
    became root_path (own s) (sc_node s) L' n' (fun a => In a (ids (sc_node s)))).
  assert (SD : side common asis root_path any (map Q secs) (fst out) (snd out)).
  { apply schedule_side. exists owner. split; [exact start|]. split; [now rewrite !map_length|]. split.
    - intros i. rewrite map_length. intros L. unfold owner. now rewrite (proj2 (nth_error_None _ _) L).
    - intros i q p. rewrite !nth_error_map. unfold owner. destruct (nth_error secs i) as [s|] eqn:A; [|discriminate]. cbn [option_map].
      intros X Y. injection X as <-. injection Y as <-. assert (Hs : In s secs) by (eapply nth_error_In; eauto).
      destruct (combine_has (rev secs') ns0 s LN0) as [n0 H0]; [now apply IN|]. apply RUN in H0.
      apply owns_mono with (1 := sec_owned s n0 Hs H0). intros L' x (n' & B1 & B2). exists n0, n'. auto. }
  split; [intros p; apply side_alive with (1 := SD)|]. intros FIN.
  assert (LP : length (fst out) = length secs) by (destruct SD as (LL & _ & LN & _); now rewrite map_length in LN).
  apply side_ret in SD. destruct SD as (LL & J & NO & F). rewrite LP in NO.
  destruct (choose_list secs (fun i s n => exists n0, sec_run s = Ok n0 /\ noid n = noid n0 /\
    became root_path (own s) (sc_node s) (LL i) n (fun a => In a (ids (sc_node s))))) as (ns & LN & G).
  { intros i s A. destruct (nth_error (fst out) i) as [p|] eqn:B.
    - assert (p = Ret tt) as -> by (rewrite Forall_forall in FIN; symmetry; apply FIN; eapply nth_error_In; eauto).
      destruct (F i (Q s) tt) as (n0 & n' & H); [now rewrite nth_error_map, A|exact B|]. exists n', n0. exact H.
    - apply nth_error_None in B. assert (i < length secs) by (apply nth_error_Some; congruence). lia. }
  assert (GR : forall i s n, nth_error secs i = Some s -> nth_error ns i = Some n ->
    lwf (LL i) /\ lrep (LL i) n /\ NoDup (ids n) /\ nid n = nid (sc_node s)).
  { intros i s n A B. destruct (G i s n A B) as (n0 & _ & _ & [B1 B2 B3 B4 _ _]). auto. }
  assert (NE : noid (root t') = noid (graft (now_at ns) R)).
  { rewrite E3. apply graft_same. intros a. destruct (grown_by (combine (rev secs') ns0) a) as [x|] eqn:X.
    - apply grown_some in X. destruct X as (s & X & <-). pose proof (RUN _ _ X) as RS. apply in_combine_l in X. rewrite IN in X.
      destruct (now_at ns (nid (sc_node s))) as [y|] eqn:Y.
      + apply now_some in Y. destruct Y as (i & s' & A & B & E). assert (s' = s) as ->.
        { apply (sec_same s' s (nid (sc_node s))); [eapply nth_error_In; eauto|exact X| |]; [rewrite <- E|]; rewrite ids_eq; now left. }
        destruct (G i s y A B) as (n0 & R0 & N0 & _). congruence.
      + exact (now_none ns LN _ s Y X eq_refl).
    - destruct (now_at ns a) as [y|] eqn:Y; [|exact I]. apply now_some in Y. destruct Y as (i & s & A & B & <-).
      assert (Hs : In s (rev secs')) by (apply IN; eapply nth_error_In; eauto). destruct (combine_has (rev secs') ns0 s LN0 Hs) as [z Hz].
      exact (grown_not _ _ _ _ X Hz eq_refl). }
  exists (graft (now_at ns) R), t'. split; [now apply done_tree with LL t'|]. split; [now apply now_id with LL|]. auto.
Qed.
End Race.

(** ** sections by their keys *)
Lemma ents_plug C : forall pre m e, In e (ents (pre ++ cpre C) m) -> In e (ents pre (plug C m)).
Proof.
  induction C as [|n l C IH r]; intros pre m e; cbn [cpre plug]; [now rewrite app_nil_r|]. rewrite app_assoc. intros H. rewrite ents_eq. right.
  cbn [nkids set_kids npath]. apply in_flat_map. exists (plug C m). split; [apply in_app_iff; right; now left|]. now apply IH.
Qed.
Lemma ents_of_id n : forall pre a, In a (ids n) -> exists z x, In (pre ++ npath n ++ z, x) (ents pre n) /\ nid x = a.
Proof.
  induction n as [n IH] using node_ind'. intros pre a. rewrite ids_eq. intros [<-|H].
  - exists [], n. split; [|reflexivity]. rewrite ents_eq, app_nil_r. now left.
  - apply in_flat_map in H. destruct H as (k & Hk & Ha). rewrite Forall_forall in IH. destruct (IH k Hk (pre ++ npath n) a Ha) as (z & x & Hx & E).
    exists (npath k ++ z), x. split; [|exact E]. rewrite ents_eq. right. apply in_flat_map. exists k. split; [exact Hk|]. now rewrite app_assoc.
Qed.
Lemma ents_of_spine C : forall pre m a, In a (spine C) -> exists y z x, In (pre ++ y, x) (ents pre (plug C m)) /\ nid x = a /\ cpre C = y ++ z.
Proof.
  induction C as [|n l C IH r]; intros pre m a; cbn [spine]; [easy|]. intros [<-|H].
  - exists (npath n), (cpre C), (plug (Down n l C r) m). split; [rewrite ents_eq; now left|]. auto.
  - destruct (IH (pre ++ npath n) m a H) as (y & z & x & Hx & E & Q). exists (npath n ++ y), z, x. split; [|split; [exact E|]].
    + rewrite ents_eq. right. cbn [nkids set_kids npath plug]. apply in_flat_map. exists (plug C m).
      split; [apply in_app_iff; right; now left|]. now rewrite app_assoc.
    + cbn [cpre]. rewrite Q. now rewrite app_assoc.
Qed.
Lemma prefixes_compare {A} (a b : list A) : forall x y, a ++ x = b ++ y -> (exists z, b = a ++ z) \/ exists z, a = b ++ z.
Proof.
  revert b. induction a as [|c a IH]; intros [|d b] x y E; cbn in *; [left; now exists []|left; now exists (d :: b)|right; now exists (c :: a)|].
  injection E as <- E. destruct (IH b x y E) as [[z ->]|[z ->]]; [left|right]; now exists z.
Qed.
(** [k] is the key of a node and [job] sets keys at or below it *)
Definition below_node (R : node) (g : key_t * list (gostring * gval)) : Prop :=
  (exists m, In (fst g, m) (ents [] R)) /\ forall k v, In (k, v) (snd g) -> exists rest, runes k = fst g ++ rest.
(** none of the keys begins with another *)
Definition separate (gs : list (key_t * list (gostring * gval))) : Prop :=
  forall i j g g', i <> j -> nth_error gs i = Some g -> nth_error gs j = Some g' -> ~ exists z, fst g' = fst g ++ z.
Lemma sections_of R gs : Forall (below_node R) gs -> exists secs, Forall (sec_in R) secs /\
  map (fun s => (cpre (sc_ctx s) ++ npath (sc_node s), sc_job s)) secs = gs.
Proof.
  induction gs as [|[k job] gs IH]; intros F.
  - exists []. auto.
  - inversion F as [|? ? [[m Hm] Hj] F']; subst. destruct (IH F') as (secs & S1 & S2). apply ents_ctx in Hm. destruct Hm as (C & Ep & Ek). cbn [fst app snd] in Ek, Hj.
    exists (Sec C m job :: secs). split; [constructor; [|exact S1]|cbn [map sc_ctx sc_node sc_job]; rewrite S2, Ek; reflexivity]. split; [exact Ep|]. cbn. intros k' v' H.
    destruct (Hj k' v' H) as [rest Er]. exists rest. rewrite Er, Ek. now rewrite <- app_assoc.
Qed.
Theorem race_sections grow h0 R gs gs' sch : tree_in h0 R -> Forall (below_node R) gs -> separate gs -> Permutation gs gs' ->
  let out := schedule sch (map (fun g => p_sets grow (nid R) (snd g)) gs) h0 in
  (forall p, In p (fst out) -> p <> Die /\ p <> Spin) /\
  (Forall (eq (Ret tt)) (fst out) -> exists R' t', tree_in (snd out) R' /\ nid R' = nid R /\
     t_sets (concat (map snd gs')) (Tr R (nn h0)) = Ok t' /\ wf_tr t' /\ noid R' = noid (root t')).
Proof.
  intros T F S PM. destruct (sections_of R gs F) as (secs & SI & E). subst gs.
  apply Permutation_sym, Permutation_map_inv in PM. destruct PM as (secs' & -> & PM). rewrite !map_map. cbn [snd].
  assert (UQ : forall a x x' k k', In (k, x) (ents [] R) -> In (k', x') (ents [] R) -> nid x = a -> nid x' = a -> k = k').
  { intros a x x' k k' H H' E E'. destruct T as (_ & _ & W). destruct W as [_ I]. cbn in I.
    apply (ids_inj _ _ k (info_of x) k' (info_of x') I); [apply in_map_iff; exists (k, x); auto|apply in_map_iff; exists (k', x'); auto|].
    destruct x, x'. cbn in *. congruence. }
  assert (AT : forall s a, In s secs -> In a (ids (sc_node s)) -> exists z x, In (cpre (sc_ctx s) ++ npath (sc_node s) ++ z, x) (ents [] R) /\ nid x = a).
  { intros s a Hs Ha. destruct (ents_of_id (sc_node s) (cpre (sc_ctx s)) a Ha) as (z & x & Hx & Ex). exists z, x. split; [|exact Ex].
    rewrite Forall_forall in SI. rewrite <- (proj1 (SI s Hs)). apply ents_plug. exact Hx. }
  assert (SEP : forall i j s s', i <> j -> nth_error secs i = Some s -> nth_error secs j = Some s' ->
    ~ exists z, cpre (sc_ctx s') ++ npath (sc_node s') = (cpre (sc_ctx s) ++ npath (sc_node s)) ++ z).
  { intros i j s s' N A B. eapply (S i j (_, _) (_, _) N); rewrite nth_error_map; [rewrite A|rewrite B]; reflexivity. }
  apply sections_race; auto.
  - intros i j s s' a N A B Ha Hb. destruct (AT s a) as (z & x & Hx & Ex); [eapply nth_error_In; eauto|exact Ha|].
    destruct (AT s' a) as (z' & x' & Hx' & Ex'); [eapply nth_error_In; eauto|exact Hb|]. pose proof (UQ a x x' _ _ Hx Hx' Ex Ex') as Q.
    rewrite !app_assoc in Q. apply prefixes_compare in Q. destruct Q as [Q|Q]; [apply (SEP i j s s' N A B Q)|apply (SEP j i s' s (not_eq_sym N) B A Q)].
  - intros s s' a Hs Hs' Ha Hb. apply In_nth_error in Hs as A. apply In_nth_error in Hs' as B. destruct A as [i A], B as [j B].
    destruct (Nat.eq_dec i j) as [<-|N].
    + assert (s' = s) as -> by congruence. rewrite Forall_forall in SI. destruct (SI s Hs) as [Pl _].
      apply (nodup_plug (sc_ctx s) (sc_node s)) with a; [rewrite Pl; now apply tree_in_nodup with h0|now apply spine_around|exact Hb].
    + destruct (AT s' a Hs' Hb) as (z & x & Hx & Ex). rewrite Forall_forall in SI. destruct (SI s Hs) as [Pl _].
      destruct (ents_of_spine (sc_ctx s) [] (sc_node s) a Ha) as (y & z' & x' & Hx' & Ex' & Q). rewrite Pl in Hx'. cbn [app] in Hx'.
      pose proof (UQ a x x' _ _ Hx Hx' Ex Ex') as K. apply (SEP j i s' s (not_eq_sym N) B A). exists (z ++ z' ++ npath (sc_node s)).
      rewrite Q, <- K. now rewrite <- !app_assoc.
Qed.
(** all come to an end *)
Theorem sections_end grow h0 R gs f : tree_in h0 R -> Forall (below_node R) gs -> separate gs -> fair (length gs) f ->
  exists n, Forall (eq (Ret tt)) (fst (schedule (map f (seq 0 n)) (map (fun g => p_sets grow (nid R) (snd g)) gs) h0)).
Proof.
  intros T F S FR. destruct (all_end f (map (fun g => p_sets grow (nid R) (snd g)) gs) h0) as [n H]; [now rewrite map_length|].
  exists n. unfold after in H. destruct (race_sections grow h0 R gs gs (map f (seq 0 n)) T F S (Permutation_refl _)) as [AL _].
  rewrite Forall_forall in *. intros p Hp. specialize (H p Hp). specialize (AL p Hp).
  destruct p as [[]| | |a k|a g k|s k|r j k|r j x k|r k|l k]; cbn in H; try tauto; destruct AL; congruence.
Qed.
