(** Programs that read one part of the memory, overwrite values there, and do what they want with nodes and arrays that
    they own or allocate: goroutines that own disjoint parts do not disturb one another. *)
From Coq Require Import List NArith Bool Arith Lia.
From Verif Require Import GoStr Utf8 Node NodeWf InsertProofs MatchProofs Trie TreeOps Spec Refine Climb ApiRefine Reach Effect
  Derived Derived2 Derived3 Derived4 Derived5 Heap HeapProofs HeapWalk HeapRace HeapGet HeapGetProofs.
Import ListNotations.
Open Scope nat_scope.

(** ** parts of a memory *)
Record mine := Mine { mn : nat -> option hnode; ma : nat -> option (list nat) }.
Definition nothing : mine := Mine (fun _ => None) (fun _ => None).
Definition addn (L : mine) (a : nat) (s : hnode) : mine := Mine (fun b => if b =? a then Some s else mn L b) (ma L).
Definition adda (L : mine) (r : nat) (l : list nat) : mine := Mine (mn L) (fun q => if q =? r then Some l else ma L q).
(** slices lie within own arrays, no two nodes share one *)
Record lwf (L : mine) : Prop := {
  lwf_in : forall a s, mn L a = Some s ->
    hkids s = Sl 0 0 \/ exists l, ma L (sl_arr (hkids s)) = Some l /\ sl_len (hkids s) <= length l;
  lwf_own : forall a b s t, mn L a = Some s -> mn L b = Some t -> a <> b ->
    sl_arr (hkids s) = sl_arr (hkids t) -> sl_arr (hkids s) = 0;
  lwf_nil : ma L 0 = None }.
Lemma lwf_nothing : lwf nothing.
Proof. constructor; cbn; congruence. Qed.
(** changes that keep this *)
Lemma lwf_new L a n : lwf L -> mn L a = None -> hkids n = Sl 0 0 -> lwf (addn L a n).
Proof.
  intros LW N K. constructor; cbn.
  - intros b s. destruct (Nat.eqb_spec b a) as [->|D]; intros X; [injection X as <-; auto|now apply (lwf_in _ LW b)].
  - intros b c s t. destruct (Nat.eqb_spec b a) as [->|Nb]; intros X; destruct (Nat.eqb_spec c a) as [->|Nc]; intros X' D Q; try tauto.
    + injection X as <-. now rewrite K.
    + injection X' as <-. now rewrite Q, K.
    + now apply (lwf_own _ LW b c s t).
  - apply LW.
Qed.
Lemma lwf_upd L a s t : lwf L -> mn L a = Some s -> hkids t = hkids s -> lwf (addn L a t).
Proof.
  intros LW E K. constructor; cbn.
  - intros b u. destruct (Nat.eqb_spec b a) as [->|Nb]; intros X; [|now apply (lwf_in _ LW b)]. injection X as <-. rewrite K. apply (lwf_in _ LW a _ E).
  - intros b c u v. destruct (Nat.eqb_spec b a) as [->|Nb]; intros X; destruct (Nat.eqb_spec c a) as [->|Nc]; intros X' D Q; try tauto.
    + injection X as <-. rewrite K in *. apply (lwf_own _ LW a c s v E X' D Q).
    + injection X' as <-. rewrite K in *. apply (lwf_own _ LW b a u s X E D Q).
    + now apply (lwf_own _ LW b c u v).
  - apply LW.
Qed.
Lemma lwf_arr L r l : lwf L -> r <> 0 -> ma L r = None -> lwf (adda L r l).
Proof.
  intros LW R0 N. constructor; cbn; try apply LW.
  - intros a s X. destruct (lwf_in _ LW a s X) as [Y|(l' & Y1 & Y2)]; [auto|right].
    destruct (Nat.eqb_spec (sl_arr (hkids s)) r) as [Q1|Q1]; [|eauto]. congruence.
  - destruct r; [congruence|apply LW].
Qed.
Lemma lwf_put L r l i x : lwf L -> ma L r = Some l -> lwf (adda L r (put l i x)).
Proof.
  intros LW E. constructor; cbn; try apply LW.
  - intros a s X. destruct (lwf_in _ LW a s X) as [Y|(l' & Y1 & Y2)]; [auto|right].
    destruct (Nat.eqb_spec (sl_arr (hkids s)) r) as [Q1|Q1]; [|eauto]. eexists. split; [reflexivity|]. rewrite put_length. congruence.
  - destruct r; [|apply LW]. now rewrite (lwf_nil _ LW) in E.
Qed.
(** a node gets a slice of an array that no other node has *)
Lemma lwf_kids L a n r k l : lwf L -> (forall b s, mn L b = Some s -> b <> a -> sl_arr (hkids s) <> r) ->
  ma L r = Some l -> k <= length l -> hkids n = Sl r k -> lwf (addn L a n).
Proof.
  intros LW O E K Hk. constructor; cbn.
  - intros b s. destruct (Nat.eqb_spec b a) as [->|Nb]; intros X; [|now apply (lwf_in _ LW b)]. injection X as <-. right. rewrite Hk. cbn. eauto.
  - intros b c s t. destruct (Nat.eqb_spec b a) as [->|Nb]; intros X; destruct (Nat.eqb_spec c a) as [->|Nc]; intros X' D Q; try tauto.
    + injection X as <-. rewrite Hk in Q. cbn in Q. destruct (O c t X' Nc). congruence.
    + injection X' as <-. rewrite Hk in Q. cbn in Q. destruct (O b s X Nb Q).
    + now apply (lwf_own _ LW b c s t).
  - apply LW.
Qed.

(** [L'] has what [L] has *)
Definition within (L L' : mine) : Prop :=
  (forall a s, mn L a = Some s -> mn L' a = Some s) /\ (forall r l, ma L r = Some l -> ma L' r = Some l).
(** what [L] has at addresses that [B] does not know *)
Definition news (B L : mine) : mine :=
  Mine (fun a => match mn B a with Some _ => None | None => mn L a end)
       (fun r => match ma B r with Some _ => None | None => ma L r end).
Lemma within_refl L : within L L.
Proof. split; auto. Qed.
Lemma within_trans L M K : within L M -> within M K -> within L K.
Proof. intros [A B] [C D]. split; auto. Qed.

Section Owns.
Variable sh : mine.                             (* what all goroutines may read *)
Variable var : nat -> hnode -> hnode -> Prop.   (* what may become of its nodes, by address *)
Variable pth : nat -> option (list rune).       (* nodes of others of which all may read the path *)
Variable inv : mine -> Prop.                    (* what every goroutine keeps up, access by access, for what it owns *)
Inductive owns {A} (Q : mine -> A -> Prop) : mine -> prog A -> Prop :=
| ow_ret L x : Q L x -> owns Q L (Ret x)
| ow_node L a s k : mn sh a = Some s ->
    (forall t, var a s t -> owns Q L (k t)) -> owns Q L (GetN a k)
| ow_path L a p k : pth a = Some p -> (forall t, hpath t = p -> owns Q L (k t)) -> owns Q L (GetN a k)
| ow_elem L r i l c k : ma sh r = Some l -> nth_error l i = Some c -> owns Q L (k c) -> owns Q L (GetA r i k)
| ow_cap L r l k : ma sh r = Some l -> owns Q L (k (length l)) -> owns Q L (CapA r k)
| ow_set L a s f k : mn sh a = Some s -> (forall t, var a s t -> var a s (f t) /\ hpath (f t) = hpath t) -> owns Q L k ->
    owns Q L (UpdN a f k)
| ow_mynode L a s k : mn L a = Some s -> owns Q L (k s) -> owns Q L (GetN a k)
| ow_myelem L r i l c k : ma L r = Some l -> nth_error l i = Some c -> owns Q L (k c) -> owns Q L (GetA r i k)
| ow_mycap L r l k : ma L r = Some l -> owns Q L (k (length l)) -> owns Q L (CapA r k)
| ow_myset L a s f k : mn L a = Some s -> (forall p, pth a = Some p -> hpath (f s) = p) -> inv (addn L a (f s)) -> owns Q (addn L a (f s)) k -> owns Q L (UpdN a f k)
| ow_myput L r l i x k : ma L r = Some l -> i < length l -> inv (adda L r (put l i x)) -> owns Q (adda L r (put l i x)) k ->
    owns Q L (SetA r i x k)
| ow_new L n k : (forall a, mn L a = None -> mn sh a = None -> pth a = None -> inv (addn L a n)) ->
    (forall a, mn L a = None -> mn sh a = None -> pth a = None -> owns Q (addn L a n) (k a)) -> owns Q L (NewN n k)
| ow_newa L l k : (forall r, ma L r = None -> ma sh r = None -> r <> 0 -> inv (adda L r l)) ->
    (forall r, ma L r = None -> ma sh r = None -> r <> 0 -> owns Q (adda L r l) (k r)) -> owns Q L (NewA l k).

Lemma owns_bind {A B} (Q : mine -> A -> Prop) (Q' : mine -> B -> Prop) L p q :
  owns Q L p -> (forall L' x, Q L' x -> owns Q' L' (q x)) -> owns Q' L (seqp p q).
Proof.
  intros P H. induction P as [L x HQ|L a s k E _ IH|L a p k E _ IH|L r i l c k E E' _ IH|L r l k E _ IH|L a s f k E Y _ IH|
    L a s k E _ IH|L r i l c k E E' _ IH|L r l k E _ IH|L a s f k E PT W _ IH|L r l i x k E I W _ IH|L n k W _ IH|L l k W _ IH]; cbn [seqp]; auto.
  - apply ow_node with s; auto.
  - apply ow_path with p; auto.
  - apply ow_elem with l c; auto.
  - apply ow_cap with l; auto.
  - apply ow_set with s; auto.
  - apply ow_mynode with s; auto.
  - apply ow_myelem with l c; auto.
  - apply ow_mycap with l; auto.
  - apply ow_myset with s; auto.
  - apply ow_myput with l; auto.
  - apply ow_new; auto.
  - apply ow_newa; auto.
Qed.
Lemma owns_mono {A} (Q Q' : mine -> A -> Prop) L p : owns Q L p -> (forall L' x, Q L' x -> Q' L' x) -> owns Q' L p.
Proof.
  intros P H. induction P as [L x HQ|L a s k E _ IH|L a p k E _ IH|L r i l c k E E' _ IH|L r l k E _ IH|L a s f k E Y _ IH|
    L a s k E _ IH|L r i l c k E E' _ IH|L r l k E _ IH|L a s f k E PT W _ IH|L r l i x k E I W _ IH|L n k W _ IH|L l k W _ IH].
  - constructor. auto.
  - apply ow_node with s; auto.
  - apply ow_path with p; auto.
  - apply ow_elem with l c; auto.
  - apply ow_cap with l; auto.
  - apply ow_set with s; auto.
  - apply ow_mynode with s; auto.
  - apply ow_myelem with l c; auto.
  - apply ow_mycap with l; auto.
  - apply ow_myset with s; auto.
  - apply ow_myput with l; auto.
  - apply ow_new; auto.
  - apply ow_newa; auto.
Qed.

(** ** memory while such programs run: [LL i] is what goroutine [i] has *)
Record joint (LL : nat -> mine) (h : heap) : Prop := {
  jo_pos : 0 < na h;
  jo_arr : forall r l, ma sh r = Some l -> ha h r = l /\ r < na h;
  jo_node : forall a s, mn sh a = Some s ->
    exists t, hn h a = Some t /\ var a s t /\ a < nn h;
  jo_pth : forall a p, pth a = Some p -> exists t, hn h a = Some t /\ hpath t = p /\ a < nn h;
  jo_inv : forall i, inv (LL i);
  jo_mn : forall i a s, mn (LL i) a = Some s -> hn h a = Some s /\ mn sh a = None /\ a < nn h;
  jo_ma : forall i r l, ma (LL i) r = Some l -> ha h r = l /\ ma sh r = None /\ r < na h;
  jo_dn : forall i j a s t, i <> j -> mn (LL i) a = Some s -> mn (LL j) a = Some t -> False;
  jo_da : forall i j r l m, i <> j -> ma (LL i) r = Some l -> ma (LL j) r = Some m -> False;
  jo_all : forall a s, hn h a = Some s -> (exists t, mn sh a = Some t) \/ exists i, mn (LL i) a = Some s }.
Definition upl (LL : nat -> mine) (i : nat) (L : mine) : nat -> mine := fun j => if j =? i then L else LL j.
Lemma upl_same LL i L : upl LL i L i = L.
Proof. unfold upl. now rewrite Nat.eqb_refl. Qed.

(** a value or a bit of the shared part is overwritten *)
Lemma joint_write LL h a s t f : joint LL h -> mn sh a = Some s -> hn h a = Some t ->
  var a s (f t) -> hpath (f t) = hpath t -> joint LL (set_node h a (f t)).
Proof.
  intros J E Et AL D. constructor; cbn; try apply J.
  - intros b sb Eb. destruct (Nat.eqb_spec b a) as [->|N]; [|now apply (jo_node _ _ J)].
    assert (sb = s) as -> by congruence. destruct (jo_node _ _ J a s E) as (_ & _ & _ & LT). eauto.
  - intros b p Eb. destruct (jo_pth _ _ J b p Eb) as (u & U1 & U2 & U3). destruct (Nat.eqb_spec b a) as [->|N]; [|eauto].
    exists (f t). split; [auto|]. split; [congruence|exact U3].
  - intros i b sb Eb. destruct (jo_mn _ _ J i b sb Eb) as (A1 & A2 & A3). destruct (Nat.eqb_spec b a) as [->|N]; [congruence|auto].
  - intros b sb. destruct (Nat.eqb_spec b a) as [->|N]; intros X; [left; eauto|now apply (jo_all _ _ J)].
Qed.

Lemma joint_ext LL LL' h : (forall j, LL' j = LL j) -> joint LL h -> joint LL' h.
Proof.
  intros X J. constructor; try apply J.
  - intros j. rewrite X. apply J.
  - intros j a s. rewrite X. apply J.
  - intros j r l. rewrite X. apply J.
  - intros i j a s t. rewrite !X. apply J.
  - intros i j r l m. rewrite !X. apply J.
  - intros a s E. destruct (jo_all _ _ J a s E) as [Y|[j Y]]; [auto|right; exists j; now rewrite X].
Qed.
Lemma access_owns {A} (Q : mine -> A -> Prop) LL p h p' h' i : joint LL h -> owns Q (LL i) p -> access p h = Some (p', h') ->
  exists L', owns Q L' p' /\ joint (upl LL i L') h'.
Proof.
  intros J C. remember (LL i) as L eqn:EL.
  assert (KEEPS : forall h1, joint LL h1 -> joint (upl LL i L) h1).
  { intros h1. apply joint_ext. intros j. unfold upl. destruct (Nat.eqb_spec j i); congruence. }
  pose proof (KEEPS h J) as KEEP.
  destruct C as [L x HQ|L a s k E H|L a p k E H|L r ix l c k E E' H|L r l k E H|L a s f k E Y H|
    L a s k E H|L r ix l c k E E' H|L r l k E H|L a s f k E PT W H|L r l ix x k E I W H|L n k W H|L l k W H]; cbn [access]; try discriminate.
  - destruct (jo_node _ _ J a s E) as (t & -> & V & _). intros X. injection X as <- <-. exists L. auto.
  - destruct (jo_pth _ _ J a p E) as (t & -> & V & _). intros X. injection X as <- <-. exists L. auto.
  - destruct (jo_arr _ _ J r l E) as [-> _]. rewrite E'. intros X. injection X as <- <-. exists L. auto.
  - destruct (jo_arr _ _ J r l E) as [-> _]. intros X. injection X as <- <-. exists L. auto.
  - destruct (jo_node _ _ J a s E) as (t & Et & V & _). rewrite Et. intros X. injection X as <- <-. exists L. split; [exact H|].
    destruct (Y t V). apply KEEPS. now apply joint_write with s.
  - (* an own node *)
    destruct (jo_mn _ _ J i a s) as (A1 & _); [congruence|]. rewrite A1. intros X. injection X as <- <-. exists L. auto.
  - (* an own array *)
    destruct (jo_ma _ _ J i r l) as (A1 & _); [congruence|]. rewrite A1, E'. intros X. injection X as <- <-. exists L. auto.
  - (* the capacity of an own array *)
    destruct (jo_ma _ _ J i r l) as (A1 & _); [congruence|]. rewrite A1. intros X. injection X as <- <-. exists L. auto.
  - (* an own node is changed *)
    destruct (jo_mn _ _ J i a s) as (A1 & A2 & A3); [congruence|]. rewrite A1. intros X. injection X as <- <-. exists (addn L a (f s)). split; [exact H|].
    assert (O : forall j, upl LL i (addn L a (f s)) j = if j =? i then addn L a (f s) else LL j) by reflexivity.
    constructor; cbn; try apply J.
    + intros b sb Eb. destruct (Nat.eqb_spec b a) as [->|N]; [congruence|now apply (jo_node _ _ J)].
    + intros b p Eb. destruct (Nat.eqb_spec b a) as [->|N]; [|now apply (jo_pth _ _ J)]. exists (f s). auto.
    + intros j. rewrite O. destruct (Nat.eqb_spec j i) as [->|N]; [exact W|apply (jo_inv _ _ J)].
    + intros j b sb. rewrite O. destruct (Nat.eqb_spec j i) as [->|N].
      * cbn. destruct (Nat.eqb_spec b a) as [->|Nb]; intros X; [injection X as <-; auto|]. apply (jo_mn _ _ J i). congruence.
      * intros X. destruct (Nat.eqb_spec b a) as [->|Nb]; [|now apply (jo_mn _ _ J j)].
        exfalso. apply (jo_dn _ _ J j i a sb s); auto. congruence.
    + intros j r l. rewrite O. destruct (Nat.eqb_spec j i) as [->|N]; [|apply (jo_ma _ _ J)]. cbn. intros X. apply (jo_ma _ _ J i). congruence.
    + intros j j' b sb tb Nj. rewrite !O. destruct (Nat.eqb_spec j i) as [->|N]; destruct (Nat.eqb_spec j' i) as [->|N']; cbn; try congruence.
      * destruct (Nat.eqb_spec b a) as [->|Nb]; intros X X'; [apply (jo_dn _ _ J i j' a s tb); congruence|apply (jo_dn _ _ J i j' b sb tb); congruence].
      * destruct (Nat.eqb_spec b a) as [->|Nb]; intros X X'; [apply (jo_dn _ _ J i j a s sb); congruence|apply (jo_dn _ _ J i j b tb sb); congruence].
      * intros X X'. now apply (jo_dn _ _ J j j' b sb tb).
    + intros j j' r l m Nj. rewrite !O. destruct (Nat.eqb_spec j i) as [->|N]; destruct (Nat.eqb_spec j' i) as [->|N']; cbn; try congruence.
      * intros X X'. apply (jo_da _ _ J i j' r l m); congruence.
      * intros X X'. apply (jo_da _ _ J j i r l m); congruence.
      * intros X X'. now apply (jo_da _ _ J j j' r l m).
    + intros b sb. destruct (Nat.eqb_spec b a) as [->|Nb]; intros X.
      * right. exists i. rewrite O, Nat.eqb_refl. cbn. rewrite Nat.eqb_refl. congruence.
      * destruct (jo_all _ _ J b sb X) as [Y|[j Y]]; [auto|right]. exists j. rewrite O.
        destruct (Nat.eqb_spec j i) as [->|N]; [|exact Y]. cbn. destruct (Nat.eqb_spec b a) as [Q1|_]; [now destruct Nb|congruence].
  - (* an own array is changed *)
    destruct (jo_ma _ _ J i r l) as (A1 & A2 & A3); [congruence|]. rewrite A1. rewrite (proj2 (Nat.ltb_lt _ _) I).
    intros X. injection X as <- <-. exists (adda L r (put l ix x)). split; [exact H|].
    assert (O : forall j, upl LL i (adda L r (put l ix x)) j = if j =? i then adda L r (put l ix x) else LL j) by reflexivity.
    constructor; cbn; try apply J.
    + intros q m Em. destruct (Nat.eqb_spec q r) as [->|N]; [congruence|now apply (jo_arr _ _ J)].
    + intros j. rewrite O. destruct (Nat.eqb_spec j i) as [->|N]; [exact W|apply (jo_inv _ _ J)].
    + intros j b sb. rewrite O. destruct (Nat.eqb_spec j i) as [->|N]; [|apply (jo_mn _ _ J)]. cbn. intros X. apply (jo_mn _ _ J i). congruence.
    + intros j q m. rewrite O. destruct (Nat.eqb_spec j i) as [->|N]; cbn.
      * destruct (Nat.eqb_spec q r) as [->|Nq]; intros X; [injection X as <-; auto|apply (jo_ma _ _ J i); congruence].
      * intros X. destruct (Nat.eqb_spec q r) as [->|Nq]; [|now apply (jo_ma _ _ J j)]. exfalso. apply (jo_da _ _ J j i r m l); auto. congruence.
    + intros j j' b sb tb Nj. rewrite !O. destruct (Nat.eqb_spec j i) as [->|N]; destruct (Nat.eqb_spec j' i) as [->|N']; cbn; try congruence.
      * intros X X'. apply (jo_dn _ _ J i j' b sb tb); congruence.
      * intros X X'. apply (jo_dn _ _ J j i b sb tb); congruence.
      * intros X X'. now apply (jo_dn _ _ J j j' b sb tb).
    + intros j j' q m m' Nj. rewrite !O. destruct (Nat.eqb_spec j i) as [->|N]; destruct (Nat.eqb_spec j' i) as [->|N']; cbn; try congruence.
      * destruct (Nat.eqb_spec q r) as [->|Nq]; intros X X'; [apply (jo_da _ _ J i j' r l m'); congruence|apply (jo_da _ _ J i j' q m m'); congruence].
      * destruct (Nat.eqb_spec q r) as [->|Nq]; intros X X'; [apply (jo_da _ _ J i j r l m); congruence|apply (jo_da _ _ J i j q m' m); congruence].
      * intros X X'. now apply (jo_da _ _ J j j' q m m').
    + intros b sb X. destruct (jo_all _ _ J b sb X) as [Y|[j Y]]; [auto|right]. exists j. rewrite O.
      destruct (Nat.eqb_spec j i) as [->|N]; [cbn; congruence|exact Y].
  - (* a new node *)
    intros X. injection X as <- <-.
    assert (N0 : mn sh (nn h) = None).
    { destruct (mn sh (nn h)) as [s|] eqn:E; auto. destruct (jo_node _ _ J _ _ E) as (_ & _ & _ & LT). lia. }
    assert (NP : pth (nn h) = None).
    { destruct (pth (nn h)) as [s|] eqn:E; auto. destruct (jo_pth _ _ J _ _ E) as (_ & _ & _ & LT). lia. }
    assert (NL : forall j, mn (LL j) (nn h) = None).
    { intros j. destruct (mn (LL j) (nn h)) as [s|] eqn:E; auto. destruct (jo_mn _ _ J j _ _ E). lia. }
    exists (addn L (nn h) n). split; [apply H; auto; congruence|].
    assert (O : forall j, upl LL i (addn L (nn h) n) j = if j =? i then addn L (nn h) n else LL j) by reflexivity.
    constructor; cbn; try apply J.
    + intros b sb Eb. destruct (Nat.eqb_spec b (nn h)) as [->|N]; [congruence|].
      destruct (jo_node _ _ J b sb Eb) as (t & T1 & T2 & T3). exists t. auto with arith.
    + intros b p Eb. destruct (jo_pth _ _ J b p Eb) as (t & T1 & T2 & T3). destruct (Nat.eqb_spec b (nn h)) as [->|N]; [lia|].
      exists t. auto with arith.
    + intros j. rewrite O. destruct (Nat.eqb_spec j i) as [->|N]; [|apply (jo_inv _ _ J)]. apply W; auto. congruence.
    + intros j b sb. rewrite O. destruct (Nat.eqb_spec j i) as [->|N]; cbn.
      * destruct (Nat.eqb_spec b (nn h)) as [->|Nb]; intros X; [injection X as <-; auto with arith|].
        destruct (jo_mn _ _ J i b sb) as (A1 & A2 & A3); [congruence|]. auto with arith.
      * intros X. destruct (jo_mn _ _ J j b sb X) as (A1 & A2 & A3). destruct (Nat.eqb_spec b (nn h)) as [->|Nb]; [lia|]. auto with arith.
    + intros j r l. rewrite O. destruct (Nat.eqb_spec j i) as [->|N]; [|apply (jo_ma _ _ J)]. cbn. intros X. apply (jo_ma _ _ J i). congruence.
    + intros j j' b sb tb Nj. rewrite !O. destruct (Nat.eqb_spec j i) as [->|N]; destruct (Nat.eqb_spec j' i) as [->|N']; cbn; try congruence.
      * destruct (Nat.eqb_spec b (nn h)) as [->|Nb]; intros X X'; [rewrite NL in X'; discriminate|apply (jo_dn _ _ J i j' b sb tb); congruence].
      * destruct (Nat.eqb_spec b (nn h)) as [->|Nb]; intros X X'; [rewrite NL in X; discriminate|apply (jo_dn _ _ J i j b tb sb); congruence].
      * intros X X'. now apply (jo_dn _ _ J j j' b sb tb).
    + intros j j' r l m Nj. rewrite !O. destruct (Nat.eqb_spec j i) as [->|N]; destruct (Nat.eqb_spec j' i) as [->|N']; cbn; try congruence.
      * intros X X'. apply (jo_da _ _ J i j' r l m); congruence.
      * intros X X'. apply (jo_da _ _ J j i r l m); congruence.
      * intros X X'. now apply (jo_da _ _ J j j' r l m).
    + intros b sb. destruct (Nat.eqb_spec b (nn h)) as [->|Nb]; intros X.
      * right. exists i. rewrite O, Nat.eqb_refl. cbn. rewrite Nat.eqb_refl. congruence.
      * destruct (jo_all _ _ J b sb X) as [Y|[j Y]]; [auto|right]. exists j. rewrite O.
        destruct (Nat.eqb_spec j i) as [->|N]; [|exact Y]. cbn. destruct (Nat.eqb_spec b (nn h)) as [Q1|_]; [now destruct Nb|congruence].
  - (* a new array *)
    intros X. injection X as <- <-. pose proof (jo_pos _ _ J) as Z.
    assert (NL : forall j, ma (LL j) (na h) = None).
    { intros j. destruct (ma (LL j) (na h)) as [s|] eqn:E; auto. destruct (jo_ma _ _ J j _ _ E). lia. }
    assert (N0 : ma sh (na h) = None).
    { destruct (ma sh (na h)) as [s|] eqn:E; auto. destruct (jo_arr _ _ J _ _ E). lia. }
    exists (adda L (na h) l). split; [apply H; [congruence|exact N0|lia]|].
    assert (O : forall j, upl LL i (adda L (na h) l) j = if j =? i then adda L (na h) l else LL j) by reflexivity.
    constructor; cbn; try apply J.
    + lia.
    + intros q m Em. destruct (jo_arr _ _ J q m Em). destruct (Nat.eqb_spec q (na h)) as [->|N]; [lia|]. split; [auto|lia].
    + intros j. rewrite O. destruct (Nat.eqb_spec j i) as [->|N]; [|apply (jo_inv _ _ J)]. apply W; auto; [congruence|lia].
    + intros j b sb. rewrite O. destruct (Nat.eqb_spec j i) as [->|N]; [|apply (jo_mn _ _ J)]. cbn. intros X. apply (jo_mn _ _ J i). congruence.
    + intros j q m. rewrite O. destruct (Nat.eqb_spec j i) as [->|N]; cbn.
      * destruct (Nat.eqb_spec q (na h)) as [->|Nq]; intros X; [injection X as <-; split; [reflexivity|split; [exact N0|lia]]|].
        destruct (jo_ma _ _ J i q m) as (A1 & A2 & A3); [congruence|]. split; [exact A1|]. split; [exact A2|lia].
      * intros X. destruct (jo_ma _ _ J j q m X) as (A1 & A2 & A3). destruct (Nat.eqb_spec q (na h)) as [->|Nq]; [lia|]. split; [exact A1|]. split; [exact A2|lia].
    + intros j j' b sb tb Nj. rewrite !O. destruct (Nat.eqb_spec j i) as [->|N]; destruct (Nat.eqb_spec j' i) as [->|N']; cbn; try congruence.
      * intros X X'. apply (jo_dn _ _ J i j' b sb tb); congruence.
      * intros X X'. apply (jo_dn _ _ J j i b sb tb); congruence.
      * intros X X'. now apply (jo_dn _ _ J j j' b sb tb).
    + intros j j' q m m' Nj. rewrite !O. destruct (Nat.eqb_spec j i) as [->|N]; destruct (Nat.eqb_spec j' i) as [->|N']; cbn; try congruence.
      * destruct (Nat.eqb_spec q (na h)) as [->|Nq]; intros X X'; [rewrite NL in X'; discriminate|apply (jo_da _ _ J i j' q m m'); congruence].
      * destruct (Nat.eqb_spec q (na h)) as [->|Nq]; intros X X'; [rewrite NL in X; discriminate|apply (jo_da _ _ J i j q m' m); congruence].
      * intros X X'. now apply (jo_da _ _ J j j' q m m').
    + intros b sb X. destruct (jo_all _ _ J b sb X) as [Y|[j Y]]; [auto|right]. exists j. rewrite O.
      destruct (Nat.eqb_spec j i) as [->|N]; [cbn; congruence|exact Y].
Qed.

(** all programs, each with what it owns *)
Definition side {A} (Qs : list (mine -> A -> Prop)) (ps : list (prog A)) (h : heap) : Prop :=
  exists LL, joint LL h /\ length Qs = length ps /\ (forall i, length ps <= i -> LL i = nothing) /\
    forall i Q p, nth_error Qs i = Some Q -> nth_error ps i = Some p -> owns Q (LL i) p.
Lemma put_nth {A} (l : list A) i x j : nth_error (put l i x) j = if j =? i then (if i <? length l then Some x else None) else nth_error l j.
Proof.
  revert i j. induction l as [|a l IH]; intros [|i] [|j]; cbn [put nth_error length]; auto.
  - cbn. destruct (j =? i); reflexivity.
  - rewrite IH. reflexivity.
Qed.
Lemma turn_side {A} Qs (ps : list (prog A)) h i : side Qs ps h -> side Qs (fst (turn ps h i)) (snd (turn ps h i)).
Proof.
  intros (LL & J & LN & NO & F). unfold turn. destruct (nth_error ps i) as [p|] eqn:E; [|exists LL; auto].
  destruct (access p h) as [[p' h']|] eqn:AC; [|exists LL; auto]. cbn [fst snd].
  assert (LI : i < length ps) by (apply nth_error_Some; congruence).
  destruct (nth_error Qs i) as [Q|] eqn:EQ; [|apply nth_error_None in EQ; lia].
  destruct (access_owns Q LL p h p' h' i J (F i Q p EQ E) AC) as (L' & O & J').
  exists (upl LL i L'). split; [exact J'|]. split; [now rewrite put_length|]. split.
  - intros j. rewrite put_length. intros Hj. unfold upl. destruct (Nat.eqb_spec j i) as [->|N]; [lia|now apply NO].
  - intros j R q ER Eq. rewrite put_nth in Eq. unfold upl. destruct (Nat.eqb_spec j i) as [->|N].
    + rewrite (proj2 (Nat.ltb_lt _ _) LI) in Eq. injection Eq as <-. assert (R = Q) as -> by congruence. exact O.
    + now apply F.
Qed.
Lemma schedule_side {A} sch : forall Qs (ps : list (prog A)) h, side Qs ps h ->
  side Qs (fst (schedule sch ps h)) (snd (schedule sch ps h)).
Proof.
  unfold schedule. induction sch as [|i sch IH]; intros Qs ps h F; [exact F|]. cbn [fold_left fst snd].
  pose proof (turn_side Qs ps h i F) as T. destruct (turn ps h i) as [ps1 h1]. now apply IH.
Qed.
(** nobody panics *)
Lemma side_alive {A} Qs (ps : list (prog A)) h p : side Qs ps h -> In p ps -> p <> Die /\ p <> Spin.
Proof.
  intros (LL & J & LN & NO & F) Hp. apply In_nth_error in Hp. destruct Hp as [i Ei].
  destruct (nth_error Qs i) as [Q|] eqn:EQ.
  - pose proof (F i Q p EQ Ei) as O. split; intros ->; inversion O.
  - apply nth_error_None in EQ. assert (i < length ps) by (apply nth_error_Some; congruence). lia.
Qed.
Lemma owns_ret {A} (Q : mine -> A -> Prop) L x : owns Q L (Ret x) -> Q L x.
Proof. now inversion 1. Qed.
Lemma side_ret {A} Qs (ps : list (prog A)) h : side Qs ps h ->
  exists LL, joint LL h /\ (forall i, length ps <= i -> LL i = nothing) /\
    forall i Q x, nth_error Qs i = Some Q -> nth_error ps i = Some (Ret x) -> Q (LL i) x.
Proof. intros (LL & J & LN & NO & F). exists LL. split; [exact J|]. split; [exact NO|]. intros i Q x EQ Ex. apply owns_ret. now apply F. Qed.

(** memory is well-formed when all parts are *)
Definition swf (L : mine) : Prop :=
  (forall a s, mn L a = Some s -> exists l, ma L (sl_arr (hkids s)) = Some l /\ sl_len (hkids s) <= length l) /\
  (forall a b s t, mn L a = Some s -> mn L b = Some t -> a <> b -> sl_arr (hkids s) = sl_arr (hkids t) -> sl_arr (hkids s) = 0) /\
  ma L 0 = Some [].
Lemma joint_hwf LL h : (forall a s t, var a s t -> hkids t = hkids s) -> swf sh -> joint LL h -> (forall i, lwf (LL i)) -> hwf h.
Proof.
  intros VK (S1 & S2 & S3) J LW. destruct (jo_arr _ _ J 0 [] S3) as [Z0 Z1].
  assert (OLD : forall a s, hn h a = Some s -> (exists t, mn sh a = Some t /\ hkids s = hkids t) \/ exists i, mn (LL i) a = Some s).
  { intros a s E. destruct (jo_all _ _ J a s E) as [[t Et]|Y]; [left|auto]. exists t. split; [exact Et|].
    destruct (jo_node _ _ J a t Et) as (u & Eu & V & _). apply VK in V. congruence. }
  assert (OWN : forall i a s, mn (LL i) a = Some s -> sl_arr (hkids s) = 0 /\ sl_len (hkids s) = 0 \/
    exists l, ma (LL i) (sl_arr (hkids s)) = Some l /\ sl_len (hkids s) <= length l).
  { intros i a s E. destruct (lwf_in _ (LW i) a s E) as [K|X]; [left; rewrite K; auto|auto]. }
  constructor.
  - intros a s E. destruct (OLD a s E) as [(t & Et & K)|[i Y]].
    + destruct (S1 a t Et) as (l & El & Ll). destruct (jo_arr _ _ J _ _ El) as [A1 A2]. rewrite K, A1.
      destruct (jo_node _ _ J a t Et) as (_ & _ & _ & LT). auto.
    + destruct (jo_mn _ _ J i a s Y) as (_ & _ & B1). split; [exact B1|].
      destruct (OWN i a s Y) as [(K1 & K2)|(l & K1 & K2)].
      * rewrite K1, K2. split; [exact Z1|]. lia.
      * destruct (jo_ma _ _ J i _ _ K1) as (C1 & _ & C2). rewrite C1. split; [exact C2|exact K2].
  - intros a b s t E E' D Q1.
    destruct (OLD a s E) as [(s0 & Es & K)|[i Y]]; destruct (OLD b t E') as [(t0 & Et & K')|[j Y']].
    + rewrite K in *. rewrite K' in *. now apply (S2 a b s0 t0).
    + destruct (OWN j b t Y') as [(X & _)|(l & X1 & X2)]; [now rewrite Q1, X|].
      destruct (jo_ma _ _ J j _ _ X1) as (_ & C2 & _). destruct (S1 a s0 Es) as (l' & El & _). rewrite <- K, Q1 in El. congruence.
    + destruct (OWN i a s Y) as [(X & _)|(l & X1 & X2)]; [exact X|].
      destruct (jo_ma _ _ J i _ _ X1) as (_ & C2 & _). destruct (S1 b t0 Et) as (l' & El & _). rewrite <- K', <- Q1 in El. congruence.
    + destruct (OWN i a s Y) as [(X & _)|(l & X1 & X2)]; [exact X|].
      destruct (OWN j b t Y') as [(X & _)|(l' & X1' & X2')]; [now rewrite Q1, X|].
      destruct (Nat.eq_dec i j) as [<-|Nij]; [now apply (lwf_own _ (LW i) a b s t)|].
      exfalso. rewrite <- Q1 in X1'. now apply (jo_da _ _ J i j _ l l' Nij X1 X1').
  - auto.
Qed.
End Owns.

(** ** trees in a part *)
(** the array of an empty slice need not be there *)
Definition arr_in (L : mine) (s : slice) (l : list nat) : Prop := s = Sl 0 0 /\ l = [] \/ ma L (sl_arr s) = Some l.
Inductive lrep (L : mine) : node -> Prop :=
| lrep_intro n s l : mn L (nid n) = Some s -> fits n s -> arr_in L (hkids s) l ->
    firstn (sl_len (hkids s)) l = map nid (nkids n) -> Forall (lrep L) (nkids n) -> lrep L n.
Lemma lrep_mono L L' n : within L L' -> lrep L n -> lrep L' n.
Proof.
  intros [A B]. induction n as [n IH] using node_ind'. intros H. inversion H as [n0 s l H1 H2 H3 H4 H5]; subst.
  apply lrep_intro with s l; auto.
  - destruct H3 as [H3|H3]; [now left|right; auto].
  - rewrite Forall_forall in *. auto.
Qed.
Lemma lrep_dom L n : lrep L n -> forall a, In a (ids n) -> exists s, mn L a = Some s.
Proof.
  induction n as [n IH] using node_ind'. intros H a. inversion H as [n0 s l H1 H2 H3 H4 H5]; subst. rewrite ids_eq. intros [<-|X]; [eauto|].
  apply in_flat_map in X. destruct X as (k & Hk & Ha). rewrite Forall_forall in *. eapply IH; eauto.
Qed.
Lemma within_news B L B' L' :
  (forall a s, mn B a = None -> mn L a = Some s -> mn B' a = None /\ mn L' a = Some s) ->
  (forall r l, ma B r = None -> ma L r = Some l -> ma B' r = None /\ ma L' r = Some l) ->
  within (news B L) (news B' L').
Proof.
  intros H1 H2. split; cbn.
  - intros a s. destruct (mn B a) eqn:E; [discriminate|]. intros X. destruct (H1 a s E X) as [-> ->]. reflexivity.
  - intros r l. destruct (ma B r) eqn:E; [discriminate|]. intros X. destruct (H2 r l E X) as [-> ->]. reflexivity.
Qed.
Lemma lrep_repr sh var pth inv LL h i L n : ma sh 0 = Some [] -> joint sh var pth inv LL h -> within L (LL i) -> lrep L n -> repr h n.
Proof.
  intros Z J [W1 W2]. destruct (jo_arr _ _ _ _ _ _ J 0 [] Z) as [Z0 _].
  induction n as [n IH] using node_ind'. intros H. inversion H as [n0 s l H1 H2 H3 H4 H5]; subst.
  apply repr_eq. split.
  - exists s. split; [now apply (jo_mn _ _ _ _ _ _ J i _ _ (W1 _ _ H1))|]. split; [exact H2|]. unfold kids_of.
    destruct H3 as [[H3 ->]|H3].
    + rewrite H3 in *. cbn [sl_len sl_arr firstn] in *. exact H4.
    + rewrite (proj1 (jo_ma _ _ _ _ _ _ J i _ _ (W2 _ _ H3))). exact H4.
  - rewrite Forall_forall in *. auto.
Qed.
Lemma NoDup_app_intro {A} (l r : list A) : NoDup l -> NoDup r -> (forall a, In a l -> In a r -> False) -> NoDup (l ++ r).
Proof.
  intros N1 N2 D. induction N1 as [|a l Ha N1 IH]; cbn; auto. constructor.
  - rewrite in_app_iff. intros [X|X]; [auto|]. apply (D a); [now left|auto].
  - apply IH. intros b Hb. apply D. now right.
Qed.
Lemma firstn_put {A} (l : list A) i x : i < length l -> firstn (S i) (put l i x) = firstn i l ++ [x].
Proof. revert i. induction l as [|a l IH]; intros [|i] H; cbn [length] in H; try lia; [reflexivity|]. cbn. f_equal. apply IH. lia. Qed.

(** ** a whole memory is shared *)
(** memory not yet allocated is empty *)
Definition unborn (h : heap) : Prop := forall r, na h <= r -> ha h r = [].
Definition whole (h : heap) : mine := Mine (hn h) (fun r => if r <? na h then Some (ha h r) else None).
Lemma whole_swf h : hwf h -> swf (whole h).
Proof.
  intros W. destruct (hwf_nil h W) as [Z0 Z1]. split; [|split]; cbn [mn ma whole].
  - intros a s E. destruct (hwf_in h W a s E) as (_ & A2 & A3). rewrite (proj2 (Nat.ltb_lt _ _) A2). eauto.
  - intros a b s t. apply (hwf_own h W).
  - destruct (na h); [lia|]. cbn. now rewrite Z0.
Qed.
(** its values may be overwritten, [may] saying with what *)
Definition overw (may : nat -> gval -> Prop) (a : nat) (s t : hnode) : Prop := alike s t /\ (hdata t = hdata s \/ may a (hdata t)).
Definition nopath (a : nat) : option (list rune) := None.
Lemma whole_start may (inv : mine -> Prop) h : hwf h -> inv nothing -> joint (whole h) (overw may) nopath inv (fun _ => nothing) h.
Proof.
  intros W I0. destruct (hwf_nil h W) as [Z0 Z1]. constructor; cbn [mn ma whole nothing]; auto; try discriminate.
  - intros r l. destruct (r <? na h) eqn:E; [|discriminate]. intros X. injection X as <-. split; auto. now apply Nat.ltb_lt.
  - intros a s E. exists s. split; [exact E|]. split; [split; [apply alike_refl|auto]|]. now destruct (hwf_in h W a s E).
  - intros a s E. left. eauto.
Qed.
Lemma polite_owns {A} may inv h (Q : A -> Prop) L p : unborn h -> polite h may Q p -> owns (whole h) (overw may) nopath inv (fun _ => Q) L p.
Proof.
  intros U P. induction P as [x HQ|a s k E _ IH|r i c k E _ IH|a s y k E Y _ IH|a s v k E M _ IH].
  - constructor. exact HQ.
  - apply ow_node with s; [auto|]. intros t [AL D]. auto.
  - apply ow_elem with (ha h r) c; auto. cbn [ma whole]. destruct (Nat.ltb_spec r (na h)) as [|G]; auto. rewrite U in E by exact G. now destruct i.
  - apply ow_set with s; auto. intros t [(A1 & A2 & A3 & A4 & A5 & A6 & _) D]. split; [split; [|exact D]|reflexivity]. unfold alike. cbn. rewrite Y. auto 12.
  - apply ow_set with s; auto. intros t [AL D]. split; [split; [exact AL|right; exact M]|reflexivity].
Qed.
