(** Goroutines that change one tree at the same time. *)
From Coq Require Import List NArith Bool Arith Lia.
From Verif Require Import GoStr Utf8 Node NodeWf InsertProofs MatchProofs Trie TreeOps Spec Refine Climb ApiRefine Reach Effect
  Derived Derived2 Derived3 Derived4 Derived5 Heap HeapProofs HeapWalk.
Import ListNotations.
Open Scope nat_scope.

(** ** programs that only read the shape of the tree and overwrite values *)
(** [t] is [s] but for the value and the bit for data *)
Definition alike (s t : hnode) : Prop :=
  hpath t = hpath s /\ hpathS t = hpathS s /\ hkids t = hkids s /\ hdesc t = hdesc s /\ hcmt t = hcmt s /\ htag t = htag s /\
  (htype t = htype s \/ htype t = N.lor (htype s) NTData).
(** [t] has the place in the tree that [s] has *)
Definition same (s t : hnode) : Prop := hpath t = hpath s /\ hpathS t = hpathS s /\ hkids t = hkids s.
Lemma alike_same s t : alike s t -> same s t.
Proof. intros (A & B & C & _). repeat split; auto. Qed.
Lemma alike_refl s : alike s s.
Proof. repeat split; auto. Qed.
Lemma lor_idem a b : N.lor (N.lor a b) b = N.lor a b.
Proof. now rewrite <- N.lor_assoc, N.lor_diag. Qed.

Lemma Forall2_impl {A B} (P Q : A -> B -> Prop) l r : (forall a b, P a b -> Q a b) -> Forall2 P l r -> Forall2 Q l r.
Proof. intros H F. induction F; constructor; auto. Qed.

Section Calm.
Variable h0 : heap.
Variable may : nat -> gval -> Prop.   (* the values that may be written, by address *)

(** the program reads paths and children, and gives [x] *)
Inductive reads {A} (x : A) : prog A -> Prop :=
| reads_ret : reads x (Ret x)
| reads_node a s k : hn h0 a = Some s -> (forall t, same s t -> reads x (k t)) -> reads x (GetN a k)
| reads_elem r i c k : nth_error (ha h0 r) i = Some c -> reads x (k c) -> reads x (GetA r i k).
(** the program reads and overwrites values; before it ends it has overwritten those at the addresses [l] *)
Inductive calm {A} : list nat -> prog A -> Prop :=
| calm_ret x : calm [] (Ret x)
| calm_node l a s k : hn h0 a = Some s -> (forall t, alike s t -> calm l (k t)) -> calm l (GetN a k)
| calm_elem l r i c k : nth_error (ha h0 r) i = Some c -> calm l (k c) -> calm l (GetA r i k)
| calm_type l a s y k : hn h0 a = Some s -> y = N.lor (htype s) NTData -> calm l k -> calm l (UpdN a (w_type y) k)
| calm_data l l' a s v k : hn h0 a = Some s -> may a v -> (forall b, In b l -> b = a \/ In b l') -> calm l' k ->
    calm l (UpdN a (w_data v) k).

Lemma reads_seq {A B} (x : A) p l (q : A -> prog B) : reads x p -> calm l (q x) -> calm l (seqp p q).
Proof.
  intros R C. induction R as [|a s k E _ IH|r i c k E _ IH]; cbn [seqp]; auto.
  - apply calm_node with s; auto using alike_same.
  - apply calm_elem with c; auto.
Qed.
Lemma calm_seq {A B} l l' (p : prog A) (q : A -> prog B) : calm l p -> (forall x, calm l' (q x)) -> calm (l ++ l') (seqp p q).
Proof.
  intros C Q. induction C as [x|l a s k E _ IH|l r i c k E _ IH|l a s y k E Y _ IH|l l1 a s v k E M I _ IH]; cbn [seqp]; auto.
  - apply calm_node with s; auto.
  - apply calm_elem with c; auto.
  - apply calm_type with s; auto.
  - apply calm_data with (l' := l1 ++ l') (s := s); auto. intros b Hb. rewrite in_app_iff in *. destruct Hb as [Hb|Hb]; auto.
    destruct (I b Hb); auto.
Qed.

(** what is in memory at some time: the same shape, allowed values *)
Record state (h : heap) : Prop := {
  st_arr : ha h = ha h0;
  st_nn : nn h = nn h0 /\ na h = na h0;
  st_none : forall a, hn h0 a = None -> hn h a = None;
  st_node : forall a s, hn h0 a = Some s -> exists t, hn h a = Some t /\ alike s t /\ (hdata t = hdata s \/ may a (hdata t)) }.
Lemma state_refl : state h0.
Proof. constructor; auto. intros a s E. exists s. split; [exact E|]. split; [apply alike_refl|auto]. Qed.
(** the value at [a] has been written *)
Definition written (h : heap) (a : nat) : Prop := exists t, hn h a = Some t /\ may a (hdata t).

Lemma access_calm {A} l (p : prog A) h p' h' : state h -> calm l p -> access p h = Some (p', h') ->
  state h' /\ (forall a, written h a -> written h' a) /\
  exists l', calm l' p' /\ forall b, In b l -> written h' b \/ In b l'.
Proof.
  intros S C. destruct C as [x|l a s k E H|l r i c k E H|l a s y k E Y H|l l1 a s v k E M I H]; cbn [access]; try discriminate.
  - destruct (st_node h S a s E) as (t & -> & AL & _). intros X. injection X as <- <-. split; [exact S|]. split; [auto|].
    exists l. split; auto.
  - rewrite (st_arr h S), E. intros X. injection X as <- <-. split; [exact S|]. split; [auto|]. exists l. auto.
  - destruct (st_node h S a s E) as (t & Et & AL & D). rewrite Et. intros X. injection X as <- <-. split; [|split].
    + constructor; cbn; [apply (st_arr h S)|apply (st_nn h S)| |].
      * intros b Eb. destruct (Nat.eqb_spec b a) as [->|N]; [congruence|now apply (st_none h S)].
      * intros b sb Eb. destruct (Nat.eqb_spec b a) as [->|N]; [|now apply (st_node h S)].
        assert (sb = s) as -> by congruence. eexists. split; [reflexivity|]. destruct AL as (A1 & A2 & A3 & A4 & A5 & A6 & _).
        split; [|exact D]. unfold alike. cbn. rewrite Y. auto 12.
    + intros b (u & Eu & Mu). unfold written. cbn. destruct (Nat.eqb_spec b a) as [->|N]; [|eauto].
      eexists. split; [reflexivity|]. cbn. assert (u = t) as -> by congruence. exact Mu.
    + exists l. auto.
  - destruct (st_node h S a s E) as (t & Et & AL & D). rewrite Et. intros X. injection X as <- <-. split; [|split].
    + constructor; cbn; [apply (st_arr h S)|apply (st_nn h S)| |].
      * intros b Eb. destruct (Nat.eqb_spec b a) as [->|N]; [congruence|now apply (st_none h S)].
      * intros b sb Eb. destruct (Nat.eqb_spec b a) as [->|N]; [|now apply (st_node h S)].
        assert (sb = s) as -> by congruence. eexists. split; [reflexivity|]. split; [exact AL|]. right. exact M.
    + intros b (u & Eu & Mu). unfold written. cbn. destruct (Nat.eqb_spec b a) as [->|N]; [|eauto].
      eexists. split; [reflexivity|]. exact M.
    + exists l1. split; [exact H|]. intros b Hb. destruct (I b Hb) as [->|Hb']; [left|auto].
      unfold written. cbn. rewrite Nat.eqb_refl. eexists. split; [reflexivity|]. exact M.
Qed.

(** each program is still calm, and what it does not owe any more has been written *)
Definition fine {A} (ls : list (list nat)) (ps : list (prog A)) (h : heap) : Prop :=
  state h /\ Forall2 (fun l p => exists l', calm l' p /\ forall b, In b l -> written h b \/ In b l') ls ps.
Lemma Forall2_put {A B} (P : A -> B -> Prop) ls ps i p' : Forall2 P ls ps ->
  (forall l p, nth_error ls i = Some l -> nth_error ps i = Some p -> P l p -> P l p') -> Forall2 P ls (put ps i p').
Proof.
  intros F. revert i. induction F as [|l p ls ps Hp F IH]; intros [|i] H; cbn; constructor; auto.
  now apply (H l p).
Qed.
Lemma turn_fine {A} ls (ps : list (prog A)) h i : fine ls ps h -> fine ls (fst (turn ps h i)) (snd (turn ps h i)).
Proof.
  intros [S F]. unfold turn. destruct (nth_error ps i) as [p|] eqn:E; [|split; auto].
  destruct (access p h) as [[p' h']|] eqn:AC; [|split; auto]. cbn [fst snd].
  assert (EX : exists l l', nth_error ls i = Some l /\ calm l' p /\ forall b, In b l -> written h b \/ In b l').
  { clear -F E. revert i E. induction F as [|l p0 ls ps H F IH]; intros [|i] E; cbn in *; try discriminate.
    - injection E as ->. destruct H as (l' & H). eauto.
    - apply IH. exact E. }
  destruct EX as (l & l' & El & C & I). destruct (access_calm l' p h p' h' S C AC) as (S' & M & l2 & C2 & I2).
  split; [exact S'|]. apply Forall2_put.
  - eapply Forall2_impl; [|exact F]. cbn. intros a b (x & Hx & Hy). exists x. split; auto. intros y Iy. destruct (Hy y Iy); auto.
  - intros a b Ea Eb _. assert (a = l) as -> by congruence. exists l2. split; [exact C2|]. intros y Iy.
    destruct (I y Iy) as [W|W]; [auto|]. auto.
Qed.
Lemma schedule_fine {A} sch : forall ls (ps : list (prog A)) h, fine ls ps h ->
  fine ls (fst (schedule sch ps h)) (snd (schedule sch ps h)).
Proof.
  unfold schedule. induction sch as [|i sch IH]; intros ls ps h F; [exact F|]. cbn [fold_left fst snd].
  pose proof (turn_fine ls ps h i F) as T. destruct (turn ps h i) as [ps1 h1]. now apply IH.
Qed.

(** ** Set of a key that exists is such a program *)
Variable grow : nat -> nat.
Lemma match_reads word r c : forall ks i l rr,
  firstn (length ks) (skipn i (ha h0 r)) = map nid ks -> Forall (repr h0) ks ->
  matchChildren word ks = Ok (Some (l, c, rr)) -> reads (Some (nid c)) (p_match word r i (length ks)).
Proof.
  induction ks as [|k ks IH]; intros i l rr F R; cbn [length p_match matchChildren]; [discriminate|].
  inversion R as [|? ? Rk R']; subst. cbn [length map] in *.
  destruct (skipn i (ha h0 r)) as [|x t] eqn:E; [discriminate|]. cbn [firstn] in F. injection F as -> F.
  destruct (npath k) as [|c0 p] eqn:P; [discriminate|]. destruct word as [|w word]; [discriminate|].
  intros M. apply reads_elem with (nid k); [exact (nth_error_skipn _ _ _ _ E)|].
  apply repr_eq in Rk. destruct Rk as [(s & Es & Ft & _) _]. apply reads_node with s; [exact Es|].
  intros u (U & _). rewrite U. destruct Ft as [-> _]. rewrite P. destruct (c0 =? w)%N.
  - injection M as <- <- <-. constructor.
  - destruct (matchChildren (w :: word) ks) as [[[[a d] e]|]| |] eqn:M'; cbn [bind] in M; try discriminate.
    injection M as <- <- <-. apply IH with a e; auto.
    replace (skipn (S i) (ha h0 r)) with t; [exact F|]. clear -E. revert E. generalize (ha h0 r).
    induction i as [|i IH]; intros [|a l] E; cbn in *; try discriminate; [congruence|auto].
Qed.
Lemma cpl_app a b : cpl_len (a ++ b) a = length a.
Proof. induction a as [|x a IH]; cbn; [now destruct b|]. now rewrite N.eqb_refl, IH. Qed.
Lemma skip_app {A} (a b : list A) : skipn (length a) (a ++ b) = b.
Proof. induction a; cbn; auto. Qed.
Lemma ents_head c w m : In (w, m) (ents [] c) -> exists z, w = npath c ++ z.
Proof.
  rewrite ents_eq. cbn [app]. intros [X|X].
  - injection X as <- <-. exists []. now rewrite app_nil_r.
  - apply in_flat_map in X. destruct X as (k & _ & X). rewrite ents_shift in X. apply in_map_iff in X.
    destruct X as ((z & q) & X & _). cbn in X. injection X as <- <-. eauto.
Qed.

Lemma insert_calm f : forall n word m fp v, hwf h0 -> repr h0 n -> wfn n -> In (word, m) (ents [] n) -> may (nid m) v ->
  length word + (match npath n with [] => 1 | _ => 0 end) < f -> calm [nid m] (p_insert grow f (nid n) word fp v).
Proof.
  induction f as [|f IH]; intros n word m fp v W R WF IN M L; [lia|].
  pose proof R as R0. apply repr_eq in R. destruct R as [(s & E & Ft & K) Rk]. pose proof Ft as (P1 & _).
  cbn [p_insert]. apply calm_node with s; [exact E|]. intros t (T1 & _ & T3 & _). rewrite T1, T3, P1.
  rewrite (kids_len h0 _ s _ W E K), map_length. rewrite ents_eq in IN. cbn [app] in IN. destruct IN as [X|X].
  - injection X as <- <-.
    replace ((length (npath n) =? 0) && ((0 <? length (npath n)) && (length (nkids n) =? 0))) with false
      by (destruct (npath n); reflexivity).
    replace (if (0 <? length (npath n)) && (0 <? length (npath n)) then cpl_len (npath n) (npath n) else 0) with (length (npath n)).
    2: { destruct (npath n) as [|a p]; [reflexivity|]. cbn [length Nat.ltb Nat.leb andb].
         pose proof (cpl_app (a :: p) []) as H. rewrite app_nil_r in H. now rewrite H. }
    rewrite Nat.ltb_irrefl. cbn [seqp]. apply calm_node with s; [exact E|]. intros b (_ & _ & _ & _ & _ & _ & Tb).
    apply calm_type with s; [exact E| |].
    { destruct Tb as [->| ->]; [reflexivity|apply lor_idem]. }
    apply calm_node with s; [exact E|]. intros b' _. apply calm_data with (l' := []) (s := s); auto; [|constructor].
    intros b0 [<-|[]]. auto.
  - apply in_flat_map in X. destruct X as (c & Hc & X). rewrite ents_shift in X. apply in_map_iff in X.
    destruct X as ((w' & q) & X & IN). cbn in X. injection X as <- ->.
    destruct (wfn_kids _ _ WF Hc) as [NE Wc]. destruct (ents_head _ _ _ IN) as [z Ez].
    assert (NE' : w' <> []) by (intros ->; destruct (npath c); [congruence|discriminate]).
    destruct w' as [|w0 w']; [congruence|].
    replace (length (nkids n) =? 0) with false by (symmetry; apply Nat.eqb_neq; destruct (nkids n); [easy|cbn; lia]).
    rewrite !andb_false_r.
    replace (if (0 <? length (npath n)) && (0 <? length (npath n ++ w0 :: w')) then cpl_len (npath n ++ w0 :: w') (npath n) else 0)
      with (length (npath n)).
    2: { rewrite cpl_app. destruct (npath n); reflexivity. }
    rewrite Nat.ltb_irrefl. cbn [seqp].
    replace (length (npath n) <? length (npath n ++ w0 :: w')) with true
      by (symmetry; apply Nat.ltb_lt; rewrite app_length; cbn; lia).
    replace (if 0 <? length (npath n) then skipn (length (npath n)) (npath n ++ w0 :: w') else npath n ++ w0 :: w') with (w0 :: w').
    2: { destruct (npath n) as [|a p]; [reflexivity|]. symmetry. apply skip_app. }
    apply calm_node with s; [exact E|]. intros b (_ & _ & B3 & _). rewrite B3.
    pose proof (kids_len h0 _ s _ W E K) as KL. rewrite map_length in KL.
    assert (FR : fst_rune c = Some w0).
    { unfold fst_rune. destruct (npath c) as [|x p]; [congruence|]. cbn in Ez. now injection Ez as ->. }
    destruct (matchChildren_spec w0 w' (nkids n)) as [(l & c' & rr & MC & Ek & FR')|[_ NO]].
    { apply Forall_forall. intros k Hk. now apply (wfn_kids n). }
    2: { exfalso. now apply (NO c). }
    assert (c' = c) as ->.
    { apply (nodup_fst_eq (nkids n)); [now apply wfn_nodup| |exact Hc|congruence]. rewrite Ek. apply in_app_iff. right. now left. }
    rewrite KL. apply reads_seq with (x := Some (nid c)).
    + apply match_reads with l rr; auto. cbn [skipn]. rewrite <- KL. exact K.
    + change [nid m] with ([nid m] ++ []). apply calm_seq.
      * rewrite Forall_forall in Rk. apply IH; auto. destruct (npath c) as [|x p]; [congruence|].
        rewrite app_length in L. cbn [length] in L. destruct (npath n); cbn [length] in *; lia.
      * intros [[id old] calls]. constructor.
Qed.
End Calm.

(** the node of a key *)
Definition key_at (R : node) (k : gostring) (a : nat) : Prop := exists m, In (runes k, m) (ents [] R) /\ nid m = a.
Section Jobs.
Variable grow : nat -> nat.
Lemma sets_calm h0 may R job : tree_in h0 R ->
  (forall k v, In (k, v) job -> exists a, key_at R k a /\ may a v) ->
  exists l, calm h0 may l (p_sets grow (nid R) job) /\ forall k v a, In (k, v) job -> key_at R k a -> In a l.
Proof.
  intros (W & RR & (WR & WF & PL) & ID). cbn [root] in *.
  assert (UN : forall k a b, key_at R k a -> key_at R k b -> a = b).
  { intros k a b (m & Hm & <-) (m' & Hm' & <-). assert (X : Some (info_of m) = Some (info_of m')).
    { transitivity (look R (runes k)).
      - symmetry. apply look_in; auto. unfold ients. apply in_map_iff. exists (runes k, m). auto.
      - apply look_in; auto. unfold ients. apply in_map_iff. exists (runes k, m'). auto. }
    injection X as X. congruence. }
  induction job as [|[k v] job IH]; intros H; cbn [p_sets].
  - exists []. split; [constructor|easy].
  - destruct IH as (l & C & I); [intros k' v' Hin; apply H; now right|].
    destruct (H k v (or_introl eq_refl)) as (a & Ha & Ma). pose proof Ha as (m & Hm & <-).
    exists ([nid m] ++ l). split.
    + apply calm_seq; [|intros _; exact C]. unfold p_set. apply insert_calm; auto. rewrite WR. lia.
    + intros k' v' a [X|X] Ka.
      * injection X as <- <-. left. now apply (UN k).
      * apply in_app_iff. right. eauto.
Qed.

(** the tree with the values and types that are in memory *)
Fixpoint reload (h : heap) (n : node) : node :=
  let s := match hn h (nid n) with Some s => s | None => HN [] [] (Sl 0 0) GNil [] [] GNil 0%N end in
  mkNode (nid n) (npath n) (npathS n) (map (reload h) (nkids n)) (hdata s) (ndesc n) (ncmt n) (ntag n) (htype s).
Lemma reload_eq h n : reload h n =
  let s := match hn h (nid n) with Some s => s | None => HN [] [] (Sl 0 0) GNil [] [] GNil 0%N end in
  mkNode (nid n) (npath n) (npathS n) (map (reload h) (nkids n)) (hdata s) (ndesc n) (ncmt n) (ntag n) (htype s).
Proof. now destruct n. Qed.
Lemma reload_repr h0 may h n : repr h0 n -> state h0 may h -> repr h (reload h n).
Proof.
  intros R S. induction n as [n IH] using node_ind'. apply repr_eq in R. destruct R as [(s & E & Ft & K) Rk].
  destruct (st_node _ _ _ S _ _ E) as (t & Et & (A1 & A2 & A3 & A4 & A5 & A6 & _) & _).
  apply repr_eq. rewrite reload_eq, Et. cbn [nid nkids]. split.
  - exists t. split; [exact Et|]. destruct Ft as (P1 & P2 & P3 & P4 & P5 & P6 & P7). split.
    + unfold fits. cbn. repeat split; congruence.
    + unfold kids_of. rewrite A3, (st_arr _ _ _ S). rewrite map_map. erewrite map_ext; [exact K|]. intros k. now rewrite reload_eq.
  - apply Forall_map. rewrite Forall_forall in *. auto.
Qed.
(** all but values and types *)
Definition shape (e : key_t * node) := (fst e, (nid (snd e), npath (snd e), npathS (snd e), ndesc (snd e), ncmt (snd e), ntag (snd e))).
Lemma reload_ents h pre n : ents pre (reload h n) = map (fun e => (fst e, reload h (snd e))) (ents pre n).
Proof.
  revert pre. induction n as [n IH] using node_ind'. intros pre. rewrite (ents_eq pre n), (ents_eq pre (reload h n)).
  cbn [map fst snd]. f_equal; [now rewrite reload_eq|]. rewrite reload_eq. cbn [npath nkids]. rewrite map_flat_map.
  rewrite !flat_map_concat_map, map_map. f_equal. apply map_ext_in. intros k Hk. rewrite Forall_forall in IH. auto.
Qed.
Lemma reload_shape h n : map shape (ents [] (reload h n)) = map shape (ents [] n).
Proof. rewrite reload_ents, map_map. apply map_ext. intros [k m]. unfold shape. cbn. now rewrite reload_eq. Qed.

Definition some_set (jobs : list (list (gostring * gval))) (R : node) (a : nat) (v : gval) : Prop :=
  exists job k, In job jobs /\ In (k, v) job /\ key_at R k a.
Lemma race_overwrite h0 R jobs sch : tree_in h0 R ->
  (forall job k v, In job jobs -> In (k, v) job -> exists a, key_at R k a) ->
  let (ps, h) := schedule sch (map (p_sets grow (nid R)) jobs) h0 in
  exists R', repr h R' /\ map shape (ents [] R') = map shape (ents [] R) /\
    (forall p, In p ps -> p <> Die /\ p <> Spin) /\
    (forall k m', In (k, m') (ents [] R') -> exists m, In (k, m) (ents [] R) /\
       (ndata m' = ndata m \/ some_set jobs R (nid m) (ndata m')) /\
       ((forall p, In p ps -> p = Ret tt) -> (exists v, some_set jobs R (nid m) v) -> some_set jobs R (nid m) (ndata m'))).
Proof.
  intros T H. set (may := some_set jobs R). pose proof T as (W & RR & _).
  assert (EX : exists ls, Forall2 (fun l p => exists l', calm h0 may l' p /\ forall b, In b l -> written may h0 b \/ In b l')
      ls (map (p_sets grow (nid R)) jobs) /\
    Forall2 (fun l job => forall k v a, In (k, v) job -> key_at R k a -> In a l) ls jobs).
  { assert (Y : forall js, incl js jobs -> exists ls,
      Forall2 (fun l p => exists l', calm h0 may l' p /\ forall b, In b l -> written may h0 b \/ In b l')
        ls (map (p_sets grow (nid R)) js) /\
      Forall2 (fun l job => forall k v a, In (k, v) job -> key_at R k a -> In a l) ls js); [|apply Y; apply incl_refl].
    induction js as [|j js IH]; intros I; [exists []; split; constructor|].
    destruct IH as (ls & F1 & F2); [intros x Hx; apply I; now right|].
    destruct (sets_calm h0 may R j T) as (l & C & O).
    { intros k v Hin. destruct (H j k v (I j (or_introl eq_refl)) Hin) as [a Ha]. exists a. split; [exact Ha|].
      exists j, k. split; [apply I; now left|]. auto. }
    exists (l :: ls). split; cbn; constructor; auto. exists l. auto. }
  destruct EX as (ls & F1 & F2).
  assert (FN : fine h0 may ls (map (p_sets grow (nid R)) jobs) h0) by (split; [apply state_refl|exact F1]).
  apply schedule_fine with (sch := sch) in FN. destruct (schedule sch _ h0) as [ps h]. cbn [fst snd] in FN. destruct FN as [S F].
  exists (reload h R). split; [now apply reload_repr with (2 := S)|]. split; [apply reload_shape|]. split.
  - intros p Hp. clear -F Hp. induction F as [|l q ls ps Hq F IH]; [easy|]. destruct Hp as [->|Hp]; [|now apply IH].
    destruct Hq as (l' & C & _). split; intros ->; inversion C.
  - intros k m' Hin. rewrite reload_ents in Hin. apply in_map_iff in Hin. destruct Hin as ([k0 m] & X & Hm). cbn in X.
    injection X as -> <-. exists m. split; [exact Hm|].
    assert (Es : exists s, hn h0 (nid m) = Some s /\ hdata s = ndata m).
    { clear -RR Hm. revert Hm. generalize (@nil rune). intros pre. revert pre k. induction R as [n IH] using node_ind'. intros pre k.
      apply repr_eq in RR. destruct RR as [(s & E & (_ & _ & P3 & _) & _) Rk]. rewrite ents_eq. intros [X|X].
      - injection X as <- <-. eauto.
      - apply in_flat_map in X. destruct X as (c & Hc & X). rewrite Forall_forall in IH, Rk. apply (IH c Hc (Rk c Hc) _ _ X). }
    destruct Es as (s & Es & Ds). destruct (st_node _ _ _ S _ _ Es) as (t & Et & _ & D).
    rewrite reload_eq, Et. cbn [ndata]. split; [destruct D; [left; congruence|right; assumption]|].
    intros FIN (v & job & k1 & Hj & Hk & Ka).
    assert (WR : written may h (nid m)).
    { clearbody may. clear -F F2 FIN Hj Hk Ka. revert jobs F2 Hj FIN.
      induction F as [|l p ls ps Hp F IH]; intros jobs F2 Hj FIN; inversion F2 as [|? j ? js O F2']; subst; [easy|].
      destruct Hj as [<-|Hj].
      - destruct Hp as (l' & C & I). rewrite (FIN p (or_introl eq_refl)) in C. inversion C; subst.
        destruct (I (nid m)) as [Y|Y]; [eauto|exact Y|easy].
      - apply (IH js F2' Hj (fun q Hq => FIN q (or_intror Hq))). }
    destruct WR as (t' & Et' & Mt). assert (t' = t) as -> by congruence. exact Mt.
Qed.
End Jobs.

(** ** the empty store; examples *)
Lemma tree_in_new : tree_in newHeap (root newTrie).
Proof.
  split; [|split].
  - constructor; cbn.
    + intros a s. destruct (Nat.eqb_spec a 0) as [->|]; [|discriminate]. intros E. injection E as <-. cbn. lia.
    + intros a b s t. destruct (Nat.eqb_spec a 0) as [->|]; [|discriminate]. destruct (Nat.eqb_spec b 0) as [->|]; [|discriminate]. tauto.
    + auto.
  - apply repr_eq. split; [|constructor]. eexists. split; [reflexivity|]. repeat split.
  - apply newTrie_wf.
Qed.
(** the tree model's Sets, one after the other *)
Fixpoint t_sets (l : list (gostring * gval)) (t : tr) : res tr :=
  match l with [] => Ok t | (k, v) :: l => do (t', _) <- insert_root t k v; t_sets l t' end.
Lemma sets_tree grow l : forall h t, tree_in h (root t) -> next t = nn h ->
  exists h' t', t_sets l t = Ok t' /\ run (p_sets grow (nid (root t)) l) h = Ok (h', tt) /\ next t' = nn h' /\
    grown h (root t) h' (root t').
Proof.
  induction l as [|[k v] l IH]; intros h t T N; cbn [t_sets p_sets].
  - exists h, t. split; [reflexivity|]. split; [reflexivity|]. split; [exact N|now apply grown_refl].
  - destruct (set_grown grow h (root t) k v T) as (h1 & t1 & ir & E & RUN & N1 & G & _).
    rewrite <- N in E. replace (Tr (root t) (next t)) with t in E by now destruct t. rewrite E. cbn [bind].
    rewrite run_seq, RUN. pose proof G as (T1 & _ & _ & (I1 & _)). destruct (IH h1 t1 T1 N1) as (h2 & t2 & E2 & R2 & N2 & G2).
    rewrite I1 in R2. exists h2, t2. split; [exact E2|]. split; [exact R2|]. split; [exact N2|]. now apply grown_trans with h1 (root t1).
Qed.

(** a walk whose callback leaves the tree alone *)
Lemma walk_quiet f : forall h n, hwf h -> repr h n -> depth n <= f ->
  run (p_walk (fun _ => Ret tt) f (nid n)) h = Ok (h, map nid (walk n)).
Proof.
  induction f as [|f IH]; intros h n W R D; [destruct n; cbn in D; lia|].
  apply repr_eq in R. destruct R as [(s & E & Ft & K) Rk]. cbn [p_walk seqp run]. rewrite E, run_seq.
  pose proof (kids_len h _ s _ W E K) as KL. rewrite map_length in KL. unfold kids_of in K. rewrite KL in *.
  set (r := sl_arr (hkids s)) in *.
  assert (LP : forall ks pre, nkids n = pre ++ ks ->
    run (p_walks (p_walk (fun _ => Ret tt) f) r (length pre) (length ks)) h = Ok (h, map nid (flat_map walk ks))).
  { induction ks as [|k ks IHk]; intros pre Ek; cbn [length p_walks run]; [reflexivity|].
    assert (NE : nth_error (ha h r) (length pre) = Some (nid k)).
    { rewrite <- (firstn_skipn (length (nkids n)) (ha h r)), K, Ek, map_app, <- app_assoc.
      rewrite nth_error_app2 by (rewrite map_length; lia). rewrite map_length, Nat.sub_diag. reflexivity. }
    assert (Hk : In k (nkids n)) by (rewrite Ek; apply in_app_iff; right; now left).
    rewrite Forall_forall in Rk. pose proof (depth_kid _ _ Hk). rewrite NE, run_seq, IH; auto; [|lia]. rewrite run_seq.
    specialize (IHk (pre ++ [k])). rewrite <- app_assoc, app_length in IHk. cbn [app length] in IHk. rewrite Nat.add_1_r in IHk.
    rewrite IHk by exact Ek. cbn [run flat_map]. now rewrite map_app. }
  specialize (LP (nkids n) [] eq_refl). cbn [length] in LP. rewrite LP. cbn [run]. destruct n. reflexivity.
Qed.

From Coq Require Import String.
Definition abc : list (gostring * gval) := [(s2b "a"%string, GStr [49%N]); (s2b "b"%string, GStr [50%N]); (s2b "c"%string, GStr [51%N])].
Definition no_room (_ : nat) : nat := 0.
Definition h_abc : heap := match run (p_sets no_room 0 abc) newHeap with Ok (h, _) => h | _ => newHeap end.
Definition r_abc : node := match t_sets abc newTrie with Ok t => root t | _ => root newTrie end.
Lemma abc_in : tree_in h_abc r_abc.
Proof.
  destruct (sets_tree no_room abc newHeap newTrie tree_in_new eq_refl) as (h & t & E & RUN & _ & G & _).
  unfold h_abc, r_abc. change 0 with (nid (root newTrie)). rewrite RUN, E. exact G.
Qed.
(** the callback removes the node it is called with, if it is the one at address [c] *)
Definition rm_when (p c : nat) (a : nat) : prog unit := if a =? c then let* _ := p_remove no_room p c in Ret tt else Ret tt.
Lemma walk_remove_misses : exists h R p c f h' l R', tree_in h R /\ In p (ids R) /\ In c (ids R) /\
  run (p_walk (rm_when p c) f (nid R)) h = Ok (h', l) /\ repr h' R' /\ R' = rem_child p c R /\
  (exists b, In b (ids R') /\ ~ In b l) /\ (exists b, In b (ids R') /\ count_occ Nat.eq_dec l b = 2).
Proof.
  destruct (remove_step no_room h_abc r_abc 0 1 (proj1 abc_in) (proj1 (proj2 abc_in))) as (h' & b & RUN & W & N & R & F); [now left|].
  exists h_abc, r_abc, 0, 1, 5, h', [0; 1; 3; 3], (rem_child 0 1 r_abc).
  split; [exact abc_in|]. split; [vm_compute; auto|]. split; [vm_compute; auto|]. split.
  - assert (X : run (p_walk (rm_when 0 1) 5 (nid r_abc)) h_abc =
      match run (p_remove no_room 0 1) h_abc with Ok (h', _) => Ok (h', [0; 1; 3; 3]) | Panic => Panic | Fuel => Fuel end) by reflexivity.
    now rewrite X, RUN.
  - split; [exact R|]. split; [reflexivity|]. split.
    + exists 2. split; [vm_compute; auto|]. vm_compute. intuition discriminate.
    + exists 3. split; [vm_compute; auto|reflexivity].
Qed.

(** two goroutines set two different keys of an empty store *)
Definition two_sets (grow : nat -> nat) : list (prog (nat * gval * list cbcall)) :=
  [p_set grow 0 (s2b "a"%string) (GStr [49%N]); p_set grow 0 (s2b "b"%string) (GStr [50%N])].
Definition both_then_write : list nat := [0; 0; 0; 1; 1; 1; 1; 1; 1; 0; 0; 0].
Lemma race_loses grow : exists sch ps h R', schedule sch (two_sets grow) newHeap = (ps, h) /\
  (forall p, In p ps -> exists x, p = Ret x) /\ repr h R' /\ wfn R' /\ nid R' = 0 /\
  (exists a, key_at R' (s2b "a"%string) a) /\ ~ (exists a, key_at R' (s2b "b"%string) a).
Proof.
  exists both_then_write. destruct (schedule both_then_write (two_sets grow) newHeap) as [ps h] eqn:E.
  exists ps, h, (mkNode 0 [] [] [mkNode 1 (s2b "a"%string) (s2b "a"%string) [] (GStr [49%N]) [] [] GNil (N.lor NTLeaf NTData)] GNil [] [] GNil NTBranch).
  split; [reflexivity|]. vm_compute in E.
  injection E as <- <-. split; [|split; [|split; [|split; [reflexivity|split]]]].
  - intros p [<-|[<-|[]]]; eauto.
  - cbn. split; [|split; [|exact I]].
    + eexists. split; [reflexivity|]. split; [repeat split|reflexivity].
    + split; [|exact I]. eexists. split; [reflexivity|]. split; [repeat split|reflexivity].
  - constructor; cbn; [repeat constructor; easy|]. constructor; [|constructor]. split; [discriminate|]. constructor; cbn; constructor.
  - exists 1. eexists. split; [vm_compute; auto|reflexivity].
  - intros (a & m & H & _). vm_compute in H. intuition discriminate.
Qed.

(** ** two trees in one memory *)
Lemma sets_frame grow l : forall h R, tree_in h R -> exists h' R', run (p_sets grow (nid R) l) h = Ok (h', tt) /\
  grown h R h' R' /\ frame h h' (fun a => In a (ids R)).
Proof.
  induction l as [|[k v] l IH]; intros h R T; cbn [p_sets].
  - exists h, R. split; [reflexivity|]. split; [now apply grown_refl|apply frame_refl].
  - rewrite run_seq. destruct (set_grown grow h R k v T) as (h1 & t1 & ir & _ & -> & _ & G1 & F1). pose proof G1 as (T1 & N1 & _ & (I1 & O1 & _)).
    destruct (IH h1 (root t1) T1) as (h2 & R2 & RUN & G2 & F2). rewrite I1 in RUN. exists h2, R2. split; [exact RUN|].
    split; [now apply grown_trans with h1 (root t1)|].
    apply frame_trans with (h1 := h1) (Q := fun a => In a (ids (root t1))); auto.
    intros a s E NI Ha. apply NI. destruct (hwf_in h (proj1 T) _ _ E) as (La & _).
    assert (X : In a (old_ids (nn h) (ids (root t1)))) by (apply filter_In; split; [exact Ha|now apply Nat.ltb_lt]).
    rewrite O1 in X. now apply filter_In in X.
Qed.
Definition apart (n m : node) : Prop := forall a, In a (ids n) -> ~ In a (ids m).
Lemma sets_apart grow l h R Q h' : tree_in h R -> repr h Q -> apart R Q ->
  run (p_sets grow (nid R) l) h = Ok (h', tt) -> repr h' Q.
Proof.
  intros T RQ D E. destruct (sets_frame grow l h R T) as (h2 & R2 & E2 & _ & F). rewrite E in E2. injection E2 as <-.
  apply repr_frame with (1 := F); auto. intros a Ha Hb. now apply (D a).
Qed.
Lemma dup_apart grow clone f h R : tree_in h R -> depth R <= f ->
  exists h' R', run (p_dup grow clone f (nid R)) h = Ok (h', nid R') /\ R' = fst (dupNode clone R (nn h)) /\
    tree_in h' R /\ tree_in h' R' /\ apart R R' /\ apart R' R.
Proof.
  intros T D. pose proof T as (W & RR & WT). pose proof (dup_spec grow clone f h R W RR D) as DS.
  pose proof (dup_wf clone _ WT) as WD. unfold Dup in WD. cbn [root next] in WD.
  destruct (dupNode clone R (nn h)) as [n' nx']. destruct DS as (h' & RUN & W' & N' & L & R' & I & A & F & S).
  pose proof (repr_alloc h R W RR) as AL. rewrite Forall_forall in A, AL.
  exists h', n'. split; [now rewrite I|]. split; [reflexivity|]. split; [|split; [|split]].
  - split; [exact W'|]. split; [apply frame_sub with (h := h) (P := fun _ => False); auto; tauto|].
    destruct WT as [W1 [W2 W3]]. split; [exact W1|]. split; [exact W2|]. cbn in *. eapply Forall_impl; [|exact W3]. cbn. lia.
  - split; [exact W'|]. split; [exact R'|]. now rewrite N'.
  - intros a Ha Hb. apply AL in Ha. apply A in Hb. lia.
  - intros a Ha Hb. apply AL in Hb. apply A in Ha. lia.
Qed.

(** a tree that removal has changed is still in memory as a tree, and so is a tree whose nodes have been assigned to *)
Lemma remove_in grow h R p c : tree_in h R -> In p (ids R) -> wf_tr (Tr (rem_child p c R) (nn h)) ->
  exists h' b, run (p_remove grow p c) h = Ok (h', b) /\ tree_in h' (rem_child p c R) /\
    forall Q, repr h Q -> apart R Q -> repr h' Q.
Proof.
  intros T IN WT. destruct T as (W & RR & _). destruct (remove_step grow h R p c W RR IN) as (h' & b & RUN & W' & N' & R' & F).
  exists h', b. split; [exact RUN|]. split; [split; [exact W'|split; [exact R'|now rewrite N']]|].
  intros Q RQ D. apply repr_frame with (1 := F); auto. intros a Ha ->. now apply (D p).
Qed.
Lemma set_data_acts v : acts (fun s => w_data v (w_type (N.lor (htype s) NTData) s)) (setData v).
Proof. split; [|split]; auto. intros m s (P1 & P2 & P3 & P4 & P5 & P6 & P7). unfold fits. cbn. rewrite P7. auto 12. Qed.
Lemma set_comment_acts d c : acts (fun s => w_cmt c (w_desc d s)) (setComment d c).
Proof. split; [|split]; auto. intros m s (P1 & P2 & P3 & P4 & P5 & P6 & P7). unfold fits. cbn. auto 12. Qed.
Lemma set_tag_acts v : acts (w_tag v) (setTag v).
Proof. split; [|split]; auto. intros m s (P1 & P2 & P3 & P4 & P5 & P6 & P7). unfold fits. cbn. auto 12. Qed.
Lemma set_empty_acts : acts (fun s => w_tag GNil (w_data GNil s)) setEmpty.
Proof. split; [|split]; auto. intros m s (P1 & P2 & P3 & P4 & P5 & P6 & P7). unfold fits. cbn. auto 12. Qed.
(** children slices never overlap *)
Lemma own_kids h R a b s t : tree_in h R -> hn h a = Some s -> hn h b = Some t -> a <> b ->
  0 < sl_len (hkids s) -> sl_arr (hkids s) <> sl_arr (hkids t).
Proof.
  intros (W & _) Ea Eb N L Q. pose proof (hwf_own h W a b s t Ea Eb N Q) as Z. destruct (hwf_in h W _ _ Ea) as (_ & _ & L').
  rewrite Z in L'. rewrite (proj1 (hwf_nil h W)) in L'. cbn in L'. lia.
Qed.
