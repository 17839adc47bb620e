(** The programs of Heap.v do to memory what the functions of Node.v and Trie.v do to trees. *)
From Coq Require Import List NArith Bool Arith Lia.
From Verif Require Import GoStr Utf8 Node NodeWf InsertProofs MatchProofs Trie TreeOps Spec Refine Climb ApiRefine Reach Effect
  Derived Derived2 Derived3 Derived4 Derived5 Heap.
Import ListNotations.
Open Scope nat_scope.

Lemma run_seq {A B} (p : prog A) (q : A -> prog B) : forall h,
  run (seqp p q) h = match run p h with Ok (h', x) => run (q x) h' | Panic => Panic | Fuel => Fuel end.
Proof.
  induction p as [x| | |a k IH|a f k IH|n k IH|r i k IH|r i x k IH|r k IH|l k IH]; intros h; cbn [seqp run]; auto.
  - destruct (hn h a); auto.
  - destruct (hn h a); auto.
  - destruct (nth_error (ha h r) i); auto.
  - destruct (i <? length (ha h r)); auto.
Qed.

(** ** memory that holds a tree *)
Definition kids_of (h : heap) (s : hnode) : list nat := firstn (sl_len (hkids s)) (ha h (sl_arr (hkids s))).
Definition fits (n : node) (s : hnode) : Prop :=
  hpath s = npath n /\ hpathS s = npathS n /\ hdata s = ndata n /\ hdesc s = ndesc n /\ hcmt s = ncmt n /\
  htag s = ntag n /\ htype s = ntype n.
(** the node behind the address [nid n] and everything below it is [n] *)
Fixpoint repr (h : heap) (n : node) : Prop :=
  (exists s, hn h (nid n) = Some s /\ fits n s /\ kids_of h s = map nid (nkids n)) /\
  (fix all (l : list node) : Prop := match l with [] => True | k :: t => repr h k /\ all t end) (nkids n).
Lemma repr_eq h n : repr h n <->
  (exists s, hn h (nid n) = Some s /\ fits n s /\ kids_of h s = map nid (nkids n)) /\ Forall (repr h) (nkids n).
Proof.
  assert (X : forall l, (fix all (l : list node) : Prop := match l with [] => True | k :: t => repr h k /\ all t end) l <->
    Forall (repr h) l).
  { induction l as [|k l IH]; split; intros H; [constructor|exact I|..].
    - destruct H. constructor; tauto.
    - inversion H; subst. tauto. }
  destruct n as [i p ps ks d de c tg ty]. cbn [repr nid nkids]. rewrite X. tauto.
Qed.
(** slices lie within arrays, no two nodes share one *)
Record hwf (h : heap) : Prop := {
  hwf_in : forall a s, hn h a = Some s ->
    a < nn h /\ sl_arr (hkids s) < na h /\ sl_len (hkids s) <= length (ha h (sl_arr (hkids s)));
  hwf_own : forall a b s t, hn h a = Some s -> hn h b = Some t -> a <> b ->
    sl_arr (hkids s) = sl_arr (hkids t) -> sl_arr (hkids s) = 0;
  hwf_nil : ha h 0 = [] /\ 0 < na h }.
(** nodes outside [P] keep everything *)
Definition frame (h h' : heap) (P : nat -> Prop) : Prop :=
  forall a s, hn h a = Some s -> ~ P a -> hn h' a = Some s /\ kids_of h' s = kids_of h s.
(** the part of an array before [l] belongs to whoever has read the header: all owners are at least that long *)
Definition snap (h : heap) (r l : nat) : Prop :=
  r < na h /\ l <= length (ha h r) /\ forall a s, hn h a = Some s -> sl_arr (hkids s) = r -> l <= sl_len (hkids s).
Definition snaps (h h' : heap) : Prop :=
  forall r l, snap h r l -> snap h' r l /\ firstn l (ha h' r) = firstn l (ha h r).

Lemma frame_refl h P : frame h h P.
Proof. intros a s E _. auto. Qed.
Lemma frame_trans h h1 h2 P Q : frame h h1 P -> frame h1 h2 Q -> (forall a s, hn h a = Some s -> ~ P a -> ~ Q a) -> frame h h2 P.
Proof.
  intros F1 F2 H a s E N. destruct (F1 a s E N) as [E1 K1]. destruct (F2 a s E1 (H a s E N)) as [E2 K2]. split; congruence.
Qed.
Lemma frame_weaken h h' (P Q : nat -> Prop) : frame h h' P -> (forall a, P a -> Q a) -> frame h h' Q.
Proof. intros F H a s E N. apply F; auto. Qed.
Lemma snaps_refl h : snaps h h.
Proof. intros r l H. auto. Qed.
Lemma snaps_trans h h1 h2 : snaps h h1 -> snaps h1 h2 -> snaps h h2.
Proof. intros A B r l H. destruct (A r l H) as [H1 E1]. destruct (B r l H1) as [H2 E2]. split; congruence. Qed.
Lemma repr_frame h h' P n : frame h h' P -> repr h n -> (forall a, In a (ids n) -> ~ P a) -> repr h' n.
Proof.
  intros F. induction n as [n IH] using node_ind'. intros R D. apply repr_eq in R. destruct R as [(s & E & Ft & K) Rk].
  apply repr_eq. destruct (F _ _ E) as [E' K'].
  { apply D. rewrite ids_eq. now left. }
  split; [exists s; repeat split; auto; [apply Ft..|congruence]|].
  rewrite Forall_forall in *. intros k Hk. apply IH; auto. intros a Ha. apply D. rewrite ids_eq. right.
  apply in_flat_map. eauto.
Qed.
Lemma NoDup_app_disjoint {A} (l r : list A) : NoDup (l ++ r) -> forall a, In a l -> In a r -> False.
Proof.
  induction l as [|x l IH]; cbn; intros H a Hl Hr; [tauto|]. inversion H as [|? ? X Y]; subst. destruct Hl as [->|Hl]; [|eauto].
  apply X. apply in_app_iff. auto.
Qed.
Lemma NoDup_app_remove_l {A} (l r : list A) : NoDup (l ++ r) -> NoDup r.
Proof. induction l as [|x l IH]; cbn; auto. intros H. inversion H; auto. Qed.
Lemma NoDup_app_remove_r {A} (l r : list A) : NoDup (l ++ r) -> NoDup l.
Proof.
  induction l as [|x l IH]; cbn; intros H; [constructor|]. inversion H as [|? ? X Y]; subst. constructor; auto.
  intros Z. apply X. apply in_app_iff. auto.
Qed.
Lemma repr_alloc h n : hwf h -> repr h n -> Forall (fun a => a < nn h) (ids n).
Proof.
  intros W. induction n as [n IH] using node_ind'. intros R. apply repr_eq in R. destruct R as [(s & E & _) Rk].
  rewrite ids_eq. constructor; [now apply (hwf_in h W _ _ E)|]. apply Forall_flat_map.
  rewrite Forall_forall in *. auto.
Qed.

(** ** arrays *)
Lemma nth_error_skipn {A} i (l : list A) x t : skipn i l = x :: t -> nth_error l i = Some x.
Proof. revert l. induction i as [|i IH]; intros [|a l]; cbn; intros E; try discriminate; [congruence|auto]. Qed.
Lemma read_spec h r k : forall i, i + k <= length (ha h r) ->
  run (p_read r i k) h = Ok (h, firstn k (skipn i (ha h r))).
Proof.
  induction k as [|k IH]; intros i L; cbn [p_read run]; [reflexivity|].
  destruct (nth_error (ha h r) i) as [x|] eqn:E; [|apply nth_error_None in E; lia].
  rewrite run_seq, IH by lia. cbn [run]. do 2 f_equal.
  assert (X : skipn i (ha h r) = x :: skipn (S i) (ha h r)); [|now rewrite X].
  revert E. generalize (ha h r). clear. induction i as [|i IH]; intros [|a l] E; cbn in E |- *; try discriminate; [congruence|].
  rewrite IH by exact E. reflexivity.
Qed.
Lemma put_length {A} (l : list A) i x : length (put l i x) = length l.
Proof. revert i. induction l as [|a l IH]; intros [|i]; cbn; auto. Qed.
Lemma put_firstn {A} (l : list A) i j x : j <= i -> firstn j (put l i x) = firstn j l.
Proof. revert i j. induction l as [|a l IH]; intros [|i] [|j] H; cbn; auto; [lia|]. f_equal. apply IH. lia. Qed.
Lemma put_snoc {A} (l : list A) i x : i < length l -> firstn (S i) (put l i x) = firstn i l ++ [x].
Proof. revert i. induction l as [|a l IH]; intros [|i] H; cbn in *; try lia; [reflexivity|]. f_equal. apply IH. lia. Qed.

Ltac neqb := match goal with
  | |- context [?a =? ?b] => replace (a =? b) with false by (symmetry; apply Nat.eqb_neq; first [lia | congruence | auto])
  end.

Section Grow.
Variable grow : nat -> nat.

(** s.children = append(s.children, x) *)
Lemma append_spec h s n x : hwf h -> hn h s = Some n ->
  exists h1 sl, run (p_append grow (hkids n) x) h = Ok (h1, sl) /\ hn h1 = hn h /\ nn h1 = nn h /\
    let h' := set_node h1 s (w_kids sl n) in
    hwf h' /\ kids_of h' (w_kids sl n) = kids_of h n ++ [x] /\ frame h h' (fun a => a = s) /\ snaps h h'.
Proof.
  intros W E. destruct (hwf_in h W _ _ E) as (Ls & La & Ll). destruct (hwf_nil h W) as [Z0 Z1].
  unfold p_append. cbn [run].
  destruct (Nat.ltb_spec (sl_len (hkids n)) (length (ha h (sl_arr (hkids n))))) as [L|L].
  - (* in place *)
    assert (NZ : sl_arr (hkids n) <> 0) by (intros X; rewrite X, Z0 in L; cbn in L; lia).
    cbn [run]. replace (sl_len (hkids n) <? length (ha h (sl_arr (hkids n)))) with true by (symmetry; apply Nat.ltb_lt; exact L).
    cbn [run]. eexists. exists (Sl (sl_arr (hkids n)) (S (sl_len (hkids n)))). split; [reflexivity|].
    split; [reflexivity|]. split; [reflexivity|].
    match goal with |- hwf ?H /\ _ => set (h' := H) end. split; [|split; [|split]].
    + constructor; cbn.
      * intros a t. destruct (Nat.eqb_spec a s) as [->|Na].
        { intros X. injection X as <-. cbn. rewrite Nat.eqb_refl, put_length. lia. }
        intros X. destruct (hwf_in h W _ _ X) as (H1 & H2 & H3). split; [lia|]. split; [lia|].
        destruct (sl_arr (hkids t) =? sl_arr (hkids n)) eqn:Q; auto. rewrite put_length. apply Nat.eqb_eq in Q. now rewrite <- Q.
      * intros a b t u. destruct (Nat.eqb_spec a s) as [->|Na]; intros X; destruct (Nat.eqb_spec b s) as [->|Nb]; intros Y D Q.
        { tauto. }
        { injection X as <-. cbn in Q |- *. exfalso. apply NZ. now apply (hwf_own h W s b n u). }
        { injection Y as <-. cbn in Q. exfalso. apply NZ. rewrite <- Q. now apply (hwf_own h W a s t n). }
        now apply (hwf_own h W a b t u).
      * destruct (sl_arr (hkids n)); [lia|]. split; [exact Z0|exact Z1].
    + unfold kids_of, h'. cbn [w_kids hkids sl_len sl_arr ha set_node set_arr]. rewrite Nat.eqb_refl. now apply put_snoc.
    + intros a t X Na. unfold h'. cbn [hn set_node set_arr]. neqb. split; auto.
      unfold kids_of. cbn [ha set_node set_arr]. destruct (Nat.eqb_spec (sl_arr (hkids t)) (sl_arr (hkids n))) as [Q|Q]; auto.
      exfalso. apply NZ. rewrite <- Q. apply (hwf_own h W a s t n); auto.
    + intros r l (S1 & S2 & S3). split.
      { split; [exact S1|]. cbn. split.
        - destruct (r =? sl_arr (hkids n)) eqn:Q; auto. rewrite put_length. apply Nat.eqb_eq in Q. now rewrite <- Q.
        - intros a t. destruct (Nat.eqb_spec a s) as [->|Na].
          + intros X. injection X as <-. cbn. intros Q. specialize (S3 s n E Q). lia.
          + intros X Q. now apply (S3 a). }
      { cbn. destruct (Nat.eqb_spec r (sl_arr (hkids n))) as [Q|Q]; auto. rewrite put_firstn; [now rewrite Q|].
        apply (S3 s n E). auto. }
  - (* a new array *)
    rewrite run_seq, read_spec by (cbn; lia). cbn [run].
    eexists. exists (Sl (na h) (S (sl_len (hkids n)))). split; [reflexivity|].
    split; [reflexivity|]. split; [reflexivity|].
    match goal with |- hwf ?H /\ _ => set (h' := H) end. split; [|split; [|split]].
    + constructor; cbn.
      * intros a t. destruct (Nat.eqb_spec a s) as [->|Na].
        { intros X. injection X as <-. cbn. rewrite Nat.eqb_refl, app_length, firstn_length. cbn. lia. }
        intros X. destruct (hwf_in h W _ _ X) as (H1 & H2 & H3). split; [lia|]. split; [lia|]. now neqb.
      * intros a b t u. destruct (Nat.eqb_spec a s) as [->|Na]; intros X; destruct (Nat.eqb_spec b s) as [->|Nb]; intros Y D Q.
        { tauto. }
        { injection X as <-. cbn in Q |- *. destruct (hwf_in h W _ _ Y). lia. }
        { injection Y as <-. cbn in Q. destruct (hwf_in h W _ _ X). lia. }
        now apply (hwf_own h W a b t u).
      * destruct (na h); [lia|]. split; [exact Z0|lia].
    + unfold kids_of, h'. cbn [w_kids hkids sl_len sl_arr ha set_node new_arr]. rewrite Nat.eqb_refl.
      cbn [skipn]. rewrite firstn_all2 with (n := sl_len (hkids n)) by lia.
      rewrite firstn_app, firstn_all2 by lia. replace (S (sl_len (hkids n)) - length (ha h (sl_arr (hkids n)))) with 1 by lia.
      reflexivity.
    + intros a t X Na. unfold h'. cbn [hn set_node new_arr]. neqb. split; auto.
      destruct (hwf_in h W _ _ X) as (H1 & H2 & H3). unfold kids_of. cbn [ha set_node new_arr]. now neqb.
    + intros r l (S1 & S2 & S3). cbn. neqb. split; auto. split; [cbn; lia|]. cbn. neqb. split; auto.
      intros a t. destruct (Nat.eqb_spec a s) as [->|Na].
      { intros X. injection X as <-. cbn. lia. }
      intros X Q. now apply (S3 a).
Qed.

End Grow.

(** &nodeS{...} without children *)
Lemma new_node_spec h m : hwf h -> hkids m = Sl 0 0 ->
  hwf (new_node h m) /\ frame h (new_node h m) (fun _ => False) /\ snaps h (new_node h m) /\ kids_of (new_node h m) m = [].
Proof.
  intros W K. destruct (hwf_nil h W) as [Z0 Z1]. split; [|split; [|split]].
  - constructor; cbn.
    + intros a s. destruct (Nat.eqb_spec a (nn h)) as [->|Na]; intros X.
      * injection X as <-. rewrite K. cbn. lia.
      * destruct (hwf_in h W _ _ X). lia.
    + intros a b s t. destruct (Nat.eqb_spec a (nn h)) as [->|Na]; intros X; destruct (Nat.eqb_spec b (nn h)) as [->|Nb]; intros Y D Q.
      * tauto.
      * injection X as <-. now rewrite K.
      * injection Y as <-. now rewrite Q, K.
      * now apply (hwf_own h W a b s t).
    + auto.
  - intros a s X _. cbn. destruct (hwf_in h W _ _ X). neqb. auto.
  - intros r l (S1 & S2 & S3). split; [|reflexivity]. split; [exact S1|]. split; [exact S2|]. cbn.
    intros a s. destruct (Nat.eqb_spec a (nn h)) as [->|Na]; intros X Q; [|now apply (S3 a)].
    injection X as <-. rewrite K in Q. cbn in Q. subst r. rewrite Z0 in S2. cbn in S2. lia.
  - unfold kids_of. now rewrite K.
Qed.

Section Grow2.
Variable grow : nat -> nat.
Lemma leaf_spec h s n word fp v : hwf h -> hn h s = Some n ->
  exists h' sl, run (p_leaf grow s word fp v) h = Ok (h', nn h) /\ hwf h' /\ nn h' = S (nn h) /\
    (exists m, hn h' (nn h) = Some m /\ fits (new_leaf word fp v (nn h)) m /\ kids_of h' m = []) /\
    hn h' s = Some (w_kids sl n) /\ kids_of h' (w_kids sl n) = kids_of h n ++ [nn h] /\
    frame h h' (fun a => a = s) /\ snaps h h'.
Proof.
  intros W E. unfold p_leaf. cbn [run]. set (m := HN word fp (Sl 0 0) v [] [] GNil (N.lor NTLeaf NTData)).
  destruct (new_node_spec h m W eq_refl) as (W1 & F1 & S1 & K1). destruct (hwf_in h W _ _ E) as (Ls & _).
  assert (E1 : hn (new_node h m) s = Some n) by (cbn; neqb; exact E). rewrite E1, run_seq.
  destruct (append_spec grow _ _ _ (nn h) W1 E1) as (h1 & sl & -> & Hn & Nn & W2 & K2 & F2 & S2). cbn [run]. rewrite Hn, E1.
  eexists. exists sl. split; [reflexivity|]. split; [exact W2|]. split; [exact Nn|]. split.
  - destruct (F2 (nn h) m) as [A B]; [cbn; now rewrite Nat.eqb_refl|lia|].
    exists m. split; [exact A|]. split; [repeat split|congruence].
  - split; [cbn; now rewrite Nat.eqb_refl|]. split; [rewrite K2; f_equal; now apply (F1 s n)|].
    split; [|now apply snaps_trans with (new_node h m)].
    apply frame_weaken with (P := fun a => a = s); auto. apply frame_trans with (h1 := new_node h m) (Q := fun a => a = s); auto.
    apply frame_weaken with (P := fun _ => False); [exact F1|tauto].
Qed.

End Grow2.

Lemma split_spec h s n pos : hwf h -> hn h s = Some n -> length (hpath n) - pos <= length (hpathS n) ->
  exists h' b m, run (p_split s pos) h = Ok (h', tt) /\ hwf h' /\ nn h' = S (nn h) /\
    hn h' s = Some b /\ hn h' (nn h) = Some m /\
    hpath b = firstn pos (hpath n) /\ hpathS b = firstn (length (hpathS n) - (length (hpath n) - pos)) (hpathS n) /\
    kids_of h' b = [nn h] /\ hdata b = GNil /\ hdesc b = [] /\ hcmt b = [] /\ htag b = GNil /\ htype b = NTBranch /\
    hpath m = skipn pos (hpath n) /\ hpathS m = hpathS n /\ kids_of h' m = kids_of h n /\ hdata m = hdata n /\
    hdesc m = hdesc n /\ hcmt m = hcmt n /\ htag m = htag n /\ htype m = htype n /\
    frame h h' (fun a => a = s) /\ snaps h h'.
Proof.
  intros W E L. destruct (hwf_in h W _ _ E) as (Ls & La & Ll). destruct (hwf_nil h W) as [Z0 Z1].
  unfold p_split. cbn [run]. rewrite E. cbn [hn new_node].
  replace (s =? nn h) with false by (symmetry; apply Nat.eqb_neq; lia). rewrite E.
  replace (length (hpath n) - pos <=? length (hpathS n)) with true by (symmetry; now apply Nat.leb_le).
  repeat (cbn [run hn set_node new_node new_arr]; rewrite Nat.eqb_refl). cbn [na set_node new_node].
  eexists. eexists. eexists. split; [reflexivity|].
  match goal with |- hwf ?H /\ _ => set (h' := H) end.
  set (b := HN (firstn pos (hpath n)) (firstn (length (hpathS n) - (length (hpath n) - pos)) (hpathS n)) (Sl (na h) 1) GNil [] [] GNil NTBranch).
  set (m := HN (skipn pos (hpath n)) (hpathS n) (hkids n) (hdata n) (hdesc n) (hcmt n) (htag n) (htype n)).
  assert (Hh : forall a, hn h' a = if a =? s then Some b else if a =? nn h then Some m else hn h a).
  { intros a. unfold h'. cbn. destruct (a =? s); reflexivity. }
  assert (Ha : forall r, ha h' r = if r =? na h then [nn h] else ha h r) by reflexivity.
  assert (Nn : nn h' = S (nn h)) by reflexivity. assert (Na : na h' = S (na h)) by reflexivity.
  clearbody h'. split; [constructor|split; [exact Nn|]].
  - intros a t. rewrite Hh, Nn, Na, Ha. destruct (Nat.eqb_spec a s) as [->|D]; [|destruct (Nat.eqb_spec a (nn h)) as [->|D']]; intros X.
    + injection X as <-. cbn. rewrite Nat.eqb_refl. cbn. lia.
    + injection X as <-. cbn. neqb. lia.
    + destruct (hwf_in h W _ _ X). neqb. lia.
  - intros a c t u. rewrite !Hh.
    destruct (Nat.eqb_spec a s) as [->|D]; [|destruct (Nat.eqb_spec a (nn h)) as [->|D']]; intros X;
    (destruct (Nat.eqb_spec c s) as [->|B]; [|destruct (Nat.eqb_spec c (nn h)) as [->|B']]); intros Y N Q; try tauto.
    + injection X as <-. injection Y as <-. cbn in Q. lia.
    + injection X as <-. cbn in Q. destruct (hwf_in h W _ _ Y). lia.
    + injection X as <-. injection Y as <-. cbn in Q. lia.
    + injection X as <-. cbn in *. apply (hwf_own h W s c n u); auto.
    + injection Y as <-. cbn in Q. destruct (hwf_in h W _ _ X). lia.
    + injection Y as <-. cbn in Q. apply (hwf_own h W a s t n); auto.
    + now apply (hwf_own h W a c t u).
  - rewrite Ha, Na. neqb. split; [exact Z0|lia].
  - rewrite !Hh, Nat.eqb_refl. replace (nn h =? s) with false by (symmetry; apply Nat.eqb_neq; lia). rewrite Nat.eqb_refl.
    split; [reflexivity|]. split; [reflexivity|]. do 2 (split; [reflexivity|]).
    split; [unfold kids_of; cbn [b hkids sl_arr sl_len]; now rewrite Ha, Nat.eqb_refl|].
    do 7 (split; [reflexivity|]).
    split; [unfold kids_of; cbn [m hkids sl_arr sl_len]; rewrite Ha; now neqb|].
    do 5 (split; [reflexivity|]). split.
    + intros a t X D. rewrite Hh. destruct (hwf_in h W _ _ X). repeat neqb. split; auto.
      unfold kids_of. rewrite Ha. now neqb.
    + intros r l (S1 & S2 & S3). rewrite Ha. replace (r =? na h) with false by (symmetry; apply Nat.eqb_neq; lia). split; auto.
      split; [lia|]. rewrite Ha. replace (r =? na h) with false by (symmetry; apply Nat.eqb_neq; lia). split; auto.
      intros a t. rewrite Hh. destruct (Nat.eqb_spec a s) as [->|D]; [|destruct (Nat.eqb_spec a (nn h)) as [->|D']]; intros X Q.
      * injection X as <-. cbn in Q. lia.
      * injection X as <-. cbn in *. now apply (S3 s n).
      * now apply (S3 a).
Qed.
Lemma split_panic h s n pos : hn h s = Some n -> length (hpathS n) < length (hpath n) - pos -> hwf h -> run (p_split s pos) h = Panic.
Proof.
  intros E L W. destruct (hwf_in h W _ _ E) as (Ls & _). unfold p_split. cbn [run]. rewrite E. cbn [hn new_node].
  replace (s =? nn h) with false by (symmetry; apply Nat.eqb_neq; lia). rewrite E.
  replace (length (hpath n) - pos <=? length (hpathS n)) with false by (symmetry; now apply Nat.leb_gt). reflexivity.
Qed.

Lemma match_spec h word r : forall ks i,
  i + length ks <= length (ha h r) -> firstn (length ks) (skipn i (ha h r)) = map nid ks -> Forall (repr h) ks ->
  run (p_match word r i (length ks)) h =
  match matchChildren word ks with
  | Ok (Some (_, c, _)) => Ok (h, Some (nid c))
  | Ok None => Ok (h, None)
  | Panic => Panic
  | Fuel => Fuel
  end.
Proof.
  induction ks as [|k ks IH]; intros i L F R; cbn [length p_match matchChildren]; [reflexivity|].
  inversion R as [|? ? Rk R']; subst. cbn [length map] in *.
  destruct (skipn i (ha h r)) as [|x t] eqn:E; [discriminate|]. cbn [firstn] in F. injection F as -> F.
  cbn [run]. rewrite (nth_error_skipn _ _ _ _ E). cbn [run].
  apply repr_eq in Rk. destruct Rk as [(s & Es & Ft & _) _]. rewrite Es. destruct Ft as [-> _].
  destruct (npath k) as [|c0 p]; [reflexivity|]. destruct word as [|w word]; [reflexivity|].
  destruct (c0 =? w)%N; [reflexivity|]. rewrite IH; [|lia| |exact R'].
  - destruct (matchChildren (w :: word) ks) as [[[[a c] d]|]| |]; reflexivity.
  - replace (skipn (S i) (ha h r)) with t; [exact F|]. clear -E. revert E. generalize (ha h r).
    induction i as [|i IH]; intros [|a l] E; cbn in *; try discriminate; [congruence|auto].
Qed.

Lemma kids_len h a s l : hwf h -> hn h a = Some s -> kids_of h s = l -> sl_len (hkids s) = length l.
Proof. intros W E <-. destruct (hwf_in h W _ _ E) as (_ & _ & L). unfold kids_of. rewrite firstn_length. lia. Qed.

(** the first half of insertInternal *)
Lemma split_step h n pos : hwf h -> repr h n -> NoDup (ids n) ->
  match split n pos (nn h) with
  | Ok b => exists h', run (p_split (nid n) pos) h = Ok (h', tt) /\ hwf h' /\ nn h' = S (nn h) /\ repr h' b /\
      nid b = nid n /\ NoDup (ids b) /\ (forall a, In a (ids b) -> In a (ids n) \/ a = nn h) /\
      frame h h' (fun a => a = nid n) /\ snaps h h'
  | Panic => run (p_split (nid n) pos) h = Panic
  | Fuel => False
  end.
Proof.
  intros W R ND. pose proof R as R0. pose proof (repr_alloc h n W R) as AL. apply repr_eq in R.
  destruct R as [(s & E & Ft & K) Rk]. unfold split. pose proof Ft as (P1 & P2 & P3 & P4 & P5 & P6 & P7).
  destruct (Nat.leb_spec (length (npath n) - pos) (length (npathS n))) as [L|L].
  2: { apply split_panic with (n := s); auto. now rewrite P1, P2. }
  rewrite <- P1, <- P2 in L.
  destruct (split_spec h (nid n) s pos W E L) as (h' & b & m & RUN & W' & N' & Eb & Em & B1 & B2 & B3 & B4 & B5 & B6 & B7 & B8 &
    M1 & M2 & M3 & M4 & M5 & M6 & M7 & M8 & F & S).
  exists h'. split; [exact RUN|]. split; [exact W'|]. split; [exact N'|].
  assert (IE : flat_map ids (nkids n) = tl (ids n)) by now rewrite ids_eq.
  rewrite ids_eq in ND. inversion ND as [|? ? X ND']; subst.
  split; [|split; [reflexivity|split; [|split; [|split; [exact F|exact S]]]]].
  - apply repr_eq. cbn [nid nkids map]. split.
    + exists b. split; [exact Eb|]. split; [|exact B3]. unfold fits. cbn. rewrite B1, B2, P1, P2. auto 12.
    + constructor; [|constructor]. apply repr_eq. cbn [nid nkids]. split.
      * exists m. split; [exact Em|]. split; [|now rewrite M3]. unfold fits. cbn. rewrite M1, M2, M4, M5, M6, M7, M8, P1. auto 12.
      * rewrite Forall_forall in *. intros k Hk. apply repr_frame with (h := h) (P := fun a => a = nid n); auto.
        intros a Ha ->. apply X. apply in_flat_map. eauto.
  - rewrite ids_eq. cbn [nid nkids flat_map]. rewrite ids_eq. cbn [nid nkids]. rewrite app_nil_r.
    rewrite ids_eq in AL. inversion AL as [|? ? A1 A2]; subst. rewrite Forall_forall in A2.
    constructor; [|constructor; auto].
    + intros [Y|Y]; [lia|tauto].
    + intros Y. apply A2 in Y. lia.
  - intros a. rewrite ids_eq. cbn [nid nkids flat_map]. rewrite ids_eq. cbn [nid nkids]. rewrite app_nil_r. rewrite (ids_eq n). cbn [In]. intros [Y|[Y|Y]]; auto.
Qed.

Section Insert.
Variable grow : nat -> nat.
(** a leaf is added below [b] *)
Lemma leaf_step h b word fp v : hwf h -> repr h b -> NoDup (ids b) ->
  exists h', run (p_leaf grow (nid b) word fp v) h = Ok (h', nn h) /\ hwf h' /\ nn h' = S (nn h) /\
    repr h' (insertAsLeaf b word fp v (nn h)) /\ frame h h' (fun a => a = nid b) /\ snaps h h'.
Proof.
  intros W R ND. pose proof R as R0. apply repr_eq in R. destruct R as [(s & E & Ft & K) Rk].
  destruct (leaf_spec grow h (nid b) s word fp v W E) as (h' & sl & RUN & W' & N' & (m & Em & Fm & Km) & Es & Ks & F & S).
  exists h'. split; [exact RUN|]. split; [exact W'|]. split; [exact N'|]. split; [|split; [exact F|exact S]].
  apply repr_eq. unfold insertAsLeaf. cbn [nid set_kids nkids]. split.
  - exists (w_kids sl s). split; [exact Es|]. split; [exact Ft|]. rewrite Ks, K, map_app. reflexivity.
  - apply Forall_app. split.
    + rewrite Forall_forall in *. intros k Hk. apply repr_frame with (h := h) (P := fun a => a = nid b); auto.
      intros a Ha ->. rewrite ids_eq in ND. inversion ND as [|? ? X _]; subst. apply X. apply in_flat_map. eauto.
    + constructor; [|constructor]. apply repr_eq. split; [exists m; auto|constructor].
Qed.

Lemma insert_spec f : forall h n word fp v, hwf h -> repr h n -> NoDup (ids n) ->
  match insertInternal f n word fp v (nn h) with
  | Ok ir => exists h', run (p_insert grow f (nid n) word fp v) h = Ok (h', (ir_id ir, ir_old ir, ir_calls ir)) /\
      hwf h' /\ nn h' = ir_next ir /\ nn h <= nn h' /\ repr h' (ir_node ir) /\ nid (ir_node ir) = nid n /\
      frame h h' (fun a => In a (ids n)) /\ snaps h h'
  | Panic => run (p_insert grow f (nid n) word fp v) h = Panic
  | Fuel => run (p_insert grow f (nid n) word fp v) h = Fuel
  end.
Proof.
  induction f as [|f IH]; intros h n word fp v W R ND; [reflexivity|].
  pose proof R as R0. apply repr_eq in R. destruct R as [(s & E & Ft & K) Rk].
  pose proof Ft as (P1 & _).
  assert (SELF : In (nid n) (ids n)) by (rewrite ids_eq; now left).
  cbn [insertInternal p_insert run]. rewrite E, P1, (kids_len h _ s _ W E K), map_length.
  destruct ((length (npath n) =? 0) && ((0 <? length word) && (length (nkids n) =? 0))).
  { rewrite run_seq. destruct (leaf_step h n word fp v W R0 ND) as (h' & -> & W' & N' & R' & F & S). cbn [run ir_id ir_old ir_calls ir_next ir_node].
    exists h'. do 6 (split; [solve [auto|lia]|]). split; [|exact S]. apply frame_weaken with (1 := F). now intros a ->. }
  set (cpl := if (0 <? length (npath n)) && (0 <? length word) then cpl_len word (npath n) else 0).
  assert (ST : match (if cpl <? length (npath n) then do b <- split n cpl (nn h); Ok (b, S (nn h)) else Ok (n, nn h)) with
    | Ok (b, nx1) => exists h1, run (if cpl <? length (npath n) then p_split (nid n) cpl else Ret tt) h = Ok (h1, tt) /\
        hwf h1 /\ nn h1 = nx1 /\ nn h <= nn h1 /\ repr h1 b /\ nid b = nid n /\ NoDup (ids b) /\
        (forall a, In a (ids b) -> In a (ids n) \/ nn h <= a) /\ frame h h1 (fun a => a = nid n) /\ snaps h h1
    | Panic => run (if cpl <? length (npath n) then p_split (nid n) cpl else Ret tt) h = Panic
    | Fuel => False
    end).
  { destruct (cpl <? length (npath n)).
    - pose proof (split_step h n cpl W R0 ND) as Sp. destruct (split n cpl (nn h)) as [b| |]; cbn [bind]; auto.
      destruct Sp as (h1 & A & B & C & D & G & H & I & J & L). exists h1. do 7 (split; [solve [auto|lia]|]).
      split; [|auto]. intros a Ha. destruct (I a Ha); auto. right. lia.
    - exists h. do 8 (split; [solve [auto|lia]|]). split; [apply frame_refl|apply snaps_refl]. }
  rewrite run_seq.
  destruct (if cpl <? length (npath n) then do b <- split n cpl (nn h); Ok (b, S (nn h)) else Ok (n, nn h)) as [[b nx1]| |];
    cbn [bind]; [|now rewrite ST|tauto].
  destruct ST as (h1 & -> & W1 & <- & N1 & R1 & I1 & ND1 & J1 & F1 & S1).
  pose proof R1 as R1'. apply repr_eq in R1'. destruct R1' as [(s1 & E1 & Ft1 & K1) Rk1]. rewrite I1 in E1.
  destruct (cpl <? length word).
  - set (word' := if 0 <? cpl then skipn cpl word else word). cbn [run]. rewrite E1, run_seq, (kids_len h1 _ s1 _ W1 E1 K1), map_length.
    destruct (hwf_in h1 W1 _ _ E1) as (_ & _ & L1). pose proof (kids_len h1 _ s1 _ W1 E1 K1) as KL. rewrite map_length in KL.
    rewrite match_spec with (ks := nkids b); [|lia|cbn [skipn]; rewrite <- KL; exact K1|exact Rk1].
    destruct (matchChildren word' (nkids b)) as [[[[l c] r]|]| |] eqn:M; cbn [bind]; auto.
    + assert (Ek : nkids b = l ++ c :: r).
      { clear -M. revert l c r M. induction (nkids b) as [|k ks IH]; intros l c r; cbn [matchChildren]; [discriminate|].
        destruct (npath k) as [|c0 p]; [discriminate|]. destruct word' as [|w w']; [discriminate|].
        destruct (c0 =? w)%N; [intros X; injection X as <- <- <-; reflexivity|].
        destruct (matchChildren (w :: w') ks) as [[[[a d] e]|]| |]; cbn [bind]; try discriminate.
        intros X. injection X as <- <- <-. cbn. f_equal. now apply IH. }
      rewrite run_seq. rewrite ids_eq, Ek, flat_map_app in ND1. cbn [flat_map] in ND1.
      apply NoDup_cons_iff in ND1. destruct ND1 as [NI ND1].
      pose proof (NoDup_app_remove_l _ _ ND1) as NDc. apply NoDup_app_remove_r in NDc.
      rewrite Ek in Rk1. apply Forall_app in Rk1. destruct Rk1 as [Rl Rc]. inversion Rc as [|? ? Rc1 Rr]; subst.
      specialize (IH h1 c word' fp v W1 Rc1 NDc).
      assert (CI : forall a, In a (ids c) -> In a (ids b)).
      { intros a Ha. rewrite ids_eq, Ek, flat_map_app. cbn [flat_map]. right. rewrite !in_app_iff. auto. }
      destruct (insertInternal f c word' fp v (nn h1)) as [ir| |]; cbn [bind]; [|now rewrite IH..].
      destruct IH as (h2 & -> & W2 & N2 & N2' & R2 & I2 & F2 & S2). cbn [run ir_id ir_old ir_calls ir_next ir_node].
      exists h2. split; [reflexivity|]. split; [exact W2|]. split; [exact N2|]. split; [lia|].
      assert (DJ : forall k, In k (l ++ r) -> forall a, In a (ids k) -> ~ In a (ids c)).
      { intros k Hk a Ha Hc. apply in_app_iff in Hk. destruct Hk as [Hk|Hk].
        - apply (NoDup_app_disjoint _ _ ND1 a); [apply in_flat_map; eauto|apply in_app_iff; auto].
        - apply NoDup_app_remove_l in ND1. apply (NoDup_app_disjoint _ _ ND1 a); [auto|apply in_flat_map; eauto]. }
      split; [|split; [exact I1|split; [|now apply snaps_trans with h1]]].
      * apply repr_eq. cbn [nid set_kids nkids]. destruct (F2 (nid n) s1 E1) as [E2 K2].
        { intros X. apply NI. rewrite I1. rewrite !in_app_iff. auto. }
        split.
        { exists s1. rewrite I1. split; [exact E2|]. split; [exact Ft1|]. rewrite K2, K1, Ek, !map_app. cbn [map]. now rewrite I2. }
        apply Forall_app. rewrite Forall_forall in Rl, Rr. split; [|constructor; [exact R2|]]; apply Forall_forall; intros k Hk;
          (apply repr_frame with (h := h1) (P := fun a => In a (ids c)); [exact F2|auto|]);
          apply DJ; apply in_app_iff; auto.
      * apply frame_trans with (h1 := h1) (Q := fun a => In a (ids c)); auto.
        -- apply frame_weaken with (1 := F1). now intros a ->.
        -- intros a t X NX Hc. apply CI in Hc. apply J1 in Hc. destruct Hc as [Hc|Hc]; [tauto|]. destruct (hwf_in h W _ _ X). lia.
    + rewrite run_seq. rewrite <- I1. destruct (leaf_step h1 b word' fp v W1 R1 ND1) as (h2 & -> & W2 & N2 & R2 & F2 & S2).
      cbn [run ir_id ir_old ir_calls ir_next ir_node]. exists h2. split; [reflexivity|]. split; [exact W2|]. split; [exact N2|].
      split; [lia|]. split; [exact R2|]. split; [reflexivity|]. split; [|now apply snaps_trans with h1].
      apply frame_trans with (h1 := h1) (Q := fun a => a = nid b); auto.
      * apply frame_weaken with (1 := F1). now intros a ->.
      * intros a t _ NX ->. apply NX. now rewrite I1.
  - cbn [run]. rewrite E1. repeat (cbn [run hn set_node]; rewrite Nat.eqb_refl). cbn [run ir_id ir_old ir_calls ir_next ir_node].
    destruct Ft1 as (Q1 & Q2 & Q3 & Q4 & Q5 & Q6 & Q7).
    eexists. split; [cbn [w_type hdata]; rewrite Q3, I1; reflexivity|].
    match goal with |- hwf ?H /\ _ => set (h' := H) end.
    assert (Hh : forall a, hn h' a = if a =? nid n then Some (w_data v (w_type (N.lor (htype s1) NTData) s1)) else hn h1 a).
    { intros a. unfold h'. cbn. destruct (a =? nid n); reflexivity. }
    assert (Ha : forall r, ha h' r = ha h1 r) by reflexivity. assert (Hk : forall t, kids_of h' t = kids_of h1 t) by reflexivity.
    assert (Nn : nn h' = nn h1) by reflexivity. assert (Na : na h' = na h1) by reflexivity. clearbody h'.
    assert (F2 : frame h1 h' (fun a => a = nid n)).
    { intros a t X D. rewrite Hh. neqb. auto. }
    split; [constructor|split; [exact Nn|split; [lia|split; [|split; [exact I1|split]]]]].
    + intros a t. rewrite Hh, Nn, Na, Ha. destruct (Nat.eqb_spec a (nid n)) as [->|D]; [|apply hwf_in; auto].
      intros X. injection X as <-. cbn [w_data w_type hkids]. now apply (hwf_in h1 W1).
    + intros a c t u. rewrite !Hh. intros X Y D Q.
      destruct (Nat.eqb_spec a (nid n)) as [->|D1]; destruct (Nat.eqb_spec c (nid n)) as [->|D2]; try tauto.
      * injection X as <-. cbn in *. now apply (hwf_own h1 W1 (nid n) c s1 u).
      * injection Y as <-. cbn in *. now apply (hwf_own h1 W1 a (nid n) t s1).
      * now apply (hwf_own h1 W1 a c t u).
    + rewrite Ha, Na. apply (hwf_nil h1 W1).
    + apply repr_eq. cbn [nid setData nkids]. rewrite I1, Hh, Nat.eqb_refl. split.
      * eexists. split; [reflexivity|]. split; [|rewrite Hk; exact K1]. unfold fits. cbn. rewrite Q7. auto 12.
      * rewrite Forall_forall in *. intros k Hin. apply repr_frame with (h := h1) (P := fun a => a = nid n); auto.
        intros a Ha' ->. rewrite ids_eq in ND1. inversion ND1 as [|? ? X _]; subst. apply X. rewrite I1. apply in_flat_map. eauto.
    + apply frame_trans with (h1 := h1) (Q := fun a => a = nid n); auto.
      * apply frame_weaken with (1 := F1). now intros a ->.
      * intros a t _ NX ->. tauto.
    + apply snaps_trans with h1; auto. intros r l (X1 & X2 & X3). rewrite Ha. split; auto. split; [lia|]. rewrite Ha. split; auto.
      intros a t. rewrite Hh. destruct (Nat.eqb_spec a (nid n)) as [->|D]; [|apply X3].
      intros X. injection X as <-. cbn. now apply (X3 (nid n)).
Qed.
End Insert.

(** ** assignments through a pointer *)
Lemma set_node_wf h a s t : hwf h -> hn h a = Some s -> hkids t = hkids s -> hwf (set_node h a t).
Proof.
  intros W E K. constructor; cbn.
  - intros b u. destruct (Nat.eqb_spec b a) as [->|D]; [|apply (hwf_in h W)].
    intros X. injection X as <-. rewrite K. now apply (hwf_in h W).
  - intros b c u w. destruct (Nat.eqb_spec b a) as [->|D]; intros X; destruct (Nat.eqb_spec c a) as [->|D']; intros Y N Q; try tauto.
    + injection X as <-. rewrite K in *. now apply (hwf_own h W a c s w).
    + injection Y as <-. rewrite K in Q. now apply (hwf_own h W b a u s).
    + now apply (hwf_own h W b c u w).
  - apply (hwf_nil h W).
Qed.
Lemma set_node_snaps h a s t : hn h a = Some s -> hkids t = hkids s -> snaps h (set_node h a t).
Proof.
  intros E K r l (S1 & S2 & S3). split; [|reflexivity]. split; [exact S1|]. split; [exact S2|]. cbn.
  intros b u. destruct (Nat.eqb_spec b a) as [->|D]; [|apply S3]. intros X. injection X as <-. rewrite K. now apply (S3 a).
Qed.
Lemma set_node_frame h a t : frame h (set_node h a t) (fun b => b = a).
Proof. intros b s E D. cbn. neqb. auto. Qed.
(** [f] on a node in memory is [g] on a node of the tree *)
Definition acts (f : hnode -> hnode) (g : node -> node) : Prop :=
  (forall m s, fits m s -> fits (g m) (f s)) /\ (forall s, hkids (f s) = hkids s) /\
  (forall m, nid (g m) = nid m).
Lemma upd_nid id g n : (forall m, nid (g m) = nid m) -> nid (upd id g n) = nid n.
Proof. intros H. rewrite upd_eq. cbn. destruct (nid n =? id); auto. Qed.
Lemma attr_spec f g a h n : acts f g -> hwf h -> repr h n -> In a (ids n) ->
  exists h', run (UpdN a f (Ret tt)) h = Ok (h', tt) /\ hwf h' /\ nn h' = nn h /\ repr h' (upd a g n) /\
    frame h h' (fun b => b = a) /\ snaps h h'.
Proof.
  intros (A1 & A2 & A3) W R IN.
  assert (EX : exists s, hn h a = Some s).
  { clear W. revert IN R. induction n as [n IH] using node_ind'. rewrite ids_eq. intros IN R. apply repr_eq in R.
    destruct R as [(s & E & _) Rk]. destruct IN as [<-|IN]; [eauto|]. apply in_flat_map in IN. destruct IN as (k & Hk & IN).
    rewrite Forall_forall in *. eauto. }
  destruct EX as [s E]. cbn [run]. rewrite E. eexists. split; [reflexivity|].
  split; [apply set_node_wf with s; auto|]. split; [reflexivity|]. split; [|split; [apply set_node_frame|now apply set_node_snaps with s]].
  clear IN. revert R. induction n as [n IH] using node_ind'. intros R. apply repr_eq in R. destruct R as [(t & Et & Ft & K) Rk].
  apply repr_eq. rewrite upd_nid by exact A3. rewrite upd_eq. cbn [nkids set_kids]. split.
  - cbn [hn set_node]. destruct (Nat.eqb_spec (nid n) a) as [Q|Q].
    + exists (f s). split; [reflexivity|]. assert (t = s) as -> by congruence. split; [exact (A1 _ _ Ft)|].
      unfold kids_of. rewrite A2. change (kids_of h s = map nid (map (upd a g) (nkids n))). rewrite K, map_map. apply map_ext.
      intros k. now rewrite upd_nid.
    + exists t. split; [exact Et|]. split; [exact Ft|]. change (kids_of h t = map nid (map (upd a g) (nkids n))).
      rewrite K, map_map. apply map_ext. intros k. now rewrite upd_nid.
  - apply Forall_map. rewrite Forall_forall in *. auto.
Qed.

(** ** remove *)
Fixpoint drop1 (c : nat) (l : list nat) : list nat :=
  match l with [] => [] | x :: t => if x =? c then t else x :: drop1 c t end.
Lemma drop1_ids c ks : drop1 c (map nid ks) = map nid (snd (remove_id c ks)).
Proof.
  induction ks as [|k ks IH]; cbn; [reflexivity|]. destruct (nid k =? c); [reflexivity|].
  destruct (remove_id c ks) as [b t]. cbn in *. now rewrite IH.
Qed.
Lemma remove_id_incl c ks k : In k (snd (remove_id c ks)) -> In k ks.
Proof.
  induction ks as [|x ks IH]; cbn; [tauto|]. destruct (nid x =? c); cbn; [auto|].
  destruct (remove_id c ks) as [b t]. cbn in *. tauto.
Qed.
Lemma find_spec h r c k : forall i, i + k <= length (ha h r) ->
  let l := firstn k (skipn i (ha h r)) in
  (exists j, run (p_find r i k c) h = Ok (h, Some (i + j)) /\ j < k /\ drop1 c l = firstn j l ++ skipn (S j) l /\ In c l) \/
  (run (p_find r i k c) h = Ok (h, None) /\ drop1 c l = l /\ ~ In c l).
Proof.
  induction k as [|k IH]; intros i L; cbn zeta; cbn [p_find run firstn]; [right; auto|].
  destruct (skipn i (ha h r)) as [|x t] eqn:E.
  { apply (f_equal (@length nat)) in E. rewrite skipn_length in E. cbn in E. lia. }
  rewrite (nth_error_skipn _ _ _ _ E). cbn [firstn drop1].
  assert (Et : skipn (S i) (ha h r) = t).
  { clear -E. revert E. generalize (ha h r). induction i as [|i IH]; intros [|a l] E; cbn in *; try discriminate; [congruence|auto]. }
  destruct (Nat.eqb_spec x c) as [->|D]; cbn [run].
  - left. exists 0. rewrite Nat.add_0_r. cbn. repeat split; auto. lia.
  - destruct (IH (S i)) as [(j & A & B & C & G)|(A & B & C)]; [lia| |]; rewrite Et in *.
    + left. exists (S j). rewrite A. replace (S i + j) with (i + S j) by lia. split; [reflexivity|]. split; [lia|].
      cbn [firstn skipn]. rewrite C. split; [reflexivity|]. now right.
    + right. rewrite A, B. repeat split; auto. intros [X|X]; auto.
Qed.
Lemma put_app {A} (a b : list A) x y : put (a ++ y :: b) (length a) x = a ++ x :: b.
Proof. induction a as [|z a IH]; cbn; [reflexivity|]. now rewrite IH. Qed.
Lemma write_spec l : forall h r i, i + length l <= length (ha h r) ->
  exists h', run (p_write r i l) h = Ok (h', tt) /\ hn h' = hn h /\ nn h' = nn h /\ na h' = na h /\
    (forall q, ha h' q = if q =? r then firstn i (ha h r) ++ l ++ skipn (i + length l) (ha h r) else ha h q).
Proof.
  induction l as [|x l IH]; intros h r i L; cbn [p_write run].
  - exists h. repeat (split; [reflexivity|]). intros q. destruct (Nat.eqb_spec q r) as [->|]; [|reflexivity].
    cbn [length app]. now rewrite Nat.add_0_r, firstn_skipn.
  - cbn [length] in L. replace (i <? length (ha h r)) with true by (symmetry; apply Nat.ltb_lt; lia).
    destruct (IH (set_arr h r (put (ha h r) i x)) r (S i)) as (h' & RUN & Hn & Nn & Na & Ha).
    { cbn. rewrite Nat.eqb_refl, put_length. lia. }
    exists h'. split; [exact RUN|]. split; [exact Hn|]. split; [exact Nn|]. split; [exact Na|].
    intros q. rewrite Ha. cbn [ha set_arr]. rewrite Nat.eqb_refl. destruct (q =? r); [|reflexivity].
    rewrite put_snoc by lia. rewrite <- app_assoc. cbn [app]. do 3 f_equal. cbn [length].
    destruct (skipn i (ha h r)) as [|y t] eqn:E.
    { apply (f_equal (@length nat)) in E. rewrite skipn_length in E. cbn in E. lia. }
    assert (Li : length (firstn i (ha h r)) = i) by (rewrite firstn_length; lia).
    pose proof (put_app (firstn i (ha h r)) t x y) as Ep. rewrite Li, <- E, firstn_skipn in Ep. rewrite Ep.
    transitivity (skipn (length l) t).
    + change (firstn i (ha h r) ++ x :: t) with (firstn i (ha h r) ++ [x] ++ t). rewrite app_assoc, skipn_app, skipn_all2.
      2: { rewrite app_length. cbn. lia. }
      rewrite app_length, Li. cbn [length app]. f_equal. lia.
    + symmetry. rewrite <- (firstn_skipn i (ha h r)) at 1. rewrite E. change (firstn i (ha h r) ++ y :: t) with (firstn i (ha h r) ++ [y] ++ t).
      rewrite app_assoc, skipn_app, skipn_all2.
      2: { rewrite app_length. cbn. lia. }
      rewrite app_length, Li. cbn [length app]. f_equal. lia.
Qed.

Lemma skipn_skipn' {A} i j (l : list A) : skipn j (skipn i l) = skipn (i + j) l.
Proof. revert l. induction i as [|i IH]; intros [|a l]; cbn; auto. now rewrite skipn_nil. Qed.
Section Remove.
Variable grow : nat -> nat.
Lemma remove_spec h s n c : hwf h -> hn h s = Some n ->
  exists h' sl b, run (p_remove grow s c) h = Ok (h', b) /\ (b = true <-> In c (kids_of h n)) /\ hwf h' /\ nn h' = nn h /\
    hn h' s = Some (w_kids sl n) /\ kids_of h' (w_kids sl n) = drop1 c (kids_of h n) /\ frame h h' (fun a => a = s).
Proof.
  intros W E. destruct (hwf_in h W _ _ E) as (Ls & La & Ll). destruct (hwf_nil h W) as [Z0 Z1].
  unfold p_remove. cbn [run]. rewrite E, run_seq.
  destruct (find_spec h (sl_arr (hkids n)) c (sl_len (hkids n)) 0) as [(j & -> & Lj & D & I)|(-> & D & I)]; [lia| |];
    change (skipn 0 (ha h (sl_arr (hkids n)))) with (ha h (sl_arr (hkids n))) in D, I; cbn [Nat.add].
  2: { exists h, (hkids n), false. split; [reflexivity|]. split; [split; [discriminate|tauto]|]. split; [exact W|]. split; [reflexivity|].
       assert (w_kids (hkids n) n = n) as -> by now destruct n. split; [exact E|]. split; [now symmetry|]. apply frame_refl. }
  set (r := sl_arr (hkids n)) in *. set (len := sl_len (hkids n)) in *.
  cbn [run]. rewrite E. cbn [run]. fold r. replace (j <=? length (ha h r)) with true by (symmetry; apply Nat.leb_le; lia).
  cbn [run]. rewrite E. fold r len. replace (S j <=? len) with true by (symmetry; apply Nat.leb_le; lia).
  rewrite run_seq, read_spec by lia. set (l := firstn (len - S j) (skipn (S j) (ha h r))).
  assert (LL : length l = len - S j) by (unfold l; rewrite firstn_length, skipn_length; lia).
  rewrite run_seq. unfold p_appends. cbn [run sl_arr sl_len].
  replace (j + length l <=? length (ha h r)) with true by (symmetry; apply Nat.leb_le; lia).
  rewrite run_seq. destruct (write_spec l h r j) as (h1 & -> & Hn & Nn & Na & Ha); [lia|]. cbn [run]. rewrite Hn, E.
  replace (j + length l) with (len - 1) by lia.
  assert (NZ : r <> 0) by (intros X; rewrite X, Z0 in Ll; cbn in Ll; lia).
  set (h' := set_node h1 s (w_kids (Sl r (len - 1)) n)).
  assert (LA : forall q, length (ha h' q) = length (ha h q)).
  { intros q. unfold h'. cbn [ha set_node]. rewrite Ha. destruct (Nat.eqb_spec q r) as [->|]; auto.
    rewrite !app_length, firstn_length, skipn_length. lia. }
  exists h', (Sl r (len - 1)), true. split; [reflexivity|]. split; [tauto|].
  split; [constructor|split; [exact Nn|split; [|split]]].
  - intros a t. rewrite LA. unfold h'. cbn. rewrite Hn, Nn, Na. destruct (Nat.eqb_spec a s) as [->|Q]; [|apply (hwf_in h W)].
    intros X. injection X as <-. cbn. lia.
  - intros a b t u. unfold h'. cbn. rewrite Hn.
    destruct (Nat.eqb_spec a s) as [->|Q]; intros X; destruct (Nat.eqb_spec b s) as [->|Q']; intros Y N B; try tauto.
    + injection X as <-. cbn in *. now apply (hwf_own h W s b n u).
    + injection Y as <-. cbn in *. now apply (hwf_own h W a s t n).
    + now apply (hwf_own h W a b t u).
  - unfold h'. cbn. rewrite Ha, Na. neqb. auto.
  - unfold h'. cbn. now rewrite Nat.eqb_refl.
  - unfold kids_of at 1, h'. cbn [w_kids hkids sl_arr sl_len ha set_node]. rewrite Ha, Nat.eqb_refl.
    change (kids_of h n) with (firstn len (ha h r)). rewrite D.
    rewrite firstn_firstn, Nat.min_l by lia. rewrite skipn_firstn_comm. fold l.
    rewrite app_assoc, firstn_app, firstn_all2 by (rewrite app_length, firstn_length; lia).
    rewrite app_length, firstn_length, LL. replace (len - 1 - _) with 0 by lia. cbn [firstn]. now rewrite app_nil_r.
  - intros a t X Q. unfold h'. cbn [hn set_node]. rewrite Hn. neqb. split; [exact X|].
    unfold kids_of. cbn [ha set_node]. rewrite Ha. destruct (Nat.eqb_spec (sl_arr (hkids t)) r) as [B|B]; [|reflexivity].
    exfalso. apply NZ. rewrite <- B. apply (hwf_own h W a s t n); auto.
Qed.
Lemma remove_step h n p c : hwf h -> repr h n -> In p (ids n) ->
  exists h' b, run (p_remove grow p c) h = Ok (h', b) /\ hwf h' /\ nn h' = nn h /\ repr h' (rem_child p c n) /\
    frame h h' (fun a => a = p).
Proof.
  intros W R IN.
  assert (EX : exists s, hn h p = Some s).
  { clear W. revert IN R. induction n as [n IH] using node_ind'. rewrite ids_eq. intros IN R. apply repr_eq in R.
    destruct R as [(s & E & _) Rk]. destruct IN as [<-|IN]; [eauto|]. apply in_flat_map in IN. destruct IN as (k & Hk & IN).
    rewrite Forall_forall in *. eauto. }
  destruct EX as [s E]. destruct (remove_spec h p s c W E) as (h' & sl & b & RUN & _ & W' & N' & Es & Ks & F).
  exists h', b. do 3 (split; [assumption|]). split; [|exact F].
  clear IN RUN. revert R. induction n as [n IH] using node_ind'. intros R. apply repr_eq in R. destruct R as [(t & Et & Ft & K) Rk].
  assert (Rk' : Forall (repr h') (map (rem_child p c) (nkids n))).
  { apply Forall_map. rewrite Forall_forall in *. auto. }
  assert (Mk : map nid (map (rem_child p c) (nkids n)) = map nid (nkids n)).
  { rewrite map_map. apply map_ext. intros k. apply rem_child_nid. }
  apply repr_eq. rewrite rem_child_nid, rem_child_eq. cbn zeta. destruct (Nat.eqb_spec (nid n) p) as [Q|Q].
  - cbn [nkids set_kids]. split.
    + exists (w_kids sl s). rewrite Q. split; [exact Es|]. assert (t = s) as -> by congruence. split; [exact Ft|].
      rewrite Ks, K, <- Mk. apply drop1_ids.
    + rewrite Forall_forall in *. intros k Hk. apply remove_id_incl in Hk. auto.
  - cbn [nkids set_kids]. split; [|exact Rk']. destruct (F _ _ Et Q) as [E' K']. exists t. split; [exact E'|]. split; [exact Ft|]. congruence.
Qed.
End Remove.
