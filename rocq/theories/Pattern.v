(** Lookups in trees with route patterns: termination. *)
From Coq Require Import List NArith Bool Arith Lia.
From Verif Require Import GoStr Utf8 Node NodeWf InsertProofs MatchProofs Trie TreeOps Spec Refine Climb ApiRefine Reach Effect Derived.
Import ListNotations.
Open Scope nat_scope.

(** ** the two inner loops *)
(** the segment at the start: all runes up to the first delimiter *)
Fixpoint seg (d : rune) (l : list rune) : list rune :=
  match l with
  | [] => []
  | c :: t => if (c =? d)%N then [] else c :: seg d t
  end.

Lemma seg_len d l : length (seg d l) <= length l.
Proof. induction l as [|c l IH]; cbn; [lia|]. destruct (c =? d)%N; cbn; lia. Qed.
Lemma seg_all d l : ~ In d l -> seg d l = l.
Proof.
  induction l as [|c l IH]; cbn; auto. intros H. destruct (N.eqb_spec c d); [subst; exfalso; auto|].
  rewrite IH; auto.
Qed.
Lemma seg_app d l z : ~ In d l -> seg d (l ++ d :: z) = l.
Proof.
  induction l as [|c l IH]; cbn; intros H; [now rewrite N.eqb_refl|].
  destruct (N.eqb_spec c d); [subst; exfalso; auto|]. rewrite IH; auto.
Qed.
Lemma seg_next d l : length (seg d l) < length l -> nth (length (seg d l)) l 0%N = d.
Proof.
  induction l as [|c l IH]; cbn; [lia|]. destruct (N.eqb_spec c d); cbn; auto. intros H. apply IH. lia.
Qed.

Lemma extract_go_spec d : forall l i acc,
  l <> [] ->
  extract_go d l i acc = (of_runes (rev acc ++ seg d l), i + length (seg d l), length (seg d l) =? length l).
Proof.
  induction l as [|c l IH]; intros i acc H; [congruence|]. cbn [extract_go seg].
  destruct (N.eqb_spec c d).
  - cbn. rewrite app_nil_r, Nat.add_0_r. reflexivity.
  - destruct l as [|c1 l].
    + cbn. rewrite Nat.add_1_r. reflexivity.
    + rewrite IH by discriminate. cbn [rev]. rewrite <- app_assoc. cbn [app length].
      rewrite Nat.add_succ_r. reflexivity.
Qed.
Lemma extractor_in d from l :
  from < length l ->
  extractor from l d =
    (of_runes (seg d (skipn from l)), from + length (seg d (skipn from l)),
     from + length (seg d (skipn from l)) =? length l).
Proof.
  intros H. unfold extractor. rewrite extract_go_spec.
  - cbn [rev app]. f_equal. rewrite skipn_length.
    destruct (Nat.eqb_spec (length (seg d (skipn from l))) (length l - from));
      destruct (Nat.eqb_spec (from + length (seg d (skipn from l))) (length l)); auto; lia.
  - intros E. apply (f_equal (@length _)) in E. rewrite skipn_length in E. cbn in E. lia.
Qed.
Lemma extractor_out d from l : length l <= from -> extractor from l d = ([], 0, false).
Proof. intros H. unfold extractor. rewrite skipn_all2 by assumption. reflexivity. Qed.

Lemma subscan_app d x : forall y z src dst lrd ch,
  match y, z with c :: _, e :: _ => c <> e | _, _ => True end ->
  subscan d (x ++ y) (x ++ z) src dst lrd ch =
    (src + length x, dst + length x, lrd_end d lrd x,
     match y, z with c :: _, _ :: _ => c | _, _ => last (ch :: x) 0%N end).
Proof.
  induction x as [|c x IH]; intros y z src dst lrd ch H.
  - cbn. rewrite !Nat.add_0_r. destruct y as [|c y], z as [|e z]; auto. cbn.
    destruct (N.eqb_spec c e); [contradiction|]. reflexivity.
  - cbn [subscan app length]. rewrite N.eqb_refl, IH by assumption.
    rewrite <- !Nat.add_succ_comm. reflexivity.
Qed.

(** ** termination of the block at the label retriever *)
Lemma last_lrd d x ch lrd : x <> [] -> lrd_end d lrd x = true -> last (ch :: x) 0%N = d.
Proof.
  revert ch lrd. induction x as [|c x IH]; intros ch lrd H E; [congruence|].
  destruct x as [|c1 x].
  - cbn in *. now apply N.eqb_eq.
  - change (last (ch :: c :: c1 :: x) 0%N) with (last (c :: c1 :: x) 0%N). apply (IH c (c =? d)%N); [discriminate|exact E].
Qed.

Lemma subscan_spec d p w src dst lrd ch src2 dst2 lrd2 ch2 :
  subscan d p w src dst lrd ch = (src2, dst2, lrd2, ch2) ->
  p <> [] -> w <> [] ->
  exists n, src2 = src + n /\ dst2 = dst + n /\ n <= length p /\ n <= length w /\
    (n = 0 -> ch2 = hd 0%N p /\ hd 0%N p <> hd 0%N w) /\
    ((n < length p /\ n < length w) \/ (lrd2 = true -> ch2 = d)).
Proof.
  destruct (lcp_split p w) as (x & y & Ex & Ey & Hd). remember (lcp p w) as q eqn:Eq. clear Eq.
  subst p w. rewrite (subscan_app d q x y) by (destruct x, y; exact Hd). intros E Hp Hw. inversion E; subst. clear E.
  exists (length q). rewrite !app_length.
  split; [reflexivity|]. split; [reflexivity|]. split; [lia|]. split; [lia|]. split.
  - intros Hn. destruct q; [|cbn in Hn; lia]. cbn in *. destruct x; [congruence|]. destruct y; [congruence|].
    split; [reflexivity|exact Hd].
  - destruct x as [|x0 x]; [right|destruct y as [|y0 y]; [right|left; cbn; lia]].
    + intros L. apply (last_lrd d q ch lrd); auto. rewrite app_nil_r in Hp. exact Hp.
    + intros L. apply (last_lrd d q ch lrd); auto. rewrite app_nil_r in Hw. exact Hw.
Qed.

Lemma retriever_total d s word par :
  d <> colon -> npath s <> [] -> npath s <> [colon] ->
  forall rf ch src dst lrd kv,
  dst <= length word ->
  (lrd = true -> ch = colon -> dst < length word) ->
  2 * (length word - dst) + (if length (npath s) <=? S src then 1 else 0) < rf ->
  exists ex, retriever rf d s word par ch src dst lrd kv = Ok ex.
Proof.
  intros Hd Hne Hcol. induction rf as [|f IH]; intros ch src dst lrd kv Hw Hc Hm; [lia|].
  cbn [retriever]. destruct (lrd && (ch =? star)%N).
  { destruct (extractor (S src) (npath s) d) as [[id ?] ?]. eauto. }
  destruct lrd; cbn [andb]; [|eauto].
  destruct (N.eqb_spec ch colon) as [->|]; [|eauto].
  specialize (Hc eq_refl eq_refl).
  rewrite (extractor_in d dst word) by assumption.
  set (g := seg d (skipn dst word)). pose proof (seg_len d (skipn dst word)) as Lg. fold g in Lg.
  rewrite skipn_length in Lg.
  destruct (Nat.leb_spec (length (npath s)) (S src)) as [Hs|Hs].
  - (* the fragment is exhausted: the index is reset *)
    rewrite extractor_out by assumption.
    destruct (Nat.eqb_spec (dst + length g) (length word)) as [Eg|Eg]; cbn [negb]; [eauto|].
    assert (Hg : dst + length g < length word) by lia.
    destruct (subscan _ _ _ _ _ _ _) as [[[src2 dst2] lrd2] ch2] eqn:SC.
    cbn [skipn] in SC. apply subscan_spec in SC; auto.
    2:{ intros E. apply (f_equal (@length _)) in E. rewrite skipn_length in E. cbn in E. lia. }
    destruct SC as (n & -> & -> & L1 & L2 & Z & C). rewrite !skipn_length in *.
    destruct (_ && _); [eauto|]. destruct (_ && _); [eauto|].
    assert (Hnew : lrd2 = true -> ch2 = colon -> dst + length g + n < length word).
    { intros X Y. destruct C as [C|C]; [lia|]. rewrite (C X) in Y. congruence. }
    destruct n as [|n].
    + (* no progress in the word: the fragment does not start with the delimiter *)
      destruct (Z eq_refl) as [-> Hneq].
      destruct (npath s) as [|c0 [|c1 p]] eqn:Ep; [congruence| |].
      * cbn [hd] in *. destruct f as [|f]; [lia|]. cbn [retriever].
        destruct (lrd2 && (c0 =? star)%N).
        { destruct (extractor _ _ _) as [[? ?] ?]. eauto. }
        destruct (N.eqb_spec c0 colon); [subst; congruence|]. rewrite andb_false_r. eauto.
      * apply IH; [lia|exact Hnew|]. cbn [length Nat.leb plus]. cbn [length] in Hm, Hs. lia.
    + apply IH; [lia|exact Hnew|]. destruct (_ <=? _); lia.
  - rewrite extractor_in by assumption.
    set (p := seg d (skipn (S src) (npath s))). pose proof (seg_len d (skipn (S src) (npath s))) as Lp.
    fold p in Lp. rewrite skipn_length in Lp.
    destruct (Nat.eqb_spec (S src + length p) (length (npath s))) as [Ep|Ep].
    { destruct (_ =? _); eauto. }
    destruct (Nat.eqb_spec (dst + length g) (length word)) as [Eg|Eg]; cbn [negb]; [eauto|].
    destruct (subscan _ _ _ _ _ _ _) as [[[src2 dst2] lrd2] ch2] eqn:SC.
    assert (N1 : nth (S src + length p) (npath s) 0%N = d).
    { rewrite <- (firstn_skipn (S src) (npath s)), app_nth2; rewrite firstn_length_le by lia; [|lia].
      replace (S src + length p - S src) with (length p) by lia. apply seg_next. fold p. rewrite skipn_length. lia. }
    assert (N2 : nth (dst + length g) word 0%N = d).
    { rewrite <- (firstn_skipn dst word), app_nth2; rewrite firstn_length_le by lia; [|lia].
      replace (dst + length g - dst) with (length g) by lia. apply seg_next. fold g. rewrite skipn_length. lia. }
    assert (HD : forall i (l : list rune), i < length l -> hd 0%N (skipn i l) = nth i l 0%N).
    { induction i as [|i IHi]; intros [|c l] Hi; cbn in *; auto; try lia. apply IHi. lia. }
    apply subscan_spec in SC.
    2,3: intros E; apply (f_equal (@length _)) in E; rewrite skipn_length in E; cbn [length] in E; lia.
    destruct SC as (n & -> & -> & L1 & L2 & Z & C). rewrite !skipn_length in *.
    destruct (_ && _); [eauto|]. destruct (_ && _); [eauto|].
    destruct n as [|n].
    { exfalso. destruct (Z eq_refl) as [_ X]. rewrite !HD in X by lia. congruence. }
    apply IH; [lia| |destruct (_ <=? _); lia].
    intros X Y. destruct C as [C|C]; [lia|]. rewrite (C X) in Y. congruence.
Qed.

(** more fuel never changes a result *)
Lemma retriever_more d s word par : forall rf rf' ch src dst lrd kv ex,
  rf <= rf' -> retriever rf d s word par ch src dst lrd kv = Ok ex ->
  retriever rf' d s word par ch src dst lrd kv = Ok ex.
Proof.
  induction rf as [|f IH]; intros rf' ch src dst lrd kv ex H E; [discriminate|].
  destruct rf' as [|f']; [lia|]. cbn [retriever] in *.
  destruct (lrd && (ch =? star)%N); auto.
  destruct (lrd && (ch =? colon)%N); auto.
  destruct (extractor (S src) (npath s) d) as [[id src1] srcEnd].
  destruct (extractor dst word d) as [[val dst1] dstEnd].
  destruct srcEnd; auto. destruct (negb dstEnd); auto.
  destruct (subscan _ _ _ _ _ _ _) as [[[src2 dst2] lrd2] ch2].
  destruct (_ && _); auto. destruct (_ && _); auto. apply (IH f'); auto. lia.
Qed.
Lemma retriever_not_panic d s word par : forall rf ch src dst lrd kv,
  retriever rf d s word par ch src dst lrd kv <> Panic.
Proof.
  induction rf as [|f IH]; intros ch src dst lrd kv; [discriminate|]. cbn [retriever].
  destruct (lrd && (ch =? star)%N).
  { destruct (extractor (S src) (npath s) d) as [[id ?] ?]. discriminate. }
  destruct (lrd && (ch =? colon)%N); [|discriminate].
  destruct (extractor (S src) (npath s) d) as [[id src1] srcEnd].
  destruct (extractor dst word d) as [[val dst1] dstEnd].
  destruct srcEnd; [destruct dstEnd; discriminate|]. destruct (negb dstEnd); [|discriminate].
  destruct (subscan _ _ _ _ _ _ _) as [[[src2 dst2] lrd2] ch2].
  destruct (_ && _); [discriminate|]. destruct (_ && _); [discriminate|]. apply IH.
Qed.

(** ** termination of a whole lookup *)
(** returns the same result for every large enough bound on the number of jumps *)
Definition converges {A} (f : nat -> res A) : Prop := exists r N, forall rf, N <= rf -> f rf = Ok r.
(** runs forever: no bound is enough *)
Definition diverges {A} (f : nat -> res A) : Prop := forall rf, f rf = Fuel.

Lemma converges_bind {A B} (f : nat -> res A) (g : A -> nat -> res B) :
  converges f -> (forall a, converges (g a)) -> converges (fun rf => do a <- f rf; g a rf).
Proof.
  intros (a & N & H) G. destruct (G a) as (b & M & H'). exists b, (N + M). intros rf Hr.
  rewrite H by lia. cbn [bind]. apply H'. lia.
Qed.
Lemma converges_map {A B} (f : nat -> res A) (g : A -> res B) :
  converges f -> (forall a, exists b, g a = Ok b) -> converges (fun rf => do a <- f rf; g a).
Proof.
  intros (a & N & H) G. destruct (G a) as (b & E). exists b, N. intros rf Hr. rewrite H by assumption. exact E.
Qed.
Lemma converges_ok {A} (a : A) : converges (fun _ => Ok a).
Proof. exists a, 0. auto. Qed.

Lemma kids_loop_total rf d rest lrd s : forall cs last,
  (forall c kv, In c cs -> exists r, matchR rf d c rest lrd (Some s) kv = Ok r) ->
  exists r, kids_loop rf d rest lrd s cs last = Ok r.
Proof.
  induction cs as [|c cs IH]; intros last H; cbn [kids_loop]; [eauto|].
  destruct (H c (m_kv last) (or_introl eq_refl)) as [r ->]. cbn [bind].
  destruct (_ || _); [eauto|]. apply IH. intros c' kv Hc. apply H. now right.
Qed.
Lemma matchR_total d : d <> colon -> forall s,
  (forall n, In n (walk s) -> npath n <> [colon]) ->
  forall rf word lrd par kv, 2 * length word + 2 <= rf ->
  exists r, matchR rf d s word lrd par kv = Ok r.
Proof.
  intros Hd. induction s as [s IH] using node_ind'. intros Hn rf word lrd par kv Hrf.
  destruct word as [|w0 w]; [destruct s; eexists; reflexivity|].
  rewrite matchR_eq by discriminate. cbv zeta. rewrite scan_spec. cbn [plus].
  set (i := length (lcp (w0 :: w) (npath s))).
  assert (X : exists ex, (if i <? Nat.min (length (npath s)) (length (w0 :: w))
     then retriever rf d s (w0 :: w) par (nth i (npath s) 0%N) i i (lrd_end d lrd (lcp (w0 :: w) (npath s))) kv
     else Ok (RBreak i 0 (lrd_end d lrd (lcp (w0 :: w) (npath s))) false false kv)) = Ok ex).
  { destruct (Nat.ltb_spec i (Nat.min (length (npath s)) (length (w0 :: w)))) as [Hi|]; [|eauto].
    apply retriever_total; auto; try lia.
    - intros E. rewrite E in Hi. cbn in Hi. lia.
    - apply Hn. destruct s. now left.
    - destruct (_ <=? _); lia. }
  destruct X as [ex ->]. cbn [bind]. destruct ex as [r|src dst lrd2 mt pt kv2]; [eauto|].
  destruct (after_loop d s (w0 :: w) par src mt pt) as [[[a b] c] e].
  destruct (_ <? _); [|eauto]. destruct (nkids s) as [|k0 ks] eqn:Ek; [eauto|]. rewrite <- Ek in *.
  apply kids_loop_total. intros c0 kv0 Hc0. rewrite Forall_forall in IH. apply IH; auto.
  - intros n Hin. apply Hn. destruct s. cbn in *. right. apply in_flat_map. eauto.
  - rewrite skipn_length. lia.
Qed.

Lemma kids_loop_more rf rf' d rest lrd s : forall cs last r,
  (forall c kv r, In c cs -> matchR rf d c rest lrd (Some s) kv = Ok r -> matchR rf' d c rest lrd (Some s) kv = Ok r) ->
  kids_loop rf d rest lrd s cs last = Ok r -> kids_loop rf' d rest lrd s cs last = Ok r.
Proof.
  induction cs as [|c cs IH]; intros last r H; cbn [kids_loop]; auto.
  destruct (matchR rf d c rest lrd (Some s) (m_kv last)) as [r1| |] eqn:E; try discriminate.
  rewrite (H c _ r1 (or_introl eq_refl) E). cbn [bind]. destruct (_ || _); auto.
  apply IH. intros c' kv r' Hc. apply H. now right.
Qed.
Lemma matchR_more d rf rf' : rf <= rf' -> forall s word lrd par kv r,
  matchR rf d s word lrd par kv = Ok r -> matchR rf' d s word lrd par kv = Ok r.
Proof.
  intros Hrf. induction s as [s IH] using node_ind'. intros word lrd par kv r.
  destruct word as [|w0 w]; [destruct s; auto|].
  rewrite !matchR_eq by discriminate. cbv zeta. destruct (scan d (npath s) (w0 :: w) 0 lrd) as [i lrd1].
  destruct (i <? _).
  - destruct (retriever rf _ _ _ _ _ _ _ _ _) as [ex| |] eqn:E; try discriminate.
    rewrite (retriever_more _ _ _ _ _ _ _ _ _ _ _ _ Hrf E). cbn [bind].
    destruct ex as [r1|src dst lrd2 mt pt kv2]; auto.
    destruct (after_loop d s (w0 :: w) par src mt pt) as [[[a b] c] e].
    destruct (_ <? _); auto. destruct (nkids s) as [|k0 ks] eqn:Ek; auto. rewrite <- Ek in *.
    apply kids_loop_more. intros c0 kv0 r0 Hc0. rewrite Forall_forall in IH. apply IH; auto.
  - cbn [bind]. destruct (after_loop d s (w0 :: w) par i false false) as [[[a b] c] e].
    destruct (_ <? _); auto. destruct (nkids s) as [|k0 ks] eqn:Ek; auto. rewrite <- Ek in *.
    apply kids_loop_more. intros c0 kv0 r0 Hc0. rewrite Forall_forall in IH. apply IH; auto.
Qed.
Lemma matchR_converges d s word lrd par kv :
  d <> colon -> (forall n, In n (walk s) -> npath n <> [colon]) ->
  converges (fun rf => matchR rf d s word lrd par kv).
Proof.
  intros Hd Hn. destruct (matchR_total d Hd s Hn (2 * length word + 2) word lrd par kv (le_n _)) as [r E].
  exists r, (2 * length word + 2). intros rf Hrf. eapply matchR_more; eauto.
Qed.

Lemma climb_converges d t :
  d <> colon -> (forall n, In n (walk (root t)) -> npath n <> [colon]) ->
  forall fuel w kv, 1 <= fuel -> length (split_str w (enc1 d)) <= S fuel ->
  converges (fun rf => climb rf fuel d t w kv).
Proof.
  intros Hd Hn. induction fuel as [|f IH]; intros w kv H1 Hl; [lia|]. cbn [climb].
  destruct (Nat.ltb_spec 2 (length (split_str w (enc1 d)))) as [H2|H2]; [|apply converges_ok].
  destruct (join_split (enc1 d) w (proj1 (enc1_unbordered d))) as [F _].
  destruct (ups_step _ H2) as (_ & La & Ha & Fa). cbv zeta in *.
  set (a' := firstn (length (split_str w (enc1 d)) - 2) (split_str w (enc1 d)) ++
             skipn (length (split_str w (enc1 d)) - 1) (split_str w (enc1 d))) in *.
  apply converges_bind.
  - unfold probe. now apply matchR_converges.
  - intros r. destruct (_ || _); [apply converges_ok|]. apply IH; [lia|].
    rewrite split_join; auto using enc1_unbordered. lia.
Qed.
Lemma search_converges h t w :
  hdelim h <> colon -> (forall n, In n (walk (root t)) -> npath n <> [colon]) ->
  converges (fun rf => search rf h t w).
Proof.
  intros Hd Hn. unfold search. apply converges_bind.
  - unfold probe. now apply matchR_converges.
  - intros r. destruct (_ || _); [apply converges_ok|].
    destruct (hmode h); try apply converges_ok. destruct (contains _ _); [|apply converges_ok].
    apply climb_converges; auto; [lia|].
    pose proof (split_length (enc1 (hdelim h)) w (proj1 (enc1_unbordered _)) []). unfold split_str. lia.
Qed.

(** no two stored paths differ by a final ':' only; stated on the keys of the tree *)
Definition no_bare_colon (t : tr) : Prop := forall k, t_get t k <> None -> t_get t (k ++ [colon]) = None.

Lemma ents_parent s : forall pre k n, In (k, n) (ents pre s) ->
  (n = s /\ k = pre ++ npath s) \/
  exists kp m, In (kp, m) (ents pre s) /\ In n (nkids m) /\ k = kp ++ npath n.
Proof.
  induction s as [s IH] using node_ind'. intros pre k n H. apply ents_inv in H.
  destruct H as [[-> ->]|(c & Hc & H)]; [now left|right].
  rewrite Forall_forall in IH. destruct (IH c Hc _ _ _ H) as [[-> ->]|(kp & m & H1 & H2 & H3)].
  - exists (pre ++ npath s), s. repeat split; auto. rewrite ents_eq. now left.
  - exists kp, m. repeat split; auto. eapply ents_kid; eauto.
Qed.
Lemma ents_get t k n : In (k, n) (ents [] (root t)) -> t_get t k <> None.
Proof.
  intros H. apply entries_keys. unfold skeys, entries, ients. rewrite !map_map. cbn.
  apply in_map_iff. now exists (k, n).
Qed.
Lemma no_bare_colon_nodes t :
  reached t -> no_bare_colon t -> forall n, In n (walk (root t)) -> npath n <> [colon].
Proof.
  intros R B n H E. pose proof (reached_wf t R) as WT. rewrite (walk_ents []) in H.
  apply in_map_iff in H. destruct H as ([k n'] & X & H). cbn in X. subst n'.
  destruct (ents_parent _ _ _ _ H) as [[-> ->]|(kp & m & H1 & H2 & ->)].
  - pose proof (proj1 (proj1 WT)) as Hr. congruence.
  - rewrite E in H. apply (ents_get _ _ _ H). apply B. eapply ents_get; eauto.
Qed.

(** every call returns *)
Theorem calls_converge h t :
  reached t -> no_bare_colon t -> hdelim h <> colon ->
  (forall o, converges (fun rf => t_step rf h t o)) /\
  (forall p, converges (fun rf => HasPart rf h t p)) /\
  (forall p, converges (fun rf => Locate rf h t p)) /\
  (forall p, converges (fun rf => RemoveEx rf h t p)) /\
  (forall p, converges (fun rf => Walk rf h t p)) /\
  (forall p c, converges (fun rf => StartsWith rf h t p c)) /\
  (forall p c, converges (fun rf => EndsWith rf h t p c)).
Proof.
  intros R B Hd. pose proof (no_bare_colon_nodes t R B) as Hn.
  assert (S : forall w, converges (fun rf => search rf h t w)) by (intros; now apply search_converges).
  assert (L : forall p, converges (fun rf => Locate rf h t p)).
  { intros p. unfold Locate. apply converges_map; auto. intros r. destruct (s_node r); eauto. }
  assert (RE : forall p, converges (fun rf => RemoveEx rf h t p)).
  { intros p. unfold RemoveEx. apply converges_map; auto. intros r.
    destruct (s_node r); eauto. destruct (s_partial r); eauto. destruct (s_parent r); eauto.
    destruct (fst _); eauto. }
  assert (Q : forall p, converges (fun rf => Query rf h t p)).
  { intros p. unfold Query. apply converges_map; eauto. }
  assert (F : forall p, converges (fun rf => getNodeFast rf h t p)).
  { intros p. unfold getNodeFast. apply converges_map; eauto. }
  split; [|split; [|split; [|split; [|split; [|split]]]]]; auto.
  - intros o. destruct (stored h o) as [p|] eqn:St.
    { destruct (write_refines 0 h t (entries t) o (reached_wf t R) (abs_entries t)) as (t' & E & _); [congruence|].
      eexists _, 0. intros rf _. rewrite <- E. destruct o; try discriminate St; reflexivity. }
    destruct o; try discriminate St; cbn [t_step].
    all: apply converges_map; [|intros ?; repeat match goal with p : _ * _ |- _ => destruct p end; eauto].
    + unfold SetComment. apply converges_map; auto. intros r. destruct (s_node r); eauto.
    + unfold SetTag. apply converges_map; auto. intros r. destruct (s_node r); eauto.
    + unfold Remove. apply converges_map; auto. intros [[[? ?] ?] ?]. eauto.
    + unfold Get. apply converges_map; eauto.
    + unfold MustGet. apply converges_map; eauto.
    + apply Q.
    + unfold Has. apply converges_map; eauto.
    + unfold Search_. apply converges_map; eauto.
    + apply L.
    + unfold GetEx. apply converges_map; eauto.
    + unfold GetDesc. apply converges_map; auto. intros []; eauto.
    + unfold GetComment. apply converges_map; auto. intros []; eauto.
    + unfold GetTag. apply converges_map; auto. intros []; eauto.
  - intros p. unfold HasPart. apply converges_map; auto. intros r. destruct (s_node r); eauto.
  - intros p. unfold Walk. destruct (is_nil p); [apply converges_ok|]. apply converges_map; eauto.
  - intros p c. unfold StartsWith. apply converges_map; auto. intros [[[[? ?] ?] ?] ?]. eauto.
  - intros p c. unfold EndsWith. apply converges_map; auto. intros [[[[? ?] ?] ?] ?]. eauto.
Qed.
