(** What the bindings reported by Query consist of: a name out of a stored key, right after a ':' or '*' of it, and a
    piece of a path that was tried.  Only proofs. *)
From Coq Require Import List NArith ZArith Bool Arith Lia.
From Verif Require Import GoStr Utf8 Node NodeWf MatchProofs Trie Spec TreeOps Refine ApiRefine Reach.
From Verif Require Import Climb Derived Pattern Route.
Import ListNotations.
Open Scope nat_scope.
Open Scope list_scope.

(** the name [n] stands in the key [k] after the pattern rune [pc]; the value [v] stands in the path [w] *)
Definition bound (d : rune) (k w : key_t) (id val : gostring) : Prop :=
  exists pc n v a b c e,
    k = a ++ pc :: n ++ b /\ w = c ++ v ++ e /\ id = of_runes n /\ val = of_runes v /\ ~ In d n /\
    (pc = colon /\ ~ In d v \/ pc = star /\ e = []).

Lemma seg_no d l : ~ In d (seg d l).
Proof.
  induction l as [|c l IH]; cbn; [auto|]. destruct (N.eqb_spec c d); cbn; [auto|]. intros [H|H]; auto.
Qed.
Lemma seg_pre d l : exists b, l = seg d l ++ b.
Proof.
  induction l as [|c l IH]; cbn; [now exists []|]. destruct (N.eqb_spec c d); [now exists (c :: l)|].
  destruct IH as [b E]. exists b. cbn. now f_equal.
Qed.
Lemma extractor_piece d from l v j e :
  extractor from l d = (v, j, e) -> exists u b, v = of_runes u /\ ~ In d u /\ skipn from l = u ++ b.
Proof.
  destruct (le_lt_dec (length l) from) as [H|H].
  - rewrite extractor_out by assumption. intros E. inversion E; subst. exists [], (skipn from l). repeat split; auto.
  - rewrite extractor_in by assumption. intros E. inversion E; subst.
    destruct (seg_pre d (skipn from l)) as [b Eb]. exists (seg d (skipn from l)), b. split; [reflexivity|].
    split; [apply seg_no|exact Eb].
Qed.
Lemma extractor_more d from l v j :
  l <> [] -> extractor from l d = (v, j, false) -> j < length l.
Proof.
  intros Hl. assert (0 < length l) by (destruct l; [congruence|cbn; lia]).
  destruct (le_lt_dec (length l) from) as [H1|H1].
  - rewrite extractor_out by assumption. intros E. inversion E; subst. assumption.
  - rewrite extractor_in by assumption. intros E. inversion E as [[E1 E2 E3]].
    apply Nat.eqb_neq in E3. pose proof (seg_len d (skipn from l)) as B. rewrite skipn_length in B. lia.
Qed.

Lemma skipn_cons {A} n : forall (l : list A) c p, skipn n l = c :: p -> nth_error l n = Some c /\ skipn (S n) l = p.
Proof.
  induction n as [|n IH]; intros [|x l] c p E; cbn in E; try discriminate.
  - inversion E; subst. auto.
  - destruct (IH _ _ _ E) as [H1 H2]. split; [exact H1|]. exact H2.
Qed.
Lemma subscan_at d P : forall p w src dst lrd ch s2 d2 l2 c2,
  skipn src P = p -> subscan d p w src dst lrd ch = (s2, d2, l2, c2) -> l2 = true -> c2 <> d ->
  ((p = [] \/ w = []) /\ s2 = src /\ l2 = lrd /\ c2 = ch) \/ nth_error P s2 = Some c2.
Proof.
  induction p as [|c p IH]; intros w src dst lrd ch s2 d2 l2 c2 Ep E L C.
  - cbn in E. inversion E; subst. left. auto.
  - destruct w as [|c1 w].
    + cbn in E. inversion E; subst. left. auto.
    + destruct (skipn_cons _ _ _ _ Ep) as [N1 N2]. cbn [subscan] in E. destruct (c =? c1)%N.
      * destruct (IH _ _ _ _ _ _ _ _ _ N2 E L C) as [(_ & _ & El & Ec)|H]; [|now right].
        exfalso. subst l2 c2. symmetry in El. apply N.eqb_eq in El. auto.
      * inversion E; subst. now right.
Qed.

Lemma nth_error_cut {A} (l : list A) i c : nth_error l i = Some c -> l = firstn i l ++ c :: skipn (S i) l.
Proof.
  revert l. induction i as [|i IH]; intros [|x l] E; cbn in E; try discriminate.
  - inversion E. reflexivity.
  - cbn [firstn app]. f_equal. exact (IH _ E).
Qed.

(** the path [w] follows the key [k] to one of its patterns and goes on there with another rune *)
Definition meets (d : rune) (k w : key_t) : Prop :=
  exists q c y x z, k = q ++ c :: y /\ w = q ++ x :: z /\ lrd_end d false q = true /\ (c = colon \/ c = star) /\ x <> c.
Lemma meets_aside d k w : meets d k w -> ~ aside d k w.
Proof. intros (q & c & y & x & z & Ek & Ew & L & Hc & N) A. apply N. eapply A; eauto. Qed.
Lemma meets_more d k k' w : meets d k w -> prefix k k' -> meets d k' w.
Proof.
  intros (q & c & y & x & z & Ek & H) [y' E]. exists q, c, (y ++ y'), x, z. split; [|exact H].
  rewrite E, Ek, <- app_assoc. reflexivity.
Qed.

Definition goods (d : rune) (W : key_t) (pre : key_t) (s : node) (word : key_t) (kv kv' : kvs) : Prop :=
  forall id val, In (id, val) kv' -> In (id, val) kv \/
    exists k, dom pre s k /\ meets d k W /\ bound d k word id val.

Lemma retriever_break rf d s word par ch src dst lrd kv a b c e f g :
  retriever rf d s word par ch src dst lrd kv = Ok (RBreak a b c e f g) -> lrd = true /\ ch = colon.
Proof.
  destruct rf as [|rf]; cbn [retriever]; [discriminate|]. destruct lrd; cbn [andb]; [|discriminate].
  destruct (ch =? star)%N; [destruct (extractor _ _ _) as [[? ?] ?]; discriminate|].
  destruct (N.eqb_spec ch colon); [auto|discriminate].
Qed.

Lemma retriever_bound d W pre s word par : d <> colon -> d <> star -> npath s <> [] -> word <> [] ->
  forall rf ch src dst lrd kv ex,
  (lrd = true -> ch = colon \/ ch = star -> nth_error (npath s) src = Some ch) ->
  (lrd = true -> ch = colon \/ ch = star -> meets d (pre ++ npath s) W) ->
  retriever rf d s word par ch src dst lrd kv = Ok ex ->
  goods d W pre s word kv (match ex with RReturn r => m_kv r | RBreak _ _ _ _ _ kv' => kv' end).
Proof.
  intros Dc Ds Hp Hw. induction rf as [|f IH]; intros ch src dst lrd kv ex At Mt; cbn [retriever]; [discriminate|].
  assert (Self : dom pre s (pre ++ npath s)) by apply dom_self.
  destruct lrd; cbn [andb].
  2:{ intros E. inversion E; subst. intros id val H. now left. }
  destruct (N.eqb_spec ch star) as [->|Ns].
  { destruct (extractor (S src) (npath s) d) as [[id j] e1] eqn:E1. intros E. inversion E; subst. cbn [m_kv].
    intros id0 val H. apply in_app_or in H. destruct H as [H|[H|[]]]; [now left|]. inversion H; subst. right.
    exists (pre ++ npath s). split; [exact Self|]. split; [apply Mt; auto|].
    destruct (extractor_piece _ _ _ _ _ _ E1) as (n & b & -> & Nn & En).
    exists star, n, (skipn dst word), (pre ++ firstn src (npath s)), b, (firstn dst word), [].
    split; [rewrite <- app_assoc; f_equal; rewrite <- En; apply nth_error_cut; apply At; auto|].
    split; [now rewrite app_nil_r, firstn_skipn|]. repeat split; auto. }
  destruct (N.eqb_spec ch colon) as [->|Nc].
  2:{ intros E. inversion E; subst. intros id val H. now left. }
  destruct (extractor (S src) (npath s) d) as [[id src1] e1] eqn:E1.
  destruct (extractor dst word d) as [[val dst1] e2] eqn:E2.
  assert (G : goods d W pre s word kv (kv ++ [(id, val)])).
  { intros id0 val0 H. apply in_app_or in H. destruct H as [H|[H|[]]]; [now left|]. inversion H; subst. right.
    exists (pre ++ npath s). split; [exact Self|]. split; [apply Mt; auto|].
    destruct (extractor_piece _ _ _ _ _ _ E1) as (n & b & -> & Nn & En).
    destruct (extractor_piece _ _ _ _ _ _ E2) as (v & e & -> & Nv & Ev).
    exists colon, n, v, (pre ++ firstn src (npath s)), b, (firstn dst word), e.
    split; [rewrite <- app_assoc; f_equal; rewrite <- En; apply nth_error_cut; apply At; auto|].
    split; [rewrite <- Ev; now rewrite firstn_skipn|]. repeat split; auto. }
  destruct e1.
  { destruct e2; intros E; inversion E; subst; exact G. }
  destruct e2; cbn [negb].
  { intros E; inversion E; subst; exact G. }
  destruct (subscan d (skipn src1 (npath s)) (skipn dst1 word) src1 dst1 true colon) as [[[s2 d2] l2] c2] eqn:ES.
  destruct ((s2 =? length (npath s)) && (d2 =? length word)); [intros E; inversion E; subst; exact G|].
  destruct ((s2 =? length (npath s)) && ((d2 <? length word) && (0 <? length (nkids s))));
    [intros E; inversion E; subst; exact G|].
  intros E. refine (fun id0 val0 H => _).
  destruct (IH c2 s2 d2 l2 (kv ++ [(id, val)]) ex) with (id := id0) (val := val0) as [H1|H1]; auto.
  intros L C. assert (Cd : c2 <> d) by (destruct C; congruence).
  destruct (subscan_at d (npath s) _ _ _ _ _ _ _ _ _ _ eq_refl ES L Cd) as [([P|P] & _)|H1]; [..|exact H1]; exfalso.
  - apply (f_equal (@length _)) in P. rewrite skipn_length in P. cbn in P.
    pose proof (extractor_more _ _ _ _ _ Hp E1). lia.
  - apply (f_equal (@length _)) in P. rewrite skipn_length in P. cbn in P.
    pose proof (extractor_more _ _ _ _ _ Hw E2). lia.
Qed.

Lemma bound_more d k w i id val : bound d k (skipn i w) id val -> bound d k w id val.
Proof.
  intros (pc & n & v & a & b & c & e & H1 & H2 & H). exists pc, n, v, a, b, (firstn i w ++ c), e.
  split; [exact H1|]. split; [|exact H]. rewrite <- app_assoc, <- H2. now rewrite firstn_skipn.
Qed.

Lemma kids_bound rf d W pre s rest lrd word i : rest = skipn i word ->
  (forall c, In c (nkids s) -> forall kv r, matchR rf d c rest lrd (Some s) kv = Ok r ->
     goods d W (pre ++ npath s) c rest kv (m_kv r)) ->
  forall ks last r, incl ks (nkids s) -> kids_loop rf d rest lrd s ks last = Ok r ->
  goods d W pre s word (m_kv last) (m_kv r).
Proof.
  intros Er K. induction ks as [|c ks IH]; intros last r I E.
  - cbn in E. inversion E; subst. intros id val H. now left.
  - cbn [kids_loop] in E. destruct (matchR rf d c rest lrd (Some s) (m_kv last)) as [r0| |] eqn:EM; try discriminate.
    cbn [bind] in E.
    assert (G : goods d W pre s word (m_kv last) (m_kv r0)).
    { intros id val H. destruct (K c (I c (or_introl eq_refl)) _ _ EM id val H) as [H1|(k & Dk & M & B)]; [now left|].
      right. exists k. split; [exact (dom_kid _ _ _ _ (I c (or_introl eq_refl)) Dk)|]. split; [exact M|].
      rewrite Er in B. exact (bound_more _ _ _ _ _ _ B). }
    destruct (m_matched r0 || m_partial r0).
    + inversion E; subst. exact G.
    + intros id val H. destruct (IH r0 r (fun x Hx => I x (or_intror Hx)) E id val H) as [H1|H1]; auto.
Qed.

(** the way to the node: literally along the path, or past a pattern *)
Definition way (d : rune) (W pre word : key_t) (lrd : bool) : Prop :=
  W = pre ++ word /\ lrd = lrd_end d false pre \/ meets d pre W.

Lemma matchR_bound rf d W : d <> colon -> d <> star ->
  forall s pre word lrd par kv r, way d W pre word lrd ->
  matchR rf d s word lrd par kv = Ok r -> goods d W pre s word kv (m_kv r).
Proof.
  intros Dc Ds. induction s as [s IH] using node_ind'. intros pre word lrd par kv r Wy EM.
  destruct word as [|w0 w].
  { destruct s. inversion EM; subst. intros id val H. now left. }
  rewrite matchR_eq in EM by discriminate. remember (w0 :: w) as word eqn:Ew.
  assert (Hw : word <> []) by (subst word; discriminate). clear Ew w0 w.
  rewrite scan_spec in EM. cbv zeta in EM. cbn [plus] in EM.
  destruct (lcp_split word (npath s)) as (x & y & Ex & Ey & Hd).
  remember (lcp word (npath s)) as p0 eqn:Ep0. clear Ep0.
  assert (Lw : length word = length p0 + length x) by (rewrite Ex; apply app_length).
  assert (Ls : length (npath s) = length p0 + length y) by (rewrite Ey; apply app_length).
  assert (MX : length p0 < Nat.min (length (npath s)) (length word) -> lrd_end d lrd p0 = true ->
     nth (length p0) (npath s) 0%N = colon \/ nth (length p0) (npath s) 0%N = star -> meets d (pre ++ npath s) W).
  { intros Li L C. destruct Wy as [[EW El]|M]; [|eapply meets_more; [exact M|now exists (npath s)]].
    destruct x as [|x0 x]; [cbn in Lw; lia|]. destruct y as [|y0 y]; [cbn in Ls; lia|].
    rewrite Ey, app_nth2, Nat.sub_diag in C by lia. cbn [nth] in C.
    exists (pre ++ p0), y0, y, x0, x. rewrite lrd_end_app, <- El.
    split; [rewrite Ey; apply app_assoc|]. split; [rewrite EW, Ex; apply app_assoc|]. auto. }
  assert (GX : forall ex, (if length p0 <? Nat.min (length (npath s)) (length word)
              then retriever rf d s word par (nth (length p0) (npath s) 0%N) (length p0) (length p0) (lrd_end d lrd p0) kv
              else Ok (RBreak (length p0) 0 (lrd_end d lrd p0) false false kv)) = Ok ex ->
     goods d W pre s word kv (match ex with RReturn r => m_kv r | RBreak _ _ _ _ _ kv' => kv' end) /\
     match ex with
     | RReturn _ => True
     | RBreak _ dst lrd2 _ _ _ => meets d (pre ++ npath s) W \/
         (Nat.min (length (npath s)) (length word) <= length p0 /\ dst = 0 /\ lrd2 = lrd_end d lrd p0)
     end).
  { intros ex. destruct (Nat.ltb_spec (length p0) (Nat.min (length (npath s)) (length word))) as [Li|Li].
    - intros E. split.
      + eapply retriever_bound in E; eauto.
        * intros P. rewrite P in Li. cbn in Li. lia.
        * intros _ _. apply nth_error_nth'. lia.
      + destruct ex as [|a b c e f g]; [exact I|]. left. destruct (retriever_break _ _ _ _ _ _ _ _ _ _ _ _ _ _ _ _ E). auto.
    - intros E. inversion E; subst ex. split; [intros id val H; now left|]. right. auto. }
  destruct (if length p0 <? Nat.min (length (npath s)) (length word)
              then retriever rf d s word par (nth (length p0) (npath s) 0%N) (length p0) (length p0) (lrd_end d lrd p0) kv
              else Ok (RBreak (length p0) 0 (lrd_end d lrd p0) false false kv)) as [ex| |] eqn:EX; try discriminate.
  destruct (GX ex eq_refl) as [G WX]. clear GX. cbn [bind] in EM. destruct ex as [r0|src dst lrd2 mt pt kv2].
  { inversion EM; subst. exact G. }
  destruct (after_loop d s word par src mt pt) as [[[matched partial] child] parent].
  destruct (Nat.ltb_spec (Nat.min (length (npath s)) (length word)) (length word)) as [Lm|Lm];
    [|inversion EM; subst; exact G].
  destruct (nkids s) as [|c0 ks0] eqn:Ek; [inversion EM; subst; exact G|]. rewrite <- Ek in EM.
  set (j := if dst =? 0 then Nat.min (length (npath s)) (length word) else dst) in *.
  assert (Wk : way d W (pre ++ npath s) (skipn j word) lrd2).
  { destruct WX as [M|(Li & Ed & El)]; [now right|].
    destruct Wy as [[EW El0]|M]; [|right; eapply meets_more; [exact M|now exists (npath s)]].
    left. destruct y as [|y0 y]; [|cbn in Ls; lia]. rewrite app_nil_r in Ey.
    subst j dst. cbn [Nat.eqb]. rewrite Nat.min_l by lia. split.
    - rewrite EW, <- app_assoc. f_equal. rewrite Ex at 2. rewrite Ey, skipn_app, skipn_all, Nat.sub_diag. exact Ex.
    - rewrite lrd_end_app, <- El0, Ey. exact El. }
  intros id val H.
  destruct (kids_bound rf d W pre s (skipn j word) lrd2 word j eq_refl) with (ks := nkids s) (r := r)
    (last := MRes matched partial child parent kv2) (id := id) (val := val) as [H1|H1]; auto.
  - intros c Hc kv1 r1 E1. rewrite Forall_forall in IH. eapply IH; [rewrite Ek in Hc; exact Hc|exact Wk|exact E1].
  - apply incl_refl.
Qed.

(** ** Query *)
Definition bindings (d : rune) (t : tr) (l : list gostring) (kv kv' : kvs) : Prop :=
  forall id val, In (id, val) kv' -> In (id, val) kv \/
    exists k u, t_get t k <> None /\ In u l /\ ~ aside d k (runes u) /\ bound d k (runes u) id val.

Lemma probe_bound rf d t u l kv r :
  d <> colon -> d <> star -> probe rf d t u kv = Ok r -> In u l -> bindings d t l kv (m_kv r).
Proof.
  intros Dc Ds E I id val H. unfold probe in E.
  assert (Wy : way d (runes u) [] (runes u) false) by (left; auto).
  destruct (matchR_bound rf d (runes u) Dc Ds (root t) [] _ _ _ _ _ Wy E id val H) as [H1|(k & Dk & M & B)]; [now left|].
  right. exists k, u. split; [now apply dom_get|]. split; [exact I|]. split; [exact (meets_aside _ _ _ M)|exact B].
Qed.

Lemma climb_bound rf d t l : d <> colon -> d <> star -> forall fuel (segs : list (list N)) kv r,
  segs <> [] -> Forall (fun p => contains (enc1 d) p = false) segs ->
  incl (map (fun p => join_str p (enc1 d)) (ups_of segs)) l ->
  climb rf fuel d t (join_str segs (enc1 d)) kv = Ok r -> bindings d t l kv (s_kv r).
Proof.
  intros Dc Ds. induction fuel as [|fuel IH]; intros segs kv r Hne F I; [discriminate|].
  cbn [climb]. rewrite (split_join (enc1 d) segs (enc1_unbordered d) Hne F).
  destruct (Nat.ltb_spec 2 (length segs)) as [H2|H2].
  2:{ intros E; inversion E; subst. intros id val H. now left. }
  destruct (ups_step segs H2) as (Eu & La & Hna & FP). rewrite Eu in I. clear Eu.
  set (a' := firstn (length segs - 2) segs ++ skipn (length segs - 1) segs) in *.
  cbn [map] in I.
  destruct (probe rf d t (join_str a' (enc1 d)) kv) as [r0| |] eqn:EM; try discriminate.
  pose proof (probe_bound _ _ _ _ l _ _ Dc Ds EM (I _ (or_introl eq_refl))) as G.
  cbn [bind]. destruct (m_matched r0 || m_partial r0) eqn:MP; intros E.
  - inversion E; subst r. exact G.
  - intros id val H. destruct (IH a' (m_kv r0) r Hna (FP _ F) (fun x Hx => I x (or_intror Hx)) E id val H) as [H1|H1]; auto.
Qed.

Lemma search_bound rf h t w r :
  hdelim h <> colon -> hdelim h <> star -> search rf h t w = Ok r ->
  bindings (hdelim h) t (tried (hdelim h) h w) [] (s_kv r).
Proof.
  unfold search. set (d := hdelim h). intros Dc Ds.
  destruct (probe rf d t w []) as [r0| |] eqn:EM; try discriminate.
  assert (G : bindings d t (tried d h w) [] (m_kv r0)) by (eapply probe_bound; eauto; now left).
  cbn [bind]. destruct (m_matched r0 || m_partial r0); intros E; [inversion E; subst; exact G|].
  destruct (hmode h) eqn:M; try (inversion E; subst; exact G).
  destruct (contains (enc1 d) w) eqn:C; [|inversion E; subst; exact G].
  destruct (join_split (enc1 d) w (proj1 (enc1_unbordered d))) as [F J]. rewrite <- J in E.
  intros id val H.
  assert (I : incl (map (fun p => join_str p (enc1 d)) (ups_of (split_str w (enc1 d)))) (tried d h w));
    [|destruct (climb_bound rf d t (tried d h w) Dc Ds _ _ _ _ (split_ne _ _) F I E id val H) as [H1|H1]; auto].
  intros x Hx. unfold tried, is_up. rewrite M. right. unfold s_ups.
  rewrite <- (map_map (fun i => firstn i (split_str w (enc1 d)) ++ [last (split_str w (enc1 d)) []])
      (fun p => join_str p (enc1 d))). exact Hx.
Qed.

Theorem query_bound rf h t path q id val :
  hdelim h <> colon -> hdelim h <> star -> Query rf h t path = Ok q -> In (id, val) (q_kv q) ->
  exists k u, t_get t k <> None /\ In u (tried (hdelim h) h (full h path)) /\
    ~ aside (hdelim h) k (runes u) /\ bound (hdelim h) k (runes u) id val.
Proof.
  intros Dc Ds. unfold Query. destruct (search rf h t (full h path)) as [r| |] eqn:E; try discriminate.
  cbn [bind]. intros EQ H. inversion EQ; subst q.
  assert (H' : In (id, val) (s_kv r)).
  { revert H. unfold query_of. destruct (s_node r); [destruct (s_partial r)|]; cbn; auto. }
  destruct (search_bound _ _ _ _ _ Dc Ds E id val H') as [[]|H1]. exact H1.
Qed.

Theorem query_unbound rf h t path q :
  hdelim h <> colon -> hdelim h <> star ->
  (forall k u, t_get t k <> None -> In u (tried (hdelim h) h (full h path)) -> aside (hdelim h) k (runes u)) ->
  Query rf h t path = Ok q -> q_kv q = [].
Proof.
  intros Dc Ds A E. destruct (q_kv q) as [|[id val] kv] eqn:K; [reflexivity|]. exfalso.
  destruct (query_bound rf h t path q id val Dc Ds E) as (k & u & G & T & M & _); [rewrite K; now left|]. auto.
Qed.
