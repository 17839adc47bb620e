(** What a search finds in a tree without pattern keys. *)
From Coq Require Import List NArith Bool Arith Lia.
From Verif Require Import GoStr Node NodeWf.
Import ListNotations.
Open Scope nat_scope.

(** no ':' or '*' directly behind a delimiter; [lrd]: the rune before was a delimiter *)
Fixpoint plainb (d : rune) (lrd : bool) (k : key_t) : bool :=
  match k with
  | [] => true
  | c :: t => negb (lrd && ((c =? colon) || (c =? star))%N) && plainb d (c =? d)%N t
  end.
Definition plain (d : rune) (k : key_t) : Prop := plainb d false k = true.
Definition lrd_end (d : rune) (lrd : bool) (k : key_t) : bool :=
  fold_left (fun _ c => (c =? d)%N) k lrd.

Lemma plainb_app d a b lrd :
  plainb d lrd (a ++ b) = plainb d lrd a && plainb d (lrd_end d lrd a) b.
Proof.
  revert lrd; induction a as [|c a IH]; intros lrd; cbn; [reflexivity|].
  rewrite IH. now rewrite andb_assoc.
Qed.
Lemma lrd_end_app d a b lrd : lrd_end d lrd (a ++ b) = lrd_end d (lrd_end d lrd a) b.
Proof. apply fold_left_app. Qed.

(** parent of the node [n] at key [k], within the subtree [s] whose own parent is [par] *)
Definition par_ok (pre : key_t) (s : node) (par : option node) (k : key_t) (n : node)
    (p : option node) : Prop :=
  (n = s /\ k = pre ++ npath s /\ p = par) \/
  (exists kp m, In (kp, m) (ents pre s) /\ In n (nkids m) /\ k = kp ++ npath n /\ p = Some m).

Definition dom (pre : key_t) (s : node) (k : key_t) : Prop := exists n, In (k, n) (ents pre s).

(** outcome of searching the rest [w] below [pre]; [w] is not empty *)
Inductive mout (d : rune) (pre : key_t) (s : node) (par : option node) (w : key_t) (kv : kvs)
  : mres -> Prop :=
| mo_found k n p :
    In (k, n) (ents pre s) -> par_ok pre s par k n p ->
    (k = pre ++ w \/ (k = (pre ++ w) ++ [d] /\ ~ dom pre s (pre ++ w))) ->
    mout d pre s par w kv (MRes true false (Some n) p kv)
| mo_inside k n p :
    In (k, n) (ents pre s) -> par_ok pre s par k n p ->
    pprefix (pre ++ w) k -> (forall k', dom pre s k' -> prefix (pre ++ w) k' -> prefix k k') ->
    k <> (pre ++ w) ++ [d] ->
    mout d pre s par w kv (MRes false true (Some n) p kv)
| mo_past k n p :
    In (k, n) (ents pre s) -> par_ok pre s par k n p ->
    pprefix k (pre ++ w) -> nkids n = [] ->
    mout d pre s par w kv (MRes false true (Some n) p kv)
| mo_miss :
    (forall k', dom pre s k' -> ~ prefix (pre ++ w) k') ->
    (forall k' n, In (k', n) (ents pre s) -> prefix k' (pre ++ w) -> nkids n <> []) ->
    mout d pre s par w kv (MRes false false None None kv).

Lemma scan_spec d p w i lrd :
  scan d p w i lrd = (i + length (lcp w p), lrd_end d lrd (lcp w p)).
Proof.
  revert w i lrd; induction p as [|c p IH]; intros [|c1 w] i lrd; cbn; try (f_equal; lia).
  rewrite N.eqb_sym. destruct (N.eqb_spec c1 c).
  - subst. rewrite IH. cbn. f_equal. lia.
  - cbn. f_equal. lia.
Qed.

Lemma retriever_plain rf d s word par ch src dst lrd kv :
  lrd && ((ch =? colon) || (ch =? star))%N = false ->
  retriever (S rf) d s word par ch src dst lrd kv = Ok (RReturn (MRes false false None None kv)).
Proof.
  intros H. cbn [retriever]. destruct lrd; cbn [andb] in *; [|reflexivity].
  apply orb_false_iff in H. destruct H as [H1 H2]. now rewrite H1, H2.
Qed.

Definition plain_tree (d : rune) (pre : key_t) (s : node) : Prop :=
  forall k, dom pre s k -> plain d k.

Lemma dom_self pre s : dom pre s (pre ++ npath s).
Proof. exists s. rewrite ents_eq. now left. Qed.
Lemma ents_kid pre s c k n :
  In c (nkids s) -> In (k, n) (ents (pre ++ npath s) c) -> In (k, n) (ents pre s).
Proof. intros Hc H. rewrite ents_eq. right. apply in_flat_map. eauto. Qed.
Lemma dom_kid pre s c k : In c (nkids s) -> dom (pre ++ npath s) c k -> dom pre s k.
Proof. intros Hc [n H]. exists n. eapply ents_kid; eauto. Qed.
Lemma ents_inv pre s k n :
  In (k, n) (ents pre s) ->
  (k = pre ++ npath s /\ n = s) \/
  exists c, In c (nkids s) /\ In (k, n) (ents (pre ++ npath s) c).
Proof.
  rewrite ents_eq. intros [E|H]; [inversion E; auto|].
  right. apply in_flat_map in H. exact H.
Qed.
Lemma dom_inv pre s k :
  dom pre s k -> k = pre ++ npath s \/ exists c, In c (nkids s) /\ dom (pre ++ npath s) c k.
Proof.
  intros [n H]. apply ents_inv in H. destruct H as [[-> _]|(c & Hc & H)]; [auto|].
  right. exists c. split; auto. now exists n.
Qed.
Lemma dom_prefix pre s k : dom pre s k -> prefix (pre ++ npath s) k.
Proof. intros [n H]. eapply ents_prefix; eauto. Qed.
Lemma dom_head pre c k :
  npath c <> [] -> dom pre c k -> exists r y, fst_rune c = Some r /\ k = pre ++ r :: y.
Proof. intros Hne [n H]. eapply ents_kid_head; eauto. Qed.
Lemma plain_tree_kid d pre s c :
  plain_tree d pre s -> In c (nkids s) -> plain_tree d (pre ++ npath s) c.
Proof. intros H Hc k Hk. apply H. eapply dom_kid; eauto. Qed.

Lemma par_ok_kid pre s par c k n p :
  In c (nkids s) -> par_ok (pre ++ npath s) c (Some s) k n p -> par_ok pre s par k n p.
Proof.
  intros Hc [(-> & -> & ->)|(kp & m & H & Hn & -> & ->)].
  - right. exists (pre ++ npath s), s. repeat split; auto. rewrite ents_eq. now left.
  - right. exists kp, m. repeat split; auto. eapply ents_kid; eauto.
Qed.

(** at a mismatch inside the fragment of a plain tree the node is given up *)
Lemma mismatch_plain d pre s p0 y0 y :
  plain_tree d pre s -> npath s = p0 ++ y0 :: y ->
  lrd_end d (lrd_end d false pre) p0 && ((y0 =? colon) || (y0 =? star))%N = false /\
  nth (length p0) (npath s) 0%N = y0.
Proof.
  intros P E. split.
  - pose proof (P _ (dom_self pre s)) as H. unfold plain in H.
    rewrite E, app_assoc, plainb_app in H. apply andb_true_iff in H. destruct H as [_ H].
    cbn in H. apply andb_true_iff in H. destruct H as [H _]. apply negb_true_iff in H.
    rewrite <- lrd_end_app. exact H.
  - rewrite E, app_nth2, Nat.sub_diag by lia. reflexivity.
Qed.

(** *** paths that meet no pattern
    [aside d k w]: where the key [k] has a pattern, that is a ':' or a '*' right after a delimiter,
    the path [w] does not go past the same place with another rune *)
Definition aside (d : rune) (k w : key_t) : Prop :=
  forall q c y x z, k = q ++ c :: y -> lrd_end d false q = true -> c = colon \/ c = star ->
    w = q ++ x :: z -> x = c.
Definition aside_tree (d : rune) (pre : key_t) (s : node) (w : key_t) : Prop :=
  forall k, dom pre s k -> aside d k (pre ++ w).

Lemma plain_aside d k w : plain d k -> aside d k w.
Proof.
  intros H q c y x z -> L Hc _. unfold plain in H. rewrite plainb_app in H.
  apply andb_true_iff in H. destruct H as [_ H]. cbn in H. apply andb_true_iff in H.
  destruct H as [H _]. apply negb_true_iff in H. rewrite L in H.
  destruct Hc as [->| ->]; discriminate.
Qed.
Lemma aside_prefix d p k w : prefix p k -> aside d k w -> aside d p w.
Proof.
  intros [z ->] H q c y x z' -> L Hc E. eapply H; eauto. rewrite <- app_assoc. reflexivity.
Qed.
Lemma plain_tree_aside d pre s w : plain_tree d pre s -> aside_tree d pre s w.
Proof. intros P k Dk. now apply plain_aside, P. Qed.
Lemma aside_tree_kid d pre s w c :
  aside_tree d pre s (npath s ++ w) -> In c (nkids s) -> aside_tree d (pre ++ npath s) c w.
Proof.
  intros P Hc k [n H]. rewrite <- app_assoc. apply P. exists n. eapply ents_kid; eauto.
Qed.

Lemma mismatch_aside d pre s p0 y0 y x0 x :
  aside_tree d pre s (p0 ++ x0 :: x) -> npath s = p0 ++ y0 :: y -> x0 <> y0 ->
  lrd_end d (lrd_end d false pre) p0 && ((y0 =? colon) || (y0 =? star))%N = false /\
  nth (length p0) (npath s) 0%N = y0.
Proof.
  intros P E Hd. split.
  - destruct (_ && _) eqn:B; auto. exfalso. apply andb_true_iff in B. destruct B as [L B].
    apply Hd. apply (P _ (dom_self pre s) (pre ++ p0) y0 y x0 x).
    + now rewrite E, app_assoc.
    + now rewrite lrd_end_app.
    + apply orb_true_iff in B. destruct B as [B|B]; apply N.eqb_eq in B; auto.
    + now rewrite app_assoc.
  - rewrite E, app_nth2, Nat.sub_diag by lia. reflexivity.
Qed.

Definition kids_loop (rf : nat) (d : rune) (rest : key_t) (lrd : bool) (s : node) :=
  fix loop (cs : list node) (last : mres) : res mres :=
    match cs with
    | [] => Ok last
    | c :: cs' =>
        do r <- matchR rf d c rest lrd (Some s) (m_kv last);
        if m_matched r || m_partial r then Ok r else loop cs' r
    end.

(** one unfolding of matchR for a non-empty word *)
Lemma matchR_eq rf d s word lrd par kv :
  word <> [] ->
  matchR rf d s word lrd par kv =
    let l := length (npath s) in
    let minL := Nat.min l (length word) in
    let '(i, lrd1) := scan d (npath s) word 0 lrd in
    do ex <- (if i <? minL
              then retriever rf d s word par (nth i (npath s) 0%N) i i lrd1 kv
              else Ok (RBreak i 0 lrd1 false false kv));
    match ex with
    | RReturn r => Ok r
    | RBreak src dst lrd2 mt pt kv2 =>
        let '(matched, partial, child, parent) := after_loop d s word par src mt pt in
        if minL <? length word then
          match nkids s with
          | [] => Ok (MRes false true child parent kv2)
          | ks => kids_loop rf d (skipn (if dst =? 0 then minL else dst) word) lrd2 s ks
                            (MRes matched partial child parent kv2)
          end
        else Ok (MRes matched partial child parent kv2)
    end.
Proof.
  intros H. destruct s as [a p b ks e f g h i0]. cbn [matchR]. cbn [npath nkids].
  destruct word as [|w0 w]; [congruence|]. reflexivity.
Qed.

Lemma kids_loop_spec rf d pre s lrd kv w0 w :
  Forall (fun c => npath c <> [] /\ wfn c) (nkids s) ->
  NoDup (map fst_rune (nkids s)) ->
  (forall c, In c (nkids s) ->
     exists r, matchR rf d c (w0 :: w) lrd (Some s) kv = Ok r /\
               mout d pre c (Some s) (w0 :: w) kv r) ->
  forall last, m_kv last = kv ->
  exists r, kids_loop rf d (w0 :: w) lrd s (nkids s) last = Ok r /\
    ((nkids s = [] /\ r = last) \/
     (exists c, In c (nkids s) /\ (m_matched r || m_partial r = true) /\
                mout d pre c (Some s) (w0 :: w) kv r) \/
     (nkids s <> [] /\ r = MRes false false None None kv /\
      forall c, In c (nkids s) -> mout d pre c (Some s) (w0 :: w) kv r)).
Proof.
  intros F ND H. set (ks := nkids s) in *.
  assert (G : forall ks', (forall c, In c ks' -> In c ks) ->
     forall last, m_kv last = kv ->
     exists r, kids_loop rf d (w0 :: w) lrd s ks' last = Ok r /\
       ((ks' = [] /\ r = last) \/
       (exists c, In c ks' /\ (m_matched r || m_partial r = true) /\
                mout d pre c (Some s) (w0 :: w) kv r) \/
       (ks' <> [] /\ r = MRes false false None None kv /\
        forall c, In c ks' -> mout d pre c (Some s) (w0 :: w) kv r))).
  { induction ks' as [|c ks' IH]; intros Hs last Hl.
    - exists last. split; auto.
    - cbn [kids_loop]. rewrite Hl. destruct (H c) as (r & -> & M); [apply Hs; now left|].
      cbn [bind]. destruct (m_matched r || m_partial r) eqn:E.
      + exists r. split; auto. right. left. exists c. repeat split; auto. now left.
      + assert (Er : r = MRes false false None None kv)
          by (destruct M; cbn in E; try discriminate; reflexivity).
        destruct (IH (fun c' Hc' => Hs c' (or_intror Hc')) r) as (r' & E' & D);
          [now rewrite Er|].
        change (kids_loop rf d (w0 :: w) lrd s ks' r = Ok r') in E'.
        exists r'. split; [exact E'|]. right.
        destruct D as [[-> ->]|[(c' & Hc' & D1 & D2)|(D1 & D2 & D3)]].
        * right. split; [discriminate|]. split; auto. intros c' [<-|[]]. exact M.
        * left. exists c'. split; auto. now right.
        * right. split; [discriminate|]. split; auto. intros c' [<-|Hc']; auto.
          now rewrite D2, <- Er. }
  intros last Hl. apply G; auto.
Qed.

Lemma mout_lift d pre s par c w kv r :
  wfn s -> In c (nkids s) -> w <> [] ->
  (m_matched r || m_partial r = true) ->
  mout d (pre ++ npath s) c (Some s) w kv r ->
  mout d pre s par (npath s ++ w) kv r.
Proof.
  intros W Hc Hw E M. destruct (wfn_kids _ _ W Hc) as [Hne Wc].
  assert (K : forall k k', prefix ((pre ++ npath s) ++ w) k \/ pprefix k ((pre ++ npath s) ++ w) ->
     dom (pre ++ npath s) c k -> dom pre s k' -> prefix ((pre ++ npath s) ++ w) k' ->
     dom (pre ++ npath s) c k').
  { intros k k' Hk Dk Dk' P. destruct w as [|w0 w]; [congruence|].
    apply dom_head in Dk; auto. destruct Dk as (r0 & y & Er & ->).
    assert (r0 = w0).
    { destruct Hk as [[z Ez]|(a & z & Ez)].
      - rewrite <- (app_assoc (pre ++ npath s)) in Ez. cbn in Ez. now apply app_inj_head in Ez.
      - rewrite <- (app_assoc (pre ++ npath s)) in Ez. cbn in Ez. now apply app_inj_head in Ez. }
    subst r0. destruct P as [z ->].
    apply dom_inv in Dk'. destruct Dk' as [Ek|(c' & Hc' & Dk')].
    { exfalso. apply (f_equal (@length _)) in Ek. rewrite !app_length in Ek. cbn in Ek. lia. }
    destruct (wfn_kids _ _ W Hc') as [Hne' _].
    pose proof (dom_head _ _ _ Hne' Dk') as (r' & y' & Er' & Ey').
    rewrite <- (app_assoc (pre ++ npath s)) in Ey'. cbn in Ey'. apply app_inj_head in Ey'.
    destruct Ey' as [-> _].
    assert (c' = c) by (apply (nodup_fst_eq (nkids s)); auto using wfn_nodup; congruence).
    now subst. }
  destruct M as [k n p H P Hk | k n p H P Hk Hm Hd | k n p H P Hk Hn | Hm Hp].
  - eapply mo_found; [eapply ents_kid; eauto|eapply par_ok_kid; eauto|].
    rewrite app_assoc. destruct Hk as [->|[Ek Hno]]; auto. right. split; auto.
    intros D. apply Hno. apply (K k); auto; [|now exists n|apply prefix_refl].
    left. rewrite Ek. apply prefix_app_r.
  - eapply mo_inside; [eapply ents_kid; eauto|eapply par_ok_kid; eauto|..]; rewrite app_assoc; auto.
    intros k' D' P'. apply Hm; auto. apply (K k); auto; [|now exists n].
    left. now apply pprefix_prefix.
  - eapply mo_past; [eapply ents_kid; eauto|eapply par_ok_kid; eauto|..]; auto.
    now rewrite app_assoc.
  - discriminate.
Qed.

Lemma mout_miss_kids d pre s par w kv :
  wfn s -> w <> [] -> nkids s <> [] ->
  (forall c, In c (nkids s) ->
     mout d (pre ++ npath s) c (Some s) w kv (MRes false false None None kv)) ->
  mout d pre s par (npath s ++ w) kv (MRes false false None None kv).
Proof.
  intros W Hw Hk H. apply mo_miss.
  - intros k' D. apply dom_inv in D. destruct D as [->|(c & Hc & D)].
    + intros P. apply prefix_len in P. destruct w; [congruence|]. rewrite !app_length in P.
      cbn in P. lia.
    + specialize (H c Hc). inversion H; subst. rewrite app_assoc. auto.
  - intros k' n Hin P. apply ents_inv in Hin. destruct Hin as [[-> ->]|(c & Hc & Hin)]; auto.
    specialize (H c Hc). inversion H; subst. rewrite app_assoc in P. eauto.
Qed.

Lemma matchR_aside rf d :
  forall s pre word par kv,
  wfn s -> aside_tree d pre s word -> npath s <> [] -> word <> [] ->
  exists r, matchR (S rf) d s word (lrd_end d false pre) par kv = Ok r /\
            mout d pre s par word kv r.
Proof.
  induction s as [s IH] using node_ind'. intros pre word par kv W P Hne Hw.
  rewrite matchR_eq by assumption. rewrite scan_spec.
  destruct (lcp_split word (npath s)) as (x & y & Ex & Ey & Hd).
  remember (lcp word (npath s)) as p0 eqn:Ep0. cbv zeta. cbn [plus].
  assert (Lw : length word = length p0 + length x) by (rewrite Ex; apply app_length).
  assert (Ls : length (npath s) = length p0 + length y) by (rewrite Ey; apply app_length).
  assert (Hself : In (pre ++ npath s, s) (ents pre s)) by (rewrite ents_eq; now left).
  destruct x as [|x0 x]; [|destruct y as [|y0 y]].
  - (* the word is a prefix of the fragment *)
    rewrite app_nil_r in Ex. cbn [length] in Lw.
    assert (Hp0 : p0 <> []) by congruence.
    assert (Hp0l : 0 < length p0) by (destruct p0; [congruence|cbn; lia]).
    destruct (Nat.ltb_spec (length p0) (Nat.min (length (npath s)) (length word))); [lia|].
    cbn [bind].
    destruct y as [|y0 [|y1 y]].
    + (* whole fragment *)
      rewrite app_nil_r in Ey. cbn [length] in Ls.
      unfold after_loop.
      destruct (Nat.eqb_spec (S (length p0)) (length (npath s))); [lia|]. cbn [andb].
      destruct (Nat.ltb_spec (Nat.min (length (npath s)) (length word)) (length (npath s))); [lia|].
      cbn [andb].
      destruct (Nat.leb_spec (length (npath s)) (Nat.min (length (npath s)) (length word))); [|lia].
      destruct (Nat.eqb_spec (length p0) (Nat.min (length (npath s)) (length word))); [|lia].
      destruct (Nat.ltb_spec 0 (Nat.min (length (npath s)) (length word))); [|lia].
      destruct (Nat.ltb_spec 0 (length p0)); [|lia]. cbn [andb negb].
      destruct (Nat.ltb_spec (Nat.min (length (npath s)) (length word)) (length word)); [lia|].
      eexists; split; [reflexivity|]. eapply mo_found; eauto; [left; auto|left].
      congruence.
    + (* one more rune in the fragment *)
      cbn [length] in Ls. unfold after_loop.
      destruct (Nat.eqb_spec (S (length p0)) (length (npath s))); [|lia]. cbn [andb].
      assert (En : nth (length p0) (npath s) 0%N = y0).
      { rewrite Ey, app_nth2, Nat.sub_diag by lia. reflexivity. }
      rewrite En.
      assert (Nd : forall k', dom pre s k' -> prefix (pre ++ npath s) k') by apply dom_prefix.
      assert (Nw : ~ dom pre s (pre ++ word)).
      { intros D. apply Nd in D. apply prefix_len in D. rewrite !app_length in D. lia. }
      destruct (N.eqb_spec y0 d) as [->|Hyd].
      * destruct (Nat.ltb_spec (Nat.min (length (npath s)) (length word)) (length word)); [lia|].
        eexists; split; [reflexivity|]. eapply mo_found; eauto; [left; auto|right].
        split; auto. rewrite Ey, Ex. now rewrite app_assoc.
      * destruct (Nat.ltb_spec (Nat.min (length (npath s)) (length word)) (length (npath s))); [|lia].
        destruct (Nat.eqb_spec (length p0) (Nat.min (length (npath s)) (length word))); [|lia].
        cbn [andb].
        destruct (Nat.ltb_spec (Nat.min (length (npath s)) (length word)) (length word)); [lia|].
        eexists; split; [reflexivity|]. eapply mo_inside; eauto; [left; auto|..].
        -- exists y0, []. rewrite Ey, Ex. now rewrite app_assoc.
        -- rewrite Ey, Ex, <- app_assoc. intros E. do 2 apply app_inv_head in E. congruence.
    + cbn [length] in Ls. unfold after_loop.
      destruct (Nat.eqb_spec (S (length p0)) (length (npath s))); [lia|]. cbn [andb].
      destruct (Nat.ltb_spec (Nat.min (length (npath s)) (length word)) (length (npath s))); [|lia].
      destruct (Nat.eqb_spec (length p0) (Nat.min (length (npath s)) (length word))); [|lia].
      cbn [andb].
      destruct (Nat.ltb_spec (Nat.min (length (npath s)) (length word)) (length word)); [lia|].
      assert (Nd : forall k', dom pre s k' -> prefix (pre ++ npath s) k') by apply dom_prefix.
      eexists; split; [reflexivity|]. eapply mo_inside; eauto; [left; auto|..].
      * exists y0, (y1 :: y). rewrite Ey, Ex. now rewrite app_assoc.
      * rewrite Ey, Ex, <- app_assoc. intros E. do 2 apply app_inv_head in E. congruence.
  - (* the fragment is a proper prefix of the word *)
    rewrite app_nil_r in Ey. cbn [length] in Lw, Ls.
    assert (Hp0l : 0 < length p0) by (rewrite Ey in Hne; destruct p0; [congruence|cbn; lia]).
    destruct (Nat.ltb_spec (length p0) (Nat.min (length (npath s)) (length word))); [lia|].
    cbn [bind]. unfold after_loop.
    destruct (Nat.eqb_spec (S (length p0)) (length (npath s))); [lia|]. cbn [andb].
    destruct (Nat.ltb_spec (Nat.min (length (npath s)) (length word)) (length (npath s))); [lia|].
    cbn [andb].
    destruct (Nat.leb_spec (length (npath s)) (Nat.min (length (npath s)) (length word))); [|lia].
    destruct (Nat.eqb_spec (length p0) (Nat.min (length (npath s)) (length word))); [|lia].
    destruct (Nat.ltb_spec 0 (Nat.min (length (npath s)) (length word))); [|lia].
    destruct (Nat.ltb_spec 0 (length p0)); [|lia]. cbn [andb negb].
    destruct (Nat.ltb_spec (Nat.min (length (npath s)) (length word)) (length word)); [|lia].
    replace (Nat.min (length (npath s)) (length word)) with (length p0) by lia.
    replace (skipn (if 0 =? 0 then length p0 else 0) word) with (x0 :: x)
      by (rewrite Ex; cbn; rewrite skipn_app, skipn_all, Nat.sub_diag; reflexivity).
    pose proof (wfn_nodup _ W) as ND. pose proof (wfn_forall _ W) as F.
    destruct (kids_loop_spec (S rf) d (pre ++ npath s) s (lrd_end d (lrd_end d false pre) p0)
                kv x0 x F ND) with (last := MRes true false (Some s) par kv)
      as (r & E & D); [|reflexivity|].
    { intros c Hc. destruct (wfn_kids _ _ W Hc) as [Hnc Wc]. rewrite Forall_forall in IH.
      replace (lrd_end d (lrd_end d false pre) p0) with (lrd_end d false (pre ++ npath s))
        by (rewrite lrd_end_app; congruence).
      apply IH; auto; [|discriminate]. apply aside_tree_kid; auto.
      replace (npath s ++ x0 :: x) with word by (rewrite Ey; exact Ex). exact P. }
    destruct (nkids s) as [|c0 ks0] eqn:Ek.
    + eexists; split; [reflexivity|]. eapply mo_past; eauto; [left; auto|].
      exists x0, x. rewrite Ex, Ey. now rewrite app_assoc.
    + rewrite <- Ek in *. exists r. split; [exact E|].
      rewrite Ex, <- Ey. destruct D as [[E0 _]|[(c & Hc & Hr & M)|(E0 & -> & M)]].
      * congruence.
      * eapply mout_lift; eauto. discriminate.
      * apply mout_miss_kids; auto. discriminate.
  - (* mismatch *)
    cbn [length] in Lw, Ls.
    destruct (Nat.ltb_spec (length p0) (Nat.min (length (npath s)) (length word))); [|lia].
    rewrite Ex in P. destruct (mismatch_aside d pre s p0 y0 y x0 x P Ey Hd) as (H1 & H2).
    rewrite H2, retriever_plain by assumption. cbn [bind].
    eexists; split; [reflexivity|]. apply mo_miss.
    + intros k' D Pk. apply dom_prefix in D. destruct D as [z ->], Pk as [z' E].
      rewrite Ex, Ey, <- !app_assoc in E. do 2 apply app_inv_head in E.
      cbn in E. inversion E. congruence.
    + intros k' n Hin Pk. apply ents_prefix in Hin. exfalso.
      destruct Hin as [z ->], Pk as [z' E].
      rewrite Ex, Ey, <- !app_assoc in E. do 2 apply app_inv_head in E.
      cbn in E. inversion E. congruence.
Qed.

Lemma matchR_plain rf d s pre word par kv :
  wfn s -> plain_tree d pre s -> npath s <> [] -> word <> [] ->
  exists r, matchR (S rf) d s word (lrd_end d false pre) par kv = Ok r /\
            mout d pre s par word kv r.
Proof. intros W P. apply matchR_aside; auto. now apply plain_tree_aside. Qed.

(** outcome for a whole tree *)
Inductive sout (d : rune) (s : node) (w : key_t) (kv : kvs) : mres -> Prop :=
| so_root : w = [] -> sout d s w kv (MRes true false (Some s) None kv)
| so_empty : w <> [] -> nkids s = [] -> sout d s w kv (MRes false true None None kv)
| so_kids r : w <> [] -> nkids s <> [] -> mout d [] s None w kv r -> sout d s w kv r.

Lemma matchR_root_aside rf d s word kv :
  wfn s -> aside_tree d [] s word -> npath s = [] ->
  exists r, matchR (S rf) d s word false None kv = Ok r /\ sout d s word kv r.
Proof.
  intros W P Hp. destruct word as [|w0 w].
  { eexists; split; [destruct s; reflexivity|]. now apply so_root. }
  rewrite matchR_eq by discriminate. rewrite Hp. cbn [scan length Nat.min].
  cbv zeta. change (0 <? 0) with false. cbn [bind].
  unfold after_loop. rewrite Hp. cbn [length Nat.min]. cbn [Nat.eqb Nat.ltb Nat.leb andb].
  pose proof (wfn_nodup _ W) as ND. pose proof (wfn_forall _ W) as F.
  destruct (kids_loop_spec (S rf) d ([] ++ npath s) s false kv w0 w F ND)
    with (last := MRes false false None None kv) as (r & E & D); [|reflexivity|].
  { intros c Hc. destruct (wfn_kids _ _ W Hc) as [Hnc Wc]. rewrite Hp. cbn [app].
    apply (matchR_aside rf d c []); auto; [|discriminate].
    pose proof (aside_tree_kid d [] s (w0 :: w) c) as Q. rewrite Hp in Q. now apply Q. }
  destruct (nkids s) as [|c0 ks0] eqn:Ek.
  - eexists; split; [reflexivity|]. apply so_empty; auto. discriminate.
  - rewrite <- Ek in *. exists r. split; [exact E|]. apply so_kids; [discriminate|congruence|].
    replace (w0 :: w) with (npath s ++ w0 :: w) by now rewrite Hp.
    destruct D as [[E0 _]|[(c & Hc & Hr & M)|(E0 & -> & M)]].
    + congruence.
    + eapply mout_lift; eauto. discriminate.
    + apply mout_miss_kids; auto. discriminate.
Qed.

Lemma matchR_root rf d s word kv :
  wfn s -> plain_tree d [] s -> npath s = [] ->
  exists r, matchR (S rf) d s word false None kv = Ok r /\ sout d s word kv r.
Proof. intros W P. apply matchR_root_aside; auto. now apply plain_tree_aside. Qed.
