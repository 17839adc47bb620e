(** Lookups through route patterns. *)
From Coq Require Import List NArith Bool Arith Lia.
From Verif Require Import GoStr Utf8 Node NodeWf InsertProofs MatchProofs Trie TreeOps Spec Refine Climb ApiRefine Reach Effect Derived Pattern.
Import ListNotations.
Open Scope nat_scope.

(** ** one node *)
Lemma skip_node rf d c w0 w lrd par kv y0 y :
  npath c = y0 :: y -> y0 <> w0 -> lrd && ((y0 =? colon) || (y0 =? star))%N = false ->
  matchR (S rf) d c (w0 :: w) lrd par kv = Ok (MRes false false None None kv).
Proof.
  intros E H L. rewrite matchR_eq by discriminate. cbv zeta. rewrite E. cbn [scan].
  destruct (N.eqb_spec y0 w0); [contradiction|]. cbn [length Nat.min]. cbn [Nat.ltb Nat.leb].
  cbn [nth]. rewrite retriever_plain by assumption. reflexivity.
Qed.

Lemma scan_app d a y0 y x0 x lrd :
  y0 <> x0 -> scan d (a ++ y0 :: y) (a ++ x0 :: x) 0 lrd = (length a, lrd_end d lrd a).
Proof. intros H. rewrite scan_spec, lcp_diff by auto. reflexivity. Qed.
Lemma nth_mid {A} (a : list A) y0 y z : nth (length a) (a ++ y0 :: y) z = y0.
Proof. rewrite app_nth2, Nat.sub_diag by lia. reflexivity. Qed.
Lemma skipn_mid {A} (a : list A) y0 y : skipn (S (length a)) (a ++ y0 :: y) = y.
Proof. induction a; cbn; auto. Qed.
Lemma skipn_here {A} (a y : list A) : skipn (length a) (a ++ y) = y.
Proof. induction a; cbn; auto. Qed.

(** entering the block at the label retriever at the pattern rune behind [a] *)
Lemma enter rf d n a pc name x0 x lrd par kv :
  npath n = a ++ pc :: name -> x0 <> pc ->
  matchR rf d n (a ++ x0 :: x) lrd par kv =
    do ex <- retriever rf d n (a ++ x0 :: x) par pc (length a) (length a) (lrd_end d lrd a) kv;
    match ex with
    | RReturn r => Ok r
    | RBreak src dst lrd2 mt pt kv2 =>
        let minL := Nat.min (length (npath n)) (length (a ++ x0 :: x)) in
        let '(matched, partial, child, parent) := after_loop d n (a ++ x0 :: x) par src mt pt in
        if minL <? length (a ++ x0 :: x) then
          match nkids n with
          | [] => Ok (MRes false true child parent kv2)
          | ks => kids_loop rf d (skipn (if dst =? 0 then minL else dst) (a ++ x0 :: x)) lrd2 n ks
                            (MRes matched partial child parent kv2)
          end
        else Ok (MRes matched partial child parent kv2)
    end.
Proof.
  intros E H. rewrite matchR_eq by (intros X; destruct (app_cons_not_nil _ _ _ (eq_sym X))). cbv zeta.
  rewrite E at 1. rewrite scan_app by auto.
  destruct (Nat.ltb_spec (length a) (Nat.min (length (npath n)) (length (a ++ x0 :: x)))) as [_|X].
  - rewrite E at 1. rewrite nth_mid. reflexivity.
  - rewrite E, !app_length in X. cbn [length] in X. lia.
Qed.

(** ":name" at the end of the fragment, one segment [x] in the query *)
Lemma param_end rf d n a name x0 x lrd par kv :
  npath n = a ++ colon :: name -> lrd_end d lrd a = true -> name <> [] -> ~ In d name ->
  x0 <> colon -> ~ In d (x0 :: x) ->
  matchR (S rf) d n (a ++ x0 :: x) lrd par kv =
    Ok (MRes true false (Some n) par (kv ++ [(of_runes name, of_runes (x0 :: x))])).
Proof.
  intros E L Hn Dn Hx Dx. rewrite (enter _ _ _ _ _ _ _ _ _ _ _ E Hx), L. cbn [retriever andb].
  change (colon =? star)%N with false. change (colon =? colon)%N with true. cbv iota.
  rewrite extractor_in.
  2:{ rewrite E, app_length. cbn [length]. destruct name; [congruence|cbn; lia]. }
  rewrite (extractor_in d (length a) (a ++ x0 :: x)) by (rewrite app_length; cbn; lia).
  rewrite skipn_here. rewrite E, skipn_mid, !seg_all by assumption.
  rewrite !app_length. cbn [length].
  replace (S (length a) + length name =? length a + S (length name)) with true by (symmetry; apply Nat.eqb_eq; lia).
  rewrite Nat.eqb_refl. reflexivity.
Qed.

(** ":name" at the end of the fragment of a leaf, several segments in the query *)
Lemma param_end_more rf d n a name x0 x y lrd par kv :
  npath n = a ++ colon :: name -> lrd_end d lrd a = true -> name <> [] -> ~ In d name ->
  x0 <> colon -> ~ In d (x0 :: x) -> nkids n = [] ->
  exists kv' c p, matchR (S rf) d n (a ++ (x0 :: x) ++ d :: y) lrd par kv =
    Ok (match Nat.compare (length name) (S (length x) + length y) with
        | Eq => MRes true false (Some n) par kv'
        | Lt => MRes false true c p kv'
        | Gt => MRes false false None None kv'
        end).
Proof.
  intros E L Hn Dn Hx Dx Hk. rewrite <- app_comm_cons. rewrite (enter _ _ _ _ _ _ _ _ _ _ _ E Hx), L. cbn [retriever andb].
  change (colon =? star)%N with false. change (colon =? colon)%N with true. cbv iota.
  rewrite extractor_in.
  2:{ rewrite E, app_length. cbn [length]. destruct name; [congruence|cbn; lia]. }
  rewrite (extractor_in d (length a)) by (rewrite app_length; cbn; lia).
  rewrite skipn_here. rewrite (app_comm_cons x (d :: y) x0), seg_app by assumption.
  rewrite E. rewrite skipn_mid, seg_all by assumption.
  rewrite !app_length. cbn [length]. 
  replace (S (length a) + length name =? length a + S (length name)) with true by (symmetry; apply Nat.eqb_eq; lia).
  replace (length a + S (length x) =? length a + (S (length x) + S (length y))) with false
    by (symmetry; apply Nat.eqb_neq; lia).
  cbn [bind]. unfold after_loop. rewrite E, Hk.
  replace (length (a ++ colon :: name)) with (length a + S (length name)) by (rewrite app_length; reflexivity).
  replace (length (a ++ (x0 :: x) ++ d :: y)) with (length a + S (length x + S (length y)))
    by (rewrite !app_length; cbn [length]; lia).
  replace (length a + (S (length x) + S (length y))) with (length a + S (length x + S (length y))) by lia.
  set (A := length a). set (Nn := length name). set (X := length x). set (Y := length y).
  destruct (Nat.eqb_spec (S (S A + Nn)) (A + S Nn)); [lia|]. cbn [andb].
  destruct (Nat.compare_spec Nn (S X + Y)) as [H|H|H].
  - (* same length *)
    destruct (Nat.ltb_spec (Nat.min (A + S Nn) (A + S (X + S Y))) (A + S Nn)); [lia|]. cbn [andb].
    destruct (Nat.leb_spec (A + S Nn) (Nat.min (A + S Nn) (A + S (X + S Y)))); [|lia].
    destruct (Nat.eqb_spec (S A + Nn) (Nat.min (A + S Nn) (A + S (X + S Y)))); [|lia].
    destruct (Nat.ltb_spec 0 (Nat.min (A + S Nn) (A + S (X + S Y)))); [|lia].
    destruct (Nat.ltb_spec 0 (S A + Nn)); [|lia]. cbn [andb negb].
    destruct (Nat.ltb_spec (Nat.min (A + S Nn) (A + S (X + S Y))) (A + S (X + S Y))); [lia|].
    eexists _, None, None. reflexivity.
  - destruct (Nat.ltb_spec (Nat.min (A + S Nn) (A + S (X + S Y))) (A + S Nn)); [lia|]. cbn [andb].
    destruct (Nat.leb_spec (A + S Nn) (Nat.min (A + S Nn) (A + S (X + S Y)))); [|lia].
    destruct (Nat.eqb_spec (S A + Nn) (Nat.min (A + S Nn) (A + S (X + S Y)))); [|lia].
    destruct (Nat.ltb_spec 0 (Nat.min (A + S Nn) (A + S (X + S Y)))); [|lia].
    destruct (Nat.ltb_spec 0 (S A + Nn)); [|lia]. cbn [andb negb].
    destruct (Nat.ltb_spec (Nat.min (A + S Nn) (A + S (X + S Y))) (A + S (X + S Y))); [|lia].
    do 3 eexists. reflexivity.
  - destruct (Nat.ltb_spec (Nat.min (A + S Nn) (A + S (X + S Y))) (A + S Nn)); [|lia].
    destruct (Nat.eqb_spec (S A + Nn) (Nat.min (A + S Nn) (A + S (X + S Y)))); [lia|]. cbn [andb].
    destruct (Nat.leb_spec (A + S Nn) (Nat.min (A + S Nn) (A + S (X + S Y)))); [lia|]. cbn [andb].
    destruct (Nat.ltb_spec (Nat.min (A + S Nn) (A + S (X + S Y))) (A + S (X + S Y))); [lia|].
    eexists _, None, None. reflexivity.
Qed.

(** "*name" *)
Lemma wild_end rf d n a name x0 x lrd par kv :
  npath n = a ++ star :: name -> lrd_end d lrd a = true -> ~ In d name -> x0 <> star ->
  matchR (S rf) d n (a ++ x0 :: x) lrd par kv =
    Ok (MRes true false (Some n) par (kv ++ [(of_runes name, of_runes (x0 :: x))])).
Proof.
  intros E L Dn Hx. rewrite (enter _ _ _ _ _ _ _ _ _ _ _ E Hx), L. cbn [retriever andb].
  change (star =? star)%N with true. cbv iota. rewrite skipn_here.
  assert (X : exists p e, extractor (S (length a)) (npath n) d = (of_runes name, p, e)).
  { destruct name as [|c name].
    - exists 0, false. rewrite extractor_out; auto. rewrite E, app_length. cbn. lia.
    - rewrite extractor_in by (rewrite E, app_length; cbn; lia). rewrite E, skipn_mid, seg_all by assumption. eauto. }
  destruct X as (p & e & ->). reflexivity.
Qed.

(** ":name" followed by a tail in the same fragment, leaf *)
Lemma param_tail rf d n a name tail x0 x lrd par kv :
  npath n = a ++ colon :: name ++ d :: tail -> lrd_end d lrd a = true -> name <> [] -> ~ In d name ->
  x0 <> colon -> ~ In d (x0 :: x) -> nkids n = [] ->
  exists c p kv', matchR (S rf) d n (a ++ (x0 :: x) ++ d :: tail) lrd par kv =
    Ok (if length x <=? length name
        then MRes true false (Some n) par (kv ++ [(of_runes name, of_runes (x0 :: x))])
        else MRes false true c p kv').
Proof.
  intros E L Hn Dn Hx Dx Hk. rewrite <- app_comm_cons. rewrite (enter _ _ _ _ _ _ _ _ _ _ _ E Hx), L. cbn [retriever andb].
  change (colon =? star)%N with false. change (colon =? colon)%N with true. cbv iota.
  rewrite extractor_in.
  2:{ rewrite E, app_length. cbn [length]. rewrite app_length. cbn [length]. lia. }
  rewrite (extractor_in d (length a)) by (rewrite app_length; cbn; lia).
  rewrite skipn_here. rewrite (app_comm_cons x (d :: tail) x0), seg_app by assumption.
  rewrite E. rewrite skipn_mid, seg_app by assumption.
  replace (length (a ++ colon :: name ++ d :: tail)) with (length a + S (length name) + S (length tail))
    by (rewrite !app_length; cbn [length]; rewrite app_length; cbn [length]; lia).
  replace (length (a ++ (x0 :: x) ++ d :: tail)) with (length a + S (length x) + S (length tail))
    by (rewrite !app_length; cbn [length]; lia).
  replace (S (length a) + length name =? length a + S (length name) + S (length tail)) with false by (symmetry; apply Nat.eqb_neq; lia).
  replace (length a + length (x0 :: x) =? length a + S (length x) + S (length tail)) with false
    by (symmetry; apply Nat.eqb_neq; cbn [length]; lia).
  cbn [negb].
  replace (skipn (S (length a) + length name) (a ++ colon :: name ++ d :: tail)) with ((d :: tail) ++ []).
  2:{ rewrite app_nil_r. replace (a ++ colon :: name ++ d :: tail) with ((a ++ colon :: name) ++ d :: tail) by now rewrite <- app_assoc.
      replace (S (length a) + length name) with (length (a ++ colon :: name)) by (rewrite app_length; cbn; lia).
      now rewrite skipn_here. }
  replace (skipn (length a + length (x0 :: x)) (a ++ (x0 :: x) ++ d :: tail)) with ((d :: tail) ++ []).
  2:{ rewrite app_nil_r, app_assoc. replace (length a + length (x0 :: x)) with (length (a ++ x0 :: x)) by apply app_length.
      now rewrite skipn_here. }
  rewrite subscan_app by exact I. cbn [length].
  replace (S (length a) + length name + S (length tail) =? length a + S (length name) + S (length tail)) with true
    by (symmetry; apply Nat.eqb_eq; lia).
  rewrite Nat.eqb_refl. cbn [andb bind]. unfold after_loop. rewrite E, Hk.
  replace (length (a ++ colon :: name ++ d :: tail)) with (length a + S (length name) + S (length tail))
    by (rewrite !app_length; cbn [length]; rewrite app_length; cbn [length]; lia).
  replace (length (a ++ (x0 :: x) ++ d :: tail)) with (length a + S (length x) + S (length tail))
    by (rewrite !app_length; cbn [length]; lia).
  set (A := length a). set (Nn := length name). set (X := length x). set (T := length tail).
  destruct (Nat.eqb_spec (S (S A + Nn + S T)) (A + S Nn + S T)); [lia|]. cbn [andb].
  destruct (Nat.leb_spec X Nn).
  - destruct (Nat.ltb_spec (Nat.min (A + S Nn + S T) (A + S X + S T)) (A + S X + S T)); [lia|].
    destruct (Nat.ltb_spec (Nat.min (A + S Nn + S T) (A + S X + S T)) (A + S Nn + S T)).
    + destruct (Nat.eqb_spec (S A + Nn + S T) (Nat.min (A + S Nn + S T) (A + S X + S T))); [lia|]. cbn [andb].
      destruct (Nat.leb_spec (A + S Nn + S T) (Nat.min (A + S Nn + S T) (A + S X + S T))); [lia|]. cbn [andb].
      exists None, None, []. reflexivity.
    + cbn [andb].
      destruct (Nat.leb_spec (A + S Nn + S T) (Nat.min (A + S Nn + S T) (A + S X + S T))); [|lia].
      destruct (Nat.eqb_spec (S A + Nn + S T) (Nat.min (A + S Nn + S T) (A + S X + S T))); [|lia].
      destruct (Nat.ltb_spec 0 (Nat.min (A + S Nn + S T) (A + S X + S T))); [|lia].
      destruct (Nat.ltb_spec 0 (S A + Nn + S T)); [|lia]. cbn [andb negb].
      exists None, None, []. reflexivity.
  - destruct (Nat.ltb_spec (Nat.min (A + S Nn + S T) (A + S X + S T)) (A + S X + S T)); [|lia].
    repeat match goal with |- context[if ?b then _ else _] => destruct b end;
      eexists _, _, _; reflexivity.
Qed.

(** ** walking down to the node with the pattern *)
Definition hit (r : res mres) : Prop :=
  match r with Ok m => m_matched m || m_partial m = true | _ => True end.

(** a hit, or nothing at all *)
Definition fair (r : res mres) : Prop :=
  match r with Ok m => m_matched m || m_partial m = true \/ m = MRes false false None None (m_kv m) | _ => True end.
Lemma hit_fair r : hit r -> fair r.
Proof. destruct r; cbn; auto. Qed.

Lemma loop_skip rf d rest lrd s : forall cs kv,
  (forall c' kv, In c' cs -> matchR rf d c' rest lrd (Some s) kv = Ok (MRes false false None None kv)) ->
  kids_loop rf d rest lrd s cs (MRes false false None None kv) = Ok (MRes false false None None kv).
Proof.
  induction cs as [|c cs IH]; intros kv H; cbn [kids_loop]; [reflexivity|]. cbn [m_kv].
  rewrite (H c kv (or_introl eq_refl)). cbn [bind m_matched m_partial orb]. apply IH. intros. apply H. now right.
Qed.
Lemma loop_pick rf d rest lrd s c : forall cs last,
  (forall c' kv, In c' cs -> c' = c \/ matchR rf d c' rest lrd (Some s) kv = Ok (MRes false false None None kv)) ->
  NoDup cs -> In c cs -> fair (matchR rf d c rest lrd (Some s) (m_kv last)) ->
  kids_loop rf d rest lrd s cs last = matchR rf d c rest lrd (Some s) (m_kv last).
Proof.
  induction cs as [|c1 cs IH]; intros last Hs ND Hin Hh; [destruct Hin|]. cbn [kids_loop].
  inversion ND as [|? ? NI ND']; subst.
  assert (G : c1 = c -> (do r <- matchR rf d c1 rest lrd (Some s) (m_kv last);
     if m_matched r || m_partial r then Ok r else kids_loop rf d rest lrd s cs r) =
     matchR rf d c rest lrd (Some s) (m_kv last)).
  { intros ->. destruct (matchR rf d c rest lrd (Some s) (m_kv last)) as [r| |] eqn:E; auto. cbn in Hh |- *.
    destruct Hh as [Hh|Hh]; [now rewrite Hh|]. rewrite Hh. cbn [m_matched m_partial orb]. apply loop_skip.
    intros c' kv Hc'. destruct (Hs c' kv (or_intror Hc')) as [->|X]; [contradiction|exact X]. }
  destruct (Hs c1 (m_kv last) (or_introl eq_refl)) as [->|E]; [now apply G|].
  destruct Hin as [->|Hin]; [now apply G|].
  rewrite E. cbn [bind m_matched m_partial orb].
  change (kids_loop rf d rest lrd s cs (MRes false false None None (m_kv last)) =
          matchR rf d c rest lrd (Some s) (m_kv last)).
  rewrite IH; auto. intros c' kv Hc'. apply Hs. now right.
Qed.
Lemma one_level rf d s c x0 x lrd par kv :
  NoDup (nkids s) -> In c (nkids s) ->
  (forall c' kv, In c' (nkids s) ->
     c' = c \/ matchR rf d c' (x0 :: x) (lrd_end d lrd (npath s)) (Some s) kv = Ok (MRes false false None None kv)) ->
  fair (matchR rf d c (x0 :: x) (lrd_end d lrd (npath s)) (Some s) kv) ->
  matchR rf d s (npath s ++ x0 :: x) lrd par kv =
  matchR rf d c (x0 :: x) (lrd_end d lrd (npath s)) (Some s) kv.
Proof.
  intros ND Hc Hs Hh. rewrite matchR_eq by (intros X; destruct (app_cons_not_nil _ _ _ (eq_sym X))).
  cbv zeta. rewrite scan_spec. rewrite lcp_app_self. cbn [plus].
  replace (Nat.min (length (npath s)) (length (npath s ++ x0 :: x))) with (length (npath s))
    by (rewrite app_length; cbn; lia).
  rewrite Nat.ltb_irrefl. cbn [bind].
  destruct (after_loop d s (npath s ++ x0 :: x) par (length (npath s)) false false) as [[[m p] ch] pa].
  destruct (Nat.ltb_spec (length (npath s)) (length (npath s ++ x0 :: x))) as [_|X]; [|rewrite app_length in X; cbn in X; lia].
  cbn [Nat.eqb]. rewrite skipn_here.
  destruct (nkids s) as [|k0 ks] eqn:Ek; [destruct Hc|]. apply loop_pick; auto.
Qed.

Lemma plain_not_pattern d a pc b :
  lrd_end d false a = true -> pc = colon \/ pc = star -> ~ plain d (a ++ pc :: b).
Proof.
  intros L Hpc P. unfold plain in P. rewrite plainb_app, L in P. apply andb_true_iff in P. destruct P as [_ P].
  cbn in P. destruct Hpc as [-> | ->]; discriminate.
Qed.

(** [q] ends with the delimiter and [pc] is a pattern rune; all keys except those starting
    with [q ++ [pc]] have no pattern that the path [q ++ [x0]] meets, and none starts with it *)
Lemma descend d q pc x0 x :
  (pc = colon \/ pc = star) -> lrd_end d false q = true -> x0 <> pc ->
  forall s pre,
  wfn s -> prefix (pre ++ npath s) q -> (exists k, dom pre s k /\ prefix (q ++ [pc]) k) ->
  (forall k, dom pre s k -> aside d k (q ++ [x0]) \/ prefix (q ++ [pc]) k) ->
  (forall k, dom pre s k -> ~ prefix (q ++ [x0]) k) ->
  exists kp m n a, In (kp, m) (ents pre s) /\ In n (nkids m) /\ q = kp ++ a /\ prefix (a ++ [pc]) (npath n) /\
    forall rf w par kv, pre ++ w = q ++ x0 :: x ->
      fair (matchR (S rf) d n (a ++ x0 :: x) (lrd_end d false kp) (Some m) kv) ->
      matchR (S rf) d s w (lrd_end d false pre) par kv =
      matchR (S rf) d n (a ++ x0 :: x) (lrd_end d false kp) (Some m) kv.
Proof.
  intros Hpc Lq Hx. induction s as [s IH] using node_ind'. intros pre W Pq (k & Dk & Pk) Hpl Hx0.
  destruct Pq as [a Eq]. pose proof (NoDup_map_inv _ _ (wfn_nodup _ W)) as NDk.
  apply dom_inv in Dk. destruct Dk as [->|(c & Hc & Dk)].
  { exfalso. apply prefix_len in Pk. rewrite Eq, !app_length in Pk. cbn in Pk. lia. }
  destruct (wfn_kids _ _ W Hc) as [Hnc Wc].
  pose proof (dom_prefix _ _ _ Dk) as Pc.
  assert (Hch : forall c', In c' (nkids s) -> forall y0 y, npath c' = y0 :: y -> y0 = hd pc a -> c' = c).
  { intros c' Hc' y0 y Ey Hy. destruct (npath c) as [|e0 e] eqn:Ee; [congruence|].
    assert (e0 = hd pc a).
    { destruct Pk as [z ->], Pc as [z' E]. rewrite Eq, <- !app_assoc in E. do 2 apply app_inv_head in E.
      rewrite <- app_comm_cons in E. destruct a as [|a0 a]; cbn in E |- *; now inversion E. }
    apply (nodup_fst_eq (nkids s)); auto using wfn_nodup. unfold fst_rune. rewrite Ey, Ee. cbn. congruence. }
  assert (Skip : forall rf c' kv, In c' (nkids s) -> forall w0 w', a ++ x0 :: x = w0 :: w' ->
    c' = c \/ matchR (S rf) d c' (w0 :: w') (lrd_end d false (pre ++ npath s)) (Some s) kv = Ok (MRes false false None None kv)).
  { intros rf c' kv Hc' w0 w' Ew. destruct (wfn_kids _ _ W Hc') as [Hnc' _].
    destruct (npath c') as [|y0 y] eqn:Ey; [congruence|].
    assert (Dc' : dom pre s ((pre ++ npath s) ++ y0 :: y)).
    { eapply dom_kid; eauto. rewrite <- Ey. apply dom_self. }
    destruct (N.eq_dec y0 (hd pc a)) as [Hy|Hy]; [left; eauto|right].
    apply (skip_node rf d c' w0 w' _ _ kv y0 y); auto.
    - intros ->. destruct a as [|a0 a]; cbn in Ew, Hy; inversion Ew; subst; [|congruence].
      apply (Hx0 _ Dc'). rewrite app_nil_r. exists y. rewrite <- (app_assoc _ [w0] y). reflexivity.
    - destruct (Hpl _ Dc') as [P|[z Ez]].
      + destruct (lrd_end d false (pre ++ npath s)) eqn:L; [|reflexivity]. cbn [andb].
        destruct ((y0 =? colon) || (y0 =? star))%N eqn:Ep; [exfalso|reflexivity].
        assert (Hc0 : y0 = colon \/ y0 = star).
        { apply orb_true_iff in Ep. now rewrite !N.eqb_eq in Ep. }
        destruct a as [|a0 a].
        * assert (E : x0 = y0).
          { apply (P (pre ++ npath s) y0 y x0 [] eq_refl L Hc0). rewrite Eq, app_nil_r. reflexivity. }
          apply (Hx0 _ Dc'). exists y. rewrite Eq, app_nil_r, E, <- !app_assoc. reflexivity.
        * apply Hy. cbn [hd]. symmetry.
          apply (P (pre ++ npath s) y0 y a0 (a ++ [x0]) eq_refl L Hc0). rewrite Eq, <- !app_assoc. reflexivity.
      + exfalso. apply Hy. rewrite Eq, <- !app_assoc in Ez. do 2 apply app_inv_head in Ez.
        destruct a; cbn in *; now inversion Ez. }
  assert (Cmp : prefix ((pre ++ npath s) ++ npath c) q \/ prefix (q ++ [pc]) ((pre ++ npath s) ++ npath c)).
  { destruct (prefix_comparable _ _ _ Pc Pk) as [P|P]; auto.
    destruct P as [z Ez]. destruct z as [|z0 z] using rev_ind.
    - rewrite app_nil_r in Ez. right. rewrite Ez. apply prefix_refl.
    - rewrite app_assoc in Ez. apply app_inj_tail in Ez. destruct Ez as [-> _]. left. now exists z. }
  destruct Cmp as [Cq|Cn].
  - rewrite Forall_forall in IH.
    destruct (IH c Hc (pre ++ npath s) Wc Cq) as (kp & m & n & a' & H1 & H2 & H3 & H4 & H5).
    + exists k. auto.
    + intros k' D'. apply Hpl. eapply dom_kid; eauto.
    + intros k' D'. apply Hx0. eapply dom_kid; eauto.
    + exists kp, m, n, a'. split; [eapply ents_kid; eauto|]. split; auto. split; auto. split; auto.
      intros rf w par kv Ew Hh.
      assert (Ew' : w = npath s ++ a ++ x0 :: x).
      { rewrite Eq, <- !app_assoc in Ew. now apply app_inv_head in Ew. }
      destruct (a ++ x0 :: x) as [|w0 w'] eqn:Ea; [destruct (app_cons_not_nil _ _ _ (eq_sym Ea))|].
      assert (E5 : matchR (S rf) d c (w0 :: w') (lrd_end d false (pre ++ npath s)) (Some s) kv =
                   matchR (S rf) d n (a' ++ x0 :: x) (lrd_end d false kp) (Some m) kv).
      { apply H5; auto. rewrite <- Ea, Eq, !app_assoc. reflexivity. }
      rewrite lrd_end_app in E5. rewrite Ew', <- E5. apply one_level; auto.
      * intros c' kv' Hc'. rewrite <- lrd_end_app. eauto.
      * rewrite E5. exact Hh.
  - exists (pre ++ npath s), s, c, a. split; [rewrite ents_eq; now left|]. split; auto. split; auto. split.
    + destruct Cn as [z Ez]. rewrite Eq, <- !app_assoc in Ez. do 2 apply app_inv_head in Ez.
      exists z. rewrite Ez. now rewrite <- app_assoc.
    + intros rf w par kv Ew Hh.
      assert (Ew' : w = npath s ++ a ++ x0 :: x).
      { rewrite Eq, <- !app_assoc in Ew. now apply app_inv_head in Ew. }
      destruct (a ++ x0 :: x) as [|w0 w'] eqn:Ea; [destruct (app_cons_not_nil _ _ _ (eq_sym Ea))|].
      rewrite lrd_end_app in *. rewrite Ew'. apply one_level; auto.
Qed.

(** ** whole stores *)
Lemma dom_get t k : dom [] (root t) k <-> t_get t k <> None.
Proof.
  split.
  - intros [n H]. eapply ents_get; eauto.
  - intros H. apply entries_keys in H. unfold skeys, entries, ients in H. rewrite !map_map in H. cbn in H.
    apply in_map_iff in H. destruct H as ([k' n] & E & H). cbn in E. subst. now exists n.
Qed.
Lemma ents_attr t k n : wf_tr t -> In (k, n) (ents [] (root t)) ->
  t_get t k = Some (attr_of (info_of n)).
Proof.
  intros WT H. unfold t_get. rewrite <- (abs_entries t k).
  rewrite (ents_look _ _ _ (proj1 (proj2 (proj1 WT))) H). reflexivity.
Qed.

(** the first pattern node on the way of the query [q ++ x0 :: x] *)
Lemma route_probe t d q pc x0 x :
  reached t -> (pc = colon \/ pc = star) -> lrd_end d false q = true -> x0 <> pc ->
  (exists k, t_get t k <> None /\ prefix (q ++ [pc]) k) ->
  (forall k, t_get t k <> None -> aside d k (q ++ [x0]) \/ prefix (q ++ [pc]) k) ->
  (forall k, t_get t k <> None -> ~ prefix (q ++ [x0]) k) ->
  exists kp m n a z, In (kp, m) (ents [] (root t)) /\ In n (nkids m) /\ q = kp ++ a /\
    npath n = a ++ pc :: z /\ In (q ++ pc :: z, n) (ents [] (root t)) /\
    lrd_end d (lrd_end d false kp) a = true /\
    forall rf w, runes w = q ++ x0 :: x ->
      fair (matchR (S rf) d n (a ++ x0 :: x) (lrd_end d false kp) (Some m) []) ->
      probe (S rf) d t w [] = matchR (S rf) d n (a ++ x0 :: x) (lrd_end d false kp) (Some m) [].
Proof.
  intros R Hpc Lq Hx (k & Gk & Pk) Hpl Hx0. pose proof (reached_wf t R) as WT.
  pose proof (proj1 (proj1 WT)) as Hroot. pose proof (proj1 (proj2 (proj1 WT))) as W.
  destruct (descend d q pc x0 x Hpc Lq Hx (root t) []) as (kp & m & n & a & H1 & H2 & H3 & [z H4] & H5); auto.
  - rewrite Hroot. apply prefix_nil.
  - exists k. split; auto. now apply dom_get.
  - intros k' D. apply Hpl. now apply dom_get.
  - intros k' D. apply Hx0. now apply dom_get.
  - assert (Hn : In (q ++ pc :: z, n) (ents [] (root t))).
    { assert (E : q ++ pc :: z = kp ++ npath n) by (rewrite H3, H4, <- !app_assoc; reflexivity).
      rewrite E. clear - H1 H2. revert H1. generalize ([] : key_t). induction (root t) as [s IH] using node_ind'.
      intros pre H. apply ents_inv in H. destruct H as [[-> ->]|(c & Hc & H)].
      - eapply ents_kid; eauto. rewrite ents_eq. now left.
      - rewrite Forall_forall in IH. eapply ents_kid; eauto. }
    exists kp, m, n, a, z. split; auto. split; auto. split; auto.
    split; [rewrite H4, <- app_assoc; reflexivity|]. split; auto.
    split; [rewrite <- lrd_end_app, <- H3; exact Lq|].
    intros rf w Ew Hr. unfold probe. rewrite Ew. exact (H5 rf (q ++ x0 :: x) None [] eq_refl Hr).
Qed.
Lemma route_node t d q pc x0 x :
  reached t -> (pc = colon \/ pc = star) -> lrd_end d false q = true -> x0 <> pc ->
  (exists k, t_get t k <> None /\ prefix (q ++ [pc]) k) ->
  (forall k, t_get t k <> None -> aside d k (q ++ [x0]) \/ prefix (q ++ [pc]) k) ->
  (forall k, t_get t k <> None -> ~ prefix (q ++ [x0]) k) ->
  exists kp m n a z, In (kp, m) (ents [] (root t)) /\ In n (nkids m) /\ q = kp ++ a /\
    npath n = a ++ pc :: z /\ In (q ++ pc :: z, n) (ents [] (root t)) /\
    lrd_end d (lrd_end d false kp) a = true /\
    forall rf h w, hdelim h = d -> runes w = q ++ x0 :: x ->
    forall r, matchR (S rf) d n (a ++ x0 :: x) (lrd_end d false kp) (Some m) [] = Ok r ->
      m_matched r || m_partial r = true ->
      search (S rf) h t w = Ok (SRes (m_child r) (m_parent r) (m_partial r) (m_kv r)).
Proof.
  intros R Hpc Lq Hx K Hpl Hx0.
  destruct (route_probe t d q pc x0 x R Hpc Lq Hx K Hpl Hx0) as (kp & m & n & a & z & H1 & H2 & H3 & H4 & H5 & H6 & H7).
  exists kp, m, n, a, z. do 6 (split; [assumption|]).
  intros rf h w Hd Ew r Er Hr. unfold search. rewrite Hd, (H7 rf w Ew); rewrite Er.
  - cbn [bind]. now rewrite Hr.
  - now left.
Qed.

Definition ends_delim (d : rune) (q : skey) : Prop := exists p, q = p ++ [d].
Lemma ends_delim_lrd d q : ends_delim d q -> lrd_end d false q = true.
Proof. intros [p ->]. rewrite lrd_end_app. cbn. apply N.eqb_refl. Qed.

Lemma plain_key_not d q pc z : ends_delim d q -> pc = colon \/ pc = star -> ~ plain d (q ++ pc :: z).
Proof. intros E H. apply plain_not_pattern; auto. now apply ends_delim_lrd. Qed.

Lemma aside_key_not d q pc z x0 :
  ends_delim d q -> pc = colon \/ pc = star -> x0 <> pc -> ~ aside d (q ++ pc :: z) (q ++ [x0]).
Proof.
  intros E H Hx A. apply Hx. apply (A q pc z x0 []); auto. now apply ends_delim_lrd.
Qed.

(** exactly one stored route has a pattern on the way *)
Definition sole_route (t : tr) (d : rune) (K : skey) (q : skey) (x0 : rune) : Prop :=
  (forall k, t_get t k <> None -> k = K \/ aside d k (q ++ [x0])) /\
  (forall k, t_get t k <> None -> ~ prefix (q ++ [x0]) k).

(** the search of [q ++ x0 :: x] comes to the node of the route [q ++ pc :: name] *)
Definition route_at (t : tr) (d : rune) (q : skey) (pc : rune) (name : skey) (x0 : rune) (x : skey) (a0 : attr) : Prop :=
  exists m n a l, npath n = a ++ pc :: name /\ attr_of (info_of n) = a0 /\ nkids n = [] /\
    (In n (nkids m) /\ exists kp, In (kp, m) (ents [] (root t)) /\ q = kp ++ a) /\ lrd_end d l a = true /\
    forall rf h w, hdelim h = d -> runes w = q ++ x0 :: x ->
    forall r, matchR (S rf) d n (a ++ x0 :: x) l (Some m) [] = Ok r ->
      m_matched r || m_partial r = true ->
      search (S rf) h t w = Ok (SRes (m_child r) (m_parent r) (m_partial r) (m_kv r)).

Lemma sole_route_node t d q pc name x0 x a0 :
  reached t -> (pc = colon \/ pc = star) -> ends_delim d q -> x0 <> pc ->
  t_get t (q ++ pc :: name) = Some a0 -> sole_route t d (q ++ pc :: name) q x0 ->
  route_at t d q pc name x0 x a0.
Proof.
  intros R Hpc Hq Hx G [S1 S2]. pose proof (reached_wf t R) as WT.
  destruct (route_node t d q pc x0 x R Hpc (ends_delim_lrd d q Hq) Hx) as (kp & m & n & a & z & H1 & H2 & H3 & H4 & H5 & H6 & H7); auto.
  - exists (q ++ pc :: name). split; [congruence|]. exists name. now rewrite <- app_assoc.
  - intros k Gk. destruct (S1 k Gk) as [->|P]; auto. right. exists name. now rewrite <- app_assoc.
  - assert (Ez : z = name).
    { destruct (S1 (q ++ pc :: z)) as [E|P].
      - now apply (ents_get t _ n).
      - apply app_inj_head in E. tauto.
      - now apply aside_key_not in P. }
    subst z. exists m, n, a, (lrd_end d false kp).
    split; auto. split.
    { rewrite (ents_attr t _ _ WT H5) in G. now inversion G. }
    split; [|split; [eauto|auto]].
    apply (kids_dom [] (root t) (q ++ pc :: name) n (proj1 (proj2 (proj1 WT))) H5).
    intros k' D P. apply dom_get in D. destruct (S1 k' D) as [->|P'].
    + apply pprefix_neq in P. congruence.
    + destruct P as (c & y & ->). rewrite <- app_assoc in P'. cbn [app] in P'. now apply aside_key_not in P'.
Qed.

(** C23: a trailing parameter *)
Theorem param_found_at rf h t q name x0 x path a :
  route_at t (hdelim h) q colon name x0 x a -> a_leaf a = true ->
  name <> [] -> ~ In (hdelim h) name -> x0 <> colon -> ~ In (hdelim h) (x0 :: x) ->
  runes (full h path) = q ++ x0 :: x ->
  Query (S rf) h t path =
    Ok (QRes (if a_has a then a_data a else GNil) false true [(of_runes name, of_runes (x0 :: x))]).
Proof.
  intros RA La Hn Dn Hx Dx Ew. destruct RA as (m & n & b & l & H1 & H2 & H3 & H4 & H5 & H6).
  unfold Query. rewrite (H6 rf h (full h path) eq_refl Ew _ (param_end rf _ n b name x0 x l (Some m) [] H1 H5 Hn Dn Hx Dx)) by reflexivity.
  cbn [bind query_of s_node s_partial s_kv m_child m_parent m_partial m_kv app]. unfold query_of. cbn [s_node s_partial s_kv].
  rewrite <- H2 in *. rewrite isBranch_bit, hasData_bit. unfold attr_of in *. cbn [a_leaf a_has a_data info_of i_type i_data] in *.
  rewrite La. reflexivity.
Qed.
Theorem param_found rf h t q name x0 x path a :
  reached t -> ends_delim (hdelim h) q ->
  t_get t (q ++ colon :: name) = Some a -> a_leaf a = true ->
  sole_route t (hdelim h) (q ++ colon :: name) q x0 ->
  name <> [] -> ~ In (hdelim h) name -> x0 <> colon -> ~ In (hdelim h) (x0 :: x) ->
  runes (full h path) = q ++ x0 :: x ->
  Query (S rf) h t path =
    Ok (QRes (if a_has a then a_data a else GNil) false true [(of_runes name, of_runes (x0 :: x))]).
Proof.
  intros R Hq G La SR Hn Dn Hx Dx Ew. eapply param_found_at; eauto. apply sole_route_node; auto.
Qed.

(** C25: a wildcard *)
Theorem wild_found_at rf h t q name x0 x path a :
  route_at t (hdelim h) q star name x0 x a -> a_leaf a = true ->
  ~ In (hdelim h) name -> x0 <> star ->
  runes (full h path) = q ++ x0 :: x ->
  Query (S rf) h t path =
    Ok (QRes (if a_has a then a_data a else GNil) false true [(of_runes name, of_runes (x0 :: x))]).
Proof.
  intros RA La Dn Hx Ew. destruct RA as (m & n & b & l & H1 & H2 & H3 & H4 & H5 & H6).
  unfold Query. rewrite (H6 rf h (full h path) eq_refl Ew _ (wild_end rf _ n b name x0 x l (Some m) [] H1 H5 Dn Hx)) by reflexivity.
  cbn [bind m_child m_parent m_partial m_kv app]. unfold query_of. cbn [s_node s_partial s_kv].
  rewrite <- H2 in *. rewrite isBranch_bit, hasData_bit. unfold attr_of in *. cbn [a_leaf a_has a_data info_of i_type i_data] in *.
  rewrite La. reflexivity.
Qed.
Theorem wild_found rf h t q name x0 x path a :
  reached t -> ends_delim (hdelim h) q ->
  t_get t (q ++ star :: name) = Some a -> a_leaf a = true ->
  sole_route t (hdelim h) (q ++ star :: name) q x0 ->
  ~ In (hdelim h) name -> x0 <> star ->
  runes (full h path) = q ++ x0 :: x ->
  Query (S rf) h t path =
    Ok (QRes (if a_has a then a_data a else GNil) false true [(of_runes name, of_runes (x0 :: x))]).
Proof.
  intros R Hq G La SR Dn Hx Ew. eapply wild_found_at; eauto. apply sole_route_node; auto.
Qed.

(** C24: a parameter followed by a tail is found exactly for values at most one rune longer
    than the name of the parameter *)
Theorem param_tail_found_at rf h t q name tail x0 x path a :
  route_at t (hdelim h) q colon (name ++ hdelim h :: tail) x0 (x ++ hdelim h :: tail) a -> a_leaf a = true ->
  name <> [] -> ~ In (hdelim h) name -> x0 <> colon -> ~ In (hdelim h) (x0 :: x) ->
  runes (full h path) = q ++ (x0 :: x) ++ hdelim h :: tail ->
  if length (x0 :: x) <=? S (length name)
  then Query (S rf) h t path =
    Ok (QRes (if a_has a then a_data a else GNil) false true [(of_runes name, of_runes (x0 :: x))])
  else exists kv, Query (S rf) h t path = Ok (QRes GNil false false kv).
Proof.
  intros RA La Hn Dn Hx Dx Ew. destruct RA as (m & n & b & l & H1 & H2 & H3 & H4 & H5 & H6).
  destruct (param_tail rf (hdelim h) n b name tail x0 x l (Some m) [] H1 H5 Hn Dn Hx Dx H3) as (c & p & kv' & E).
  unfold Query. rewrite (H6 rf h (full h path) eq_refl Ew _ E) by (destruct (_ <=? _); reflexivity).
  cbn [length Nat.leb]. destruct (length x <=? length name);
    cbn [bind m_child m_parent m_partial m_kv app]; unfold query_of; cbn [s_node s_partial s_kv].
  - rewrite <- H2 in *. rewrite isBranch_bit, hasData_bit. unfold attr_of in *. cbn [a_leaf a_has a_data info_of i_type i_data] in *.
    rewrite La. reflexivity.
  - exists kv'. destruct c; reflexivity.
Qed.
Theorem param_tail_found rf h t q name tail x0 x path a :
  reached t -> ends_delim (hdelim h) q ->
  t_get t (q ++ colon :: name ++ hdelim h :: tail) = Some a -> a_leaf a = true ->
  sole_route t (hdelim h) (q ++ colon :: name ++ hdelim h :: tail) q x0 ->
  name <> [] -> ~ In (hdelim h) name -> x0 <> colon -> ~ In (hdelim h) (x0 :: x) ->
  runes (full h path) = q ++ (x0 :: x) ++ hdelim h :: tail ->
  if length (x0 :: x) <=? S (length name)
  then Query (S rf) h t path =
    Ok (QRes (if a_has a then a_data a else GNil) false true [(of_runes name, of_runes (x0 :: x))])
  else exists kv, Query (S rf) h t path = Ok (QRes GNil false false kv).
Proof.
  intros R Hq G La SR Hn Dn Hx Dx Ew. eapply param_tail_found_at; eauto. apply sole_route_node; auto.
Qed.

(** a trailing parameter against a query with more segments: found exactly if the lengths agree *)
Theorem param_more_segments_at rf h t q name x0 x y path a :
  route_at t (hdelim h) q colon name x0 (x ++ hdelim h :: y) a -> a_leaf a = true ->
  name <> [] -> ~ In (hdelim h) name -> x0 <> colon -> ~ In (hdelim h) (x0 :: x) ->
  runes (full h path) = q ++ (x0 :: x) ++ hdelim h :: y ->
  length name <= length (x0 :: x) + length y ->
  exists qr, Query (S rf) h t path = Ok qr /\
    q_found qr = (length name =? length (x0 :: x) + length y) /\
    (q_found qr = true -> q_data qr = (if a_has a then a_data a else GNil)).
Proof.
  intros RA La Hn Dn Hx Dx Ew HL. destruct RA as (m & n & b & l & H1 & H2 & H3 & H4 & H5 & H6).
  destruct (param_end_more rf (hdelim h) n b name x0 x y l (Some m) [] H1 H5 Hn Dn Hx Dx H3) as (kv' & c & p & E).
  unfold Query. cbn [length] in *.
  destruct (Nat.compare_spec (length name) (S (length x) + length y)) as [He|He|He]; [| |lia];
    rewrite (H6 rf h (full h path) eq_refl Ew _ E) by reflexivity;
    cbn [bind m_child m_parent m_partial m_kv app]; unfold query_of; cbn [s_node s_partial s_kv].
  - eexists. split; [reflexivity|]. rewrite He, Nat.eqb_refl.
    rewrite <- H2 in *. rewrite isBranch_bit, hasData_bit. unfold attr_of in *. cbn [a_leaf a_has a_data info_of i_type i_data] in *.
    rewrite La. cbn. auto.
  - exists (QRes GNil false false kv'). split; [destruct c; reflexivity|]. cbn [q_found].
    split; [symmetry; apply Nat.eqb_neq; lia|discriminate].
Qed.
Theorem param_more_segments rf h t q name x0 x y path a :
  reached t -> ends_delim (hdelim h) q ->
  t_get t (q ++ colon :: name) = Some a -> a_leaf a = true ->
  sole_route t (hdelim h) (q ++ colon :: name) q x0 ->
  name <> [] -> ~ In (hdelim h) name -> x0 <> colon -> ~ In (hdelim h) (x0 :: x) ->
  runes (full h path) = q ++ (x0 :: x) ++ hdelim h :: y ->
  length name <= length (x0 :: x) + length y ->
  exists qr, Query (S rf) h t path = Ok qr /\
    q_found qr = (length name =? length (x0 :: x) + length y) /\
    (q_found qr = true -> q_data qr = (if a_has a then a_data a else GNil)).
Proof.
  intros R Hq G La SR Hn Dn Hx Dx Ew HL. eapply param_more_segments_at; eauto. apply sole_route_node; auto.
Qed.
