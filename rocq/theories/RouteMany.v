(** Routes with several parameters.  Only proofs. *)
From Coq Require Import List NArith ZArith Bool Arith Lia.
From Verif Require Import GoStr Utf8 Node NodeWf MatchProofs Trie Spec TreeOps Refine ApiRefine Reach.
From Verif Require Import Derived Pattern Route Aside First RouteFirst.
Import ListNotations.
Open Scope nat_scope.
Open Scope list_scope.

(** a parameter that is not the last: its name, what stands between it and the next one, and the segment of the path *)
Record hop := Hop { hop_name : skey; hop_sep : skey; hop_seg : skey }.
Definition hops_key (l : list hop) : skey := flat_map (fun p => colon :: hop_name p ++ hop_sep p) l.
Definition hops_path (l : list hop) : skey := flat_map (fun p => hop_seg p ++ hop_sep p) l.
Definition hops_kv (l : list hop) : kvs := map (fun p => (of_runes (hop_name p), of_runes (hop_seg p))) l.

Definition starts_off (s : skey) (c : rune) : Prop := exists x0 x, s = x0 :: x /\ x0 <> c.
Definition hop_ok (d : rune) (p : hop) : Prop :=
  ~ In d (hop_name p) /\ (exists y, hop_sep p = d :: y) /\ ends_delim d (hop_sep p) /\
  starts_off (hop_seg p) colon /\ ~ In d (hop_seg p).

(** how a route ends: with a parameter, with a wildcard, or with a parameter and fixed segments *)
Inductive ending := EParam (name seg : skey) | EWild (name rest : skey) | ETail (name seg tail : skey).
Definition end_key (d : rune) (e : ending) : skey :=
  match e with
  | EParam name _ => colon :: name
  | EWild name _ => star :: name
  | ETail name _ tail => colon :: name ++ d :: tail
  end.
Definition end_path (d : rune) (e : ending) : skey :=
  match e with EParam _ s => s | EWild _ s => s | ETail _ s tail => s ++ d :: tail end.
Definition end_kv (e : ending) : kvs :=
  match e with EParam n s | EWild n s | ETail n s _ => [(of_runes n, of_runes s)] end.
Definition end_ok (d : rune) (e : ending) : Prop :=
  match e with
  | EParam n s => n <> [] /\ ~ In d n /\ starts_off s colon /\ ~ In d s
  | EWild n s => ~ In d n /\ starts_off s star
  | ETail n s _ => ~ In d n /\ starts_off s colon /\ ~ In d s
  end.
Definition route_key (d : rune) (q : skey) (l : list hop) (e : ending) : skey := q ++ hops_key l ++ end_key d e.
Definition route_path (d : rune) (q : skey) (l : list hop) (e : ending) : skey := q ++ hops_path l ++ end_path d e.
Definition route_kv (l : list hop) (e : ending) : kvs := hops_kv l ++ end_kv e.
(** a route that goes on after its last parameter is found for paths that are not longer than itself only *)
Definition fits (d : rune) (l : list hop) (e : ending) : bool :=
  match e with
  | ETail _ _ _ => length (hops_path l ++ end_path d e) <=? length (hops_key l ++ end_key d e)
  | _ => true
  end.

Definition first_pc (l : list hop) (e : ending) : rune :=
  match l, e with [], EWild _ _ => star | _, _ => colon end.
Lemma key_head d l e : exists y, hops_key l ++ end_key d e = first_pc l e :: y.
Proof. destruct l, e; cbn; eauto. Qed.
Lemma path_head d l e : Forall (hop_ok d) l -> end_ok d e -> starts_off (hops_path l ++ end_path d e) (first_pc l e).
Proof.
  intros F S. destruct l as [|p l]; cbn.
  - destruct e; cbn in S.
    + tauto.
    + tauto.
    + destruct S as (_ & (x0 & x & -> & N) & _). cbn. unfold starts_off; eauto.
  - inversion F as [|? ? (_ & _ & _ & (x0 & x & E & N) & _)]; subst.
    rewrite E. cbn. unfold starts_off; eauto.
Qed.
Lemma first_pc_pattern l e : first_pc l e = colon \/ first_pc l e = star.
Proof. destruct l, e; cbn; auto. Qed.

(** the parameters up to the last one are bound one after the other *)
Lemma retriever_hops d n word par e : end_ok d e -> forall l a b rf kv,
  Forall (hop_ok d) l -> length l <= rf ->
  npath n = a ++ hops_key l ++ end_key d e -> word = b ++ hops_path l ++ end_path d e ->
  retriever (S rf) d n word par (first_pc l e) (length a) (length b) true kv =
  retriever (S (rf - length l)) d n word par (first_pc [] e) (length (a ++ hops_key l)) (length (b ++ hops_path l)) true
    (kv ++ hops_kv l).
Proof.
  intros SE. induction l as [|p l IH]; intros a b rf kv F Hrf En Ew.
  - cbn [hops_key hops_path hops_kv flat_map map length]. rewrite Nat.sub_0_r, !app_nil_r. reflexivity.
  - inversion F as [|? ? (Dn & (sy & Es) & [sz Ez] & (x0 & x & Ex & Nx) & Dx) F']; subst.
    destruct rf as [|rf]; [cbn in Hrf; lia|]. cbn [length] in Hrf.
    change (hops_key (p :: l)) with ((colon :: hop_name p ++ hop_sep p) ++ hops_key l) in *.
    change (hops_path (p :: l)) with ((hop_seg p ++ hop_sep p) ++ hops_path l) in *.
    change (first_pc (p :: l) e) with colon. change (length (p :: l)) with (S (length l)).
    change (S rf - S (length l)) with (rf - length l).
    rewrite <- !app_assoc in *. cbn [app] in *. rewrite <- !app_assoc in *.
    set (K := hops_key l ++ end_key d e) in *. set (P := hops_path l ++ end_path d e) in *.
    set (R := retriever (S (rf - length l))) in *.
    remember (S rf) as rf1 eqn:Erf. cbn [retriever andb].
    change (colon =? star)%N with false. change (colon =? colon)%N with true. cbv iota.
    destruct (key_head d l e) as [ky Ek]. destruct (path_head d l e F' SE) as (p0 & py & Ep & Np).
    fold K in Ek. fold P in Ep.
    rewrite (extractor_in d (S (length a)) (npath n)).
    2:{ rewrite En, app_length. cbn [length]. rewrite !app_length, Ek. cbn [length]. lia. }
    rewrite (extractor_in d (length b)) by (rewrite app_length, Ex; cbn [app length]; lia).
    rewrite skipn_here, En, skipn_mid.
    assert (S1 : seg d (hop_name p ++ hop_sep p ++ K) = hop_name p).
    { rewrite Es. cbn [app]. now apply seg_app. }
    assert (S2 : seg d (hop_seg p ++ hop_sep p ++ P) = hop_seg p).
    { rewrite Es. cbn [app]. now apply seg_app. }
    rewrite S1, S2.
    set (A := a ++ colon :: hop_name p ++ hop_sep p). set (B := b ++ hop_seg p ++ hop_sep p).
    assert (EA : npath n = A ++ K) by (unfold A; rewrite En, <- !app_assoc; cbn [app]; now rewrite <- app_assoc).
    assert (EB : b ++ hop_seg p ++ hop_sep p ++ P = B ++ P) by (unfold B; now rewrite <- !app_assoc).
    rewrite <- En.
    assert (LA : length (npath n) = length A + S (length ky)) by (rewrite EA, app_length, Ek; reflexivity).
    assert (LB : length (b ++ hop_seg p ++ hop_sep p ++ P) = length B + S (length py))
      by (rewrite EB, app_length, Ep; reflexivity).
    assert (LA' : length A = S (length a) + length (hop_name p) + length (hop_sep p)).
    { unfold A. rewrite app_length. cbn [length]. rewrite app_length. lia. }
    assert (LB' : length B = length b + length (hop_seg p) + length (hop_sep p)).
    { unfold B. rewrite !app_length. lia. }
    destruct (Nat.eqb_spec (S (length a) + length (hop_name p)) (length (npath n))) as [X|_]; [lia|].
    destruct (Nat.eqb_spec (length b + length (hop_seg p)) (length (b ++ hop_seg p ++ hop_sep p ++ P)))
      as [X|_]; [lia|]. cbn [negb].
    assert (K1 : skipn (S (length a) + length (hop_name p)) (npath n) = hop_sep p ++ K).
    { rewrite En. replace (S (length a) + length (hop_name p)) with (length (a ++ colon :: hop_name p))
        by (rewrite app_length; cbn; lia).
      replace (a ++ colon :: hop_name p ++ hop_sep p ++ K)
        with ((a ++ colon :: hop_name p) ++ hop_sep p ++ K) by (rewrite <- app_assoc; reflexivity).
      apply skipn_here. }
    assert (K2 : skipn (length b + length (hop_seg p)) (b ++ hop_seg p ++ hop_sep p ++ P) = hop_sep p ++ P).
    { replace (length b + length (hop_seg p)) with (length (b ++ hop_seg p)) by (rewrite app_length; lia).
      rewrite app_assoc. apply skipn_here. }
    rewrite K1, K2.
    assert (LE : lrd_end d true (hop_sep p) = true).
    { rewrite Ez, lrd_end_app. cbn. apply N.eqb_refl. }
    assert (SS : forall s1 s2, subscan d (hop_sep p ++ K) (hop_sep p ++ P) s1 s2 true colon =
      (s1 + length (hop_sep p), s2 + length (hop_sep p), true, first_pc l e)).
    { intros s1 s2. rewrite (subscan_app d (hop_sep p)) by (rewrite Ek, Ep; auto). rewrite LE, Ek, Ep. reflexivity. }
    rewrite SS, Erf.
    destruct (Nat.eqb_spec (S (length a) + length (hop_name p) + length (hop_sep p)) (length (npath n))) as [X|_]; [lia|].
    cbn [andb].
    replace (S (length a) + length (hop_name p) + length (hop_sep p)) with (length A) by lia.
    replace (length b + length (hop_seg p) + length (hop_sep p)) with (length B) by lia.
    rewrite (IH A B rf _ F' ltac:(lia) EA EB). unfold R.
    replace (a ++ colon :: hop_name p ++ hop_sep p ++ hops_key l) with (A ++ hops_key l)
      by (unfold A; rewrite <- app_assoc; cbn [app]; now rewrite <- app_assoc).
    replace (b ++ hop_seg p ++ hop_sep p ++ hops_path l) with (B ++ hops_path l)
      by (unfold B; now rewrite <- !app_assoc).
    unfold hops_kv. cbn [map]. rewrite <- app_assoc. reflexivity.
Qed.

(** the last parameter *)
Lemma retriever_last d n word par e a b rf kv :
  end_ok d e -> npath n = a ++ end_key d e -> word = b ++ end_path d e ->
  retriever (S rf) d n word par (first_pc [] e) (length a) (length b) true kv =
    Ok (match e with
        | ETail _ _ tail => RBreak (length (npath n)) (length word) (lrd_end d true (d :: tail)) true false (kv ++ end_kv e)
        | _ => RReturn (MRes true false (Some n) par (kv ++ end_kv e))
        end).
Proof.
  intros SE En Ew. cbn [retriever andb].
  assert (EX : forall name, name <> [] -> ~ In d name -> npath n = a ++ (colon :: name) \/ npath n = a ++ (star :: name) ->
    extractor (S (length a)) (npath n) d = (of_runes name, S (length a) + length name, true)).
  { intros name Hn Dn H. rewrite extractor_in.
    2:{ destruct H as [-> | ->]; rewrite app_length; cbn [length]; destruct name; [congruence|cbn; lia|congruence|cbn; lia]. }
    assert (E : skipn (S (length a)) (npath n) = name) by (destruct H as [-> | ->]; apply skipn_mid).
    rewrite E, seg_all by assumption.
    assert (L : length (npath n) = length a + S (length name)) by (destruct H as [-> | ->]; apply app_length).
    rewrite L. replace (S (length a) + length name =? length a + S (length name)) with true
      by (symmetry; apply Nat.eqb_eq; lia). reflexivity. }
  destruct e as [name s|name s|name s tail]; cbn [end_key end_path end_kv end_ok first_pc] in *.
  - destruct SE as (Hn & Dn & (x0 & x & Es & Nx) & Ds).
    change (colon =? star)%N with false. change (colon =? colon)%N with true. cbv iota.
    rewrite (EX name Hn Dn (or_introl En)). rewrite (extractor_in d (length b) word) by (rewrite Ew, app_length, Es; cbn; lia).
    rewrite Ew, skipn_here, seg_all by assumption. rewrite app_length, Nat.eqb_refl. reflexivity.
  - destruct SE as (Dn & (x0 & x & Es & Nx)). change (star =? star)%N with true. cbv iota.
    assert (EI : fst (fst (extractor (S (length a)) (npath n) d)) = of_runes name).
    { destruct name as [|n0 nm] eqn:N; [|rewrite (EX (n0 :: nm)) by (auto; discriminate); reflexivity].
      rewrite extractor_out; [reflexivity|]. rewrite En, app_length. cbn. lia. }
    destruct (extractor (S (length a)) (npath n) d) as [[id j] f]. cbn in EI. subst id.
    rewrite Ew, skipn_here. reflexivity.
  - destruct SE as (Dn & (x0 & x & Es & Nx) & Ds).
    change (colon =? star)%N with false. change (colon =? colon)%N with true. cbv iota.
    rewrite (extractor_in d (S (length a)) (npath n)).
    2:{ rewrite En, app_length. cbn [length]. rewrite !app_length. cbn [length]. lia. }
    rewrite (extractor_in d (length b)) by (rewrite Ew, app_length, Es; cbn [app length]; lia).
    assert (LA : length (npath n) = S (length a) + length name + S (length tail))
      by (rewrite En, app_length; cbn [length]; rewrite app_length; cbn [length]; lia).
    assert (LB : length word = length b + length s + S (length tail))
      by (rewrite Ew, !app_length; cbn [length]; lia).
    assert (S1 : skipn (S (length a)) (npath n) = name ++ d :: tail) by (rewrite En; apply skipn_mid).
    assert (S2 : skipn (length b) word = s ++ d :: tail) by (rewrite Ew; apply skipn_here).
    rewrite S1, S2, !seg_app by assumption.
    destruct (Nat.eqb_spec (S (length a) + length name) (length (npath n))) as [X|_]; [lia|].
    destruct (Nat.eqb_spec (length b + length s) (length word)) as [X|_]; [lia|]. cbn [negb].
    assert (K1 : skipn (S (length a) + length name) (npath n) = (d :: tail) ++ []).
    { rewrite En, app_nil_r. replace (S (length a) + length name) with (length (a ++ colon :: name))
        by (rewrite app_length; cbn; lia).
      replace (a ++ colon :: name ++ d :: tail) with ((a ++ colon :: name) ++ d :: tail) by (rewrite <- app_assoc; reflexivity).
      apply skipn_here. }
    assert (K2 : skipn (length b + length s) word = (d :: tail) ++ []).
    { rewrite Ew, app_nil_r. replace (length b + length s) with (length (b ++ s)) by (rewrite app_length; lia).
      rewrite app_assoc. apply skipn_here. }
    rewrite K1, K2, subscan_app by exact I. cbn [length].
    replace (S (length a) + length name + S (length tail)) with (length (npath n)) by lia.
    replace (length b + length s + S (length tail)) with (length word) by lia.
    rewrite !Nat.eqb_refl. reflexivity.
Qed.

Lemma match_hops rf d n a l e lrd par kv :
  npath n = a ++ hops_key l ++ end_key d e -> lrd_end d lrd a = true -> Forall (hop_ok d) l -> end_ok d e ->
  length l <= rf -> nkids n = [] ->
  exists c p kv', matchR (S rf) d n (a ++ hops_path l ++ end_path d e) lrd par kv =
    Ok (if fits d l e then MRes true false (Some n) par (kv ++ route_kv l e) else MRes false true c p kv').
Proof.
  intros E L F SE Hrf Hk. destruct (key_head d l e) as [y Ek]. destruct (path_head d l e F SE) as (x0 & x & Ep & Np).
  assert (E' : npath n = a ++ first_pc l e :: y) by (rewrite E, Ek; reflexivity).
  pose proof (enter (S rf) d n a (first_pc l e) y x0 x lrd par kv E' Np) as EN. rewrite <- Ep in EN.
  rewrite EN, L. clear EN.
  rewrite (retriever_hops d n (a ++ hops_path l ++ end_path d e) par e SE l a a rf kv F Hrf E eq_refl).
  rewrite (retriever_last d n _ par e (a ++ hops_key l) (a ++ hops_path l) (rf - length l) (kv ++ hops_kv l) SE)
    by (rewrite <- app_assoc; auto).
  unfold route_kv. rewrite (app_assoc kv (hops_kv l) (end_kv e)). destruct e as [name s|name s|name s tail]; cbn [bind fits].
  - exists None, None, []. reflexivity.
  - exists None, None, []. reflexivity.
  - set (w := a ++ hops_path l ++ end_path d (ETail name s tail)) in *. rewrite Hk.
    assert (LN : length (npath n) = length a + length (hops_key l ++ end_key d (ETail name s tail)))
      by (rewrite E; apply app_length).
    assert (LW : length w = length a + length (hops_path l ++ end_path d (ETail name s tail))) by apply app_length.
    set (X := length (hops_path l ++ end_path d (ETail name s tail))) in *.
    set (Y := length (hops_key l ++ end_key d (ETail name s tail))) in *.
    assert (Y0 : 0 < Y) by (unfold Y; rewrite Ek; cbn; lia).
    assert (X0 : 0 < X) by (unfold X; rewrite Ep; cbn; lia).
    destruct (Nat.leb_spec X Y) as [XY|XY].
    + unfold after_loop.
      destruct (Nat.eqb_spec (S (length (npath n))) (length (npath n))) as [Z|_]; [lia|]. cbn [andb].
      destruct (Nat.ltb_spec (Nat.min (length (npath n)) (length w)) (length w)) as [Z|_]; [lia|].
      exists None, None, [].
      destruct (Nat.ltb_spec (Nat.min (length (npath n)) (length w)) (length (npath n))) as [Z|Z]; cbn [andb].
      * destruct (Nat.eqb_spec (length (npath n)) (Nat.min (length (npath n)) (length w))) as [Z'|_]; [lia|].
        destruct (Nat.leb_spec (length (npath n)) (Nat.min (length (npath n)) (length w))) as [Z'|_]; [lia|]. reflexivity.
      * destruct (Nat.leb_spec (length (npath n)) (Nat.min (length (npath n)) (length w))) as [_|Z']; [|lia].
        destruct (Nat.eqb_spec (length (npath n)) (Nat.min (length (npath n)) (length w))) as [_|Z']; [|lia].
        destruct (Nat.ltb_spec 0 (Nat.min (length (npath n)) (length w))) as [_|Z']; [|lia].
        destruct (Nat.ltb_spec 0 (length (npath n))) as [_|Z']; [|lia]. reflexivity.
    + destruct (Nat.ltb_spec (Nat.min (length (npath n)) (length w)) (length w)) as [_|Z]; [|lia].
      destruct (after_loop _ _ _ _ _ _ _) as [[[? ?] c] p].
      exists c, p. eexists. reflexivity.
Qed.

Theorem hops_found_at rf h t q l e pc name x0 x path a :
  hops_key l ++ end_key (hdelim h) e = pc :: name -> hops_path l ++ end_path (hdelim h) e = x0 :: x ->
  route_at t (hdelim h) q pc name x0 x a -> a_leaf a = true ->
  Forall (hop_ok (hdelim h)) l -> end_ok (hdelim h) e -> length l <= rf ->
  runes (full h path) = route_path (hdelim h) q l e ->
  if fits (hdelim h) l e
  then Query (S rf) h t path = Ok (QRes (if a_has a then a_data a else GNil) false true (route_kv l e))
  else exists kv, Query (S rf) h t path = Ok (QRes GNil false false kv).
Proof.
  unfold route_path. intros Ek Ep RA La F SE Hrf Ew. destruct RA as (m & n & b & lr & H1 & H2 & H3 & H4 & H5 & H6).
  rewrite <- Ek in H1.
  destruct (match_hops rf (hdelim h) n b l e lr (Some m) [] H1 H5 F SE Hrf H3) as (c & p & kv' & M). rewrite Ep in M, Ew.
  unfold Query. rewrite (H6 rf h (full h path) eq_refl Ew _ M) by (destruct (fits _ _ _); reflexivity).
  destruct (fits (hdelim h) l e); cbn [bind m_child m_parent m_partial m_kv app]; unfold query_of; cbn [s_node s_partial s_kv].
  - rewrite <- H2 in *. rewrite isBranch_bit, hasData_bit. unfold attr_of in *. cbn [a_leaf a_has a_data info_of i_type i_data] in *.
    rewrite La. reflexivity.
  - exists kv'. destruct c; reflexivity.
Qed.

Theorem hops_found rf h t q l e path a :
  reached t -> ends_delim (hdelim h) q -> Forall (hop_ok (hdelim h)) l -> end_ok (hdelim h) e -> length l <= rf ->
  t_get t (route_key (hdelim h) q l e) = Some a -> a_leaf a = true ->
  sole_route t (hdelim h) (route_key (hdelim h) q l e) q (hd 0%N (hops_path l ++ end_path (hdelim h) e)) ->
  runes (full h path) = route_path (hdelim h) q l e ->
  if fits (hdelim h) l e
  then Query (S rf) h t path = Ok (QRes (if a_has a then a_data a else GNil) false true (route_kv l e))
  else exists kv, Query (S rf) h t path = Ok (QRes GNil false false kv).
Proof.
  intros R Hq F SE Hrf G La SR Ew. pose proof (first_pc_pattern l e) as Hpc.
  destruct (key_head (hdelim h) l e) as [y Ek]. destruct (path_head _ l e F SE) as (x0 & x & Ep & Np).
  eapply hops_found_at; eauto. unfold route_key in *. rewrite Ek in *. rewrite Ep in SR. cbn [hd] in SR.
  apply sole_route_node; auto.
Qed.

Theorem hops_stay rf h t t' q l e path :
  reached t -> ends_delim (hdelim h) q -> Forall (hop_ok (hdelim h)) l -> end_ok (hdelim h) e -> length l <= rf ->
  t_get t (route_key (hdelim h) q l e) <> None ->
  sole_route t (hdelim h) (route_key (hdelim h) q l e) q (hd 0%N (hops_path l ++ end_path (hdelim h) e)) ->
  later (route_key (hdelim h) q l e) t t' ->
  (forall k, t_get t' k <> None -> prefix (q ++ firstn 1 (hops_key l ++ end_key (hdelim h) e)) k ->
     k = route_key (hdelim h) q l e) ->
  runes (full h path) = route_path (hdelim h) q l e ->
  exists a, t_get t' (route_key (hdelim h) q l e) = Some a /\
    (a_leaf a = true ->
     if fits (hdelim h) l e
     then Query (S rf) h t' path = Ok (QRes (if a_has a then a_data a else GNil) false true (route_kv l e))
     else exists kv, Query (S rf) h t' path = Ok (QRes GNil false false kv)) /\
    (fits (hdelim h) l e = true ->
     exists t2, Remove (S rf) h t' path = Ok (t2, true) /\ taken t' t2 (route_key (hdelim h) q l e)).
Proof.
  intros R Hq F SE Hrf G SR LT S1 Ew. pose proof (first_pc_pattern l e) as Hpc.
  destruct (key_head (hdelim h) l e) as [y Ek]. destruct (path_head _ l e F SE) as (x0 & x & Ep & Np).
  rewrite Ep in SR. cbn [hd] in SR. unfold route_key in *. rewrite Ek in S1. cbn [firstn] in S1.
  assert (RA : exists a, t_get t' (q ++ hops_key l ++ end_key (hdelim h) e) = Some a /\
    route_at t' (hdelim h) q (first_pc l e) y x0 x a).
  { rewrite Ek in *. exact (route_stays t t' (hdelim h) q (first_pc l e) y x0 x R Hpc Hq Np G SR LT S1). }
  destruct RA as (a & G' & RA).
  assert (WT : wf_tr t') by (eapply later_wf; eauto using reached_wf).
  exists a. split; auto. split; [intros La; eapply hops_found_at; eauto|]. intros Hf.
  destruct RA as (m & n & b & lr & H1 & H2 & H3 & (H4 & kp & H4' & H4'') & H5 & H6).
  rewrite <- Ek in H1.
  destruct (match_hops rf (hdelim h) n b l e lr (Some m) [] H1 H5 F SE Hrf H3) as (c & p & kv' & M).
  unfold route_path in Ew. rewrite Ep in M, Ew. rewrite Hf in M.
  destruct (remove_at (S rf) h t' path kp m n _ WT H4' H4 H3 (H6 rf h (full h path) eq_refl Ew _ M eq_refl)) as (t2 & E2 & T2).
  exists t2. split; auto. intros k. rewrite (T2 k), H1, H4'', <- app_assoc. reflexivity.
Qed.
