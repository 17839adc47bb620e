(** Lookups in a tree of routes that share beginnings.  Only proofs. *)
From Coq Require Import List NArith ZArith Bool Arith Lia.
From Verif Require Import GoStr Utf8 Node NodeWf InsertProofs MatchProofs Trie Spec TreeOps Refine Climb ApiRefine Reach Effect.
From Verif Require Import Derived Pattern Route Aside First RouteFirst RouteMany.
Import ListNotations.
Open Scope nat_scope.
Open Scope list_scope.

(** a route and a path side by side: a rune of both, a parameter and its segment, or a wildcard and the rest *)
Inductive tok := TC (c : rune) | TP (name seg : skey) | TW (name rest : skey).
Definition tk_key (tk : tok) : skey := match tk with TC c => [c] | TP n _ => colon :: n | TW n _ => star :: n end.
Definition tk_path (tk : tok) : skey := match tk with TC c => [c] | TP _ s => s | TW _ s => s end.
Definition tk_kv (tk : tok) : kvs := match tk with TC _ => [] | TP n s | TW n s => [(of_runes n, of_runes s)] end.
Definition key_of (L : list tok) : skey := flat_map tk_key L.
Definition path_of (L : list tok) : skey := flat_map tk_path L.
Definition kv_of (L : list tok) : kvs := flat_map tk_kv L.
Definition params (L : list tok) : nat := length (kv_of L).

(** the delimiter, or the end of a name, is the last thing before this place *)
Definition open_after (d : rune) (b : bool) (L : list tok) : bool :=
  fold_left (fun _ tk => match tk with TC c => (c =? d)%N | _ => true end) L b.
Fixpoint toks_ok (d : rune) (b : bool) (L : list tok) : Prop :=
  match L with
  | [] => True
  | TC c :: L => toks_ok d (c =? d)%N L
  | TP n s :: L => b = true /\ n <> [] /\ ~ In d n /\ starts_off s colon /\ ~ In d s /\
      (L = [] \/ exists L', L = TC d :: L') /\ toks_ok d true L
  | TW n s :: L => b = true /\ ~ In d n /\ starts_off s star /\ L = []
  end.
Definition is_pat (tk : tok) : bool := match tk with TC _ => false | _ => true end.
Definition ends_pat (L : list tok) : bool := is_pat (last L (TC 0%N)).
Definition pc_of (tk : tok) : rune := hd 0%N (tk_key tk).

Lemma key_of_app a b : key_of (a ++ b) = key_of a ++ key_of b.
Proof. apply flat_map_app. Qed.
Lemma path_of_app a b : path_of (a ++ b) = path_of a ++ path_of b.
Proof. apply flat_map_app. Qed.
Lemma kv_of_app a b : kv_of (a ++ b) = kv_of a ++ kv_of b.
Proof. apply flat_map_app. Qed.
Lemma open_app d b a c : open_after d b (a ++ c) = open_after d (open_after d b a) c.
Proof. apply fold_left_app. Qed.
Lemma toks_ok_app d : forall a b c, toks_ok d b (a ++ c) -> toks_ok d (open_after d b a) c.
Proof.
  induction a as [|[x|n s|n s] a IH]; intros b c H; cbn in *; auto.
  - apply IH. tauto.
  - apply IH. tauto.
  - destruct H as (_ & _ & _ & H). apply app_eq_nil in H. destruct H as [-> ->]. exact I.
Qed.
Lemma toks_ok_pre d : forall a b c, toks_ok d b (a ++ c) -> toks_ok d b a.
Proof.
  induction a as [|[x|n s|n s] a IH]; intros b c H; cbn in *; auto.
  - eapply IH; eauto.
  - destruct H as (H1 & H2 & H3 & H4 & H5 & H6 & H7). do 5 (split; [assumption|]). split; [|eapply IH; eauto].
    destruct H6 as [H6|[L' H6]].
    + apply app_eq_nil in H6. left. tauto.
    + destruct a as [|t0 a]; auto. cbn in H6. inversion H6. right. eauto.
  - destruct H as (H1 & H2 & H3 & H4). apply app_eq_nil in H4. tauto.
Qed.
Definition cs (a : skey) : list tok := map TC a.
Lemma key_cs a : key_of (cs a) = a.
Proof. unfold key_of, cs. induction a; cbn; congruence. Qed.
Lemma path_cs a : path_of (cs a) = a.
Proof. unfold path_of, cs. induction a; cbn; congruence. Qed.
Lemma kv_cs a : kv_of (cs a) = [].
Proof. induction a; cbn; auto. Qed.
Lemma open_cs d b a : open_after d b (cs a) = lrd_end d b a.
Proof. unfold open_after, lrd_end, cs. revert b. induction a as [|c a IH]; intros b; cbn; auto. Qed.
Lemma cs_split L : exists a M, L = cs a ++ M /\ (M = [] \/ exists tk M0, M = tk :: M0 /\ is_pat tk = true).
Proof.
  induction L as [|tk L (a & M & E & H)].
  - exists [], []. auto.
  - destruct tk as [c|n s|n s].
    + exists (c :: a), M. split; auto. cbn. now f_equal.
    + exists [], (TP n s :: L). split; auto. right. exists (TP n s), L. auto.
    + exists [], (TW n s :: L). split; auto. right. exists (TW n s), L. auto.
Qed.
Lemma ends_cs a M : M <> [] -> ends_pat (a ++ M) = ends_pat M.
Proof.
  intros H. unfold ends_pat. f_equal. induction a as [|x a IH]; cbn; auto.
  destruct (a ++ M) eqn:E; [apply app_eq_nil in E; tauto|exact IH].
Qed.
Lemma ends_static a : ends_pat (cs a) = false.
Proof. unfold ends_pat, cs. induction a as [|x a IH]; [reflexivity|]. cbn. destruct (map TC a) eqn:E; [reflexivity|]. exact IH. Qed.
Lemma pat_head d b tk M : is_pat tk = true -> toks_ok d b (tk :: M) ->
  b = true /\ (pc_of tk = colon \/ pc_of tk = star) /\ starts_off (tk_path tk) (pc_of tk).
Proof. destruct tk; cbn; try discriminate; intros _ H; tauto. Qed.
Lemma path_ne d b M : toks_ok d b M -> M <> [] -> path_of M <> [].
Proof.
  destruct M as [|[c|n s|n s] M]; cbn; intros H N E; try congruence; try discriminate.
  - destruct H as (_ & _ & _ & (x0 & x & -> & _) & _). discriminate.
  - destruct H as (_ & _ & (x0 & x & -> & _) & _). discriminate.
Qed.

(** the block at the label retriever, from a parameter on to the end of the fragment *)
Lemma retr_gen d n word par L2 (HK : L2 <> [] -> nkids n = [] -> d <> colon /\ d <> star) : forall k tk M, length M <= k -> is_pat tk = true ->
  forall A B rf kv, toks_ok d true ((tk :: M) ++ L2) -> params (tk :: M) <= S rf ->
  (L2 <> [] -> nkids n = [] -> params (tk :: M) <= rf) ->
  npath n = A ++ key_of (tk :: M) -> word = B ++ path_of (tk :: M) ++ path_of L2 ->
  retriever (S rf) d n word par (pc_of tk) (length A) (length B) true kv =
  Ok (if match L2 with [] => ends_pat (tk :: M) | _ => false end
      then RReturn (MRes true false (Some n) par (kv ++ kv_of (tk :: M)))
      else if match L2 with [] => false | _ => negb (ends_pat (tk :: M)) && (length (nkids n) =? 0) end
      then RReturn (MRes false false None None (kv ++ kv_of (tk :: M)))
      else RBreak (length (npath n)) (length B + length (path_of (tk :: M))) (open_after d true (tk :: M))
             (match L2 with [] => true | _ => false end)
             (match L2 with [] => false | _ => negb (ends_pat (tk :: M)) end) (kv ++ kv_of (tk :: M))).
Proof.
  induction k as [|k IH]; intros tk M Hk Hp A B rf kv OK Hrf Hrf2 En Ew.
  { (* the last token *)
    assert (M = []) by (destruct M; cbn in Hk; [auto|lia]). subst M. clear Hk.
    destruct tk as [c|nm s|nm s]; [discriminate|..].
    - cbn [toks_ok app] in OK. destruct OK as (_ & Hn & Dn & (x0 & x & Es & Nx) & Ds & HL & _).
      cbn [key_of path_of kv_of flat_map tk_key tk_path tk_kv app pc_of hd open_after fold_left] in *.
      rewrite !app_nil_r in *. unfold ends_pat. cbn [last is_pat negb].
      cbn [retriever andb]. change (colon =? star)%N with false. change (colon =? colon)%N with true. cbv iota.
      rewrite (extractor_in d (S (length A)) (npath n)).
      2:{ rewrite En, app_length. cbn [length]. destruct nm; [congruence|cbn; lia]. }
      assert (SK : skipn (S (length A)) (npath n) = nm) by (rewrite En; apply skipn_mid).
      assert (LN : length (npath n) = S (length A) + length nm) by (rewrite En, app_length; cbn; lia).
      rewrite SK, (seg_all d nm) by assumption. rewrite LN, Nat.eqb_refl.
      rewrite (extractor_in d (length B) word) by (rewrite Ew, app_length, Es; cbn; lia).
      assert (SW : seg d (skipn (length B) word) = s).
      { rewrite Ew, skipn_here. destruct HL as [->|[L' ->]].
        - cbn. rewrite app_nil_r. now apply seg_all.
        - cbn. now apply seg_app. }
      rewrite SW. assert (LW : length word = length B + length s + length (path_of L2)) by (rewrite Ew, !app_length; lia).
      destruct HL as [->|[L' ->]].
      + cbn in LW. rewrite LW, Nat.add_0_r, Nat.eqb_refl. reflexivity.
      + destruct (Nat.eqb_spec (length B + length s) (length word)) as [X|_]; [cbn in LW; lia|]. reflexivity.
    - cbn [toks_ok app] in OK. destruct OK as (_ & Dn & (x0 & x & Es & Nx) & ->).
      cbn [key_of path_of kv_of flat_map tk_key tk_path tk_kv app pc_of hd] in *.
      rewrite !app_nil_r in *. unfold ends_pat. cbn [last is_pat].
      cbn [retriever andb]. change (star =? star)%N with true. cbv iota.
      assert (EI : fst (fst (extractor (S (length A)) (npath n) d)) = of_runes nm).
      { destruct nm as [|n0 nm'].
        - rewrite extractor_out; [reflexivity|]. rewrite En, app_length. cbn. lia.
        - rewrite extractor_in by (rewrite En, app_length; cbn; lia).
          rewrite En, skipn_mid, seg_all by assumption. reflexivity. }
      destruct (extractor (S (length A)) (npath n) d) as [[id j] f]. cbn in EI. subst id.
      rewrite Ew, skipn_here. reflexivity. }
  destruct M as [|m0 M1]; [apply (IH tk []); auto; cbn; lia|].
  destruct tk as [c|nm s|nm s]; [discriminate| |].
  2:{ exfalso. cbn in OK. destruct OK as (_ & _ & _ & X). discriminate. }
  pose proof OK as OK0. cbn [toks_ok app] in OK. destruct OK as (_ & Hn & Dn & (x0 & x & Es & Nx) & Ds & HL & OK).
  destruct HL as [HL|[L' HL]]; [discriminate|]. assert (Hm : m0 = TC d) by (cbn in HL; congruence). clear HL L'.
  (* the fixed text behind the parameter, up to the next one *)
  set (M := m0 :: M1) in *. change (toks_ok d true (M ++ L2)) in OK.
  destruct (cs_split M) as (a & M2 & EM & HM2).
  assert (Ha : exists a', a = d :: a').
  { destruct a as [|a0 a']; [|exists a'; f_equal; unfold M in EM; cbn in EM; inversion EM; congruence].
    cbn in EM. destruct HM2 as [->|(tk' & M0 & -> & Hp')]; [discriminate|].
    unfold M in EM. inversion EM. subst. discriminate. }
  destruct Ha as [a' Ea].
  rewrite EM in En, Ew. change (key_of (TP nm s :: cs a ++ M2)) with (tk_key (TP nm s) ++ key_of (cs a ++ M2)) in En.
  change (path_of (TP nm s :: cs a ++ M2)) with (tk_path (TP nm s) ++ path_of (cs a ++ M2)) in Ew.
  rewrite key_of_app, key_cs in En. rewrite path_of_app, path_cs in Ew. cbn [tk_key tk_path] in En, Ew.
  rewrite <- !app_assoc in Ew. cbn [app] in En.
  set (KK := key_of M2) in *. set (P := path_of M2 ++ path_of L2) in *.
  cbn [retriever andb pc_of hd tk_key].
  change (colon =? star)%N with false. change (colon =? colon)%N with true. cbv iota.
  rewrite (extractor_in d (S (length A)) (npath n)).
  2:{ rewrite En, app_length. cbn [length]. rewrite !app_length, Ea. cbn [length]. lia. }
  rewrite (extractor_in d (length B)) by (rewrite Ew, app_length, Es; cbn [app length]; lia).
  assert (S1 : seg d (skipn (S (length A)) (npath n)) = nm).
  { rewrite En, skipn_mid, Ea. cbn [app]. now apply seg_app. }
  assert (S2 : seg d (skipn (length B) word) = s).
  { rewrite Ew, skipn_here, Ea. cbn [app]. now apply seg_app. }
  rewrite S1, S2.
  assert (LA : length (npath n) = S (length A) + length nm + length a + length KK)
    by (rewrite En, app_length; cbn [length]; rewrite !app_length; lia).
  assert (LB : length word = length B + length s + length a + length P) by (rewrite Ew, !app_length; lia).
  assert (La : 0 < length a) by (rewrite Ea; cbn; lia).
  destruct (Nat.eqb_spec (S (length A) + length nm) (length (npath n))) as [X|_]; [lia|].
  destruct (Nat.eqb_spec (length B + length s) (length word)) as [X|_]; [lia|]. cbn [negb].
  assert (K1 : skipn (S (length A) + length nm) (npath n) = a ++ KK).
  { rewrite En. replace (S (length A) + length nm) with (length (A ++ colon :: nm)) by (rewrite app_length; cbn; lia).
    replace (A ++ colon :: nm ++ a ++ KK) with ((A ++ colon :: nm) ++ a ++ KK) by (rewrite <- app_assoc; reflexivity).
    apply skipn_here. }
  assert (K2 : skipn (length B + length s) word = a ++ P).
  { rewrite Ew. replace (length B + length s) with (length (B ++ s)) by (rewrite app_length; lia).
    rewrite app_assoc. apply skipn_here. }
  rewrite K1, K2.
  assert (EKV : kv_of (TP nm s :: M) = [(of_runes nm, of_runes s)] ++ kv_of M2)
    by (rewrite EM; change (kv_of (TP nm s :: cs a ++ M2)) with (tk_kv (TP nm s) ++ kv_of (cs a ++ M2));
        rewrite kv_of_app, kv_cs; reflexivity).
  assert (EOP : open_after d true (TP nm s :: M) = open_after d (lrd_end d true a) M2)
    by (rewrite EM; change (TP nm s :: cs a ++ M2) with ([TP nm s] ++ cs a ++ M2); rewrite !open_app, open_cs; reflexivity).
  assert (EPL : length (path_of (TP nm s :: M)) = length s + length a + length (path_of M2))
    by (rewrite EM; change (path_of (TP nm s :: cs a ++ M2)) with (s ++ path_of (cs a ++ M2));
        rewrite path_of_app, path_cs, !app_length; lia).
  destruct HM2 as [E2|(tk2 & M3 & E2 & Hp2)].
  - (* the fragment ends in fixed text *)
    assert (HEnd : ends_pat (TP nm s :: M) = false).
    { rewrite EM, E2, app_nil_r. change (TP nm s :: cs a) with ([TP nm s] ++ cs a).
      rewrite ends_cs by (rewrite Ea; discriminate). apply ends_static. }
    assert (EK0 : KK = []) by (unfold KK; now rewrite E2). assert (EP0 : P = path_of L2) by (unfold P; now rewrite E2).
    rewrite EK0 in *. rewrite subscan_app by exact I.
    replace (S (length A) + length nm + length a) with (length (npath n)) by (cbn in LA; lia).
    rewrite Nat.eqb_refl. cbn [andb]. rewrite HEnd, EKV, EOP, EPL, E2. cbn [open_after fold_left kv_of flat_map path_of length].
    replace (length B + (length s + length a + 0)) with (length B + length s + length a) by lia. rewrite app_nil_r.
    destruct L2 as [|l0 L2'].
    + rewrite EP0 in LB. cbn in LB. rewrite LB, Nat.add_0_r, Nat.eqb_refl. reflexivity.
    + assert (PN : path_of (l0 :: L2') <> []).
      { eapply path_ne; [|discriminate]. exact (toks_ok_app d M true (l0 :: L2') OK). }
      rewrite <- EP0 in PN. destruct P as [|p0 P']; [congruence|]. cbn [length] in LB.
      destruct (Nat.eqb_spec (length B + length s + length a) (length word)) as [X|_]; [lia|].
      destruct (Nat.ltb_spec (length B + length s + length a) (length word)) as [_|X]; [|lia].
      destruct (nkids n) as [|n0 ns] eqn:EK.
      2:{ cbn [length Nat.ltb Nat.leb Nat.eqb andb negb]. destruct (a ++ p0 :: P') eqn:EE; reflexivity. }
      destruct HK as [D1 D2]; [discriminate|reflexivity|].
      cbn [length Nat.ltb Nat.leb Nat.eqb andb negb].
      assert (R1 : 1 <= rf).
      { specialize (Hrf2 ltac:(discriminate) eq_refl). unfold params in Hrf2. rewrite EKV, app_length in Hrf2. cbn [length] in Hrf2. lia. }
      destruct rf as [|rf]; [lia|].
      assert (EX : forall c, retriever (S rf) d n word par (last (c :: a) 0%N) (length (npath n)) (length B + length s + length a)
        (lrd_end d true a) (kv ++ [(of_runes nm, of_runes s)]) = Ok (RReturn (MRes false false None None (kv ++ [(of_runes nm, of_runes s)])))).
      { intros c. cbn [retriever]. destruct (lrd_end d true a) eqn:EL; [|reflexivity].
        rewrite (last_lrd d a c true) by (auto; rewrite Ea; discriminate). cbn [andb].
        destruct (N.eqb_spec d star); [contradiction|]. destruct (N.eqb_spec d colon); [contradiction|]. reflexivity. }
      rewrite <- EX with (c := colon). destruct (a ++ p0 :: P') eqn:EE; reflexivity.
  - (* another parameter *)
    assert (OK2 : toks_ok d (lrd_end d true a) ((tk2 :: M3) ++ L2)).
    { rewrite EM, E2, <- app_assoc in OK. apply toks_ok_app in OK. now rewrite open_cs in OK. }
    destruct (pat_head d _ tk2 (M3 ++ L2) Hp2 OK2) as (HO & Hpc & (p0 & p & Ep & Np)).
    assert (EK2 : exists y, KK = pc_of tk2 :: y).
    { unfold KK. rewrite E2. unfold pc_of. destruct tk2; cbn; eauto. }
    destruct EK2 as [y EK2].
    assert (EP2 : P = p0 :: p ++ path_of M3 ++ path_of L2).
    { unfold P. rewrite E2. change (path_of (tk2 :: M3)) with (tk_path tk2 ++ path_of M3). rewrite Ep, <- app_assoc. reflexivity. }
    rewrite (subscan_app d a) by (rewrite EK2, EP2; auto). rewrite HO.
    rewrite EK2 in *. rewrite EP2. cbn [length] in LA.
    destruct (Nat.eqb_spec (S (length A) + length nm + length a) (length (npath n))) as [X|_]; [lia|]. cbn [andb].
    replace (S (length A) + length nm + length a) with (length (A ++ colon :: nm ++ a))
      by (rewrite app_length; cbn [length]; rewrite app_length; lia).
    replace (length B + length s + length a) with (length (B ++ s ++ a)) by (rewrite !app_length; lia).
    unfold params in Hrf. rewrite EKV, app_length in Hrf. cbn [length] in Hrf.
    assert (H2 : 1 <= length (kv_of M2)) by (rewrite E2; destruct tk2; [discriminate|cbn; lia|cbn; lia]).
    destruct rf as [|rf]; [lia|].
    rewrite (IH tk2 M3) with (kv := kv ++ [(of_runes nm, of_runes s)]); auto.
    + rewrite <- E2. rewrite EKV, EOP, EPL, HO, <- app_assoc.
      assert (HEnd : ends_pat (TP nm s :: M) = ends_pat M2).
      { rewrite EM. change (TP nm s :: cs a ++ M2) with (([TP nm s] ++ cs a) ++ M2). apply ends_cs. rewrite E2. discriminate. }
      rewrite HEnd. rewrite !app_length.
      replace (length B + (length s + length a) + length (path_of M2)) with (length B + (length s + length a + length (path_of M2))) by lia.
      reflexivity.
    + assert (LE : length M = length a + S (length M3)) by (rewrite EM, E2, app_length; unfold cs; rewrite map_length; reflexivity).
      lia.
    + rewrite HO in OK2. exact OK2.
    + unfold params. rewrite <- E2. lia.
    + intros X1 X2. specialize (Hrf2 X1 X2). unfold params in *. rewrite EKV, app_length in Hrf2. cbn [length] in Hrf2. rewrite <- E2. lia.
    + rewrite En, <- E2. fold KK. rewrite EK2, <- app_assoc. cbn [app]. now rewrite <- app_assoc.
    + rewrite Ew. rewrite <- E2. fold P. now rewrite <- !app_assoc.
Qed.

Lemma retr d n word par L2 (HK : L2 <> [] -> nkids n <> []) : forall k tk M, length M <= k -> is_pat tk = true ->
  forall A B rf kv, toks_ok d true ((tk :: M) ++ L2) -> params (tk :: M) <= S rf ->
  npath n = A ++ key_of (tk :: M) -> word = B ++ path_of (tk :: M) ++ path_of L2 ->
  retriever (S rf) d n word par (pc_of tk) (length A) (length B) true kv =
  Ok (if match L2 with [] => ends_pat (tk :: M) | _ => false end
      then RReturn (MRes true false (Some n) par (kv ++ kv_of (tk :: M)))
      else RBreak (length (npath n)) (length B + length (path_of (tk :: M))) (open_after d true (tk :: M))
             (match L2 with [] => true | _ => false end)
             (match L2 with [] => false | _ => negb (ends_pat (tk :: M)) end) (kv ++ kv_of (tk :: M))).
Proof.
  intros k tk M Hk Hp A B rf kv OK Hrf En Ew.
  rewrite (retr_gen d n word par L2 (fun x y => False_ind _ (HK x y)) k tk M Hk Hp A B rf kv OK Hrf (fun x y => False_ind _ (HK x y)) En Ew).
  destruct L2 as [|l0 L2]; [reflexivity|]. destruct (nkids n); [destruct HK; [discriminate|reflexivity]|].
  cbn [length Nat.eqb]. now rewrite andb_false_r.
Qed.

Lemma key_pc tk M : is_pat tk = true -> exists y, key_of (tk :: M) = pc_of tk :: y.
Proof. unfold pc_of. destruct tk; cbn; [discriminate|eauto|eauto]. Qed.

(** a node in the middle of the route *)
Lemma at_mid rf d s M L2 lrd par kv c :
  npath s = key_of M -> toks_ok d lrd (M ++ L2) -> L2 <> [] -> length (key_of M) < length (path_of (M ++ L2)) ->
  params M <= S rf -> NoDup (nkids s) -> In c (nkids s) ->
  (forall c' kv, In c' (nkids s) -> c' = c \/
     matchR (S rf) d c' (path_of L2) (open_after d lrd M) (Some s) kv = Ok (MRes false false None None kv)) ->
  fair (matchR (S rf) d c (path_of L2) (open_after d lrd M) (Some s) (kv ++ kv_of M)) ->
  matchR (S rf) d s (path_of (M ++ L2)) lrd par kv =
  matchR (S rf) d c (path_of L2) (open_after d lrd M) (Some s) (kv ++ kv_of M).
Proof.
  intros En OK HL Hl Hrf ND Hc Hs Hf.
  assert (PN : path_of L2 <> []) by (eapply path_ne; [exact (toks_ok_app d M lrd L2 OK)|exact HL]).
  destruct (cs_split M) as (a & M2 & EM & HM2). rewrite path_of_app in *.
  destruct HM2 as [E2|(tk & M3 & E2 & Hp)].
  - rewrite E2, app_nil_r in EM. rewrite EM in *. rewrite key_cs, path_cs, kv_cs, open_cs, app_nil_r in *.
    destruct (path_of L2) as [|x0 x]; [congruence|]. rewrite <- En in *. now apply one_level.
  - assert (OK2 : toks_ok d (lrd_end d lrd a) ((tk :: M3) ++ L2)).
    { rewrite EM, E2, <- app_assoc in OK. apply toks_ok_app in OK. now rewrite open_cs in OK. }
    destruct (pat_head d _ tk (M3 ++ L2) Hp OK2) as (HO & Hpc & (p0 & p & Ep & Np)). rewrite HO in OK2.
    destruct (key_pc tk M3 Hp) as [y Ey].
    assert (EK : key_of M = a ++ pc_of tk :: y) by (rewrite EM, E2, key_of_app, key_cs, Ey; reflexivity).
    assert (EP : path_of M = a ++ path_of (tk :: M3)) by (rewrite EM, E2, path_of_app, path_cs; reflexivity).
    assert (EP' : path_of M ++ path_of L2 = a ++ p0 :: (p ++ path_of M3 ++ path_of L2)).
    { rewrite EP. change (path_of (tk :: M3)) with (tk_path tk ++ path_of M3). rewrite Ep, <- !app_assoc. reflexivity. }
    assert (EKV : kv_of M = kv_of (tk :: M3)) by (rewrite EM, E2, kv_of_app, kv_cs; reflexivity).
    assert (EOP : open_after d lrd M = open_after d true (tk :: M3)) by (rewrite EM, E2, open_app, open_cs, HO; reflexivity).
    assert (HKn : L2 <> [] -> nkids s <> []) by (intros _ X; rewrite X in Hc; destruct Hc).
    pose proof (enter (S rf) d s a (pc_of tk) y p0 (p ++ path_of M3 ++ path_of L2) lrd par kv
      (eq_trans En EK) Np) as EN.
    rewrite <- EP' in EN. rewrite EN, HO. clear EN.
    rewrite (retr d s (path_of M ++ path_of L2) par L2 HKn (length M3) tk M3 (le_n _) Hp a a rf kv OK2).
    2:{ unfold params in *. now rewrite <- EKV. }
    2:{ now rewrite En, EK, Ey. }
    2:{ now rewrite EP, <- app_assoc. }
    destruct L2 as [|l0 L2']; [congruence|]. cbn [bind].
    destruct (after_loop _ _ _ _ _ _ _) as [[[mm pp] cc] pa].
    rewrite <- En in Hl. rewrite Nat.min_l by lia.
    destruct (Nat.ltb_spec (length (npath s)) (length (path_of M ++ path_of (l0 :: L2')))) as [_|X]; [|lia].
    destruct (nkids s) as [|n0 ns] eqn:Ek; [destruct Hc|].
    assert (Hd : length a + length (path_of (tk :: M3)) = length (path_of M)) by (rewrite EP, app_length; reflexivity).
    rewrite Hd. destruct (Nat.eqb_spec (length (path_of M)) 0) as [X|_].
    { rewrite <- Hd in X. change (path_of (tk :: M3)) with (tk_path tk ++ path_of M3) in X. rewrite Ep in X. cbn in X. lia. }
    rewrite skipn_here. rewrite <- EOP. rewrite <- EKV.
    rewrite (loop_pick (S rf) d (path_of (l0 :: L2')) (open_after d lrd M) s c); auto.
Qed.

(** the last node *)
Definition last_fits (M : list tok) : Prop :=
  ends_pat M = true \/ params M = 0 \/ length (path_of M) <= length (key_of M).
Lemma at_last rf d s M lrd par kv :
  npath s = key_of M -> toks_ok d lrd M -> M <> [] -> last_fits M -> params M <= S rf ->
  matchR (S rf) d s (path_of M) lrd par kv = Ok (MRes true false (Some s) par (kv ++ kv_of M)).
Proof.
  intros En OK HM Hfit Hrf.
  pose proof (path_ne d lrd M OK HM) as PN.
  destruct (cs_split M) as (a & M2 & EM & HM2).
  destruct HM2 as [E2|(tk & M3 & E2 & Hp)].
  - rewrite E2, app_nil_r in EM. rewrite EM in *. rewrite key_cs, path_cs, kv_cs, app_nil_r in *.
    rewrite matchR_eq by exact PN. cbv zeta. rewrite En, scan_spec.
    rewrite lcp_refl. cbn [plus]. rewrite Nat.min_id, Nat.ltb_irrefl. cbn [bind]. unfold after_loop. rewrite En, Nat.min_id, Nat.ltb_irrefl.
    destruct (Nat.eqb_spec (S (length a)) (length a)) as [X|_]; [lia|]. cbn [andb]. rewrite Nat.leb_refl, Nat.eqb_refl.
    destruct a as [|a0 a]; [congruence|]. reflexivity.
  - assert (OK2 : toks_ok d (lrd_end d lrd a) (tk :: M3)).
    { rewrite EM, E2 in OK. apply toks_ok_app in OK. now rewrite open_cs in OK. }
    destruct (pat_head d _ tk M3 Hp OK2) as (HO & Hpc & (p0 & p & Ep & Np)). rewrite HO in OK2.
    destruct (key_pc tk M3 Hp) as [y Ey].
    assert (EK : key_of M = a ++ pc_of tk :: y) by (rewrite EM, E2, key_of_app, key_cs, Ey; reflexivity).
    assert (EP : path_of M = a ++ path_of (tk :: M3)) by (rewrite EM, E2, path_of_app, path_cs; reflexivity).
    assert (EP' : path_of M = a ++ p0 :: (p ++ path_of M3)).
    { rewrite EP. change (path_of (tk :: M3)) with (tk_path tk ++ path_of M3). rewrite Ep. reflexivity. }
    assert (EKV : kv_of M = kv_of (tk :: M3)) by (rewrite EM, E2, kv_of_app, kv_cs; reflexivity).
    assert (EEP : ends_pat M = ends_pat (tk :: M3)) by (rewrite EM, E2; apply ends_cs; discriminate).
    pose proof (enter (S rf) d s a (pc_of tk) y p0 (p ++ path_of M3) lrd par kv (eq_trans En EK) Np) as EN.
    rewrite <- EP' in EN. rewrite EN, HO. clear EN.
    rewrite (retr d s (path_of M) par [] (fun X => False_ind _ (X eq_refl)) (length M3) tk M3 (le_n _) Hp a a rf kv).
    2:{ now rewrite app_nil_r. }
    2:{ unfold params in *. now rewrite <- EKV. }
    2:{ now rewrite En, EK, Ey. }
    2:{ cbn [path_of flat_map]. now rewrite app_nil_r, EP. }
    rewrite <- EKV, <- EEP. destruct Hfit as [F|[F|F]].
    + rewrite F. reflexivity.
    + exfalso. unfold params in F. rewrite EKV in F. destruct tk; [discriminate Hp|discriminate F|discriminate F].
    + destruct (ends_pat M); [reflexivity|]. cbn [bind].
      assert (Hd : length a + length (path_of (tk :: M3)) = length (path_of M)) by (rewrite EP, app_length; reflexivity).
      rewrite Hd. assert (P1 : 0 < length (path_of M)) by (destruct (path_of M); [congruence|cbn; lia]).
      rewrite <- En in F. rewrite Nat.min_r by lia. rewrite Nat.ltb_irrefl. unfold after_loop. rewrite Nat.min_r by lia.
      destruct (Nat.eqb_spec (S (length (npath s))) (length (npath s))) as [X|_]; [lia|]. cbn [andb].
      destruct (Nat.ltb_spec (length (path_of M)) (length (npath s))) as [X|X]; cbn [andb].
      * destruct (Nat.eqb_spec (length (npath s)) (length (path_of M))) as [X'|_]; [lia|].
        destruct (Nat.leb_spec (length (npath s)) (length (path_of M))) as [X'|_]; [lia|]. reflexivity.
      * destruct (Nat.leb_spec (length (npath s)) (length (path_of M))) as [_|X']; [|lia].
        destruct (Nat.eqb_spec (length (npath s)) (length (path_of M))) as [_|X']; [|lia].
        destruct (Nat.ltb_spec 0 (length (path_of M))) as [_|X']; [|lia].
        destruct (Nat.ltb_spec 0 (length (npath s))) as [_|X']; [|lia]. reflexivity.
Qed.

(** a node in the middle of the route whose fragment is not shorter than the rest of the path: its children are not looked at *)
Lemma at_short rf d s M L2 lrd par kv :
  npath s = key_of M -> toks_ok d lrd (M ++ L2) -> L2 <> [] -> length (path_of (M ++ L2)) <= length (key_of M) ->
  params M <= S rf -> nkids s <> [] ->
  matchR (S rf) d s (path_of (M ++ L2)) lrd par kv =
    Ok (if ends_pat M
        then if length (path_of (M ++ L2)) =? length (key_of M)
             then MRes true false (Some s) par (kv ++ kv_of M)
             else MRes false false None None (kv ++ kv_of M)
        else MRes false true None None (kv ++ kv_of M)).
Proof.
  intros En OK HL Hl Hrf HKn.
  assert (PN : path_of L2 <> []) by (eapply path_ne; [exact (toks_ok_app d M lrd L2 OK)|exact HL]).
  destruct (cs_split M) as (a & M2 & EM & HM2). rewrite path_of_app in *.
  destruct HM2 as [E2|(tk & M3 & E2 & Hp)].
  - exfalso. rewrite E2, app_nil_r in EM. rewrite EM in *. rewrite key_cs, path_cs, app_length in *.
    destruct (path_of L2); [congruence|]. cbn in Hl. lia.
  - assert (OK2 : toks_ok d (lrd_end d lrd a) ((tk :: M3) ++ L2)).
    { rewrite EM, E2, <- app_assoc in OK. apply toks_ok_app in OK. now rewrite open_cs in OK. }
    destruct (pat_head d _ tk (M3 ++ L2) Hp OK2) as (HO & Hpc & (p0 & p & Ep & Np)). rewrite HO in OK2.
    destruct (key_pc tk M3 Hp) as [y Ey].
    assert (EK : key_of M = a ++ pc_of tk :: y) by (rewrite EM, E2, key_of_app, key_cs, Ey; reflexivity).
    assert (EP : path_of M = a ++ path_of (tk :: M3)) by (rewrite EM, E2, path_of_app, path_cs; reflexivity).
    assert (EP' : path_of M ++ path_of L2 = a ++ p0 :: (p ++ path_of M3 ++ path_of L2)).
    { rewrite EP. change (path_of (tk :: M3)) with (tk_path tk ++ path_of M3). rewrite Ep, <- !app_assoc. reflexivity. }
    assert (EKV : kv_of M = kv_of (tk :: M3)) by (rewrite EM, E2, kv_of_app, kv_cs; reflexivity).
    assert (EEP : ends_pat M = ends_pat (tk :: M3)) by (rewrite EM, E2; apply ends_cs; discriminate).
    pose proof (enter (S rf) d s a (pc_of tk) y p0 (p ++ path_of M3 ++ path_of L2) lrd par kv
      (eq_trans En EK) Np) as EN.
    rewrite <- EP' in EN. rewrite EN, HO. clear EN.
    rewrite (retr d s (path_of M ++ path_of L2) par L2 (fun _ => HKn) (length M3) tk M3 (le_n _) Hp a a rf kv OK2).
    2:{ unfold params in *. now rewrite <- EKV. }
    2:{ now rewrite En, EK, Ey. }
    2:{ now rewrite EP, <- app_assoc. }
    destruct L2 as [|l0 L2']; [congruence|]. cbn [bind]. rewrite <- EKV, <- EEP. rewrite <- En in *.
    set (wl := length (path_of M ++ path_of (l0 :: L2'))) in *.
    assert (W0 : 0 < wl) by (unfold wl; rewrite EP', app_length; cbn; lia).
    rewrite Nat.min_r by lia. rewrite Nat.ltb_irrefl. unfold after_loop. fold wl. rewrite Nat.min_r by lia.
    destruct (Nat.eqb_spec (S (length (npath s))) (length (npath s))) as [X|_]; [lia|]. cbn [andb].
    destruct (Nat.eqb_spec wl (length (npath s))) as [X|X].
    + rewrite X, Nat.ltb_irrefl, Nat.eqb_refl, Nat.leb_refl. cbn [andb].
      destruct (Nat.ltb_spec 0 (length (npath s))) as [_|Z]; [|lia]. cbn [andb].
      destruct (ends_pat M); reflexivity.
    + destruct (Nat.ltb_spec wl (length (npath s))) as [_|Z]; [|lia]. cbn [andb].
      destruct (Nat.eqb_spec (length (npath s)) wl) as [Z|_]; [lia|].
      destruct (Nat.leb_spec (length (npath s)) wl) as [Z|_]; [lia|]. cbn [andb].
      destruct (ends_pat M); reflexivity.
Qed.

(** the last node, when it goes on behind its last parameter and the path is longer *)
Lemma at_over rf d s M lrd par kv :
  npath s = key_of M -> toks_ok d lrd M -> M <> [] -> ~ last_fits M -> params M <= S rf ->
  exists c p, matchR (S rf) d s (path_of M) lrd par kv =
    Ok (match nkids s with
        | [] => MRes false true c p (kv ++ kv_of M)
        | n0 :: _ => MRes true false (Some n0) (Some s) (kv ++ kv_of M)
        end).
Proof.
  intros En OK HM Hfit Hrf.
  pose proof (path_ne d lrd M OK HM) as PN.
  assert (F1 : ends_pat M = false) by (destruct (ends_pat M) eqn:X; auto; destruct Hfit; now left).
  assert (F2 : params M <> 0) by (intros X; apply Hfit; right; now left).
  assert (F3 : length (key_of M) < length (path_of M)).
  { destruct (Nat.lt_ge_cases (length (key_of M)) (length (path_of M))); auto. destruct Hfit. right. now right. }
  destruct (cs_split M) as (a & M2 & EM & HM2).
  destruct HM2 as [E2|(tk & M3 & E2 & Hp)].
  - exfalso. apply F2. unfold params. rewrite EM, E2, app_nil_r, kv_cs. reflexivity.
  - assert (OK2 : toks_ok d (lrd_end d lrd a) (tk :: M3)).
    { rewrite EM, E2 in OK. apply toks_ok_app in OK. now rewrite open_cs in OK. }
    destruct (pat_head d _ tk M3 Hp OK2) as (HO & Hpc & (p0 & p & Ep & Np)). rewrite HO in OK2.
    destruct (key_pc tk M3 Hp) as [y Ey].
    assert (EK : key_of M = a ++ pc_of tk :: y) by (rewrite EM, E2, key_of_app, key_cs, Ey; reflexivity).
    assert (EP : path_of M = a ++ path_of (tk :: M3)) by (rewrite EM, E2, path_of_app, path_cs; reflexivity).
    assert (EP' : path_of M = a ++ p0 :: (p ++ path_of M3)).
    { rewrite EP. change (path_of (tk :: M3)) with (tk_path tk ++ path_of M3). rewrite Ep. reflexivity. }
    assert (EKV : kv_of M = kv_of (tk :: M3)) by (rewrite EM, E2, kv_of_app, kv_cs; reflexivity).
    assert (EEP : ends_pat M = ends_pat (tk :: M3)) by (rewrite EM, E2; apply ends_cs; discriminate).
    pose proof (enter (S rf) d s a (pc_of tk) y p0 (p ++ path_of M3) lrd par kv (eq_trans En EK) Np) as EN.
    rewrite <- EP' in EN. rewrite EN, HO. clear EN.
    rewrite (retr d s (path_of M) par [] (fun X => False_ind _ (X eq_refl)) (length M3) tk M3 (le_n _) Hp a a rf kv).
    2:{ now rewrite app_nil_r. }
    2:{ unfold params in *. now rewrite <- EKV. }
    2:{ now rewrite En, EK, Ey. }
    2:{ cbn [path_of flat_map]. now rewrite app_nil_r, EP. }
    rewrite <- EKV, <- EEP, F1. cbn [bind].
    assert (Hd : length a + length (path_of (tk :: M3)) = length (path_of M)) by (rewrite EP, app_length; reflexivity).
    rewrite Hd. assert (P1 : 0 < length (path_of M)) by (destruct (path_of M); [congruence|cbn; lia]).
    rewrite <- En in F3. rewrite Nat.min_l by lia.
    destruct (Nat.ltb_spec (length (npath s)) (length (path_of M))) as [_|X]; [|lia].
    destruct (after_loop _ _ _ _ _ _ _) as [[[mm pp] cc] pa].
    exists cc, pa. destruct (nkids s) as [|n0 ns]; [reflexivity|].
    destruct (Nat.eqb_spec (length (path_of M)) 0) as [X|_]; [lia|]. rewrite skipn_all.
    cbn [kids_loop m_kv]. assert (E0 : forall b par kv, matchR (S rf) d n0 [] b par kv = Ok (MRes true false (Some n0) par kv))
      by (intros; destruct n0; reflexivity).
    rewrite E0. reflexivity.
Qed.

(** a node without children, when the path goes on behind its fragment *)
Lemma at_beyond rf d s M L2 lrd par kv :
  npath s = key_of M -> toks_ok d lrd (M ++ L2) -> M <> [] -> L2 <> [] -> params M <= rf -> nkids s = [] ->
  d <> colon -> d <> star ->
  matchR (S rf) d s (path_of (M ++ L2)) lrd par kv =
    Ok (if params M =? 0 then MRes false true (Some s) par (kv ++ kv_of M)
        else if ends_pat M
        then if length (key_of M) <? length (path_of (M ++ L2)) then MRes false true (Some s) par (kv ++ kv_of M)
             else if length (path_of (M ++ L2)) =? length (key_of M)
             then MRes true false (Some s) par (kv ++ kv_of M)
             else MRes false false None None (kv ++ kv_of M)
        else MRes false false None None (kv ++ kv_of M)).
Proof.
  intros En OK HM HL Hrf HKn D1 D2.
  assert (PN : path_of L2 <> []) by (eapply path_ne; [exact (toks_ok_app d M lrd L2 OK)|exact HL]).
  destruct (cs_split M) as (a & M2 & EM & HM2). rewrite path_of_app in *.
  destruct HM2 as [E2|(tk & M3 & E2 & Hp)].
  - rewrite E2, app_nil_r in EM. rewrite EM in *. unfold params. rewrite key_cs, path_cs, kv_cs in *. cbn [length Nat.eqb].
    destruct a as [|a0 a]; [now destruct HM|]. destruct (path_of L2) as [|x0 x]; [congruence|].
    set (b := a0 :: a) in *. rewrite matchR_eq by (unfold b; discriminate). cbv zeta. rewrite En, scan_spec.
    rewrite lcp_app_self. rewrite app_length. cbn [plus]. rewrite Nat.min_l by lia. rewrite Nat.ltb_irrefl. cbn [bind].
    unfold after_loop. rewrite En, app_length, Nat.min_l by lia. rewrite Nat.ltb_irrefl.
    destruct (Nat.eqb_spec (S (length b)) (length b)) as [X|_]; [lia|]. cbn [andb]. rewrite Nat.leb_refl, Nat.eqb_refl.
    destruct (Nat.ltb_spec (length b) (length b + length (x0 :: x))) as [_|X]; [|cbn in X; lia].
    destruct (Nat.ltb_spec 0 (length b)) as [_|X]; [|cbn in X; lia]. cbn [andb negb]. rewrite app_nil_r.
    rewrite HKn. reflexivity.
  - assert (OK2 : toks_ok d (lrd_end d lrd a) ((tk :: M3) ++ L2)).
    { rewrite EM, E2, <- app_assoc in OK. apply toks_ok_app in OK. now rewrite open_cs in OK. }
    destruct (pat_head d _ tk (M3 ++ L2) Hp OK2) as (HO & Hpc & (p0 & p & Ep & Np)). rewrite HO in OK2.
    destruct (key_pc tk M3 Hp) as [y Ey].
    assert (EK : key_of M = a ++ pc_of tk :: y) by (rewrite EM, E2, key_of_app, key_cs, Ey; reflexivity).
    assert (EP : path_of M = a ++ path_of (tk :: M3)) by (rewrite EM, E2, path_of_app, path_cs; reflexivity).
    assert (EP' : path_of M ++ path_of L2 = a ++ p0 :: (p ++ path_of M3 ++ path_of L2)).
    { rewrite EP. change (path_of (tk :: M3)) with (tk_path tk ++ path_of M3). rewrite Ep, <- !app_assoc. reflexivity. }
    assert (EKV : kv_of M = kv_of (tk :: M3)) by (rewrite EM, E2, kv_of_app, kv_cs; reflexivity).
    assert (EEP : ends_pat M = ends_pat (tk :: M3)) by (rewrite EM, E2; apply ends_cs; discriminate).
    assert (P1 : params M <> 0) by (unfold params; rewrite EKV; destruct tk; [discriminate Hp|cbn; lia|cbn; lia]).
    destruct (Nat.eqb_spec (params M) 0) as [X|_]; [contradiction|].
    pose proof (enter (S rf) d s a (pc_of tk) y p0 (p ++ path_of M3 ++ path_of L2) lrd par kv
      (eq_trans En EK) Np) as EN.
    rewrite <- EP' in EN. rewrite EN, HO. clear EN.
    rewrite (retr_gen d s (path_of M ++ path_of L2) par L2 (fun _ _ => conj D1 D2) (length M3) tk M3 (le_n _) Hp a a rf kv OK2).
    2:{ unfold params in *. rewrite <- EKV. lia. }
    2:{ intros _ _. unfold params in *. now rewrite <- EKV. }
    2:{ now rewrite En, EK, Ey. }
    2:{ now rewrite EP, <- app_assoc. }
    destruct L2 as [|l0 L2']; [congruence|]. rewrite HKn. cbn [length Nat.eqb]. rewrite andb_true_r. rewrite <- EKV, <- EEP. rewrite <- En in *.
    destruct (ends_pat M); [|reflexivity]. cbn [negb bind].
    set (wl := length (path_of M ++ path_of (l0 :: L2'))) in *.
    assert (W0 : 0 < wl) by (unfold wl; rewrite EP', app_length; cbn; lia).
    assert (L0 : 0 < length (npath s)) by (rewrite EK, app_length; cbn; lia).
    unfold after_loop. fold wl.
    destruct (Nat.eqb_spec (S (length (npath s))) (length (npath s))) as [X|_]; [lia|]. cbn [andb].
    destruct (Nat.ltb_spec (length (npath s)) wl) as [X|X].
    + rewrite Nat.min_l by lia. rewrite Nat.ltb_irrefl, Nat.leb_refl, Nat.eqb_refl. cbn [andb].
      destruct (Nat.ltb_spec 0 (length (npath s))) as [_|Z]; [|lia]. cbn [andb negb].
      destruct (Nat.ltb_spec (length (npath s)) wl) as [_|Z]; [|lia]. rewrite ?HKn. reflexivity.
    + rewrite Nat.min_r by lia. rewrite Nat.ltb_irrefl. destruct (Nat.eqb_spec wl (length (npath s))) as [X'|X'].
      * rewrite X', Nat.ltb_irrefl, Nat.eqb_refl, Nat.leb_refl. cbn [andb].
        destruct (Nat.ltb_spec 0 (length (npath s))) as [_|Z]; [|lia]. reflexivity.
      * destruct (Nat.eqb_spec (length (npath s)) wl) as [Z|_]; [lia|]. rewrite andb_false_r.
        destruct (Nat.leb_spec (length (npath s)) wl) as [Z|_]; [lia|]. reflexivity.
Qed.

(** ** the way through the tree *)
(** two stored keys on the route with no stored key in between *)
Definition step_of (t : tr) (L1 M : list tok) : Prop :=
  M <> [] /\ t_get t (key_of L1) <> None /\ t_get t (key_of (L1 ++ M)) <> None /\
  forall M1 M2, M = M1 ++ M2 -> M1 <> [] -> M2 <> [] -> t_get t (key_of (L1 ++ M1)) = None.
(** a key beside the route: a beginning of it, longer than it, or parting from it in a place where it cannot catch the path *)
Definition off (d : rune) (L : list tok) (k : skey) : Prop :=
  (exists L1 L2, L = L1 ++ L2 /\ k = key_of L1) \/ (exists y, k = key_of L ++ y) \/
  (exists L1 tk L2 c y, L = L1 ++ tk :: L2 /\ k = key_of L1 ++ c :: y /\ c <> hd 0%N (tk_key tk) /\
     c <> hd 0%N (tk_path tk) /\ (open_after d false L1 = true -> c <> colon /\ c <> star)).
Definition roomy (t : tr) (L : list tok) : Prop :=
  forall L1 M L2, L = L1 ++ M ++ L2 -> step_of t L1 M ->
  match L2 with [] => last_fits M | _ => length (key_of M) < length (path_of (M ++ L2)) end.

Lemma kid_in : forall pre s kp m c, In (kp, m) (ents pre s) -> In c (nkids m) -> In (kp ++ npath c, c) (ents pre s).
Proof.
  intros pre s. revert pre. induction s as [s IH] using node_ind'. intros pre kp m c H Hc.
  apply ents_inv in H. destruct H as [[-> ->]|(c1 & Hc1 & H)].
  - eapply ents_kid; eauto. rewrite ents_eq. now left.
  - rewrite Forall_forall in IH. eapply ents_kid; eauto.
Qed.
Lemma key_ne M : M <> [] -> key_of M <> [].
Proof. destruct M as [|[c|n s|n s] M]; cbn; congruence. Qed.
Lemma key_hd tk M : exists y, key_of (tk :: M) = hd 0%N (tk_key tk) :: y.
Proof. destruct tk; cbn; eauto. Qed.
Lemma path_hd d b tk M : toks_ok d b (tk :: M) -> exists y, path_of (tk :: M) = hd 0%N (tk_path tk) :: y.
Proof.
  destruct tk as [c|n s|n s]; cbn; [eauto|..].
  - intros (_ & _ & _ & (x0 & x & -> & _) & _). cbn. eauto.
  - intros (_ & _ & (x0 & x & -> & _) & _). cbn. eauto.
Qed.

Section Walk.
Variables (rf : nat) (t : tr) (d : rune) (L : list tok) (nK : node).
Hypothesis W : wfn (root t).
Hypothesis OK : toks_ok d false L.
Hypothesis CL : forall k, t_get t k <> None -> off d L k.
Hypothesis RM : roomy t L.
Hypothesis RF : params L <= S rf.
Hypothesis IK : In (key_of L, nK) (ents [] (root t)).

Lemma params_mid L1 M L2 : L = L1 ++ M ++ L2 -> params M <= S rf.
Proof. intros E. unfold params in *. rewrite E, !kv_of_app, !app_length in RF. lia. Qed.

(** the child on the route *)
Lemma route_kid K0 Z n0 P L2 s :
  prefix (key_of K0) (key_of L) -> In (key_of K0, n0) (ents [] (root t)) -> K0 = P ++ Z -> Z <> [] ->
  L = P ++ L2 -> L2 <> [] -> In (key_of P, s) (ents [] (root t)) ->
  exists c M Q, In c (nkids s) /\ npath c = key_of M /\ M <> [] /\ L2 = M ++ Q /\ step_of t P M /\
    In (key_of (P ++ M), c) (ents [] (root t)).
Proof.
  intros PL I0 EK HZ EL HL Hs.
  assert (PK : prefix (key_of P) (key_of K0)) by (exists (key_of Z); rewrite EK; apply key_of_app).
  assert (Ws : wfn s) by (eapply wfn_ents; eauto).
  destruct (ents_below _ _ _ _ _ _ W Hs I0 PK) as (pre & Ep & Hb).
  apply ents_inv in Hb. destruct Hb as [[Ek _]|(c & Hc & Hb)].
  { exfalso. rewrite <- Ep in Ek. rewrite EK, key_of_app in Ek. apply (key_ne Z HZ).
    apply (app_inv_head (key_of P)). now rewrite app_nil_r. }
  rewrite <- Ep in Hb. destruct (wfn_kids _ _ Ws Hc) as [Hnc Wc].
  pose proof (kid_in _ _ _ _ _ Hs Hc) as Ic.
  assert (Pc : prefix (key_of P ++ npath c) (key_of L)).
  { destruct PL as [z1 Ez1]. destruct (dom_prefix _ _ _ (ex_intro _ n0 Hb)) as [z2 Ez2]. exists (z2 ++ z1).
    rewrite Ez1, Ez2, <- app_assoc. reflexivity. }
  destruct (CL _ (ents_get t _ _ Ic)) as [(L1 & Q & E1 & E2)|[(y & E2)|(L1 & tk & Q & c0 & y & E1 & E2 & N1 & _)]].
  2:{ destruct Pc as [z Ez]. rewrite E2, <- app_assoc in Ez. rewrite <- (app_nil_r (key_of L)) in Ez at 1.
      apply app_inv_head in Ez. symmetry in Ez. apply app_eq_nil in Ez. destruct Ez as [-> ->]. rewrite app_nil_r in E2.
      exists c, L2, []. rewrite EL, key_of_app in E2. apply app_inv_head in E2.
      split; auto. split; auto. split; auto. split; [now rewrite app_nil_r|].
      assert (E3 : key_of (P ++ L2) = key_of P ++ npath c) by (rewrite key_of_app, E2; reflexivity).
      split; [|rewrite E3; exact Ic]. split; auto. split; [now apply (ents_get t _ s)|].
      split; [rewrite E3; now apply (ents_get t _ c)|].
      intros M1 M2 EM H1 H2. destruct (t_get t (key_of (P ++ M1))) eqn:G; [exfalso|reflexivity].
      apply (key_ne M2 H2).
      assert (D : dom [] (root t) (key_of (P ++ M1))) by (apply dom_get; congruence). destruct D as [n1 D].
      destruct (ents_below _ _ _ _ _ _ W Hs D) as (pre1 & Ep1 & Hb1); [exists (key_of M1); apply key_of_app|].
      apply ents_inv in Hb1. destruct Hb1 as [[Ek _]|(c1 & Hc1 & Hb1)].
      { exfalso. rewrite <- Ep1, key_of_app in Ek. apply (key_ne M1 H1). apply (app_inv_head (key_of P)). now rewrite app_nil_r. }
      rewrite <- Ep1 in Hb1. destruct (wfn_kids _ _ Ws Hc1) as [Hnc1 _].
      assert (c1 = c).
      { apply ents_kid_head in Hb1; auto. destruct Hb1 as (r & z & F1 & F2). rewrite key_of_app in F2. apply app_inv_head in F2.
        apply (nodup_fst_eq (nkids s)); auto using wfn_nodup. rewrite F1. unfold fst_rune.
        rewrite E2, EM, key_of_app, F2. reflexivity. }
      subst c1. apply ents_prefix in Hb1. apply prefix_len in Hb1.
      rewrite E2, EM, !key_of_app, !app_length in Hb1. destruct (key_of M2); [reflexivity|cbn in Hb1; lia]. }
  2:{ exfalso. destruct Pc as [z Ez]. rewrite E2, E1, key_of_app, <- app_assoc in Ez. apply app_inv_head in Ez.
      destruct (key_hd tk Q) as [y' Ey]. rewrite Ey in Ez. cbn in Ez. inversion Ez. congruence. }
  rewrite EL in E1. destruct (app_eq_app _ _ _ _ E1) as (X & [[H1 H2]|[H1 H2]]).
  { exfalso. rewrite H1, key_of_app, <- app_assoc in E2. rewrite <- (app_nil_r (key_of L1)) in E2 at 2.
    apply app_inv_head in E2. apply app_eq_nil in E2. tauto. }
  assert (EN : npath c = key_of X) by (rewrite H1, key_of_app in E2; now apply app_inv_head in E2).
  assert (HX : X <> []) by (intros ->; cbn in EN; congruence).
  exists c, X, Q. split; auto. split; auto. split; auto. split; auto.
  assert (E3 : key_of (P ++ X) = key_of P ++ npath c) by (rewrite key_of_app, EN; reflexivity).
  split; [|rewrite E3; exact Ic]. split; auto. split; [now apply (ents_get t _ s)|].
  split; [rewrite E3; now apply (ents_get t _ c)|].
  intros M1 M2 EM H1' H2'. destruct (t_get t (key_of (P ++ M1))) eqn:G; [exfalso|reflexivity].
  apply (key_ne M2 H2').
  assert (D : dom [] (root t) (key_of (P ++ M1))) by (apply dom_get; congruence). destruct D as [n1 D].
  destruct (ents_below _ _ _ _ _ _ W Hs D) as (pre1 & Ep1 & Hb1); [exists (key_of M1); apply key_of_app|].
  apply ents_inv in Hb1. destruct Hb1 as [[Ek _]|(c1 & Hc1 & Hb1)].
  { exfalso. rewrite <- Ep1, key_of_app in Ek. apply (key_ne M1 H1'). apply (app_inv_head (key_of P)). now rewrite app_nil_r. }
  rewrite <- Ep1 in Hb1. destruct (wfn_kids _ _ Ws Hc1) as [Hnc1 _].
  assert (c1 = c).
  { apply ents_kid_head in Hb1; auto. destruct Hb1 as (r & z & F1 & F2). rewrite key_of_app in F2. apply app_inv_head in F2.
    apply (nodup_fst_eq (nkids s)); auto using wfn_nodup. rewrite F1. unfold fst_rune.
    rewrite EN, EM, key_of_app, F2. reflexivity. }
  subst c1. apply ents_prefix in Hb1. apply prefix_len in Hb1.
  rewrite EN, EM, !key_of_app, !app_length in Hb1. destruct (key_of M2); [reflexivity|cbn in Hb1; lia].
Qed.

(** the other children are passed by *)
Lemma others P L2 s c c' kv :
  L = P ++ L2 -> L2 <> [] -> In (key_of P, s) (ents [] (root t)) -> In c (nkids s) ->
  (exists M Q, npath c = key_of M /\ M <> [] /\ L2 = M ++ Q) -> In c' (nkids s) ->
  c' = c \/ matchR (S rf) d c' (path_of L2) (open_after d false P) (Some s) kv = Ok (MRes false false None None kv).
Proof.
  intros EL HL Hs Hc (M & Q & En & HM & EM) Hc'.
  assert (Ws : wfn s) by (eapply wfn_ents; eauto).
  destruct (wfn_kids _ _ Ws Hc') as [Hnc' _]. pose proof (kid_in _ _ _ _ _ Hs Hc') as Ic'.
  destruct (npath c') as [|y0 y] eqn:Ey; [congruence|].
  destruct L2 as [|tk0 L2']; [congruence|]. destruct M as [|m0 M']; [congruence|].
  assert (m0 = tk0) by (cbn in EM; congruence). subst m0.
  assert (Same : y0 = hd 0%N (tk_key tk0) -> c' = c).
  { intros H. apply (nodup_fst_eq (nkids s)); auto using wfn_nodup. unfold fst_rune. rewrite Ey, En.
    destruct (key_hd tk0 M') as [z Ez]. rewrite Ez. cbn. now rewrite H. }
  assert (OK2 : toks_ok d (open_after d false P) (tk0 :: L2')) by (rewrite EL in OK; now apply toks_ok_app in OK).
  destruct (path_hd d _ tk0 L2' OK2) as [w Ew]. rewrite Ew.
  assert (Skip : y0 <> hd 0%N (tk_path tk0) -> (open_after d false P = true -> y0 <> colon /\ y0 <> star) ->
    matchR (S rf) d c' (hd 0%N (tk_path tk0) :: w) (open_after d false P) (Some s) kv = Ok (MRes false false None None kv)).
  { intros H1 H2. apply (skip_node rf d c' _ w _ _ kv y0 y); auto.
    destruct (open_after d false P); [|reflexivity]. destruct (H2 eq_refl) as [A B].
    apply N.eqb_neq in A, B. now rewrite A, B. }
  destruct (CL _ (ents_get t _ _ Ic')) as [(L1 & Q' & E1 & E2)|[(z & E2)|(L1 & tk & Q' & c0 & z & E1 & E2 & N1 & N2 & N3)]].
  - rewrite EL in E1. destruct (app_eq_app _ _ _ _ E1) as (X & [[H1 H2]|[H1 H2]]).
    + exfalso. rewrite H1, key_of_app, <- app_assoc in E2. rewrite <- (app_nil_r (key_of L1)) in E2 at 2.
      apply app_inv_head in E2. apply app_eq_nil in E2. destruct E2; discriminate.
    + left. apply Same. rewrite H1, key_of_app in E2. apply app_inv_head in E2.
      destruct X as [|x0 X]; [discriminate|]. assert (x0 = tk0) by (cbn in H2; congruence). subst x0.
      destruct (key_hd tk0 X) as [z Ez]. rewrite Ez in E2. now inversion E2.
  - left. apply Same. rewrite EL, key_of_app, <- app_assoc in E2. apply app_inv_head in E2.
    destruct (key_hd tk0 L2') as [z' Ez]. rewrite Ez in E2. now inversion E2.
  - rewrite EL in E1. destruct (app_eq_app _ _ _ _ E1) as (X & [[H1 H2]|[H1 H2]]).
    + (* it parts earlier *)
      destruct X as [|x0 X].
      * cbn in H2. inversion H2. subst tk. rewrite app_nil_r in H1. subst L1. apply app_inv_head in E2. inversion E2. subst y0.
        right. apply Skip; auto.
      * exfalso. cbn in H2. inversion H2. subst x0. rewrite H1, key_of_app, <- app_assoc in E2. apply app_inv_head in E2.
        destruct (key_hd tk X) as [z' Ez]. rewrite Ez in E2. cbn in E2. inversion E2. congruence.
    + destruct X as [|x0 X].
      * cbn in H2. inversion H2. subst tk. rewrite app_nil_r in H1. subst L1. apply app_inv_head in E2. inversion E2. subst y0.
        right. apply Skip; auto.
      * left. apply Same. cbn in H2. inversion H2. subst x0. rewrite H1, key_of_app, <- app_assoc in E2. apply app_inv_head in E2.
        destruct (key_hd tk0 X) as [z' Ez]. rewrite Ez in E2. cbn in E2. now inversion E2.
Qed.

(** only steps of the way up to [T1] need room *)
Definition roomy_to (T1 R : list tok) : Prop :=
  forall A B C, T1 = A ++ B ++ C -> step_of t A B -> length (key_of B) < length (path_of (B ++ C ++ R)).
Lemma step_eq P M N X Y : step_of t P M -> step_of t P N -> M ++ X = N ++ Y -> M = N.
Proof.
  intros (HM & _ & GM & SM) (HN & _ & GN & SN) E. destruct (app_eq_app _ _ _ _ E) as (Z & [[H1 H2]|[H1 H2]]).
  - destruct Z as [|z Z]; [now rewrite app_nil_r in H1|]. exfalso. apply GN. apply (SM N (z :: Z)); auto. discriminate.
  - destruct Z as [|z Z]; [now rewrite app_nil_r in H1|]. exfalso. apply GM. apply (SN M (z :: Z)); auto. discriminate.
Qed.
Lemma reach_node T1 TM T2 :
  L = T1 ++ TM ++ T2 -> step_of t T1 TM -> roomy_to T1 (TM ++ T2) ->
  forall k L1 M X s par kv, length X <= k -> T1 = L1 ++ M ++ X ->
  In (key_of (L1 ++ M), s) (ents [] (root t)) -> npath s = key_of M -> (M = [] \/ step_of t L1 M) ->
  exists sT m, In (key_of (T1 ++ TM), sT) (ents [] (root t)) /\ npath sT = key_of TM /\
    In (key_of T1, m) (ents [] (root t)) /\ In sT (nkids m) /\
    (fair (matchR (S rf) d sT (path_of (TM ++ T2)) (open_after d false T1) (Some m) (kv ++ kv_of (M ++ X))) ->
     matchR (S rf) d s (path_of (M ++ X ++ TM ++ T2)) (open_after d false L1) par kv =
     matchR (S rf) d sT (path_of (TM ++ T2)) (open_after d false T1) (Some m) (kv ++ kv_of (M ++ X))).
Proof.
  intros EL HT RT. pose proof HT as (HTM & GT1 & GT & _).
  assert (PL : prefix (key_of (T1 ++ TM)) (key_of L)) by (exists (key_of T2); rewrite EL, app_assoc; apply key_of_app).
  assert (IT : dom [] (root t) (key_of (T1 ++ TM))) by (now apply dom_get). destruct IT as [nT IT].
  induction k as [|k IH]; intros L1 M X s par kv Hk ET Hs En Hst.
  all: assert (EL' : L = (L1 ++ M) ++ X ++ TM ++ T2) by (rewrite EL, ET, <- !app_assoc; reflexivity).
  all: assert (HL2 : X ++ TM ++ T2 <> []) by (intros Z; apply app_eq_nil in Z; destruct Z as [_ Z]; apply app_eq_nil in Z; tauto).
  all: assert (Ws : wfn s) by (eapply wfn_ents; eauto).
  all: assert (EO : open_after d false (L1 ++ M) = open_after d (open_after d false L1) M) by apply open_app.
  all: assert (OKM : toks_ok d (open_after d false L1) (M ++ X ++ TM ++ T2))
    by (rewrite EL', <- app_assoc in OK; now apply toks_ok_app in OK).
  all: assert (RMs : length (key_of M) < length (path_of (M ++ X ++ TM ++ T2))) by
    (destruct Hst as [->|Hst];
     [pose proof (path_ne d _ _ OKM HL2) as PN; destruct (path_of ([] ++ X ++ TM ++ T2)); [congruence|cbn; lia]
     |exact (RT L1 M X ET Hst)]).
  all: assert (PM : params M <= S rf) by (apply (params_mid L1 M (X ++ TM ++ T2)); rewrite EL', <- app_assoc; reflexivity).
  all: assert (KZ : T1 ++ TM = (L1 ++ M) ++ X ++ TM) by (rewrite ET, <- !app_assoc; reflexivity).
  all: assert (HZ : X ++ TM <> []) by (intros Z; apply app_eq_nil in Z; tauto).
  all: destruct (route_kid (T1 ++ TM) (X ++ TM) nT (L1 ++ M) (X ++ TM ++ T2) s PL IT KZ HZ EL' HL2 Hs) as (c & M' & Q & Hc & Enc & HM' & EM' & Hst' & Ic).
  all: destruct X as [|x0 X'].
  1,3: cbn [app] in *; rewrite app_nil_r in ET;
    assert (M' = TM) by (eapply step_eq; [exact Hst'|rewrite <- ET; exact HT|symmetry; exact EM']);
    subst M'; exists c, s; rewrite ET; split; [exact Ic|]; split; [exact Enc|]; split; [exact Hs|]; split; [exact Hc|];
    intros Hf; rewrite app_nil_r in *; rewrite EO in *;
    apply at_mid; auto;
    [exact (NoDup_map_inv _ _ (wfn_nodup _ Ws))|
     intros c' kv' Hc'; rewrite <- EO; eapply others; eauto].
  - cbn in Hk. lia.
  - set (X := x0 :: X') in *.
    (* the next node is not beyond the one that is looked for *)
    assert (EX : exists X2, X = M' ++ X2 /\ Q = X2 ++ TM ++ T2).
    { destruct (app_eq_app _ _ _ _ EM') as (Z & [[H1 H2]|[H1 H2]]); [now exists Z|].
      destruct Z as [|z Z]; [exists []; rewrite app_nil_r in H1; cbn in H2; split; [now rewrite app_nil_r|auto]|].
      exfalso. destruct Hst' as (_ & _ & _ & SM). apply GT1. rewrite ET, app_assoc. apply (SM X (z :: Z)); auto; discriminate. }
    destruct EX as (X2 & EX & EQ).
    destruct (IH (L1 ++ M) M' X2 c (Some s) (kv ++ kv_of M)) as (sT & m & I1 & I2 & I3 & I4 & I5); auto.
    + assert (length X = length M' + length X2) by (rewrite EX; apply app_length).
      destruct M'; [congruence|]. cbn in *. lia.
    + rewrite ET, EX, <- app_assoc. reflexivity.
    + exists sT, m. split; auto. split; auto. split; auto. split; auto. intros Hf.
      assert (EKV : (kv ++ kv_of M) ++ kv_of (M' ++ X2) = kv ++ kv_of (M ++ X))
        by (rewrite <- EX, (kv_of_app M X), <- app_assoc; reflexivity).
      rewrite EKV in I5. specialize (I5 Hf). rewrite EO in I5.
      replace (path_of (M' ++ X2 ++ TM ++ T2)) with (path_of (X ++ TM ++ T2)) in I5 by (rewrite EM', EQ; reflexivity).
      rewrite <- I5 in Hf. rewrite <- I5. apply at_mid; auto.
      * exact (NoDup_map_inv _ _ (wfn_nodup _ Ws)).
      * intros c' kv' Hc'. rewrite <- EO. eapply others; eauto.
Qed.

Lemma walk : forall k L1 M L2 s par kv, length L2 <= k -> L = L1 ++ M ++ L2 -> M ++ L2 <> [] ->
  In (key_of (L1 ++ M), s) (ents [] (root t)) -> npath s = key_of M -> (M = [] \/ step_of t L1 M) ->
  exists p, matchR (S rf) d s (path_of (M ++ L2)) (open_after d false L1) par kv =
      Ok (MRes true false (Some nK) p (kv ++ kv_of (M ++ L2))) /\
    (L2 = [] /\ nK = s /\ p = par \/
     exists kp m, In (kp, m) (ents [] (root t)) /\ In nK (nkids m) /\ key_of L = kp ++ npath nK /\ p = Some m).
Proof.
  induction k as [|k IH]; intros L1 M L2 s par kv Hk EL HL Hs En Hst.
  all: assert (OKM : toks_ok d (open_after d false L1) (M ++ L2)) by (rewrite EL in OK; now apply toks_ok_app in OK).
  all: destruct L2 as [|l0 L2'].
  1,3: rewrite !app_nil_r in *; exists par;
    (assert (nK = s) by (rewrite EL in IK; exact (ents_fun _ _ _ _ _ W IK Hs)));
    subst nK; destruct Hst as [Hst|Hst]; [contradiction|];
    (split; [|left; auto]); apply at_last; auto;
    [pose proof (RM L1 M []) as F; rewrite app_nil_r in F; exact (F EL Hst)|
     apply (params_mid L1 M []); now rewrite app_nil_r].
  - cbn in Hk. lia.
  - set (L2 := l0 :: L2') in *. assert (HL2 : L2 <> []) by discriminate.
    assert (EL' : L = (L1 ++ M) ++ L2) by (now rewrite <- app_assoc).
    destruct (route_kid L L2 nK (L1 ++ M) L2 s (ex_intro _ [] (eq_sym (app_nil_r _))) IK EL' HL2 EL' HL2 Hs) as (c & M' & Q & Hc & Enc & HM' & EM' & Hst' & Ic).
    assert (Ws : wfn s) by (eapply wfn_ents; eauto).
    assert (EO : open_after d false (L1 ++ M) = open_after d (open_after d false L1) M) by apply open_app.
    destruct (IH (L1 ++ M) M' Q c (Some s) (kv ++ kv_of M)) as (p & E & HP).
    + assert (length L2 = length M' + length Q) by (rewrite EM'; apply app_length).
      destruct M'; [congruence|]. cbn in *. lia.
    + now rewrite <- EM'.
    + rewrite <- EM'. exact HL2.
    + exact Ic.
    + exact Enc.
    + now right.
    + rewrite <- EM' in E. exists p. split.
      * rewrite (at_mid rf d s M L2 (open_after d false L1) par kv c); auto.
        -- rewrite <- EO, E, <- app_assoc, kv_of_app. reflexivity.
        -- destruct Hst as [->|Hst].
           ++ pose proof (path_ne d _ _ OKM HL) as PN. destruct (path_of ([] ++ L2)); [congruence|cbn; lia].
           ++ exact (RM L1 M L2 EL Hst).
        -- eapply params_mid; eauto.
        -- exact (NoDup_map_inv _ _ (wfn_nodup _ Ws)).
        -- intros c' kv' Hc'. rewrite <- EO. eapply others; eauto.
        -- rewrite <- EO, E. now left.
      * right. destruct HP as [(EQ & -> & ->)|HP]; [|exact HP].
        exists (key_of (L1 ++ M)), s. split; auto. split; auto. split; auto.
        rewrite EL', EM', EQ, app_nil_r, key_of_app, Enc. reflexivity.
Qed.
End Walk.

(** what a lookup of a path along a stored route finds *)
Lemma tree_search rf h t L w nK :
  reached t -> toks_ok (hdelim h) false L -> L <> [] -> params L <= S rf ->
  (forall k, t_get t k <> None -> off (hdelim h) L k) -> roomy t L ->
  In (key_of L, nK) (ents [] (root t)) -> runes w = path_of L ->
  exists p, search (S rf) h t w = Ok (SRes (Some nK) p false (kv_of L)) /\
    exists kp m, In (kp, m) (ents [] (root t)) /\ In nK (nkids m) /\ key_of L = kp ++ npath nK /\ p = Some m.
Proof.
  intros R OK HL RF CL RM IK Ew. pose proof (reached_wf t R) as WT.
  pose proof (proj1 (proj1 WT)) as Hroot. pose proof (proj1 (proj2 (proj1 WT))) as W.
  destruct (walk rf t (hdelim h) L nK W OK CL RM RF IK (length L) [] [] L (root t) None []) as (p & E & HP); auto.
  - rewrite ents_eq, Hroot. now left.
  - cbn [app open_after fold_left] in E. exists p. split.
    + unfold search, probe. rewrite Ew, E. reflexivity.
    + destruct HP as [(-> & _)|HP]; [congruence|exact HP].
Qed.
Theorem tree_found rf h t L path a :
  reached t -> toks_ok (hdelim h) false L -> L <> [] -> params L <= S rf ->
  (forall k, t_get t k <> None -> off (hdelim h) L k) -> roomy t L ->
  t_get t (key_of L) = Some a -> a_leaf a = true -> runes (full h path) = path_of L ->
  Query (S rf) h t path = Ok (QRes (if a_has a then a_data a else GNil) false true (kv_of L)).
Proof.
  intros R OK HL RF CL RM G La Ew. pose proof (reached_wf t R) as WT.
  assert (D : dom [] (root t) (key_of L)) by (apply dom_get; congruence). destruct D as [nK IK].
  destruct (tree_search rf h t L (full h path) nK R OK HL RF CL RM IK Ew) as (p & E & _).
  rewrite (ents_attr t _ _ WT IK) in G. inversion G as [H2].
  unfold Query. rewrite E. cbn [bind]. unfold query_of. cbn [s_node s_partial s_kv].
  rewrite <- H2 in *. rewrite isBranch_bit, hasData_bit. unfold attr_of in *. cbn [a_leaf a_has a_data info_of i_type i_data] in *.
  rewrite La. reflexivity.
Qed.
Theorem tree_removed rf h t L path :
  reached t -> toks_ok (hdelim h) false L -> L <> [] -> params L <= S rf ->
  (forall k, t_get t k <> None -> off (hdelim h) L k) -> roomy t L ->
  t_get t (key_of L) <> None -> (forall k, t_get t k <> None -> ~ pprefix (key_of L) k) ->
  runes (full h path) = path_of L ->
  exists t2, Remove (S rf) h t path = Ok (t2, true) /\ taken t t2 (key_of L).
Proof.
  intros R OK HL RF CL RM G NX Ew. pose proof (reached_wf t R) as WT.
  assert (D : dom [] (root t) (key_of L)) by (apply dom_get; congruence). destruct D as [nK IK].
  destruct (tree_search rf h t L (full h path) nK R OK HL RF CL RM IK Ew) as (p & E & kp & m & H1 & H2 & H3 & ->).
  assert (NK : nkids nK = []).
  { apply (kids_dom [] (root t) (key_of L) nK (proj1 (proj2 (proj1 WT))) IK). intros k' Dk. apply NX. now apply dom_get. }
  destruct (remove_at (S rf) h t path kp m nK _ WT H1 H2 NK E) as (t2 & E2 & T2).
  exists t2. split; auto. intros k. rewrite (T2 k), H3. reflexivity.
Qed.

(** segments that are not shorter than the names: the lengths of the fragments in the middle never matter *)
Definition long_seg (tk : tok) : Prop := match tk with TP n s => length n < length s | _ => True end.
Lemma long_path M : Forall long_seg M -> (forall n s, ~ In (TW n s) M) -> length (key_of M) <= length (path_of M).
Proof.
  intros F NW. induction M as [|tk M IH]; [cbn; lia|]. inversion F as [|? ? H1 H2]; subst.
  change (key_of (tk :: M)) with (tk_key tk ++ key_of M). change (path_of (tk :: M)) with (tk_path tk ++ path_of M).
  rewrite !app_length.
  assert (length (key_of M) <= length (path_of M)) by (apply IH; auto; intros n s H; apply (NW n s); now right).
  destruct tk as [c|n s|n s]; cbn in *; try lia. destruct (NW n s). now left.
Qed.
Theorem tree_roomy d t L :
  toks_ok d false L -> Forall long_seg L -> ends_pat L = true -> roomy t L.
Proof.
  intros OK F HE L1 M L2 EL (HM & _).
  assert (HW : L2 <> [] -> forall n s, ~ In (TW n s) M).
  { intros H2 n s Hin. apply in_split in Hin. destruct Hin as (A & B & ->).
    rewrite EL in OK. apply toks_ok_app in OK. rewrite <- app_assoc in OK. apply toks_ok_app in OK. cbn in OK.
    destruct OK as (_ & _ & _ & X). apply app_eq_nil in X. tauto. }
  destruct L2 as [|l0 L2'].
  - left. rewrite EL, app_nil_r, ends_cs in HE; auto.
  - assert (OK2 : toks_ok d (open_after d false (L1 ++ M)) (l0 :: L2')).
    { rewrite EL, app_assoc in OK. now apply toks_ok_app in OK. }
    pose proof (path_ne d _ _ OK2 ltac:(discriminate)) as PN. rewrite path_of_app, app_length.
    assert (length (key_of M) <= length (path_of M)).
    { apply long_path.
      - rewrite EL in F. apply Forall_app in F. destruct F as [_ F]. apply Forall_app in F. tauto.
      - apply HW. discriminate. }
    destruct (path_of (l0 :: L2')); [congruence|]. cbn [length]. lia.
Qed.

(** ** exactly what is found when there is no room *)
Lemma root_probe rf h t L T1 TM T2 w :
  reached t -> toks_ok (hdelim h) false L -> params L <= S rf ->
  (forall k, t_get t k <> None -> off (hdelim h) L k) ->
  L = T1 ++ TM ++ T2 -> step_of t T1 TM -> roomy_to t T1 (TM ++ T2) -> runes w = path_of L ->
  exists sT m, In (key_of (T1 ++ TM), sT) (ents [] (root t)) /\ npath sT = key_of TM /\
    In (key_of T1, m) (ents [] (root t)) /\ In sT (nkids m) /\
    (fair (matchR (S rf) (hdelim h) sT (path_of (TM ++ T2)) (open_after (hdelim h) false T1) (Some m) (kv_of T1)) ->
     probe (S rf) (hdelim h) t w [] =
     matchR (S rf) (hdelim h) sT (path_of (TM ++ T2)) (open_after (hdelim h) false T1) (Some m) (kv_of T1)).
Proof.
  intros R OK RF CL EL HT RT Ew. pose proof (reached_wf t R) as WT.
  pose proof (proj1 (proj1 WT)) as Hroot. pose proof (proj1 (proj2 (proj1 WT))) as W.
  destruct (reach_node rf t (hdelim h) L W OK CL RF T1 TM T2 EL HT RT (length T1) [] [] T1 (root t) None [])
    as (sT & m & H1 & H2 & H3 & H4 & H5); auto.
  { rewrite ents_eq, Hroot. now left. }
  exists sT, m. do 4 (split; [assumption|]). cbn [app open_after fold_left] in H5. intros Hf.
  unfold probe. rewrite Ew, EL. exact (H5 Hf).
Qed.

(** a fragment in the middle is not shorter than the rest of the path *)
Theorem tree_short rf h t L T1 TM T2 path a :
  reached t -> toks_ok (hdelim h) false L -> params L <= S rf -> hmode h <> ModeUp ->
  (forall k, t_get t k <> None -> off (hdelim h) L k) -> t_get t (key_of L) <> None ->
  L = T1 ++ TM ++ T2 -> T2 <> [] -> step_of t T1 TM -> roomy_to t T1 (TM ++ T2) ->
  length (path_of (TM ++ T2)) <= length (key_of TM) ->
  t_get t (key_of (T1 ++ TM)) = Some a -> runes (full h path) = path_of L ->
  if ends_pat TM && (length (path_of (TM ++ T2)) =? length (key_of TM))
  then a_leaf a = true ->
       Query (S rf) h t path = Ok (QRes (if a_has a then a_data a else GNil) false true (kv_of (T1 ++ TM)))
  else Query (S rf) h t path = Ok (QRes GNil false false (kv_of (T1 ++ TM))).
Proof.
  intros R OK RF HU CL G EL HT2 HT RT Hl Ga Ew. pose proof (reached_wf t R) as WT.
  pose proof (proj1 (proj2 (proj1 WT))) as W.
  destruct (root_probe rf h t L T1 TM T2 (full h path) R OK RF CL EL HT RT Ew) as (sT & m & H1 & H2 & H3 & H4 & H5).
  assert (OKT : toks_ok (hdelim h) (open_after (hdelim h) false T1) (TM ++ T2)) by (rewrite EL in OK; now apply toks_ok_app in OK).
  assert (PT : params TM <= S rf) by (unfold params in *; rewrite EL, !kv_of_app, !app_length in RF; lia).
  assert (NK : nkids sT <> []).
  { intros X. assert (Y : forall k', dom [] (root t) k' -> ~ pprefix (key_of (T1 ++ TM)) k')
      by (apply (kids_dom [] (root t) _ sT W H1); exact X).
    apply (Y (key_of L)); [now apply dom_get|]. destruct T2 as [|tk T2]; [congruence|].
    destruct (key_hd tk T2) as [y Ey]. exists (hd 0%N (tk_key tk)), y. rewrite EL, app_assoc, key_of_app, Ey. reflexivity. }
  rewrite (at_short rf (hdelim h) sT TM T2 _ (Some m) (kv_of T1) H2 OKT HT2 Hl PT NK) in H5.
  rewrite (ents_attr t _ _ WT H1) in Ga. inversion Ga as [Ea].
  unfold Query, search. rewrite H5.
  2:{ destruct (ends_pat TM), (length (path_of (TM ++ T2)) =? length (key_of TM)); cbn; auto. }
  rewrite <- kv_of_app.
  destruct (ends_pat TM); [destruct (length (path_of (TM ++ T2)) =? length (key_of TM))|]; cbn [andb].
  - intros La. cbn [bind m_matched m_partial orb m_child m_parent m_kv]. unfold query_of. cbn [s_node s_partial s_kv].
    rewrite <- Ea in *. rewrite isBranch_bit, hasData_bit. unfold attr_of in *. cbn [a_leaf a_has a_data info_of i_type i_data] in *.
    rewrite La. reflexivity.
  - cbn [bind m_matched m_partial orb m_child m_parent m_kv]. destruct (hmode h); congruence || reflexivity.
  - reflexivity.
Qed.

(** the route goes on behind its last parameter, and the part of the path for the last fragment is longer than it *)
Theorem tree_over rf h t L T1 TM path :
  reached t -> toks_ok (hdelim h) false L -> params L <= S rf ->
  (forall k, t_get t k <> None -> off (hdelim h) L k) -> t_get t (key_of L) <> None ->
  L = T1 ++ TM -> step_of t T1 TM -> roomy_to t T1 TM -> ~ last_fits TM -> runes (full h path) = path_of L ->
  ((forall k, t_get t k <> None -> ~ pprefix (key_of L) k) ->
   Query (S rf) h t path = Ok (QRes GNil false false (kv_of L))) /\
  ((exists k, t_get t k <> None /\ pprefix (key_of L) k) ->
   exists k a q, t_get t k = Some a /\ pprefix (key_of L) k /\ Query (S rf) h t path = Ok q /\
     q_data q = (if a_has a then a_data a else GNil) /\ q_branch q = negb (a_leaf a) /\
     (a_leaf a = true -> q_found q = true) /\ q_kv q = kv_of L).
Proof.
  intros R OK RF CL G EL HT RT HF Ew. pose proof (reached_wf t R) as WT.
  pose proof (proj1 (proj2 (proj1 WT))) as W. rewrite <- (app_nil_r TM) in EL, RT.
  destruct (root_probe rf h t L T1 TM [] (full h path) R OK RF CL EL HT RT Ew) as (sT & m & H1 & H2 & H3 & H4 & H5).
  rewrite app_nil_r in *.
  assert (OKT : toks_ok (hdelim h) (open_after (hdelim h) false T1) TM) by (rewrite EL in OK; now apply toks_ok_app in OK).
  assert (PT : params TM <= S rf) by (unfold params in *; rewrite EL, !kv_of_app, !app_length in RF; lia).
  assert (HTM : TM <> []) by apply HT.
  destruct (at_over rf (hdelim h) sT TM (open_after (hdelim h) false T1) (Some m) (kv_of T1) H2 OKT HTM HF PT) as (c & p & E).
  rewrite E in H5. rewrite <- EL in H1.
  pose proof (kids_dom [] (root t) _ sT W H1) as KD.
  assert (EKV : kv_of T1 ++ kv_of TM = kv_of L) by (rewrite EL; symmetry; apply kv_of_app). rewrite EKV in H5.
  split.
  - intros NX. assert (NK : nkids sT = []) by (apply KD; intros k' Dk; apply NX; now apply dom_get).
    rewrite NK in H5. unfold Query, search. rewrite H5 by (now left). cbn. destruct c; reflexivity.
  - intros (k & Gk & Pk). destruct (nkids sT) as [|n0 ns] eqn:EN.
    { exfalso. apply (proj1 KD eq_refl k); auto. now apply dom_get. }
    assert (I0 : In (key_of L ++ npath n0, n0) (ents [] (root t))) by (apply (kid_in _ _ _ sT); auto; rewrite EN; now left).
    exists (key_of L ++ npath n0), (attr_of (info_of n0)). eexists. split; [now apply ents_attr|].
    split.
    { assert (Ws : wfn sT) by (eapply wfn_ents; eauto).
      destruct (wfn_kids sT n0 Ws) as [Hn _]; [rewrite EN; now left|]. destruct (npath n0) as [|r y]; [congruence|]. now exists r, y. }
    unfold Query, search. rewrite H5 by (now left). cbn [bind m_matched m_partial orb m_child m_parent m_kv].
    split; [reflexivity|]. unfold query_of. cbn [s_node s_partial s_kv q_data q_branch q_found q_kv].
    rewrite isBranch_bit, hasData_bit. unfold attr_of. cbn [a_leaf a_has a_data info_of i_type i_data].
    split; [reflexivity|]. split; [reflexivity|]. split; [|reflexivity]. intros ->. reflexivity.
Qed.

(** the path goes on behind the end of a route that no stored key goes on from *)
Theorem tree_beyond rf h t L T1 TM T2 path a :
  reached t -> toks_ok (hdelim h) false L -> params L <= rf -> hmode h <> ModeUp ->
  hdelim h <> colon -> hdelim h <> star ->
  (forall k, t_get t k <> None -> off (hdelim h) L k) ->
  L = T1 ++ TM ++ T2 -> T2 <> [] -> step_of t T1 TM -> roomy_to t T1 (TM ++ T2) ->
  t_get t (key_of (T1 ++ TM)) = Some a -> (forall k, t_get t k <> None -> ~ pprefix (key_of (T1 ++ TM)) k) ->
  runes (full h path) = path_of L ->
  (if ends_pat TM && (length (path_of (TM ++ T2)) =? length (key_of TM))
   then a_leaf a = true ->
        Query (S rf) h t path = Ok (QRes (if a_has a then a_data a else GNil) false true (kv_of (T1 ++ TM)))
   else Query (S rf) h t path = Ok (QRes GNil false false (kv_of (T1 ++ TM)))) /\
  (params TM <> 0 -> ends_pat TM = false ->
   Locate (S rf) h t path = Ok (None, false, false, false, kv_of (T1 ++ TM))).
Proof.
  intros R OK RF HU D1 D2 CL EL HT2 HT RT Ga HX Ew. pose proof (reached_wf t R) as WT.
  pose proof (proj1 (proj2 (proj1 WT))) as W.
  destruct (root_probe rf h t L T1 TM T2 (full h path) R OK (le_S _ _ RF) CL EL HT RT Ew) as (sT & m & H1 & H2 & H3 & H4 & H5).
  assert (OKT : toks_ok (hdelim h) (open_after (hdelim h) false T1) (TM ++ T2)) by (rewrite EL in OK; now apply toks_ok_app in OK).
  assert (PT : params TM <= rf) by (unfold params in *; rewrite EL, !kv_of_app, !app_length in RF; lia).
  assert (NK : nkids sT = []).
  { apply (kids_dom [] (root t) _ sT W H1). intros k' Dk. apply HX. now apply dom_get. }
  rewrite (at_beyond rf (hdelim h) sT TM T2 _ (Some m) (kv_of T1) H2 OKT (proj1 HT) HT2 PT NK D1 D2) in H5.
  rewrite (ents_attr t _ _ WT H1) in Ga. inversion Ga as [Ea].
  rewrite <- kv_of_app in H5.
  assert (P0 : ends_pat TM = true -> params TM <> 0).
  { intros X Y. destruct (cs_split TM) as (b & M2 & EM & [E2|(tk & M3 & E2 & Hp)]).
    - rewrite EM, E2, app_nil_r, ends_static in X. discriminate.
    - unfold params in Y. rewrite EM, E2, kv_of_app, kv_cs in Y. destruct tk; [discriminate Hp|discriminate Y|discriminate Y]. }
  unfold Query, Locate, search.
  destruct (Nat.eqb_spec (params TM) 0) as [X|X].
  - rewrite H5 by (cbn; auto). destruct (ends_pat TM); [destruct (P0 eq_refl X)|]. cbn [andb].
    split; [reflexivity|]. intros Y. contradiction.
  - destruct (ends_pat TM).
    + split; [|discriminate]. cbn [andb].
      destruct (Nat.ltb_spec (length (key_of TM)) (length (path_of (TM ++ T2)))) as [Y|Y].
      * destruct (Nat.eqb_spec (length (path_of (TM ++ T2))) (length (key_of TM))) as [Z|_]; [lia|].
        rewrite H5 by (cbn; auto). reflexivity.
      * destruct (Nat.eqb_spec (length (path_of (TM ++ T2))) (length (key_of TM))) as [Z|Z]; rewrite H5 by (cbn; auto).
        -- intros La. cbn [bind m_matched m_partial orb m_child m_parent m_kv]. unfold query_of. cbn [s_node s_partial s_kv].
           rewrite <- Ea in *. rewrite isBranch_bit, hasData_bit. unfold attr_of in *. cbn [a_leaf a_has a_data info_of i_type i_data] in *.
           rewrite La. reflexivity.
        -- cbn [bind m_matched m_partial orb m_child m_parent m_kv]. destruct (hmode h); congruence || reflexivity.
    + cbn [andb]. rewrite H5 by (cbn; auto). cbn [bind m_matched m_partial orb m_child m_parent m_kv].
      destruct (hmode h); [|congruence|..]; split; try reflexivity; intros; reflexivity.
Qed.

(** ** deciding the conditions, for examples *)
Fixpoint strip (p k : skey) : option skey :=
  match p, k with
  | [], _ => Some k
  | c :: p, c' :: k => if (c =? c')%N then strip p k else None
  | _, [] => None
  end.
Lemma strip_spec p : forall k k', strip p k = Some k' -> k = p ++ k'.
Proof.
  induction p as [|c p IH]; intros k k' H; cbn in H; [now inversion H|].
  destruct k as [|c' k]; [discriminate|]. destruct (N.eqb_spec c c') as [->|]; [|discriminate]. cbn. now rewrite <- (IH _ _ H).
Qed.
Fixpoint offb (d : rune) (b : bool) (L : list tok) (k : skey) : bool :=
  match L with
  | [] => true
  | tk :: L =>
      match strip (tk_key tk) k, k with
      | Some k', _ => offb d (match tk with TC c => (c =? d)%N | _ => true end) L k'
      | None, [] => true
      | None, c :: _ => negb (c =? hd 0%N (tk_key tk))%N && negb (c =? hd 0%N (tk_path tk))%N &&
          (negb b || negb ((c =? colon) || (c =? star))%N)
      end
  end.
Lemma offb_go d : forall L P k, offb d (open_after d false P) L k = true -> off d (P ++ L) (key_of P ++ k).
Proof.
  induction L as [|tk L IH]; intros P k H.
  - right. left. exists k. now rewrite app_nil_r.
  - cbn [offb] in H. destruct (strip (tk_key tk) k) as [k'|] eqn:E.
    + apply strip_spec in E. subst k.
      replace (P ++ tk :: L) with ((P ++ [tk]) ++ L) by (rewrite <- app_assoc; reflexivity).
      replace (key_of P ++ tk_key tk ++ k') with (key_of (P ++ [tk]) ++ k')
        by (rewrite key_of_app; cbn [key_of flat_map]; rewrite app_nil_r, <- app_assoc; reflexivity).
      apply IH. rewrite open_app. exact H.
    + destruct k as [|c y]; [left; exists P, (tk :: L); rewrite app_nil_r; auto|].
      right. right. exists P, tk, L, c, y. split; auto. split; auto.
      apply andb_true_iff in H. destruct H as [H H3]. apply andb_true_iff in H. destruct H as [H1 H2].
      apply negb_true_iff in H1, H2. apply N.eqb_neq in H1, H2. split; auto. split; auto.
      intros O. rewrite O in H3. cbn in H3. apply negb_true_iff in H3. apply orb_false_iff in H3.
      destruct H3 as [A B]. apply N.eqb_neq in A, B. auto.
Qed.
Lemma offb_spec d L k : offb d false L k = true -> off d L k.
Proof. apply (offb_go d L [] k). Qed.

Definition storedb (t : tr) (P : list tok) : bool := match t_get t (key_of P) with Some _ => true | None => false end.
Definition nonil {A} (l : list A) : bool := match l with [] => false | _ => true end.
Definition stepb (t : tr) (P M : list tok) : bool :=
  nonil M && storedb t P && storedb t (P ++ M) &&
  forallb (fun i => negb (storedb t (P ++ firstn i M))) (seq 1 (length M - 1)).
Lemma stepb_spec t P M : step_of t P M <-> stepb t P M = true.
Proof.
  unfold stepb, step_of, storedb. rewrite !andb_true_iff, forallb_forall. split.
  - intros (HM & G1 & G2 & HB). repeat split.
    + destruct M; [congruence|reflexivity].
    + destruct (t_get t (key_of P)); [reflexivity|congruence].
    + destruct (t_get t (key_of (P ++ M))); [reflexivity|congruence].
    + intros i Hi. apply in_seq in Hi. rewrite (HB (firstn i M) (skipn i M)); auto.
      * symmetry. apply firstn_skipn.
      * intros X. apply (f_equal (@length tok)) in X. rewrite firstn_length in X. cbn in X. lia.
      * intros X. apply (f_equal (@length tok)) in X. rewrite skipn_length in X. cbn in X. lia.
  - intros (((HM & G1) & G2) & HB). split; [destruct M; [discriminate|congruence]|].
    split; [destruct (t_get t (key_of P)); [congruence|discriminate]|].
    split; [destruct (t_get t (key_of (P ++ M))); [congruence|discriminate]|].
    intros M1 M2 -> H1 H2. specialize (HB (length M1)).
    assert (I0 : In (length M1) (seq 1 (length (M1 ++ M2) - 1))).
    { apply in_seq. rewrite app_length. destruct M1, M2; cbn in *; try congruence; lia. }
    specialize (HB I0). rewrite firstn_app, Nat.sub_diag, firstn_all, firstn_O, app_nil_r in HB.
    destruct (t_get t (key_of (P ++ M1))); [discriminate|reflexivity].
Qed.
Definition roomb (M L2 : list tok) : bool :=
  match L2 with
  | [] => ends_pat M || (params M =? 0) || (length (path_of M) <=? length (key_of M))
  | _ => length (key_of M) <? length (path_of (M ++ L2))
  end.
Definition roomyb (t : tr) (L : list tok) : bool :=
  forallb (fun i => forallb (fun j =>
    negb (stepb t (firstn i L) (firstn j (skipn i L))) || roomb (firstn j (skipn i L)) (skipn j (skipn i L)))
    (seq 0 (S (length L)))) (seq 0 (S (length L))).
Lemma roomyb_spec t L : roomyb t L = true -> roomy t L.
Proof.
  unfold roomyb, roomy. rewrite forallb_forall. intros H L1 M L2 EL ST.
  assert (H1 : In (length L1) (seq 0 (S (length L)))) by (apply in_seq; rewrite EL, !app_length; lia).
  assert (H2 : In (length M) (seq 0 (S (length L)))) by (apply in_seq; rewrite EL, !app_length; lia).
  specialize (H _ H1). rewrite forallb_forall in H. specialize (H _ H2).
  assert (E1 : firstn (length L1) L = L1) by (rewrite EL, firstn_app, Nat.sub_diag, firstn_all, firstn_O, app_nil_r; reflexivity).
  assert (E2 : skipn (length L1) L = M ++ L2) by (rewrite EL; apply skipn_here).
  rewrite E1, E2 in H. rewrite firstn_app, Nat.sub_diag, firstn_all, firstn_O, app_nil_r, skipn_here in H.
  apply stepb_spec in ST. rewrite ST in H. cbn [negb orb] in H. unfold roomb in H. destruct L2.
  - apply orb_true_iff in H. destruct H as [H|H]; [apply orb_true_iff in H; destruct H as [H|H]|].
    + now left.
    + right. left. now apply Nat.eqb_eq.
    + right. right. now apply Nat.leb_le.
  - now apply Nat.ltb_lt.
Qed.
Definition starts_offb (s : skey) (c : rune) : bool := match s with [] => false | x :: _ => negb (x =? c)%N end.
Definition freeb (d : rune) (s : skey) : bool := forallb (fun c => negb (c =? d)%N) s.
Lemma starts_offb_spec s c : starts_offb s c = true -> starts_off s c.
Proof. destruct s as [|x s]; cbn; [discriminate|]. intros H. apply negb_true_iff, N.eqb_neq in H. exists x, s. auto. Qed.
Lemma freeb_spec d s : freeb d s = true -> ~ In d s.
Proof. unfold freeb. rewrite forallb_forall. intros H I. specialize (H d I). now rewrite N.eqb_refl in H. Qed.
Fixpoint toksb (d : rune) (b : bool) (L : list tok) : bool :=
  match L with
  | [] => true
  | TC c :: L => toksb d (c =? d)%N L
  | TP n s :: L => b && nonil n && freeb d n && starts_offb s colon && freeb d s &&
      match L with [] => true | TC c :: _ => (c =? d)%N | _ => false end && toksb d true L
  | TW n s :: L => b && freeb d n && starts_offb s star && negb (nonil L)
  end.
Lemma toksb_spec d : forall L b, toksb d b L = true -> toks_ok d b L.
Proof.
  induction L as [|[c|n s|n s] L IH]; intros b H; cbn [toksb toks_ok] in *; auto; rewrite ?andb_true_iff in H.
  - destruct H as ((((((H1 & H2) & H3) & H4) & H5) & H6) & H7).
    split; auto. split; [destruct n; [discriminate|congruence]|]. split; [now apply freeb_spec|].
    split; [now apply starts_offb_spec|]. split; [now apply freeb_spec|]. split; [|auto].
    destruct L as [|[c| |] L]; auto; try discriminate. apply N.eqb_eq in H6. subst. right. eauto.
  - destruct H as (((H1 & H2) & H3) & H4). split; auto. split; [now apply freeb_spec|].
    split; [now apply starts_offb_spec|]. destruct L; [reflexivity|discriminate].
Qed.
