(** Walk on the tree in memory: alone, beside goroutines that overwrite values, beside goroutines that remove keys. *)
From Coq Require Import List NArith Bool Arith Lia.
From Verif Require Import GoStr Utf8 Node NodeWf InsertProofs MatchProofs Trie TreeOps Spec Refine Climb ApiRefine Reach Effect
  Derived Derived2 Derived3 Derived4 Derived5 Heap HeapProofs HeapWalk HeapRace HeapGet HeapGetProofs HeapRemove HeapRemoveProofs HeapSee Derived6.
Import ListNotations.
Open Scope nat_scope.

(** ** the parent that a search gives is in the tree *)
Lemma retriever_parent rf d s word pn : forall ch src dst lrd kv r,
  retriever rf d s word pn ch src dst lrd kv = Ok (RReturn r) -> m_parent r = pn \/ m_parent r = None.
Proof.
  induction rf as [|rf IH]; intros ch src dst lrd kv r; cbn [retriever]; [discriminate|].
  destruct (lrd && (ch =? star)%N).
  { destruct (extractor _ _ _) as [[id s1] e1]. intros X. injection X as <-. cbn. auto. }
  destruct (lrd && (ch =? colon)%N); [|intros X; injection X as <-; auto].
  destruct (extractor (S src) _ _) as [[id s1] e1]. destruct (extractor dst _ _) as [[v d1] e2].
  destruct e1.
  - destruct e2; [|discriminate]. intros X. injection X as <-. cbn. auto.
  - destruct e2; cbn [negb]; [intros X; injection X as <-; auto|]. destruct (subscan _ _ _ _ _ _ _) as [[[s2 d2] l2] c2].
    destruct (_ && _); [discriminate|]. destruct (_ && _); [discriminate|]. apply IH.
Qed.
Lemma matchR_parent rf d : forall n word lrd pn kv r p, matchR rf d n word lrd pn kv = Ok r -> m_parent r = Some p -> pn = Some p \/ sub n p.
Proof.
  induction n as [n IH] using node_ind'. intros word lrd pn kv r p. rewrite HeapGetProofs.matchR_eq. cbv zeta.
  destruct (length word =? 0); [intros X; injection X as <-; cbn; auto|].
  destruct (scan d (npath n) word 0 lrd) as [i lrd1].
  destruct (if i <? _ then _ else _) as [[q|src dst lrd2 mt pt kv2]| |] eqn:RT; cbn [bind]; try discriminate.
  - intros X Hc. injection X as <-. destruct (i <? _); [|discriminate].
    destruct (retriever_parent _ _ _ _ _ _ _ _ _ _ _ RT) as [X|X]; left; congruence.
  - destruct (after_loop d n word pn src mt pt) as [[[ma pa] chd] par] eqn:AL.
    assert (CH : par = Some p -> pn = Some p \/ sub n p).
    { intros ->. left. unfold after_loop in AL. cbv zeta in AL.
      repeat match type of AL with context [if ?x then _ else _] => destruct x end; injection AL; congruence. }
    destruct (_ <? length word); [|intros X; injection X as <-; auto].
    destruct (nkids n) as [|k0 ks0] eqn:EK; [intros X; injection X as <-; auto|]. rewrite <- EK in *.
    assert (LP : forall ks, incl ks (nkids n) -> forall last, (m_parent last = Some p -> pn = Some p \/ sub n p) ->
      (fix loop (cs : list node) (last : mres) : res mres :=
       match cs with
       | [] => Ok last
       | k :: cs' => do r <- matchR rf d k (skipn (if dst =? 0 then Nat.min (length (npath n)) (length word) else dst) word) lrd2 (Some n) (m_kv last);
                     if m_matched r || m_partial r then Ok r else loop cs' r
       end) ks last = Ok r -> m_parent r = Some p -> pn = Some p \/ sub n p).
    { rewrite Forall_forall in IH. induction ks as [|k ks IHk]; intros I last L X Hc; [injection X as <-; auto|].
      destruct (matchR rf d k _ lrd2 (Some n) (m_kv last)) as [r1| |] eqn:M1; cbn [bind] in X; try discriminate.
      assert (Hk : In k (nkids n)) by (apply I; now left).
      assert (S1 : m_parent r1 = Some p -> pn = Some p \/ sub n p).
      { intros C1. right. destruct (IH k Hk _ _ _ _ _ _ M1 C1) as [Y|Y]; [injection Y as <-; constructor|now apply sub_kid with k]. }
      destruct (m_matched r1 || m_partial r1); [injection X as <-; auto|].
      apply (IHk (fun y Hy => I y (or_intror Hy)) r1 S1 X Hc). }
    intros X Hc. apply (LP (nkids n) (incl_refl _) (MRes ma pa chd par kv2)); auto. rewrite EK. exact X.
Qed.
Lemma climb_parent rf d R nx c : forall fuel w kv r, climb rf fuel d (Tr R nx) w kv = Ok r -> Trie.s_parent r = Some c -> sub R c.
Proof.
  induction fuel as [|fuel IH]; intros w kv r; cbn [climb]; [discriminate|].
  destruct (2 <? length (split_str w (enc1 d))); [|intros X; injection X as <-; discriminate].
  unfold probe. cbn [root].
  destruct (matchR rf d R _ false None kv) as [q| |] eqn:M; cbn [bind]; try discriminate.
  destruct (m_matched q || m_partial q); [|apply IH]. intros X Hc. injection X as <-.
  destruct (matchR_parent _ _ _ _ _ _ _ _ _ M Hc) as [Y|Y]; [discriminate|exact Y].
Qed.
Lemma search_parent rf h R nx w r c : search rf h (Tr R nx) w = Ok r -> Trie.s_parent r = Some c -> sub R c.
Proof.
  unfold search. cbv zeta. unfold probe. cbn [root].
  destruct (matchR rf (hdelim h) R _ false None []) as [q| |] eqn:M; cbn [bind]; try discriminate.
  destruct (m_matched q || m_partial q).
  { intros X Hc. injection X as <-. destruct (matchR_parent _ _ _ _ _ _ _ _ _ M Hc) as [Y|Y]; [discriminate|exact Y]. }
  destruct (hmode h); try (intros X; injection X as <-; discriminate).
  destruct (contains _ w); [apply climb_parent|intros X; injection X as <-; discriminate].
Qed.
Lemma sub_depth n m : sub n m -> depth m <= depth n.
Proof. induction 1 as [|n k m Hk _ IH]; [lia|]. pose proof (depth_kid _ _ Hk). lia. Qed.
Lemma walk_eq n : walk n = n :: flat_map walk (nkids n).
Proof. now destruct n. Qed.

(** where Walk starts *)
Definition start_of (h : hdl) (R : node) (path : gostring) (r : Trie.sres) : option node :=
  if Trie.s_partial r then Some R else if (last (runes path) 0 =? hdelim h)%N then Trie.s_node r else Trie.s_parent r.
Lemma start_sub rf h R nx path r n : search rf h (Tr R nx) path = Ok r -> start_of h R path r = Some n -> sub R n.
Proof.
  intros S. unfold start_of. destruct (Trie.s_partial r); [intros X; injection X as <-; constructor|].
  destruct (_ =? _)%N; [now apply search_child with (1 := S)|now apply search_parent with (1 := S)].
Qed.

(** ** alone *)
Lemma tour_run f : forall h n, hwf h -> repr h n -> depth n <= f -> run (p_tour f (nid n)) h = Ok (h, map show (walk n)).
Proof.
  induction f as [|f IH]; intros h n W R D; [destruct n; cbn in D; lia|].
  apply repr_eq in R. destruct R as [(s & E & Ft & K) Rk]. unfold p_tour. fold p_tour. unfold p_show. cbn [seqp run].
  rewrite !E. cbn [run]. rewrite ?E, run_seq.
  pose proof (kids_len h _ s _ W E K) as KL. rewrite map_length in KL. unfold kids_of in K. rewrite KL in *.
  set (r := sl_arr (hkids s)) in *.
  assert (LP : forall ks pre, nkids n = pre ++ ks ->
    run (p_tours (p_tour f) r (length pre) (length ks)) h = Ok (h, map show (flat_map walk ks))).
  { induction ks as [|k ks IHk]; intros pre Ek; cbn [length p_tours run]; [reflexivity|].
    assert (NE : nth_error (ha h r) (length pre) = Some (nid k)).
    { rewrite <- (firstn_skipn (length (nkids n)) (ha h r)), K, Ek, map_app, <- app_assoc.
      rewrite nth_error_app2 by (rewrite map_length; lia). rewrite map_length, Nat.sub_diag. reflexivity. }
    assert (Hk : In k (nkids n)) by (rewrite Ek; apply in_app_iff; right; now left).
    rewrite Forall_forall in Rk. pose proof (depth_kid _ _ Hk). rewrite NE, run_seq, IH; auto; [|lia]. rewrite run_seq.
    specialize (IHk (pre ++ [k])). rewrite <- app_assoc, app_length in IHk. cbn [app length] in IHk. rewrite Nat.add_1_r in IHk.
    rewrite IHk by exact Ek. cbn [run flat_map]. now rewrite map_app. }
  specialize (LP (nkids n) [] eq_refl). cbn [length] in LP. rewrite LP. cbn [run]. rewrite (walk_eq n). cbn [map].
  do 3 f_equal. destruct Ft as (P1 & P2 & P3 & _ & _ & _ & P7). unfold show, isBranch, view. cbn [ntype]. congruence.
Qed.
Lemma walk_run h0 rf h R nx dep p ns : hwf h0 -> repr h0 R -> depth R <= dep ->
  Walk rf h (Tr R nx) p = Ok ns -> run (p_Walk rf dep h (nid R) p) h0 = Ok (h0, map show ns).
Proof.
  intros W RR D. unfold Walk, p_Walk. cbn [root]. destruct (is_nil p).
  { intros X. injection X as <-. now apply tour_run. }
  destruct (search rf h (Tr R nx) p) as [r| |] eqn:S; cbn [bind]; try discriminate. intros X. injection X as <-.
  rewrite run_seq, (search_run h0 rf h R nx dep _ r W RR D S). fold (start_of h R p r).
  replace (if hs_partial (sids r) then Some (nid R) else if (last (runes p) 0 =? hdelim h)%N then hs_node (sids r) else hs_parent (sids r))
    with (option_map nid (start_of h R p r)).
  2: { unfold start_of, sids. cbn [hs_partial hs_node hs_parent]. destruct (Trie.s_partial r); [reflexivity|]. now destruct (_ =? _)%N. }
  destruct (start_of h R p r) as [n|] eqn:N; cbn [option_map]; [|reflexivity].
  pose proof (start_sub _ _ _ _ _ _ _ S N) as SB. apply tour_run; auto; [now apply sub_repr with R|].
  pose proof (sub_depth _ _ SB). lia.
Qed.

(** ** beside goroutines that overwrite values *)
Lemma polite_mono {A} h0 may (Q Q' : A -> Prop) q : (forall x, Q x -> Q' x) -> polite h0 may Q q -> polite h0 may Q' q.
Proof.
  intros I P. induction P as [x HQ|a s k E _ IH|r i c k E _ IH|a s y k E Y _ IH|a s v k E M _ IH].
  - constructor. auto.
  - apply pol_node with s; auto.
  - apply pol_elem with c; auto.
  - apply pol_type with s; auto.
  - apply pol_data with s; auto.
Qed.
Lemma polite_bind {A B} h0 may (Q : A -> Prop) (Q' : B -> Prop) p q : polite h0 may Q p -> (forall x, Q x -> polite h0 may Q' (q x)) ->
  polite h0 may Q' (seqp p q).
Proof.
  intros P H. induction P as [x HQ|a s k E _ IH|r i c k E _ IH|a s y k E Y _ IH|a s v k E M _ IH]; cbn [seqp]; auto.
  - apply pol_node with s; auto.
  - apply pol_elem with c; auto.
  - apply pol_type with s; auto.
  - apply pol_data with s; auto.
Qed.
(** the node as it was, but for the value, which may be one that is written meanwhile *)
Definition saw (may : nat -> gval -> Prop) (n : node) (s : shown) : Prop :=
  sw_at s = nid n /\ sw_key s = npathS n /\ sw_frag s = npath n /\ sw_branch s = isBranch n /\
  (sw_data s = ndata n \/ may (nid n) (sw_data s)).
Lemma show_polite h0 may n : repr h0 n -> polite h0 may (saw may n) (p_show (nid n)).
Proof.
  intros R. apply repr_eq in R. destruct R as [(s & E & Ft & _) _]. destruct Ft as (P1 & P2 & P3 & _ & _ & _ & P7). unfold p_show.
  apply pol_node with s; auto. intros t1 (_ & A1 & _) _. apply pol_node with s; auto. intros t2 (A2 & _) _.
  apply pol_node with s; auto. intros t3 A3 _. apply pol_node with s; auto. intros t4 _ D4. constructor.
  unfold saw. cbn. rewrite (alike_branch _ (nid n) s t3 A3). split; [reflexivity|]. split; [congruence|]. split; [congruence|].
  split; [unfold isBranch, view; cbn; now rewrite P7|]. rewrite <- P3. exact D4.
Qed.
Lemma tour_polite h0 may : hwf h0 -> forall f n, repr h0 n -> depth n <= f -> polite h0 may (Forall2 (saw may) (walk n)) (p_tour f (nid n)).
Proof.
  intros W. induction f as [|f IH]; intros n R D; [destruct n; cbn in D; lia|]. pose proof R as R0.
  apply repr_eq in R. destruct R as [(s & E & Ft & K) Rk]. cbn [p_tour].
  eapply polite_bind; [now apply show_polite|]. intros x Hx. apply pol_node with s; auto. intros t (_ & _ & -> & _) _.
  pose proof (kids_len h0 _ s _ W E K) as KL. rewrite map_length in KL. unfold kids_of in K. rewrite KL in *.
  set (r := sl_arr (hkids s)) in *. rewrite walk_eq.
  assert (LP : forall ks pre, nkids n = pre ++ ks ->
    polite h0 may (Forall2 (saw may) (flat_map walk ks)) (p_tours (p_tour f) r (length pre) (length ks))).
  { induction ks as [|k ks IHk]; intros pre Ek; cbn [length p_tours flat_map]; [constructor; constructor|].
    assert (NE : nth_error (ha h0 r) (length pre) = Some (nid k)).
    { rewrite <- (firstn_skipn (length (nkids n)) (ha h0 r)), K, Ek, map_app, <- app_assoc.
      rewrite nth_error_app2 by (rewrite map_length; lia). rewrite map_length, Nat.sub_diag. reflexivity. }
    assert (Hk : In k (nkids n)) by (rewrite Ek; apply in_app_iff; right; now left).
    rewrite Forall_forall in Rk. pose proof (depth_kid _ _ Hk). apply pol_elem with (nid k); auto.
    eapply polite_bind; [apply IH; auto; lia|]. intros l1 H1.
    specialize (IHk (pre ++ [k])). rewrite <- app_assoc, app_length in IHk. cbn [app length] in IHk. rewrite Nat.add_1_r in IHk.
    eapply polite_bind; [now apply IHk|]. intros l2 H2. constructor. now apply Forall2_app. }
  specialize (LP (nkids n) [] eq_refl). cbn [length] in LP. eapply polite_bind; [exact LP|]. intros l Hl. constructor. now constructor.
Qed.
Lemma walk_polite h0 may rf h R nx dep p ns : hwf h0 -> repr h0 R -> depth R <= dep ->
  Walk rf h (Tr R nx) p = Ok ns -> polite h0 may (Forall2 (saw may) ns) (p_Walk rf dep h (nid R) p).
Proof.
  intros W RR D. unfold Walk, p_Walk. cbn [root]. destruct (is_nil p).
  { intros X. injection X as <-. now apply tour_polite. }
  destruct (search rf h (Tr R nx) p) as [r| |] eqn:S; cbn [bind]; try discriminate. intros X. injection X as <-.
  eapply reads_polite; [apply search_reads with (nx := nx); eauto|]. fold (start_of h R p r).
  replace (if hs_partial (sids r) then Some (nid R) else if (last (runes p) 0 =? hdelim h)%N then hs_node (sids r) else hs_parent (sids r))
    with (option_map nid (start_of h R p r)).
  2: { unfold start_of, sids. cbn [hs_partial hs_node hs_parent]. destruct (Trie.s_partial r); [reflexivity|]. now destruct (_ =? _)%N. }
  destruct (start_of h R p r) as [n|] eqn:N; cbn [option_map]; [|constructor; constructor].
  pose proof (start_sub _ _ _ _ _ _ _ S N) as SB. apply tour_polite; auto; [now apply sub_repr with R|].
  pose proof (sub_depth _ _ SB). lia.
Qed.

(** goroutines that set keys, remove keys, and walk *)
Inductive report := Finished | Listed (l : list shown).
Definition setting grow rt (job : list (gostring * gval)) : prog report := let* _ := p_sets grow rt job in Ret Finished.
Definition removing grow rf dep rt (g : hdl * gostring) : prog report := let* _ := p_removeEx grow rf dep (fst g) rt (snd g) in Ret Finished.
Definition listing rf dep rt (g : hdl * gostring) : prog report := let* l := p_Walk rf dep (fst g) rt (snd g) in Ret (Listed l).

Lemma race_walk grow rf h0 R nx jobs walks dep sch : tree_in h0 R -> depth R <= dep ->
  (forall job k v, In job jobs -> In (k, v) job -> exists a, key_at R k a) ->
  (forall h p, In (h, p) walks -> exists ns, Walk rf h (Tr R nx) p = Ok ns) ->
  let (ps, m) := schedule sch (map (setting grow (nid R)) jobs ++ map (listing rf dep (nid R)) walks) h0 in
  (exists R', repr m R' /\ map shape (ents [] R') = map shape (ents [] R)) /\
  (forall p, In p ps -> p <> Die /\ p <> Spin) /\
  (forall i h p ns x, nth_error walks i = Some (h, p) -> Walk rf h (Tr R nx) p = Ok ns ->
     nth_error ps (length jobs + i) = Some (Ret x) -> exists l, x = Listed l /\ Forall2 (saw (some_set jobs R)) ns l).
Proof.
  intros T D H G. pose proof T as (W & RR & _). set (may := some_set jobs R).
  set (Qg := fun (g : hdl * gostring) (x : report) => exists l, x = Listed l /\
     forall ns, Walk rf (fst g) (Tr R nx) (snd g) = Ok ns -> Forall2 (saw may) ns l).
  assert (F : Forall2 (polite h0 may) (map (fun _ _ => True) jobs ++ map Qg walks)
     (map (setting grow (nid R)) jobs ++ map (listing rf dep (nid R)) walks)).
  { apply Forall2_app.
    - assert (Y : forall js, incl js jobs -> Forall2 (polite h0 may) (map (fun _ _ => True) js) (map (setting grow (nid R)) js)); [|apply Y, incl_refl].
      induction js as [|j js IH]; intros I; cbn; constructor.
      + destruct (sets_calm grow h0 may R j T) as (l & C & O).
        { intros k v Hin. destruct (H j k v (I j (or_introl eq_refl)) Hin) as [a Ha]. exists a. split; [exact Ha|].
          exists j, k. split; [apply I; now left|]. auto. }
        unfold setting. eapply calm_polite; [exact C|]. intros. constructor. exact Logic.I.
      + apply IH. intros x Hx. apply I. now right.
    - induction walks as [|[h p] gs IH]; cbn; constructor.
      + destruct (G h p (or_introl eq_refl)) as [ns En]. unfold listing. cbn [fst snd].
        eapply polite_bind; [apply walk_polite with (nx := nx) (ns := ns); auto|]. intros l Hl. constructor. exists l.
        split; [reflexivity|]. cbn [fst snd]. intros ns' E'. assert (ns' = ns) as -> by congruence. exact Hl.
      + apply IH. intros h1 p1 Hin. apply G. now right. }
  assert (C : civil h0 may (map (fun _ _ => True) jobs ++ map Qg walks) (map (setting grow (nid R)) jobs ++ map (listing rf dep (nid R)) walks) h0)
    by (split; [apply state_refl|exact F]).
  apply schedule_civil with (sch := sch) in C. destruct (schedule sch _ h0) as [ps m]. cbn [fst snd] in C. destruct C as [S F'].
  split; [|split].
  - exists (reload m R). split; [now apply reload_repr with (2 := S)|apply reload_shape].
  - intros p Hp. clear -F' Hp. induction F' as [|Q q Qs ps Hq F IH]; [easy|]. destruct Hp as [->|Hp]; [|now apply IH].
    split; intros ->; inversion Hq.
  - intros i h p ns x Hi Es Hx. apply Forall2_nth_error' with (i := length jobs + i) (b := Ret x) in F'; auto.
    destruct F' as (Q & HQ & P). rewrite nth_error_app2 in HQ by (rewrite map_length; lia). rewrite map_length in HQ.
    replace (length jobs + i - length jobs) with i in HQ by lia. rewrite nth_error_map, Hi in HQ. injection HQ as <-.
    inversion P as [y (l & -> & Hl)| | | |]; subst. exists l. split; auto.
Qed.
Lemma Forall2_len {A B} (P : A -> B -> Prop) l r : Forall2 P l r -> length l = length r.
Proof. induction 1; cbn; congruence. Qed.
(** the whole tree, in terms of keys *)
Definition spied (jobs : list (list (gostring * gval))) (k : skey) (a : attr) (s : shown) : Prop :=
  sw_branch s = negb (a_leaf a) /\
  (sw_data s = a_data a \/ exists job w, In job jobs /\ In (w, sw_data s) job /\ runes w = k).
Lemma race_walk_keys grow rf h0 t jobs hs dep sch : tree_in h0 (root t) -> reached t -> depth (root t) <= dep ->
  (forall job k v, In job jobs -> In (k, v) job -> exists a, key_at (root t) k a) ->
  let (ps, m) := schedule sch (map (setting grow (nid (root t))) jobs ++ map (listing rf dep (nid (root t))) (map (fun h => (h, [])) hs)) h0 in
  (forall p, In p ps -> p <> Die /\ p <> Spin) /\
  (forall i x, i < length hs -> nth_error ps (length jobs + i) = Some (Ret x) -> exists l ks, x = Listed l /\
     length ks = length l /\ NoDup ks /\ NoDup (map sw_at l) /\
     (forall k, In k ks <-> t_get t k <> None) /\
     (forall k s, In (k, s) (combine ks l) -> exists a, t_get t k = Some a /\ spied jobs k a s)).
Proof.
  intros T RE D H.
  pose proof (race_walk grow rf h0 (root t) (next t) jobs (map (fun h => (h, [])) hs) dep sch T D H) as RW.
  destruct (schedule sch _ h0) as [ps m]. destruct RW as (_ & ND & G).
  { intros h p Hin. apply in_map_iff in Hin. destruct Hin as (h' & X & _). injection X as _ <-. eexists. reflexivity. }
  split; [exact ND|]. intros i x Hi Hx. destruct (nth_error hs i) as [h|] eqn:Eh; [|apply nth_error_None in Eh; lia].
  destruct (G i h [] (walk (root t)) x) as (l & -> & F); auto.
  { rewrite nth_error_map, Eh. reflexivity. }
  pose proof (reached_wf t RE) as WT. pose proof (proj1 (proj2 (proj1 WT))) as Wn.
  exists l, (map fst (ents [] (root t))). split; [reflexivity|]. pose proof F as F0. rewrite (walk_ents [] (root t)) in F.
  split; [rewrite map_length; apply Forall2_len in F; rewrite map_length in F; exact F|]. split; [now apply ents_nodup|]. split.
  - replace (map sw_at l) with (map nid (walk (root t))).
    + rewrite (walk_ents [] (root t)), map_map. pose proof (proj1 (proj2 WT)) as Q. unfold eids, ients in Q. rewrite map_map in Q. exact Q.
    + clear -F0. induction F0 as [|n s ns l (X & _) _ IH]; cbn; congruence.
  - split.
    + intros k. unfold t_get. rewrite <- (abs_entries t). split.
      * intros Hk. apply in_map_iff in Hk. destruct Hk as ([k' n] & X & Hn). cbn in X. subst k'. assert (L : look (root t) k = Some (info_of n)); [|now rewrite L].
        apply look_in; auto. unfold ients. apply in_map_iff. exists (k, n). auto.
      * intros N. destruct (look (root t) k) as [i0|] eqn:L; [|now destruct N]. apply look_in in L; auto. apply in_ients in L.
        destruct L as (n & Hn & _). apply in_map_iff. exists (k, n). auto.
    + intros k s Hs.
      assert (X : exists n, In (k, n) (ents [] (root t)) /\ saw (some_set jobs (root t)) n s).
      { clear -F Hs. revert l F Hs. induction (ents [] (root t)) as [|[k0 n0] es IH]; [easy|]. intros l F Hs. cbn [map] in F.
        inversion F as [|n1 s1 ns l0 F1 F2]; subst. cbn [map combine fst] in Hs. destruct Hs as [Hs|Hs].
        - injection Hs as <- <-. exists n0. split; [now left|exact F1].
        - destruct (IH l0 F2 Hs) as (n & X & Y). exists n. split; [now right|exact Y]. }
      destruct X as (n & Hn & (_ & _ & _ & B & DA)). exists (attr_of (info_of n)). split; [|split].
      * unfold t_get. rewrite <- (abs_entries t). assert (L : look (root t) k = Some (info_of n)); [|now rewrite L].
        apply look_in; auto. unfold ients. apply in_map_iff. exists (k, n). auto.
      * rewrite B, isBranch_bit. reflexivity.
      * destruct DA as [->|(job & w & J1 & J2 & (mw & M1 & M2))]; [now left|right]. exists job, w. split; [exact J1|]. split; [exact J2|].
        destruct (ids_inj (next t) (ients [] (root t)) (runes w) (info_of mw) k (info_of n)) as [X _]; auto; [apply WT| |].
        -- unfold ients. apply in_map_iff. exists (runes w, mw). auto.
        -- unfold ients. apply in_map_iff. exists (k, n). auto.
Qed.

(** ** beside goroutines that remove keys *)
Section Gone.
Variable h0 : heap.
Hypothesis W : hwf h0.
Lemma show_sees n : repr h0 n -> sees h0 False (eq (show n)) (p_show (nid n)).
Proof.
  intros R. apply repr_eq in R. destruct R as [(s & E & Ft & _) _]. destruct Ft as (P1 & P2 & P3 & _ & _ & _ & P7). unfold p_show.
  do 4 (apply sees_node with s; auto; intros ? _). constructor. unfold show, isBranch, view. cbn. congruence.
Qed.
(** the first is the node where the walk starts, the others are below it *)
Definition tour_of (n : node) (l : list shown) : Prop := exists l', l = show n :: l' /\ incl l' (map show (flat_map walk (nkids n))).
Lemma tour_sees f : forall n, repr h0 n -> depth n <= f -> sees h0 False (tour_of n) (p_tour f (nid n)).
Proof.
  induction f as [|f IH]; intros n R D; [destruct n; cbn in D; lia|]. pose proof R as R0.
  apply repr_eq in R. destruct R as [(s & E & Ft & K) Rk]. cbn [p_tour].
  eapply sees_bind; [now apply show_sees|]. intros x <-. apply sees_node with s; auto. intros m Lm. cbn [shorter w_kids hkids sl_arr sl_len].
  assert (LP : forall k i, i + k <= sl_len (hkids s) ->
    sees h0 False (fun l => incl l (map show (flat_map walk (nkids n)))) (p_tours (p_tour f) (sl_arr (hkids s)) i k)).
  { induction k as [|k IHk]; intros i L; cbn [p_tours]; [constructor; easy|].
    apply sees_elem with (nid n); auto; [lia|]. intros x Hx. rewrite K in Hx. apply in_map_iff in Hx. destruct Hx as (c & <- & Hc).
    rewrite Forall_forall in Rk. pose proof (depth_kid _ _ Hc).
    eapply sees_bind; [apply IH; auto; lia|]. intros l1 (l' & -> & H1).
    eapply sees_bind; [apply IHk; lia|]. intros l2 H2. constructor. intros y Hy. apply in_app_iff in Hy. destruct Hy as [Hy|Hy]; [|auto].
    assert (X : In y (map show (walk c))).
    { rewrite walk_eq. destruct Hy as [<-|Hy]; [now left|right; auto]. }
    apply in_map_iff in X. destruct X as (z & <- & Hz). apply in_map, in_flat_map. eauto. }
  eapply sees_bind; [apply LP; lia|]. intros l Hl. constructor. exists l. auto.
Qed.
End Gone.
(** what Walk may list: the walk of the tree cut down *)
Definition may_list (t : tr) (p : gostring) (l : list shown) : Prop :=
  l = [] \/ exists k n l', In (k, n) (ents [] (root t)) /\ (is_nil p = true -> k = []) /\ l = show n :: l' /\
    forall s, In s l' -> exists k' n', In (k', n') (ents [] (root t)) /\ pprefix k k' /\ s = show n'.
Lemma tour_list t p k n l : In (k, n) (ents [] (root t)) -> (is_nil p = true -> k = []) -> wfn (root t) -> tour_of n l -> may_list t p l.
Proof.
  intros H NP Wn (l' & -> & I). right. exists k, n, l'. split; [exact H|]. split; [exact NP|]. split; [reflexivity|].
  intros s Hs. apply I in Hs. apply in_map_iff in Hs. destruct Hs as (m & <- & Hm).
  destruct (Derived6.ents_sub _ _ _ _ H) as (pre & E & IN). apply in_flat_map in Hm. destruct Hm as (c & Hc & Hm).
  rewrite (walk_ents (pre ++ npath n)) in Hm. apply in_map_iff in Hm. destruct Hm as ([k' m'] & <- & Hm). cbn [snd].
  exists k', m'. split; [apply IN; rewrite ents_eq; right; apply in_flat_map; eauto|]. split; [|reflexivity].
  destruct (wfn_kids n c) as [Hnc _]; auto; [now apply wfn_ents with (2 := H)|].
  apply ents_prefix in Hm. destruct Hm as [z ->]. subst k. destruct (npath c) as [|x y]; [congruence|]. exists x, (y ++ z).
  now rewrite <- app_assoc.
Qed.
Lemma walk_sees h0 t D rf h dep p : tree_in h0 (root t) -> plain_reach D t -> depth (root t) <= dep -> D (hdelim h) -> hmode h <> ModeUp ->
  sees h0 False (may_list t p) (p_Walk (S rf) dep h (nid (root t)) p).
Proof.
  intros TI PR DP Hd HM. pose proof TI as (W & RR & _). destruct (plain_reach_inv D t PR) as [WT _].
  pose proof (proj1 (proj2 (proj1 WT))) as Wn.
  assert (RT : In ([], root t) (ents [] (root t))) by (rewrite ents_eq; left; now rewrite (proj1 (proj1 WT))).
  assert (TS : forall k n, In (k, n) (ents [] (root t)) -> (is_nil p = true -> k = []) -> sees h0 False (may_list t p) (p_tour dep (nid n))).
  { intros k n H NP. pose proof (HeapRemoveProofs.ents_sub _ _ _ _ H) as SB. pose proof (sub_depth _ _ SB).
    eapply sees_mono; [|apply tour_sees; [now apply sub_repr with (1 := RR)|lia]]. intros l Hl. now apply tour_list with k n. }
  unfold p_Walk. destruct (is_nil p) eqn:NP; [now apply TS with []|].
  eapply sees_bind; [apply search_sees; auto; [now apply plain_root with D|apply WT]|].
  intros r Hr. cbn beta. destruct (hs_partial r) eqn:P; [apply TS with []; auto; discriminate|].
  assert (X : forall o, o = hs_node r \/ o = hs_parent r -> sees h0 False (may_list t p) (match o with Some a => p_tour dep a | None => Ret [] end)).
  { intros o Ho. destruct (hs_node r) as [a|] eqn:N.
    - destruct (srch_node t D PR _ _ _ _ Hd Hr N P) as (_ & k & m & par & H & -> & Hpar & PO & _). destruct Ho as [->| ->].
      + apply TS with k; auto. discriminate.
      + rewrite Hpar. destruct PO as [(_ & _ & ->)|(kp & f & Hf & _ & _ & ->)]; cbn [option_map]; [constructor; now left|].
        apply TS with kp; auto. discriminate.
    - destruct Ho as [->| ->]; [constructor; now left|].
      destruct Hr as (q & RO & ->). destruct (hm_matched q || hm_partial q) eqn:E; cbn in N, P |- *; [|constructor; now left].
      rewrite P, orb_false_r in E. destruct RO as [|q _ H]; [discriminate|].
      destruct H as [r0 MO E0|k m p0 H PO K N0|c p0|]; cbn in N, E, P; try discriminate.
      destruct MO; cbn in E0, N; discriminate. }
  destruct (_ =? _)%N; apply X; auto.
Qed.
Lemma race_walk_remove grow rf D h0 t rems walks dep sch : tree_in h0 (root t) -> plain_reach D t -> depth (root t) <= dep ->
  (forall h p, In (h, p) (rems ++ walks) -> D (hdelim h) /\ hmode h <> ModeUp) ->
  let (ps, m) := schedule sch (map (removing grow (S rf) dep (nid (root t))) rems ++ map (listing (S rf) dep (nid (root t))) walks) h0 in
  (forall p, In p ps -> p <> Spin) /\
  (forall i h p x, nth_error walks i = Some (h, p) -> nth_error ps (length rems + i) = Some x ->
     x <> Die /\ forall y, x = Ret y -> exists l, y = Listed l /\ may_list t p l).
Proof.
  intros TI PR DP HH. pose proof TI as (W & RR & _).
  set (Qr := fun _ : hdl * gostring => (True, fun _ : report => True)).
  set (Qg := fun g : hdl * gostring => (False, fun y : report => exists l, y = Listed l /\ may_list t (snd g) l)).
  assert (F : watched h0 (map Qr rems ++ map Qg walks)
     (map (removing grow (S rf) dep (nid (root t))) rems ++ map (listing (S rf) dep (nid (root t))) walks) h0).
  { split; [apply thin_refl|]. apply Forall2_app.
    - assert (Y : forall l, incl l rems -> Forall2 (fun Q p => sees h0 (fst Q) (snd Q) p) (map Qr l) (map (removing grow (S rf) dep (nid (root t))) l));
        [|apply Y, incl_refl].
      induction l as [|[h p] l IH]; intros I; cbn [map]; constructor; [|apply IH; intros x Hx; apply I; now right].
      destruct (HH h p) as [Hd Hm]; [apply in_app_iff; left; apply I; now left|].
      unfold removing, Qr. cbn [fst snd]. eapply sees_bind; [now apply removeEx_sees with D|]. intros. now constructor.
    - assert (Y : forall l, incl l walks -> Forall2 (fun Q p => sees h0 (fst Q) (snd Q) p) (map Qg l) (map (listing (S rf) dep (nid (root t))) l));
        [|apply Y, incl_refl].
      induction l as [|[h p] l IH]; intros I; cbn [map]; constructor; [|apply IH; intros x Hx; apply I; now right].
      destruct (HH h p) as [Hd Hm]; [apply in_app_iff; right; apply I; now left|].
      unfold listing, Qg. cbn [fst snd]. eapply sees_bind; [now apply walk_sees with D|]. intros l1 Hl. constructor. eauto. }
  apply (schedule_watched h0 W sch) in F. destruct (schedule sch _ h0) as [ps m]. cbn [fst snd] in F. destruct F as [T F].
  split.
  - intros p Hp. apply In_nth_error in Hp. destruct Hp as [i Hi]. destruct (Forall2_nth_error' _ _ _ _ _ F Hi) as (Q & _ & S). intros ->. inversion S.
  - intros i h p x Hi Hx. destruct (Forall2_nth_error' _ _ _ _ _ F Hx) as (Q & HQ & S).
    rewrite nth_error_app2 in HQ by (rewrite map_length; lia). rewrite map_length in HQ.
    replace (length rems + i - length rems) with i in HQ by lia. rewrite nth_error_map, Hi in HQ. injection HQ as <-. cbn [fst snd Qg] in S.
    split; [intros ->; inversion S as [|[]| | | | |]|]. intros y ->. inversion S as [z Hz| | | | | |]; subst. exact Hz.
Qed.

(** ** walks with surprises *)
From Coq Require Import String.
(** the walk of the whole tree takes [i] steps, the other goroutine [j], then the walk goes on: keys, branches and values *)
Definition list_beside (w : prog report) (h : heap) (i j : nat) : option (list (gostring * bool * gval)) :=
  match nth_error (fst (schedule (repeat 1 i ++ repeat 0 j ++ repeat 1 60) [w; listing 1 5 0 (defaultHdl, [])] h)) 1 with
  | Some (Ret (Listed l)) => Some (map (fun s => (sw_key s, sw_branch s, sw_data s)) l)
  | _ => None
  end.
Definition set_apricot : prog report := setting no_room 0 [(s2b "apricot"%string, GStr [50%N])].
Definition remove_a : prog report := removing no_room 1 5 0 (key "a").
Definition lf (s : string) (c : N) : gostring * bool * gval := (s2b s, false, GStr [c]).
Definition rt0 : gostring * bool * gval := ([], true, GNil).
Lemma list_set : list_beside set_apricot h_apple 0 0 = Some [rt0; lf "apple" 49%N] /\
  list_beside set_apricot h_apple 0 60 = Some [rt0; (s2b "ap"%string, true, GNil); lf "apple" 49%N; lf "apricot" 50%N].
Proof. split; vm_compute; reflexivity. Qed.
Lemma list_twice : list_beside set_apricot h_apple 10 60 = Some [rt0; lf "apple" 49%N; lf "apple" 49%N; lf "apricot" 50%N].
Proof. vm_compute. reflexivity. Qed.
Lemma list_phantom : list_beside set_apricot h_apple 0 9 = Some [rt0; lf "ap" 49%N].
Proof. vm_compute. reflexivity. Qed.
Lemma list_nil : list_beside set_apricot h_apple 9 60 = Some [rt0; (apple, false, GNil); lf "apple" 49%N; lf "apricot" 50%N].
Proof. vm_compute. reflexivity. Qed.
Lemma list_remove : list_beside remove_a h_abc 0 0 = Some [rt0; lf "a" 49%N; lf "b" 50%N; lf "c" 51%N] /\
  list_beside remove_a h_abc 0 60 = Some [rt0; lf "b" 50%N; lf "c" 51%N].
Proof. split; vm_compute; reflexivity. Qed.
Lemma list_skips : list_beside remove_a h_abc 6 60 = Some [rt0; lf "a" 49%N; lf "c" 51%N; lf "c" 51%N].
Proof. vm_compute. reflexivity. Qed.
