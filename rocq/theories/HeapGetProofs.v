(** Reading the tree in memory: what a search gives, alone and while values are overwritten. *)
From Coq Require Import List NArith Bool Arith Lia.
From Verif Require Import GoStr Utf8 Node NodeWf InsertProofs MatchProofs Trie TreeOps Spec Refine Climb ApiRefine Reach Effect
  Derived Derived2 Derived3 Derived4 Derived5 Heap HeapProofs HeapWalk HeapRace HeapGet.
Import ListNotations.
Open Scope nat_scope.

(** ** the block for patterns only looks at the path and the number of children *)
Definition hres (x : res rexit) : res hexit := do e <- x; Ok (hexit_of e).
Lemma retriever_same rf d s s' word p p' : nid s = nid s' -> npath s = npath s' -> length (nkids s) = length (nkids s') ->
  option_map nid p = option_map nid p' -> forall ch src dst lrd kv,
  hres (retriever rf d s word p ch src dst lrd kv) = hres (retriever rf d s' word p' ch src dst lrd kv).
Proof.
  intros I P K PP. induction rf as [|rf IH]; intros ch src dst lrd kv; cbn [retriever]; [reflexivity|].
  rewrite <- P, <- K. destruct (lrd && (ch =? star)%N).
  { destruct (extractor _ _ _) as [[id s1] e1]. cbn. unfold hids. cbn. now rewrite I, PP. }
  destruct (lrd && (ch =? colon)%N); [|reflexivity].
  destruct (extractor (S src) _ _) as [[id s1] e1]. destruct (extractor dst _ _) as [[v d1] e2].
  destruct e1.
  - destruct e2; cbn; [unfold hids; cbn; now rewrite I, PP|reflexivity].
  - destruct e2; cbn [negb]; [reflexivity|]. destruct (subscan _ _ _ _ _ _ _) as [[[s2 d2] l2] c2].
    destruct (_ && _); [reflexivity|]. destruct (_ && _); [reflexivity|]. apply IH.
Qed.

(** ** a search reads, and gives what the search in the tree gives *)
Section Reads.
Variable h0 : heap.
Hypothesis W : hwf h0.
Lemma reads_bind {A B} (x : A) (y : B) p (q : A -> prog B) : reads h0 x p -> reads h0 y (q x) -> reads h0 y (seqp p q).
Proof.
  intros R C. induction R as [|a s k E _ IH|r i c k E _ IH]; cbn [seqp]; auto.
  - apply reads_node with s; auto.
  - apply reads_elem with c; auto.
Qed.
Lemma scan_reads a s d : hn h0 a = Some s -> forall k word i lrd,
  k = Nat.min (length (hpath s) - i) (length word) ->
  let '(j, b) := scan d (skipn i (hpath s)) word i lrd in
  exists c, reads h0 (j, b, c) (p_scan a d word i k lrd) /\ (j < i + k -> c = nth j (hpath s) 0%N).
Proof.
  intros E. induction k as [|k IH]; intros word i lrd K; cbn [p_scan].
  - assert (scan d (skipn i (hpath s)) word i lrd = (i, lrd)) as ->.
    { destruct (skipn i (hpath s)) as [|x t] eqn:S; [reflexivity|].
      assert (length (skipn i (hpath s)) = Datatypes.S (length t)) as L by now rewrite S. rewrite skipn_length in L.
      destruct word; [reflexivity|]. cbn in K. lia. }
    exists 0%N. split; [constructor|lia].
  - destruct word as [|w word]; [cbn in K; lia|]. cbn [length] in K.
    destruct (nth_error (hpath s) i) as [c|] eqn:N.
    2: { apply nth_error_None in N. lia. }
    assert (S : skipn i (hpath s) = c :: skipn (S i) (hpath s)).
    { clear -N. revert i N. generalize (hpath s). induction l as [|x l IH]; intros [|i] N; cbn in *; try discriminate; [congruence|auto]. }
    rewrite S. cbn [scan]. destruct (c =? w)%N eqn:C.
    + specialize (IH word (Datatypes.S i) (c =? d)%N). destruct (scan d _ word _ _) as [j b].
      destruct IH as (c' & R & Q); [lia|]. exists c'. split; [|intros; apply Q; lia].
      apply reads_node with s; auto. intros t (T & _). rewrite T, N, C. exact R.
    + exists c. split.
      * apply reads_node with s; auto. intros t (T & _). rewrite T, N, C. constructor.
      * intros _. symmetry. now apply nth_error_nth.
Qed.
Lemma after_reads d n s word pn src mt pt : hn h0 (nid n) = Some s -> hpath s = npath n ->
  let '(a, b, c, e) := after_loop d n word pn src mt pt in
  reads h0 (a, b, option_map nid c, option_map nid e)
    (p_after d (nid n) (length (npath n)) (length word) (option_map nid pn) src mt pt).
Proof.
  intros E P. unfold after_loop, p_after. cbv zeta.
  set (rest := if (Nat.min (length (npath n)) (length word) <? length (npath n)) && _ then _ else _) at 2 3.
  assert (X : rest = let '(a, b, c, e) :=
     (if (Nat.min (length (npath n)) (length word) <? length (npath n)) && (src =? Nat.min (length (npath n)) (length word))
      then (mt, true, Some n, pn)
      else if (length (npath n) <=? Nat.min (length (npath n)) (length word)) &&
             ((src =? Nat.min (length (npath n)) (length word)) && ((0 <? Nat.min (length (npath n)) (length word)) && ((0 <? src) && negb pt)))
           then (true, pt, Some n, pn) else (mt, pt, if mt then Some n else None, if mt then pn else None)) in
     (a, b, option_map nid c, option_map nid e)).
  { unfold rest. destruct (_ && _); [reflexivity|]. destruct (_ && _); [reflexivity|]. now destruct mt. }
  clearbody rest. subst rest. destruct (S src =? length (npath n)) eqn:S; cbn [andb].
  - apply Nat.eqb_eq in S. destruct (nth_error (npath n) src) as [c|] eqn:N; [|apply nth_error_None in N; lia].
    rewrite (nth_error_nth _ _ _ N). destruct (c =? d)%N eqn:C; cbn [andb].
    + apply reads_node with s; auto. intros t (T & _). rewrite T, P, N, C. constructor.
    + repeat match goal with |- context [if ?x then _ else _] => destruct x end;
        (apply reads_node with s; [exact E|]; intros t (T & _); rewrite T, P, N, C; constructor).
  - repeat match goal with |- context [if ?x then _ else _] => destruct x end; constructor.
Qed.

Lemma matchR_eq rf d s word lrd pn kv : matchR rf d s word lrd pn kv =
  let l := length (npath s) in
  let wl := length word in
  if wl =? 0 then Ok (MRes true false (Some s) pn kv)
  else
    let minL := Nat.min l wl in
    let '(i, lrd1) := scan d (npath s) word 0 lrd in
    do ex <- (if i <? minL
              then retriever rf d s word pn (nth i (npath s) 0%N) i i lrd1 kv
              else Ok (RBreak i 0 lrd1 false false kv));
    match ex with
    | RReturn r => Ok r
    | RBreak src dst lrd2 mt pt kv2 =>
        let '(matched, partial, child, parent) := after_loop d s word pn src mt pt in
        if minL <? wl then
          match nkids s with
          | [] => Ok (MRes false true child parent kv2)
          | ks =>
              (fix loop (cs : list node) (last : mres) : res mres :=
                 match cs with
                 | [] => Ok last
                 | c :: cs' =>
                     do r <- matchR rf d c (skipn (if dst =? 0 then minL else dst) word) lrd2 (Some s) (m_kv last);
                     if m_matched r || m_partial r then Ok r else loop cs' r
                 end) ks (MRes matched partial child parent kv2)
          end
        else Ok (MRes matched partial child parent kv2)
    end.
Proof. now destruct s. Qed.

Lemma matchR_reads rf d : forall n fuel word lrd pn kv r, repr h0 n -> depth n <= fuel ->
  matchR rf d n word lrd pn kv = Ok r ->
  reads h0 (hids r) (p_matchR rf fuel d (nid n) word lrd (option_map nid pn) kv).
Proof.
  induction n as [n IH] using node_ind'. intros fuel word lrd pn kv r R D.
  pose proof R as R0. apply repr_eq in R. destruct R as [(s & E & Ft & K) Rk]. pose proof Ft as (P1 & _).
  pose proof (kids_len h0 _ s _ W E K) as KL. rewrite map_length in KL.
  rewrite matchR_eq. cbv zeta. destruct fuel as [|fuel]; [destruct n; cbn in D; lia|]. cbn [p_matchR]. intros M.
  apply reads_node with s; auto. intros t0 (T0 & _). rewrite T0, P1.
  destruct (length word =? 0) eqn:WL; [injection M as <-; constructor|].
  pose proof (scan_reads (nid n) s d E (Nat.min (length (npath n)) (length word)) word 0 lrd) as SC.
  cbn [skipn] in SC. rewrite P1 in SC. rewrite Nat.sub_0_r in SC. specialize (SC eq_refl).
  destruct (scan d (npath n) word 0 lrd) as [i lrd1]. destruct SC as (ch & RS & CH).
  eapply reads_bind; [exact RS|]. cbn beta iota. cbn [plus] in CH.
  set (br := i <? Nat.min (length (npath n)) (length word)) in *.
  set (rt := if br then retriever rf d n word pn (nth i (npath n) 0%N) i i lrd1 kv else Ok (RBreak i 0 lrd1 false false kv)) in *.
  destruct rt as [ex| |] eqn:RT; cbn [bind] in M; try discriminate.
  apply reads_bind with (hexit_of ex).
  { unfold rt in RT. clear rt M. destruct br eqn:L.
    - apply Nat.ltb_lt in L. rewrite <- (CH L) in RT. apply reads_node with s; auto. intros t (A1 & _ & A3).
      pose proof (retriever_same rf d n (view (nid n) t) word pn (option_map hold (option_map nid pn)) eq_refl) as Q.
      specialize (Q ltac:(cbn; congruence) ltac:(cbn; rewrite A3, repeat_length; congruence) ltac:(now destruct pn) ch i i lrd1 kv).
      rewrite RT in Q. cbn in Q. destruct (retriever rf d (view (nid n) t) _ _ _ _ _ _ _) as [ex'| |]; cbn in Q; try discriminate.
      injection Q as Q. rewrite <- Q. constructor.
    - injection RT as <-. constructor. }
  destruct ex as [q|src dst lrd2 mt pt kv2]; cbn [hexit_of]; [injection M as <-; constructor|].
  pose proof (after_reads d n s word pn src mt pt E P1) as AR.
  destruct (after_loop d n word pn src mt pt) as [[[ma pa] chd] par].
  eapply reads_bind; [exact AR|]. cbn beta iota. clear AR.
  destruct (Nat.min (length (npath n)) (length word) <? length word); [|injection M as <-; constructor].
  apply reads_node with s; auto. intros t1 (_ & _ & A1). rewrite A1, KL.
  destruct (nkids n) as [|k0 ks0] eqn:EK; [injection M as <-; constructor|]. rewrite <- EK in *.
  replace (length (nkids n) =? 0) with false by (rewrite EK; reflexivity).
  apply reads_node with s; auto. intros t2 (_ & _ & A2). rewrite A2, KL.
  set (rest := skipn (if dst =? 0 then Nat.min (length (npath n)) (length word) else dst) word) in *.
  set (go := fun (c : nat) (kv : kvs) => p_matchR rf fuel d c rest lrd2 (Some (nid n)) kv).
  assert (LP : forall ks pre last, nkids n = pre ++ ks ->
    (fix loop (cs : list node) (last : mres) : res mres :=
       match cs with
       | [] => Ok last
       | c :: cs' => do r <- matchR rf d c rest lrd2 (Some n) (m_kv last); if m_matched r || m_partial r then Ok r else loop cs' r
       end) ks last = Ok r ->
    reads h0 (hids r) (p_each go (sl_arr (hkids s)) (length pre) (length ks) (hids last))).
  { unfold kids_of in K. rewrite KL in K. rewrite Forall_forall in IH, Rk.
    induction ks as [|k ks IHk]; intros pre last Ek X; cbn [length p_each]; [injection X as <-; constructor|].
    assert (NE : nth_error (ha h0 (sl_arr (hkids s))) (length pre) = Some (nid k)).
    { rewrite <- (firstn_skipn (length (nkids n)) (ha h0 (sl_arr (hkids s)))), K, Ek, map_app, <- app_assoc.
      rewrite nth_error_app2 by (rewrite map_length; lia). rewrite map_length, Nat.sub_diag. reflexivity. }
    assert (Hk : In k (nkids n)) by (rewrite Ek; apply in_app_iff; right; now left).
    pose proof (depth_kid _ _ Hk).
    apply reads_elem with (nid k); auto.
    destruct (matchR rf d k rest lrd2 (Some n) (m_kv last)) as [r1| |] eqn:M1; cbn [bind] in X; try discriminate.
    apply reads_bind with (hids r1).
    - unfold go. change (Some (nid n)) with (option_map nid (Some n)). change (hm_kv (hids last)) with (m_kv last).
      apply IH; auto. lia.
    - change (hm_matched (hids r1)) with (m_matched r1). change (hm_partial (hids r1)) with (m_partial r1).
      destruct (m_matched r1 || m_partial r1); [injection X as <-; constructor|].
      specialize (IHk (pre ++ [k]) r1). rewrite <- app_assoc, app_length in IHk. cbn [app length] in IHk. rewrite Nat.add_1_r in IHk.
      apply IHk; auto. }
  specialize (LP (nkids n) [] (MRes ma pa chd par kv2) eq_refl). cbn [length] in LP. apply LP.
  rewrite EK. exact M.
Qed.

(** search *)
Definition sids (r : Trie.sres) : hsres :=
  HS (option_map nid (Trie.s_node r)) (option_map nid (Trie.s_parent r)) (Trie.s_partial r) (Trie.s_kv r).
Lemma climb_reads rf d R nx dep : repr h0 R -> depth R <= dep -> forall fuel w kv r,
  climb rf fuel d (Tr R nx) w kv = Ok r -> reads h0 (sids r) (p_climb rf dep fuel d (nid R) w kv).
Proof.
  intros RR D. induction fuel as [|fuel IH]; intros w kv r C; cbn [climb p_climb] in *; [discriminate|].
  destruct (2 <? length (split_str w (enc1 d))); [|injection C as <-; constructor].
  unfold probe in C. cbn [root] in C.
  destruct (matchR rf d R _ false None kv) as [q| |] eqn:M; cbn [bind] in C; try discriminate.
  apply reads_bind with (hids q).
  - apply matchR_reads with (pn := None); auto.
  - change (hm_matched (hids q)) with (m_matched q). change (hm_partial (hids q)) with (m_partial q).
    destruct (m_matched q || m_partial q); [injection C as <-; constructor|]. now apply IH.
Qed.
Lemma search_reads rf h R nx dep w r : repr h0 R -> depth R <= dep ->
  search rf h (Tr R nx) w = Ok r -> reads h0 (sids r) (p_search rf dep h (nid R) w).
Proof.
  intros RR D C. unfold search, p_search in *. cbv zeta in *. unfold probe in C. cbn [root] in C.
  destruct (matchR rf (hdelim h) R _ false None []) as [q| |] eqn:M; cbn [bind] in C; try discriminate.
  apply reads_bind with (hids q).
  - apply matchR_reads with (pn := None); auto.
  - change (hm_matched (hids q)) with (m_matched q). change (hm_partial (hids q)) with (m_partial q).
    destruct (m_matched q || m_partial q); [injection C as <-; constructor|].
    destruct (hmode h); try (injection C as <-; constructor).
    destruct (contains _ w); [|injection C as <-; constructor]. now apply climb_reads with nx.
Qed.
(** a program that reads, alone *)
Lemma reads_run {A} (x : A) p : reads h0 x p -> run p h0 = Ok (h0, x).
Proof.
  intros R. induction R as [|a s k E _ IH|r i c k E _ IH]; cbn [run]; auto.
  - rewrite E. apply IH, alike_same, alike_refl.
  - rewrite E. exact IH.
Qed.
End Reads.

(** ** the node found is in the tree *)
Lemma retriever_child rf d s word pn c : forall ch src dst lrd kv r,
  retriever rf d s word pn ch src dst lrd kv = Ok (RReturn r) -> m_child r = Some c -> c = s.
Proof.
  induction rf as [|rf IH]; intros ch src dst lrd kv r; cbn [retriever]; [discriminate|].
  destruct (lrd && (ch =? star)%N).
  { destruct (extractor _ _ _) as [[id s1] e1]. intros X. injection X as <-. cbn. congruence. }
  destruct (lrd && (ch =? colon)%N); [|intros X; injection X as <-; discriminate].
  destruct (extractor (S src) _ _) as [[id s1] e1]. destruct (extractor dst _ _) as [[v d1] e2].
  destruct e1.
  - destruct e2; [|discriminate]. intros X. injection X as <-. cbn. congruence.
  - destruct e2; cbn [negb]; [intros X; injection X as <-; discriminate|]. destruct (subscan _ _ _ _ _ _ _) as [[[s2 d2] l2] c2].
    destruct (_ && _); [discriminate|]. destruct (_ && _); [discriminate|]. apply IH.
Qed.
Lemma matchR_child rf d : forall n word lrd pn kv r c, matchR rf d n word lrd pn kv = Ok r -> m_child r = Some c -> sub n c.
Proof.
  induction n as [n IH] using node_ind'. intros word lrd pn kv r c. rewrite matchR_eq. cbv zeta.
  destruct (length word =? 0); [intros X; injection X as <-; cbn; intros Y; injection Y as <-; constructor|].
  destruct (scan d (npath n) word 0 lrd) as [i lrd1].
  destruct (if i <? _ then _ else _) as [[q|src dst lrd2 mt pt kv2]| |] eqn:RT; cbn [bind]; try discriminate.
  - intros X Hc. injection X as <-. destruct (i <? _); [|discriminate]. rewrite (retriever_child _ _ _ _ _ c _ _ _ _ _ _ RT Hc). constructor.
  - destruct (after_loop d n word pn src mt pt) as [[[ma pa] chd] par] eqn:AL.
    assert (CH : chd = Some c -> sub n c).
    { intros ->. assert (c = n) as ->; [|constructor]. unfold after_loop in AL. cbv zeta in AL.
      repeat match type of AL with context [if ?x then _ else _] => destruct x end; injection AL; congruence. }
    destruct (_ <? length word); [|intros X; injection X as <-; auto].
    destruct (nkids n) as [|k0 ks0] eqn:EK; [intros X; injection X as <-; auto|]. rewrite <- EK in *.
    assert (LP : forall ks, incl ks (nkids n) -> forall last, (m_child last = Some c -> sub n c) ->
      (fix loop (cs : list node) (last : mres) : res mres :=
       match cs with
       | [] => Ok last
       | k :: cs' => do r <- matchR rf d k (skipn (if dst =? 0 then Nat.min (length (npath n)) (length word) else dst) word) lrd2 (Some n) (m_kv last);
                     if m_matched r || m_partial r then Ok r else loop cs' r
       end) ks last = Ok r -> m_child r = Some c -> sub n c).
    { rewrite Forall_forall in IH. induction ks as [|k ks IHk]; intros I last L X Hc; [injection X as <-; auto|].
      destruct (matchR rf d k _ lrd2 (Some n) (m_kv last)) as [r1| |] eqn:M1; cbn [bind] in X; try discriminate.
      assert (Hk : In k (nkids n)) by (apply I; now left).
      assert (S1 : m_child r1 = Some c -> sub n c).
      { intros C1. apply sub_kid with k; auto. apply (IH k Hk) with (2 := C1) (1 := M1). }
      destruct (m_matched r1 || m_partial r1); [injection X as <-; auto|].
      apply (IHk (fun y Hy => I y (or_intror Hy)) r1 S1 X Hc). }
    intros X Hc. apply (LP (nkids n) (incl_refl _) (MRes ma pa chd par kv2)); auto. rewrite EK. exact X.
Qed.
Lemma climb_child rf d R nx c : forall fuel w kv r, climb rf fuel d (Tr R nx) w kv = Ok r -> Trie.s_node r = Some c -> sub R c.
Proof.
  induction fuel as [|fuel IH]; intros w kv r; cbn [climb]; [discriminate|].
  destruct (2 <? length (split_str w (enc1 d))); [|intros X; injection X as <-; discriminate].
  unfold probe. cbn [root].
  destruct (matchR rf d R _ false None kv) as [q| |] eqn:M; cbn [bind]; try discriminate.
  destruct (m_matched q || m_partial q); [|apply IH]. intros X Hc. injection X as <-. apply matchR_child with (1 := M). exact Hc.
Qed.
Lemma search_child rf h R nx w r c : search rf h (Tr R nx) w = Ok r -> Trie.s_node r = Some c -> sub R c.
Proof.
  unfold search. cbv zeta. unfold probe. cbn [root].
  destruct (matchR rf (hdelim h) R _ false None []) as [q| |] eqn:M; cbn [bind]; try discriminate.
  destruct (m_matched q || m_partial q).
  { intros X Hc. injection X as <-. apply matchR_child with (1 := M). exact Hc. }
  destruct (hmode h); try (intros X; injection X as <-; discriminate).
  destruct (contains _ w); [apply climb_child|intros X; injection X as <-; discriminate].
Qed.

(** ** programs that read and overwrite values, and give a result with a property *)
Section Polite.
Variable h0 : heap.
Variable may : nat -> gval -> Prop.
Inductive polite {A} (Q : A -> Prop) : prog A -> Prop :=
| pol_ret x : Q x -> polite Q (Ret x)
| pol_node a s k : hn h0 a = Some s ->
    (forall t, alike s t -> hdata t = hdata s \/ may a (hdata t) -> polite Q (k t)) -> polite Q (GetN a k)
| pol_elem r i c k : nth_error (ha h0 r) i = Some c -> polite Q (k c) -> polite Q (GetA r i k)
| pol_type a s y k : hn h0 a = Some s -> y = N.lor (htype s) NTData -> polite Q k -> polite Q (UpdN a (w_type y) k)
| pol_data a s v k : hn h0 a = Some s -> may a v -> polite Q k -> polite Q (UpdN a (w_data v) k).

Lemma reads_polite {A B} (Q : B -> Prop) (x : A) p (q : A -> prog B) : reads h0 x p -> polite Q (q x) -> polite Q (seqp p q).
Proof.
  intros R C. induction R as [|a s k E _ IH|r i c k E _ IH]; cbn [seqp]; auto.
  - apply pol_node with s; auto using alike_same.
  - apply pol_elem with c; auto.
Qed.
Lemma calm_polite {A B} (Q : B -> Prop) l (p : prog A) (q : A -> prog B) : calm h0 may l p -> (forall x, polite Q (q x)) -> polite Q (seqp p q).
Proof.
  intros C H. induction C as [x|l a s k E _ IH|l r i c k E _ IH|l a s y k E Y _ IH|l l1 a s v k E M I _ IH]; cbn [seqp]; auto.
  - apply pol_node with s; auto.
  - apply pol_elem with c; auto.
  - apply pol_type with s; auto.
  - apply pol_data with s; auto.
Qed.
Lemma access_polite {A} Q (p : prog A) h p' h' : state h0 may h -> polite Q p -> access p h = Some (p', h') ->
  state h0 may h' /\ polite Q p'.
Proof.
  intros S C. destruct C as [x HQ|a s k E H|r i c k E H|a s y k E Y H|a s v k E M H]; cbn [access]; try discriminate.
  - destruct (st_node _ _ h S a s E) as (t & -> & AL & D). intros X. injection X as <- <-. auto.
  - rewrite (st_arr _ _ h S), E. intros X. injection X as <- <-. auto.
  - destruct (st_node _ _ h S a s E) as (t & Et & AL & D). rewrite Et. intros X. injection X as <- <-. split; [|exact H].
    constructor; cbn; [apply (st_arr _ _ h S)|apply (st_nn _ _ h S)| |].
    + intros b Eb. destruct (Nat.eqb_spec b a) as [->|N]; [congruence|now apply (st_none _ _ h S)].
    + intros b sb Eb. destruct (Nat.eqb_spec b a) as [->|N]; [|now apply (st_node _ _ h S)].
      assert (sb = s) as -> by congruence. eexists. split; [reflexivity|]. destruct AL as (A1 & A2 & A3 & A4 & A5 & A6 & _).
      split; [|exact D]. unfold alike. cbn. rewrite Y. auto 12.
  - destruct (st_node _ _ h S a s E) as (t & Et & AL & D). rewrite Et. intros X. injection X as <- <-. split; [|exact H].
    constructor; cbn; [apply (st_arr _ _ h S)|apply (st_nn _ _ h S)| |].
    + intros b Eb. destruct (Nat.eqb_spec b a) as [->|N]; [congruence|now apply (st_none _ _ h S)].
    + intros b sb Eb. destruct (Nat.eqb_spec b a) as [->|N]; [|now apply (st_node _ _ h S)].
      assert (sb = s) as -> by congruence. eexists. split; [reflexivity|]. split; [exact AL|]. right. exact M.
Qed.
Definition civil {A} (Qs : list (A -> Prop)) (ps : list (prog A)) (h : heap) : Prop :=
  state h0 may h /\ Forall2 polite Qs ps.
Lemma turn_civil {A} Qs (ps : list (prog A)) h i : civil Qs ps h -> civil Qs (fst (turn ps h i)) (snd (turn ps h i)).
Proof.
  intros [S F]. unfold turn. destruct (nth_error ps i) as [p|] eqn:E; [|split; auto].
  destruct (access p h) as [[p' h']|] eqn:AC; [|split; auto]. cbn [fst snd].
  assert (EX : exists Q, nth_error Qs i = Some Q /\ polite Q p).
  { clear -F E. revert i E. induction F as [|l p0 ls ps H F IH]; intros [|i] E; cbn in *; try discriminate.
    - injection E as ->. eauto.
    - apply IH. exact E. }
  destruct EX as (Q & EQ & C). destruct (access_polite Q p h p' h' S C AC) as (S' & C').
  split; [exact S'|]. apply Forall2_put; auto. intros a b Ea Eb _. assert (a = Q) as -> by congruence. exact C'.
Qed.
Lemma schedule_civil {A} sch : forall Qs (ps : list (prog A)) h, civil Qs ps h ->
  civil Qs (fst (schedule sch ps h)) (snd (schedule sch ps h)).
Proof.
  unfold schedule. induction sch as [|i sch IH]; intros Qs ps h F; [exact F|]. cbn [fold_left fst snd].
  pose proof (turn_civil Qs ps h i F) as T. destruct (turn ps h i) as [ps1 h1]. now apply IH.
Qed.
End Polite.

(** ** Query *)
(** what Query may give if the search finds [r]: the value may be one that is written meanwhile *)
Definition answers (may : nat -> gval -> Prop) (d : rune) (r : Trie.sres) (q : qres) : Prop :=
  let q0 := query_of d r in
  q_branch q = q_branch q0 /\ q_found q = q_found q0 /\ q_kv q = q_kv q0 /\
  (q_data q = q_data q0 \/
   exists n, Trie.s_node r = Some n /\ Trie.s_partial r = false /\ (q_data q = ndata n \/ may (nid n) (q_data q))).

Lemma land_lor_data x m : N.land m NTData = 0%N -> N.land (N.lor x NTData) m = N.land x m.
Proof. intros H. rewrite N.land_lor_distr_l, (N.land_comm NTData), H. apply N.lor_0_r. Qed.
Lemma alike_branch a b s t : alike s t -> isBranch (view a t) = isBranch (view b s).
Proof.
  intros (_ & _ & _ & _ & _ & _ & T). unfold isBranch, view. cbn [ntype]. destruct T as [->| ->]; auto.
  rewrite land_lor_data; auto.
Qed.
Lemma query_polite h0 may rf h R nx dep p r : hwf h0 -> repr h0 R -> depth R <= dep ->
  search rf h (Tr R nx) (full h p) = Ok r ->
  polite h0 may (answers may (hdelim h) r) (p_query rf dep h (nid R) p).
Proof.
  intros W RR D S. unfold p_query. eapply reads_polite; [apply search_reads with (nx := nx); eauto|].
  unfold answers, query_of. unfold sids. cbn [hs_node hs_partial hs_kv].
  destruct (Trie.s_node r) as [n|] eqn:N; cbn [option_map]; [|constructor; cbn; auto].
  destruct (Trie.s_partial r); [constructor; cbn; auto|].
  pose proof (sub_repr _ _ _ RR (search_child _ _ _ _ _ _ _ S N)) as Rn. apply repr_eq in Rn. destruct Rn as [(s & E & Ft & _) _].
  destruct Ft as (P1 & P2 & P3 & P4 & P5 & P6 & P7).
  assert (BR : isBranch (view (nid n) s) = isBranch n) by (unfold isBranch, view; cbn; now rewrite P7).
  assert (EN : forall t, same s t -> endsWith (view (nid n) t) (hdelim h) = endsWith n (hdelim h))
    by (intros t (T & _); unfold endsWith, view; cbn; now rewrite T, P1).
  apply pol_node with s; auto. intros t1 A1 _. rewrite (alike_branch _ (nid n) s t1 A1), BR.
  assert (X : reads h0 (if isBranch n then endsWith n (hdelim h) else true)
     (if isBranch n then GetN (nid n) (fun n2 => Ret (endsWith (view (nid n) n2) (hdelim h))) else Ret true)).
  { destruct (isBranch n); [|constructor]. apply reads_node with s; auto. intros t2 A2. rewrite EN; auto. constructor. }
  eapply reads_polite; [exact X|]. apply pol_node with s; auto. intros t3 A3 _.
  destruct (hasData (view (nid n) t3)) eqn:HD.
  - apply pol_node with s; auto. intros t4 _ D4. constructor. cbn. repeat split. right. exists n. repeat split.
    destruct D4 as [->|M]; auto.
  - constructor. cbn. repeat split. left. replace (hasData n) with false; [reflexivity|].
    symmetry. unfold hasData, view in *. cbn in HD. rewrite <- P7. destruct A3 as (_ & _ & _ & _ & _ & _ & [T|T]); rewrite T in HD; auto.
    exfalso. rewrite N.land_lor_distr_l in HD. cbn in HD. apply negb_false_iff, N.eqb_eq in HD. apply N.lor_eq_0_iff in HD. destruct HD. discriminate.
Qed.
Lemma search_run h0 rf h R nx dep w r : hwf h0 -> repr h0 R -> depth R <= dep ->
  search rf h (Tr R nx) w = Ok r -> run (p_search rf dep h (nid R) w) h0 = Ok (h0, sids r).
Proof. intros W RR D S. apply reads_run. now apply search_reads with nx. Qed.
(** alone it gives what Query on the tree gives, and changes nothing *)
Lemma query_run h0 rf h R nx dep p q : hwf h0 -> repr h0 R -> depth R <= dep ->
  Query rf h (Tr R nx) p = Ok q -> run (p_query rf dep h (nid R) p) h0 = Ok (h0, q).
Proof.
  intros W RR D S. unfold Query in S. destruct (search rf h (Tr R nx) (full h p)) as [r| |] eqn:SE; cbn [bind] in S; try discriminate.
  injection S as <-. unfold p_query. rewrite run_seq.
  rewrite (reads_run h0 (sids r)) by (apply search_reads with (nx := nx); auto).
  unfold query_of, sids. cbn [hs_node hs_partial hs_kv].
  destruct (Trie.s_node r) as [n|] eqn:N; cbn [option_map]; [|reflexivity].
  destruct (Trie.s_partial r); [reflexivity|].
  pose proof (sub_repr _ _ _ RR (search_child _ _ _ _ _ _ _ SE N)) as Rn. apply repr_eq in Rn. destruct Rn as [(s & E & Ft & _) _].
  destruct Ft as (P1 & P2 & P3 & P4 & P5 & P6 & P7). cbn [run]. rewrite E. unfold isBranch, hasData, endsWith, view. cbn [ntype npath].
  rewrite P7. destruct (N.land (ntype n) NTMask =? NTBranch)%N; cbn [seqp run]; rewrite ?E; cbn [seqp run ntype npath]; rewrite ?E, ?P7, ?P1;
    destruct (negb _); cbn [run]; rewrite ?E, ?P3; reflexivity.
Qed.

(** ** goroutines that read while others overwrite *)
Lemma Forall2_nth_error' {A B} (P : A -> B -> Prop) l r i b : Forall2 P l r -> nth_error r i = Some b -> exists a, nth_error l i = Some a /\ P a b.
Proof.
  intros F. revert i. induction F as [|x y l r H F IH]; intros [|i] E; cbn in *; try discriminate; [|auto].
  injection E as <-. eauto.
Qed.
Inductive answer := Wrote | Got (q : qres).
Section Jobs.
Variable grow : nat -> nat.
Variable rf : nat.
Definition writer (rt : nat) (job : list (gostring * gval)) : prog answer := let* _ := p_sets grow rt job in Ret Wrote.
Definition reader (dep rt : nat) (g : hdl * gostring) : prog answer := let* q := p_query rf dep (fst g) rt (snd g) in Ret (Got q).

Lemma polite_got h0 may (Q : qres -> Prop) p : polite h0 may Q p -> polite h0 may (fun x => exists q, x = Got q /\ Q q) (let* q := p in Ret (Got q)).
Proof.
  intros P. induction P as [x HQ|a s k E _ IH|r i c k E _ IH|a s y k E Y _ IH|a s v k E M _ IH]; cbn [seqp].
  - constructor. eauto.
  - apply pol_node with s; auto.
  - apply pol_elem with c; auto.
  - apply pol_type with s; auto.
  - apply pol_data with s; auto.
Qed.
Lemma race_get h0 R nx jobs gets dep sch : tree_in h0 R -> depth R <= dep ->
  (forall job k v, In job jobs -> In (k, v) job -> exists a, key_at R k a) ->
  (forall h p, In (h, p) gets -> exists r, search rf h (Tr R nx) (full h p) = Ok r) ->
  let (ps, m) := schedule sch (map (writer (nid R)) jobs ++ map (reader dep (nid R)) gets) h0 in
  (exists R', repr m R' /\ map shape (ents [] R') = map shape (ents [] R)) /\
  (forall p, In p ps -> p <> Die /\ p <> Spin) /\
  (forall i h p r x, nth_error gets i = Some (h, p) -> search rf h (Tr R nx) (full h p) = Ok r ->
     nth_error ps (length jobs + i) = Some (Ret x) -> exists q, x = Got q /\ answers (some_set jobs R) (hdelim h) r q).
Proof.
  intros T D H G. pose proof T as (W & RR & _). set (may := some_set jobs R).
  set (Qg := fun (g : hdl * gostring) (x : answer) => exists q, x = Got q /\
     forall r, search rf (fst g) (Tr R nx) (full (fst g) (snd g)) = Ok r -> answers may (hdelim (fst g)) r q).
  assert (F : Forall2 (polite h0 may) (map (fun _ _ => True) jobs ++ map Qg gets)
     (map (writer (nid R)) jobs ++ map (reader dep (nid R)) gets)).
  { apply Forall2_app.
    - assert (Y : forall js, incl js jobs -> Forall2 (polite h0 may) (map (fun _ _ => True) js) (map (writer (nid R)) js)); [|apply Y, incl_refl].
      induction js as [|j js IH]; intros I; cbn; constructor.
      + destruct (sets_calm grow h0 may R j T) as (l & C & O).
        { intros k v Hin. destruct (H j k v (I j (or_introl eq_refl)) Hin) as [a Ha]. exists a. split; [exact Ha|].
          exists j, k. split; [apply I; now left|]. auto. }
        unfold writer. eapply calm_polite; [exact C|]. intros. constructor. exact Logic.I.
      + apply IH. intros x Hx. apply I. now right.
    - induction gets as [|[h p] gs IH]; cbn; constructor.
      + destruct (G h p (or_introl eq_refl)) as [r Er]. unfold reader. cbn [fst snd].
        pose proof (polite_got _ _ _ _ (query_polite h0 may rf h R nx dep p r W RR D Er)) as P.
        assert (MONO : forall A (Q Q' : A -> Prop) q, (forall x, Q x -> Q' x) -> polite h0 may Q q -> polite h0 may Q' q).
        { clear. intros A Q Q' q I P. induction P as [x HQ|a s k E _ IH|r i c k E _ IH|a s y k E Y _ IH|a s v k E M _ IH].
          - constructor. auto.
          - apply pol_node with s; auto.
          - apply pol_elem with c; auto.
          - apply pol_type with s; auto.
          - apply pol_data with s; auto. }
        eapply MONO; [|exact P]. intros x (q & -> & Hq). exists q. split; auto. cbn [fst snd]. intros r' E'. assert (r' = r) as -> by congruence. exact Hq.
      + apply IH. intros h1 p1 Hin. apply G. now right. }
  assert (C : civil h0 may (map (fun _ _ => True) jobs ++ map Qg gets) (map (writer (nid R)) jobs ++ map (reader dep (nid R)) gets) h0)
    by (split; [apply state_refl|exact F]).
  apply schedule_civil with (sch := sch) in C. destruct (schedule sch _ h0) as [ps m]. cbn [fst snd] in C. destruct C as [S F'].
  split; [|split].
  - exists (reload m R). split; [now apply reload_repr with (2 := S)|apply reload_shape].
  - intros p Hp. clear -F' Hp. induction F' as [|Q q Qs ps Hq F IH]; [easy|]. destruct Hp as [->|Hp]; [|now apply IH].
    split; intros ->; inversion Hq.
  - intros i h p r x Hi Es Hx. apply Forall2_nth_error' with (i := length jobs + i) (b := Ret x) in F'; auto.
    destruct F' as (Q & HQ & P). rewrite nth_error_app2 in HQ by (rewrite map_length; lia). rewrite map_length in HQ.
    replace (length jobs + i - length jobs) with i in HQ by lia. rewrite nth_error_map, Hi in HQ. injection HQ as <-.
    inversion P as [y (q & -> & Hq)| | | |]; subst. exists q. split; auto.
Qed.
End Jobs.

Lemma race_get_key grow rf D h0 t jobs gets dep sch : tree_in h0 (root t) -> plain_reach D t -> depth (root t) <= dep ->
  (forall job k v, In job jobs -> In (k, v) job -> exists a, key_at (root t) k a) ->
  (forall h p, In (h, p) gets -> D (hdelim h)) ->
  let (ps, m) := schedule sch (map (writer grow (nid (root t))) jobs ++ map (reader (S rf) dep (nid (root t))) gets) h0 in
  (forall p, In p ps -> p <> Die /\ p <> Spin) /\
  (forall i h p a x, nth_error gets i = Some (h, p) -> t_get t (runes (full h p)) = Some a ->
     nth_error ps (length jobs + i) = Some (Ret x) -> exists q, x = Got q /\
     q_branch q = negb (a_leaf a) /\ q_found q = (a_leaf a || ends_with (hdelim h) (runes (full h p))) /\
     (q_data q = (if a_has a then a_data a else GNil) \/ q_data q = a_data a \/
      exists job k, In job jobs /\ In (k, q_data q) job /\ runes k = runes (full h p))).
Proof.
  intros T PR DP H DG. destruct (plain_reach_inv D t PR) as [WT PA].
  assert (SR : forall h p, In (h, p) gets -> exists r, search (S rf) h (Tr (root t) (next t)) (full h p) = Ok r).
  { intros h p Hin. destruct (plain_reach_search D rf h t (full h p) PR (DG h p Hin)) as (r & E & _).
    exists r. destruct t. exact E. }
  pose proof (race_get grow (S rf) h0 (root t) (next t) jobs gets dep sch T DP H SR) as RG.
  destruct (schedule sch _ h0) as [ps m]. destruct RG as (_ & ND & G). split; [exact ND|].
  intros i h p a x Hi Ha Hx. pose proof (nth_error_In _ _ Hi) as Hin.
  destruct (plain_reach_search D rf h t (full h p) PR (DG h p Hin)) as (r & E & SO & _).
  assert (E' : search (S rf) h (Tr (root t) (next t)) (full h p) = Ok r) by (destruct t; exact E).
  destruct (G i h p r x Hi E' Hx) as (q & -> & (A1 & A2 & A3 & A4)). exists q. split; [reflexivity|].
  destruct (query_present D rf h t p a PR (DG h p Hin) Ha) as (q0 & EQ & Q1 & Q2 & Q3).
  unfold Query in EQ. rewrite E in EQ. cbn [bind] in EQ. injection EQ as <-.
  split; [congruence|]. split; [congruence|].
  rewrite search_mem in SO by (right; apply smem_sget; exists a; exact Ha).
  destruct SO as (n & Hn & _ & Sn & _).
  assert (AN : a_data a = ndata n).
  { unfold t_get in Ha. rewrite <- (abs_entries t) in Ha.
    assert (L : look (root t) (runes (full h p)) = Some (info_of n)).
    { apply look_in; [apply (proj1 WT)|]. unfold ients. apply in_map_iff. exists (runes (full h p), n). auto. }
    rewrite L in Ha. injection Ha as <-. reflexivity. }
  destruct A4 as [A4|(n' & N1 & _ & A4)]; [left; congruence|]. assert (n' = n) as -> by congruence.
  destruct A4 as [A4|(job & k & J1 & J2 & (mk & K1 & K2))]; [right; left; congruence|].
  right. right. exists job, k. split; [exact J1|]. split; [exact J2|].
  destruct (ids_inj (next t) (ients [] (root t)) (runes k) (info_of mk) (runes (full h p)) (info_of n)) as [X _]; auto; [apply WT| |].
  - unfold ients. apply in_map_iff. exists (runes k, mk). auto.
  - unfold ients. apply in_map_iff. exists (runes (full h p), n). auto.
Qed.

(** ** Get of a key while another goroutine sets another key *)
From Coq Require Import String.
Definition apple : gostring := s2b "apple"%string.
Definition h_apple : heap := match run (p_sets no_room 0 [(apple, GStr [49%N])]) newHeap with Ok (h, _) => h | _ => newHeap end.
Definition get_and_set : list (prog answer) :=
  [writer no_room 0 [(s2b "apricot"%string, GStr [50%N])]; reader 1 3 0 (defaultHdl, apple)].
(** the reader takes [a] steps, then the writer [b], then the reader goes on *)
Definition in_turn (a b : nat) : list nat := repeat 1 a ++ repeat 0 b ++ repeat 1 40.
Definition outcome (sch : list nat) : option (prog answer) := nth_error (fst (schedule sch get_and_set h_apple)) 1.
Lemma get_alone : outcome (in_turn 0 0) = Some (Ret (Got (QRes (GStr [49%N]) false true []))) /\
  outcome (in_turn 0 30) = Some (Ret (Got (QRes (GStr [49%N]) false true []))).
Proof. split; vm_compute; reflexivity. Qed.
Lemma get_misses : outcome (in_turn 0 8) = Some (Ret (Got (QRes GNil false false []))).
Proof. vm_compute. reflexivity. Qed.
Lemma get_panics : outcome (in_turn 6 8) = Some Die.
Proof. vm_compute. reflexivity. Qed.
Lemma get_nil : outcome (in_turn 12 23) = Some (Ret (Got (QRes GNil false true []))).
Proof. vm_compute. reflexivity. Qed.
