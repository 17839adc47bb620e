(** How many memory accesses a lookup makes: bounded by the length of the key and the number of siblings, whatever else is
    in the tree. *)
From Coq Require Import List NArith Bool Arith Lia.
From Verif Require Import GoStr Utf8 Node NodeWf InsertProofs MatchProofs Trie TreeOps Spec Refine Climb ApiRefine Reach Effect
  Derived Derived2 Derived3 Derived4 Derived5 Heap HeapProofs HeapWalk HeapRace HeapGet HeapGetProofs.
Import ListNotations.
Open Scope nat_scope.

(** the accesses of a program that runs alone *)
Fixpoint accesses {A} (p : prog A) (h : heap) : nat :=
  match p with
  | Ret _ | Die | Spin => 0
  | GetN a k => S match hn h a with Some n => accesses (k n) h | None => 0 end
  | UpdN a f k => S match hn h a with Some n => accesses k (set_node h a (f n)) | None => 0 end
  | NewN n k => S (accesses (k (nn h)) (new_node h n))
  | GetA r i k => S match nth_error (ha h r) i with Some x => accesses (k x) h | None => 0 end
  | SetA r i x k => S (if i <? length (ha h r) then accesses k (set_arr h r (put (ha h r) i x)) else 0)
  | CapA r k => S (accesses (k (length (ha h r))) h)
  | NewA l k => S (accesses (k (na h)) (new_arr h l))
  end.
(** every node has at most [F] children *)
Definition fan (F : nat) (n : node) : Prop := Forall (fun m => length (nkids m) <= F) (walk n).

Lemma accesses_seq {A B} (p : prog A) (q : A -> prog B) : forall h h' x, run p h = Ok (h', x) ->
  accesses (seqp p q) h = accesses p h + accesses (q x) h'.
Proof.
  induction p as [y| | |a k IH|a f k IH|n k IH|r i k IH|r i y k IH|r k IH|l k IH]; intros h h' x; cbn [run seqp accesses];
    try discriminate.
  - intros E. injection E as -> ->. reflexivity.
  - destruct (hn h a); [|discriminate]. intros E. now rewrite (IH _ _ _ _ E).
  - destruct (hn h a); [|discriminate]. intros E. now rewrite (IH _ _ _ E).
  - intros E. now rewrite (IH _ _ _ _ E).
  - destruct (nth_error _ i); [|discriminate]. intros E. now rewrite (IH _ _ _ _ E).
  - destruct (i <? _); [|discriminate]. intros E. now rewrite (IH _ _ _ E).
  - intros E. now rewrite (IH _ _ _ _ E).
  - intros E. now rewrite (IH _ _ _ _ E).
Qed.

Section Cost.
Variable h0 : heap.
Hypothesis W : hwf h0.
(** the program reads only, ends with [x] and makes at most [c] accesses *)
Definition paid {A} (c : nat) (x : A) (p : prog A) : Prop := run p h0 = Ok (h0, x) /\ accesses p h0 <= c.
Lemma paid_ret {A} (x : A) c : paid c x (Ret x).
Proof. split; [reflexivity|cbn; lia]. Qed.
Lemma paid_node {A} (x : A) c a s k : hn h0 a = Some s -> paid c x (k s) -> paid (S c) x (GetN a k).
Proof. intros E [R C]. split; cbn [run accesses]; rewrite E; [exact R|lia]. Qed.
Lemma paid_elem {A} (x : A) c r i y k : nth_error (ha h0 r) i = Some y -> paid c x (k y) -> paid (S c) x (GetA r i k).
Proof. intros E [R C]. split; cbn [run accesses]; rewrite E; [exact R|lia]. Qed.
Lemma paid_seq {A B} (x : A) (y : B) c e p q : paid c x p -> paid e y (q x) -> paid (c + e) y (seqp p q).
Proof.
  intros [R C] [R1 C1]. split; [now rewrite run_seq, R|]. rewrite (accesses_seq p q _ _ _ R). lia.
Qed.
Lemma paid_le {A} (x : A) c e p : paid c x p -> c <= e -> paid e x p.
Proof. intros [R C] L. split; auto. lia. Qed.

Lemma scan_paid a s d : hn h0 a = Some s -> forall k word i lrd,
  k = Nat.min (length (hpath s) - i) (length word) ->
  exists c, paid (Nat.min k (S (length (lcp word (skipn i (hpath s))))))
    (i + length (lcp word (skipn i (hpath s))), lrd_end d lrd (lcp word (skipn i (hpath s))), c) (p_scan a d word i k lrd) /\
    (length (lcp word (skipn i (hpath s))) < k -> c = nth (i + length (lcp word (skipn i (hpath s)))) (hpath s) 0%N).
Proof.
  intros E. induction k as [|k IH]; intros word i lrd K; cbn [p_scan].
  - assert (lcp word (skipn i (hpath s)) = []) as ->.
    { destruct word as [|w word]; [reflexivity|]. destruct (skipn i (hpath s)) as [|x t] eqn:S; [reflexivity|].
      assert (length (skipn i (hpath s)) = Datatypes.S (length t)) as L by now rewrite S. rewrite skipn_length in L. cbn in K. lia. }
    exists 0%N. cbn [length]. rewrite Nat.add_0_r. split; [apply paid_ret|lia].
  - destruct word as [|w word]; [cbn in K; lia|]. cbn [length] in K.
    destruct (nth_error (hpath s) i) as [c|] eqn:N.
    2: { apply nth_error_None in N. lia. }
    assert (S : skipn i (hpath s) = c :: skipn (S i) (hpath s)).
    { clear -N. revert i N. generalize (hpath s). induction l as [|x l IH]; intros [|i] N; cbn in *; try discriminate; [congruence|auto]. }
    rewrite S. cbn [lcp]. rewrite (N.eqb_sym w c). destruct (c =? w)%N eqn:C; cbn [length lrd_end fold_left].
    + destruct (IH word (Datatypes.S i) (c =? d)%N) as (c' & P & Q); [lia|]. exists c'.
      apply N.eqb_eq in C. subst w. rewrite <- plus_n_Sm. split; [|intros L; apply Q; lia].
      eapply paid_le; [eapply paid_node; [exact E|]|].
      * rewrite N. rewrite N.eqb_refl. exact P.
      * lia.
    + exists c. rewrite Nat.add_0_r. split; [|intros _; symmetry; now apply nth_error_nth].
      eapply paid_le; [eapply paid_node; [exact E|]|].
      * rewrite N, C. apply (paid_ret _ 0).
      * cbn. lia.
Qed.
Lemma after_paid d a s l wl parent src mt pt : hn h0 a = Some s -> l = length (hpath s) ->
  exists x, paid 1 x (p_after d a l wl parent src mt pt).
Proof.
  intros E ->. unfold p_after. cbv zeta. destruct (S src =? length (hpath s)) eqn:S; [|eexists; apply paid_ret].
  apply Nat.eqb_eq in S. destruct (nth_error (hpath s) src) as [c|] eqn:N; [|apply nth_error_None in N; lia].
  eexists. eapply paid_node; [exact E|]. rewrite N. apply paid_ret.
Qed.

(** what a search below a node with a fragment costs *)
Definition price (F k : nat) : nat := S k * (4 * F + 6).

Variables (rf : nat) (d : rune) (F : nat).

Lemma match_paid : forall n pre fuel word parent kv,
  repr h0 n -> wfn n -> plain_tree d pre n -> fan F n -> depth n <= fuel ->
  (exists x, paid (price F (length word) + (if is_nil (npath n) then 4 * F + 6 else 0)) x
     (p_matchR (S rf) fuel d (nid n) word (lrd_end d false pre) parent kv)) /\
  (forall c w, word = c :: w -> npath n <> [] -> fst_rune n <> Some c ->
   exists x, paid 3 x (p_matchR (S rf) fuel d (nid n) word (lrd_end d false pre) parent kv)).
Proof.
  induction n as [n IH] using node_ind'. intros pre fuel word parent kv R WF PT FN D.
  pose proof R as R0. apply repr_eq in R. destruct R as [(s & E & Ft & K) Rk]. pose proof Ft as (P1 & _).
  pose proof (kids_len h0 _ s _ W E K) as KL. rewrite map_length in KL.
  destruct fuel as [|fuel]; [destruct n; cbn in D; lia|]. cbn [p_matchR].
  destruct (length word =? 0) eqn:WL.
  { split.
    - eexists. eapply paid_le; [eapply paid_node; [exact E|]; apply (paid_ret _ 0)|]. unfold price. lia.
    - intros c w -> _ _. discriminate. }
  apply Nat.eqb_neq in WL.
  pose proof (scan_paid (nid n) s d E (Nat.min (length (npath n)) (length word)) word 0 (lrd_end d false pre)) as SC.
  cbn [skipn] in SC. rewrite P1, Nat.sub_0_r in SC. destruct (SC eq_refl) as (ch & PS & CH). clear SC. cbn [plus] in PS, CH.
  destruct (lcp_split word (npath n)) as (x & y & Ex & Ey & Hd). set (p0 := lcp word (npath n)) in *.
  assert (Lw : length word = length p0 + length x) by (rewrite Ex at 1; apply app_length).
  assert (Ls : length (npath n) = length p0 + length y) by (rewrite Ey at 1; apply app_length).
  destruct (length p0 <? Nat.min (length (npath n)) (length word)) eqn:BR.
  - (* a rune differs *)
    apply Nat.ltb_lt in BR. destruct y as [|y0 y]; [cbn in Ls; lia|].
    destruct (mismatch_plain d pre n p0 y0 y PT Ey) as [NP NT].
    match goal with |- (exists x, paid _ x ?p) /\ _ => assert (G : exists x, paid (3 + length p0) x p) end.
    { eexists. eapply paid_le.
      - eapply paid_node; [exact E|]. rewrite P1. eapply paid_seq; [exact PS|]. cbn beta iota.
        rewrite (proj2 (Nat.ltb_lt _ _) BR). eapply paid_seq.
        + eapply paid_node; [exact E|]. rewrite retriever_plain; [apply (paid_ret _ 0)|].
          rewrite (CH BR), NT. exact NP.
        + cbn [hexit_of]. apply (paid_ret _ 0).
      - lia. }
    destruct G as [r G]. split.
    + exists r. eapply paid_le; [exact G|]. unfold price. lia.
    + intros c w -> Ne Fr. exists r. eapply paid_le; [exact G|]. unfold fst_rune in Fr.
      destruct (npath n) as [|c' q]; [congruence|]. unfold p0. cbn [lcp]. cbn [hd_error] in Fr.
      destruct (N.eqb_spec c c') as [->|]; [congruence|]. cbn. lia.
  - (* the fragment agrees *)
    apply Nat.ltb_ge in BR. split.
    2: { intros c w -> Ne Fr. exfalso. unfold fst_rune in Fr.
         destruct (npath n) as [|c' q]; [congruence|]. unfold p0 in BR. cbn [lcp hd_error] in *.
         destruct (N.eqb_spec c c') as [->|]; [congruence|]. cbn in BR. lia. }
    destruct (after_paid d (nid n) s (length (npath n)) (length word) parent (length p0) false false E ltac:(congruence))
      as ([[[ma pa] chd] par] & PA).
    assert (HD : Nat.min (length (npath n)) (length word) = length p0) by lia.
    destruct (length p0 <? length word) eqn:LT.
    2: { eexists. eapply paid_le.
      - eapply paid_node; [exact E|]. rewrite P1. eapply paid_seq; [exact PS|]. cbn beta iota.
        rewrite (proj2 (Nat.ltb_ge _ _) BR). eapply paid_seq; [apply (paid_ret _ 0)|]. cbn beta iota.
        eapply paid_seq; [exact PA|]. cbn beta iota. rewrite HD, LT. apply (paid_ret _ 0).
      - unfold price. lia. }
    apply Nat.ltb_lt in LT.
    assert (y = []) as ->.
    { destruct y; auto. cbn [length] in Ls. lia. }
    rewrite app_nil_r in Ey. rewrite Nat.add_0_r in Ls.
    set (rest := skipn (length p0) word).
    assert (Er : rest = x).
    { unfold rest. rewrite Ex at 1. rewrite skipn_app, skipn_all, Nat.sub_diag. reflexivity. }
    destruct x as [|x0 x]; [cbn in Lw; lia|].
    set (lrd2 := lrd_end d (lrd_end d false pre) p0).
    assert (El : lrd2 = lrd_end d false (pre ++ npath n)).
    { unfold lrd2. rewrite <- lrd_end_app. now rewrite Ey. }
    set (go := fun (c : nat) (kv : kvs) => p_matchR (S rf) fuel d c rest lrd2 (Some (nid n)) kv).
    assert (Bk : length (nkids n) <= F).
    { unfold fan in FN. rewrite Forall_forall in FN. apply FN. destruct n. now left. }
    assert (LP : forall ks pre0 last, nkids n = pre0 ++ ks ->
      (exists r, paid (4 * length ks + price F (length rest)) r (p_each go (sl_arr (hkids s)) (length pre0) (length ks) last)) /\
      ((forall k, In k ks -> fst_rune k <> Some x0) ->
       exists r, paid (4 * length ks) r (p_each go (sl_arr (hkids s)) (length pre0) (length ks) last))).
    { unfold kids_of in K. rewrite KL in K. rewrite Forall_forall in IH, Rk.
      induction ks as [|k ks IHk]; intros pre0 last Ek; cbn [length p_each].
      { split; [|intros _]; eexists; apply paid_ret. }
      assert (NE : nth_error (ha h0 (sl_arr (hkids s))) (length pre0) = Some (nid k)).
      { rewrite <- (firstn_skipn (length (nkids n)) (ha h0 (sl_arr (hkids s)))), K, Ek, map_app, <- app_assoc.
        rewrite nth_error_app2 by (rewrite map_length; lia). rewrite map_length, Nat.sub_diag. reflexivity. }
      assert (Hk : In k (nkids n)) by (rewrite Ek; apply in_app_iff; right; now left).
      pose proof (depth_kid _ _ Hk). destruct (wfn_kids _ _ WF Hk) as [Ne Wk].
      assert (FK : fan F k).
      { unfold fan in *. rewrite Forall_forall in FN |- *. intros m Hm. apply FN. destruct n. cbn [walk]. right.
        apply in_flat_map. eauto. }
      destruct (IH k Hk (pre ++ npath n) fuel rest (Some (nid n)) (hm_kv last) (Rk k Hk) Wk
                  (plain_tree_kid _ _ _ _ PT Hk) FK ltac:(lia)) as [(r1 & B1) B2].
      rewrite <- El in B1, B2.
      replace (is_nil (npath k)) with false in B1 by (now destruct (npath k)). rewrite Nat.add_0_r in B1.
      specialize (IHk (pre0 ++ [k])). rewrite app_length in IHk. cbn [length] in IHk. rewrite Nat.add_1_r in IHk.
      assert (Go : forall c e r, paid c r (go (nid k) (hm_kv last)) ->
                   (exists r', paid e r' (p_each go (sl_arr (hkids s)) (S (length pre0)) (length ks) r)) ->
                   exists r', paid (S (c + e)) r' (GetA (sl_arr (hkids s)) (length pre0) (fun c =>
                     let* x := go c (hm_kv last) in
                     if hm_matched x || hm_partial x then Ret x else p_each go (sl_arr (hkids s)) (S (length pre0)) (length ks) x))).
      { intros c e r Pc (r' & Pe). destruct (hm_matched r || hm_partial r) eqn:M.
        - exists r. eapply paid_elem; [exact NE|]. eapply paid_seq; [exact Pc|]. cbn beta. rewrite M. apply paid_ret.
        - exists r'. eapply paid_elem; [exact NE|]. eapply paid_seq; [exact Pc|]. cbn beta. rewrite M. exact Pe. }
      assert (Dq : {fst_rune k = Some x0} + {fst_rune k <> Some x0}) by (decide equality; apply N.eq_dec).
      destruct Dq as [Eq|Nq].
      - split.
        + destruct (Go (price F (length rest)) (4 * length ks) r1 B1) as [r' P'].
          * destruct (IHk r1) as [_ Q]; [rewrite Ek, <- app_assoc; reflexivity|]. apply Q. intros k' Hk' Eq'.
            pose proof (wfn_nodup _ WF) as ND. rewrite Ek, map_app in ND. cbn [map] in ND. apply NoDup_remove_2 in ND.
            apply ND. rewrite Eq, <- Eq'. apply in_app_iff. right. now apply in_map.
          * exists r'. eapply paid_le; [exact P'|]. lia.
        + intros No. exfalso. exact (No k (or_introl eq_refl) Eq).
      - destruct (B2 x0 x Er Ne Nq) as [r2 B3]. destruct (IHk r2) as [Q1 Q2]; [rewrite Ek, <- app_assoc; reflexivity|].
        split.
        + destruct (Go 3 _ r2 B3 Q1) as [r' P']. exists r'. eapply paid_le; [exact P'|]. lia.
        + intros No. destruct (Go 3 _ r2 B3 (Q2 (fun k' Hk' => No k' (or_intror Hk')))) as [r' P'].
          exists r'. eapply paid_le; [exact P'|]. lia. }
    destruct (LP (nkids n) [] (HM ma pa chd par kv) eq_refl) as [(r & PL) _]. cbn [length] in PL.
    assert (G : exists r, paid (4 + length p0 + 4 * length (nkids n) + price F (length rest)) r (p_matchR (S rf) (S fuel) d (nid n) word (lrd_end d false pre) parent kv)).
    { cbn [p_matchR]. destruct (length (nkids n) =? 0) eqn:NK.
      - eexists. eapply paid_le.
        + eapply paid_node; [exact E|]. rewrite P1. replace (length word =? 0) with false by (symmetry; now apply Nat.eqb_neq).
          eapply paid_seq; [exact PS|]. cbn beta iota.
          rewrite (proj2 (Nat.ltb_ge _ _) BR). eapply paid_seq; [apply (paid_ret _ 0)|]. cbn beta iota.
          eapply paid_seq; [exact PA|]. cbn beta iota. rewrite HD, (proj2 (Nat.ltb_lt _ _) LT).
          eapply paid_node; [exact E|]. rewrite KL, NK. apply (paid_ret _ 0).
        + lia.
      - exists r. eapply paid_le.
        + eapply paid_node; [exact E|]. rewrite P1. replace (length word =? 0) with false by (symmetry; now apply Nat.eqb_neq).
          eapply paid_seq; [exact PS|]. cbn beta iota.
          rewrite (proj2 (Nat.ltb_ge _ _) BR). eapply paid_seq; [apply (paid_ret _ 0)|]. cbn beta iota.
          eapply paid_seq; [exact PA|]. cbn beta iota. rewrite HD, (proj2 (Nat.ltb_lt _ _) LT).
          eapply paid_node; [exact E|]. rewrite KL, NK. eapply paid_node; [exact E|]. rewrite KL.
          cbn [Nat.eqb]. exact PL.
        + lia. }
    cbn [p_matchR] in G. replace (length word =? 0) with false in G by (symmetry; now apply Nat.eqb_neq).
    destruct G as [r' G]. exists r'. eapply paid_le; [exact G|].
    rewrite Er. cbn [length]. rewrite Lw. cbn [length]. unfold price.
    destruct (npath n) as [|c q] eqn:EN.
    + cbn [is_nil]. assert (length p0 = 0) as -> by (rewrite <- Ey; reflexivity). cbn [plus]. nia.
    + cbn [is_nil]. assert (1 <= length p0) by (rewrite <- Ey; cbn; lia). nia.
Qed.

(** ** a lookup: one search for the path, and on a handle of BR() one for each shorter owner *)
Definition probe_price (k : nat) : nat := (2 + k) * (4 * F + 6).
Definition bill (words : list gostring) : nat := fold_right (fun w n => probe_price (length (runes w)) + n) 0 words.

Variable R : node.
Hypotheses (RR : repr h0 R) (WR : wfn R) (PR : plain_tree d [] R) (FR : fan F R).
Variable dep : nat.
Hypothesis DR : depth R <= dep.

Lemma probe_paid word kv : exists x, paid (probe_price (length word)) x (p_matchR (S rf) dep d (nid R) word false None kv).
Proof.
  destruct (match_paid R [] dep word None kv RR WR PR FR DR) as [(x & P) _]. exists x. eapply paid_le; [exact P|].
  unfold price, probe_price. destruct (is_nil (npath R)); nia.
Qed.
Lemma climb_paid : forall fuel segs kv, segs <> [] -> Forall (fun p => contains (enc1 d) p = false) segs -> length segs <= fuel ->
  exists x, paid (bill (map (fun a => join_str a (enc1 d)) (ups_of segs))) x
    (p_climb (S rf) dep fuel d (nid R) (join_str segs (enc1 d)) kv).
Proof.
  induction fuel as [|fuel IH]; intros segs kv Ne Fo L; [destruct segs; [congruence|cbn in L; lia]|].
  cbn [p_climb]. rewrite (split_join (enc1 d) segs (enc1_unbordered d) Ne Fo).
  destruct (2 <? length segs) eqn:LT; [|eexists; apply paid_ret].
  apply Nat.ltb_lt in LT. destruct (ups_step segs LT) as (U & La & Na & Fa). cbv zeta in *. rewrite U. cbn [map bill fold_right].
  set (a' := firstn (length segs - 2) segs ++ skipn (length segs - 1) segs) in *.
  destruct (probe_paid (runes (join_str a' (enc1 d))) kv) as [r P].
  destruct (IH a' (hm_kv r) Na (Fa _ Fo) ltac:(lia)) as [r' P'].
  destruct (hm_matched r || hm_partial r) eqn:M.
  - eexists. eapply paid_seq; [exact P|]. cbn beta. rewrite M. apply paid_ret.
  - exists r'. eapply paid_seq; [exact P|]. cbn beta. rewrite M. exact P'.
Qed.
Definition tries (h : hdl) (w : gostring) : list gostring := w :: match hmode h with ModeUp => s_ups (hdelim h) w | _ => [] end.
Lemma search_paid h w : hdelim h = d -> exists x, paid (bill (tries h w)) x (p_search (S rf) dep h (nid R) w).
Proof.
  intros Hd. unfold p_search, tries. cbv zeta. rewrite Hd. cbn [bill fold_right].
  destruct (probe_paid (runes w) []) as [r P].
  destruct (hm_matched r || hm_partial r) eqn:M.
  { eexists. eapply paid_seq; [exact P|]. cbn beta. rewrite M. apply paid_ret. }
  assert (G : exists x, paid (bill match hmode h with ModeUp => s_ups d w | _ => [] end) x
    match hmode h with
    | ModeUp => if contains (enc1 d) w then p_climb (S rf) dep (S (length w)) d (nid R) w (hm_kv r) else Ret (HS None None false (hm_kv r))
    | _ => Ret (HS None None false (hm_kv r))
    end).
  { destruct (hmode h); try (eexists; apply paid_ret). destruct (contains (enc1 d) w); [|eexists; apply paid_ret].
    assert (Ne : enc1 d <> []) by apply (enc1_unbordered d).
    destruct (join_split (enc1 d) w Ne) as [Fo J].
    assert (SL : length (split_str w (enc1 d)) <= S (length w)) by apply (split_length _ _ Ne).
    destruct (climb_paid (S (length w)) (split_str w (enc1 d)) (hm_kv r) (split_go_ne _ _ _ _) Fo SL) as [x Q].
    exists x. rewrite J in Q. unfold s_ups. unfold ups_of in Q. rewrite map_map in Q. exact Q. }
  destruct G as [x G]. exists x. eapply paid_seq; [exact P|]. cbn beta. rewrite M. exact G.
Qed.
End Cost.

(** Query of any path, in memory that holds the tree of a history without patterns *)
Theorem query_cost D h0 rf t h p dep F :
  plain_reach D t -> D (hdelim h) -> tree_in h0 (root t) -> fan F (root t) -> depth (root t) <= dep ->
  exists q, run (p_query (S rf) dep h (nid (root t)) p) h0 = Ok (h0, q) /\
    accesses (p_query (S rf) dep h (nid (root t)) p) h0 <= bill F (tries h (full h p)) + 4.
Proof.
  intros PR Hd TI FN DP. destruct (plain_reach_inv D t PR) as [WT PA].
  pose proof TI as (W & RR & _). pose proof (proj1 (proj2 (proj1 WT))) as WF.
  assert (PT : plain_tree (hdelim h) [] (root t)).
  { intros k Dk. apply (PA _ Hd). now apply (abs_dom _ _ WF (abs_entries t)). }
  destruct (search_paid h0 W rf (hdelim h) F (root t) RR WF PT FN dep DP h (full h p) eq_refl) as [r P].
  enough (exists q, paid h0 (bill F (tries h (full h p)) + 4) q (p_query (S rf) dep h (nid (root t)) p)) as (q & Q1 & Q2) by eauto.
  assert (AL : forall a, hs_node r = Some a -> exists s, hn h0 a = Some s).
  { intros a Ea. destruct (step_refines rf D h t (entries t) (OLocate p) Hd WT (abs_entries t) PA) as (t1 & E1 & _).
    cbn [t_step] in E1. unfold Locate in E1.
    destruct (search (S rf) h t (full h p)) as [r1| |] eqn:SE; cbn [bind] in E1; try discriminate.
    destruct t as [R nx]. cbn [root] in *.
    pose proof (search_reads h0 W (S rf) h R nx dep (full h p) r1 RR DP SE) as RD.
    apply reads_run in RD; auto. rewrite (proj1 P) in RD. injection RD as RD. subst r.
    cbn [sids hs_node] in Ea. destruct (Trie.s_node r1) as [c|] eqn:SN; [|discriminate]. cbn in Ea. injection Ea as <-.
    pose proof (search_child _ _ _ _ _ _ _ SE SN) as SU. pose proof (sub_repr _ _ _ RR SU) as Rn.
    apply repr_eq in Rn. destruct Rn as [(s & X & _) _]. eauto. }
  unfold p_query. destruct (hs_node r) as [a|] eqn:N.
  2: { eexists. eapply paid_seq; [exact P|]. cbn beta. rewrite N. apply paid_ret. }
  destruct (AL a eq_refl) as [s Es].
  destruct (hs_partial r) eqn:PP.
  { eexists. eapply paid_seq; [exact P|]. cbn beta. rewrite N, PP. apply paid_ret. }
  destruct (isBranch (view a s)) eqn:B, (hasData (view a s)) eqn:HD.
  all: eexists; eapply paid_seq; [exact P|]; cbn beta; rewrite N, PP; eapply paid_node; [exact Es|]; rewrite B.
  all: eapply paid_le; [eapply paid_seq; [first [eapply paid_node; [exact Es|]; apply (paid_ret _ _ 0)|apply (paid_ret _ _ 0)]|cbn beta]|].
  all: try (eapply paid_node; [exact Es|]; rewrite HD; first [eapply paid_node; [exact Es|]; apply (paid_ret _ _ 0)|apply (paid_ret _ _ 0)]).
  all: lia.
Qed.
Lemma bill_plus F ws c : bill F ws + c = fold_right (fun w n => (2 + length (runes w)) * (4 * F + 6) + n) c ws.
Proof. induction ws as [|w ws IH]; [reflexivity|]. cbn [bill fold_right] in *. unfold probe_price at 1. fold (bill F ws). rewrite <- IH. lia. Qed.
Theorem query_cost' D h0 rf t h p dep F :
  plain_reach D t -> D (hdelim h) -> tree_in h0 (root t) -> fan F (root t) -> depth (root t) <= dep ->
  exists q, run (p_query (S rf) dep h (nid (root t)) p) h0 = Ok (h0, q) /\
    accesses (p_query (S rf) dep h (nid (root t)) p) h0 <=
      fold_right (fun w n => (2 + length (runes w)) * (4 * F + 6) + n) 4 (tries h (full h p)).
Proof. rewrite <- bill_plus. apply query_cost. Qed.
Theorem query_cost_one D h0 rf t h p dep F :
  plain_reach D t -> D (hdelim h) -> tree_in h0 (root t) -> fan F (root t) -> depth (root t) <= dep -> hmode h <> ModeUp ->
  accesses (p_query (S rf) dep h (nid (root t)) p) h0 <= (2 + length (runes (full h p))) * (4 * F + 6) + 4.
Proof.
  intros PR Hd T FN DP M. destruct (query_cost' D h0 rf t h p dep F PR Hd T FN DP) as (q & _ & C).
  unfold tries in C. destruct (hmode h); try congruence; cbn [fold_right] in C; exact C.
Qed.
