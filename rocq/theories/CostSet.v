(** How many memory accesses Set makes. *)
From Coq Require Import List NArith Bool Arith Lia.
From Verif Require Import GoStr Utf8 Node NodeWf InsertProofs MatchProofs Trie TreeOps Refine Heap HeapProofs HeapWalk HeapRace Cost.
Import ListNotations.
Open Scope nat_scope.

Lemma accesses_le {A B} (p : prog A) (q : A -> prog B) c : forall h,
  (forall h' x, run p h = Ok (h', x) -> accesses (q x) h' <= c) -> accesses (seqp p q) h <= accesses p h + c.
Proof.
  induction p as [y| | |a k IH|a f k IH|n k IH|r i k IH|r i y k IH|r k IH|l k IH]; intros h H; cbn [run seqp accesses] in *;
    try lia.
  - now apply H.
  - destruct (hn h a); [|lia]. specialize (IH _ _ H). lia.
  - destruct (hn h a); [|lia]. specialize (IH _ H). lia.
  - specialize (IH _ _ H). lia.
  - destruct (nth_error _ i); [|lia]. specialize (IH _ _ H). lia.
  - destruct (i <? _); [|lia]. specialize (IH _ H). lia.
  - specialize (IH _ _ H). lia.
  - specialize (IH _ _ H). lia.
Qed.
Lemma read_cost r k : forall i h, accesses (p_read r i k) h <= k.
Proof.
  induction k as [|k IH]; intros i h; cbn [p_read accesses]; [lia|]. destruct (nth_error _ i); [|lia].
  pose proof (accesses_le (p_read r (S i) k) (fun l => Ret (n :: l)) 0 h (fun _ _ _ => le_n 0)). specialize (IH (S i) h). lia.
Qed.
Lemma append_cost grow s x h : accesses (p_append grow s x) h <= sl_len s + 2.
Proof.
  unfold p_append. cbn [accesses]. destruct (_ <? _); cbn [accesses].
  - destruct (_ <? _); lia.
  - match goal with |- S (accesses (seqp ?p ?q) h) <= _ =>
      pose proof (accesses_le p q 1 h (fun _ _ _ => le_n 1)); pose proof (read_cost (sl_arr s) (sl_len s) 0 h) end. lia.
Qed.
Lemma leaf_cost grow s word fp v h k :
  (forall n, hn h s = Some n -> sl_len (hkids n) <= k) -> s <> nn h -> accesses (p_leaf grow s word fp v) h <= k + 5.
Proof.
  intros H Ne. unfold p_leaf. cbn [accesses hn new_node]. replace (s =? nn h) with false by (symmetry; now apply Nat.eqb_neq).
  destruct (hn h s) as [n|] eqn:E; [|lia]. specialize (H n eq_refl).
  match goal with |- S (S (accesses (seqp ?p ?q) ?m)) <= _ =>
    pose proof (accesses_le p q 1 m); pose proof (append_cost grow (hkids n) (nn h) m) end.
  enough (X : forall h' x, run (p_append grow (hkids n) (nn h)) (new_node h (HN word fp (Sl 0 0) v [] [] GNil (N.lor NTLeaf NTData))) = Ok (h', x) ->
    accesses (UpdN s (w_kids x) (Ret (nn h))) h' <= 1) by (specialize (H0 X); lia).
  intros h' x _. cbn [accesses]. destruct (hn h' s); lia.
Qed.
Lemma split_cost s pos h : accesses (p_split s pos) h <= 11.
Proof.
  unfold p_split. cbn [accesses]. destruct (hn h s); [|lia]. cbn [accesses].
  destruct (hn (new_node _ _) s); [|lia]. destruct (_ <=? _); [|cbn; lia]. cbn [accesses].
  repeat match goal with |- context [match hn ?m s with Some _ => _ | None => 0 end] => destruct (hn m s); [cbn [accesses]|lia] end. lia.
Qed.
Lemma match_cost word r k : forall i h, accesses (p_match word r i k) h <= 2 * k.
Proof.
  induction k as [|k IH]; intros i h; cbn [p_match accesses]; [lia|]. destruct (nth_error _ i); [|lia]. cbn [accesses].
  destruct (hn h n) as [m|]; [|lia]. destruct (hpath m); [cbn; lia|]. destruct word; [cbn; lia|]. destruct (_ =? _)%N; [cbn; lia|].
  specialize (IH (S i) h). lia.
Qed.

Section Insert.
Variable grow : nat -> nat.
Variable h0 : heap.
Hypothesis W : hwf h0.
Variable F : nat.
Definition set_price (k : nat) : nat := S k * (2 * F + 2) + F + 20.

Lemma insert_cost fp v : forall n fuel word, repr h0 n -> wfn n -> fan F n ->
  accesses (p_insert grow fuel (nid n) word fp v) h0 <= set_price (length word) + (if is_nil (npath n) then 2 * F + 2 else 0).
Proof.
  induction n as [n IH] using node_ind'. intros fuel word R WF FN.
  destruct fuel as [|fuel]; [cbn; lia|]. cbn [p_insert].
  pose proof R as R0. apply repr_eq in R. destruct R as [(s & E & Ft & K) Rk]. pose proof Ft as (P1 & _).
  pose proof (kids_len h0 _ s _ W E K) as KL. rewrite map_length in KL.
  assert (Bk : length (nkids n) <= F).
  { unfold fan in FN. rewrite Forall_forall in FN. apply FN. destruct n. now left. }
  destruct (hwf_in h0 W _ _ E) as (Ln & _ & Ll).
  cbn [accesses]. rewrite E, P1, KL.
  assert (LF : forall word', accesses (p_leaf grow (nid n) word' fp v) h0 <= F + 5).
  { intros word'. apply leaf_cost; [|lia]. intros m Em. rewrite Em in E. injection E as ->. lia. }
  assert (ST : forall h' (x : nat), match hn h' (nid n) with Some b => accesses (UpdN (nid n) (w_type (N.lor (htype b) NTData))
            (GetN (nid n) (fun b' => UpdN (nid n) (w_data v) (Ret (x, hdata b', [(fp, hdata b', x)]))))) h' | None => 0 end <= 3).
  { intros h' x. destruct (hn h' (nid n)) eqn:X; [|lia]. cbn [accesses]. rewrite X. cbn [hn set_node accesses]. rewrite Nat.eqb_refl.
    lia. }
  unfold set_price.
  destruct (_ && (_ && _)).
  { match goal with |- S (accesses (seqp ?p ?q) h0) <= _ => pose proof (accesses_le p q 0 h0 (fun _ _ _ => le_n 0)) end.
    specialize (LF word). lia. }
  set (cpl := if (0 <? length (npath n)) && (0 <? length word) then cpl_len word (npath n) else 0).
  assert (CP : cpl = length (lcp word (npath n))).
  { unfold cpl. destruct (Nat.ltb_spec 0 (length (npath n))) as [L1|L1], (Nat.ltb_spec 0 (length word)) as [L2|L2]; cbn [andb];
      [apply cpl_len_length|..]; destruct word, (npath n); cbn [length] in *; try lia; reflexivity. }
  clearbody cpl.
  destruct (lcp_split word (npath n)) as (x & y & Ex & Ey & Hd). set (p0 := lcp word (npath n)) in *.
  assert (Lw : length word = length p0 + length x) by (rewrite Ex at 1; apply app_length).
  assert (Ls : length (npath n) = length p0 + length y) by (rewrite Ey at 1; apply app_length).
  assert (Er : (if 0 <? cpl then skipn cpl word else word) = x).
  { destruct (Nat.ltb_spec 0 cpl).
    - rewrite CP. rewrite Ex at 1. rewrite skipn_app, skipn_all, Nat.sub_diag. reflexivity.
    - assert (p0 = []) as Z by (destruct p0; auto; cbn in CP; lia). rewrite Z in Ex. exact Ex. }
  destruct (cpl <? length (npath n)) eqn:SP.
  - (* a split: it ends here *)
    apply Nat.ltb_lt in SP.
    match goal with |- S (accesses (seqp ?p ?q) h0) <= _ => pose proof (accesses_le p q 9 h0) as AL; pose proof (split_cost (nid n) cpl h0) end.
    enough (X : forall h' x0, run (p_split (nid n) cpl) h0 = Ok (h', x0) ->
      accesses (if cpl <? length word then
          GetN (nid n) (fun b =>
          let* m := p_match (if 0 <? cpl then skipn cpl word else word) (sl_arr (hkids b)) 0 (sl_len (hkids b)) in
          match m with
          | Some c =>
              let* r := p_insert grow fuel c (if 0 <? cpl then skipn cpl word else word) fp v in
              let '(id, old, calls) := r in Ret (id, old, calls ++ [(fp, old, id)])
          | None => let* x := p_leaf grow (nid n) (if 0 <? cpl then skipn cpl word else word) fp v in Ret (x, GNil, [(fp, GNil, x)])
          end)
        else
          GetN (nid n) (fun b => UpdN (nid n) (w_type (N.lor (htype b) NTData))
            (GetN (nid n) (fun b' => UpdN (nid n) (w_data v) (Ret (nid n, hdata b', [(fp, hdata b', nid n)]))))) ) h' <= 9)
      by (specialize (AL X); lia).
    intros h' [] RS. destruct (le_lt_dec (length (hpath s) - cpl) (length (hpathS s))) as [L|L].
    2: { rewrite (split_panic h0 (nid n) s cpl E L W) in RS. discriminate. }
    destruct (split_spec h0 (nid n) s cpl W E L) as (h1 & b & m & RS' & W1 & NN & Eb & Em & _ & _ & Kb & _ & _ & _ & _ & _ & Pm & _).
    rewrite RS in RS'. injection RS' as <-.
    pose proof (kids_len h' _ b _ W1 Eb Kb) as Kl. cbn in Kl.
    destruct (cpl <? length word) eqn:LT; cbn [accesses]; [|specialize (ST h' (nid n)); cbn [accesses] in ST; rewrite Eb in *; lia].
    rewrite Eb, Er, Kl. apply Nat.ltb_lt in LT.
    destruct x as [|x0 x]; [cbn in Lw; lia|]. destruct y as [|y0 y]; [cbn in Ls; lia|].
    unfold kids_of in Kb. rewrite Kl in Kb.
    assert (NE : nth_error (ha h' (sl_arr (hkids b))) 0 = Some (nn h0)).
    { destruct (ha h' (sl_arr (hkids b))); [discriminate|]. cbn in Kb. injection Kb as ->. reflexivity. }
    cbn [p_match seqp accesses]. rewrite NE. cbn [seqp accesses]. rewrite Em.
    assert (Pm' : hpath m = y0 :: y).
    { rewrite Pm, P1, CP. rewrite Ey at 1. rewrite skipn_app, skipn_all, Nat.sub_diag. reflexivity. }
    rewrite Pm'. replace (y0 =? x0)%N with false.
    2: { symmetry. apply N.eqb_neq. intros ->. cbn in Hd. congruence. }
    cbn [seqp].
    match goal with |- S (S (S (accesses (seqp ?p ?q) h'))) <= _ => pose proof (accesses_le p q 0 h' (fun _ _ _ => le_n 0)) end.
    pose proof (leaf_cost grow (nid n) (x0 :: x) fp v h' 1). 
    assert (Y1 : forall z, hn h' (nid n) = Some z -> sl_len (hkids z) <= 1) by (intros z Ez; rewrite Eb in Ez; injection Ez as ->; lia).
    assert (Y2 : nid n <> nn h') by lia.
    match goal with X : _ -> _ -> accesses (p_leaf _ _ _ _ _) h' <= _ |- _ => specialize (X Y1 Y2) end.
    eapply Nat.le_trans; [do 3 apply le_n_S; exact H0|]. lia.
  - (* no split *)
    apply Nat.ltb_ge in SP. cbn [seqp]. assert (y = []) as -> by (destruct y; auto; cbn in Ls; lia).
    rewrite app_nil_r in Ey. cbn in Ls. rewrite Nat.add_0_r in Ls.
    destruct (cpl <? length word) eqn:LT.
    2: { cbn [accesses]. specialize (ST h0 (nid n)). cbn [accesses] in ST. rewrite E in *. lia. }
    apply Nat.ltb_lt in LT. cbn [accesses]. rewrite E, Er, KL.
    destruct x as [|x0 x]; [cbn in Lw; lia|].
    match goal with |- S (S (accesses (seqp ?p ?q) h0)) <= _ =>
      pose proof (accesses_le p q (set_price (length (x0 :: x))) h0) as AL end.
    pose proof (match_cost (x0 :: x) (sl_arr (hkids s)) (length (nkids n)) 0 h0) as MC.
    match type of AL with ?X -> _ => assert (HX : X) end.
    { intros h' r RM.
      rewrite (match_spec h0 (x0 :: x) (sl_arr (hkids s)) (nkids n) 0) in RM; [| lia | |exact Rk].
      2: { cbn [skipn]. unfold kids_of in K. now rewrite KL in K. }
      destruct (matchChildren_spec x0 x (nkids n) (wfn_forall _ WF)) as [(l & c & rr & MM & EK & _)|(MM & _)]; rewrite MM in RM; injection RM as <- <-.
      - assert (Hc : In c (nkids n)) by (rewrite EK; apply in_app_iff; right; now left).
        match goal with |- accesses (seqp ?p ?q) h0 <= _ => pose proof (accesses_le p q 0 h0) as AL2 end.
        match type of AL2 with ?X -> _ => assert (HX2 : X) by (intros h2 [[? ?] ?] _; cbn; lia); specialize (AL2 HX2) end.
        rewrite Forall_forall in IH, Rk. destruct (wfn_kids _ _ WF Hc) as [Ne Wc].
        assert (FK : fan F c).
        { unfold fan in *. rewrite Forall_forall in FN |- *. intros m Hm. apply FN. destruct n. cbn [walk]. right.
          apply in_flat_map. eauto. }
        specialize (IH c Hc fuel (x0 :: x) (Rk c Hc) Wc FK).
        replace (is_nil (npath c)) with false in IH by (now destruct (npath c)). lia.
      - match goal with |- accesses (seqp ?p ?q) h0 <= _ => pose proof (accesses_le p q 0 h0 (fun _ _ _ => le_n 0)) as AL2 end.
        eapply Nat.le_trans; [exact AL2|]. specialize (LF (x0 :: x)). unfold set_price. lia. }
    specialize (AL HX). unfold set_price in AL. rewrite Lw.
    destruct (npath n) as [|c q] eqn:EN.
    + cbn [is_nil]. assert (length p0 = 0) as -> by (rewrite <- Ey; reflexivity). cbn [plus]. nia.
    + cbn [is_nil]. assert (1 <= length p0) by (rewrite <- Ey; cbn; lia). nia.
Qed.
End Insert.

Theorem set_cost grow h0 R k v F : tree_in h0 R -> fan F R ->
  accesses (p_set grow (nid R) k v) h0 <= (2 + length (runes k)) * (2 * F + 2) + F + 20.
Proof.
  intros (W & RR & WT) FN. unfold p_set. eapply Nat.le_trans; [apply insert_cost; eauto|].
  - apply WT.
  - unfold set_price. destruct (is_nil _); nia.
Qed.
