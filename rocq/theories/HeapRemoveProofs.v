(** Remove on the tree in memory: alone, and what Get sees beside it. *)
From Coq Require Import List NArith Bool Arith Lia.
From Verif Require Import GoStr Utf8 Node NodeWf InsertProofs MatchProofs Trie TreeOps Spec Refine Climb ApiRefine Reach Effect
  Derived Derived2 Derived3 Derived4 Derived5 Heap HeapProofs HeapWalk HeapRace HeapGet HeapGetProofs HeapRemove.
Import ListNotations.
Open Scope nat_scope.

(** ** while children are removed *)
Section Thin.
Variable h0 : heap.
Hypothesis W : hwf h0.

(** the node with some of its children only *)
Definition shorter (s : hnode) (k : nat) : hnode := w_kids (Sl (sl_arr (hkids s)) k) s.
(** memory: the nodes as in [h0] but for fewer children, the arrays hold children of their node *)
Record thin (h : heap) : Prop := {
  th_node : forall a s, hn h0 a = Some s -> exists k, k <= sl_len (hkids s) /\ hn h a = Some (shorter s k);
  th_len : forall a s, hn h0 a = Some s -> length (ha h (sl_arr (hkids s))) = length (ha h0 (sl_arr (hkids s)));
  th_elem : forall a s i x, hn h0 a = Some s -> i < sl_len (hkids s) -> nth_error (ha h (sl_arr (hkids s))) i = Some x ->
    In x (kids_of h0 s) }.
(** the program reads and removes children; what it gives satisfies [Q]; it may panic if [dies] *)
Inductive sees {A} (dies : Prop) (Q : A -> Prop) : prog A -> Prop :=
| sees_ret x : Q x -> sees dies Q (Ret x)
| sees_die : dies -> sees dies Q Die
| sees_node a s k : hn h0 a = Some s -> (forall n, n <= sl_len (hkids s) -> sees dies Q (k (shorter s n))) -> sees dies Q (GetN a k)
| sees_elem a s i k : hn h0 a = Some s -> i < sl_len (hkids s) -> (forall x, In x (kids_of h0 s) -> sees dies Q (k x)) ->
    sees dies Q (GetA (sl_arr (hkids s)) i k)
| sees_cap a s k : hn h0 a = Some s -> sees dies Q (k (length (ha h0 (sl_arr (hkids s))))) -> sees dies Q (CapA (sl_arr (hkids s)) k)
| sees_put a s i x k : hn h0 a = Some s -> i < sl_len (hkids s) -> In x (kids_of h0 s) -> sees dies Q k ->
    sees dies Q (SetA (sl_arr (hkids s)) i x k)
| sees_kids a s n k : hn h0 a = Some s -> n <= sl_len (hkids s) -> sees dies Q k ->
    sees dies Q (UpdN a (w_kids (Sl (sl_arr (hkids s)) n)) k).

Lemma sees_bind {A B} dies (Q : A -> Prop) (Q' : B -> Prop) p q : sees dies Q p -> (forall x, Q x -> sees dies Q' (q x)) -> sees dies Q' (seqp p q).
Proof.
  intros S H. induction S as [x HQ|D|a s k E _ IH|a s i k E L _ IH|a s k E _ IH|a s i x k E L I _ IH|a s n k E L _ IH]; cbn [seqp].
  - auto.
  - now apply sees_die.
  - apply sees_node with s; auto.
  - apply sees_elem with a; auto.
  - apply sees_cap with a; auto.
  - apply sees_put with a; auto.
  - apply sees_kids; auto.
Qed.
Lemma sees_mono {A} dies (Q Q' : A -> Prop) p : (forall x, Q x -> Q' x) -> sees dies Q p -> sees dies Q' p.
Proof.
  intros H S. induction S as [x HQ|D|a s k E _ IH|a s i k E L _ IH|a s k E _ IH|a s i x k E L I _ IH|a s n k E L _ IH].
  - constructor. auto.
  - now apply sees_die.
  - apply sees_node with s; auto.
  - apply sees_elem with a; auto.
  - apply sees_cap with a; auto.
  - apply sees_put with a; auto.
  - apply sees_kids; auto.
Qed.
Lemma thin_refl : thin h0.
Proof.
  constructor; auto.
  - intros a s E. exists (sl_len (hkids s)). split; auto. rewrite E. f_equal. destruct s as [? ? [? ?] ? ? ? ? ?]. reflexivity.
  - intros a s i x E L N. unfold kids_of. apply nth_error_In with i.
    clear -L N. revert i L N. generalize (sl_len (hkids s)). generalize (ha h0 (sl_arr (hkids s))).
    induction l as [|y l IH]; intros [|n] [|i] L N; cbn in *; try lia; try discriminate; auto. apply IH; auto. lia.
Qed.
Lemma put_nth {A} (l : list A) i x j : nth_error (put l i x) j = if (j =? i) && (i <? length l) then Some x else nth_error l j.
Proof.
  revert i j. induction l as [|y l IH]; intros [|i] [|j]; cbn; auto.
  - now rewrite andb_false_r.
  - rewrite IH. reflexivity.
Qed.
Lemma access_sees {A} dies (Q : A -> Prop) p h p' h' : thin h -> sees dies Q p -> access p h = Some (p', h') -> thin h' /\ sees dies Q p'.
Proof.
  intros T S. destruct S as [x HQ|D|a s k E H|a s i k E L H|a s k E H|a s i x k E L I H|a s n k E L H]; cbn [access]; try discriminate.
  - destruct (th_node h T a s E) as (n & Ln & ->). intros X. injection X as <- <-. auto.
  - intros X. destruct (nth_error (ha h (sl_arr (hkids s))) i) as [x|] eqn:N; injection X as <- <-; split; auto.
    + apply H. eapply th_elem; eauto.
    + exfalso. apply nth_error_None in N. rewrite (th_len h T a s E) in N. destruct (hwf_in h0 W _ _ E) as (_ & _ & LL). lia.
  - intros X. injection X as <- <-. split; auto. now rewrite (th_len h T a s E).
  - rewrite (th_len h T a s E). destruct (hwf_in h0 W _ _ E) as (_ & _ & LL).
    replace (i <? _) with true by (symmetry; apply Nat.ltb_lt; lia). intros X. injection X as <- <-. split; auto.
    assert (NZ : sl_arr (hkids s) <> 0) by (intros Z; rewrite Z, (proj1 (hwf_nil h0 W)) in LL; cbn in LL; lia).
    constructor; cbn [hn ha set_arr]; [apply (th_node h T)| |].
    + intros b t Eb. destruct (Nat.eqb_spec (sl_arr (hkids t)) (sl_arr (hkids s))) as [Q1|Q1]; [|now apply (th_len h T b)].
      rewrite put_length, Q1. now apply (th_len h T a).
    + intros b t j y Eb Lj. destruct (Nat.eqb_spec (sl_arr (hkids t)) (sl_arr (hkids s))) as [Q1|Q1]; [|now apply (th_elem h T b)].
      assert (t = s) as ->.
      { destruct (Nat.eq_dec b a) as [->|D]; [congruence|]. exfalso. apply NZ. rewrite <- Q1. now apply (hwf_own h0 W b a t s). }
      rewrite put_nth. destruct ((j =? i) && _); [intros Y; injection Y as <-; exact I|now apply (th_elem h T b)].
  - destruct (th_node h T a s E) as (m & Lm & ->). intros X. injection X as <- <-. split; auto.
    constructor; cbn [hn ha set_node]; [|apply (th_len h T)|apply (th_elem h T)].
    intros b t Eb. destruct (Nat.eqb_spec b a) as [->|D]; [|now apply (th_node h T)].
    assert (t = s) as -> by congruence. exists n. auto.
Qed.
Definition watched {A} (Qs : list (Prop * (A -> Prop))) (ps : list (prog A)) (h : heap) : Prop :=
  thin h /\ Forall2 (fun Q p => sees (fst Q) (snd Q) p) Qs ps.
Lemma turn_watched {A} Qs (ps : list (prog A)) h i : watched Qs ps h -> watched Qs (fst (turn ps h i)) (snd (turn ps h i)).
Proof.
  intros [S F]. unfold turn. destruct (nth_error ps i) as [p|] eqn:E; [|split; auto].
  destruct (access p h) as [[p' h']|] eqn:AC; [|split; auto]. cbn [fst snd].
  destruct (Forall2_nth_error' _ _ _ _ _ F E) as (Q & EQ & C). destruct (access_sees _ _ p h p' h' S C AC) as (S' & C').
  split; [exact S'|]. apply Forall2_put; auto. intros a b Ea Eb _. assert (a = Q) as -> by congruence. exact C'.
Qed.
Lemma schedule_watched {A} sch : forall Qs (ps : list (prog A)) h, watched Qs ps h ->
  watched Qs (fst (schedule sch ps h)) (snd (schedule sch ps h)).
Proof.
  unfold schedule. induction sch as [|i sch IH]; intros Qs ps h F; [exact F|]. cbn [fold_left fst snd].
  pose proof (turn_watched Qs ps h i F) as T. destruct (turn ps h i) as [ps1 h1]. now apply IH.
Qed.

(** ** the search *)
Lemma scan_sees a s d : hn h0 a = Some s -> forall k word i lrd,
  k = Nat.min (length (hpath s) - i) (length word) ->
  let '(j, b) := scan d (skipn i (hpath s)) word i lrd in
  sees False (fun r => r = (j, b, if j <? i + k then nth j (hpath s) 0%N else 0%N)) (p_scan a d word i k lrd).
Proof.
  intros E. induction k as [|k IH]; intros word i lrd K; cbn [p_scan].
  - assert (scan d (skipn i (hpath s)) word i lrd = (i, lrd)) as ->.
    { destruct (skipn i (hpath s)) as [|x t] eqn:S; [reflexivity|].
      assert (length (skipn i (hpath s)) = Datatypes.S (length t)) as L by now rewrite S. rewrite skipn_length in L.
      destruct word; [reflexivity|]. cbn in K. lia. }
    constructor. rewrite Nat.add_0_r, Nat.ltb_irrefl. reflexivity.
  - destruct word as [|w word]; [cbn in K; lia|]. cbn [length] in K.
    destruct (nth_error (hpath s) i) as [c|] eqn:N.
    2: { apply nth_error_None in N. lia. }
    assert (S : skipn i (hpath s) = c :: skipn (S i) (hpath s)).
    { clear -N. revert i N. generalize (hpath s). induction l as [|x l IH]; intros [|i] N; cbn in *; try discriminate; [congruence|auto]. }
    rewrite S. cbn [scan]. destruct (c =? w)%N eqn:C.
    + specialize (IH word (Datatypes.S i) (c =? d)%N). destruct (scan d _ word _ _) as [j b].
      apply sees_node with s; auto. intros n Ln. cbn [shorter w_kids hpath]. rewrite N, C.
      eapply sees_mono; [|apply IH; lia]. intros x ->. now replace (Datatypes.S i + k) with (i + Datatypes.S k) by lia.
    + apply sees_node with s; auto. intros n Ln. cbn [shorter w_kids hpath]. rewrite N, C. constructor.
      replace (i <? i + Datatypes.S k) with true by (symmetry; apply Nat.ltb_lt; lia). now rewrite (nth_error_nth _ _ _ N).
Qed.
Lemma after_sees d n s word pn src mt pt : hn h0 (nid n) = Some s -> hpath s = npath n ->
  let '(a, b, c, e) := after_loop d n word pn src mt pt in
  sees False (fun r => r = (a, b, option_map nid c, option_map nid e))
    (p_after d (nid n) (length (npath n)) (length word) (option_map nid pn) src mt pt).
Proof.
  intros E P. unfold after_loop, p_after. cbv zeta.
  set (rest := if (Nat.min (length (npath n)) (length word) <? length (npath n)) && _ then _ else _) at 2 3.
  assert (X : rest = let '(a, b, c, e) :=
     (if (Nat.min (length (npath n)) (length word) <? length (npath n)) && (src =? Nat.min (length (npath n)) (length word))
      then (mt, true, Some n, pn)
      else if (length (npath n) <=? Nat.min (length (npath n)) (length word)) &&
             ((src =? Nat.min (length (npath n)) (length word)) && ((0 <? Nat.min (length (npath n)) (length word)) && ((0 <? src) && negb pt)))
           then (true, pt, Some n, pn) else (mt, pt, if mt then Some n else None, if mt then pn else None)) in
     (a, b, option_map nid c, option_map nid e)).
  { unfold rest. destruct (_ && _); [reflexivity|]. destruct (_ && _); [reflexivity|]. now destruct mt. }
  clearbody rest. subst rest. destruct (S src =? length (npath n)) eqn:S; cbn [andb].
  - apply Nat.eqb_eq in S. destruct (nth_error (npath n) src) as [c|] eqn:N; [|apply nth_error_None in N; lia].
    rewrite (nth_error_nth _ _ _ N). destruct (c =? d)%N eqn:C; cbn [andb].
    + apply sees_node with s; auto. intros k _. cbn [shorter w_kids hpath]. rewrite P, N, C. now constructor.
    + repeat match goal with |- context [if ?x then _ else _] => destruct x end;
        (apply sees_node with s; [exact E|]; intros k _; cbn [shorter w_kids hpath]; rewrite P, N, C; now constructor).
  - repeat match goal with |- context [if ?x then _ else _] => destruct x end; now constructor.
Qed.

(** what a search may give: what it gives in the tree, nothing, or the node of a shorter key *)
Inductive hout (d : rune) (pre : key_t) (s : node) (par : option node) (w : key_t) (kv : kvs) : hmres -> Prop :=
| ho_found r : mout d pre s par w kv r -> m_matched r = true -> hout d pre s par w kv (hids r)
| ho_cut k n p : In (k, n) (ents pre s) -> par_ok pre s par k n p -> pprefix k (pre ++ w) -> npath n <> [] ->
    hout d pre s par w kv (HM true false (Some (nid n)) (option_map nid p) kv)
| ho_partial c p : hout d pre s par w kv (HM false true c p kv)
| ho_miss : hout d pre s par w kv (HM false false None None kv).
Lemma mout_hout d pre s par w kv r : mout d pre s par w kv r -> hout d pre s par w kv (hids r).
Proof.
  intros M. destruct (m_matched r) eqn:E; [now apply ho_found|].
  destruct M; cbn in E; try discriminate; unfold hids; cbn; constructor.
Qed.
Lemma hout_kv d pre s par w kv r : hout d pre s par w kv r -> hm_kv r = kv.
Proof. intros []; auto. destruct H; auto. Qed.
Lemma hout_lift d pre s par c w kv r : wfn s -> In c (nkids s) -> w <> [] ->
  hout d (pre ++ npath s) c (Some s) w kv r -> hout d pre s par (npath s ++ w) kv r.
Proof.
  intros Ws Hc Hw H. destruct H as [r M Em|k n p H P Hk N|c0 p|]; try constructor.
  - eapply mout_lift; eauto. now rewrite Em.
  - exact Em.
  - eapply ho_cut; [eapply ents_kid; eauto|eapply par_ok_kid; eauto| |exact N]. now rewrite app_assoc.
Qed.

(** the loop over the children *)
Lemma each_sees go a s (n : node) d pre w kv init : hn h0 a = Some s -> kids_of h0 s = map nid (nkids n) -> hm_kv init = kv ->
  (forall c, In c (nkids n) -> sees False (hout d (pre ++ npath n) c (Some n) w kv) (go (nid c) kv)) ->
  forall k i last, i + k <= sl_len (hkids s) -> last = init \/ last = HM false false None None kv ->
  sees False (fun r => r = init \/ r = HM false false None None kv \/
     exists c, In c (nkids n) /\ hout d (pre ++ npath n) c (Some n) w kv r)
    (p_each go (sl_arr (hkids s)) i k last).
Proof.
  intros E K KV G. induction k as [|k IH]; intros i last L Hl; cbn [p_each].
  - constructor. tauto.
  - apply sees_elem with a; auto; [lia|]. intros x Hx. rewrite K in Hx. apply in_map_iff in Hx. destruct Hx as (c & <- & Hc).
    assert (KL : hm_kv last = kv) by (destruct Hl as [->| ->]; auto). rewrite KL.
    eapply sees_bind; [exact (G c Hc)|]. intros r Hr. cbn beta.
    destruct (hm_matched r || hm_partial r) eqn:MP; [constructor; eauto|].
    apply IH; [lia|]. right. destruct Hr as [r M Em|k0 n0 p0|c0 p0|]; cbn in MP; try discriminate; auto.
    rewrite Em in MP. discriminate.
Qed.

Lemma matchR_sees rf d : forall n fuel pre word pn kv, repr h0 n -> depth n <= fuel ->
  wfn n -> plain_tree d pre n -> npath n <> [] -> word <> [] ->
  sees False (hout d pre n pn word kv) (p_matchR (S rf) fuel d (nid n) word (lrd_end d false pre) (option_map nid pn) kv).
Proof.
  induction n as [n IH] using node_ind'. intros fuel pre word pn kv R D Wn PT Hne Hw.
  destruct (matchR_plain rf d n pre word pn kv Wn PT Hne Hw) as (r & M & MO).
  pose proof R as R0. apply repr_eq in R. destruct R as [(s & E & Ft & K) Rk]. pose proof Ft as (P1 & _).
  rewrite HeapGetProofs.matchR_eq in M. cbv zeta in M. destruct fuel as [|fuel]; [destruct n; cbn in D; lia|]. cbn [p_matchR].
  apply sees_node with s; auto. intros m0 _. cbn [shorter w_kids hpath]. rewrite P1.
  destruct (length word =? 0) eqn:WL; [apply Nat.eqb_eq in WL; now destruct word|].
  pose proof (scan_sees (nid n) s d E (Nat.min (length (npath n)) (length word)) word 0 (lrd_end d false pre)) as SC.
  cbn [skipn] in SC. rewrite P1 in SC. rewrite Nat.sub_0_r in SC. specialize (SC eq_refl).
  rewrite scan_spec in M, SC. cbn [plus] in M, SC.
  eapply sees_bind; [exact SC|]. clear SC. intros x ->.
  destruct (lcp_split word (npath n)) as (x & y & Ex & Ey & Hd).
  remember (lcp word (npath n)) as p0 eqn:Ep0.
  assert (Lw : length word = length p0 + length x) by (rewrite Ex; apply app_length).
  assert (Ls : length (npath n) = length p0 + length y) by (rewrite Ey; apply app_length).
  destruct (length p0 <? Nat.min (length (npath n)) (length word)) eqn:L.
  - (* a rune differs *)
    apply Nat.ltb_lt in L. destruct x as [|x0 x]; [cbn in Lw; lia|]. destruct y as [|y0 y]; [cbn in Ls; lia|].
    destruct (mismatch_plain d pre n p0 y0 y PT Ey) as (H1 & H2). rewrite H2 in *.
    rewrite retriever_plain in M by assumption. cbn [bind] in M. injection M as <-.
    cbn [seqp]. apply sees_node with s; auto. intros m1 _. rewrite retriever_plain by assumption. cbn [hexit_of seqp].
    constructor. exact (mout_hout _ _ _ _ _ _ _ MO).
  - apply Nat.ltb_ge in L. cbn [bind] in M. cbn [seqp].
    pose proof (after_sees d n s word pn (length p0) false false E P1) as AS.
    destruct (after_loop d n word pn (length p0) false false) as [[[ma pa] chd] par] eqn:AL.
    eapply sees_bind; [exact AS|]. clear AS. intros af ->. cbn beta iota.
    destruct (Nat.min (length (npath n)) (length word) <? length word) eqn:LW.
    2: { injection M as <-. constructor. exact (mout_hout _ _ _ _ _ _ _ MO). }
    apply Nat.ltb_lt in LW. clear M MO r.
    assert (y = []) as -> by (destruct y; auto; cbn in Ls; lia). rewrite app_nil_r in Ey. cbn [length] in Ls.
    assert (Hx : x <> []) by (destruct x; [cbn in Lw; lia|discriminate]).
    assert (Hl : 0 < length p0) by (rewrite <- Ey; destruct (npath n); [congruence|cbn; lia]).
    replace (Nat.min (length (npath n)) (length word)) with (length p0) in * by lia.
    assert ((ma, pa, chd, par) = (true, false, Some n, pn)) as Q.
    { rewrite <- AL. unfold after_loop. cbv zeta. replace (Nat.min (length (npath n)) (length word)) with (length p0) by lia.
      replace (length (npath n)) with (length p0) by lia.
      destruct (Nat.eqb_spec (S (length p0)) (length p0)); [lia|]. cbn [andb]. rewrite Nat.ltb_irrefl. cbn [andb].
      rewrite Nat.leb_refl, Nat.eqb_refl. destruct (Nat.ltb_spec 0 (length p0)); [reflexivity|lia]. }
    injection Q as -> -> -> ->. clear AL.
    apply sees_node with s; auto. intros m1 _. cbn [shorter w_kids hkids sl_len].
    destruct (m1 =? 0); [constructor; apply ho_partial|].
    apply sees_node with s; auto. intros m2 Lm. cbn [shorter w_kids hkids sl_len sl_arr Nat.eqb].
    replace (skipn (length p0) word) with x by (rewrite Ex at 1; rewrite skipn_app, skipn_all, Nat.sub_diag; reflexivity).
    eapply sees_mono; [|apply (each_sees _ (nid n) s n d pre x kv (HM true false (option_map nid (Some n)) (option_map nid pn) kv) E K eq_refl);
      [|lia|now left]].
    + intros r [->|[->|(c & Hc & Hr)]].
      * cbn [option_map]. eapply ho_cut with (k := pre ++ npath n).
        -- rewrite ents_eq. now left.
        -- left. auto.
        -- destruct x as [|x0 x]; [congruence|]. exists x0, x. rewrite Ex, Ey. now rewrite app_assoc.
        -- exact Hne.
      * apply ho_miss.
      * rewrite Ex, <- Ey. eapply hout_lift; eauto.
    + intros c Hc. destruct (wfn_kids _ _ Wn Hc) as [Hnc Wc]. rewrite Forall_forall in IH, Rk.
      replace (lrd_end d (lrd_end d false pre) p0) with (lrd_end d false (pre ++ npath n)) by (rewrite lrd_end_app; congruence).
      change (Some (nid n)) with (option_map nid (Some n)). pose proof (depth_kid _ _ Hc).
      apply IH; auto; [lia|]. now apply plain_tree_kid.
Qed.

(** the whole tree *)
Inductive rout (d : rune) (s : node) (w : key_t) (kv : kvs) : hmres -> Prop :=
| ro_root : w = [] -> rout d s w kv (HM true false (Some (nid s)) None kv)
| ro_kids r : w <> [] -> hout d [] s None w kv r -> rout d s w kv r.
Lemma root_sees rf d n fuel word kv : repr h0 n -> depth n <= fuel -> wfn n -> plain_tree d [] n -> npath n = [] ->
  sees False (rout d n word kv) (p_matchR (S rf) fuel d (nid n) word false None kv).
Proof.
  intros R D Wn PT Hp. pose proof R as R0. apply repr_eq in R. destruct R as [(s & E & Ft & K) Rk]. pose proof Ft as (P1 & _).
  destruct fuel as [|fuel]; [destruct n; cbn in D; lia|]. cbn [p_matchR].
  apply sees_node with s; auto. intros m0 _. cbn [shorter w_kids hpath]. rewrite P1, Hp. cbn [length Nat.min].
  destruct word as [|w0 w]; [constructor; now apply ro_root|].
  cbn [p_scan seqp length Nat.eqb Nat.ltb Nat.leb]. unfold p_after. cbn [Nat.eqb Nat.min Nat.ltb Nat.leb andb seqp].
  apply sees_node with s; auto. intros m1 _. cbn [shorter w_kids hkids sl_len].
  destruct (m1 =? 0); [constructor; apply ro_kids; [discriminate|apply ho_partial]|].
  apply sees_node with s; auto. intros m2 Lm. cbn [shorter w_kids hkids sl_len sl_arr Nat.eqb skipn].
  eapply sees_mono; [|apply (each_sees _ (nid n) s n d [] (w0 :: w) kv (HM false false None None kv) E K eq_refl); [|lia|now left]].
  - intros r H. apply ro_kids; [discriminate|]. destruct H as [->|[->|(c & Hc & Hr)]]; [apply ho_miss..|].
    replace (w0 :: w) with (npath n ++ w0 :: w) by now rewrite Hp. eapply hout_lift; eauto. discriminate.
  - intros c Hc. destruct (wfn_kids _ _ Wn Hc) as [Hnc Wc]. rewrite Forall_forall in Rk. rewrite Hp. cbn [app].
    change (Some (nid n)) with (option_map nid (Some n)). pose proof (depth_kid _ _ Hc).
    apply (matchR_sees rf d c fuel [] (w0 :: w) (Some n) kv); auto; [lia| |discriminate].
    pose proof (plain_tree_kid _ _ _ _ PT Hc) as Q. now rewrite Hp in Q.
Qed.
(** the search, without the mode that climbs *)
Definition srch (d : rune) (R : node) (w : key_t) (r : hsres) : Prop :=
  exists q, rout d R w [] q /\ r = if hm_matched q || hm_partial q then hs_of q else HS None None false [].
Lemma search_sees rf h R dep w : repr h0 R -> depth R <= dep -> wfn R -> plain_tree (hdelim h) [] R -> npath R = [] -> hmode h <> ModeUp ->
  sees False (srch (hdelim h) R (runes w)) (p_search (S rf) dep h (nid R) w).
Proof.
  intros RR D Wn PT NP M. unfold p_search. eapply sees_bind; [apply root_sees; eauto|]. intros q Hq. cbn beta.
  assert (KV : hm_kv q = []) by (destruct Hq as [|q _ H]; [reflexivity|exact (hout_kv _ _ _ _ _ _ _ H)]).
  destruct (hm_matched q || hm_partial q) eqn:E.
  - constructor. exists q. rewrite E. auto.
  - destruct (hmode h); try congruence; constructor; exists q; rewrite E, KV; auto.
Qed.

Lemma read_sees dies a s : hn h0 a = Some s -> forall k i, i + k <= sl_len (hkids s) ->
  sees dies (fun l => length l = k /\ incl l (kids_of h0 s)) (p_read (sl_arr (hkids s)) i k).
Proof.
  intros E. induction k as [|k IH]; intros i L; cbn [p_read].
  - constructor. split; [reflexivity|easy].
  - apply sees_elem with a; auto; [lia|]. intros x Hx. eapply sees_bind; [apply IH; lia|]. intros l [Ll Il]. constructor.
    split; [cbn; lia|]. intros y [<-|Hy]; auto.
Qed.
Lemma write_sees dies a s : hn h0 a = Some s -> forall l i, i + length l <= sl_len (hkids s) -> incl l (kids_of h0 s) ->
  sees dies (fun _ => True) (p_write (sl_arr (hkids s)) i l).
Proof.
  intros E. induction l as [|x l IH]; intros i L I; cbn [p_write]; [now constructor|]. cbn [length] in L.
  apply sees_put with a; auto; [lia|apply I; now left|]. apply IH; [lia|]. intros y Hy. apply I. now right.
Qed.
Lemma find_sees dies a s c : hn h0 a = Some s -> forall k i, i + k <= sl_len (hkids s) ->
  sees dies (fun o => forall j, o = Some j -> j < sl_len (hkids s)) (p_find (sl_arr (hkids s)) i k c).
Proof.
  intros E. induction k as [|k IH]; intros i L; cbn [p_find].
  - constructor. discriminate.
  - apply sees_elem with a; auto; [lia|]. intros x Hx. destruct (x =? c).
    + constructor. intros j X. injection X as <-. lia.
    + apply IH. lia.
Qed.
Lemma remove_sees grow a s c : hn h0 a = Some s -> sees True (fun _ => True) (p_remove grow a c).
Proof.
  intros E. destruct (hwf_in h0 W _ _ E) as (_ & _ & LL). unfold p_remove. apply sees_node with s; auto. intros m0 L0.
  cbn [shorter w_kids hkids sl_arr sl_len]. eapply sees_bind; [apply (find_sees True a s c E); lia|].
  intros [i|] Hi; [|now constructor]. specialize (Hi i eq_refl).
  apply sees_node with s; auto. intros m1 L1. cbn [shorter w_kids hkids sl_arr sl_len].
  apply sees_cap with a; auto. destruct (i <=? _); [|now apply sees_die].
  apply sees_node with s; auto. intros m2 L2. cbn [shorter w_kids hkids sl_arr sl_len].
  destruct (S i <=? m2) eqn:Li; [|now apply sees_die]. apply Nat.leb_le in Li.
  eapply sees_bind; [apply (read_sees True a s E); lia|]. intros l [Ll Il].
  apply sees_bind with (Q := fun sl => sl_arr sl = sl_arr (hkids s) /\ sl_len sl <= sl_len (hkids s)).
  - unfold p_appends. cbn [sl_arr sl_len]. apply sees_cap with a; auto.
    replace (i + length l <=? _) with true by (symmetry; apply Nat.leb_le; lia).
    eapply sees_bind; [apply (write_sees True a s E); [lia|exact Il]|]. intros _ _. constructor. cbn [sl_arr sl_len]. split; [reflexivity|lia].
  - intros [r n] [Er En]. cbn in Er, En. subst r. apply sees_kids; auto. now constructor.
Qed.
Lemma sees_weak {A} (dies dies' : Prop) (Q : A -> Prop) p : (dies -> dies') -> sees dies Q p -> sees dies' Q p.
Proof.
  intros H S. induction S as [x HQ|D|a s k E _ IH|a s i k E L _ IH|a s k E _ IH|a s i x k E L I _ IH|a s n k E L _ IH].
  - now constructor.
  - apply sees_die. auto.
  - apply sees_node with s; auto.
  - apply sees_elem with a; auto.
  - apply sees_cap with a; auto.
  - apply sees_put with a; auto.
  - apply sees_kids; auto.
Qed.

(** the tree that is left *)
Lemma ents_sub pre n k m : In (k, m) (ents pre n) -> sub n m.
Proof.
  revert pre. induction n as [n IH] using node_ind'. intros pre H. apply ents_inv in H. destruct H as [[_ ->]|(c & Hc & H)]; [constructor|].
  rewrite Forall_forall in IH. apply sub_kid with c; eauto.
Qed.
Lemma kids_incl h a s k : thin h -> hn h0 a = Some s -> k <= sl_len (hkids s) -> incl (kids_of h (shorter s k)) (kids_of h0 s).
Proof.
  intros T E L x Hx. unfold kids_of in Hx. cbn [shorter w_kids hkids sl_arr sl_len] in Hx. apply In_nth_error in Hx. destruct Hx as [i Hi].
  assert (Li : i < k).
  { assert (X : i < length (firstn k (ha h (sl_arr (hkids s))))) by (apply nth_error_Some; congruence). rewrite firstn_length in X. lia. }
  apply (th_elem h T a s i x E); [lia|].
  rewrite <- (firstn_skipn k (ha h (sl_arr (hkids s)))). rewrite nth_error_app1; [exact Hi|]. apply nth_error_Some. congruence.
Qed.
Lemma left_over h : thin h -> forall n, repr h0 n ->
  exists n', repr h n' /\ nid n' = nid n /\ npath n' = npath n /\ info_of n' = info_of n /\ forall pre, incl (ients pre n') (ients pre n).
Proof.
  intros T. induction n as [n IH] using node_ind'. intros R. apply repr_eq in R. destruct R as [(s & E & Ft & K) Rk].
  destruct (th_node h T _ _ E) as (k & Lk & Ek). pose proof (kids_incl h _ s k T E Lk) as I. rewrite K in I.
  assert (X : forall l, incl l (map nid (nkids n)) -> exists ks, map nid ks = l /\ Forall (repr h) ks /\
     forall pre, incl (kents pre ks) (kents pre (nkids n))).
  { induction l as [|x l IHl]; intros Il; [exists []; split; [reflexivity|split; [constructor|easy]]|].
    destruct IHl as (ks & K1 & K2 & K3); [intros y Hy; apply Il; now right|].
    assert (Hx : In x (map nid (nkids n))) by (apply Il; now left). apply in_map_iff in Hx. destruct Hx as (c & <- & Hc).
    rewrite Forall_forall in IH, Rk. destruct (IH c Hc (Rk c Hc)) as (c' & C1 & C2 & C3 & C4 & C5).
    exists (c' :: ks). split; [cbn; congruence|]. split; [now constructor|]. intros pre y Hy. unfold kents in Hy. cbn [flat_map] in Hy.
    apply in_app_iff in Hy. destruct Hy as [Hy|Hy]; [|now apply K3].
    unfold kents. apply in_flat_map. exists c. split; [exact Hc|]. now apply C5. }
  destruct (X (kids_of h (shorter s k)) I) as (ks & K1 & K2 & K3).
  exists (set_kids n ks). split; [|split; [reflexivity|split; [reflexivity|split; [reflexivity|]]]].
  - apply repr_eq. cbn [nid nkids set_kids]. split; [|exact K2]. exists (shorter s k). split; [exact Ek|]. split; [exact Ft|now symmetry].
  - intros pre y Hy. unfold ients in *. rewrite ents_eq in *. cbn [map nkids set_kids npath] in *. destruct Hy as [<-|Hy]; [now left|right].
    assert (Q : forall ks pre, map ient (flat_map (ents pre) ks) = kents pre ks).
    { intros. unfold kents. now rewrite map_flat_map. }
    rewrite Q in *. now apply K3.
Qed.
End Thin.

(** ** goroutines that remove and goroutines that read *)
Inductive reply := Gone (b : bool) | Saw (q : qres) | Stored.
Definition remover grow rf dep rt (g : hdl * gostring) : prog reply := let* b := p_removeEx grow rf dep (fst g) rt (snd g) in Ret (Gone b).
Definition getter rf dep rt (g : hdl * gostring) : prog reply := let* q := p_query rf dep (fst g) rt (snd g) in Ret (Saw q).
Definition setter grow rt (job : list (gostring * gval)) : prog reply := let* _ := p_sets grow rt job in Ret Stored.

(** the answer Query gives for the key [k] with the attributes [a] *)
Definition answer_of (d : rune) (k : key_t) (a : attr) : qres :=
  QRes (if a_has a then a_data a else GNil) (negb (a_leaf a)) (a_leaf a || ends_with d k) [].
Definition may_see (t : tr) (d : rune) (w : key_t) (q : qres) : Prop :=
  q = QRes GNil false false [] \/
  exists k a, t_get t k = Some a /\ q = answer_of d k a /\
    (k = w \/ (k = w ++ [d] /\ t_get t w = None) \/ (k <> [] /\ pprefix k w)).

Section Team.
Variable h0 : heap.
Variable t : tr.
Variable D : rune -> Prop.
Hypothesis TI : tree_in h0 (root t).
Hypothesis PR : plain_reach D t.
Lemma ents_get k n : In (k, n) (ents [] (root t)) -> t_get t k = Some (attr_of (info_of n)).
Proof.
  destruct (plain_reach_inv D t PR) as [WT _]. intros H. unfold t_get. rewrite <- (abs_entries t).
  assert (L : look (root t) k = Some (info_of n)); [|now rewrite L].
  apply look_in; [apply (proj1 WT)|]. unfold ients. apply in_map_iff. exists (k, n). auto.
Qed.
Lemma get_none k : ~ dom [] (root t) k -> t_get t k = None.
Proof. intros H. unfold t_get. rewrite <- (abs_entries t). apply look_none in H. now rewrite H. Qed.
Lemma plain_root d : D d -> plain_tree d [] (root t).
Proof.
  destruct (plain_reach_inv D t PR) as [WT PA]. intros H k Hk. apply (PA d H).
  now apply (abs_dom (root t) (entries t) (proj1 (proj2 (proj1 WT))) (abs_entries t)).
Qed.
Lemma found_key d w q n : D d -> rout d (root t) w [] q -> hm_matched q = true -> hm_child q = Some n -> hm_partial q = false ->
  exists k m par, In (k, m) (ents [] (root t)) /\ n = nid m /\ hm_parent q = option_map nid par /\ par_ok [] (root t) None k m par /\
    (k = w \/ (k = w ++ [d] /\ ~ dom [] (root t) w) \/ (k <> [] /\ pprefix k w)).
Proof.
  intros Hd RO M C PA. destruct (plain_reach_inv D t PR) as [WT _]. destruct RO as [->|q Hw H].
  - cbn in C. injection C as <-. exists [], (root t), None. split; [|split; [reflexivity|split; [reflexivity|split; [|now left]]]].
    + rewrite ents_eq. left. now rewrite (proj1 (proj1 WT)).
    + left. rewrite (proj1 (proj1 WT)). auto.
  - destruct H as [r MO E|k m p H P K N|c p|]; cbn in M; try discriminate.
    + destruct MO as [k m p H P K|k m p|k m p|]; cbn in E; try discriminate. cbn in C. injection C as <-.
      exists k, m, p. split; [exact H|]. split; [reflexivity|]. split; [reflexivity|]. split; [exact P|]. cbn in K. tauto.
    + cbn in C. injection C as <-. exists k, m, p. split; [exact H|]. split; [reflexivity|]. split; [reflexivity|]. split; [exact P|].
      right. right. split; [|exact K]. intros ->. apply N. apply ents_prefix in H. destruct H as [z Z]. cbn in Z. symmetry in Z.
      destruct P as [(-> & X & _)|(kp & mm & _ & _ & X & _)]; symmetry in X; apply app_eq_nil in X; tauto.
Qed.
Lemma srch_node d w r n : D d -> srch d (root t) w r -> hs_node r = Some n -> hs_partial r = false ->
  hs_kv r = [] /\
  exists k m par, In (k, m) (ents [] (root t)) /\ n = nid m /\ hs_parent r = option_map nid par /\ par_ok [] (root t) None k m par /\
    (k = w \/ (k = w ++ [d] /\ ~ dom [] (root t) w) \/ (k <> [] /\ pprefix k w)).
Proof.
  intros Hd (q & RO & ->) N P. destruct (hm_matched q || hm_partial q) eqn:E; cbn in N, P; [|discriminate].
  rewrite P, orb_false_r in E. split.
  - cbn. destruct RO as [|q _ H]; [reflexivity|exact (hout_kv _ _ _ _ _ _ _ H)].
  - cbn. apply found_key; auto.
Qed.
Lemma srch_kv d w r : srch d (root t) w r -> hs_kv r = [].
Proof.
  intros (q & RO & ->). destruct (_ || _); [|reflexivity]. cbn. destruct RO as [|q _ H]; [reflexivity|exact (hout_kv _ _ _ _ _ _ _ H)].
Qed.
Lemma query_sees rf h dep p : depth (root t) <= dep -> D (hdelim h) -> hmode h <> ModeUp ->
  sees h0 False (may_see t (hdelim h) (runes (full h p))) (p_query (S rf) dep h (nid (root t)) p).
Proof.
  intros DP Hd HM. pose proof TI as (W & RR & _). destruct (plain_reach_inv D t PR) as [WT _]. unfold p_query.
  eapply sees_bind; [apply search_sees; auto; [apply WT|now apply plain_root|apply WT]|].
  intros r Hr. cbn beta. destruct (hs_node r) as [n|] eqn:N; [|constructor; left; now rewrite (srch_kv _ _ _ Hr)].
  destruct (hs_partial r) eqn:P; [constructor; left; now rewrite (srch_kv _ _ _ Hr)|].
  destruct (srch_node _ _ _ _ Hd Hr N P) as (KV & k & m & par & H & -> & _ & _ & KK).
  pose proof (sub_repr _ _ _ RR (ents_sub _ _ _ _ H)) as Rm. apply repr_eq in Rm. destruct Rm as [(s & E & Ft & _) _].
  destruct Ft as (P1 & P2 & P3 & P4 & P5 & P6 & P7).
  assert (FIN : forall v, v = (if hasData m then ndata m else GNil) ->
    may_see t (hdelim h) (runes (full h p)) (QRes v (isBranch m) (if isBranch m then endsWith m (hdelim h) else true) (hs_kv r))).
  { intros v ->. right. exists k, (attr_of (info_of m)). split; [now apply ents_get|]. split.
    - unfold answer_of. rewrite KV. rewrite isBranch_bit, hasData_bit, (endsWith_key (hdelim h) t WT _ _ H).
      cbn [a_has a_data a_leaf attr_of info_of i_type i_data]. f_equal. now destruct (t_leaf (ntype m)).
    - destruct KK as [->|[[-> KK]|KK]]; auto. right. left. split; [reflexivity|now apply get_none]. }
  assert (BR : forall j, isBranch (view (nid m) (shorter s j)) = isBranch m) by (intros; unfold isBranch, view; cbn; now rewrite P7).
  assert (HD : forall j, hasData (view (nid m) (shorter s j)) = hasData m) by (intros; unfold hasData, view; cbn; now rewrite P7).
  assert (EW : forall j, endsWith (view (nid m) (shorter s j)) (hdelim h) = endsWith m (hdelim h)) by (intros; unfold endsWith, view; cbn; now rewrite P1).
  apply sees_node with s; auto. intros j1 _. rewrite BR.
  apply sees_bind with (Q := fun f => f = if isBranch m then endsWith m (hdelim h) else true).
  - destruct (isBranch m); [|now constructor]. apply sees_node with s; auto. intros j2 _. constructor. apply EW.
  - intros f ->. apply sees_node with s; auto. intros j3 _. rewrite HD. destruct (hasData m) eqn:HM'.
    + apply sees_node with s; auto. intros j4 _. constructor. apply FIN. cbn. congruence.
    + constructor. now apply FIN.
Qed.
Lemma removeEx_sees grow rf h dep p : depth (root t) <= dep -> D (hdelim h) -> hmode h <> ModeUp ->
  sees h0 True (fun _ => True) (p_removeEx grow (S rf) dep h (nid (root t)) p).
Proof.
  intros DP Hd HM. pose proof TI as (W & RR & _). destruct (plain_reach_inv D t PR) as [WT _]. unfold p_removeEx.
  eapply sees_bind; [eapply sees_weak; [|apply search_sees; auto; [apply WT|now apply plain_root|apply WT]]; intros []|].
  intros r Hr. cbn beta. destruct (hs_node r) as [n|] eqn:N; [|now constructor].
  destruct (hs_partial r) eqn:P; [now constructor|].
  destruct (srch_node _ _ _ _ Hd Hr N P) as (KV & k & m & par & H & -> & -> & PO & KK).
  destruct PO as [(_ & _ & ->)|(kp & f & Hf & _ & _ & ->)]; [now constructor|]. cbn [option_map].
  pose proof (sub_repr _ _ _ RR (ents_sub _ _ _ _ Hf)) as Rf. apply repr_eq in Rf. destruct Rf as [(s & E & _) _].
  now apply remove_sees with s.
Qed.
End Team.

Lemma sees_then {A B} h0 dies (Q : A -> Prop) (f : A -> B) p : sees h0 dies Q p ->
  sees h0 dies (fun y => exists x, y = f x /\ Q x) (let* x := p in Ret (f x)).
Proof. intros S. eapply sees_bind; [exact S|]. intros x Hx. constructor. eauto. Qed.

Lemma race_remove grow rf D h0 t rems gets dep sch : tree_in h0 (root t) -> plain_reach D t -> depth (root t) <= dep ->
  (forall h p, In (h, p) (rems ++ gets) -> D (hdelim h) /\ hmode h <> ModeUp) ->
  let (ps, m) := schedule sch (map (remover grow (S rf) dep (nid (root t))) rems ++ map (getter (S rf) dep (nid (root t))) gets) h0 in
  (exists R', repr m R' /\ nid R' = nid (root t) /\ forall k i, In (k, i) (ients [] R') -> In (k, i) (ients [] (root t))) /\
  (forall p, In p ps -> p <> Spin) /\
  (forall i h p x, nth_error gets i = Some (h, p) -> nth_error ps (length rems + i) = Some x ->
     x <> Die /\ forall y, x = Ret y -> exists q, y = Saw q /\ may_see t (hdelim h) (runes (full h p)) q).
Proof.
  intros TI PR DP HH. pose proof TI as (W & RR & _).
  set (Qr := fun _ : hdl * gostring => (True, fun y : reply => exists b, y = Gone b /\ True)).
  set (Qg := fun g : hdl * gostring => (False, fun y : reply => exists q, y = Saw q /\ may_see t (hdelim (fst g)) (runes (full (fst g) (snd g))) q)).
  assert (F : watched h0 (map Qr rems ++ map Qg gets)
     (map (remover grow (S rf) dep (nid (root t))) rems ++ map (getter (S rf) dep (nid (root t))) gets) h0).
  { split; [apply thin_refl|]. apply Forall2_app.
    - assert (Y : forall l, incl l rems -> Forall2 (fun Q p => sees h0 (fst Q) (snd Q) p) (map Qr l) (map (remover grow (S rf) dep (nid (root t))) l));
        [|apply Y, incl_refl].
      induction l as [|[h p] l IH]; intros I; cbn [map]; constructor; [|apply IH; intros x Hx; apply I; now right].
      destruct (HH h p) as [Hd Hm]; [apply in_app_iff; left; apply I; now left|].
      unfold remover, Qr. cbn [fst snd]. apply (sees_then h0 True (fun _ => True) Gone). now apply removeEx_sees with D.
    - assert (Y : forall l, incl l gets -> Forall2 (fun Q p => sees h0 (fst Q) (snd Q) p) (map Qg l) (map (getter (S rf) dep (nid (root t))) l));
        [|apply Y, incl_refl].
      induction l as [|[h p] l IH]; intros I; cbn [map]; constructor; [|apply IH; intros x Hx; apply I; now right].
      destruct (HH h p) as [Hd Hm]; [apply in_app_iff; right; apply I; now left|].
      unfold getter, Qg. cbn [fst snd]. apply (sees_then h0 False (may_see t (hdelim h) (runes (full h p))) Saw). now apply query_sees with D. }
  apply (schedule_watched h0 W sch) in F. destruct (schedule sch _ h0) as [ps m]. cbn [fst snd] in F. destruct F as [T F].
  split; [|split].
  - destruct (left_over h0 m T (root t) RR) as (R' & R1 & R2 & _ & _ & R3). exists R'. split; [exact R1|]. split; [exact R2|].
    intros k i Hi. now apply (R3 []).
  - intros p Hp. apply In_nth_error in Hp. destruct Hp as [i Hi]. destruct (Forall2_nth_error' _ _ _ _ _ F Hi) as (Q & _ & S). intros ->. inversion S.
  - intros i h p x Hi Hx. destruct (Forall2_nth_error' _ _ _ _ _ F Hx) as (Q & HQ & S).
    rewrite nth_error_app2 in HQ by (rewrite map_length; lia). rewrite map_length in HQ.
    replace (length rems + i - length rems) with i in HQ by lia. rewrite nth_error_map, Hi in HQ. injection HQ as <-. cbn [fst snd Qg] in S.
    split; [intros ->; inversion S as [|[]| | | | |]|]. intros y ->. inversion S as [z Hz| | | | | |]; subst. exact Hz.
Qed.

(** ** alone *)
Lemma removeEx_run grow rf h h0 t dep p t' n par b : tree_in h0 (root t) -> depth (root t) <= dep ->
  RemoveEx rf h t p = Ok (t', n, par, b) ->
  exists h', run (p_removeEx grow rf dep h (nid (root t)) p) h0 = Ok (h', b) /\ tree_in h' (root t') /\
    forall Q, repr h0 Q -> apart (root t) Q -> repr h' Q.
Proof.
  intros TI DP E. pose proof TI as (W & RR & WT). unfold RemoveEx in E.
  destruct (search rf h t (full h p)) as [r| |] eqn:S; cbn [bind] in E; try discriminate.
  assert (S' : search rf h (Tr (root t) (next t)) (full h p) = Ok r) by (destruct t; exact S).
  unfold p_removeEx. rewrite run_seq, (search_run h0 rf h (root t) (next t) dep _ r W RR DP S'). cbn [sids hs_node hs_partial hs_parent].
  destruct (Trie.s_node r) as [c|] eqn:N; cbn [option_map].
  2: { injection E as <- <- <- <-. exists h0. auto. }
  destruct (Trie.s_partial r); [injection E as <- <- <- <-; exists h0; auto|].
  destruct (Trie.s_parent r) as [f|] eqn:P; cbn [option_map]; [|injection E as <- <- <- <-; exists h0; auto].
  destruct (search_in rf h t _ r S c N) as (k & Hk & PO). rewrite P in PO.
  destruct PO as [(_ & _ & X)|(kp & f' & Hf & Hc & Ek & X)]; [discriminate|]. injection X as <-.
  assert (FST : fst (remove_id (nid c) (nkids f)) = true).
  { clear -Hc. induction (nkids f) as [|x l IH]; [easy|]. cbn. destruct (Nat.eqb_spec (nid x) (nid c)); [reflexivity|].
    destruct Hc as [->|Hc]; [congruence|]. specialize (IH Hc). now destruct (remove_id (nid c) l). }
  rewrite FST in E. injection E as <- <- <- <-. cbn [root].
  pose proof (sub_repr _ _ _ RR (ents_sub _ _ _ _ Hf)) as Rf. apply repr_eq in Rf. destruct Rf as [(s & Es & _ & Ks) _].
  destruct (remove_in grow h0 (root t) (nid f) (nid c) TI) as (h' & b' & RUN & T' & AP).
  - apply sub_in. now apply ents_sub with (1 := Hf).
  - apply (remove_refines (Tr (root t) (nn h0)) (entries (Tr (root t) (nn h0))) kp f c); auto. apply abs_entries.
  - exists h'. split; [|split; [exact T'|exact AP]]. rewrite RUN. f_equal. f_equal.
    destruct (remove_spec grow h0 (nid f) s (nid c) W Es) as (h1 & sl & b1 & RUN1 & B & _). rewrite RUN in RUN1. injection RUN1 as <- <-.
    apply B. rewrite Ks. now apply in_map.
Qed.

(** ** runs with surprises *)
From Coq Require Import String.
Definition room (_ : nat) : nat := 4.
Definition built (grow : nat -> nat) (l : list (gostring * gval)) : heap :=
  match run (p_sets grow 0 l) newHeap with Ok (h, _) => h | _ => newHeap end.
Definition app_box : list (gostring * gval) :=
  [(s2b "app"%string, GStr [49%N]); (s2b "apple"%string, GStr [50%N]); (s2b "box"%string, GStr [51%N])].
Definition key (s : string) : hdl * gostring := (defaultHdl, s2b s).
(** the goroutine 1 takes [i] steps, then goroutine 0 finishes, then the others do, one after the other *)
Definition cut_in (i : nat) : list nat := repeat 1 i ++ repeat 0 60 ++ repeat 1 60 ++ repeat 2 60 ++ repeat 3 60 ++ repeat 4 60.
Definition replies (ps : list (prog reply)) (h : heap) (i : nat) : list (prog reply) := fst (schedule (cut_in i) ps h).
Definition rem := remover no_room 1 5 0.
Definition get := getter 1 5 0.
Definition none : qres := QRes GNil false false [].
Definition one (c : N) : qres := QRes (GStr [c]) false true [].

Lemma get_beside_other : exists i, replies [rem (key "a"); get (key "b")] h_abc i = [Ret (Gone true); Ret (Saw none)].
Proof. exists 4. vm_compute. reflexivity. Qed.
Lemma get_beside_same : exists i, replies [rem (key "apple"); get (key "apple")] (built no_room app_box) i =
  [Ret (Gone true); Ret (Saw (one 49%N))].
Proof. exists 9. vm_compute. reflexivity. Qed.
(** both remove apple: app goes too *)
Lemma remove_twice : exists i, replies [rem (key "apple"); rem (key "apple"); get (key "app"); get (key "box")] (built no_room app_box) i =
  [Ret (Gone true); Ret (Gone true); Ret (Saw none); Ret (Saw (one 51%N))].
Proof. exists 9. vm_compute. reflexivity. Qed.
Lemma remove_twice_panics : exists i, nth_error (replies [rem (key "apple"); rem (key "apple")] (built no_room app_box) i) 1 = Some Die.
Proof. exists 15. vm_compute. reflexivity. Qed.
(** a and c are removed, c stays *)
Lemma remove_lost : exists i, replies [rem (key "a"); rem (key "c"); get (key "a"); get (key "b"); get (key "c")] h_abc i =
  [Ret (Gone true); Ret (Gone true); Ret (Saw none); Ret (Saw (one 50%N)); Ret (Saw (one 51%N))].
Proof. exists 21. vm_compute. reflexivity. Qed.
(** a and b are removed, b stays and c goes *)
Lemma remove_wrong : exists i, replies [rem (key "a"); rem (key "b"); get (key "a"); get (key "b"); get (key "c")] h_abc i =
  [Ret (Gone true); Ret (Gone true); Ret (Saw none); Ret (Saw (one 50%N)); Ret (Saw none)].
Proof. exists 13. vm_compute. reflexivity. Qed.
(** d is set, a is removed: d is not there *)
Lemma set_lost : exists i, replies [setter room 0 [(s2b "d", GStr [52%N])]; remover room 1 5 0 (key "a"); get (key "d"); get (key "b"); get (key "c")] (built room abc) i =
  [Ret Stored; Ret (Gone true); Ret (Saw none); Ret (Saw (one 50%N)); Ret (Saw (one 51%N))].
Proof. exists 11. vm_compute. reflexivity. Qed.
(** one after the other, all is as it should be *)
Lemma in_order : replies [rem (key "a"); rem (key "b"); get (key "a"); get (key "b"); get (key "c")] h_abc 0 =
    [Ret (Gone true); Ret (Gone true); Ret (Saw none); Ret (Saw none); Ret (Saw (one 51%N))] /\
  replies [rem (key "apple"); rem (key "apple"); get (key "app"); get (key "box")] (built no_room app_box) 0 =
    [Ret (Gone true); Ret (Gone false); Ret (Saw (one 49%N)); Ret (Saw (one 51%N))].
Proof. split; vm_compute; reflexivity. Qed.
