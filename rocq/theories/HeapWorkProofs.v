(** Goroutines that read, set, tag, comment and remove keys in sections of their own: what they reply and what they leave. *)
From Coq Require Import List NArith Bool Arith Lia Permutation.
From Verif Require Import Cvter GoStr Utf8 Node NodeWf InsertProofs MatchProofs Trie TreeOps Spec Refine Climb ApiRefine Reach Effect
  Derived Derived2 Derived3 Derived4 Derived5 Heap HeapProofs HeapWalk HeapRace HeapGet HeapGetProofs HeapRemove HeapOwn NoId HeapFair
  HeapSect HeapStore HeapSee HeapSeeProofs HeapExport HeapAsk HeapLin HeapWork WorkSpec.
Import ListNotations.
Open Scope nat_scope.

(** ** what a goroutine owns, as a memory *)
Definition only (L : mine) (m : node) : heap :=
  Heap (fun a => if in_dec Nat.eq_dec a (ids m) then mn L a else None)
       (fun r => match ma L r with Some l => l | None => [] end)
       (S (list_max (ids m)))
       (S (list_max (map (fun a => match mn L a with Some s => sl_arr (hkids s) | None => 0 end) (ids m)))).
Lemma max_in x l : In x l -> x <= list_max l.
Proof. intros H. pose proof (proj1 (list_max_le l (list_max l)) (le_n _)) as F. rewrite Forall_forall in F. auto. Qed.
Lemma only_wf L m : lwf L -> hwf (only L m).
Proof.
  intros LW. constructor; cbn.
  - intros a s. destruct (in_dec _ _ _) as [Ha|]; [|discriminate]. intros E. split; [apply le_n_S, max_in, Ha|]. split.
    + apply le_n_S, max_in, in_map_iff. exists a. rewrite E. auto.
    + destruct (lwf_in _ LW a s E) as [X|(l & X & Y)]; [rewrite X; cbn; lia|rewrite X; exact Y].
  - intros a b s t. destruct (in_dec _ a _); [|discriminate]. destruct (in_dec _ b _); [|discriminate]. apply LW.
  - rewrite (lwf_nil _ LW). split; [reflexivity|lia].
Qed.
Lemma only_repr L m : lwf L -> lrep L m -> repr (only L m) m.
Proof.
  intros LW. assert (X : forall n, incl (ids n) (ids m) -> lrep L n -> repr (only L m) n).
  { induction n as [n IH] using node_ind'. intros I R. inversion R as [n0 s l H1 H2 H3 H4 H5]; subst. apply repr_eq. split.
    - exists s. split; [cbn; destruct (in_dec _ _ _) as [|N]; [exact H1|destruct N; apply I; rewrite ids_eq; now left]|].
      split; [exact H2|]. unfold kids_of. cbn. destruct H3 as [[Q ->]|Q].
      + rewrite Q in *. cbn in *. exact H4.
      + now rewrite Q.
    - rewrite Forall_forall in *. intros k Hk. apply IH; auto. intros a Ha. apply I. rewrite ids_eq. right. apply in_flat_map. eauto. }
  apply X, incl_refl.
Qed.

Section Work.
Variable grow : nat -> nat.
Variable sh : mine.
Variable pth : nat -> option (list rune).
Hypothesis Z0 : ma sh 0 = Some [].
Notation owned := (owns sh asis pth any).

Lemma reads_owned {A} L m (x : A) p : lwf L -> reads (only L m) x p -> owned (fun L' y => L' = L /\ y = x) L p.
Proof.
  intros LW R. induction R as [|a s k E _ IH|r i c k E _ IH].
  - constructor. auto.
  - cbn in E. destruct (in_dec _ _ _); [|discriminate]. apply ow_mynode with s; [exact E|]. apply IH. repeat split.
  - cbn in E. destruct (ma L r) as [l|] eqn:El; [|destruct i; discriminate]. apply ow_myelem with l c; auto.
Qed.

(** ** a search goes down to the section *)
Definition hnorm (r : hmres) : hmres := if hm_matched r || hm_partial r then r else HM false false None None (hm_kv r).
Lemma sibling_owned rf d L a c p w word lrd par kv f : readable sh pth L a (c :: p) -> c <> w ->
  lrd && ((c =? colon) || (c =? star))%N = false ->
  owned (fun L' x => L' = L /\ x = HM false false None None kv) L (p_matchR (S rf) (S f) d a (w :: word) lrd par kv).
Proof.
  intros RD NE CO. cbn [p_matchR length Nat.eqb]. apply node_readable with (1 := RD). intros t0 E0. rewrite E0. cbn [length Nat.min p_scan].
  cbn [seqp]. apply node_readable with (1 := RD). intros t1 E1. rewrite E1. cbn [nth_error]. rewrite (proj2 (N.eqb_neq c w) NE).
  cbn [seqp Nat.ltb Nat.leb]. apply node_readable with (1 := RD). intros t2 E2. rewrite retriever_plain by exact CO.
  cbn [seqp hexit_of hids m_matched m_partial m_child m_parent m_kv option_map]. constructor. auto.
Qed.
Lemma scan_spine a s d lrd : mn sh a = Some s -> forall k word pre L, hpath s = pre ++ k ->
  forall word', word = k ++ word' -> forall (Q : mine -> nat * bool * rune -> Prop), Q L (length pre + length k, lrd_end d lrd k, 0%N) ->
  owned Q L (p_scan a d word (length pre) (length k) lrd).
Proof.
  intros E k. revert lrd. induction k as [|c k IH]; intros lrd word pre L Ep word' -> Q HQ; cbn [length p_scan].
  - constructor. rewrite Nat.add_0_r in HQ. exact HQ.
  - apply ow_node with s; [exact E|]. intros t ->. rewrite Ep, nth_error_app2, Nat.sub_diag by lia. cbn [nth_error app]. rewrite N.eqb_refl.
    replace (S (length pre)) with (length (pre ++ [c])) by (rewrite app_length; cbn; lia).
    apply IH with word'; [now rewrite <- app_assoc|reflexivity|]. rewrite app_length. cbn [length lrd_end fold_left] in *.
    replace (length pre + 1 + length k) with (length pre + S (length k)) by lia. exact HQ.
Qed.
Definition sib_ok (d : rune) (lrd : bool) (w : rune) (k : node) : Prop :=
  npath k <> [] /\ hd_error (npath k) <> Some w /\ lrd && ((nth 0 (npath k) 0 =? colon) || (nth 0 (npath k) 0 =? star))%N = false.
(** past siblings *)
Lemma each_miss rf d w word lrd par f r arr (Q : mine -> hmres -> Prop) rest0 ks : forall i L last, ma sh r = Some arr ->
  firstn (length ks) (skipn i arr) = map nid ks ->
  Forall (fun k => readable sh pth nothing (nid k) (npath k)) ks -> Forall (sib_ok d lrd w) ks ->
  (forall last', hm_kv last' = hm_kv last -> (ks = [] /\ last' = last \/ last' = HM false false None None (hm_kv last)) ->
     owned Q L (p_each (fun c kv => p_matchR (S rf) (S f) d c (w :: word) lrd par kv) r (i + length ks) rest0 last')) ->
  owned Q L (p_each (fun c kv => p_matchR (S rf) (S f) d c (w :: word) lrd par kv) r i (length ks + rest0) last).
Proof.
  induction ks as [|k ks IH]; intros i L last E F RD SO H; cbn [length Nat.add].
  - rewrite <- (Nat.add_0_r i). apply H; auto.
  - cbn [p_each]. inversion RD as [|? ? RD1 RD2]; subst. inversion SO as [|? ? SO1 SO2]; subst. cbn [length map] in F.
    destruct (skipn i arr) as [|x t] eqn:Es; [discriminate|]. cbn [firstn] in F. injection F as -> F.
    apply ow_elem with arr (nid k); [exact E|now apply nth_error_skipn with t|].
    destruct SO1 as (NE & HD & CO). destruct (npath k) as [|c p] eqn:Ep; [congruence|]. cbn [hd_error nth] in *.
    eapply owns_bind; [apply sibling_owned with c p; [now apply readable_any|congruence|exact CO]|]. intros L' x [-> ->]. cbn [hm_matched hm_partial orb].
    apply IH; auto.
    + assert (T' : skipn (S i) arr = t).
      { clear -Es. revert i Es. induction arr as [|a l IH]; intros [|i] Es; cbn in *; try discriminate; [congruence|auto]. }
      now rewrite T'.
    + intros last' H1 H2. cbn [hm_kv] in *. replace (S i + length ks) with (i + S (length ks)) by lia. apply H; [exact H1|].
      right. destruct H2 as [[_ ->]|H2]; [reflexivity|exact H2].
Qed.
Definition lastp (C : ctx) (m : node) (par : option nat) : option nat :=
  match C with Hole => par | _ => option_map nid (last_spine C m None) end.
Lemma lastp_eq C m : lastp C m None = option_map nid (last_spine C m None).
Proof. destruct C; reflexivity. Qed.
Lemma last_spine_par C m p p' : C <> Hole -> last_spine C m p = last_spine C m p'.
Proof. destruct C; [congruence|reflexivity]. Qed.
Lemma down_match (Q : mine -> hmres -> Prop) rf d m f v C : (npath m <> [] -> hd_error v = hd_error (npath m)) ->
  forall L lrd par kv, cok2 C (npath m) -> cold d lrd C -> cshare sh pth C (nid m) (npath m) ->
  owned (fun L' x => Q L' (hnorm x)) L (p_matchR (S rf) (S f) d (nid m) v (lrd_end d lrd (cpre C)) (lastp C m par) kv) ->
  owned (fun L' x => Q L' (hnorm x)) L (p_matchR (S rf) (clen C + S f) d (cid C (nid m)) (cpre C ++ v) lrd par kv).
Proof.
  intros HV. induction C as [|n l C IH r]; intros L lrd par kv OK CO SH O; [exact O|].
  destruct OK as (NE & SIB & OK). destruct CO as (COK & CO).
  destruct (enters C (npath m) v NE HV) as (w & word & EW & HW).
  destruct SH as ((s & arr & E1 & E2 & E3 & E4 & E5) & RD & SH).
  specialize (IH L (lrd_end d lrd (npath n)) (Some (nid n)) kv OK CO SH).
  assert (LP : lastp (Down n l C r) m par = lastp C m (Some (nid n))).
  { unfold lastp. destruct C as [|n' l' C' r']; [reflexivity|]. f_equal. }
  rewrite LP in O. cbn [cpre] in O. rewrite lrd_end_app in O. specialize (IH O). clear O LP.
  cbn [clen Nat.add cpre cid]. rewrite <- app_assoc, EW in *.
  replace (S (clen C + S f)) with (S (S (clen C + f))) by lia. replace (clen C + S f) with (S (clen C + f)) in IH by lia.
  set (W := npath n ++ w :: word). assert (WL : length W = length (npath n) + S (length word)) by (unfold W; rewrite app_length; reflexivity).
  cbn [p_matchR]. apply ow_node with s; [exact E1|]. intros t ->. rewrite E2.
  replace (length W =? 0) with false by (rewrite WL, Nat.add_succ_r; reflexivity).
  assert (ML : Nat.min (length (npath n)) (length W) = length (npath n)) by lia. rewrite ML.
  eapply owns_bind with (Q := fun L' x => L' = L /\ x = (length (npath n), lrd_end d lrd (npath n), 0%N)).
  { apply (scan_spine (nid n) s d lrd E1 (npath n) W [] L) with (word' := w :: word); auto. }
  intros L' x [-> ->]. rewrite Nat.ltb_irrefl. cbn [seqp].
  eapply owns_bind with (Q := fun L' _ => L' = L).
  { unfold p_after. replace (S (length (npath n)) =? length (npath n)) with false by (symmetry; apply Nat.eqb_neq; lia). constructor. reflexivity. }
  intros L' [[[ma0 pa0] ch0] pn0] ->.
  replace (length (npath n) <? length W) with true by (symmetry; apply Nat.ltb_lt; lia).
  apply ow_node with s; [exact E1|]. intros t ->. rewrite E4. replace (length l + S (length r) =? 0) with false by (rewrite Nat.add_succ_r; reflexivity).
  apply ow_node with s; [exact E1|]. intros t ->. rewrite E4. cbn [Nat.eqb].
  replace (skipn (length (npath n)) W) with (w :: word) by (unfold W; symmetry; apply skip_app).
  apply Forall_app in RD. destruct RD as [RD1 RD2].
  assert (SO : Forall (sib_ok d (lrd_end d lrd (npath n)) w) (l ++ r)).
  { apply Forall_forall. intros k Hk. destruct (SIB k Hk) as [X1 X2]. split; [exact X1|]. split; [congruence|now apply COK]. }
  apply Forall_app in SO. destruct SO as [SO1 SO2].
  assert (EL : firstn (length l) (skipn 0 arr) = map nid l /\ nth_error arr (length l) = Some (cid C (nid m)) /\ firstn (length r) (skipn (S (length l)) arr) = map nid r).
  { rewrite E4 in E5. revert E5. clear. generalize (map_length nid l) (map_length nid r). cbn [skipn]. generalize (map nid l) (map nid r) (cid C (nid m)). intros x y z. revert x arr.
    generalize (length l) (length r). induction n as [|n IH]; intros b x arr L1 L2; destruct x as [|x0 x]; try discriminate; cbn [Nat.add app].
    - destruct arr as [|a arr]; cbn; [discriminate|]. intros E. injection E as -> E. auto.
    - destruct arr as [|a arr]; cbn [firstn]; [discriminate|]. intros E. injection E as -> E. cbn in L1. injection L1 as L1.
      destruct (IH b x arr L1 L2 E) as (I1 & I2 & I3). cbn. rewrite I1. auto. }
  destruct EL as (EL1 & EL2 & EL3).
  apply each_miss with (arr := arr); auto. intros last1 K1 _. cbn [Nat.add hm_kv p_each] in *.
  apply ow_elem with arr (cid C (nid m)); [exact E3|exact EL2|]. rewrite K1.
  eapply owns_bind; [exact IH|]. cbn beta. intros L' x HQ.
  destruct (hm_matched x || hm_partial x) eqn:MX; [constructor; exact HQ|].
  rewrite <- (Nat.add_0_r (length r)). apply each_miss with (arr := arr); auto. intros last2 _ H2. cbn [p_each]. constructor.
  destruct H2 as [[_ ->]|H2]; [exact HQ|]. subst last2. unfold hnorm in *. cbn. now rewrite MX in HQ.
Qed.
Definition hsr (s : Trie.sres) : hsres := HS (option_map nid (s_node s)) (option_map nid (s_parent s)) (s_partial s) (s_kv s).
Lemma search_owned rf h C m L v w dep r : hmode h <> ModeUp -> runes w = cpre C ++ v -> (npath m <> [] -> hd_error v = hd_error (npath m)) -> lwf L -> lrep L m ->
  cok2 C (npath m) -> cold (hdelim h) false C -> cshare sh pth C (nid m) (npath m) -> clen C + depth m <= dep ->
  matchR (S rf) (hdelim h) m v (lrd_end (hdelim h) false (cpre C)) (last_spine C m None) [] = Ok r ->
  owned (fun L' x => L' = L /\ x = hsr (sr r)) L (p_search (S rf) dep h (cid C (nid m)) w).
Proof.
  intros MU EK HV LW R OK CO SH DP EM. unfold p_search. rewrite EK.
  assert (D1 : 1 <= depth m) by (rewrite depth_eq; lia). remember (dep - clen C - 1) as f eqn:Ef. replace dep with (clen C + S f) by lia.
  eapply owns_bind with (Q := fun L' x => L' = L /\ hnorm x = hnorm (hids r)).
  { apply (down_match (fun L' x => L' = L /\ x = hnorm (hids r))); auto. rewrite lastp_eq.
    eapply owns_mono; [apply reads_owned with (m := m) (x := hids r); [exact LW|]|intros L' x [-> ->]; auto].
    apply matchR_reads; auto; [now apply only_wf|now apply only_repr|lia]. }
  intros L' x [-> E]. unfold hnorm in E. unfold sr. cbn [hids hm_matched hm_partial] in E.
  destruct (m_matched r || m_partial r) eqn:MR; destruct (hm_matched x || hm_partial x) eqn:MX.
  - subst x. constructor. split; reflexivity.
  - exfalso. apply (f_equal (fun y => hm_matched y || hm_partial y)) in E. cbn in E. congruence.
  - exfalso. subst x. discriminate.
  - assert (KV : hm_kv x = m_kv r) by (apply (f_equal hm_kv) in E; exact E). rewrite KV.
    destruct (hmode h); try congruence; constructor; split; reflexivity.
Qed.

(** ** a change at one node *)
Lemma at_pos_ctx p : forall m c, at_pos p m = Some c -> exists D, plug D c = m.
Proof.
  induction p as [|i p IH]; cbn [at_pos]; intros m c H; [injection H as <-; exists Hole; reflexivity|].
  destruct (nth_error (nkids m) i) as [k|] eqn:E; [|discriminate]. apply nth_error_split in E. destruct E as (l & r & E & _).
  destruct (IH k c H) as [D <-]. exists (Down m l D r). cbn [plug]. rewrite <- E. now destruct m.
Qed.
Lemma became_plug D n L L' n' : lwf L' -> lrep L (plug D n) -> NoDup (ids (plug D n)) -> keep L L' (fun a => In a (ids n)) -> lrep L' n' -> NoDup (ids n') ->
  nid n' = nid n -> (forall a, In a (ids n') -> In a (ids n) \/ mn L a = None /\ pth a = None) ->
  became pth L (plug D n) L' (plug D n') (fun a => In a (ids n)).
Proof.
  intros LW R ND KP R' ND' EI IN. induction D as [|x l D IH r]; cbn [plug] in *; [constructor; auto|].
  inversion R as [n0 s arr H1 H2 H3 H4 H5]; subst n0. cbn [nid nkids set_kids] in *. pose proof H5 as H5'. rewrite Forall_forall in H5'.
  set (y := set_kids x (l ++ plug D n :: r)) in *. assert (EY : nkids y = l ++ plug D n :: r) by reflexivity.
  assert (IC : In (plug D n) (l ++ plug D n :: r)) by (apply in_app_iff; right; now left).
  destruct (kid_only y l (plug D n) r (nid (plug D n)) ND EY) as (_ & _ & _ & NDK); [rewrite ids_eq; now left|].
  specialize (IH (H5' _ IC) NDK). destruct IH as [A1 A2 A3 A4 A5 A6].
  assert (SEP : forall a, In a (ids n) -> nid x <> a /\ (forall c, In c l -> ~ In a (ids c)) /\ (forall c, In c r -> ~ In a (ids c))).
  { intros a Ha. destruct (kid_only y l (plug D n) r a ND EY) as (B1 & B2 & B3 & _); [apply ids_plug; auto|]. auto. }
  assert (SEP2 : forall a, In a (ids (plug D n')) -> nid x <> a /\ (forall c, In c l -> ~ In a (ids c)) /\ (forall c, In c r -> ~ In a (ids c))).
  { intros a Ha. destruct (A6 a Ha) as [X|[X _]].
    - destruct (kid_only y l (plug D n) r a ND EY X) as (B1 & B2 & B3 & _). auto.
    - assert (NOT : forall c, In c (nkids y) -> ~ In a (ids c)) by (intros c Hc Hi; destruct (lrep_dom _ _ (H5' c Hc) a Hi); congruence).
      split; [congruence|]. split; intros c Hc; apply NOT; rewrite EY, in_app_iff; cbn; auto. }
  constructor; auto.
  - destruct (A5 (nid x) s H1) as [B1 B2]; [intros X; now apply (SEP _ X)|]. apply lrep_intro with s arr; cbn [nid nkids set_kids]; auto.
    + rewrite H4, !map_app. cbn [map]. now rewrite A4.
    + apply Forall_app in H5. destruct H5 as [Fl Fr]. inversion Fr as [|? ? _ Fr']; subst. rewrite Forall_forall in Fl, Fr'.
      apply Forall_app. split; [|constructor; [exact A2|]]; apply Forall_forall; intros k Hk; apply lrep_keep with (1 := A5); auto;
        intros a Ha Hi; destruct (SEP a Hi) as (_ & S1 & S2); [now apply (S1 k)|now apply (S2 k)].
  - rewrite ids_eq. cbn [nid nkids set_kids]. rewrite flat_map_app. cbn [flat_map].
    assert (NDy : NoDup (nid x :: flat_map ids l ++ ids (plug D n) ++ flat_map ids r)).
    { rewrite ids_eq, EY, flat_map_app in ND. exact ND. }
    inversion NDy as [|? ? N1 N2]; subst. constructor.
    + rewrite !in_app_iff in *. intros [X|[X|X]]; [tauto|now apply (SEP2 _ X)|tauto].
    + apply NoDup_app_intro; [now apply NoDup_app_remove_r in N2| |].
      * apply NoDup_app_intro; [exact A3|now apply NoDup_app_remove_l, NoDup_app_remove_l in N2|].
        intros a Ha Hb. apply in_flat_map in Hb. destruct Hb as (c & Hc & Hb). destruct (SEP2 a Ha) as (_ & _ & S2). now apply (S2 c).
      * intros a Ha. rewrite in_app_iff. intros [Hb|Hb].
        -- apply in_flat_map in Ha. destruct Ha as (c & Hc & Ha). destruct (SEP2 a Hb) as (_ & S1 & _). now apply (S1 c).
        -- apply (NoDup_app_disjoint _ _ N2 a Ha). apply in_app_iff. auto.
  - intros a. rewrite (ids_eq (set_kids x (l ++ plug D n' :: r))), (ids_eq y), EY. cbn [nid nkids set_kids]. rewrite !flat_map_app. cbn [flat_map In]. rewrite !in_app_iff.
    intros [X|[X|[X|X]]]; auto. destruct (A6 a X); auto.
Qed.
Lemma upd_became D c L L' s s' c' : lwf L -> lrep L (plug D c) -> NoDup (ids (plug D c)) -> mn L (nid c) = Some s ->
  (forall a, mn L' a = if a =? nid c then Some s' else mn L a) -> (forall r, ma L' r = ma L r) ->
  hkids s' = hkids s -> fits c' s' -> nid c' = nid c -> nkids c' = nkids c ->
  became pth L (plug D c) L' (plug D c') (fun a => In a (ids c)).
Proof.
  intros LW R ND E MM MA HK FT NI NK.
  assert (RC : lrep L c).
  { revert R. clear. induction D as [|x l D IH r]; cbn [plug]; auto. intros R. inversion R as [n0 t arr H1 H2 H3 H4 H5]; subst. apply IH.
    rewrite Forall_forall in H5. apply H5. cbn. apply in_app_iff. right. now left. }
  pose proof (nodup_hole _ _ ND) as NC. inversion RC as [n0 t arr H1 H2 H3 H4 H5]; subst n0. assert (t = s) as -> by congruence.
  assert (AI : forall sl l1, arr_in L sl l1 -> arr_in L' sl l1) by (intros sl l1 [X|X]; [now left|right; now rewrite MA]).
  assert (KP : keep L L' (fun a => a = nid c)).
  { intros a t Et Na. split; [rewrite MM; destruct (Nat.eqb_spec a (nid c)); [tauto|exact Et]|intros; now apply AI]. }
  assert (SI : ids c' = ids c) by (rewrite !ids_eq; congruence).
  apply became_plug; auto.
  - constructor.
    + intros a t. rewrite MM. destruct (Nat.eqb_spec a (nid c)) as [->|Na]; intros Et.
      * injection Et as <-. rewrite HK. destruct (lwf_in _ LW _ _ E) as [X|(l1 & X1 & X2)]; [auto|right; exists l1; rewrite MA; auto].
      * destruct (lwf_in _ LW _ _ Et) as [X|(l1 & X1 & X2)]; [auto|right; exists l1; rewrite MA; auto].
    + intros a b t u. rewrite !MM. destruct (Nat.eqb_spec a (nid c)) as [->|Na]; intros Et; destruct (Nat.eqb_spec b (nid c)) as [->|Nb]; intros Eu Dab Q; try tauto.
      * injection Et as <-. rewrite HK in *. now apply (lwf_own _ LW (nid c) b s u).
      * injection Eu as <-. rewrite HK in *. now apply (lwf_own _ LW a (nid c) t s).
      * now apply (lwf_own _ LW a b t u).
    + rewrite MA. apply LW.
  - apply keep_weaken with (1 := KP). intros a ->. rewrite ids_eq. now left.
  - apply lrep_intro with s' arr; auto.
    + rewrite MM, NI, Nat.eqb_refl. reflexivity.
    + rewrite HK. now apply AI.
    + rewrite HK, NK. exact H4.
    + rewrite NK. rewrite Forall_forall in *. intros k Hk. apply lrep_keep with (1 := KP); auto. intros a Ha ->.
      rewrite ids_eq in NC. inversion NC as [|? ? X _]; subst. apply X. apply in_flat_map. eauto.
  - now rewrite SI.
  - intros a. rewrite SI. auto.
Qed.
Lemma lrep_hole L D c : lrep L (plug D c) -> lrep L c.
Proof.
  induction D as [|x l D IH r]; cbn [plug]; auto. intros R. inversion R as [n0 t arr H1 H2 H3 H4 H5]; subst. apply IH.
  rewrite Forall_forall in H5. apply H5. cbn. apply in_app_iff. right. now left.
Qed.

(** ** remove *)
Lemma find_owned L r l c : ma L r = Some l -> forall a b i k, firstn k (skipn i l) = a ++ c :: b -> ~ In c a ->
  owned (fun L' o => L' = L /\ o = Some (i + length a)) L (p_find r i k c).
Proof.
  intros E a. induction a as [|x a IH]; intros b i k F N; (destruct k as [|k]; [discriminate|]); (destruct (skipn i l) as [|y t] eqn:Es; [discriminate|]);
    cbn [firstn app] in F; injection F as -> F; pose proof (nth_error_skipn _ _ _ _ Es) as En; cbn [p_find]; eapply ow_myelem; eauto.
  - rewrite Nat.eqb_refl. constructor. cbn. now rewrite Nat.add_0_r.
  - destruct (Nat.eqb_spec x c) as [->|_]; [destruct N; now left|].
    assert (T' : skipn (S i) l = t).
    { clear -Es. revert i Es. induction l as [|z l IH]; intros [|i] Es; cbn in *; try discriminate; [congruence|auto]. }
    eapply owns_mono; [apply (IH b (S i) k); [now rewrite T'|intros X; apply N; now right]|].
    cbn. intros L' o [-> ->]. split; [reflexivity|]. f_equal. lia.
Qed.
Lemma write_owned r xs : forall L l i, ma L r = Some l -> i + length xs <= length l ->
  owned (fun L' _ => mn L' = mn L /\ exists l', length l' = length l /\ firstn (i + length xs) l' = firstn i l ++ xs /\
    forall q, ma L' q = if q =? r then Some l' else ma L q) L (p_write r i xs).
Proof.
  induction xs as [|x xs IH]; intros L l i E LE; cbn [p_write length] in *.
  - constructor. split; [reflexivity|]. exists l. rewrite Nat.add_0_r, app_nil_r. repeat split; auto. intros q. destruct (Nat.eqb_spec q r); congruence.
  - apply ow_myput with l; auto; [lia|exact I|].
    eapply owns_mono; [apply (IH _ (put l i x) (S i)); [cbn; now rewrite Nat.eqb_refl|rewrite put_length; lia]|].
    cbn beta. intros L' _ (M & l' & A1 & A2 & A3). split; [exact M|]. exists l'. rewrite put_length in A1. split; [exact A1|]. split.
    + rewrite Nat.add_succ_r. cbn [Nat.add] in A2. rewrite A2, firstn_put by lia. now rewrite <- app_assoc.
    + intros q. rewrite A3. cbn. destruct (q =? r); reflexivity.
Qed.
Lemma remove_owned D pn kl c kr L : lwf L -> lrep L (plug D pn) -> NoDup (ids (plug D pn)) -> nkids pn = kl ++ c :: kr ->
  pth (nid pn) = None \/ pth (nid pn) = Some (npath pn) ->
  owned (fun L' x => x = true /\ mn L' (nid c) = mn L (nid c) /\ became pth L (plug D pn) L' (plug D (set_kids pn (kl ++ kr))) (fun a => In a (ids pn))) L (p_remove grow (nid pn) (nid c)).
Proof.
  intros LW R ND EK PT. pose proof (lrep_hole _ _ _ R) as RP. pose proof (nodup_hole _ _ ND) as NP.
  inversion RP as [n0 s arr H1 H2 H3 H4 H5]; subst n0. pose proof (kids_len_l L pn s arr LW H1 H3 H4) as KL.
  assert (LEN : length (nkids pn) = length kl + S (length kr)) by (rewrite EK, app_length; reflexivity).
  assert (E : ma L (sl_arr (hkids s)) = Some arr).
  { destruct H3 as [[X _]|X]; [|exact X]. rewrite X in KL. cbn in KL. lia. }
  assert (LE : sl_len (hkids s) <= length arr).
  { destruct (lwf_in _ LW _ _ H1) as [X|(l1 & X1 & X2)]; [rewrite X in KL; cbn in KL; lia|]. congruence. }
  set (r := sl_arr (hkids s)) in *. set (i := length kl).
  assert (NC : ~ In (nid c) (map nid kl)).
  { intros X. apply in_map_iff in X. destruct X as (k & Q & Hk). destruct (kid_only pn kl c kr (nid c) NP EK) as (_ & N2 & _); [rewrite ids_eq; now left|].
    apply (N2 k Hk). rewrite <- Q, ids_eq. now left. }
  unfold p_remove. apply ow_mynode with s; [exact H1|]. eapply owns_bind.
  { apply find_owned with (l := arr) (a := map nid kl) (b := map nid kr); [exact E| |exact NC]. cbn [skipn]. rewrite H4, EK, map_app. reflexivity. }
  cbn beta. intros L' o [-> ->]. rewrite map_length. cbn [Nat.add]. fold i.
  apply ow_mynode with s; [exact H1|]. apply ow_mycap with arr; [exact E|]. rewrite (proj2 (Nat.leb_le _ _)) by (fold i in LEN; lia).
  apply ow_mynode with s; [exact H1|]. rewrite (proj2 (Nat.leb_le _ _)) by (fold i in LEN; lia).
  eapply owns_bind; [apply (read_owned grow sh pth L r arr E); fold i in LEN; lia|]. cbn beta. intros L' x [-> ->].
  assert (RD : firstn (sl_len (hkids s) - S i) (skipn (S i) arr) = map nid kr).
  { rewrite firstn_skipn_comm. replace (S i + (sl_len (hkids s) - S i)) with (sl_len (hkids s)) by (fold i in LEN; lia). rewrite H4, EK, map_app. cbn [map].
    replace (S i) with (length (map nid kl ++ [nid c])) by (rewrite app_length, map_length; cbn; unfold i; lia).
    replace (map nid kl ++ nid c :: map nid kr) with ((map nid kl ++ [nid c]) ++ map nid kr) by (now rewrite <- app_assoc).
    rewrite skipn_app, skipn_all, Nat.sub_diag. reflexivity. }
  rewrite RD. unfold p_appends. cbn [sl_arr sl_len seqp]. fold r. apply ow_mycap with arr; [exact E|]. rewrite map_length.
  rewrite (proj2 (Nat.leb_le _ _)) by (fold i in LEN; lia).
  eapply owns_bind with (Q := fun L1 x => x = Sl r (i + length kr) /\ mn L1 = mn L /\ exists l', length l' = length arr /\
    firstn (i + length kr) l' = map nid (kl ++ kr) /\ forall q, ma L1 q = if q =? r then Some l' else ma L q).
  { eapply owns_bind; [apply write_owned with (l := arr); [exact E|rewrite map_length; fold i in LEN; lia]|]. cbn beta.
    intros L1 _ (M & l' & A1 & A2 & A3). constructor. split; [reflexivity|]. split; [exact M|]. exists l'. split; [exact A1|]. split; [|exact A3].
    rewrite map_length in A2. rewrite A2, map_app. f_equal.
    apply (f_equal (firstn i)) in H4. rewrite firstn_firstn, Nat.min_l in H4 by (fold i in LEN; lia). rewrite H4, EK, map_app, firstn_app, map_length. fold i.
    rewrite Nat.sub_diag, firstn_O, app_nil_r. apply firstn_all2. now rewrite map_length. }
  cbn beta. intros L1 sl (-> & M & l' & A1 & A2 & A3). set (s' := w_kids (Sl r (i + length kr)) s).
  assert (E1 : mn L1 (nid pn) = Some s) by now rewrite M.
  apply mine_set with s; [exact E1|cbn; rewrite (proj1 H2); tauto|]. constructor. split; [reflexivity|].
  set (L2 := addn L1 (nid pn) (w_kids (Sl r (i + length kr)) s)).
  assert (MM : forall a, mn L2 a = if a =? nid pn then Some s' else mn L a) by (intros a; unfold L2; cbn; now rewrite M).
  assert (MA : forall q, ma L2 q = if q =? r then Some l' else ma L q) by exact A3. clearbody L2.
  assert (R0 : r <> 0) by (intros Q; rewrite Q, (lwf_nil _ LW) in E; discriminate).
  assert (OTHER : forall a t, mn L a = Some t -> a <> nid pn -> sl_arr (hkids t) <> r).
  { intros a t Et Na Qa. apply R0. rewrite <- Qa. apply (lwf_own _ LW a (nid pn) t s Et H1 Na Qa). }
  assert (KP : keep L L2 (fun a => a = nid pn)).
  { intros a t Et Na. split.
    - rewrite MM. destruct (Nat.eqb_spec a (nid pn)); [tauto|exact Et].
    - intros l1 [X|X]; [left; exact X|right]. rewrite MA. destruct (Nat.eqb_spec (sl_arr (hkids t)) r) as [Qr|]; [destruct (OTHER a t Et Na Qr)|exact X]. }
  assert (SUB : forall k, In k (kl ++ kr) -> In k (nkids pn)) by (intros k; rewrite EK, !in_app_iff; cbn; tauto).
  split.
  { rewrite MM. destruct (Nat.eqb_spec (nid c) (nid pn)) as [Q|_]; [|reflexivity]. exfalso.
    destruct (kid_only pn kl c kr (nid c) NP EK) as (N1 & _); [rewrite ids_eq; now left|]. congruence. }
  apply became_plug; auto.
  - constructor.
    + intros a t. rewrite MM. destruct (Nat.eqb_spec a (nid pn)) as [->|Na]; intros Et.
      * injection Et as <-. right. cbn. exists l'. rewrite MA, Nat.eqb_refl. split; [reflexivity|]. fold i in LEN. lia.
      * destruct (lwf_in _ LW _ _ Et) as [X|(l1 & X1 & X2)]; [auto|right; exists l1; rewrite MA].
        destruct (Nat.eqb_spec (sl_arr (hkids t)) r) as [Qr|]; [destruct (OTHER a t Et Na Qr)|auto].
    + intros a b t u. rewrite !MM. destruct (Nat.eqb_spec a (nid pn)) as [->|Na]; intros Et; destruct (Nat.eqb_spec b (nid pn)) as [->|Nb]; intros Eu Dab Q; try tauto.
      * injection Et as <-. cbn in *. destruct (OTHER b u Eu Nb); auto.
      * injection Eu as <-. cbn in *. destruct (OTHER a t Et Na); auto.
      * now apply (lwf_own _ LW a b t u).
    + rewrite MA. destruct r; [congruence|apply LW].
  - apply keep_weaken with (1 := KP). intros a ->. rewrite ids_eq. now left.
  - apply lrep_intro with s' l'; cbn [nid nkids set_kids].
    + rewrite MM, Nat.eqb_refl. reflexivity.
    + exact H2.
    + right. cbn. now rewrite MA, Nat.eqb_refl.
    + exact A2.
    + apply Forall_forall. intros k Hk. rewrite Forall_forall in H5. apply lrep_keep with (1 := KP); auto. intros a Ha ->.
      rewrite ids_eq in NP. inversion NP as [|? ? X _]; subst. apply X. apply in_flat_map. eauto.
  - rewrite ids_eq in *. cbn [nid nkids set_kids]. rewrite EK, flat_map_app in NP. rewrite flat_map_app. cbn [flat_map] in NP.
    inversion NP as [|? ? N1 N2]; subst. constructor.
    + rewrite !in_app_iff in *. tauto.
    + apply NoDup_app_intro; [now apply NoDup_app_remove_r in N2|now apply NoDup_app_remove_l, NoDup_app_remove_l in N2|].
      intros a Ha Hb. apply (NoDup_app_disjoint _ _ N2 a Ha). apply in_app_iff. auto.
  - intros a. rewrite (ids_eq (set_kids pn (kl ++ kr))), (ids_eq pn). cbn [nid nkids set_kids]. intros [X|X]; [left; now left|]. left. right.
    apply in_flat_map in X. destruct X as (k & Hk & X). apply in_flat_map. eauto.
Qed.
(** ** a call *)
Lemma found_node r c rf d m w lrd par : matchR rf d m w lrd par [] = Ok r -> s_node (sr r) = Some c -> exists p, at_pos p m = Some c.
Proof. intros E H. apply sr_child in H. destruct H as (H & _). eapply found_in; eauto. Qed.
Lemma spot_of rf d m rest lrd par r c : NoDup (ids m) -> rest <> [] -> matchR rf d m (npath m ++ rest) lrd par [] = Ok r ->
  s_node (sr r) = Some c -> s_partial (sr r) = false ->
  exists q i pn, at_pos q m = Some pn /\ nth_error (nkids pn) i = Some c /\ s_parent (sr r) = Some pn.
Proof.
  intros ND NE E Ec Pc. destruct (sr_child r c Ec) as (X1 & X2 & X3 & X4 & _). rewrite X3 in Pc. rewrite X4.
  pose proof (matchR_noid rf d m m (npath m ++ rest) lrd par par [] eq_refl) as T. rewrite E in T. cbn [WorkSpec.twin] in T.
  destruct T as (_ & _ & _ & [[T _]|(p & c1 & c2 & T1 & _ & T3 & _ & T5)]); [congruence|]. assert (c1 = c) as -> by congruence.
  destruct T5 as [(-> & _)|(q & i & p1 & p2 & -> & Y1 & _ & Y3 & _)].
  - exfalso. cbn in T3. injection T3 as <-. revert X1. exact (fun H => matchR_below rf d m rest lrd par [] r ND NE E X2 Pc m H eq_refl).
  - rewrite at_pos_snoc, Y1 in T3. exists q, i, p1. auto.
Qed.
Lemma lrep_sub L m p c : lrep L m -> at_pos p m = Some c -> lrep L c.
Proof. intros R H. apply at_pos_ctx in H. destruct H as [D <-]. now apply lrep_hole in R. Qed.
Lemma pos_pth m p c : (forall k a, In k (nkids m) -> In a (ids k) -> pth a = None) -> pth (nid m) = Some (npath m) -> at_pos p m = Some c ->
  pth (nid c) = None \/ pth (nid c) = Some (npath c).
Proof.
  intros PK PT H. destruct p as [|i p]; cbn in H; [injection H as <-; auto|]. destruct (nth_error (nkids m) i) as [k|] eqn:E; [|discriminate].
  left. apply PK with k; [eapply nth_error_In; eauto|]. eapply at_pos_ids; eauto.
Qed.
Lemma became_self L m P : lwf L -> lrep L m -> NoDup (ids m) -> became pth L m L m P.
Proof. intros. constructor; auto. apply keep_refl. Qed.
Lemma fits_branch c s a : fits c s -> isBranch (view a s) = isBranch c.
Proof. intros (_ & _ & _ & _ & _ & _ & E). unfold isBranch, view. cbn. now rewrite E. Qed.
Lemma fits_data c s a : fits c s -> hasData (view a s) = hasData c.
Proof. intros (_ & _ & _ & _ & _ & _ & E). unfold hasData, view. cbn. now rewrite E. Qed.
Lemma fits_ends c s a d : fits c s -> endsWith (view a s) d = endsWith c d.
Proof. intros (E & _). unfold endsWith, view. cbn. now rewrite E. Qed.

Lemma became_trans L m L1 m1 L2 m2 : became pth L m L1 m1 (fun a => In a (ids m)) -> became pth L1 m1 L2 m2 (fun a => In a (ids m1)) ->
  became pth L m L2 m2 (fun a => In a (ids m)).
Proof.
  intros [A1 A2 A3 A4 A5 A6] [B1 B2 B3 B4 B5 B6]. constructor; auto; [congruence| |].
  - apply keep_trans with L1 (fun a => In a (ids m1)); auto. intros a t Et Hb. destruct (A6 a Hb) as [X|[X _]]; [exact X|congruence].
  - intros a Ha. destruct (B6 a Ha) as [X|[X Y]]; [now apply A6|]. destruct (mn L a) as [t|] eqn:Et; [|auto].
    destruct (in_dec Nat.eq_dec a (ids m)) as [|Ni]; [auto|]. destruct (A5 a t Et Ni). congruence.
Qed.
(** what is inside stays hidden *)
Lemma became_hidden L m L1 n1 P : became pth L m L1 n1 P -> (forall k a, In k (nkids m) -> In a (ids k) -> pth a = None) ->
  forall k a, In k (nkids n1) -> In a (ids k) -> pth a = None.
Proof.
  intros [A1 A2 A3 A4 A5 A6] PK k a Hk Ha. destruct (A6 a) as [X|[_ X]]; [rewrite ids_eq; right; apply in_flat_map; eauto| |exact X].
  rewrite ids_eq in X. destruct X as [X|X]; [|apply in_flat_map in X; destruct X as (q & Hq & Hi); eapply PK; eauto].
  exfalso. rewrite ids_eq in A3. inversion A3 as [|? ? Y _]; subst. apply Y. rewrite A4. apply in_flat_map. eauto.
Qed.
(** ** the exports walk over what is owned *)
Lemma take_owned d flt L c s : mn L (nid c) = Some s -> fits c s -> owned (fun L' y => L' = L /\ y = take1 d flt c) L (p_take d flt (nid c)).
Proof.
  intros E Ft. pose proof (fits_branch c s (nid c) Ft) as BR. destruct Ft as (P1 & P2 & P3 & _). unfold p_take. apply ow_mynode with s; [exact E|]. apply ow_mynode with s; [exact E|].
  rewrite P1, P2. unfold take1, exported, Node.key.
  destruct (simpleEndsWith (npathS c) d); [constructor; auto|]. apply ow_mynode with s; [exact E|]. rewrite BR.
  destruct (isBranch c) eqn:B; [constructor; auto|]. cbn [negb andb].
  eapply owns_bind with (Q := fun L' y => L' = L /\ y = match flt with Some f => f (show c) | None => true end).
  - destruct flt as [f|]; [|constructor; auto]. unfold p_show. repeat (apply ow_mynode with s; [exact E|]). cbn [seqp]. constructor. split; [reflexivity|].
    unfold show. rewrite P1, P2, P3. now rewrite ?BR, ?B.
  - intros L' y [-> ->]. destruct (match flt with Some f => f (show c) | None => true end); [|constructor; auto].
    apply ow_mynode with s; [exact E|]. constructor. rewrite P3. auto.
Qed.
Lemma pick_owned d flt L : lwf L -> forall f c, lrep L c -> depth c <= f -> owned (fun L' y => L' = L /\ y = picks d flt c) L (p_pick d flt f (nid c)).
Proof.
  intros LW. induction f as [|f IH]; intros c R D; [destruct c; cbn in D; lia|]. inversion R as [c0 s arr H1 H2 H3 H4 H5]; subst c0. cbn [p_pick].
  eapply owns_bind; [now apply take_owned with s|]. cbn beta. intros L' x [-> ->]. apply ow_mynode with s; [exact H1|].
  unfold picks. rewrite walk_eq. cbn [map].
  eapply owns_bind with (Q := fun L' y => L' = L /\ y = map (take1 d flt) (flat_map walk (nkids c))); [|intros L' y [-> ->]; constructor; auto].
  destruct H3 as [[-> ->]|H3].
  { cbn [sl_len sl_arr firstn] in *. destruct (nkids c) as [|k ks] eqn:EQ; [|rewrite firstn_nil in H4; discriminate H4]. cbn. constructor. auto. }
  assert (KL : sl_len (hkids s) = length (nkids c)).
  { destruct (lwf_in _ LW _ _ H1) as [X|(l & X & Y)]; [rewrite X in *; cbn in H4 |- *; destruct (nkids c) eqn:EQ; [reflexivity|discriminate H4]|].
    rewrite H3 in X. injection X as ->. apply (f_equal (@length nat)) in H4. rewrite map_length, firstn_length in H4. lia. }
  rewrite KL in *. set (r := sl_arr (hkids s)) in *.
  assert (LP : forall ks pre, nkids c = pre ++ ks ->
    owned (fun L' y => L' = L /\ y = map (take1 d flt) (flat_map walk ks)) L (p_picks (p_pick d flt f) r (length pre) (length ks))).
  { induction ks as [|k ks IHk]; intros pre Ek; cbn [length p_picks flat_map map]; [constructor; auto|].
    assert (NE : nth_error arr (length pre) = Some (nid k)).
    { rewrite <- (firstn_skipn (length (nkids c)) arr), H4, Ek, map_app, <- app_assoc.
      rewrite nth_error_app2 by (rewrite map_length; lia). rewrite map_length, Nat.sub_diag. reflexivity. }
    assert (Hk : In k (nkids c)) by (rewrite Ek; apply in_app_iff; right; now left).
    rewrite Forall_forall in H5. pose proof (depth_kid _ _ Hk). apply ow_myelem with arr (nid k); auto.
    eapply owns_bind; [apply IH; auto; lia|]. cbn beta. intros L' l1 [-> ->].
    specialize (IHk (pre ++ [k])). rewrite <- app_assoc, app_length in IHk. cbn [app length] in IHk. rewrite Nat.add_1_r in IHk.
    eapply owns_bind; [now apply IHk|]. cbn beta. intros L' l2 [-> ->]. constructor. split; [reflexivity|]. unfold picks. now rewrite map_app. }
  exact (LP (nkids c) [] eq_refl).
Qed.
Lemma at_pos_depth p : forall m c, at_pos p m = Some c -> depth c <= depth m.
Proof.
  induction p as [|i p IH]; cbn [at_pos]; intros m c H; [injection H as ->; lia|]. destruct (nth_error (nkids m) i) as [k|] eqn:E; [|discriminate].
  apply nth_error_In in E. pose proof (depth_kid _ _ E). specialize (IH _ _ H). lia.
Qed.
Lemma ask_owned order rf dep h q C m L v r : hmode h <> ModeUp -> is_root_path (ask_path q) = false -> runes (full h (ask_path q)) = cpre C ++ v ->
  (npath m <> [] -> hd_error v = hd_error (npath m)) ->
  lwf L -> lrep L m -> cok2 C (npath m) -> cold (hdelim h) false C -> cshare sh pth C (nid m) (npath m) -> clen C + depth m <= dep ->
  matchR (S rf) (hdelim h) m v (lrd_end (hdelim h) false (cpre C)) (last_spine C m None) [] = Ok r ->
  owned (fun L' y => L' = L /\ y = ask_of order h q (sr r)) L (p_ask order (S rf) dep h (cid C (nid m)) q).
Proof.
  intros MU RP EK HV LW R OK2 CO SH DP EM.
  pose proof (search_owned rf h C m L v (full h (ask_path q)) dep r MU EK HV LW R OK2 CO SH DP EM) as SO.
  set (s := sr r) in *.
  assert (LO : owned (fun L' y => L' = L /\ y = (option_map nid (s_node s), s_partial s, match s_node s with Some _ => negb (s_partial s) | None => false end)) L
    (p_locate (S rf) dep h (cid C (nid m)) (ask_path q))).
  { unfold p_locate. eapply owns_bind; [exact SO|]. cbn beta. intros L' y [-> ->]. unfold hsr. cbn [hs_node hs_partial].
    destruct (s_node s) as [c|] eqn:Ec; cbn [option_map]; [|constructor; auto].
    destruct (found_node _ _ _ _ _ _ _ _ EM Ec) as [p Hp]. pose proof (lrep_sub _ _ _ _ R Hp) as RC. inversion RC as [c0 t arr H1 H2 H3 H4 H5]; subst c0.
    apply ow_mynode with t; [exact H1|]. constructor. auto. }
  assert (PI : forall flt c, s_node s = Some c -> owned (fun L' y => L' = L /\ y = picks (hdelim h) flt c) L (p_pick (hdelim h) flt dep (nid c))).
  { intros flt c Ec. destruct (found_node _ _ _ _ _ _ _ _ EM Ec) as [p Hp]. pose proof (at_pos_depth _ _ _ Hp). apply pick_owned; [exact LW| |lia]. exact (lrep_sub _ _ _ _ R Hp). }
  assert (GR : forall defs, owned (fun L' y => L' = L /\ y = getR_of h defs s) L (p_GetR (S rf) dep h (cid C (nid m)) (ask_path q) defs)).
  { intros defs. unfold p_GetR. rewrite RP. eapply owns_bind; [exact LO|]. cbn beta. intros L' y [-> ->]. unfold getR_of.
    destruct (s_node s) as [c|] eqn:Ec; cbn [option_map].
    - replace (negb (s_partial s) || s_partial s) with true by now destruct (s_partial s).
      eapply owns_bind; [now apply PI|]. cbn beta. intros L' l [-> ->]. constructor. auto.
    - cbn [orb]. destruct (s_partial s); constructor; auto. }
  assert (GM : forall o, owned (fun L' y => L' = L /\ y = getM_of order h (ask_path q) o s) L (p_GetM order (S rf) dep h (cid C (nid m)) (ask_path q) o)).
  { intros o. unfold p_GetM. cbv zeta. rewrite RP. eapply owns_bind; [exact LO|]. cbn beta. intros L' y [-> ->]. unfold getM_of.
    destruct (s_node s) as [c|] eqn:Ec; cbn [option_map].
    - replace (negb (s_partial s) || s_partial s) with true by now destruct (s_partial s).
      eapply owns_bind; [now apply PI|]. cbn beta. intros L' l [-> ->]. constructor. auto.
    - cbn [orb]. destruct (s_partial s); constructor; auto. }
  destruct q as [p defs|p o|p o]; cbn [p_ask ask_of ask_path] in *; [apply GR|apply GM|].
  unfold p_To. eapply owns_bind; [apply GM|]. cbn beta. intros L' y [-> ->].
  destruct (getM_of order h p o s) as [[x|]| |]; cbn [bind]; try (constructor; auto).
  eapply owns_bind; [apply GR|]. cbn beta. intros L' y [-> ->]. constructor. auto.
Qed.
(** the node's methods on a node of one's own *)
Definition h_act (s : hnode) (x : act) : hnode :=
  match x with AData v => w_data v s | ADesc d => w_desc d s | ACmt c => w_cmt c s | ATag v => w_tag v s | AType f => w_type (f (htype s)) s end.
Lemma h_acts_keep l : forall s, hpath (fold_left h_act l s) = hpath s /\ hkids (fold_left h_act l s) = hkids s.
Proof. induction l as [|x l IH]; intros s; [auto|]. cbn [fold_left]. destruct (IH (h_act s x)) as [-> ->]. now destruct x. Qed.
Lemma acts_fit l : forall n s, fits n s -> fits (fold_left n_act l n) (fold_left h_act l s).
Proof.
  induction l as [|x l IH]; intros n s H; [exact H|]. cbn [fold_left]. apply IH. destruct H as (P1 & P2 & P3 & P4 & P5 & P6 & P7).
  destruct x; repeat split; cbn; congruence.
Qed.
Lemma acts_owned {A} (Q : mine -> A -> Prop) (k : unit -> prog A) a l : forall L s, mn L a = Some s -> pth a = None \/ pth a = Some (hpath s) ->
  (forall L2, (forall b, mn L2 b = if b =? a then Some (fold_left h_act l s) else mn L b) -> (forall r, ma L2 r = ma L r) -> owned Q L2 (k tt)) ->
  owned Q L (seqp (p_acts a l) k).
Proof.
  induction l as [|x l IH]; intros L s E PP HQ.
  - cbn [p_acts seqp]. apply HQ; [|reflexivity]. intros b. destruct (Nat.eqb_spec b a) as [->|_]; [exact E|reflexivity].
  - cbn [p_acts]. assert (G : forall L1, (forall b, mn L1 b = if b =? a then Some (h_act s x) else mn L b) -> (forall r, ma L1 r = ma L r) ->
      owned Q L1 (seqp (p_acts a l) k)).
    { intros L1 M1 A1. apply IH with (h_act s x).
      - now rewrite M1, Nat.eqb_refl.
      - destruct PP as [PP|PP]; [auto|right]. rewrite PP. now destruct x.
      - intros L2 M2 A2. apply HQ; [|intros r; now rewrite A2]. intros b. rewrite M2. cbn [fold_left]. destruct (b =? a) eqn:B; [reflexivity|]. now rewrite M1, B. }
    destruct x as [v|d|c|v|f]; cbn [p_act seqp]; try (apply ow_mynode with s; [exact E|]; cbn [seqp]);
      (apply mine_set with s; [exact E|cbn; tauto|]; cbn [seqp]; apply G; [intros b; reflexivity|reflexivity]).
Qed.
Lemma item_owned rf dep C m m0 L it nx m1 nx1 x : noid m = noid m0 -> wf_tr (Tr (plug C m0) nx) -> lwf L -> lrep L m -> NoDup (ids m) ->
  (forall k a, In k (nkids m) -> In a (ids k) -> pth a = None) -> pth (nid m) = Some (npath m) ->
  cok C (npath m) -> cok2 C (npath m) -> cshare sh pth C (nid m) (npath m) -> clen C + depth m <= dep -> WorkSpec.within C (npath m) it ->
  sdoes (S rf) (clen C) (cpre C) (last_spine C m0 None) m0 nx it m1 nx1 x ->
  owned (fun L' y => y = x /\ exists n', noid n' = noid m1 /\ became pth L m L' n' (fun a => In a (ids m))) L (code_i grow (S rf) dep (cid C (nid m)) it).
Proof.
  intros NI W LW R ND PK PT OK OK2 SH DP ((w & EK & RE) & LK) SD. unfold sdoes in SD. rewrite EK, skip_app in SD. destruct (sets it) eqn:ST.
  - destruct (reach_sets _ _ _ RE ST) as [rest ->]. destruct SD as (ir & EI & -> & -> & ->). pose proof (clen_le C (npath m) OK) as CL.
    set (f := S (S (length (cpre C ++ npath m ++ rest))) - clen C) in *.
    assert (F : S (S (length (runes (key_of it)))) = clen C + f) by (rewrite EK; subst f; rewrite app_assoc, app_length; lia).
    assert (P : owned (fun L' y => snd (fst y) = ir_old ir /\ exists n', noid n' = noid (ir_node ir) /\ spot n' (fst (fst y)) (ir_node ir) (ir_id ir) /\ became pth L m L' n' (fun a => In a (ids m))) L
      (p_set grow (cid C (nid m)) (key_of it) (set_val it))).
    { unfold p_set. rewrite F, EK.
      apply (down_owned grow sh pth (fun L' a old => old = ir_old ir /\ exists n', noid n' = noid (ir_node ir) /\ spot n' a (ir_node ir) (ir_id ir) /\ became pth L m L' n' (fun a => In a (ids m)))); auto.
      apply insert_owned with (n0 := m0) (nx := nx); eauto. }
    assert (PL : forall A (z : A) fm g pr,
      mark_of it (ir_old ir) = Some fm -> (forall s, hpath (g s) = hpath s /\ hkids (g s) = hkids s) -> (forall n s, fits n s -> fits (fm n) (g s)) ->
      (forall L' y s, let a := fst (fst y) in snd (fst y) = ir_old ir -> mn L' a = Some s -> pth a = None \/ pth a = Some (hpath s) ->
         forall (Q : mine -> A -> Prop), (forall L2, (forall b, mn L2 b = if b =? a then Some (g s) else mn L' b) -> (forall r, ma L2 r = ma L' r) -> Q L2 z) -> owned Q L' (pr y)) ->
      owned (fun L' y => y = z /\ exists n', noid n' = noid (marked it ir) /\ became pth L m L' n' (fun a => In a (ids m))) L
      (let* y := p_set grow (cid C (nid m)) (key_of it) (set_val it) in pr y)).
    { intros A z fm g pr MK GK FT PR. destruct (mark_of_ok _ _ _ MK) as [MK1 MK2]. unfold marked. rewrite MK.
      eapply owns_bind; [exact P|]. cbn beta. intros L' y (Ey & n' & N & (q & c & c' & Q1 & Q2 & Q3 & Q4) & B).
      pose proof (became_hidden _ _ _ _ _ B PK) as PK'. pose proof B as [A1 A2 A3 A4 A5 A6].
      assert (PT' : pth (nid n') = Some (npath n')).
      { rewrite A4, PT, (noid_path _ _ N). f_equal. symmetry. rewrite (noid_path _ _ NI) in EI |- *. now apply ins_path in EI. }
      pose proof (lrep_sub _ _ _ _ A2 Q1) as RC. inversion RC as [n0 s arr H1 H2 H3 H4 H5]; subst n0.
      assert (PP : pth (nid c) = None \/ pth (nid c) = Some (hpath s)) by (rewrite (proj1 H2); exact (pos_pth _ _ _ PK' PT' Q1)).
      apply PR with s; rewrite <- ?Q2; [exact Ey|exact H1|exact PP|]. intros L2 M2 R2. split; [reflexivity|].
      destruct (at_pos_ctx _ _ _ Q1) as [D HD].
      assert (NDI : NoDup (ids (ir_node ir))).
      { apply (nodup_hole C), (ins_nodup C m0 rest (key_of it) (set_val it) nx ir W); [rewrite <- (noid_path _ _ NI); exact EK|].
        rewrite <- (noid_path _ _ NI), EK. exact EI. }
      destruct (MK1 c) as (C1 & C2 & C3).
      exists (plug D (fm c)). split.
      { transitivity (noid (upd (nid c) fm n')).
        - rewrite <- HD. rewrite upd_plug; [|now rewrite HD|rewrite ids_eq; now left]. rewrite upd_here; [|exact (at_pos_nodup q n' c A3 Q1)].
          rewrite <- C3. now destruct (fm c).
        - rewrite <- Q4. apply upd_noid with q; auto. }
      apply became_trans with (1 := B). rewrite <- HD in A2, A3 |- *.
      assert (BB : became pth L' (plug D c) L2 (plug D (fm c)) (fun a => In a (ids c))).
      { apply upd_became with s (g s); auto. apply GK. }
      destruct BB as [B1 B2 B3 B4 B5 B6]. constructor; auto. apply keep_weaken with (1 := B5). intros a Ha. apply ids_plug; auto. }
    destruct it as [o|h p|h p v mark|h p|order h q|w h p]; [destruct o| | | | |]; cbn [sets] in ST; try discriminate; cbn [code_i code key_of set_val set_reply mark_of] in *.
    + eapply owns_bind; [exact P|]. cbn beta. intros L' [[id old] calls] (Eo & n' & N & _ & B). constructor. cbn in Eo. subst. split; [reflexivity|]. eauto.
    + eapply owns_bind; [exact P|]. cbn beta. intros L' [[id old] calls] (Eo & n' & N & _ & B). constructor. cbn in Eo. subst. split; [reflexivity|]. eauto.
    + eapply owns_bind; [unfold p_update; apply (PL unit tt (setData (g (ir_old ir))) (fun s => w_type (N.lor (htype s) NTData) (w_data (g (ir_old ir)) s)))|
        cbn beta; intros L' y (_ & B); constructor; auto].
      * reflexivity.
      * intros s. auto.
      * intros n s (P1 & P2 & P3 & P4 & P5 & P6 & P7). repeat split; cbn; congruence.
      * intros L' [[a o'] cs] s. cbv zeta. cbn [fst snd]. intros Eo E PP Q HQ. subst o'. apply mine_set with s; [exact E|cbn; tauto|].
        apply ow_mynode with (w_data (g (ir_old ir)) s); [cbn; now rewrite Nat.eqb_refl|].
        apply mine_set with (w_data (g (ir_old ir)) s); [cbn; now rewrite Nat.eqb_refl|cbn; tauto|]. constructor. apply HQ.
        -- intros b. cbn. destruct (b =? a); reflexivity.
        -- reflexivity.
    + destruct mark.
      { apply PL with (fm := setModified true) (g := fun s => w_type (N.lor (htype s) NTModified) s).
        - reflexivity.
        - intros s. auto.
        - intros n s (P1 & P2 & P3 & P4 & P5 & P6 & P7). repeat split; cbn; congruence.
        - intros L' [[a o'] cs] s. cbv zeta. cbn [fst snd]. intros Eo E PP Q HQ. subst o'. unfold p_setModified. cbn [seqp]. apply ow_mynode with s; [exact E|]. apply mine_set with s; [exact E|cbn; tauto|]. constructor. apply HQ.
          + intros b. reflexivity.
          + reflexivity. }
      unfold marked. cbn [mark_of]. eapply owns_bind; [exact P|]. cbn beta. intros L' [[id old] calls] (Eo & n' & N & _ & B). constructor. cbn in Eo |- *. subst. split; [reflexivity|]. eauto.
    + apply PL with (fm := w_node w (ir_old ir)) (g := fold_left h_act (w_acts w (ir_old ir))).
      * reflexivity.
      * intros s. apply h_acts_keep.
      * intros n s H. rewrite w_node_acts. now apply acts_fit.
      * intros L' [[a o'] cs] s. cbv zeta. cbn [fst snd]. intros Eo E PP Q HQ. subst o'. apply acts_owned with s; [exact E|exact PP|].
        intros L2 M2 R2. constructor. auto.
  - destruct SD as (r0 & EM0 & -> & -> & ->). destruct (LK eq_refl) as (MU & CO & EX). pose proof (reach_rm _ _ _ RE) as RM. pose proof (reach_hd _ _ _ RE) as HV. clear RE.
    destruct (look_twin _ it m0 m w _ _ (last_spine C m None) r0 (eq_sym NI) (nodup_hole _ _ (ids_wf _ W)) ND ltac:(rewrite <- (noid_path _ _ NI); exact RM) EX EM0) as (r & EM & EA & EE).
    rewrite <- EA, EE. clear EA EE EM0 r0.
    pose proof (search_owned rf (hdl_of it) C m L w (key_of it) dep r MU EK HV LW R OK2 CO SH DP EM) as SO.
    assert (ND0 : forall p c, at_pos p m = Some c -> exists D s arr, plug D c = m /\ mn L (nid c) = Some s /\ fits c s /\ arr_in L (hkids s) arr /\
      firstn (sl_len (hkids s)) arr = map nid (nkids c)).
    { intros p c H. pose proof (lrep_sub _ _ _ _ R H) as RC. inversion RC as [n0 s arr H1 H2 H3 H4 H5]; subst n0.
      apply at_pos_ctx in H. destruct H as [D HD]. exists D, s, arr. auto. }
    assert (SELF : became pth L m L m (fun a => In a (ids m))) by now apply became_self.
    assert (WEAK : forall L' n' c D, plug D c = m -> became pth L (plug D c) L' n' (fun a => In a (ids c)) -> became pth L m L' n' (fun a => In a (ids m))).
    { intros L' n' c D HD [B1 B2 B3 B4 B5 B6]. rewrite <- HD. constructor; auto. apply keep_weaken with (1 := B5). intros a Ha. apply ids_plug; auto. }
    destruct it as [o|h p|h p v mark|h p|order h q|wc h p]; [destruct o| | | | |]; cbn [sets] in ST; try discriminate; clear ST;
      cbn [code_i code key_of hdl_of answer effect removes] in *.
    + (* Query *)
      eapply owns_bind with (Q := fun L' y => L' = L /\ y = query_of (hdelim h) (sr r)).
      2: { intros L' y [-> ->]. constructor. split; [reflexivity|]. eauto. }
      unfold p_query. eapply owns_bind; [exact SO|]. cbn beta. intros L' y [-> ->]. unfold hsr, query_of. cbn [hs_node hs_partial hs_kv].
      destruct (s_node (sr r)) as [c|] eqn:Ec; cbn [option_map]; [|constructor; auto]. destruct (s_partial (sr r)); [constructor; auto|].
      destruct (found_node _ _ _ _ _ _ _ _ EM Ec) as [q Hq]. destruct (ND0 q c Hq) as (D & s & arr & _ & A1 & A2 & _).
      apply ow_mynode with s; [exact A1|]. rewrite (fits_branch c s _ A2).
      destruct (isBranch c); cbn [seqp]; [apply ow_mynode with s; [exact A1|]; cbn [seqp]; rewrite (fits_ends c s _ _ A2)|];
        (apply ow_mynode with s; [exact A1|]; rewrite (fits_data c s _ A2); destruct (hasData c);
          [apply ow_mynode with s; [exact A1|]; constructor; destruct A2 as (_ & _ & -> & _); auto|constructor; auto]).
    + (* Has *)
      eapply owns_bind with (Q := fun L' y => L' = L /\ y = s_found (sr r)).
      2: { intros L' y [-> ->]. constructor. split; [reflexivity|]. eauto. }
      unfold p_has. eapply owns_bind; [exact SO|]. cbn beta. intros L' y [-> ->]. constructor. split; [reflexivity|].
      unfold hsr, s_found. cbn. destruct (s_node (sr r)); reflexivity.
    + (* HasPart *)
      match goal with |- owned _ _ _ => idtac end.
      eapply owns_bind with (Q := fun L' y => L' = L /\ y = match s_node (sr r) with Some n => if s_partial (sr r) then has_prefix (full h p) (npathS n) else true | None => s_partial (sr r) end).
      2: { intros L' y [-> ->]. constructor. split; [reflexivity|]. eauto. }
      unfold p_hasPart. eapply owns_bind; [exact SO|]. cbn beta. intros L' y [-> ->]. unfold hsr. cbn [hs_node hs_partial].
      destruct (s_node (sr r)) as [c|] eqn:Ec; cbn [option_map]; [|constructor; auto]. destruct (s_partial (sr r)); [|constructor; auto].
      destruct (found_node _ _ _ _ _ _ _ _ EM Ec) as [q Hq]. destruct (ND0 q c Hq) as (D & s & arr & _ & A1 & A2 & _).
      apply ow_mynode with s; [exact A1|]. constructor. destruct A2 as (_ & -> & _). auto.
    + (* GetDesc, GetComment, GetTag *)
      eapply owns_bind with (Q := fun L' y => L' = L /\ Is (fst y) (snd y) = attr_of x (fast (hdelim h) (sr r))).
      2: { intros L' y [-> <-]. constructor. split; [reflexivity|]. eauto. }
      assert (NO : attr_of x None = Is (attr_nil x) false) by (destruct x; reflexivity).
      unfold p_attr. eapply owns_bind; [exact SO|]. cbn beta. intros L' y [-> ->]. unfold hsr, fast. cbn [hs_node hs_partial].
      destruct (s_node (sr r)) as [c|] eqn:Ec; cbn [option_map]; [|constructor; auto]. destruct (s_partial (sr r)); [constructor; auto|].
      destruct (found_node _ _ _ _ _ _ _ _ EM Ec) as [q Hq]. destruct (ND0 q c Hq) as (D & s & arr & _ & A1 & A2 & _).
      assert (YES : attr_of x (Some c) = Is (attr_in x s) true).
      { destruct A2 as (_ & _ & _ & E1 & E2 & E3 & _). destruct x; cbn; now rewrite ?E1, ?E2, ?E3. }
      apply ow_mynode with s; [exact A1|]. rewrite (fits_branch c s _ A2).
      destruct (isBranch c); cbn [seqp]; [apply ow_mynode with s; [exact A1|]; cbn [seqp]; rewrite (fits_ends c s _ _ A2); destruct (endsWith c (hdelim h))|];
        try (apply ow_mynode with s; [exact A1|]); constructor; cbn; auto.
    + (* SetTag *)
      eapply owns_bind with (Q := fun L' y => y = some (s_node (sr r)) /\ exists n', noid n' = noid (effect (Op (DoTag h p v)) (sr r) m) /\ became pth L m L' n' (fun a => In a (ids m))).
      2: { cbn [effect]. intros L' y [-> H]. constructor. auto. }
      unfold p_tag. eapply owns_bind; [exact SO|]. cbn beta. intros L' y [-> ->]. unfold hsr. cbn [hs_node effect].
      destruct (s_node (sr r)) as [c|] eqn:Ec; cbn [option_map some]; [|constructor; split; eauto].
      destruct (found_node _ _ _ _ _ _ _ _ EM Ec) as [q Hq]. destruct (ND0 q c Hq) as (D & s & arr & HD & A1 & A2 & _).
      apply mine_set with s; [exact A1|cbn; rewrite (proj1 A2); destruct (pos_pth _ _ _ PK PT Hq); tauto|]. constructor. split; [reflexivity|].
      exists (plug D (setTag v c)). split.
      { rewrite <- HD. rewrite upd_plug; [|now rewrite HD|rewrite ids_eq; now left]. rewrite upd_here; [reflexivity|]. eapply at_pos_nodup; eauto. }
      apply (WEAK _ _ c D HD). apply upd_became with s (w_tag v s); auto; try (rewrite HD; assumption).
      destruct A2 as (P1 & P2 & P3 & P4 & P5 & P6 & P7). repeat split; assumption.
    + (* SetComment *)
      eapply owns_bind with (Q := fun L' y => y = some (s_node (sr r)) /\ exists n', noid n' = noid (effect (Op (DoComment h p desc cmt)) (sr r) m) /\ became pth L m L' n' (fun a => In a (ids m))).
      2: { cbn [effect]. intros L' y [-> H]. constructor. auto. }
      unfold p_comment. eapply owns_bind; [exact SO|]. cbn beta. intros L' y [-> ->]. unfold hsr. cbn [hs_node effect].
      destruct (s_node (sr r)) as [c|] eqn:Ec; cbn [option_map some]; [|constructor; split; eauto].
      destruct (found_node _ _ _ _ _ _ _ _ EM Ec) as [q Hq]. destruct (ND0 q c Hq) as (D & s & arr & HD & A1 & A2 & _).
      assert (PP : pth (nid c) = None \/ pth (nid c) = Some (hpath s)) by (rewrite (proj1 A2); exact (pos_pth _ _ _ PK PT Hq)).
      apply mine_set with s; [exact A1|cbn; tauto|]. eapply mine_set; [cbn; rewrite Nat.eqb_refl; reflexivity|cbn; tauto|]. constructor. split; [reflexivity|].
      exists (plug D (setComment desc cmt c)). split.
      { rewrite <- HD. rewrite upd_plug; [|now rewrite HD|rewrite ids_eq; now left]. rewrite upd_here; [reflexivity|]. eapply at_pos_nodup; eauto. }
      apply (WEAK _ _ c D HD). apply upd_became with s (w_cmt cmt (w_desc desc s)); auto; try (rewrite HD; assumption).
      * intros a. cbn. destruct (a =? nid c); reflexivity.
      * destruct A2 as (P1 & P2 & P3 & P4 & P5 & P6 & P7). repeat split; assumption.
    + (* Remove *)
      eapply owns_bind with (Q := fun L' y => y = some (gone (sr r)) /\ exists n', noid n' = noid (effect (Rm h p) (sr r) m) /\ became pth L m L' n' (fun a => In a (ids m))).
      2: { cbn [effect]. intros L' y [-> H]. constructor. auto. }
      unfold p_removeEx. eapply owns_bind; [exact SO|]. cbn beta. intros L' y [-> ->]. unfold hsr, gone. cbn [hs_node hs_partial hs_parent effect].
      destruct (s_node (sr r)) as [c|] eqn:Ec; cbn [option_map some]; [|constructor; split; eauto; unfold gone; rewrite Ec; eauto].
      destruct (s_partial (sr r)) eqn:Ep; [constructor; split; eauto; unfold gone; rewrite Ec, Ep; eauto|].
      destruct (RM eq_refl) as (rest & NR & ->). destruct (spot_of _ _ _ _ _ _ _ _ ND NR EM Ec Ep) as (q & i & pn & Hq & Hi & Epn). unfold gone. rewrite Ec, Ep, Epn. cbn [option_map].
      rewrite (found_kid pn i c) by (auto; eapply at_pos_nodup; eauto). destruct (ND0 q pn Hq) as (D & s & arr & HD & _).
      apply nth_error_split in Hi. destruct Hi as (kl & kr & EKs & _).
      eapply owns_mono; [apply (remove_owned D pn kl c kr L); auto; try (rewrite HD; assumption); exact (pos_pth _ _ _ PK PT Hq)|].
      cbn beta. intros L' y (-> & _ & B). split; [reflexivity|]. exists (plug D (set_kids pn (kl ++ kr))). split; [|now apply (WEAK _ _ pn D HD)].
      rewrite <- HD. rewrite rem_plug; [|now rewrite HD|rewrite ids_eq; now left]. rewrite (rem_here pn kl c kr); [reflexivity|eapply at_pos_nodup; eauto|exact EKs].
    + (* RemoveEx and the data *)
      eapply owns_bind; [exact SO|]. cbn beta. intros L' y [-> ->]. unfold hsr, gone. cbn [hs_node hs_partial hs_parent].
      destruct (s_node (sr r)) as [c|] eqn:Ec; cbn [option_map]; [|constructor; split; eauto].
      destruct (s_partial (sr r)) eqn:Ep; [constructor; split; eauto|].
      destruct (RM eq_refl) as (rest & NR & ->). destruct (spot_of _ _ _ _ _ _ _ _ ND NR EM Ec Ep) as (q & i & pn & Hq & Hi & Epn). rewrite Epn. cbn [option_map].
      rewrite (found_kid pn i c) by (auto; eapply at_pos_nodup; eauto). destruct (ND0 q pn Hq) as (D & s & arr & HD & _).
      destruct (ND0 (q ++ [i]) c) as (_ & sc & _ & _ & C1 & C2 & _); [rewrite at_pos_snoc, Hq; exact Hi|].
      apply nth_error_split in Hi. destruct Hi as (kl & kr & EKs & _).
      eapply owns_bind; [apply (remove_owned D pn kl c kr L); auto; try (rewrite HD; assumption); exact (pos_pth _ _ _ PK PT Hq)|].
      cbn beta. intros L' y (-> & MC & B). cbn iota. apply ow_mynode with sc; [congruence|]. constructor. split; [destruct C2 as (_ & _ & -> & _); reflexivity|].
      exists (plug D (set_kids pn (kl ++ kr))). split; [|now apply (WEAK _ _ pn D HD)].
      rewrite <- HD. rewrite rem_plug; [|now rewrite HD|rewrite ids_eq; now left]. rewrite (rem_here pn kl c kr); [reflexivity|eapply at_pos_nodup; eauto|exact EKs].
    + (* GetR, GetM, To *)
      eapply owns_bind; [apply (ask_owned order rf dep h q C m L w r); auto; apply EX|]. cbn beta. intros L' y [-> ->]. constructor. split; [reflexivity|]. eauto.
Qed.
Lemma noid_depth n : depth (noid n) = depth n.
Proof.
  induction n as [n IH] using node_ind'. destruct n as [i p ps ks d de c t ty]. rewrite !depth_eq. f_equal. cbn [noid nkids] in *.
  induction ks as [|k ks IHk]; [reflexivity|]. inversion IH as [|? ? A B]; subst. cbn [map]. unfold kdepth in *. cbn [fold_right]. now rewrite A, IHk.
Qed.
Lemma work_owned rf dep C job : forall L m m0 nx t2 xs, lwf L -> lrep L m -> NoDup (ids m) ->
  (forall k a, In k (nkids m) -> In a (ids k) -> pth a = None) -> pth (nid m) = Some (npath m) -> cshare sh pth C (nid m) (npath m) ->
  wf_tr (Tr (plug C m0) nx) -> noid m = noid m0 -> clen C + depth m0 + length job <= dep -> Forall (WorkSpec.within C (npath m)) job ->
  does_all (S rf) (Tr (plug C m0) nx) job t2 xs ->
  owned (fun L' y => y = xs /\ exists m2 nx2 n', t2 = Tr (plug C m2) nx2 /\ noid n' = noid m2 /\ became pth L m L' n' (fun a => In a (ids m))) L
    (p_work grow (S rf) dep (cid C (nid m)) job).
Proof.
  induction job as [|it job IH]; intros L m m0 nx t2 xs LW R ND PK PT SH W NI DP F H; inversion H as [|? ? t1 x ? ? xs' H1 H2]; subst; cbn [p_work].
  - constructor. split; [reflexivity|]. exists m0, nx, m. split; [reflexivity|]. split; [exact NI|]. now apply became_self.
  - inversion F as [|? ? F1 F2]; subst. pose proof (noid_path _ _ NI) as EP.
    assert (F1' : WorkSpec.within C (npath m0) it) by (rewrite <- EP; exact F1).
    pose proof H1 as D. apply step_sdoes in D; auto. destruct D as (m1 & nx1 & -> & D).
    assert (WN : wfn (plug C m0)) by apply W. pose proof (wfn_cok _ _ WN) as OK. pose proof (wfn_cok2 _ _ WN) as OK2. rewrite <- EP in OK, OK2.
    destruct (sdoes_head _ _ _ _ _ _ _ _ _ F1' D) as (HP & _ & HD).
    assert (ED : depth m = depth m0) by (rewrite <- (noid_depth m), NI; apply noid_depth). cbn [length] in DP.
    eapply owns_bind; [apply (item_owned rf dep C m m0 L it nx m1 nx1 x); auto; lia|].
    cbn beta. intros L1 y (-> & n1 & N1 & B1). pose proof B1 as [A1 A2 A3 A4 A5 A6].
    assert (E1 : noid n1 = noid m1) by congruence. pose proof (noid_path _ _ E1) as EP1.
    assert (EPm : npath n1 = npath m) by congruence. pose proof (does_wf _ _ _ _ _ W H1) as W1.
    eapply owns_bind.
    { rewrite <- A4. apply (IH L1 n1 m1 nx1 t2 xs'); auto; try congruence.
      - exact (became_hidden _ _ _ _ _ B1 PK).
      - lia. }
    cbn beta. intros L2 y (-> & m2 & nx2 & n' & -> & N2 & B2). constructor. split; [reflexivity|]. exists m2, nx2, n'. split; [reflexivity|]. split; [exact N2|].
    eapply became_trans; eauto.
Qed.
End Work.

(** ** all goroutines at the same time *)
(** a program does what the calls [job] with the replies [xs] do, and gives [o] *)
Definition like {X} (grow : nat -> nat) (rf dep rt : nat) (job : list item) (xs : list reply) (p : prog X) (o : X) : Prop :=
  forall sh pth (Q : mine -> Prop) L, owns sh asis pth any (fun L' y => y = xs /\ Q L') L (p_work grow rf dep rt job) ->
    owns sh asis pth any (fun L' y => y = o /\ Q L') L p.
Lemma like_self grow rf dep rt job xs : like grow rf dep rt job xs (p_work grow rf dep rt job) xs.
Proof. intros sh pth Q L H. exact H. Qed.
Section Together.
Variable grow : nat -> nat.
Variable h0 : heap.
Variable R : node.
Variables rf dep : nat.
Variable ts : list task.
Hypothesis T : tree_in h0 R.
Hypothesis TK : Forall (task_ok (S rf) R (nn h0)) ts.
Hypothesis DP : Forall (fun k => depth R + length (k_work k) <= dep) ts.
Notation secs := (map k_sec ts).
Hypothesis DJ : forall i j s s' a, i <> j -> nth_error secs i = Some s -> nth_error secs j = Some s' ->
  In a (ids (sc_node s)) -> In a (ids (sc_node s')) -> False.
Hypothesis SPN : forall s s' a, In s secs -> In s' secs -> In a (spine (sc_ctx s)) -> In a (ids (sc_node s')) -> False.
Notation com := (common h0 secs).
Notation rp := (root_path secs).
Hypothesis SI : Forall (sec_in R) secs.

Lemma task_in k : In k ts -> In (k_sec k) secs.
Proof. apply in_map. Qed.
Lemma task_owned k : In k ts ->
  owns com asis rp any
    (fun L' y => y = k_out k /\ exists n', noid n' = noid (k_end k) /\ became rp (own h0 (k_sec k)) (k_node k) L' n' (fun a => In a (ids (k_node k))))
    (own h0 (k_sec k)) (p_work grow (S rf) dep (nid R) (k_work k)).
Proof.
  intros Hk. pose proof (task_in k Hk) as Hs. rewrite Forall_forall in TK, DP. destruct (TK k Hk) as (Pl & WI & EE & nx2 & HD). specialize (DP k Hk).
  unfold k_ctx, k_node in *. set (s := k_sec k) in *.
  replace (nid R) with (cid (sc_ctx s) (nid (sc_node s))) by (rewrite <- Pl; symmetry; apply cid_plug).
  assert (NDs : NoDup (ids (sc_node s))) by (apply under_nodup with R; [eapply sec_under; eauto|eapply nd; eauto]).
  eapply owns_mono.
  { apply (work_owned grow com rp (proj2 (proj2 (common_swf h0 R secs T))) rf dep (sc_ctx s) (k_work k) (own h0 s) (sc_node s) (sc_node s) (nn h0) (Tr (plug (sc_ctx s) (k_end k)) nx2) (k_out k)); auto.
    - eapply own_wf; eauto.
    - eapply own_rep; eauto; [constructor|eapply sec_repr; eauto].
    - intros c a Hc Ha. destruct (rp a) as [p|] eqn:Pa; [|reflexivity]. exfalso. eapply root_path_some in Pa; eauto. destruct Pa as (s' & Hs' & <- & _).
      assert (Ha' : In (nid (sc_node s')) (ids (sc_node s))) by (rewrite ids_eq; right; apply in_flat_map; eauto).
      assert (s' = s) as -> by (eapply (sec_same secs DJ s' s (nid (sc_node s'))); auto; rewrite ids_eq; now left).
      rewrite ids_eq in NDs. inversion NDs as [|? ? X _]; subst. apply X. apply in_flat_map. eauto.
    - eapply root_path_at; eauto.
    - eapply sec_share; eauto.
      + rewrite Pl. constructor.
      + intros a Ha. destruct (insideb secs a) eqn:X; [|reflexivity]. exfalso. apply insideb_in in X. destruct X as (s' & Hs' & X). exact (SPN s s' a Hs Hs' Ha X).
      + eapply root_path_at; eauto.
    - rewrite Pl. apply T.
    - pose proof (plug_depth (sc_ctx s) (sc_node s)). rewrite Pl in *. lia.
    - rewrite Pl. exact HD. }
  cbn beta. intros L' y (-> & m2 & nx3 & n' & E & N & B). split; [reflexivity|]. exists n'. split; [|exact B].
  injection E as E _. apply plug_inj in E. congruence.
Qed.
Variable OT : Type.
Variable ps : list (prog OT).
Variable os : list OT.
Hypothesis PL : length ps = length ts.
Hypothesis PR : forall i k p, nth_error ts i = Some k -> nth_error ps i = Some p ->
  exists o, nth_error os i = Some o /\ like grow (S rf) dep (nid R) (k_work k) (k_out k) p o.
Lemma tasks_race sch ts' : Permutation ts ts' ->
  let out := schedule sch ps h0 in
  (forall p, In p (fst out) -> p <> Die /\ p <> Spin) /\
  (forall i xs, nth_error (fst out) i = Some (Ret xs) -> nth_error os i = Some xs) /\
  (Forall (fun p => exists xs, p = Ret xs) (fst out) -> exists R' t', tree_in (snd out) R' /\ nid R' = nid R /\
     does_all (S rf) (Tr R (nn h0)) (concat (map k_work ts')) t' (concat (map k_out ts')) /\ wf_tr t' /\ noid R' = noid (root t')).
Proof.
  intros PM out. set (GO := fun k (L' : mine) => exists n', noid n' = noid (k_end k) /\
    became rp (own h0 (k_sec k)) (k_node k) L' n' (fun a => In a (ids (k_node k)))).
  set (Q := fun (ik : nat * task) (L' : mine) (y : OT) => nth_error os (fst ik) = Some y /\ GO (snd ik) L').
  set (its := combine (seq 0 (length ts)) ts).
  assert (IT : forall i, nth_error its i = option_map (pair i) (nth_error ts i)).
  { assert (IT0 : forall (l : list task) z i, nth_error (combine (seq z (length l)) l) i = option_map (pair (z + i)) (nth_error l i)).
    { induction l as [|a l IHl]; intros z [|i]; cbn; auto. { now rewrite Nat.add_0_r. } rewrite IHl. now rewrite Nat.add_succ_r. }
    intros i. apply (IT0 ts 0). }
  assert (LI : length its = length ts) by (unfold its; rewrite combine_length, seq_length; lia). clearbody its.
  assert (SD : side com asis rp any (map Q its) (fst out) (snd out)).
  { apply schedule_side. exists (owner h0 secs). split; [now apply (start h0 R secs)|]. split; [rewrite !map_length, LI; now symmetry|]. split.
    - intros i. rewrite PL. intros L. unfold owner. rewrite (proj2 (nth_error_None _ _)); [reflexivity|now rewrite map_length].
    - intros i q p. rewrite !nth_error_map. unfold owner. rewrite nth_error_map, IT. destruct (nth_error ts i) as [k|] eqn:A; [|discriminate]. cbn [option_map].
      intros Y Ep. injection Y as <-. destruct (PR i k p A Ep) as (o & Eo & LK). eapply owns_mono; [apply LK with (Q := GO k); apply task_owned; eapply nth_error_In; eauto|].
      cbn beta. intros L' y [-> H]. split; [exact Eo|exact H]. }
  assert (LP : length (fst out) = length ts) by (destruct SD as (LL & _ & LN & _); rewrite map_length in LN; congruence).
  split; [intros p; apply side_alive with (1 := SD)|]. pose proof (side_ret _ _ _ _ _ _ _ SD) as SR. destruct SR as (LL & J & NO & F). split.
  { intros i xs E. destruct (nth_error ts i) as [k|] eqn:A.
    - destruct (F i (Q (i, k)) xs) as [Z _]; [now rewrite nth_error_map, IT, A|exact E|exact Z].
    - apply nth_error_None in A. assert (i < length (fst out)) by (apply nth_error_Some; congruence). lia. }
  intros FIN. rewrite LP in NO.
  assert (AP : forall s s', In s secs -> In s' secs -> s <> s' -> sec_apart s s').
  { intros s s' Hs Hs' N. split; intros X.
    - apply (SPN s' s _ Hs' Hs X). rewrite ids_eq. now left.
    - apply N. apply (sec_same secs DJ s s' (nid (sc_node s))); auto. rewrite ids_eq. now left. }
  pose proof (secs_nodup grow secs DJ) as NDS.
  assert (IN : forall k, In k (rev ts') <-> In k ts).
  { intros k. rewrite <- in_rev. split; apply Permutation_in; [now symmetry|exact PM]. }
  assert (INJ : forall k k', In k ts -> In k' ts -> k_sec k = k_sec k' -> k = k').
  { clear -NDS. induction ts as [|a l IH]; [easy|]. cbn [map] in NDS. inversion NDS as [|? ? N1 N2]; subst. intros k k' [<-|H] [<-|H'] E; auto.
    - exfalso. apply N1. rewrite E. now apply in_map.
    - exfalso. apply N1. rewrite <- E. now apply in_map. }
  destruct (seq_work rf R (nn h0)) with (ts := rev ts') as (t' & E2 & W & E3).
  { apply T. }
  { apply Forall_forall. intros k Hk. rewrite Forall_forall in TK. now apply TK, IN. }
  { apply pairs_nodup.
    - apply NoDup_rev. apply (Permutation_NoDup PM). now apply NoDup_map_inv in NDS.
    - intros k k' Hk Hk' N. rewrite IN in Hk, Hk'. split; apply AP; auto using task_in. }
  rewrite rev_involutive in E2.
  destruct (choose_list ts (fun i k n => noid n = noid (k_end k) /\ became rp (own h0 (k_sec k)) (k_node k) (LL i) n (fun a => In a (ids (k_node k))))) as (ns & LN & G).
  { intros i k A. destruct (nth_error (fst out) i) as [p|] eqn:B.
    - rewrite Forall_forall in FIN. destruct (FIN p) as [xs ->]; [eapply nth_error_In; eauto|].
      destruct (F i (Q (i, k)) xs) as (_ & n' & H); [now rewrite nth_error_map, IT, A|exact B|]. exists n'. exact H.
    - apply nth_error_None in B. assert (i < length ts) by (apply nth_error_Some; congruence). lia. }
  assert (GR : forall i s n, nth_error secs i = Some s -> nth_error ns i = Some n ->
    lwf (LL i) /\ lrep (LL i) n /\ NoDup (ids n) /\ nid n = nid (sc_node s)).
  { intros i s n A B. rewrite nth_error_map in A. destruct (nth_error ts i) as [k|] eqn:A'; [|discriminate]. injection A as <-.
    destruct (G i k n A' B) as (_ & [B1 B2 B3 B4 _ _]). auto. }
  assert (LN' : length ns = length secs) by now rewrite map_length.
  assert (NE : noid (root t') = noid (graft (now_at secs ns) R)).
  { rewrite E3. apply graft_same. intros a. destruct (grown_by (ends (rev ts')) a) as [x|] eqn:X.
    - apply grown_ends in X. destruct X as (k & Hk & <- & ->). rewrite IN in Hk.
      destruct (now_at secs ns (nid (k_node k))) as [y|] eqn:Y.
      + apply now_some in Y. destruct Y as (i & s & A & B & E). rewrite nth_error_map in A. destruct (nth_error ts i) as [k'|] eqn:A'; [|discriminate]. injection A as <-.
        assert (k' = k) as ->.
        { assert (Hk' : In k' ts) by (eapply nth_error_In; eauto). apply INJ; auto.
          apply (sec_same secs DJ (k_sec k') (k_sec k) (nid (k_node k))); auto using task_in; [rewrite <- E|unfold k_node]; rewrite ids_eq; now left. }
        destruct (G i k y A' B) as (N0 & _). congruence.
      + exact (now_none secs ns LN' _ (k_sec k) Y (task_in k Hk) eq_refl).
    - destruct (now_at secs ns a) as [y|] eqn:Y; [|exact I]. apply now_some in Y. destruct Y as (i & s & A & B & <-).
      rewrite nth_error_map in A. destruct (nth_error ts i) as [k|] eqn:A'; [|discriminate]. injection A as <-.
      assert (Hk : In k (rev ts')) by (apply IN; eapply nth_error_In; eauto).
      apply (grown_not _ _ (k_sec k) (k_end k) X); [|reflexivity]. unfold ends. apply in_map_iff. exists k. auto. }
  exists (graft (now_at secs ns) R), t'. split; [|split; [now apply (now_id secs LL ns)|auto]].
  apply (done_tree grow h0 R secs T SI DJ SPN LL (snd out) ns J LN' GR t' W NE). intros i. rewrite map_length. apply NO.
Qed.
End Together.

(** ** goroutines by the keys of their sections *)
Lemma tasks_of rf R nx gs : wf_tr (Tr R nx) -> Forall (fun g => keeps_to R (fst g)) gs -> Forall (alone (S rf) (Tr R nx)) gs ->
  exists ts, Forall (task_ok (S rf) R nx) ts /\ Forall (sec_in R) (map k_sec ts) /\
    map (fun k => (cpre (k_ctx k) ++ npath (k_node k), k_work k, k_out k)) ts = gs.
Proof.
  intros W. induction gs as [|[[k job] xs] gs IH]; intros F A.
  - exists []. cbn. auto.
  - inversion F as [|? ? [[m Hm] Hj] F']; subst. inversion A as [|? ? [t' Ht] A']; subst. destruct (IH F' A') as (ts & S1 & S2 & S3). cbn [fst snd] in *.
    pose proof Hm as Hm0. apply ents_ctx in Hm. destruct Hm as (C & Ep & Ek). cbn [app] in Ek.
    assert (WI : Forall (WorkSpec.within C (npath m)) job).
    { eapply Forall_impl; [|exact Hj]. intros it (ST & LK). split.
      - destruct ST as [(rest & Er & RM)|(ST & RM & m' & z & Hm' & Er & LE)].
        + exists (npath m ++ rest). split; [rewrite Er, Ek; now rewrite <- app_assoc|]. left. eauto.
        + assert (m' = m) as -> by (apply (ents_fun [] R k m' m); [apply W|exact Hm'|exact Hm0]).
          rewrite Ek in Er. destruct (app_eq_app _ _ _ _ Er) as [l [[E1 E2]|[E1 E2]]].
          * rewrite E2, app_length in LE. lia.
          * exists l. split; [exact E1|]. right. split; [exact ST|]. split; [exact RM|]. split; [|eauto]. intros ->. cbn in E2. rewrite E2 in LE. lia.
      - intros S. destruct (LK S) as (MU & PL & EX). split; [exact MU|]. split; [|exact EX]. apply (plain_cold _ C [] m); rewrite Ep; [apply W|exact PL]. }
    subst R. destruct (all_noid rf C C job eq_refl eq_refl (fun d H => H) m m nx nx t' xs W W eq_refl WI Ht) as (m2 & nx2 & _ & _ & -> & _ & _ & _ & EP).
    exists (Tk (Sec C m []) job xs m2 :: ts). split; [constructor; [|exact S1]|split; [cbn [map k_sec]; constructor; [|exact S2]|cbn [map]; rewrite S3, Ek; reflexivity]].
    + split; [reflexivity|]. split; [exact WI|]. split; [exact EP|]. exists nx2. exact Ht.
    + split; [reflexivity|]. cbn. easy.
Qed.
Theorem race_like {OT} grow rf dep h0 R gs gs' (ps : list (prog OT)) os sch : tree_in h0 R -> Forall (fun g => keeps_to R (fst g)) gs -> apart (map fst gs) ->
  Forall (alone (S rf) (Tr R (nn h0))) gs -> Forall (fun g => depth R + length (snd (fst g)) <= dep) gs -> Permutation gs gs' ->
  length ps = length gs -> (forall i g p, nth_error gs i = Some g -> nth_error ps i = Some p ->
    exists o, nth_error os i = Some o /\ like grow (S rf) dep (nid R) (snd (fst g)) (snd g) p o) ->
  let out := schedule sch ps h0 in
  (forall p, In p (fst out) -> p <> Die /\ p <> Spin) /\
  (forall i xs, nth_error (fst out) i = Some (Ret xs) -> nth_error os i = Some xs) /\
  (Forall (fun p => exists xs, p = Ret xs) (fst out) -> exists R' t', tree_in (snd out) R' /\ nid R' = nid R /\
     does_all (S rf) (Tr R (nn h0)) (concat (map (fun g => snd (fst g)) gs')) t' (concat (map snd gs')) /\ wf_tr t' /\ noid R' = noid (root t')).
Proof.
  intros T F S A DP PM PL PR. destruct (tasks_of rf R (nn h0) gs ltac:(apply T) F A) as (ts & TK & SI & E). subst gs.
  apply Permutation_sym, Permutation_map_inv in PM. destruct PM as (ts' & -> & PM). rewrite !map_map. cbn [fst snd].
  assert (DP' : Forall (fun k => depth R + length (k_work k) <= dep) ts).
  { rewrite Forall_forall in *. intros k Hk. apply (DP (cpre (k_ctx k) ++ npath (k_node k), k_work k, k_out k)). apply in_map_iff. eauto. }
  set (secs := map k_sec ts) in *.
  assert (UQ : forall a x x' k k', In (k, x) (ents [] R) -> In (k', x') (ents [] R) -> nid x = a -> nid x' = a -> k = k').
  { intros a x x' k k' H H' E E'. destruct T as (_ & _ & W). destruct W as [_ I]. cbn in I.
    apply (ids_inj _ _ k (info_of x) k' (info_of x') I); [apply in_map_iff; exists (k, x); auto|apply in_map_iff; exists (k', x'); auto|].
    destruct x, x'. cbn in *. congruence. }
  assert (AT : forall s a, In s secs -> In a (ids (sc_node s)) -> exists z x, In (cpre (sc_ctx s) ++ npath (sc_node s) ++ z, x) (ents [] R) /\ nid x = a).
  { intros s a Hs Ha. destruct (ents_of_id (sc_node s) (cpre (sc_ctx s)) a Ha) as (z & x & Hx & Ex). exists z, x. split; [|exact Ex].
    rewrite Forall_forall in SI. rewrite <- (proj1 (SI s Hs)). apply ents_plug. exact Hx. }
  assert (SEP : forall i j s s', i <> j -> nth_error secs i = Some s -> nth_error secs j = Some s' ->
    ~ exists z, cpre (sc_ctx s') ++ npath (sc_node s') = (cpre (sc_ctx s) ++ npath (sc_node s)) ++ z).
  { unfold secs. intros i j s s' N X Y. rewrite nth_error_map in X, Y. destruct (nth_error ts i) as [k|] eqn:X'; [|discriminate]. destruct (nth_error ts j) as [k'|] eqn:Y'; [|discriminate].
    injection X as <-. injection Y as <-. eapply (S i j (_, _) (_, _) N); rewrite map_map, nth_error_map; [rewrite X'|rewrite Y']; reflexivity. }
  rewrite map_length in PL.
  assert (PR' : forall i k p, nth_error ts i = Some k -> nth_error ps i = Some p ->
    exists o, nth_error os i = Some o /\ like grow (Datatypes.S rf) dep (nid R) (k_work k) (k_out k) p o).
  { intros i k p E Ep. apply (PR i (cpre (k_ctx k) ++ npath (k_node k), k_work k, k_out k) p); [now rewrite nth_error_map, E|exact Ep]. }
  destruct (tasks_race grow h0 R rf dep ts T TK DP') with (OT := OT) (ps := ps) (os := os) (sch := sch) (ts' := ts') as (C1 & C2 & C3); auto.
  - fold secs. intros i j s s' a N X Y Ha Hb. destruct (AT s a) as (z & x & Hx & Ex); [eapply nth_error_In; eauto|exact Ha|].
    destruct (AT s' a) as (z' & x' & Hx' & Ex'); [eapply nth_error_In; eauto|exact Hb|]. pose proof (UQ a x x' _ _ Hx Hx' Ex Ex') as Q.
    rewrite !app_assoc in Q. apply prefixes_compare in Q. destruct Q as [Q|Q]; [apply (SEP i j s s' N X Y Q)|apply (SEP j i s' s (not_eq_sym N) Y X Q)].
  - fold secs. intros s s' a Hs Hs' Ha Hb. apply In_nth_error in Hs as X. apply In_nth_error in Hs' as Y. destruct X as [i X], Y as [j Y].
    destruct (Nat.eq_dec i j) as [<-|N].
    + assert (s' = s) as -> by congruence. rewrite Forall_forall in SI. destruct (SI s Hs) as [Pl _].
      apply (nodup_plug (sc_ctx s) (sc_node s)) with a; [rewrite Pl; now apply tree_in_nodup with h0|now apply spine_around|exact Hb].
    + destruct (AT s' a Hs' Hb) as (z & x & Hx & Ex). rewrite Forall_forall in SI. destruct (SI s Hs) as [Pl _].
      destruct (ents_of_spine (sc_ctx s) [] (sc_node s) a Ha) as (y & z' & x' & Hx' & Ex' & Q). rewrite Pl in Hx'. cbn [app] in Hx'.
      pose proof (UQ a x x' _ _ Hx Hx' Ex Ex') as K. apply (SEP j i s' s (not_eq_sym N) Y X). exists (z ++ z' ++ npath (sc_node s)).
      rewrite Q, <- K. now rewrite <- !app_assoc.
Qed.
Theorem race_work grow rf dep h0 R gs gs' sch : tree_in h0 R -> Forall (fun g => keeps_to R (fst g)) gs -> apart (map fst gs) ->
  Forall (alone (S rf) (Tr R (nn h0))) gs -> Forall (fun g => depth R + length (snd (fst g)) <= dep) gs -> Permutation gs gs' ->
  let out := schedule sch (map (fun g => p_work grow (S rf) dep (nid R) (snd (fst g))) gs) h0 in
  (forall p, In p (fst out) -> p <> Die /\ p <> Spin) /\
  (forall i xs, nth_error (fst out) i = Some (Ret xs) -> option_map snd (nth_error gs i) = Some xs) /\
  (Forall (fun p => exists xs, p = Ret xs) (fst out) -> exists R' t', tree_in (snd out) R' /\ nid R' = nid R /\
     does_all (S rf) (Tr R (nn h0)) (concat (map (fun g => snd (fst g)) gs')) t' (concat (map snd gs')) /\ wf_tr t' /\ noid R' = noid (root t')).
Proof.
  intros T F S A DP PM. destruct (race_like grow rf dep h0 R gs gs' (map (fun g => p_work grow (Datatypes.S rf) dep (nid R) (snd (fst g))) gs) (map snd gs) sch) as (C1 & C2 & C3); auto.
  - now rewrite map_length.
  - intros i g p E. rewrite !nth_error_map, E. cbn. intros Ep. injection Ep as <-. exists (snd g). split; [reflexivity|apply like_self].
  - split; [exact C1|]. split; [|exact C3]. intros i xs E. rewrite <- nth_error_map. now apply C2.
Qed.
Lemma nth_same {A} (l : list A) : forall l', (forall i, nth_error l i = nth_error l' i) -> l = l'.
Proof.
  induction l as [|a l IH]; intros [|b l'] H; auto; try (specialize (H 0); discriminate).
  pose proof (H 0) as H0. cbn in H0. injection H0 as <-. f_equal. apply IH. intros i. exact (H (S i)).
Qed.
Lemma turns_length {A} sch : forall (ps : list (prog A)) h, length (fst (schedule sch ps h)) = length ps.
Proof.
  unfold schedule. induction sch as [|i sch IH]; intros ps h; [reflexivity|]. cbn [fold_left fst snd].
  assert (X : length (fst (turn ps h i)) = length ps).
  { unfold turn. destruct (nth_error ps i) as [p|]; [|reflexivity]. destruct (access p h) as [[p' h']|]; [|reflexivity]. apply put_length. }
  destruct (turn ps h i) as [ps1 h1]. now rewrite IH.
Qed.
(** all come to an end *)
Theorem work_ends grow rf dep h0 R gs f : tree_in h0 R -> Forall (fun g => keeps_to R (fst g)) gs -> apart (map fst gs) ->
  Forall (alone (S rf) (Tr R (nn h0))) gs -> Forall (fun g => depth R + length (snd (fst g)) <= dep) gs -> fair (length gs) f ->
  exists n, fst (schedule (map f (seq 0 n)) (map (fun g => p_work grow (S rf) dep (nid R) (snd (fst g))) gs) h0) = map (fun g => Ret (snd g)) gs.
Proof.
  intros T F SP A DP FR. set (ps := map (fun g => p_work grow (S rf) dep (nid R) (snd (fst g))) gs).
  destruct (all_end f ps h0) as [n H]; [unfold ps; now rewrite map_length|].
  exists n. unfold after in H. destruct (race_work grow rf dep h0 R gs gs (map f (seq 0 n)) T F SP A DP (Permutation_refl _)) as (AL & RT & _). fold ps in AL, RT.
  apply nth_same. intros i. destruct (nth_error (fst (schedule (map f (seq 0 n)) ps h0)) i) as [p|] eqn:E.
  - apply nth_error_In in E as Hp. rewrite Forall_forall in H. specialize (H p Hp). specialize (AL p Hp).
    destruct p as [xs| | |a k|a g k|s k|r j k|r j x k|r k|l k]; cbn in H; try tauto; try (destruct AL; congruence).
    apply RT in E. rewrite nth_error_map. destruct (nth_error gs i) as [g|]; cbn in *; congruence.
  - symmetry. apply nth_error_None in E. apply nth_error_None. rewrite turns_length in E. unfold ps in E. rewrite !map_length in *. exact E.
Qed.

(** ** calls without patterns always have a result *)
Lemma tame_does rf (D : rune -> Prop) t it : wf_tr t -> (forall d, D d -> plain_tree d [] (root t)) -> tame D it ->
  exists t1 x, does_i (S rf) t it t1 x /\ wf_tr t1 /\ forall d, D d -> plain_tree d [] (root t1).
Proof.
  intros W P (HD & PK). set (h := hdl_of it) in *. pose proof (abs_entries t) as A.
  assert (PA : plain_all D (entries t)) by (intros d Hd; apply (plain_tree_map d t _ W A); auto).
  assert (ST : forall o, op_plain D (full h) o -> exists t1 r, t_step (S rf) h t o = Ok (t1, r) /\ wf_tr t1 /\ forall d, D d -> plain_tree d [] (root t1)).
  { intros o OP. destruct (step_refines rf D h t (entries t) o HD W A PA) as (t1 & E & W1 & A1). exists t1. eexists. split; [exact E|]. split; [exact W1|].
    intros d Hd. apply (plain_tree_map d t1 _ W1 A1). now apply (plain_step D (view_of h) (entries t) o PA OP). }
  assert (SR : forall w, exists r, search (S rf) h t w = Ok r).
  { intros w. destruct (step_refines rf D (Hdl [] (hdelim h) (hmode h)) t (entries t) (OHas w) HD W A PA) as (t1 & E & _). cbn in E. unfold Has in E.
    replace (search (S rf) (Hdl [] (hdelim h) (hmode h)) t (full (Hdl [] (hdelim h) (hmode h)) w)) with (search (S rf) h t w) in E by reflexivity.
    destruct (search (S rf) h t w) as [r| |]; try discriminate. eauto. }
  assert (RD : forall x, does_i (S rf) t it t x -> exists t1 x, does_i (S rf) t it t1 x /\ wf_tr t1 /\ forall d, D d -> plain_tree d [] (root t1)) by eauto.
  destruct it as [o|h' p|h' p v mark|h' p|order h' q|w h' p]; [destruct o| | | | |]; cbn [sets key_of hdl_of] in *; try discriminate; subst h; cbn [does_i does] in *.
  - destruct (SR (full h0 p)) as [r E]. apply (RD (Value (query_of (hdelim h0) r))). split; [reflexivity|]. exists (query_of (hdelim h0) r). split; [|reflexivity]. unfold Query. now rewrite E.
  - destruct (SR (full h0 p)) as [r E]. destruct (Has (S rf) h0 t p) as [b| |] eqn:Q; [|unfold Has in Q; rewrite E in Q; discriminate|unfold Has in Q; rewrite E in Q; discriminate].
    apply (RD (Yes b)). split; [reflexivity|]. eauto.
  - destruct (SR (full h0 p)) as [r E].
    destruct (HasPart (S rf) h0 t p) as [b| |] eqn:Q; [|unfold HasPart in Q; rewrite E in Q; cbn in Q; destruct (s_node r); discriminate|unfold HasPart in Q; rewrite E in Q; cbn in Q; destruct (s_node r); discriminate].
    apply (RD (Yes b)). split; [reflexivity|]. eauto.
  - destruct (SR (full h0 p)) as [r E]. assert (G : exists o, getNodeFast (S rf) h0 t p = Ok o) by (unfold getNodeFast; rewrite E; cbn; eauto). destruct G as [o G].
    destruct x.
    + destruct (GetDesc (S rf) h0 t p) as [[v b]| |] eqn:Q; [|unfold GetDesc in Q; rewrite G in Q; discriminate|unfold GetDesc in Q; rewrite G in Q; discriminate].
      apply (RD (Is (GStr v) b)). split; [reflexivity|]. eauto.
    + destruct (GetComment (S rf) h0 t p) as [[v b]| |] eqn:Q; [|unfold GetComment in Q; rewrite G in Q; discriminate|unfold GetComment in Q; rewrite G in Q; discriminate].
      apply (RD (Is (GStr v) b)). split; [reflexivity|]. eauto.
    + destruct (GetTag (S rf) h0 t p) as [[v b]| |] eqn:Q; [|unfold GetTag in Q; rewrite G in Q; discriminate|unfold GetTag in Q; rewrite G in Q; discriminate].
      apply (RD (Is v b)). split; [reflexivity|]. eauto.
  - destruct (ST (OSet p v)) as (t1 & r & E & W1 & P1); [intros d Hd; cbn; auto|]. cbn in E. destruct (Set_ h0 t p v) as [[[t2 id] old]| |] eqn:E1; try discriminate.
    injection E as <- <-. exists t2, Stored. split; [|auto]. split; [eauto|reflexivity].
  - destruct (ST (OSetTag p v)) as (t1 & r & E & W1 & P1); [intros d Hd; exact I|]. cbn in E. destruct (SetTag (S rf) h0 t p v) as [[t2 b]| |] eqn:E1; try discriminate.
    injection E as <- <-. exists t2, (Yes b). split; [|auto]. eauto.
  - destruct (ST (OSetEx p v)) as (t1 & r & E & W1 & P1); [intros d Hd; cbn; auto|]. cbn in E. destruct (SetEx h0 t p v) as [[[t2 old] cs]| |] eqn:E1; try discriminate.
    injection E as <- <-. exists t2, (Old old). split; [|auto]. eauto.
  - destruct (ST (OSetComment p desc cmt)) as (t1 & r & E & W1 & P1); [intros d Hd; exact I|]. cbn in E. destruct (SetComment (S rf) h0 t p desc cmt) as [[t2 b]| |] eqn:E1; try discriminate.
    injection E as <- <-. exists t2, (Yes b). split; [|auto]. eauto.
  - destruct (ST (OUpdate p (fun old => [NSetData (g old)]))) as (t1 & r & E & W1 & P1); [intros d Hd; cbn; auto|]. cbn in E.
    exists t1, Stored. split; [|auto]. split; [|reflexivity]. unfold Update in *. destruct (insert_root _ _ _) as [[t2 ir]| |]; cbn [bind] in *; try discriminate. injection E as <- _. reflexivity.
  - destruct (ST (ORemove p)) as (t1 & r & E & W1 & P1); [intros d Hd; exact I|]. cbn in E. destruct (Remove (S rf) h' t p) as [[t2 b]| |] eqn:E1; try discriminate.
    injection E as <- <-. exists t2, (Yes b). split; [|auto]. eauto.
  - destruct mark.
    + destruct (ST (OSetWith p v (fun _ => [NSetModified true]))) as (t1 & r & E & W1 & P1); [intros d Hd; cbn; auto|]. cbn in E. destruct (Set_ h' t p v) as [[[t2 id] old]| |] eqn:E1; try discriminate.
      injection E as <- <-. eexists. exists (Old old). split; [exists t2, id, old; split; [reflexivity|]; split; reflexivity|]. split; [exact W1|exact P1].
    + destruct (ST (OSet p v)) as (t1 & r & E & W1 & P1); [intros d Hd; cbn; auto|]. cbn in E. destruct (Set_ h' t p v) as [[[t2 id] old]| |] eqn:E1; try discriminate.
      injection E as <- <-. exists t2, (Old old). split; [exists t2, id, old; auto|auto].
  - destruct (ST (ORemove p)) as (t1 & r & E & W1 & P1); [intros d Hd; exact I|]. cbn in E. unfold Remove in E. destruct (RemoveEx (S rf) h' t p) as [[[[t2 n] q] b]| |] eqn:E1; try discriminate.
    cbn in E. injection E as <- <-. exists t2. eexists. split; [exists n, q, b; split; reflexivity|auto].
  - destruct (SR (full h' (ask_path q))) as [r E]. apply (RD (Map (ask_on order (S rf) h' t q))). split; [reflexivity|]. split; [eauto|reflexivity].
  - destruct w as [f|v tag dc| |v f].
    + destruct (ST (OUpdate p f)) as (t1 & r & E & W1 & P1); [intros d Hd; cbn; auto|]. cbn in E. destruct (Update h' t p _) as [t2| |] eqn:E1; try discriminate.
      injection E as <- <-. exists t2, Stored. auto.
    + destruct (ST (OSetNode p v tag dc)) as (t1 & r & E & W1 & P1); [intros d Hd; cbn; auto|]. cbn in E. destruct (SetNode h' t p v tag dc) as [[[t2 id] old]| |] eqn:E1; try discriminate.
      injection E as <- <-. exists t2, (Old old). split; [eauto|auto].
    + destruct (ST (OSetEmpty p)) as (t1 & r & E & W1 & P1); [intros d Hd; cbn; auto|]. cbn in E. destruct (SetEmpty h' t p) as [[t2 old]| |] eqn:E1; try discriminate.
      injection E as <- <-. exists t2, (Old old). split; [eauto|auto].
    + destruct (ST (OSetWith p v f)) as (t1 & r & E & W1 & P1); [intros d Hd; cbn; auto|]. cbn in E. destruct (Set_ h' t p v) as [[[t2 id] old]| |] eqn:E1; try discriminate.
      injection E as <- <-. eexists. exists (Old old). split; [exists t2, id, old; split; [reflexivity|]; split; reflexivity|]. split; [exact W1|exact P1].
Qed.
Theorem tame_all rf (D : rune -> Prop) job : forall t, wf_tr t -> (forall d, D d -> plain_tree d [] (root t)) -> Forall (tame D) job ->
  exists t' xs, does_all (S rf) t job t' xs.
Proof.
  induction job as [|it job IH]; intros t W P F; [exists t, []; constructor|]. inversion F as [|? ? F1 F2]; subst.
  destruct (tame_does rf D t it W P F1) as (t1 & x & D1 & W1 & P1). destruct (IH t1 W1 P1 F2) as (t' & xs & D2). exists t', (x :: xs). econstructor; eauto.
Qed.

(** ** the same as a function, for the examples *)
Definition run_i (rf : nat) (t : tr) (it : item) : res (tr * reply) :=
  match it with
  | Op (DoGet h p) => do q <- Query rf h t p; Ok (t, Value q)
  | Op (DoHas h p) => do b <- Has rf h t p; Ok (t, Yes b)
  | Op (DoHasPart h p) => do b <- HasPart rf h t p; Ok (t, Yes b)
  | Op (DoAttr Desc h p) => do (v, b) <- GetDesc rf h t p; Ok (t, Is (GStr v) b)
  | Op (DoAttr Comm h p) => do (v, b) <- GetComment rf h t p; Ok (t, Is (GStr v) b)
  | Op (DoAttr Tag h p) => do (v, b) <- GetTag rf h t p; Ok (t, Is v b)
  | Op (DoSet h p v) => do (t', _, _) <- Set_ h t p v; Ok (t', Stored)
  | Op (DoTag h p v) => do (t', b) <- SetTag rf h t p v; Ok (t', Yes b)
  | Op (DoSetEx h p v) => do (t', old, _) <- SetEx h t p v; Ok (t', Old old)
  | Op (DoComment h p desc cmt) => do (t', b) <- SetComment rf h t p desc cmt; Ok (t', Yes b)
  | Op (DoUpdate h p g) => do t' <- Update h t p (fun old => setData (g old)); Ok (t', Stored)
  | Rm h p => do (t', b) <- Remove rf h t p; Ok (t', Yes b)
  | Mk h p v mark => do (t1, id, old) <- Set_ h t p v; Ok (if mark then Tr (upd id (setModified true) (root t1)) (next t1) else t1, Old old)
  | Wr (WUpdate f) h p => do t' <- Update h t p (fun old n => fold_left (fun n o => n_nodeop o n) (f old) n); Ok (t', Stored)
  | Wr (WNode v tag dc) h p => do (t', _, old) <- SetNode h t p v tag dc; Ok (t', Old old)
  | Wr WEmpty h p => do (t', old) <- SetEmpty h t p; Ok (t', Old old)
  | Wr (WWith v f) h p => do (t1, id, old) <- Set_ h t p v; Ok (Tr (upd id (fun n => fold_left (fun n o => n_nodeop o n) (f old) n) (root t1)) (next t1), Old old)
  | Rg h p => do (t', n, _, _) <- RemoveEx rf h t p; Ok (t', match n with Some n => Is (ndata n) true | None => Is GNil false end)
  | Ex order h q => if is_root_path (ask_path q) then Ok (t, Map (ask_on order rf h t q)) else do _ <- search rf h t (full h (ask_path q)); Ok (t, Map (ask_on order rf h t q))
  end.
Fixpoint run_all (rf : nat) (t : tr) (job : list item) : res (tr * list reply) :=
  match job with
  | [] => Ok (t, [])
  | it :: job => do (t1, x) <- run_i rf t it; do (t2, xs) <- run_all rf t1 job; Ok (t2, x :: xs)
  end.
Lemma run_does_i rf t it t' x : run_i rf t it = Ok (t', x) -> does_i rf t it t' x.
Proof.
  destruct it as [o|h p|h p v mark|h p|order h q|w h p]; [destruct o| | | | |destruct w]; cbn; intros E;
    try (destruct (is_root_path _) eqn:RP);
    repeat match goal with
    | H : context [match ?x with Desc => _ | Comm => _ | Tag => _ end] |- _ => destruct x
    | H : bind ?r _ = Ok _ |- _ => let Q := fresh "Q" in destruct r as [?| |] eqn:Q; cbn in H; try discriminate
    | H : context [let '(_, _) := ?p in _] |- _ => destruct p; cbn in H
    | H : Ok _ = Ok _ |- _ => injection H as <- <-
    end; subst; eauto 10.
Qed.
Lemma run_does rf job : forall t t' xs, run_all rf t job = Ok (t', xs) -> does_all rf t job t' xs.
Proof.
  induction job as [|it job IH]; cbn; intros t t' xs E; [injection E as <- <-; constructor|].
  destruct (run_i rf t it) as [[t1 x]| |] eqn:E1; cbn in E; try discriminate. destruct (run_all rf t1 job) as [[t2 ys]| |] eqn:E2; cbn in E; try discriminate.
  injection E as <- <-. econstructor; [apply run_does_i; eassumption|auto].
Qed.
(** ** an export in the middle of a job *)
Lemma does_split rf t pre it post t' xs : does_all rf t (pre ++ it :: post) t' xs ->
  exists t1 ys x zs t2, does_all rf t pre t1 ys /\ does_i rf t1 it t2 x /\ does_all rf t2 post t' zs /\ xs = ys ++ x :: zs /\ length ys = length pre.
Proof.
  revert t xs. induction pre as [|a pre IH]; cbn [app]; intros t xs H; inversion H as [|? ? t1 x ? ? xs' H1 H2]; subst.
  - exists t, [], x, xs', t1. repeat split; auto. constructor.
  - destruct (IH _ _ H2) as (t3 & ys & y & zs & t4 & A & B & Z & -> & L). exists t3, (x :: ys), y, zs, t4.
    split; [econstructor; eauto|]. split; [exact B|]. split; [exact Z|]. cbn. auto.
Qed.
Theorem race_ask grow rf dep h0 R gs sch i k pre order h q post ys xs : tree_in h0 R -> Forall (fun g => keeps_to R (fst g)) gs -> apart (map fst gs) ->
  Forall (alone (S rf) (Tr R (nn h0))) gs -> Forall (fun g => depth R + length (snd (fst g)) <= dep) gs ->
  nth_error gs i = Some (k, pre ++ Ex order h q :: post, ys) ->
  nth_error (fst (schedule sch (map (fun g => p_work grow (S rf) dep (nid R) (snd (fst g))) gs) h0)) i = Some (Ret xs) ->
  exists t1, does_all (S rf) (Tr R (nn h0)) pre t1 (firstn (length pre) xs) /\
    nth_error xs (length pre) = Some (Map (ask_on order (S rf) h t1 q)).
Proof.
  intros T F S A DP HI HX. destruct (race_work grow rf dep h0 R gs gs sch T F S A DP (Permutation_refl _)) as (_ & G & _).
  apply G in HX. rewrite HI in HX. injection HX as ->. rewrite Forall_forall in A. destruct (A _ (nth_error_In _ _ HI)) as [t' Ht]. cbn [fst snd] in Ht.
  apply does_split in Ht. destruct Ht as (t1 & zs & x & us & t2 & D1 & D2 & _ & -> & L). exists t1. cbn [does_i] in D2. destruct D2 as (_ & _ & ->).
  rewrite <- L, firstn_app, firstn_all, Nat.sub_diag, app_nil_r. split; [exact D1|]. rewrite nth_error_app2, Nat.sub_diag; auto.
Qed.
