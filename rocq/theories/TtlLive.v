(** SetTTL arms one timer and does not block; what happens when it is called from several goroutines. *)
From Coq Require Import List NArith Bool Arith Lia.
From Verif Require Import GoStr Utf8 Node NodeWf InsertProofs MatchProofs Trie Spec TreeOps Refine Climb ApiRefine Reach
  Effect Derived Derived2 Derived3 Derived5 Ttl TtlProofs TtlRace.
Import ListNotations.
Open Scope nat_scope.

(** ** calls one after the other *)
(** each trie that has a manager has one of its own, which runs *)
Definition jobok (n : nat) (x : job) : Prop := j_mgr x < n /\ (j_stat x = JWait -> j_elapsed x = false).
Record served (w : world) : Prop := {
  sv_run : forall i th, nth_error (tries w) i = Some th -> th_present th = true ->
             exists m g, th_ttl th = Some m /\ nth_error (mgrs w) m = Some g /\ mg_done g = false;
  sv_old : forall i th m, nth_error (tries w) i = Some th -> th_ttl th = Some m -> m < length (mgrs w);
  sv_own : forall i i' th th' m, nth_error (tries w) i = Some th -> nth_error (tries w) i' = Some th' ->
             th_ttl th = Some m -> th_ttl th' = Some m -> i = i';
  sv_jobs : Forall (jobok (length (mgrs w))) (jobs w) }.

Lemma served0 h : served (world0 h).
Proof.
  split; cbn.
  - intros [|[|i]] th E; cbn in E; try discriminate. injection E as <-. discriminate.
  - intros [|[|i]] th m E; cbn in E; try discriminate. injection E as <-. discriminate.
  - intros [|[|i]] i' th th' m E; cbn in E; try discriminate. injection E as <-. discriminate.
  - constructor.
Qed.

Lemma served_eq w w' : served w -> tries w' = tries w -> mgrs w' = mgrs w ->
  Forall (jobok (length (mgrs w))) (jobs w') -> served w'.
Proof. intros [A B C _] E1 E2 J. split; rewrite ?E1, ?E2; auto. Qed.

Lemma nth_set_inv {A} i j (x : A) l y : nth_error (set_nth i x l) j = Some y -> nth_error l i <> None ->
  (j = i /\ y = x) \/ (j <> i /\ nth_error l j = Some y).
Proof.
  destruct (Nat.eq_dec j i) as [->|N].
  - destruct (nth_error l i) as [z|] eqn:E; [|tauto]. rewrite (nth_set_same _ _ _ _ E). intros H _. injection H as <-. auto.
  - rewrite nth_set_other by assumption. auto.
Qed.
Lemma nth_snoc {A} (l : list A) x j y : nth_error (l ++ [x]) j = Some y ->
  (j = length l /\ y = x) \/ nth_error l j = Some y.
Proof.
  intros H. destruct (lt_dec j (length l)).
  - rewrite nth_error_app1 in H by assumption. auto.
  - rewrite nth_error_app2 in H by lia. destruct (j - length l) as [|k] eqn:E.
    + injection H as <-. left. split; auto. lia.
    + destruct k; discriminate.
Qed.
Lemma set_nth_length {A} i (x : A) l : length (set_nth i x l) = length l.
Proof. revert i; induction l; destruct i; cbn; auto. Qed.
Lemma jobs_more w l : Forall (jobok (length (mgrs w))) (jobs w) ->
  Forall (jobok (length (mgrs w ++ l))) (jobs w).
Proof. intros F. eapply Forall_impl; [|exact F]. intros x [H1 H2]. split; auto. rewrite app_length. lia. Qed.

Lemma ensure_served w i th m w1 : served w -> nth_error (tries w) i = Some th -> ensure i th w = (m, w1) ->
  served w1 /\ trees w1 = trees w /\ jobs w1 = jobs w /\
  exists m0 g, m = Some m0 /\ nth_error (mgrs w1) m0 = Some g /\ mg_done g = false.
Proof.
  intros S Hth. unfold ensure. destruct (th_present th) eqn:P; intros E; injection E as <- <-.
  - destruct (sv_run w S i th Hth P) as (m & g & H1 & H2 & H3). split; auto. split; auto. split; auto. eauto.
  - destruct S as [A B C J]. split; [|split; [auto|split; [auto|]]].
    2:{ exists (length (mgrs w)), (Mgr i false). cbn [mgrs]. rewrite nth_error_app2, Nat.sub_diag by lia. auto. }
    assert (Hi : nth_error (tries w) i <> None) by congruence.
    split; cbn [tries mgrs jobs].
    + intros j th' Hj Pj. destruct (nth_set_inv _ _ _ _ _ Hj Hi) as [[-> ->]|[N Hj']].
      * exists (length (mgrs w)), (Mgr i false). rewrite nth_error_app2, Nat.sub_diag by lia. auto.
      * destruct (A j th' Hj' Pj) as (m & g & H1 & H2 & H3). exists m, g.
        rewrite nth_error_app1 by (apply nth_error_Some; congruence). auto.
    + intros j th' m Hj Hm. rewrite app_length. cbn [length]. destruct (nth_set_inv _ _ _ _ _ Hj Hi) as [[-> ->]|[N Hj']].
      * cbn in Hm. injection Hm as <-. lia.
      * pose proof (B j th' m Hj' Hm). lia.
    + intros j j' th1 th2 m H1 H2 M1 M2.
      destruct (nth_set_inv _ _ _ _ _ H1 Hi) as [[-> ->]|[N1 H1']]; destruct (nth_set_inv _ _ _ _ _ H2 Hi) as [[-> ->]|[N2 H2']]; auto.
      * cbn in M1. injection M1 as <-. pose proof (B _ _ _ H2' M2). lia.
      * cbn in M2. injection M2 as <-. pose proof (B _ _ _ H1' M1). lia.
      * eapply C; eauto.
    + now apply (jobs_more w).
Qed.

Lemma add_served w m ti n short cb w1 : served w -> add_job m ti n short cb w = Some w1 -> served w1.
Proof.
  intros S. unfold add_job. destruct (nth_error (mgrs w) m) as [g|] eqn:G; [|discriminate].
  destruct (mg_done g); [discriminate|]. destruct short; intros E; injection E as <-; auto.
  apply (served_eq w); auto. cbn [jobs]. apply Forall_app. split; [apply S|]. constructor; auto. split; [|discriminate].
  apply nth_error_Some. cbn. congruence.
Qed.
Lemma add_works w m g ti n short cb : nth_error (mgrs w) m = Some g -> mg_done g = false ->
  exists w1, add_job m ti n short cb w = Some w1 /\ trees w1 = trees w /\ tries w1 = tries w /\
    jobs w1 = jobs w ++ if short then [] else [Job m ti (nid n) (isBranch n) (npathS n) false JStart cb].
Proof.
  intros H1 H2. unfold add_job. rewrite H1, H2. destruct short; eexists; split; try reflexivity; cbn; rewrite ?app_nil_r; auto.
Qed.

Lemma dup_served w th i ti h : served w -> nth_error (tries w) i = Some th -> served (dup_trie th ti h w).
Proof.
  intros S Hth. unfold dup_trie. destruct S as [A B C J].
  assert (NEW : forall o l g0, (forall m, o = Some m -> m = length (mgrs w) /\ l = [g0]) ->
    (o <> None -> mg_done g0 = false) ->
    forall p, (p = true -> o <> None) ->
    served (World (trees w) (tries w ++ [TH ti h p o]) (mgrs w ++ l) (jobs w))).
  { intros o l g0 Ho Hg p Hp. split; cbn [tries mgrs jobs].
    - intros j th' Hj Pj. destruct (nth_snoc _ _ _ _ Hj) as [[-> ->]|Hj'].
      + cbn in Pj. specialize (Hp Pj). destruct o as [m|]; [|congruence]. destruct (Ho m eq_refl) as [-> ->].
        exists (length (mgrs w)), g0. rewrite nth_error_app2, Nat.sub_diag by lia. cbn.
        repeat (split; [now auto|]). apply Hg. discriminate.
      + destruct (A j th' Hj' Pj) as (m & g & H1 & H2 & H3). exists m, g.
        rewrite nth_error_app1 by (apply nth_error_Some; congruence). auto.
    - intros j th' m Hj Hm. rewrite app_length. destruct (nth_snoc _ _ _ _ Hj) as [[-> ->]|Hj'].
      + cbn in Hm. subst o. destruct (Ho m eq_refl) as [-> ->]. cbn. lia.
      + pose proof (B j th' m Hj' Hm). lia.
    - intros j j' th1 th2 m H1 H2 M1 M2.
      destruct (nth_snoc _ _ _ _ H1) as [[-> ->]|H1']; destruct (nth_snoc _ _ _ _ H2) as [[-> ->]|H2']; auto.
      + cbn in M1. subst o. destruct (Ho m eq_refl) as [-> _]. pose proof (B _ _ _ H2' M2). lia.
      + cbn in M2. subst o. destruct (Ho m eq_refl) as [-> _]. pose proof (B _ _ _ H1' M1). lia.
      + eapply C; eauto.
    - now apply (jobs_more w). }
  destruct (th_present th) eqn:P.
  - destruct (th_ttl th) as [m|]; [|split; auto]. destruct (nth_error (mgrs w) m) as [g|]; [|split; auto].
    apply (NEW (Some (length (mgrs w))) [Mgr (mg_trie g) false] (Mgr (mg_trie g) false)).
    + intros m0 E. injection E as <-. auto.
    + auto.
    + discriminate.
  - rewrite <- (app_nil_r (mgrs w)). apply (NEW None [] (Mgr 0 false)); [discriminate|congruence|discriminate].
Qed.

Section WithFuel.
Variable rf : nat.
Variable clone : gval -> gval.

Lemma see_mgr ti t l n : Forall (jobok n) l -> Forall (jobok n) (map (see ti t) l).
Proof.
  intros F. apply Forall_map. eapply Forall_impl; [|exact F]. intros x Hx. unfold jobok in *.
  destruct (see_same ti t x) as ((-> & _) & -> & ->). exact Hx.
Qed.
Lemma put_served w ti t : served w -> served (put_tree ti t w).
Proof. intros S. apply (served_eq w); auto. apply see_mgr, S. Qed.
Lemma job_served w j x y : served w -> nth_error (jobs w) j = Some x -> j_mgr y = j_mgr x ->
  (j_stat y = JWait -> j_elapsed y = false) -> served (put_job j y w).
Proof.
  intros S Hx E W. apply (served_eq w); auto. cbn [jobs put_job]. apply Forall_set_nth; [apply S|].
  split; auto. rewrite E. exact (proj1 (Forall_nth _ _ _ _ (sv_jobs w S) Hx)).
Qed.

Theorem wstep_served w c w' : served w -> wstep rf clone w c = Some (Ok w') -> served w'.
Proof.
  intros S. destruct c; cbn [wstep].
  - destruct (nth_error (tries w) i) as [th|] eqn:Hth; [|discriminate].
    destruct (nth_error (trees w) (th_tree th)) as [t|] eqn:Ht; [|discriminate].
    destruct (t_step rf (th_h th) t o) as [[t' r]| |] eqn:Es; try discriminate. cbn [bind].
    intros E. injection E as <-. now apply put_served.
  - destruct (nth_error (tries w) i) as [th|] eqn:Hth; [|discriminate].
    destruct (nth_error (trees w) (th_tree th)) as [t|] eqn:Ht; [|discriminate].
    destruct (search rf (th_h th) t (full (th_h th) path)) as [r| |]; try discriminate.
    destruct (s_node r) as [n|]; [|intros E; injection E as <-; auto].
    destruct (s_partial r); [intros E; injection E as <-; auto|].
    destruct (ensure i th w) as [[m0|] w1] eqn:Ee; [|discriminate].
    destruct (add_job m0 (th_tree th) n short cb w1) as [w2|] eqn:Ea; [|discriminate]. intros E; injection E as <-.
    destruct (ensure_served _ _ _ _ _ S Hth Ee) as (S1 & _). eapply add_served; eauto.
  - destruct (nth_error (tries w) i) as [th|] eqn:Hth; [|discriminate].
    destruct (nth_error (trees w) ti) as [t|]; [|discriminate].
    destruct (find_id id t) as [n|]; [|discriminate].
    destruct (ensure i th w) as [[m0|] w1] eqn:Ee; [|discriminate].
    destruct (add_job m0 ti n short cb w1) as [w2|] eqn:Ea; [|discriminate]. intros E; injection E as <-.
    destruct (ensure_served _ _ _ _ _ S Hth Ee) as (S1 & _). eapply add_served; eauto.
  - destruct (nth_error (tries w) i) as [th|] eqn:Hth; [|discriminate]. intros E; injection E as <-. eapply dup_served; eauto.
  - destruct (nth_error (tries w) i) as [th|] eqn:Hth; [|discriminate]. intros E; injection E as <-.
    destruct S as [A B C J].
    assert (Hi : nth_error (tries w) i <> None) by congruence.
    split; cbn [tries mgrs jobs]; auto.
    + intros j th' Hj Pj. destruct (nth_set_inv _ _ _ _ _ Hj Hi) as [[-> ->]|[N Hj']]; eauto. exact (A i th Hth Pj).
    + intros j th' m Hj Hm. destruct (nth_set_inv _ _ _ _ _ Hj Hi) as [[-> ->]|[N Hj']]; eauto.
    + intros j j' th1 th2 m H1 H2 M1 M2.
      destruct (nth_set_inv _ _ _ _ _ H1 Hi) as [[-> ->]|[N1 H1']]; destruct (nth_set_inv _ _ _ _ _ H2 Hi) as [[-> ->]|[N2 H2']]; auto;
        cbn in *; eapply C; eauto.
  - destruct (nth_error (tries w) i) as [th|] eqn:Hth; [|discriminate].
    destruct (nth_error (trees w) (th_tree th)) as [t|]; [|discriminate]. intros E; injection E as <-.
    apply (dup_served (World (trees w ++ [Dup clone t]) (tries w) (mgrs w) (jobs w)) th i); auto.
    now apply (served_eq w); auto; apply S.
  - destruct (nth_error (tries w) i) as [th|] eqn:Hth; [|discriminate].
    destruct (th_present th) eqn:P; [|intros E; injection E as <-; auto].
    destruct (th_ttl th) as [m0|] eqn:T; [|intros E; injection E as <-; auto].
    destruct (nth_error (mgrs w) m0) as [g0|] eqn:Hg0; [|discriminate]. intros E; injection E as <-.
    destruct S as [A B C J].
    assert (Hi : nth_error (tries w) i <> None) by congruence.
    split; cbn [tries mgrs jobs].
    + intros j th' Hj Pj. destruct (nth_set_inv _ _ _ _ _ Hj Hi) as [[-> ->]|[N Hj']]; [discriminate|].
      destruct (A j th' Hj' Pj) as (m & g & H1 & H2 & H3). exists m, g. split; auto. split; auto.
      rewrite nth_set_other; auto. intros ->. apply N. eapply C; eauto.
    + intros j th' m Hj Hm. rewrite set_nth_length. destruct (nth_set_inv _ _ _ _ _ Hj Hi) as [[-> ->]|[N Hj']]; eauto.
      cbn in Hm. apply (B i th m); congruence.
    + intros j j' th1 th2 m H1 H2 M1 M2.
      destruct (nth_set_inv _ _ _ _ _ H1 Hi) as [[-> ->]|[N1 H1']]; destruct (nth_set_inv _ _ _ _ _ H2 Hi) as [[-> ->]|[N2 H2']]; auto;
        cbn in *; eapply C; eauto; congruence.
    + rewrite set_nth_length. apply Forall_map. eapply Forall_impl; [|exact J]. intros x Hx. cbn in *.
      destruct (j_stat x) eqn:Ex; auto. destruct (_ =? _); auto. split; [apply Hx|discriminate].
  - destruct (nth_error (tries w) i) as [th|]; [|discriminate]. intros E; injection E as <-. auto.
  - destruct (nth_error (jobs w) j) as [y|] eqn:Hy; [|discriminate]. destruct (j_elapsed y); [discriminate|].
    intros E; injection E as <-. eapply job_served; eauto. cbn. destruct (j_stat y); discriminate.
  - destruct (nth_error (jobs w) j) as [y|] eqn:Hy; [|discriminate]. destruct (j_stat y) eqn:Es; try discriminate.
    destruct (nth_error (mgrs w) (j_mgr y)) as [g0|]; [|discriminate]. intros E; injection E as <-. eapply job_served; eauto.
    cbn. destruct (j_elapsed y), (mg_done g0); auto; destruct timer; discriminate.
  - destruct (nth_error (jobs w) j) as [y|] eqn:Hy; [|discriminate]. destruct (j_stat y) eqn:Es; try discriminate.
    intros E; injection E as E.
    assert (S0 : served (put_job j (with_stat y (j_elapsed y) JOver) w)) by (eapply job_served; eauto; discriminate).
    revert E. unfold ring. generalize dependent (put_job j (with_stat y (j_elapsed y) JOver) w). intros w0 S0.
    destruct (j_branch _).
    + destruct (nth_error (mgrs w0) _) as [g|]; [|intros E; now injection E as <-].
      destruct (nth_error (tries w0) _) as [th|]; [|intros E; now injection E as <-].
      destruct (nth_error (trees w0) _) as [t|]; [|intros E; now injection E as <-].
      destruct (Remove _ _ _ _) as [[t' b]| |]; try discriminate. cbn [bind]. intros E; injection E as <-. now apply put_served.
    + destruct (nth_error (trees w0) _) as [t|]; intros E; injection E as <-; auto. now apply put_served.
Qed.
Theorem wrun_served : forall cs w w', served w -> wrun rf clone cs w = Ok w' -> served w'.
Proof.
  induction cs as [|c cs IH]; intros w w' S E; cbn [wrun] in E; [now injection E as <-|].
  destruct (wstep rf clone w c) as [[w1| |]|] eqn:E1; try discriminate; eauto.
  eapply IH; [|exact E]. eapply wstep_served; eauto.
Qed.

(** SetTTL returns; on a key it arms one timer for the node of this key, unless the duration is
    shorter than 200ns; on anything else it does nothing *)
Theorem ttl_arms D w i th t path short cb :
  winv w -> served w -> nth_error (tries w) i = Some th -> nth_error (trees w) (th_tree th) = Some t ->
  plain_all D (entries t) -> D (hdelim (th_h th)) -> 0 < rf ->
  exists w1, wstep rf clone w (CSetTTL i path short cb) = Some (Ok w1) /\ trees w1 = trees w /\
  match s_search (hdelim (th_h th)) (is_up (th_h th)) (entries t) (full (th_h th) path) with
  | SFound k =>
      if short then jobs w1 = jobs w
      else exists x n, jobs w1 = jobs w ++ [x] /\ j_stat x = JStart /\ j_elapsed x = false /\ j_cb x = cb /\
             j_tree x = th_tree th /\ In (k, n) (ents [] (root t)) /\ j_id x = nid n
  | _ => w1 = w
  end.
Proof.
  intros I S Hth Ht PA Hd Hrf. pose proof (wtree _ _ _ I Ht) as WT.
  destruct (search_spec (hdelim (th_h th)) t (entries t) WT (abs_entries t)) with (rf := pred rf) (h := th_h th) (w := full (th_h th) path)
    as (r & Er & SO & _); auto.
  { apply (plain_tree_map (hdelim (th_h th)) t (entries t) WT (abs_entries t)). now apply PA. }
  replace (Datatypes.S (pred rf)) with rf in Er by lia. cbn [wstep]. rewrite Hth, Ht, Er.
  destruct (s_search _ _ _ _) as [k|k|]; cbn [search_ok] in SO.
  - destruct SO as (n & Hn & Hp & Hs & _). rewrite Hs, Hp.
    destruct (ensure i th w) as [m w0] eqn:Ee. destruct (ensure_served _ _ _ _ _ S Hth Ee) as (S1 & T1 & J1 & m0 & g & -> & G1 & G2).
    destruct (add_works w0 m0 g (th_tree th) n short cb G1 G2) as (w1 & -> & T2 & _ & J2).
    exists w1. split; [reflexivity|]. split; [congruence|]. rewrite J1 in J2. destruct short.
    + now rewrite app_nil_r in J2.
    + do 2 eexists. split; [exact J2|]. cbn. eauto 8.
  - destruct k as [|c k].
    + destruct SO as [-> ->]. exists w. auto.
    + destruct SO as (-> & n & _ & ->). exists w. auto.
  - destruct SO as [-> ->]. exists w. auto.
Qed.

(** a job whose goroutine has not returned and whose manager was not closed can go on to its expiry,
    whatever state it is in *)
Theorem ttl_expires w j x g :
  winv w -> served w -> nth_error (jobs w) j = Some x -> j_stat x <> JOver ->
  nth_error (mgrs w) (j_mgr x) = Some g -> mg_done g = false ->
  exists w1 x1 r, wrun rf clone [CTick j; CEnter j true] w = Ok w1 /\ trees w1 = trees w /\
    nth_error (jobs w1) j = Some x1 /\ j_stat x1 = JFired /\ j_tree x1 = j_tree x /\ j_id x1 = j_id x /\
    wstep rf clone w1 (CRun j) = Some r /\ (j_branch x1 = false -> exists w2, r = Ok w2).
Proof.
  intros I S Hx St G D.
  assert (FIN : forall w1 x1, trees w1 = trees w -> nth_error (jobs w1) j = Some x1 -> j_stat x1 = JFired ->
    exists r, wstep rf clone w1 (CRun j) = Some r /\ (j_branch x1 = false -> exists w2, r = Ok w2)).
  { intros w1 x1 T H1 H2. cbn [wstep]. rewrite H1, H2. eexists. split; [reflexivity|]. intros B. unfold ring. rewrite B.
    destruct (nth_error (trees _) _); eauto. }
  pose proof (Forall_nth _ _ _ _ (sv_jobs w S) Hx) as [_ W].
  cbn [wrun wstep]. rewrite Hx. destruct (j_elapsed x) eqn:El.
  - destruct (j_stat x) eqn:Es; try congruence; [|specialize (W eq_refl); discriminate|].
    + rewrite G. cbn [bind]. 
      set (w1 := put_job j _ w).
      assert (H1 : nth_error (jobs w1) j = Some (with_stat x true JFired)).
      { unfold w1. rewrite D. cbn [jobs put_job]. now rewrite (nth_set_same _ _ _ _ Hx). }
      destruct (FIN w1 _ eq_refl H1 eq_refl) as (r & R1 & R2). exists w1. do 2 eexists. split; [reflexivity|].
      split; [reflexivity|]. split; [exact H1|]. repeat (split; [reflexivity|]). eauto.
    + destruct (FIN w x eq_refl Hx Es) as (r & R1 & R2). exists w, x, r. auto 10.
  - cbn [bind]. set (w0 := put_job j _ w).
    assert (H0 : nth_error (jobs w0) j = Some (with_stat x true match j_stat x with JWait => JFired | s => s end))
      by (unfold w0; cbn [jobs put_job]; now rewrite (nth_set_same _ _ _ _ Hx)).
    rewrite H0. cbn [j_stat with_stat j_mgr j_elapsed]. change (mgrs w0) with (mgrs w). rewrite G, D.
    destruct (j_stat x) eqn:Es; try congruence; cbn [bind].
    + set (w1 := put_job j _ w0).
      assert (H1 : nth_error (jobs w1) j = Some (with_stat (with_stat x true JStart) true JFired))
        by (unfold w1; cbn [jobs put_job]; now rewrite (nth_set_same _ _ _ _ H0)).
      destruct (FIN w1 _ eq_refl H1 eq_refl) as (r & R1 & R2). exists w1. do 2 eexists. split; [reflexivity|].
      split; [reflexivity|]. split; [exact H1|]. repeat (split; [reflexivity|]). eauto.
    + destruct (FIN w0 _ eq_refl H0 eq_refl) as (r & R1 & R2). exists w0. do 2 eexists. split; [reflexivity|].
      split; [reflexivity|]. split; [exact H0|]. repeat (split; [reflexivity|]). eauto.
    + destruct (FIN w0 _ eq_refl H0 eq_refl) as (r & R1 & R2). exists w0. do 2 eexists. split; [reflexivity|].
      split; [reflexivity|]. split; [exact H0|]. repeat (split; [reflexivity|]). eauto.
Qed.
End WithFuel.

(** ** calls at the same time *)
(** once s.ttls is set it is not unset: nobody dereferences nil *)
Definition alive (x : state) : Prop := ttls (mem x) <> None /\ ~ In Dead (goros x).
Lemma in_set_nth {A} i (x y : A) l : In y (set_nth i x l) -> y = x \/ In y l.
Proof. revert i. induction l as [|z l IH]; intros [|i]; cbn; intuition. destruct (IH _ H0); auto. Qed.
Lemma happen_alive e x : alive x -> alive (happen e x).
Proof.
  intros [T L]. destruct e as [i|m]; cbn [happen].
  - destruct (nth_error (goros x) i) as [p|] eqn:Hp; [|split; auto].
    destruct (move (mem x) p) as [[s q]|] eqn:M; [|split; auto].
    assert (K : ttls s <> None /\ q <> Dead).
    { destruct p; cbn [move] in M.
      - destruct (present (mem x)); injection M as <- <-; split; cbn; congruence.
      - injection M as <- <-. split; cbn; congruence.
      - destruct (ttls (mem x)) eqn:E; [|congruence]. injection M as <- <-. split; congruence.
      - destruct (nth_error (managers (mem x)) m) as [g|]; [|discriminate].
        destruct (m_returned g); [discriminate|]. injection M as <- <-. split; congruence.
      - destruct (present (mem x)); injection M as <- <-; split; cbn; congruence.
      - destruct (ttls (mem x)) eqn:E; [|congruence].
        destruct (nth_error (managers (mem x)) n) as [g|]; [|discriminate]. injection M as <- <-. split; cbn; congruence.
      - destruct (present (mem x)); injection M as <- <-; split; cbn; congruence.
      - destruct (ttls (mem x)) eqn:E; [|congruence]. injection M as <- <-. split; cbn; congruence.
      - discriminate.
      - discriminate. }
    split; [apply K|]. cbn [goros]. intros H. apply in_set_nth in H. destruct H as [H|H]; [symmetry in H; now apply K in H|auto].
  - destruct (nth_error _ m) as [g|]; [|split; auto]. destruct (m_cancelled g); split; auto.
Qed.
Theorem race_alive es : forall x, alive x -> alive (happens es x).
Proof. induction es as [|e es IH]; intros x H; cbn; auto. apply IH, happen_alive, H. Qed.

(** without Close the manager stays and every SetTTL can finish by itself *)
Definition no_close (p : pc) : Prop := match p with KCas | KLoad | SMake | Dead => False | _ => True end.
Definition steady (m : nat) (x : state) : Prop :=
  present (mem x) = true /\ ttls (mem x) = Some m /\ m < length (managers (mem x)) /\
  Forall (fun g => m_cancelled g = false /\ m_returned g = false) (managers (mem x)) /\
  Forall (fun p => no_close p /\ match p with SSend m' => m' = m | _ => True end) (goros x).
Lemma happen_steady m e x : steady m x -> steady m (happen e x).
Proof.
  intros (P & T & L & M & G). destruct e as [i|m0]; cbn [happen].
  - destruct (nth_error (goros x) i) as [p|] eqn:Hp; [|repeat (split; [assumption|]); assumption].
    pose proof (Forall_nth _ _ _ _ G Hp) as [K1 K2].
    destruct p; cbn [move no_close] in *; try contradiction; rewrite ?P, ?T.
    + repeat split; auto. apply Forall_set_nth; cbn; auto.
    + repeat split; auto. apply Forall_set_nth; cbn; auto.
    + subst m0. destruct (nth_error (managers (mem x)) m) as [g|] eqn:Hg; [|repeat (split; [assumption|]); assumption].
      destruct (Forall_nth _ _ _ _ M Hg) as [_ ->]. repeat split; auto. apply Forall_set_nth; cbn; auto.
    + repeat split; auto. apply Forall_set_nth; cbn; auto.
    + repeat split; auto; cbn.
      * rewrite app_length. lia.
      * apply Forall_app. split; auto.
      * apply Forall_set_nth; cbn; auto.
    + repeat split; auto.
  - destruct (nth_error _ m0) as [g|] eqn:Hg; [|repeat (split; [assumption|]); assumption].
    destruct (Forall_nth _ _ _ _ M Hg) as [-> _]. repeat split; auto.
Qed.
Lemma happens_steady m es : forall x, steady m x -> steady m (happens es x).
Proof. induction es as [|e es IH]; intros x H; cbn; auto. apply IH, happen_steady, H. Qed.
Lemma steady_finish m x i p : steady m x -> nth_error (goros x) i = Some p ->
  nth_error (goros (happens [Go i; Go i; Go i] x)) i = Some Done.
Proof.
  intros S Hp. 
  assert (ONE : forall x p, steady m x -> nth_error (goros x) i = Some p ->
    exists q, nth_error (goros (happen (Go i) x)) i = Some q /\
      match p with SCas => q = SLoad | SLoad => q = SSend m | VLoad => q = VDup | _ => q = Done end).
  { clear. intros x p (P & T & L & M & G) Hp. pose proof (Forall_nth _ _ _ _ G Hp) as [K1 K2]. cbn [happen]. rewrite Hp.
    destruct p; cbn [move no_close] in *; try tauto; rewrite ?P, ?T.
    - eexists. cbn. rewrite (nth_set_same _ _ _ _ Hp). auto.
    - eexists. cbn. rewrite (nth_set_same _ _ _ _ Hp). auto.
    - subst m0. destruct (nth_error (managers (mem x)) m) as [g|] eqn:Hg; [|apply nth_error_None in Hg; lia].
      destruct (Forall_nth _ _ _ _ M Hg) as [_ ->]. eexists. cbn. rewrite (nth_set_same _ _ _ _ Hp). auto.
    - eexists. cbn. rewrite (nth_set_same _ _ _ _ Hp). auto.
    - eexists. cbn. rewrite (nth_set_same _ _ _ _ Hp). auto.
    - eauto. }
  cbn [happens fold_left].
  destruct (ONE x p S Hp) as (p1 & H1 & E1). pose proof (happen_steady m (Go i) x S) as S1.
  destruct (ONE _ p1 S1 H1) as (p2 & H2 & E2). pose proof (happen_steady m (Go i) _ S1) as S2.
  destruct (ONE _ p2 S2 H2) as (p3 & H3 & E3). rewrite H3. f_equal.
  destruct S as (_ & _ & _ & _ & G). pose proof (Forall_nth _ _ _ _ G Hp) as [K1 _].
  destruct p; cbn in K1; try tauto; subst; cbn in *; subst; cbn in *; subst; auto.
Qed.
Theorem race_steady m es x i p :
  steady m x -> nth_error (goros (happens es x)) i = Some p ->
  p <> Dead /\ nth_error (goros (happens (es ++ [Go i; Go i; Go i]) x)) i = Some Done.
Proof.
  intros S Hp. pose proof (happens_steady m es x S) as S1. split.
  - intros ->. destruct S1 as (_ & _ & _ & _ & G). pose proof (Forall_nth _ _ _ _ G Hp) as [[] _].
  - unfold happens. rewrite fold_left_app. eapply steady_finish; eauto.
Qed.

(** a SetTTL that is about to send to a manager whose goroutine has returned stays there for ever *)
Definition stuck (i m : nat) (x : state) : Prop :=
  nth_error (goros x) i = Some (SSend m) /\ exists g, nth_error (managers (mem x)) m = Some g /\ m_returned g = true.
Lemma happen_stuck i m e x : stuck i m x -> stuck i m (happen e x).
Proof.
  intros (Hi & g & Hg & R). destruct e as [j|m0]; cbn [happen].
  - destruct (nth_error (goros x) j) as [p|] eqn:Hp; [|repeat split; eauto].
    destruct (Nat.eq_dec j i) as [->|N].
    + rewrite Hi in Hp. injection Hp as <-. cbn [move]. rewrite Hg, R. repeat split; eauto.
    + destruct (move (mem x) p) as [[s q]|] eqn:M; [|repeat split; eauto].
      split; [cbn; rewrite nth_set_other by auto; auto|]. cbn [mem].
      assert (KEEP : s = mem x \/ managers s = managers (mem x) \/ managers s = managers (mem x) ++ [new_manager] \/
        exists m1 g1, nth_error (managers (mem x)) m1 = Some g1 /\ managers s = set_nth m1 (Man true (m_returned g1)) (managers (mem x))).
      { destruct p; cbn [move] in M.
        - destruct (present _); injection M as <- <-; auto.
        - injection M as <- <-. auto.
        - destruct (ttls _); injection M as <- <-; auto.
        - destruct (nth_error (managers (mem x)) m0) as [g1|]; [|discriminate]. destruct (m_returned g1); [discriminate|]. injection M as <- <-. auto.
        - destruct (present _); injection M as <- <-; auto.
        - destruct (ttls _) as [n|]; [|injection M as <- <-; auto].
          destruct (nth_error (managers _) n) as [g1|] eqn:E1; [|discriminate]. injection M as <- <-. eauto 8.
        - destruct (present _); injection M as <- <-; auto.
        - destruct (ttls _); injection M as <- <-; auto.
        - discriminate.
        - discriminate. }
      destruct KEEP as [->|[->|[->|(m1 & g1 & E1 & ->)]]]; eauto.
      * exists g. rewrite nth_error_app1 by (apply nth_error_Some; congruence). auto.
      * destruct (Nat.eq_dec m m1) as [<-|N1].
        -- rewrite Hg in E1. injection E1 as <-. eexists. rewrite (nth_set_same _ _ _ _ Hg). split; [reflexivity|exact R].
        -- exists g. rewrite nth_set_other by auto. auto.
  - destruct (nth_error _ m0) as [g0|] eqn:H0; [|repeat split; eauto]. destruct (m_cancelled g0); [|repeat split; eauto].
    split; auto. cbn [mem managers]. destruct (Nat.eq_dec m m0) as [<-|N].
    + eexists. rewrite (nth_set_same _ _ _ _ H0). split; reflexivity.
    + exists g. rewrite nth_set_other by auto. auto.
Qed.
Theorem race_stuck i m es : forall x, stuck i m x -> nth_error (goros (happens es x)) i = Some (SSend m).
Proof. induction es as [|e es IH]; intros x H; cbn; [apply H|]. apply IH, happen_stuck, H. Qed.

(** two first SetTTLs *)
Example two_first : exists es,
  let x := happens es (fresh [SCas; SCas]) in nth_error (goros x) 1 = Some Dead.
Proof. exists [Go 0; Go 1; Go 1]. reflexivity. Qed.
Example first_and_view : exists es,
  let x := happens es (fresh [SCas; VLoad]) in nth_error (goros x) 1 = Some Dead.
Proof. exists [Go 0; Go 1; Go 1]. reflexivity. Qed.
Example set_and_close : exists es m,
  stuck 1 m (happens es (fresh [SCas; SCas; KCas])).
Proof.
  exists [Go 0; Go 0; Go 0; Go 0; Go 1; Go 2; Go 2; Loop 0; Go 1], 0. split; [reflexivity|].
  exists (Man true true). split; reflexivity.
Qed.
