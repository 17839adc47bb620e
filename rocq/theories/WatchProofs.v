(** Proofs about the changes that providers deliver. *)
From Coq Require Import String.
From Coq Require Import List NArith ZArith Bool Arith Lia Permutation ZifyBool ZifyNat ZifyN.
From Verif Require Import GoStr Utf8 Trie Climb Cvter Nested Misc CvtProofs Provider.
Import ListNotations.
Open Scope nat_scope.
Open Scope list_scope.

(** ** consul: what one event delivers *)
Definition changed (idx : N) (p : kvpair) : bool := (kv_create p =? idx)%N || (kv_modify p =? idx)%N.
Lemma checkOp_changed idx p : checkOp idx p = None <-> changed idx p = false.
Proof.
  unfold checkOp, changed. destruct (kv_create p =? idx)%N; cbn; [split; discriminate|].
  destruct (kv_modify p =? idx)%N; split; congruence.
Qed.
Lemma checkOp_not_remove idx p o : checkOp idx p = Some o -> (o =? OpRemove)%N = false.
Proof. unfold checkOp. destruct (kv_create p =? idx)%N; [|destruct (kv_modify p =? idx)%N]; intros E; inversion E; reflexivity. Qed.
Lemma firstOp_none idx l : firstOp idx l = None <-> filter (changed idx) l = [].
Proof.
  induction l as [|p l IH]; cbn; [tauto|]. destruct (checkOp idx p) eqn:E.
  - assert (C : changed idx p = true); [|rewrite C; split; discriminate].
    destruct (changed idx p) eqn:C; auto. apply checkOp_changed in C. congruence.
  - apply checkOp_changed in E. now rewrite E.
Qed.
Lemma firstOp_some idx l o : firstOp idx l = Some o ->
  (o =? OpRemove)%N = false /\ exists p r, filter (changed idx) l = p :: r /\ checkOp idx p = Some o.
Proof.
  induction l as [|p l IH]; cbn; [discriminate|]. destruct (checkOp idx p) eqn:E.
  - intros X. injection X as <-. split; [now apply (checkOp_not_remove idx p)|].
    assert (C : changed idx p = true); [|rewrite C; eauto].
    destruct (changed idx p) eqn:C; auto. apply checkOp_changed in C. congruence.
  - apply checkOp_changed in E. rewrite E. exact IH.
Qed.
Lemma scan_spec idx l : forall op i, (op =? OpRemove)%N = false ->
  (filter (changed idx) l = [] /\ exists i', chg_scan idx op i l = (i', op, None)) \/
  (exists l1 p l2 op', l = l1 ++ p :: l2 /\ filter (changed idx) l1 = [] /\ changed idx p = true /\
     (op' =? OpRemove)%N = false /\ chg_scan idx op i l = (i + S (length l1), op', Some p)).
Proof.
  induction l as [|p l IH]; intros op i H; cbn [chg_scan filter]; [left; eauto|].
  rewrite H. destruct (checkOp idx p) as [o|] eqn:E.
  - right. exists [], p, l, o. split; [reflexivity|]. split; [reflexivity|]. split.
    { destruct (changed idx p) eqn:C; auto. apply checkOp_changed in C. congruence. }
    split; [now apply (checkOp_not_remove idx p)|]. do 2 f_equal. cbn. lia.
  - apply checkOp_changed in E. rewrite E. destruct (IH op (S i) H) as [[F S']|(l1 & q & l2 & op' & -> & F & C & O & S')].
    + left. auto.
    + right. exists (p :: l1), q, l2, op'. split; [reflexivity|]. split; [cbn; now rewrite E|]. split; auto. split; auto.
      rewrite S'. do 2 f_equal. cbn. lia.
Qed.
Lemma skipn_S {A} n (l l1 l2 : list A) x : skipn n l = l1 ++ x :: l2 -> skipn (n + S (length l1)) l = l2.
Proof.
  assert (SS : forall (a b : nat) (m : list A), skipn (a + b) m = skipn b (skipn a m)).
  { induction a as [|a IH]; intros b m; [reflexivity|]. destruct m; cbn; [now rewrite skipn_nil|apply IH]. }
  intros E. rewrite SS, E, skipn_app, skipn_all2 by lia.
  replace (S (length l1) - length l1) with 1 by lia. reflexivity.
Qed.
Lemma drain_changed idx l fuel : forall i op, (op =? OpRemove)%N = false -> length (skipn i l) < fuel ->
  exists s', chg_drain true fuel (Chg (CVPairs l) i idx op) = (s', filter (changed idx) (skipn i l)) /\ ch_val s' = CVPairs l.
Proof.
  induction fuel as [|fuel IH]; intros i op H L; [lia|]. cbn [chg_drain chg_Next ch_val ch_index ch_op ch_idx].
  destruct (scan_spec idx (skipn i l) op i H) as [[F [i' S']]|(l1 & p & l2 & op' & E & F & C & O & S')]; rewrite S'.
  - rewrite F. eexists. split; [reflexivity|reflexivity].
  - pose proof (skipn_S _ _ _ _ _ E) as E2. destruct (IH (i + S (length l1)) op' O) as (s' & D & V).
    { rewrite E2. rewrite E in L. rewrite app_length in L. cbn in L. lia. }
    rewrite D, E2, E, filter_app, F. cbn [app filter]. rewrite C. eauto.
Qed.
Lemma drain_removed idx l fuel : forall i, length (skipn i l) < fuel ->
  exists s', chg_drain true fuel (Chg (CVPairs l) i idx OpRemove) = (s', skipn i l).
Proof.
  induction fuel as [|fuel IH]; intros i L; [lia|]. cbn [chg_drain chg_Next ch_val ch_index ch_op ch_idx].
  destruct (skipn i l) as [|p r] eqn:E; cbn [chg_scan].
  - eexists. reflexivity.
  - change (OpRemove =? OpRemove)%N with true. cbn iota.
    pose proof (skipn_S i l [] r p E) as E2. cbn [length] in E2. replace (i + 1) with (S i) in E2 by lia.
    destruct (IH (S i)) as [s' D]. { rewrite E2. cbn in L. lia. }
    rewrite D, E2. eauto.
Qed.
(** the pairs the provider knows *)
Definition known (s : chg) : option (list kvpair) :=
  match ch_val s with CVNil => Some [] | CVPairs l => Some l | CVPair _ => None end.
Theorem consul_event_spec s old new idx : known s = Some old ->
  exists s', ch_val s' = CVPairs new /\
    ((filter (changed idx) new <> [] /\ exists o, (o = OpCreate \/ o = OpWrite) /\
        consul_event true s (CVPairs new) idx = Ok (s', o, filter (changed idx) new)) \/
     (filter (changed idx) new = [] /\
        consul_event true s (CVPairs new) idx = Ok (s', OpRemove, kv_removed old new))).
Proof.
  intros K. unfold consul_event, chg_Set. destruct (firstOp idx new) as [o|] eqn:F.
  - destruct (firstOp_some _ _ _ F) as (O & p & r & Fi & Ck). cbn [bind ch_val].
    destruct (drain_changed idx new (S (length new)) 0 o O) as (s' & D & V); [cbn; lia|].
    rewrite D. exists s'. split; [exact V|]. left. split; [rewrite Fi; discriminate|].
    exists o. split; [|reflexivity]. unfold checkOp in Ck.
    destruct (kv_create p =? idx)%N; [left; congruence|]. destruct (kv_modify p =? idx)%N; [right; congruence|discriminate].
  - apply firstOp_none in F. unfold known in K. destruct (ch_val s) as [|l|p]; [| |discriminate]; injection K as <-.
    + cbn. eexists. split; [|right; split; [exact F|reflexivity]]. reflexivity.
    + cbn [bind ch_val]. destruct (drain_removed idx (kv_removed l new) (S (length (kv_removed l new))) 0) as [s' D]; [cbn; lia|].
      rewrite D. eexists. split; [|right; split; [exact F|reflexivity]]. reflexivity.
Qed.

(** ** a replica of the key/value store *)
(** the store of consul: its pairs have distinct keys; [idx] is the index of the last write *)
Definition kvget (w : list kvpair) (k : gostring) : option kvpair := find (fun p => str_eqb (kv_key p) k) w.
Inductive kvop := KPut (k v : gostring) | KDel (ks : list gostring).
Definition kv_put (w : list kvpair) (k v : gostring) (idx : N) : list kvpair :=
  match kvget w k with
  | Some p => map (fun q => if str_eqb (kv_key q) k then KV k v (kv_create p) idx else q) w
  | None => w ++ [KV k v idx idx]
  end.
(** one transaction: a write, or the removal of some keys (a tree) *)
Definition kv_step (w : list kvpair) (o : kvop) (idx : N) : list kvpair :=
  match o with
  | KPut k v => kv_put w k v idx
  | KDel ks => filter (fun p => negb (existsb (str_eqb (kv_key p)) ks)) w
  end.
(** what a listener does with a change *)
Definition follow (r : gostring -> option gostring) (op : N) (ps : list kvpair) : gostring -> option gostring :=
  fold_left (fun r p k => if str_eqb (kv_key p) k then (if (op =? OpRemove)%N then None else Some (kv_val p)) else r k) ps r.
Definition follows (r : gostring -> option gostring) (w : list kvpair) : Prop :=
  forall k, r k = option_map kv_val (kvget w k).
Definition kv_world (w : list kvpair) (cur : N) : Prop :=
  NoDup (map kv_key w) /\ Forall (fun p => (kv_create p <= cur)%N /\ (kv_modify p <= cur)%N) w.

Lemma kvget_in w k p : kvget w k = Some p -> In p w /\ kv_key p = k.
Proof. intros H. apply find_some in H. destruct H as [H1 H2]. apply str_eqb_eq in H2. auto. Qed.
Lemma kvget_none w k : kvget w k = None -> ~ In k (map kv_key w).
Proof.
  intros H Hin. apply in_map_iff in Hin. destruct Hin as (p & <- & Hp). pose proof (find_none _ _ H p Hp) as X.
  cbn in X. now rewrite str_eqb_refl in X.
Qed.
Lemma kvget_put w k v idx k' : option_map kv_val (kvget (kv_put w k v idx) k') =
  if str_eqb k k' then Some v else option_map kv_val (kvget w k').
Proof.
  unfold kv_put. destruct (kvget w k) as [p|] eqn:E.
  - unfold kvget. clear - E. assert (X : exists q, In q w /\ kv_key q = k) by (apply kvget_in in E; eauto). clear E.
    induction w as [|q w IH]; [destruct X as (q & [] & _)|].
    cbn [map find]. destruct (str_eqb (kv_key q) k) eqn:Q.
    + apply str_eqb_eq in Q. cbn [kv_key]. destruct (str_eqb k k') eqn:K; [reflexivity|].
      rewrite Q, K. clear IH X Q. induction w as [|x w IHw]; [reflexivity|]. cbn [map find].
      destruct (str_eqb (kv_key x) k) eqn:Y; cbn [kv_key].
      * rewrite K. apply str_eqb_eq in Y. rewrite Y, K. exact IHw.
      * destruct (str_eqb (kv_key x) k'); auto.
    + destruct (str_eqb (kv_key q) k') eqn:K.
      * apply str_eqb_eq in K. subst k'. rewrite str_eqb_sym in Q. rewrite Q. reflexivity.
      * apply IH. destruct X as (x & [->|Hx] & Hk); [rewrite Hk, str_eqb_refl in Q; discriminate|eauto].
  - unfold kvget in *. induction w as [|q w IH]; cbn [app find] in *.
    + cbn. destruct (str_eqb k k'); reflexivity.
    + destruct (str_eqb (kv_key q) k) eqn:Q; [discriminate|]. destruct (str_eqb (kv_key q) k') eqn:K; [|now apply IH].
      apply str_eqb_eq in K. subst k'. rewrite str_eqb_sym in Q. rewrite Q. reflexivity.
Qed.
Lemma kv_put_world w cur k v idx : kv_world w cur -> (cur < idx)%N -> kv_world (kv_put w k v idx) idx.
Proof.
  intros [ND F] L. unfold kv_put. destruct (kvget w k) as [p|] eqn:E.
  - apply kvget_in in E. destruct E as [Hp Hk]. split.
    + rewrite map_map. erewrite map_ext; [exact ND|]. intros q. cbn beta. destruct (str_eqb (kv_key q) k) eqn:Q; auto.
      apply str_eqb_eq in Q. auto.
    + rewrite Forall_map. rewrite Forall_forall in *. intros q Hq. pose proof (F p Hp). pose proof (F q Hq).
      destruct (str_eqb (kv_key q) k); cbn; lia.
  - apply kvget_none in E. split.
    + rewrite map_app. cbn. eapply Permutation_NoDup; [apply Permutation_cons_append|]. constructor; auto.
    + apply Forall_app. split; [|constructor; [cbn; lia|constructor]]. eapply Forall_impl; [|exact F]. cbn. intros q Hq. lia.
Qed.
Lemma kv_step_world w cur o idx : kv_world w cur -> (cur < idx)%N -> kv_world (kv_step w o idx) idx.
Proof.
  destruct o as [k v|ks]; [apply kv_put_world|]. intros [ND F] L. cbn [kv_step]. split.
  - clear F. induction w as [|p w IH]; [constructor|]. cbn [filter]. inversion ND; subst.
    destruct (negb (existsb (str_eqb (kv_key p)) ks)); [|auto]. cbn [map]. constructor; auto.
    intros X. apply H1. apply in_map_iff in X. destruct X as (q & E & Hq). apply filter_In in Hq.
    apply in_map_iff. exists q. tauto.
  - rewrite Forall_forall in *. intros p Hp. apply filter_In in Hp. destruct Hp as [Hp _]. specialize (F p Hp). lia.
Qed.
Lemma changed_old w cur idx : kv_world w cur -> (cur < idx)%N -> filter (changed idx) w = [].
Proof.
  intros [_ F] L. induction F as [|p w Hp _ IH]; [reflexivity|]. cbn. unfold changed at 1.
  replace ((kv_create p =? idx)%N || (kv_modify p =? idx)%N) with false by lia. exact IH.
Qed.
Lemma changed_put w cur k v idx : kv_world w cur -> (cur < idx)%N ->
  exists c, filter (changed idx) (kv_put w k v idx) = [KV k v c idx].
Proof.
  intros W L. unfold kv_put. destruct (kvget w k) as [p|] eqn:E.
  - exists (kv_create p). apply kvget_in in E. destruct E as [Hp Hk]. destruct W as [ND F].
    revert ND F Hp. generalize (kv_create p) as c. intros c. induction w as [|q w IH]; intros ND F Hp; [destruct Hp|].
    inversion ND as [|? ? N1 N2]; subst. inversion F as [|? ? F1 F2]; subst. cbn [map filter].
    destruct (str_eqb (kv_key q) (kv_key p)) eqn:Q.
    + unfold changed at 1. cbn [kv_create kv_modify]. rewrite N.eqb_refl, orb_true_r. f_equal.
      apply str_eqb_eq in Q. rewrite map_ext_in with (g := fun x => x).
      * rewrite map_id. apply (changed_old w cur); [split; auto|exact L].
      * intros x Hx. destruct (str_eqb (kv_key x) (kv_key p)) eqn:X; auto. apply str_eqb_eq in X. exfalso. apply N1.
        apply in_map_iff. exists x. split; [congruence|auto].
    + unfold changed at 1. replace ((kv_create q =? idx)%N || (kv_modify q =? idx)%N) with false by lia.
      apply IH; auto. destruct Hp as [->|Hp]; auto. now rewrite str_eqb_refl in Q.
  - exists idx. rewrite filter_app, (changed_old w cur idx W L). cbn. unfold changed. cbn. now rewrite N.eqb_refl.
Qed.
Lemma follow_remove ps k : forall r, follow r OpRemove ps k = if existsb (fun p => str_eqb (kv_key p) k) ps then None else r k.
Proof.
  unfold follow. change (OpRemove =? OpRemove)%N with true.
  induction ps as [|p ps IH]; intros r; [reflexivity|]. cbn [fold_left existsb]. rewrite IH.
  destruct (str_eqb (kv_key p) k); cbn [orb]; [now destruct (existsb _ ps)|reflexivity].
Qed.
(** One transaction, one event: a listener that follows the changes keeps holding exactly what consul
    holds, and the provider knows the current pairs. *)
Theorem consul_follows w cur s r o idx : kv_world w cur -> (cur < idx)%N -> known s = Some w -> follows r w ->
  exists s' op ps, consul_event true s (CVPairs (kv_step w o idx)) idx = Ok (s', op, ps) /\
    known s' = Some (kv_step w o idx) /\ kv_world (kv_step w o idx) idx /\ follows (follow r op ps) (kv_step w o idx) /\
    match o with
    | KPut k v => ((kvget w k = None /\ op = OpCreate) \/ (kvget w k <> None /\ op = OpWrite)) /\ map (fun p => (kv_key p, kv_val p)) ps = [(k, v)]
    | KDel ks => op = OpRemove /\ ps = filter (fun p => existsb (str_eqb (kv_key p)) ks) w
    end.
Proof.
  intros W L K R. set (w' := kv_step w o idx).
  assert (W' : kv_world w' idx) by (apply (kv_step_world w cur); auto).
  destruct (consul_event_spec s w w' idx K) as (s' & V & [(NE & op & Op & E)|(NE & E)]).
  - destruct o as [k v|ks]; cbn [kv_step] in w'.
    + destruct (changed_put w cur k v idx W L) as [c C]. fold w' in C. rewrite C in E.
      assert (OpIs : op = if kvget w k then OpWrite else OpCreate).
      { unfold consul_event, chg_Set in E. destruct (firstOp idx w') as [o'|] eqn:Fo.
        - destruct (firstOp_some _ _ _ Fo) as (_ & p & q & Fi & Ck). rewrite C in Fi. injection Fi as <- <-.
          cbn [bind] in E. destruct (chg_drain _ _ _) as [s2 ps] in E. cbn [ch_op] in E.
          assert (o' = op) as <- by congruence.
          unfold checkOp in Ck. cbn [kv_create kv_modify] in Ck. rewrite N.eqb_refl in Ck.
          assert (In (KV k v c idx) w') as Hin by (apply (filter_In (changed idx)); rewrite C; cbn; auto).
          unfold w', kv_put in Hin. destruct (kvget w k) as [p|] eqn:G.
          + apply in_map_iff in Hin. destruct Hin as (q & Q & Hq). pose proof (proj1 (kvget_in _ _ _ G)) as Hp.
            destruct W as [_ F]. rewrite Forall_forall in F. pose proof (F p Hp). pose proof (F q Hq).
            destruct (str_eqb (kv_key q) k).
            * injection Q as Q. replace (c =? idx)%N with false in Ck by lia. congruence.
            * subst q. cbn in *. lia.
          + apply in_app_or in Hin. destruct Hin as [Hin|[Q|[]]].
            * destruct W as [_ F]. rewrite Forall_forall in F. pose proof (F _ Hin). cbn in *. lia.
            * injection Q as <-. rewrite N.eqb_refl in Ck. congruence.
        - apply firstOp_none in Fo. rewrite C in Fo. discriminate. }
      exists s', op, [KV k v c idx]. split; [exact E|]. split; [unfold known; now rewrite V|]. split; [exact W'|]. split.
      * intros k'. unfold w'. rewrite kvget_put. unfold follow. cbn [fold_left kv_key kv_val].
        replace (op =? OpRemove)%N with false by (destruct Op as [-> | ->]; reflexivity).
        destruct (str_eqb k k'); [reflexivity|apply R].
      * split; [|reflexivity]. destruct (kvget w k); [right|left]; split; auto; discriminate.
    + exfalso. apply NE. unfold w'. clear - W L. destruct W as [_ F]. induction F as [|p w Hp _ IH]; [reflexivity|].
      cbn [filter]. destruct (negb _); [|exact IH]. cbn [filter]. unfold changed at 1.
      replace ((kv_create p =? idx)%N || (kv_modify p =? idx)%N) with false by lia. exact IH.
  - destruct o as [k v|ks]; cbn [kv_step] in w'.
    + destruct (changed_put w cur k v idx W L) as [c C]. fold w' in C. rewrite C in NE. discriminate.
    + assert (RM : kv_removed w w' = filter (fun p => existsb (str_eqb (kv_key p)) ks) w).
      { unfold kv_removed. apply filter_ext_in. intros p Hp. unfold w'.
        destruct (existsb (str_eqb (kv_key p)) ks) eqn:X.
        - apply negb_true_iff. apply not_true_iff_false. intros Y. apply existsb_exists in Y. destruct Y as (q & Hq & Q).
          apply filter_In in Hq. destruct Hq as [_ Hq]. apply str_eqb_eq in Q. rewrite <- Q, X in Hq. discriminate.
        - apply negb_false_iff. apply existsb_exists. exists p. split; [|apply str_eqb_refl].
          apply filter_In. split; auto. now rewrite X. }
      rewrite RM in E. exists s', OpRemove. eexists. split; [exact E|]. split; [unfold known; now rewrite V|].
      split; [exact W'|]. split; [|auto].
      intros k. rewrite follow_remove, R. unfold w', kvget. clear.
      induction w as [|p w IH]; [reflexivity|]. cbn [filter find].
      destruct (existsb (str_eqb (kv_key p)) ks) eqn:X; cbn [negb existsb find].
      * destruct (str_eqb (kv_key p) k) eqn:P; cbn [orb]; [|exact IH].
        apply str_eqb_eq in P. subst k. symmetry.
        destruct (find _ (filter _ w)) as [q|] eqn:Fq; [|reflexivity]. exfalso.
        apply find_some in Fq. destruct Fq as [Fq Kq]. apply filter_In in Fq. destruct Fq as [_ Fq].
        apply str_eqb_eq in Kq. rewrite Kq, X in Fq. discriminate.
      * destruct (str_eqb (kv_key p) k) eqn:P; cbn [option_map]; [|exact IH].
        apply str_eqb_eq in P. subst k.
        destruct (existsb (fun q => str_eqb (kv_key q) (kv_key p)) (filter _ w)) eqn:Y; [|reflexivity]. exfalso.
        apply existsb_exists in Y. destruct Y as (q & Hq & Q). apply filter_In in Hq. destruct Hq as [_ Hq].
        apply str_eqb_eq in Q. rewrite Q, X in Hq. discriminate.
Qed.
(** a whole history: transactions with growing indices, one event each *)
Fixpoint kv_run (w : list kvpair) (s : chg) (r : gostring -> option gostring) (h : list (kvop * N))
  : res (list kvpair * chg * (gostring -> option gostring)) :=
  match h with
  | [] => Ok (w, s, r)
  | (o, idx) :: t =>
      let w' := kv_step w o idx in
      do (s', op, ps) <- consul_event true s (CVPairs w') idx;
      kv_run w' s' (follow r op ps) t
  end.
Fixpoint growing (cur : N) (h : list (kvop * N)) : Prop :=
  match h with [] => True | (_, idx) :: t => (cur < idx)%N /\ growing idx t end.
Theorem consul_history h : forall w cur s r, kv_world w cur -> growing cur h -> known s = Some w -> follows r w ->
  exists w' s' r', kv_run w s r h = Ok (w', s', r') /\ follows r' w' /\
    w' = fold_left (fun w e => kv_step w (fst e) (snd e)) h w.
Proof.
  induction h as [|[o idx] h IH]; intros w cur s r W G K R; [exists w, s, r; auto|].
  destruct G as [L G]. destruct (consul_follows w cur s r o idx W L K R) as (s' & op & ps & E & K' & W' & R' & _).
  destruct (IH _ idx s' (follow r op ps) W' G K' R') as (w2 & s2 & r2 & E2 & R2 & Ew).
  exists w2, s2, r2. cbn [kv_run]. rewrite E. cbn [bind]. auto.
Qed.
(** the first event after New: what is there is sent again or nothing is, and the pairs are known *)
Theorem consul_first w cur idx r : kv_world w cur -> follows r w ->
  exists s' op ps, consul_event true chg0 (CVPairs w) idx = Ok (s', op, ps) /\ known s' = Some w /\ follows (follow r op ps) w.
Proof.
  intros [ND F] R. destruct (consul_event_spec chg0 [] w idx eq_refl) as (s' & V & [(NE & op & Op & E)|(NE & E)]);
    exists s'; do 2 eexists; (split; [exact E|]); (split; [unfold known; now rewrite V|]).
  - unfold follow. replace (op =? OpRemove)%N with false by (destruct Op as [-> | ->]; reflexivity). intros k.
    assert (G : forall ps r, (forall p, In p ps -> In p w) -> follows r w ->
      fold_left (fun r p k => if str_eqb (kv_key p) k then Some (kv_val p) else r k) ps r k = option_map kv_val (kvget w k)).
    { induction ps as [|p ps IH]; intros r0 Hin R0; [apply R0|]. cbn [fold_left]. apply IH; [intros q Hq; apply Hin; cbn; auto|].
      intros k'. destruct (str_eqb (kv_key p) k') eqn:P; [|apply R0]. apply str_eqb_eq in P.
      assert (Hp : In p w) by (apply Hin; cbn; auto). clear - Hp P ND. unfold kvget. induction w as [|q w IH]; [destruct Hp|].
      cbn [find]. inversion ND; subst. destruct (str_eqb (kv_key q) (kv_key p)) eqn:Q.
      - apply str_eqb_eq in Q. destruct Hp as [->|Hp]; [reflexivity|]. exfalso. apply H1. apply in_map_iff. eauto.
      - destruct Hp as [->|Hp]; [now rewrite str_eqb_refl in Q|]. now apply IH. }
    apply G; [|exact R]. intros p Hp. now apply filter_In in Hp.
  - exact R.
Qed.
(** two transactions in one event: the older write never arrives *)
Theorem consul_coalesced_refuted w cur s r k1 v1 k2 v2 i1 i2 :
  kv_world w cur -> (cur < i1)%N -> (i1 < i2)%N -> known s = Some w -> follows r w -> k1 <> k2 ->
  (forall p, kvget w k1 = Some p -> kv_val p <> v1) ->
  let w2 := kv_step (kv_step w (KPut k1 v1) i1) (KPut k2 v2) i2 in
  exists s' op ps, consul_event true s (CVPairs w2) i2 = Ok (s', op, ps) /\ known s' = Some w2 /\
    option_map kv_val (kvget w2 k1) = Some v1 /\ follow r op ps k1 <> Some v1.
Proof.
  intros W L1 L2 K R N12 Nv w2. set (w1 := kv_step w (KPut k1 v1) i1) in *.
  assert (W1 : kv_world w1 i1) by (apply (kv_step_world w cur); auto).
  destruct (changed_put w1 i1 k2 v2 i2 W1 L2) as [c C].
  destruct (consul_event_spec s w w2 i2 K) as (s' & V & [(NE & op & Op & E)|(NE & E)]);
    [|unfold w2 in NE; cbn [kv_step] in NE; rewrite C in NE; discriminate].
  unfold w2 in E at 2. cbn [kv_step] in E. rewrite C in E.
  exists s', op. eexists. split; [exact E|]. split; [unfold known; now rewrite V|].
  assert (B : str_eqb k2 k1 = false) by (apply not_true_iff_false; intros X; apply str_eqb_eq in X; congruence).
  split.
  - unfold w2, w1. cbn [kv_step]. rewrite !kvget_put, B, str_eqb_refl. reflexivity.
  - unfold follow. cbn [fold_left kv_key kv_val]. rewrite B, R. destruct (kvget w k1) as [p|] eqn:G; cbn; [|discriminate].
    intros X. injection X as X. now apply (Nv p).
Qed.
(** what was removed between Read and the first event stays *)
Theorem consul_gap_refuted w w' cur idx r k v : kv_world w' cur -> (cur < idx)%N -> follows r w ->
  option_map kv_val (kvget w k) = Some v -> kvget w' k = None ->
  exists s', consul_event true chg0 (CVPairs w') idx = Ok (s', OpRemove, []) /\ known s' = Some w' /\ follow r OpRemove [] k = Some v.
Proof.
  intros W L R Hk Hn. destruct (consul_event_spec chg0 [] w' idx eq_refl) as (s' & V & [(NE & op & Op & E)|(NE & E)]);
    [exfalso; apply NE; now apply (changed_old w' cur)|].
  exists s'. split; [exact E|]. split; [unfold known; now rewrite V|]. cbn. now rewrite R.
Qed.
(** a single key, not recursive: a write is delivered, the removal of the key is not *)
Theorem consul_single p s idx : (kv_modify p = idx)%N ->
  exists s' op, consul_event false s (CVPair p) idx = Ok (s', op, [p]) /\ ch_val s' = CVPair p /\
    op = if (kv_create p =? idx)%N then OpCreate else OpWrite.
Proof.
  intros E. unfold consul_event, chg_Set, checkOp. rewrite E, N.eqb_refl.
  destruct (kv_create p =? idx)%N eqn:C; cbn; unfold checkOp; rewrite C, ?E, ?N.eqb_refl; cbn; eauto.
Qed.
Theorem consul_single_remove_refuted p s idx : ch_val s = CVPair p -> (kv_create p < idx)%N -> (kv_modify p < idx)%N ->
  exists s', consul_event false s CVNil idx = Ok (s', ch_op s, []) /\ ch_val s' = CVPair p.
Proof.
  intros V C M. unfold consul_event, chg_Set. cbn [bind ch_val]. rewrite V. cbn [chg_drain chg_Next ch_val ch_idx ch_index].
  cbn [Nat.eqb]. unfold checkOp. replace (kv_create p =? idx)%N with false by lia. replace (kv_modify p =? idx)%N with false by lia.
  eexists. split; reflexivity.
Qed.

(** ** etcd *)
Theorem etcd_op_spec e : (ee_put e = false -> ee_create e <> ee_mod e) ->
  has_op (etcd_op e) OpCreate = ee_put e && (ee_create e =? ee_mod e)%N /\
  has_op (etcd_op e) OpWrite = ee_put e && negb (ee_create e =? ee_mod e)%N /\
  has_op (etcd_op e) OpRemove = negb (ee_put e).
Proof.
  intros H. unfold etcd_op. destruct (ee_put e); destruct (N.eqb_spec (ee_create e) (ee_mod e)); cbn; auto.
  exfalso. now apply H.
Qed.
Theorem etcd_next_once o e n : fst (etcd_Next o e 0) = 1 /\
  snd (etcd_Next o e 0) = Some (NormalizeKey o (ee_key e), GStr (ee_val e)) /\ snd (etcd_Next o e (S n)) = None /\ fst (etcd_Next o e (S n)) = S n.
Proof. repeat split. Qed.

(** ** the file watcher *)
(** at most one error, and nothing after it *)
Theorem file_error_last q : forall l a, exists n, file_loop l a q = repeat FcChange n \/ file_loop l a q = repeat FcChange n ++ [FcError].
Proof.
  induction q as [|[e| |] q IH]; intros l a; cbn [file_loop]; try (exists 0; right; reflexivity); [exists 0; left; reflexivity|].
  destruct (str_eqb (f_text e) l && (f_at e <? a + 5)%N); [apply IH|].
  destruct (negb (f_mine e)); [apply IH|]. destruct (f_remove e); [exists 0; right; reflexivity|].
  destruct (negb (f_eval e)); [exists 0; right; reflexivity|]. destruct (negb (f_wc e)); [apply IH|].
  destruct (IH (f_text e) (f_at e)) as [n [X|X]]; exists (S n); [left|right]; cbn; now rewrite X.
Qed.
(** events that are not swallowed: no repetition of the previous text within 5 ms *)
Fixpoint apart (last : gostring) (lastAt : N) (q : list fev) : Prop :=
  match q with
  | [] => True
  | e :: r => (f_text e = last -> (lastAt + 5 <= f_at e)%N) /\ apart (f_text e) (f_at e) r
  end.
Theorem file_changes q : forall l a, apart l a q -> Forall (fun e => f_mine e = true -> f_remove e = false /\ f_eval e = true) q ->
  file_loop l a (map FEvent q) = repeat FcChange (length (filter (fun e => f_mine e && f_wc e) q)).
Proof.
  induction q as [|e q IH]; intros l a A F; [reflexivity|]. cbn [map file_loop filter]. destruct A as [A1 A2]. inversion F as [|? ? F1 F2]; subst.
  replace (str_eqb (f_text e) l && (f_at e <? a + 5)%N) with false.
  - destruct (f_mine e); cbn [negb andb]; [|now apply IH]. destruct (F1 eq_refl) as [-> ->]. cbn [negb].
    destruct (f_wc e); cbn [negb]; [cbn [length repeat]; f_equal|]; now apply IH.
  - symmetry. apply andb_false_iff. destruct (str_eqb (f_text e) l) eqn:X; [right|auto]. apply str_eqb_eq in X. specialize (A1 X). lia.
Qed.
(** a second write within 5 ms of the first is not reported *)
Theorem file_swallow_refuted e e' l a : f_mine e = true -> f_wc e = true -> f_remove e = false -> f_eval e = true ->
  f_text e' = f_text e -> (f_at e' < f_at e + 5)%N -> f_text e <> l ->
  file_loop l a [FEvent e; FEvent e'] = [FcChange].
Proof.
  intros H1 H2 H3 H4 H5 H6 H7. cbn [file_loop]. rewrite H1, H2, H3, H4.
  replace (str_eqb (f_text e) l) with false by (symmetry; apply not_true_iff_false; intros X; apply str_eqb_eq in X; congruence).
  cbn [andb negb]. rewrite H5, str_eqb_refl. replace (f_at e' <? f_at e + 5)%N with true by lia. reflexivity.
Qed.
(** after the file was removed nothing is watched any more *)
Theorem file_removed_refuted e q l a : f_mine e = true -> f_remove e = true -> f_text e <> l -> file_loop l a (FEvent e :: q) = [FcError].
Proof.
  intros H1 H2 H3. cbn [file_loop]. rewrite H1, H2.
  replace (str_eqb (f_text e) l) with false by (symmetry; apply not_true_iff_false; intros X; apply str_eqb_eq in X; congruence).
  reflexivity.
Qed.

(** ** the maps provider *)
Theorem maps_new_plain sprint m k r :
  nget (GMap (maps_New sprint m [])) (k :: r) =
  match find (fun e => str_eqb (fst e) k) m with
  | Some e => option_map (normalize sprint) (aget sprint (snd e) r)
  | None => None
  end.
Proof.
  unfold maps_New. cbn [is_nil nget].
  assert (X : mget (Normalize sprint m) k = option_map (fun e => normalize sprint (snd e)) (find (fun e => str_eqb (fst e) k) m)).
  { unfold Normalize. clear. induction m as [|[a v] m IH]; cbn; auto. destruct (str_eqb a k); auto. }
  rewrite X. match goal with |- context [find ?f m] => destruct (find f m) as [e|] end; cbn [option_map]; auto. apply normalize_get.
Qed.
Theorem maps_new_spec sprint m d : d <> [] -> NoDup (map fst m) -> prefix_free (map (fun k => split_str k d) (map fst m)) ->
  (forall k v r, In (k, v) m ->
     nget (GMap (maps_New sprint m d)) (split_str k d ++ r) = option_map (normalize sprint) (aget sprint v r)) /\
  (forall q, q <> [] -> (forall k, In k (map fst m) -> ~ begins (split_str k d) q /\ ~ below q (split_str k d)) ->
     nget (GMap (maps_New sprint m d)) q = None).
Proof.
  intros Hd ND PF. unfold maps_New. destruct (is_nil d) eqn:N; [destruct d; [congruence|discriminate]|].
  assert (KE : map fst (Normalize sprint m) = map fst m) by (unfold Normalize; rewrite map_map; reflexivity).
  assert (ND' : NoDup (map fst (Normalize sprint m))) by (rewrite KE; exact ND).
  assert (PF' : prefix_free (map (fun k => split_str k d) (map fst (Normalize sprint m)))) by (rewrite KE; exact PF).
  destruct (deflate_spec (Normalize sprint m) d Hd ND' PF') as (A & B & C). split.
  - intros k v r Hin. rewrite (A (split_str k d) (normalize sprint v)).
    + apply normalize_get.
    + unfold paths, Normalize. rewrite map_map. apply in_map_iff. exists (k, v). auto.
  - intros q Hq H. apply C; [exact Hq|]. intros k Hk. rewrite paths_fst, KE in Hk. apply in_map_iff in Hk.
    destruct Hk as (x & <- & Hx). now apply H.
Qed.
