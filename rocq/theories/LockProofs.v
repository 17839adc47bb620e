(** What the lock of a node keeps apart, and when it blocks for ever. *)
From Coq Require Import List Bool Arith Lia.
From Verif Require Import Ttl TtlProofs TtlLive Locks.
Import ListNotations.
Open Scope nat_scope.

Definition n_of (b : bool) : nat := if b then 1 else 0.
Fixpoint total {A} (f : A -> nat) (l : list A) : nat := match l with [] => 0 | p :: r => f p + total f r end.
Lemma total_set {A} (f : A -> nat) i p q l : nth_error l i = Some p -> total f (set_nth i q l) + f p = total f l + f q.
Proof. revert i. induction l as [|a l IH]; intros [|i] E; cbn in *; try discriminate; [injection E as ->; lia|]. specialize (IH i E). lia. Qed.
Lemma total_pos {A} (f : A -> nat) l : 0 < total f l -> exists i p, nth_error l i = Some p /\ 0 < f p.
Proof.
  induction l as [|a l IH]; cbn; intros H; [lia|]. destruct (f a) eqn:E.
  - destruct IH as (i & p & H1 & H2); [lia|]. exists (S i), p. auto.
  - exists 0, a. cbn. split; auto. lia.
Qed.
Lemma total_in {A} (f : A -> nat) l i p : nth_error l i = Some p -> f p <= total f l.
Proof. revert i. induction l as [|a l IH]; intros [|i] E; cbn in *; try discriminate; [injection E as ->; lia|]. specialize (IH i E). lia. Qed.
Lemma total_two {A} (f : A -> nat) l i j p q : i <> j -> nth_error l i = Some p -> nth_error l j = Some q -> f p + f q <= total f l.
Proof.
  revert i j. induction l as [|a l IH]; intros [|i] [|j] N E1 E2; cbn in *; try discriminate; try congruence.
  - injection E1 as ->. pose proof (total_in f l j q E2). lia.
  - injection E2 as ->. pose proof (total_in f l i p E1). lia.
  - assert (i <> j) by congruence. specialize (IH i j H E1 E2). lia.
Qed.

(** how often a goroutine is inside as a reader; whether it has announced itself; whether it is inside as a writer *)
Definition rcount (p : lpc) : nat :=
  match p with
  | LBody KWrite _ => 0
  | LBody _ b => n_of b
  | LLeave KWrite => 0
  | LLeave _ => 1
  | LTest2 b | LEnter2 b => n_of b
  | LBody2 b b2 => n_of b + n_of b2
  | LLeave2 b => n_of b + 1
  | _ => 0
  end.
Definition wcount (p : lpc) : nat :=
  match p with LWait _ | LLeave KWrite => 1 | LBody KWrite b => n_of b | _ => 0 end.
Definition hcount (p : lpc) : nat :=
  match p with LLeave KWrite => 1 | LBody KWrite b => n_of b | _ => 0 end.
(** with the lock wherever one is asked for *)
Definition guarded (l : nat) (p : lpc) : Prop :=
  match p with
  | LWait l' => l' = l
  | LBody _ b | LTest2 b | LEnter2 b | LLeave2 b => b = true
  | LBody2 b b2 => b = true /\ b2 = true
  | LMake | LFatal => False
  | _ => True
  end.
Record linv (l : nat) (x : lstate) : Prop := {
  li_rw : rw (lcell x) = Some l;
  li_mx : exists m, nth_error (mutexes (lcell x)) l = Some m /\
            readers m = total rcount (lgoros x) /\
            n_of (pending m) = total wcount (lgoros x) /\
            n_of (held m) = total hcount (lgoros x) /\ (held m = true -> readers m = 0);
  li_gs : Forall (guarded l) (lgoros x) }.

Lemma linv_step l i x : linv l x -> linv l (lstep i x).
Proof.
  intros [R (m & M & C1 & C2 & C3 & C4) G]. unfold lstep.
  destruct (nth_error (lgoros x) i) as [p|] eqn:Hp; [|split; eauto 8].
  pose proof (Forall_nth _ _ _ _ G Hp) as Gp.
  destruct (lmove (lcell x) p) as [[c q]|] eqn:E; [|split; eauto 8].
  pose proof (total_set rcount i p q _ Hp) as T1. pose proof (total_set wcount i p q _ Hp) as T2.
  pose proof (total_set hcount i p q _ Hp) as T3.
  pose proof (total_in wcount _ _ _ Hp) as I2. pose proof (total_in hcount _ _ _ Hp) as I3. pose proof (total_in rcount _ _ _ Hp) as I1.
  assert (SAME : c = lcell x -> rcount q = rcount p -> wcount q = wcount p -> hcount q = hcount p -> guarded l q ->
     linv l (Ls c (set_nth i q (lgoros x)))).
  { intros -> E1 E2 E3 Gq. split; cbn [lcell lgoros]; auto.
    - exists m. repeat split; auto; lia.
    - apply Forall_set_nth; auto. }
  assert (PUT : forall m', c = put_mutex l m' (lcell x) -> 
     readers m' + rcount p = readers m + rcount q -> n_of (pending m') + wcount p = n_of (pending m) + wcount q ->
     n_of (held m') + hcount p = n_of (held m) + hcount q -> (held m' = true -> readers m' = 0) -> guarded l q ->
     linv l (Ls c (set_nth i q (lgoros x)))).
  { intros m' -> E1 E2 E3 E4 Gq. split; cbn [lcell lgoros put_mutex rw mutexes]; auto.
    - exists m'. rewrite (nth_set_same _ _ _ _ M). repeat split; auto; lia.
    - apply Forall_set_nth; auto. }
  assert (CUR : current (lcell x) = Some (l, m)) by (unfold current; now rewrite R, M).
  destruct p as [k|k|l'|k b|k|b|b|b b2|b| | | |]; cbn [lmove guarded] in *; try contradiction; try discriminate.
  - rewrite R in E. injection E as <- <-. apply SAME; auto; destruct k; auto.
  - assert (RL : k <> KWrite -> rlock (lcell x) (LBody k true) = Some (c, q) -> linv l (Ls c (set_nth i q (lgoros x)))).
    { unfold rlock. rewrite CUR. destruct (pending m) eqn:P; [discriminate|]. intros K X. injection X as <- <-.
      eapply PUT; [reflexivity|..]; cbn [readers pending held]; auto.
      - destruct k; cbn; try congruence; lia.
      - destruct k; cbn; congruence.
      - destruct k; cbn; congruence.
      - intros H. rewrite H in C3. cbn in C3. destruct (held m); [|discriminate].
        cbn in C2. destruct (total_pos hcount (lgoros x)) as (j & pj & J1 & J2); [lia|].
        pose proof (total_in wcount _ _ _ J1). assert (wcount pj = hcount pj \/ wcount pj = 1) by (destruct pj as [| | |[]| | | | | | | | |]; cbn in *; auto; destruct k0; auto). lia.
      - reflexivity. }
    destruct k; cbn [lmove] in E; try (apply RL; [discriminate|exact E]).
    rewrite CUR in E. destruct (pending m) eqn:P; [discriminate|]. injection E as <- <-.
    eapply PUT; [reflexivity|..]; cbn [readers pending held rcount wcount hcount n_of guarded]; auto; lia.
  - subst l'. rewrite M in E. destruct (readers m) eqn:Rd; [|discriminate]. injection E as <- <-.
    eapply PUT; [reflexivity|..]; cbn [readers pending held rcount wcount hcount n_of guarded]; auto; try lia.
    assert (held m = false) as ->; [|cbn; lia]. destruct (held m) eqn:H; auto. exfalso. cbn in C3.
    destruct (total_pos hcount (lgoros x)) as (j & pj & J1 & J2); [lia|].
    assert (j <> i) by (intros ->; rewrite Hp in J1; injection J1 as <-; cbn in J2; lia).
    pose proof (total_two wcount _ _ _ _ _ H0 J1 Hp) as T. cbn in T.
    assert (0 < wcount pj) by (destruct pj as [| | |[]| [] | | | | | | | |]; cbn in *; lia).
    destruct (pending m); cbn in C2; lia.
  - subst b. destruct k; injection E as <- <-; apply SAME; cbn; auto.
  - assert (RU : k <> KWrite -> runlock (lcell x) LDone = Some (c, q) -> linv l (Ls c (set_nth i q (lgoros x)))).
    { unfold runlock. rewrite CUR. intros K X. assert (rcount (LLeave k) = 1) as Q by (destruct k; cbn; congruence).
      destruct (readers m) as [|r] eqn:Rd; [lia|]. injection X as <- <-.
      eapply PUT; [reflexivity|..]; cbn [readers pending held]; auto.
      - rewrite Q. cbn. lia.
      - destruct k; cbn; congruence.
      - destruct k; cbn; congruence.
      - intros H. specialize (C4 H). lia. }
    destruct k; cbn [lmove] in E; try (apply RU; [discriminate|exact E]).
    rewrite CUR in E. cbn in I3. destruct (held m) eqn:H; [|cbn in C3; lia]. injection E as <- <-.
    assert (n_of (pending m) = 1) as P1 by (destruct (pending m); cbn in *; auto; lia).
    eapply PUT; [reflexivity|..]; cbn [readers pending held rcount wcount hcount n_of guarded]; auto; try lia.
  - rewrite R in E. injection E as <- <-. apply SAME; cbn; auto.
  - subst b. unfold rlock in E. rewrite CUR in E. destruct (pending m) eqn:P; [discriminate|]. injection E as <- <-.
    eapply PUT; [reflexivity|..]; cbn [readers pending held rcount wcount hcount n_of guarded]; auto; try lia.
    intros H. specialize (C4 H). cbn in I1. lia.
  - destruct Gp as [-> ->]. injection E as <- <-. apply SAME; cbn; auto.
  - subst b. unfold runlock in E. rewrite CUR in E. cbn in I1. destruct (readers m) as [|r] eqn:Rd; [lia|]. injection E as <- <-.
    eapply PUT; [reflexivity|..]; cbn [readers pending held rcount wcount hcount n_of guarded after]; auto; try lia.
  - rewrite R in E. injection E as <- <-. apply SAME; auto.
Qed.
Lemma linv_run l is_ : forall x, linv l x -> linv l (lrun is_ x).
Proof. induction is_ as [|i r IH]; intros x H; cbn; auto. apply IH, linv_step, H. Qed.

Definition starting (p : lpc) : Prop := match p with LTest _ | LAdd | LDone => True | _ => False end.
Lemma linv_start ps : Forall starting ps -> linv 0 (armed ps).
Proof.
  intros F. assert (Z : total rcount ps = 0 /\ total wcount ps = 0 /\ total hcount ps = 0).
  { induction F as [|p ps Hp F IH]; cbn; auto. destruct IH as (-> & -> & ->). destruct p; cbn in *; try contradiction; auto. }
  destruct Z as (Z1 & Z2 & Z3). split; cbn; auto.
  - exists new_mutex. cbn. rewrite Z1, Z2, Z3. auto.
  - eapply Forall_impl; [|exact F]. intros [] Hp; cbn in *; auto; contradiction.
Qed.

(** nobody crashes, and a writer is alone inside *)
Theorem lock_excludes ps is_ i j p q b :
  Forall starting ps ->
  let gs := lgoros (lrun is_ (armed ps)) in
  nth_error gs i = Some p -> p <> LFatal /\
  (p = LBody KWrite b -> b = true /\
     (j <> i -> nth_error gs j = Some q ->
        (forall k b', q <> LBody k b') /\ (forall b1 b2, q <> LBody2 b1 b2))).
Proof.
  intros F gs Hp. destruct (linv_run 0 is_ _ (linv_start ps F)) as [R (m & M & C1 & C2 & C3 & C4) G]. fold gs in C1, C2, C3, G.
  pose proof (Forall_nth _ _ _ _ G Hp) as Gp. split; [intros ->; exact Gp|]. intros ->. cbn in Gp. subst b. split; auto.
  intros N Hq. pose proof (Forall_nth _ _ _ _ G Hq) as Gq.
  pose proof (total_in hcount _ _ _ Hp) as I3. cbn in I3.
  assert (held m = true) as H by (destruct (held m); auto; cbn in C3; lia). specialize (C4 H).
  pose proof (total_two wcount _ _ _ _ _ N Hq Hp) as T2. cbn in T2.
  pose proof (total_in rcount _ _ _ Hq) as I1.
  assert (wcount q = 0 /\ rcount q = 0) as [W0 R0] by (destruct (pending m); cbn in C2; lia).
  split.
  - intros k b' ->. cbn in Gq. subst b'. destruct k; cbn in *; lia.
  - intros b1 b2 ->. cbn in Gq. destruct Gq as [-> ->]. cbn in R0. lia.
Qed.

(** as long as somebody is not done somebody can go on, if nobody dumps or nobody writes *)
Definition of_kind (ok : kind -> bool) (p : lpc) : bool :=
  match p with
  | LTest k | LEnter k | LBody k _ | LLeave k => ok k
  | LWait _ => ok KWrite
  | LTest2 _ | LEnter2 _ | LBody2 _ _ | LLeave2 _ => ok KDump
  | _ => true
  end.
Lemma of_kind_step ok i x : Forall (fun p => of_kind ok p = true) (lgoros x) -> Forall (fun p => of_kind ok p = true) (lgoros (lstep i x)).
Proof.
  intros F. unfold lstep. destruct (nth_error (lgoros x) i) as [p|] eqn:Hp; auto.
  destruct (lmove (lcell x) p) as [[c q]|] eqn:E; auto. cbn [lgoros]. apply Forall_set_nth; auto.
  pose proof (Forall_nth _ _ _ _ F Hp) as O. cbn beta in O.
  assert (RL : forall q', of_kind ok q' = true -> rlock (lcell x) q' = Some (c, q) -> of_kind ok q = true).
  { intros q' O'. unfold rlock. destruct (current _) as [[l m]|]; [destruct (pending m); [discriminate|]|]; intros X; injection X as <- <-; auto. }
  assert (RU : forall q', of_kind ok q' = true -> runlock (lcell x) q' = Some (c, q) -> of_kind ok q = true).
  { intros q' O'. unfold runlock. destruct (current _) as [[l m]|]; [destruct (readers m)|]; intros X; injection X as <- <-; auto. }
  assert (AF : forall b k, ok k = true -> of_kind ok (after b k) = true) by (intros [] k O'; auto).
  destruct p as [k|k|l'|k b|k|b|b|b b2|b| | | |]; cbn [lmove of_kind] in *; try discriminate.
  - destruct (rw _); injection E as <- <-; auto.
  - destruct k; try (eapply RL; [|exact E]; exact O). destruct (current _) as [[l m]|]; [destruct (pending m); [discriminate|]|]; injection E as <- <-; auto.
  - destruct (nth_error _ l') as [m|]; [|discriminate]. destruct (readers m); [|discriminate]. injection E as <- <-. auto.
  - destruct k; injection E as <- <-; auto; now apply AF.
  - destruct k; try (eapply RU; [|exact E]; reflexivity). destruct (current _) as [[l m]|]; [destruct (held m)|]; injection E as <- <-; auto.
  - destruct (rw _); injection E as <- <-; auto.
  - eapply RL; [|exact E]. exact O.
  - injection E as <- <-. destruct b2; auto.
  - eapply RU; [|exact E]. auto.
  - destruct (rw _); injection E as <- <-; auto.
  - injection E as <- <-. auto.
Qed.
Lemma of_kind_run ok is_ : forall x, Forall (fun p => of_kind ok p = true) (lgoros x) -> Forall (fun p => of_kind ok p = true) (lgoros (lrun is_ x)).
Proof. induction is_ as [|i r IH]; intros x H; cbn; auto. apply IH, of_kind_step, H. Qed.

Definition calm_kinds (ok : kind -> bool) : Prop := ok KDump = false \/ ok KWrite = false.
Theorem lock_goes_on ps is_ ok i p :
  Forall starting ps -> Forall (fun p => of_kind ok p = true) ps -> calm_kinds ok ->
  let x := lrun is_ (armed ps) in
  nth_error (lgoros x) i = Some p -> p <> LDone ->
  exists j q, nth_error (lgoros x) j = Some q /\ lmove (lcell x) q <> None.
Proof.
  intros F O K x Hp Nd. destruct (linv_run 0 is_ _ (linv_start ps F)) as [R (m & M & C1 & C2 & C3 & C4) G].
  pose proof (of_kind_run ok is_ (armed ps) O) as O'. fold x in R, M, C1, C2, C3, G, O'. clearbody x.
  assert (CUR : current (lcell x) = Some (0, m)) by (unfold current; now rewrite R, M).
  pose proof (Forall_nth _ _ _ _ G Hp) as Gp.
  assert (WR : pending m = true -> exists j q, nth_error (lgoros x) j = Some q /\ lmove (lcell x) q <> None).
  { intros P. rewrite P in C2. cbn in C2. destruct (total_pos wcount (lgoros x)) as (j & q & J1 & J2); [lia|].
    pose proof (Forall_nth _ _ _ _ G J1) as Gq.
    destruct q as [k|k|l'|k b|k|b|b|b b2|b| | | |]; cbn in J2, Gq; try lia.
    - subst l'. destruct (readers m) eqn:Rd.
      + exists j, (LWait 0). split; auto. cbn [lmove]. rewrite M, Rd. discriminate.
      + destruct (total_pos rcount (lgoros x)) as (j2 & q2 & Q1 & Q2); [lia|]. exists j2, q2. split; auto.
        pose proof (Forall_nth _ _ _ _ G Q1) as G2. pose proof (Forall_nth _ _ _ _ O' Q1) as O2.
        pose proof (Forall_nth _ _ _ _ O' J1) as O1. cbn beta in O1, O2. cbn in O1.
        assert (ok KDump = false) as KD by (destruct K; congruence).
        destruct q2 as [k|k|l'|k b|k|b|b|b b2|b| | | |]; cbn in Q2, O2; try lia; try congruence.
        * destruct k; cbn; try discriminate.
        * destruct k; cbn; unfold runlock; rewrite ?CUR, ?Rd; try discriminate. destruct (held m); discriminate.
    - exists j, (LBody k b). split; auto. destruct k; discriminate.
    - exists j, (LLeave k). split; auto. destruct k; try lia. cbn. rewrite CUR. destruct (held m); discriminate. }
  destruct p as [k|k|l'|k b|k|b|b|b b2|b| | | |]; cbn [guarded] in Gp; try contradiction; try congruence.
  - exists i, (LTest k). split; auto. cbn. rewrite R. discriminate.
  - destruct (pending m) eqn:P; [auto|]. exists i, (LEnter k). split; auto.
    destruct k; cbn; unfold rlock; rewrite CUR, P; discriminate.
  - apply WR. pose proof (total_in wcount _ _ _ Hp) as I2. cbn in I2. destruct (pending m); auto. cbn in C2. lia.
  - exists i, (LBody k b). split; auto. destruct k; discriminate.
  - exists i, (LLeave k). split; auto. destruct k; cbn; unfold runlock; rewrite CUR.
    + destruct (held m); discriminate.
    + destruct (readers m); discriminate.
    + destruct (readers m); discriminate.
  - exists i, (LTest2 b). split; auto. cbn. rewrite R. discriminate.
  - destruct (pending m) eqn:P; [auto|]. exists i, (LEnter2 b). split; auto. cbn. unfold rlock. rewrite CUR, P. discriminate.
  - exists i, (LBody2 b b2). split; auto. discriminate.
  - exists i, (LLeave2 b). split; auto. cbn. unfold runlock. rewrite CUR. destruct (readers m); discriminate.
  - exists i, LAdd. split; auto. cbn. rewrite R. discriminate.
Qed.

(** every step brings a goroutine nearer to its end, so whatever has happened, all can still finish *)
Definition rank (p : lpc) : nat :=
  match p with
  | LTest _ => 10 | LEnter _ => 9 | LWait _ => 8 | LBody _ _ => 7 | LTest2 _ => 6 | LEnter2 _ => 5
  | LBody2 _ _ => 4 | LLeave2 _ => 3 | LLeave _ => 2 | LAdd => 2 | LMake => 1 | LDone | LFatal => 0
  end.
Lemma lmove_rank c p c' q : lmove c p = Some (c', q) -> rank q < rank p.
Proof.
  assert (RL : forall q', rlock c q' = Some (c', q) -> q = q' \/ q = LFatal).
  { intros q'. unfold rlock. destruct (current _) as [[l m]|]; [destruct (pending m); [discriminate|]|]; intros X; injection X as <- <-; auto. }
  assert (RU : forall q', runlock c q' = Some (c', q) -> q = q' \/ q = LFatal).
  { intros q'. unfold runlock. destruct (current _) as [[l m]|]; [destruct (readers m)|]; intros X; injection X as <- <-; auto. }
  destruct p as [k|k|l'|k b|k|b|b|b b2|b| | | |]; cbn [lmove]; intros E; try discriminate.
  - destruct (rw c); injection E as <- <-; cbn; lia.
  - destruct k; try (destruct (RL _ E) as [-> | ->]; cbn; lia).
    destruct (current _) as [[l m]|]; [destruct (pending m); [discriminate|]|]; injection E as <- <-; cbn; lia.
  - destruct (nth_error _ l') as [m|]; [|discriminate]. destruct (readers m); [|discriminate]. injection E as <- <-. cbn; lia.
  - destruct k; injection E as <- <-; cbn; try destruct b; cbn; lia.
  - destruct k; try (destruct (RU _ E) as [-> | ->]; cbn; lia).
    destruct (current _) as [[l m]|]; [destruct (held m)|]; injection E as <- <-; cbn; lia.
  - destruct (rw c); injection E as <- <-; cbn; lia.
  - destruct (RL _ E) as [-> | ->]; cbn; lia.
  - injection E as <- <-. destruct b2, b; cbn; lia.
  - destruct (RU _ E) as [-> | ->]; destruct b; cbn; lia.
  - destruct (rw c); injection E as <- <-; cbn; lia.
  - injection E as <- <-. cbn; lia.
Qed.
Lemma lrun_app a b x : lrun (a ++ b) x = lrun b (lrun a x).
Proof. apply fold_left_app. Qed.
Definition is_done (p : lpc) : bool := match p with LDone => true | _ => false end.
Theorem lock_finishes ps is_ ok :
  Forall starting ps -> Forall (fun p => of_kind ok p = true) ps -> calm_kinds ok ->
  exists is', length is' <= 10 * length ps /\ Forall (fun p => p = LDone) (lgoros (lrun (is_ ++ is') (armed ps))).
Proof.
  intros F O K.
  assert (LEN : forall is_ x, length (lgoros (lrun is_ x)) = length (lgoros x)).
  { induction is_0 as [|i r IH]; intros x; cbn; auto. unfold lrun in IH. rewrite IH. unfold lstep.
    destruct (nth_error _ i); auto. destruct (lmove _ _) as [[c q]|]; auto. cbn. apply set_nth_length. }
  assert (B : forall gs, total rank gs <= 10 * length gs).
  { induction gs as [|p gs IH]; cbn; [lia|]. assert (rank p <= 10) by (destruct p; cbn; lia). lia. }
  assert (T : forall n is_, total rank (lgoros (lrun is_ (armed ps))) <= n ->
     exists is', length is' <= n /\ Forall (fun p => p = LDone) (lgoros (lrun (is_ ++ is') (armed ps)))).
  { induction n as [n IH] using lt_wf_ind. intros is0 H.
    destruct (forallb is_done (lgoros (lrun is0 (armed ps)))) eqn:A.
    - exists []. split; [cbn; lia|]. rewrite app_nil_r. apply Forall_forall. intros p Hin.
      pose proof (proj1 (forallb_forall _ _) A p Hin) as D. now destruct p.
    - assert (exists i p, nth_error (lgoros (lrun is0 (armed ps))) i = Some p /\ p <> LDone) as (i & p & Hp & Nd).
      { clear - A. induction (lgoros (lrun is0 (armed ps))) as [|a l IH]; cbn in A; [discriminate|].
        destruct (is_done a) eqn:D.
        - destruct (IH A) as (i & p & H). exists (S i), p. exact H.
        - exists 0, a. split; auto. intros ->. discriminate. }
      destruct (lock_goes_on ps is0 ok i p F O K Hp Nd) as (j & q & Hq & M).
      destruct (lmove (lcell (lrun is0 (armed ps))) q) as [[c r]|] eqn:E; [|congruence].
      assert (S1 : lrun (is0 ++ [j]) (armed ps) = Ls c (set_nth j r (lgoros (lrun is0 (armed ps))))).
      { rewrite lrun_app. cbn. unfold lstep. rewrite Hq, E. reflexivity. }
      pose proof (lmove_rank _ _ _ _ E) as Rk. pose proof (total_set rank j q r _ Hq) as Ts.
      pose proof (total_in rank _ _ _ Hq) as Ti.
      destruct (IH (n - 1)) with (is_ := is0 ++ [j]) as (is' & L & D); [lia| |].
      + rewrite S1. cbn [lgoros]. lia.
      + exists (j :: is'). split; [cbn; lia|]. rewrite <- app_assoc in D. exact D. }
  apply T. pose proof (B (lgoros (lrun is_ (armed ps)))) as Q. rewrite LEN in Q. exact Q.
Qed.

(** ** what goes wrong *)
(** the dump is inside, a writer waits for it, the dump waits for the writer: nobody ever moves again *)
Theorem dump_deadlock : exists is_, forall is', 
  lgoros (lrun is' (lrun is_ (armed [LTest KDump; LTest KWrite]))) = [LEnter2 true; LWait 0].
Proof.
  exists [0; 0; 0; 0; 1; 1].
  change (lrun [0; 0; 0; 0; 1; 1] (armed [LTest KDump; LTest KWrite])) with
    (Ls (Cell (Some 0) [Mx 1 true false]) [LEnter2 true; LWait 0]).
  induction is' as [|i r IH]; [reflexivity|]. cbn [lrun fold_left]. destruct i as [|[|i]]; cbn; try exact IH.
  unfold lstep at 2. cbn. replace (nth_error [] i) with (@None lpc) by (destruct i; reflexivity). exact IH.
Qed.
(** SetTTL gives the node a lock while a write without lock is under way: two writers inside *)
Theorem lock_late : exists is_, lgoros (lrun is_ (bare [LTest KWrite; LAdd; LTest KWrite])) = [LBody KWrite false; LDone; LBody KWrite true].
Proof. exists [0; 1; 1; 2; 2; 2]. reflexivity. Qed.
(** two SetTTLs, by way of two views, both make a lock; a writer in between unlocks the wrong one *)
Theorem lock_twice : exists is_, lgoros (lrun is_ (bare [LAdd; LAdd; LTest KWrite])) = [LDone; LDone; LFatal].
Proof. exists [0; 1; 0; 2; 2; 2; 1; 2; 2]. reflexivity. Qed.
