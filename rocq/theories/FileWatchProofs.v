(** The goroutines of the file provider's Watch: proofs. *)
From Coq Require Import List NArith Bool Arith Lia.
From Verif Require Import GoStr Provider FileWatch.
Import ListNotations.
Open Scope nat_scope.

(** ** lists *)
Lemma set_at_length {A} (l : list A) i x : length (set_at l i x) = length l.
Proof. revert i. induction l as [|a l IH]; intros [|i]; cbn; auto. Qed.
Lemma set_at_same {A} (l : list A) i x : i < length l -> nth_error (set_at l i x) i = Some x.
Proof. revert i. induction l as [|a l IH]; intros [|i] H; cbn in *; try lia; auto. apply IH; lia. Qed.
Lemma set_at_other {A} (l : list A) i j x : j <> i -> nth_error (set_at l i x) j = nth_error l j.
Proof. revert i j. induction l as [|a l IH]; intros [|i] [|j] H; cbn; auto; try lia. Qed.
Lemma nth_len {A} (l : list A) i x : nth_error l i = Some x -> i < length l.
Proof. intros E. apply nth_error_Some. congruence. Qed.
Lemma in_set_at {A} (l : list A) i x y : In y (set_at l i x) -> y = x \/ In y l.
Proof. revert i. induction l as [|a l IH]; intros [|i]; cbn; auto; intros [X|X]; auto. destruct (IH i X); auto. Qed.

(** ** the messages of a goroutine *)
Definition watches (es : list wev) : nat := length (filter (fun e => match e with DoWatch => true | _ => false end) es).
Definition arrivals (es : list wev) : list fmsg := flat_map (fun e => match e with Arrive m => [m] | _ => [] end) es.
Lemma received_none es : forall i, watches es <= i -> received i es = [].
Proof.
  unfold watches. induction es as [|e es IH]; intros i H; cbn in *; auto. destruct e; cbn in *; auto. destruct i; [lia|]. apply IH. lia.
Qed.
Lemma received_snoc es e : forall i, i < watches es -> received i (es ++ [e]) = received i es ++ arrivals [e].
Proof.
  unfold watches. induction es as [|e0 es IH]; intros i H; cbn in *; [lia|]. destruct e0; cbn in *; auto. destruct i as [|i]; [|apply IH; lia].
  rewrite flat_map_app. reflexivity.
Qed.
Lemma watches_snoc es e : watches (es ++ [e]) = watches es + watches [e].
Proof. unfold watches. now rewrite filter_app, app_length. Qed.
Lemma received_fresh es e : received (watches es) (es ++ [e]) = [].
Proof.
  unfold watches. induction es as [|e0 es IH]; cbn; [now destruct e|]. destruct e0; cbn; auto.
Qed.

(** ** the loop, message by message *)
Fixpoint feed (last : gostring) (tm : N) (c : list fmsg) : gostring * N * list fcall * bool :=
  match c with
  | [] => (last, tm, [], false)
  | m :: c => let '(l, t, cs, stop) := one last tm m in
              if stop then (l, t, cs, true) else let '(l2, t2, cs2, st2) := feed l t c in (l2, t2, cs ++ cs2, st2)
  end.
Lemma loop_one last tm m q : file_loop last tm (m :: q) = (let '(l, t, cs, stop) := one last tm m in cs ++ if stop then [] else file_loop l t q).
Proof.
  destruct m as [e| |]; cbn [file_loop one]; auto. destruct (_ && _); [reflexivity|]. destruct (f_mine e); [|reflexivity]. cbn [negb].
  destruct (f_remove e); [reflexivity|]. destruct (f_eval e); [|reflexivity]. cbn [negb]. destruct (f_wc e); reflexivity.
Qed.
Lemma feed_loop : forall c last tm q l t cs st, feed last tm c = (l, t, cs, st) ->
  file_loop last tm (c ++ q) = cs ++ (if st then [] else file_loop l t q).
Proof.
  induction c as [|m c IH]; intros last tm q l t cs st E; [cbn in E; injection E as <- <- <- <-; reflexivity|]. cbn [feed] in E. cbn [app]. rewrite loop_one.
  destruct (one last tm m) as [[[l1 t1] cs1] stop]. destruct stop.
  - injection E as <- <- <- <-. reflexivity.
  - destruct (feed l1 t1 c) as [[[l2 t2] cs2] st2] eqn:F. injection E as <- <- <- <-. rewrite (IH _ _ q _ _ _ _ F). now rewrite app_assoc.
Qed.
Lemma feed_snoc m : forall c last tm l t cs, feed last tm c = (l, t, cs, false) ->
  feed last tm (c ++ [m]) = (let '(l', t', cs', st) := one l t m in (l', t', cs ++ cs', st)).
Proof.
  induction c as [|m0 c IH]; intros last tm l t cs E; cbn [feed app] in *.
  - injection E as <- <- <-. destruct (one last tm m) as [[[l1 t1] cs1] st]. destruct st; cbn; rewrite ?app_nil_r; reflexivity.
  - destruct (one last tm m0) as [[[l1 t1] cs1] stop]. destruct stop; [discriminate|]. destruct (feed l1 t1 c) as [[[l2 t2] cs2] st2] eqn:F.
    injection E as <- <- <- ->. rewrite (IH _ _ _ _ _ F). destruct (one l2 t2 m) as [[[l3 t3] cs3] st3]. now rewrite app_assoc.
Qed.

(** ** what holds of every goroutine *)
Record good (es : list wev) (s : wstate) (i : nat) (r : runner) : Prop := {
  g_msgs : exists c tail st, received i es = c ++ r_queue r ++ tail /\ (r_open r = true -> tail = []) /\
    feed [] 0%N c = (r_last r, r_time r, calls_of i s, st) /\ (st = true -> r_at r = Over) /\ (r_at r <> Over -> r_open r = true);
  g_fresh : r_at r = AtCas -> calls_of i s = [] }.
Record holds (es : list wev) (s : wstate) : Prop := {
  h_len : length (w_runs s) = watches es;
  h_runs : forall i r, nth_error (w_runs s) i = Some r -> good es s i r;
  h_none : forall i, length (w_runs s) <= i -> calls_of i s = [] }.
Lemma calls_of_app i s l f rs : calls_of i (Ws f rs (w_calls s ++ l)) = calls_of i s ++ map snd (filter (fun c => fst c =? i) l).
Proof. unfold calls_of. cbn. now rewrite filter_app, map_app. Qed.
Lemma mine_same i l : map snd (filter (fun c => fst c =? i) (map (pair i) l)) = l :> list fcall.
Proof. induction l as [|x l IH]; cbn; auto. rewrite Nat.eqb_refl. cbn. now rewrite IH. Qed.
Lemma mine_other i j l : j <> i -> map snd (filter (fun c => fst c =? j) (map (pair i) l)) = [] :> list fcall.
Proof. intros N. induction l as [|x l IH]; cbn; auto. apply not_eq_sym, Nat.eqb_neq in N. now rewrite N. Qed.
Lemma calls_same i f rs s : calls_of i (Ws f rs (w_calls s)) = calls_of i s. Proof. reflexivity. Qed.

Lemma good_next es s e s' i r : i < watches es -> (forall m, e <> Arrive m) -> calls_of i s' = calls_of i s -> good es s i r -> good (es ++ [e]) s' i r.
Proof.
  intros L NA C [M F]. constructor; [|now rewrite C]. destruct M as (c & tail & st & E & O & FE & S & OP). exists c, tail, st.
  rewrite received_snoc by exact L. assert (A : arrivals [e] = []) by (destruct e; cbn; auto; now destruct (NA m)). rewrite A, app_nil_r, C. auto.
Qed.
Lemma wrun_snoc es e : wrun (es ++ [e]) w0 = wstep (wrun es w0) e.
Proof. unfold wrun. now rewrite fold_left_app. Qed.

(** a step that only replaces goroutine [i] *)
Lemma holds_set es s e i r r' f cs : holds es s -> nth_error (w_runs s) i = Some r -> watches [e] = 0 -> (forall m, e <> Arrive m) ->
  (forall j, j <> i -> map snd (filter (fun c => fst c =? j) cs) = []) ->
  good (es ++ [e]) (Ws f (set_at (w_runs s) i r') (w_calls s ++ cs)) i r' ->
  holds (es ++ [e]) (Ws f (set_at (w_runs s) i r') (w_calls s ++ cs)).
Proof.
  intros [L R N] E W NA O G. pose proof (nth_len _ _ _ E) as LI. constructor; cbn [w_runs].
  - rewrite set_at_length, watches_snoc, W. lia.
  - intros j q Hj. destruct (Nat.eq_dec j i) as [->|NE].
    + rewrite set_at_same in Hj by exact LI. injection Hj as <-. exact G.
    + rewrite set_at_other in Hj by exact NE. apply good_next with s; auto.
      * rewrite <- L. now apply nth_len in Hj.
      * rewrite calls_of_app, (O j NE). apply app_nil_r.
  - intros j. rewrite set_at_length. intros Hj. rewrite calls_of_app, (O j) by lia. rewrite app_nil_r. auto.
Qed.
Lemma holds_same es s e : holds es s -> watches [e] = 0 -> (forall m, e <> Arrive m) -> holds (es ++ [e]) s.
Proof.
  intros [L R N] W NA. constructor; [rewrite watches_snoc, W; lia| |exact N]. intros j q Hj. apply good_next with s; auto. rewrite <- L. now apply nth_len in Hj.
Qed.
(** the same goroutine elsewhere *)
Lemma good_move es s e i r a d o f rs cs : i < watches es -> (forall m, e <> Arrive m) -> good es s i r -> r_at r <> Over -> a <> AtCas -> (a <> Over -> o = true) ->
  cs = [] -> good (es ++ [e]) (Ws f rs (w_calls s ++ cs)) i (Run a (r_last r) (r_time r) (r_queue r) d o).
Proof.
  intros L NA [M F] NO AC OO ->. constructor; [|intros; cbn in *; congruence]. destruct M as (c & tail & st & E & O & FE & S & OP). cbn [r_queue r_open r_last r_time r_at].
  rewrite received_snoc by exact L. assert (A : arrivals [e] = []) by (destruct e; cbn; auto; now destruct (NA m)). rewrite A, app_nil_r.
  exists c, tail, st. rewrite app_nil_r, calls_same. split; [exact E|]. split; [intros; apply O; apply OP; exact NO|]. split; [exact FE|].
  split; [|auto]. intros X. destruct (NO (S X)).
Qed.

Lemma step_holds es s e : holds es s -> holds (es ++ [e]) (wstep s e).
Proof.
  intros H. pose proof H as [L R N]. destruct e as [| |i|m|i|i]; cbn [wstep].
  - constructor; cbn [w_runs].
    + rewrite app_length, watches_snoc, L. reflexivity.
    + intros j q Hj. destruct (Nat.ltb_spec j (length (w_runs s))) as [Lj|Lj].
      * rewrite nth_error_app1 in Hj by exact Lj. apply good_next with s; auto; [lia|discriminate].
      * rewrite nth_error_app2 in Hj by exact Lj. destruct (j - length (w_runs s)) as [|k] eqn:K; [|destruct k; discriminate]. injection Hj as <-.
        assert (j = watches es) as -> by lia. constructor; [|intros _; apply (N (watches es)); lia].
        exists [], [], false. rewrite received_fresh. cbn [r_queue r_open r_last r_time r_at feed app]. rewrite calls_same, (N (watches es)) by lia. repeat split; auto; discriminate.
    + intros j. rewrite app_length. cbn. intros Hj. apply (N j). lia.
  - apply holds_same with (e := DoClose) in H; [|reflexivity|discriminate]. destruct H as [L' R' N']. constructor; auto.
    intros j q Hj. destruct (R' j q Hj). constructor; auto.
  - destruct (nth_error (w_runs s) i) as [r|] eqn:E; [|apply holds_same; auto; discriminate].
    rewrite <- (app_nil_r (w_calls s)). apply holds_set with r; auto; [discriminate|]. 
    pose proof (R i r E) as [M F]. constructor; [|intros; rewrite calls_of_app; cbn [filter map]; rewrite app_nil_r; auto].
    destruct M as (c & tail & st & E1 & O & FE & S & OP). exists c, tail, st.
    rewrite received_snoc by (rewrite <- L; now apply nth_len in E). cbn [arrivals flat_map]. rewrite app_nil_r, calls_of_app. cbn [r_queue r_open r_last r_time r_at filter map]. rewrite app_nil_r. auto.
  - constructor; cbn [w_runs].
    + rewrite map_length, watches_snoc. cbn. lia.
    + intros j q Hj. rewrite nth_error_map in Hj. destruct (nth_error (w_runs s) j) as [r|] eqn:E; [|discriminate]. injection Hj as <-.
      pose proof (R j r E) as [M F]. assert (LJ : j < watches es) by (rewrite <- L; now apply nth_len in E).
      destruct M as (c & tail & st & E1 & O & FE & S & OP). destruct (r_open r) eqn:RO.
      * constructor; [|exact F]. exists c, [], st. cbn [r_queue r_open r_last r_time r_at]. rewrite received_snoc by exact LJ. cbn [arrivals flat_map app]. rewrite E1, (O eq_refl), !app_nil_r, <- app_assoc. auto.
      * constructor; [|exact F]. exists c, (tail ++ [m]), st. rewrite received_snoc by exact LJ. cbn [arrivals flat_map app]. rewrite E1, <- !app_assoc. rewrite RO.
        split; [reflexivity|]. split; [discriminate|]. auto.
    + intros j. rewrite map_length. intros Hj. apply (N j Hj).
  - destruct (nth_error (w_runs s) i) as [r|] eqn:E; [|apply holds_same; auto; discriminate]. pose proof (R i r E) as G.
    assert (LI : i < watches es) by (rewrite <- L; now apply nth_len in E). pose proof G as [M F]. destruct M as (c & tail & st & E1 & O & FE & S & OP).
    destruct (r_at r) eqn:A.
    + assert (OR : r_open r = true) by (apply OP; discriminate).
      destruct (w_flag s); rewrite <- (app_nil_r (w_calls s)); (apply holds_set with r; auto; [discriminate|]); apply good_move; auto; try congruence; discriminate.
    + assert (OR : r_open r = true) by (apply OP; discriminate).
      destruct (w_flag s); rewrite <- (app_nil_r (w_calls s)); (apply holds_set with r; auto; [discriminate|]); apply good_move; auto; try congruence; discriminate.
    + destruct (r_queue r) as [|m q] eqn:Q; [apply holds_same; auto; discriminate|].
      destruct (one (r_last r) (r_time r) m) as [[[last tm] calls] stop] eqn:ON.
      apply holds_set with r; auto; [discriminate|intros; now apply mine_other|].
      assert (OR : r_open r = true) by (apply OP; discriminate). assert (st = false) as -> by (destruct st; auto; now specialize (S eq_refl)).
      pose proof (feed_snoc m c _ _ _ _ _ FE) as FS. rewrite ON in FS.
      constructor; [|destruct stop; discriminate]. exists (c ++ [m]), tail, stop. cbn [r_queue r_open r_last r_time r_at]. rewrite received_snoc by exact LI. cbn [arrivals flat_map].
      rewrite app_nil_r, E1, <- app_assoc, OR. split; [reflexivity|]. split; [intros; auto|]. rewrite FS, calls_of_app, mine_same. split; [reflexivity|].
      destruct stop; [auto|]. split; [discriminate|auto].
    + apply holds_same; auto; discriminate.
  - destruct (nth_error (w_runs s) i) as [r|] eqn:E; [|apply holds_same; auto; discriminate].
    destruct (r_at r) eqn:A; try (apply holds_same; auto; discriminate). destruct (r_done r) eqn:D; [|apply holds_same; auto; discriminate].
    rewrite <- (app_nil_r (w_calls s)). apply holds_set with r; auto; [discriminate|]. apply good_move; auto; try congruence.
    + rewrite <- L. now apply nth_len in E.
Qed.
Lemma run_holds es : holds es (wrun es w0).
Proof.
  induction es as [|e es IH] using rev_ind; [|rewrite wrun_snoc; now apply step_holds]. constructor; cbn; auto. intros i r. destruct i; discriminate.
Qed.

(** the callback of a goroutine gets what the loop gives for its messages, as far as it has come *)
Theorem calls_prefix es i : exists rest, calls_of i (wrun es w0) ++ rest = file_loop [] 0%N (received i es).
Proof.
  pose proof (run_holds es) as [L R N]. destruct (nth_error (w_runs (wrun es w0)) i) as [r|] eqn:E.
  - destruct (R i r E) as [(c & tail & st & E1 & _ & FE & _) _]. rewrite E1, (feed_loop _ _ _ (r_queue r ++ tail) _ _ _ _ FE). eauto.
  - apply nth_error_None in E. rewrite (N i E), received_none by lia. exists []. reflexivity.
Qed.
Theorem calls_all es i r : nth_error (w_runs (wrun es w0)) i = Some r -> running r = true -> r_queue r = [] ->
  calls_of i (wrun es w0) = file_loop [] 0%N (received i es).
Proof.
  intros E RU Q. pose proof (run_holds es) as [L R N]. destruct (R i r E) as [(c & tail & st & E1 & O & FE & S & OP) _].
  assert (NO : r_at r <> Over) by (unfold running in RU; destruct (r_at r); discriminate). rewrite E1, Q, (O (OP NO)). cbn.
  rewrite (feed_loop _ _ _ [] _ _ _ _ FE). destruct st; [now destruct (NO (S eq_refl))|]. cbn. now rewrite app_nil_r.
Qed.

(** ** a goroutine that goes on gives all *)
Lemma drain : forall n i s r, nth_error (w_runs s) i = Some r -> running r = true -> w_flag s = true -> length (r_queue r) = n ->
  exists k, k <= 2 * n + 1 /\ exists r', nth_error (w_runs (wrun (repeat (Step i) k) s)) i = Some r' /\ (r_at r' = Over \/ (running r' = true /\ r_queue r' = [])).
Proof.
  induction n as [|n IH]; intros i s r E RU FL Q.
  - exists 0. split; [lia|]. exists r. cbn. split; [exact E|]. right. split; [exact RU|]. now destruct (r_queue r).
  - assert (SEL : forall s r, nth_error (w_runs s) i = Some r -> r_at r = AtSelect -> w_flag s = true -> length (r_queue r) = S n ->
      exists k, k <= 2 * S n /\ exists r', nth_error (w_runs (wrun (repeat (Step i) k) s)) i = Some r' /\ (r_at r' = Over \/ (running r' = true /\ r_queue r' = []))).
    { clear s r E RU FL Q. intros s r E A FL Q. destruct (r_queue r) as [|m q] eqn:RQ; [discriminate|]. pose proof (nth_len _ _ _ E) as LI.
      destruct (one (r_last r) (r_time r) m) as [[[last tm] calls] stop] eqn:ON.
      set (s1 := wstep s (Step i)).
      assert (S1 : s1 = Ws true (set_at (w_runs s) i (Run (if stop then Over else AtTest) last tm q (r_done r) (r_open r && negb stop))) (w_calls s ++ map (pair i) calls)).
      { unfold s1. cbn [wstep]. rewrite E, A, RQ, ON, FL. reflexivity. }
      destruct stop.
      - exists 1. split; [lia|]. exists (Run Over last tm q (r_done r) (r_open r && negb true)). cbn [repeat wrun fold_left]. fold s1. rewrite S1. cbn [w_runs].
        rewrite set_at_same by exact LI. auto.
      - destruct (IH i s1 (Run AtTest last tm q (r_done r) (r_open r && negb false))) as (k & K & r' & E' & X).
        + rewrite S1. cbn [w_runs]. now rewrite set_at_same.
        + reflexivity.
        + now rewrite S1.
        + cbn in *. lia.
        + exists (S k). split; [lia|]. exists r'. cbn [repeat wrun fold_left]. fold s1. auto. }
    unfold running in RU. destruct (r_at r) eqn:A; try discriminate.
    + set (s1 := wstep s (Step i)). set (r1 := Run AtSelect (r_last r) (r_time r) (r_queue r) (r_done r) (r_open r)).
      assert (S1 : s1 = Ws true (set_at (w_runs s) i r1) (w_calls s)) by (unfold s1, r1; cbn [wstep]; rewrite E, A, FL; reflexivity).
      destruct (SEL s1 r1) as (k & K & r' & E' & X); auto.
      * rewrite S1. cbn [w_runs]. apply set_at_same. now apply nth_len in E.
      * now rewrite S1.
      * exists (S k). split; [lia|]. exists r'. cbn [repeat wrun fold_left]. fold s1. auto.
    + destruct (SEL s r E A FL Q) as (k & K & r' & E' & X). exists k. split; [lia|]. eauto.
Qed.
Lemma received_steps es i k : forall j, received j (es ++ repeat (Step i) k) = received j es.
Proof.
  intros j. induction k as [|k IH]; [now rewrite app_nil_r|]. replace (repeat (Step i) (S k)) with (repeat (Step i) k ++ [Step i]) by (rewrite <- repeat_cons; reflexivity).
  rewrite app_assoc. destruct (Nat.ltb_spec j (watches (es ++ repeat (Step i) k))) as [L|L].
  - rewrite received_snoc by exact L. cbn. now rewrite app_nil_r, IH.
  - rewrite received_none in IH by exact L. rewrite received_none; [exact IH|]. rewrite watches_snoc. cbn. lia.
Qed.
Theorem calls_drained es i r : nth_error (w_runs (wrun es w0)) i = Some r -> running r = true -> w_flag (wrun es w0) = true ->
  exists k, calls_of i (wrun (es ++ repeat (Step i) k) w0) = file_loop [] 0%N (received i es).
Proof.
  intros E RU FL. destruct (drain _ i _ r E RU FL eq_refl) as (k & _ & r' & E' & X). exists k.
  assert (W : wrun (repeat (Step i) k) (wrun es w0) = wrun (es ++ repeat (Step i) k) w0) by (unfold wrun; now rewrite fold_left_app). rewrite W in E'.
  destruct X as [X|[X1 X2]].
  - (* it left the loop by itself: what was left over is not looked at *)
    clear W. assert (Y : forall n es, (exists r, nth_error (w_runs (wrun es w0)) i = Some r /\ running r = true) ->
      (exists r', nth_error (w_runs (wrun (es ++ repeat (Step i) n) w0)) i = Some r' /\ r_at r' = Over) -> w_flag (wrun es w0) = true ->
      calls_of i (wrun (es ++ repeat (Step i) n) w0) = file_loop [] 0%N (received i es)).
    { clear. induction n as [|n IH]; intros es (r & E & RU) (r' & E' & OV) FL.
      - rewrite app_nil_r in E'. rewrite E in E'. injection E' as <-. unfold running in RU. now rewrite OV in RU.
      - assert (SH : es ++ repeat (Step i) (S n) = (es ++ [Step i]) ++ repeat (Step i) n) by now rewrite <- app_assoc. rewrite SH in *.
        assert (RE : received i (es ++ [Step i]) = received i es) by apply (received_steps es i 1).
        pose proof (nth_len _ _ _ E) as LI. set (s := wrun es w0) in *.
        assert (W1 : wrun (es ++ [Step i]) w0 = wstep s (Step i)) by apply wrun_snoc.
        destruct (r_at r) eqn:A; unfold running in RU; rewrite A in RU; try discriminate.
        + rewrite <- RE. apply IH; auto.
          * rewrite W1. cbn [wstep]. rewrite E, A, FL. cbn [w_runs]. rewrite set_at_same by exact LI. eexists. split; reflexivity.
          * eauto.
          * rewrite W1. cbn [wstep]. rewrite E, A, FL. reflexivity.
        + destruct (r_queue r) as [|m q] eqn:Q.
          * assert (NO : wstep s (Step i) = s) by (cbn [wstep]; now rewrite E, A, Q). rewrite <- RE. apply IH; [|eauto|now rewrite W1, NO].
            rewrite W1, NO. exists r. split; auto. unfold running. now rewrite A.
          * destruct (one (r_last r) (r_time r) m) as [[[last tm] calls] stop] eqn:ON.
            assert (S1 : wstep s (Step i) = Ws true (set_at (w_runs s) i (Run (if stop then Over else AtTest) last tm q (r_done r) (r_open r && negb stop))) (w_calls s ++ map (pair i) calls)).
            { cbn [wstep]. rewrite E, A, Q, ON, FL. reflexivity. }
            destruct stop.
            -- (* over after this one *)
               assert (ST : forall n, wrun ((es ++ [Step i]) ++ repeat (Step i) n) w0 = wrun (es ++ [Step i]) w0).
               { clear -S1 W1 LI. intros n. unfold wrun. rewrite fold_left_app. fold (wrun (es ++ [Step i]) w0). rewrite W1, S1. induction n as [|n IH]; [reflexivity|].
                 cbn [repeat fold_left]. rewrite <- IH at 2. f_equal. cbn [wstep w_runs]. rewrite set_at_same by exact LI. reflexivity. }
               rewrite ST, W1, S1. rewrite calls_of_app, mine_same. pose proof (run_holds es) as [_ R _]. fold s in R.
               destruct (R i r E) as [(c & tail & st & E1 & O & FE & S & OP) _]. assert (st = false) as -> by (destruct st; auto; specialize (S eq_refl); congruence).
               rewrite E1, Q. rewrite (feed_loop _ _ _ _ _ _ _ _ FE). f_equal. cbn [app]. rewrite loop_one, ON. now rewrite app_nil_r.
            -- rewrite <- RE. apply IH; auto.
               ++ rewrite W1, S1. cbn [w_runs]. rewrite set_at_same by exact LI. eexists. split; reflexivity.
               ++ eauto.
               ++ now rewrite W1, S1. }
    apply Y; eauto.
  - rewrite <- (received_steps es i k i). eapply calls_all; eauto.
Qed.

(** ** without Close one goroutine at most is in its loop *)
Definition no_close (e : wev) : bool := match e with DoClose => false | _ => true end.
Definition no_watch (e : wev) : bool := match e with DoWatch => false | _ => true end.
Record lone (s : wstate) : Prop := {
  l_who : exists i, (forall c, In c (w_calls s) -> fst c = i) /\ (forall j r, nth_error (w_runs s) j = Some r -> running r = true -> j = i);
  l_flag : w_flag s = false -> w_calls s = [] /\ forall j r, nth_error (w_runs s) j = Some r -> running r = false }.
Lemma step_lone s e : no_close e = true -> lone s -> lone (wstep s e).
Proof.
  intros NC [(i & C & U) FF]. destruct e as [| |j|m|j|j]; try discriminate NC; cbn [wstep].
  - constructor.
    + exists i. cbn. split; [exact C|]. intros k r Hk RU. destruct (Nat.ltb_spec k (length (w_runs s))) as [Lk|Lk].
      * rewrite nth_error_app1 in Hk by exact Lk. eauto.
      * rewrite nth_error_app2 in Hk by exact Lk. destruct (k - length (w_runs s)) as [|k']; [|destruct k'; discriminate]. injection Hk as <-. discriminate.
    + cbn. intros F. destruct (FF F) as [F1 F2]. split; [exact F1|]. intros k r Hk. destruct (Nat.ltb_spec k (length (w_runs s))) as [Lk|Lk].
      * rewrite nth_error_app1 in Hk by exact Lk. eauto.
      * rewrite nth_error_app2 in Hk by exact Lk. destruct (k - length (w_runs s)) as [|k']; [|destruct k'; discriminate]. injection Hk as <-. reflexivity.
  - destruct (nth_error (w_runs s) j) as [r|] eqn:E; [|constructor; eauto]. pose proof (nth_len _ _ _ E) as LJ.
    assert (K : forall k q, nth_error (set_at (w_runs s) j (Run (r_at r) (r_last r) (r_time r) (r_queue r) true (r_open r))) k = Some q ->
      exists q0, nth_error (w_runs s) k = Some q0 /\ running q = running q0).
    { intros k q Hk. destruct (Nat.eq_dec k j) as [->|NE]; [rewrite set_at_same in Hk by exact LJ; injection Hk as <-; exists r; auto|].
      rewrite set_at_other in Hk by exact NE. eauto. }
    constructor; cbn [w_calls w_runs w_flag].
    + exists i. split; [exact C|]. intros k q Hk RU. destruct (K k q Hk) as (q0 & K1 & K2). rewrite K2 in RU. eauto.
    + intros F. destruct (FF F) as [F1 F2]. split; [exact F1|]. intros k q Hk. destruct (K k q Hk) as (q0 & K1 & ->). eauto.
  - assert (K : forall k q, nth_error (map (fun r => if r_open r then Run (r_at r) (r_last r) (r_time r) (r_queue r ++ [m]) (r_done r) (r_open r) else r) (w_runs s)) k = Some q ->
      exists q0, nth_error (w_runs s) k = Some q0 /\ running q = running q0).
    { intros k q Hk. rewrite nth_error_map in Hk. destruct (nth_error (w_runs s) k) as [q0|]; [|discriminate]. injection Hk as <-. exists q0. split; auto. now destruct (r_open q0). }
    constructor; cbn [w_calls w_runs w_flag].
    + exists i. split; [exact C|]. intros k q Hk RU. destruct (K k q Hk) as (q0 & K1 & K2). rewrite K2 in RU. eauto.
    + intros F. destruct (FF F) as [F1 F2]. split; [exact F1|]. intros k q Hk. destruct (K k q Hk) as (q0 & K1 & ->). eauto.
  - destruct (nth_error (w_runs s) j) as [r|] eqn:E; [|constructor; eauto]. pose proof (nth_len _ _ _ E) as LJ.
    destruct (r_at r) eqn:A.
    + destruct (w_flag s) eqn:FL.
      * constructor; [|discriminate]. exists i. cbn. split; [exact C|]. intros k q Hk RU. destruct (Nat.eq_dec k j) as [->|NE].
        -- rewrite set_at_same in Hk by exact LJ. injection Hk as <-. discriminate.
        -- rewrite set_at_other in Hk by exact NE. eauto.
      * constructor; [|discriminate]. destruct (FF eq_refl) as [F1 F2]. exists j. cbn. rewrite F1. split; [easy|]. intros k q Hk RU. destruct (Nat.eq_dec k j) as [->|NE]; auto.
        rewrite set_at_other in Hk by exact NE. rewrite (F2 k q Hk) in RU. discriminate.
    + assert (j = i) as -> by (apply (U j r E); unfold running; now rewrite A). destruct (w_flag s) eqn:FL.
      * constructor; [|discriminate]. exists i. cbn. split; [exact C|]. intros k q Hk RU. destruct (Nat.eq_dec k i) as [->|NE]; auto. rewrite set_at_other in Hk by exact NE. eauto.
      * destruct (FF eq_refl) as [F1 F2]. specialize (F2 i r E). unfold running in F2. rewrite A in F2. discriminate.
    + assert (j = i) as -> by (apply (U j r E); unfold running; now rewrite A). destruct (r_queue r) as [|m q]; [constructor; eauto|].
      destruct (one (r_last r) (r_time r) m) as [[[last tm] calls] stop]. constructor; cbn.
      * exists i. split; [|intros k q' Hk RU; destruct (Nat.eq_dec k i) as [->|NE]; auto; rewrite set_at_other in Hk by exact NE; eauto].
        intros c Hc. apply in_app_or in Hc. destruct Hc as [Hc|Hc]; auto. apply in_map_iff in Hc. destruct Hc as (x & <- & _). reflexivity.
      * intros F. destruct (FF F) as [F1 F2]. specialize (F2 i r E). unfold running in F2. rewrite A in F2. discriminate.
    + constructor; eauto.
  - destruct (nth_error (w_runs s) j) as [r|] eqn:E; [|constructor; eauto]. pose proof (nth_len _ _ _ E) as LJ.
    destruct (r_at r) eqn:A; try (constructor; eauto; fail). destruct (r_done r); [|constructor; eauto]. constructor; cbn.
    + exists i. split; [exact C|]. intros k q Hk RU. destruct (Nat.eq_dec k j) as [->|NE].
      * rewrite set_at_same in Hk by exact LJ. injection Hk as <-. discriminate.
      * rewrite set_at_other in Hk by exact NE. eauto.
    + intros F. destruct (FF F) as [F1 F2]. specialize (F2 j r E). unfold running in F2. rewrite A in F2. discriminate.
Qed.
Theorem one_watcher es : forallb no_close es = true -> exists i, (forall c, In c (w_calls (wrun es w0)) -> fst c = i) /\
  (forall j r, nth_error (w_runs (wrun es w0)) j = Some r -> running r = true -> j = i).
Proof.
  intros NC. assert (X : lone (wrun es w0)); [|apply X]. induction es as [|e es IH] using rev_ind.
  - constructor; cbn; [exists 0; split; [easy|]; intros [|j] r; discriminate|]. intros _. split; auto. intros [|j] r; discriminate.
  - rewrite wrun_snoc. rewrite forallb_app in NC. apply andb_prop in NC. destruct NC as [N1 N2]. cbn in N2. rewrite andb_true_r in N2. apply step_lone; auto.
Qed.

(** ** once the goroutine in the loop has ended by itself no other one is heard, whatever is called but Close *)
Definition quiet (s : wstate) : Prop := forall j r, nth_error (w_runs s) j = Some r -> running r = false.
Lemma step_quiet s e : no_close e = true -> w_flag s = true -> quiet s -> w_flag (wstep s e) = true /\ quiet (wstep s e) /\ w_calls (wstep s e) = w_calls s.
Proof.
  intros NC FL Q. destruct e as [| |j|m|j|j]; try discriminate NC; cbn [wstep].
  - split; [exact FL|]. split; [|reflexivity]. intros k r Hk. cbn in Hk. destruct (Nat.ltb_spec k (length (w_runs s))) as [Lk|Lk].
    + rewrite nth_error_app1 in Hk by exact Lk. eauto.
    + rewrite nth_error_app2 in Hk by exact Lk. destruct (k - length (w_runs s)) as [|k']; [|destruct k'; discriminate]. injection Hk as <-. reflexivity.
  - destruct (nth_error (w_runs s) j) as [r|] eqn:E; [|auto]. pose proof (nth_len _ _ _ E) as LJ. split; [exact FL|]. split; [|reflexivity].
    intros k q Hk. cbn in Hk. destruct (Nat.eq_dec k j) as [->|NE]; [|rewrite set_at_other in Hk by exact NE; eauto].
    rewrite set_at_same in Hk by exact LJ. injection Hk as <-. apply (Q j r E).
  - split; [exact FL|]. split; [|reflexivity]. intros k q Hk. cbn in Hk. rewrite nth_error_map in Hk. destruct (nth_error (w_runs s) k) as [q0|] eqn:E; [|discriminate].
    injection Hk as <-. pose proof (Q k q0 E) as X. now destruct (r_open q0).
  - destruct (nth_error (w_runs s) j) as [r|] eqn:E; [|auto]. pose proof (nth_len _ _ _ E) as LJ. pose proof (Q j r E) as X. unfold running in X.
    destruct (r_at r) eqn:A; try discriminate; [|auto]. rewrite FL. split; [reflexivity|]. split; [|reflexivity]. intros k q Hk. cbn in Hk.
    destruct (Nat.eq_dec k j) as [->|NE]; [|rewrite set_at_other in Hk by exact NE; eauto]. rewrite set_at_same in Hk by exact LJ. injection Hk as <-. reflexivity.
  - destruct (nth_error (w_runs s) j) as [r|] eqn:E; [|auto]. pose proof (Q j r E) as X. unfold running in X. destruct (r_at r); try discriminate; auto.
Qed.
Theorem never_again es : forall s, forallb no_close es = true -> w_flag s = true -> quiet s -> w_calls (wrun es s) = w_calls s.
Proof.
  induction es as [|e es IH]; intros s NC FL Q; [reflexivity|]. cbn in NC. apply andb_prop in NC. destruct NC as [N1 N2]. cbn [wrun fold_left].
  destruct (step_quiet s e N1 FL Q) as (F1 & Q1 & C1). rewrite <- C1. now apply IH.
Qed.

(** ** after Close, when no goroutine is before its CompareAndSwap and none is started: one more call at most, of a goroutine in its select *)
Definition at_most (s : wstate) (i : nat) : nat := match nth_error (w_runs s) i with Some r => match r_at r with AtSelect => 1 | _ => 0 end | None => 0 end.
Definition started (s : wstate) : Prop := forall j r, nth_error (w_runs s) j = Some r -> r_at r <> AtCas.
Lemma one_calls last tm m : length (snd (fst (one last tm m))) <= 1.
Proof.
  destruct m as [e| |]; cbn [one]; auto. destruct (_ && _); [cbn; lia|]. destruct (negb (f_mine e)); [cbn; lia|]. destruct (f_remove e); [cbn; lia|].
  destruct (negb (f_eval e)); [cbn; lia|]. destruct (negb (f_wc e)); cbn; lia.
Qed.
Lemma step_closed s e i : no_watch e = true -> w_flag s = false -> started s ->
  w_flag (wstep s e) = false /\ started (wstep s e) /\ length (calls_of i (wstep s e)) + at_most (wstep s e) i <= length (calls_of i s) + at_most s i.
Proof.
  intros NW FL ST. destruct e as [| |j|m|j|j]; try discriminate NW; cbn [wstep].
  - split; [reflexivity|]. split; [exact ST|]. rewrite calls_same. unfold at_most. cbn. lia.
  - destruct (nth_error (w_runs s) j) as [r|] eqn:E; [|auto]. pose proof (nth_len _ _ _ E) as LJ. split; [exact FL|]. split.
    + intros k q Hk. cbn in Hk. destruct (Nat.eq_dec k j) as [->|NE]; [|rewrite set_at_other in Hk by exact NE; eauto].
      rewrite set_at_same in Hk by exact LJ. injection Hk as <-. apply (ST j r E).
    + rewrite calls_same. unfold at_most. cbn [w_runs]. destruct (Nat.eq_dec i j) as [->|NE]; [rewrite set_at_same by exact LJ; rewrite E; cbn; lia|].
      rewrite set_at_other by exact NE. lia.
  - split; [exact FL|]. split.
    + intros k q Hk. cbn in Hk. rewrite nth_error_map in Hk. destruct (nth_error (w_runs s) k) as [q0|] eqn:E; [|discriminate].
      injection Hk as <-. pose proof (ST k q0 E) as X. now destruct (r_open q0).
    + rewrite calls_same. unfold at_most. cbn [w_runs]. rewrite nth_error_map. destruct (nth_error (w_runs s) i) as [q0|]; cbn; [|lia]. destruct (r_open q0); cbn; lia.
  - destruct (nth_error (w_runs s) j) as [r|] eqn:E; [|auto]. pose proof (nth_len _ _ _ E) as LJ. pose proof (ST j r E) as X.
    assert (AT : forall f r' cs, at_most (Ws f (set_at (w_runs s) j r') cs) i = if i =? j then match r_at r' with AtSelect => 1 | _ => 0 end else at_most s i).
    { intros f r' cs. unfold at_most. cbn [w_runs]. destruct (Nat.eqb_spec i j) as [->|NE]; [now rewrite set_at_same|now rewrite set_at_other]. }
    destruct (r_at r) eqn:A; [congruence| | |auto].
    + rewrite FL. split; [reflexivity|]. split.
      * intros k q Hk. cbn in Hk. destruct (Nat.eq_dec k j) as [->|NE]; [|rewrite set_at_other in Hk by exact NE; eauto].
        rewrite set_at_same in Hk by exact LJ. injection Hk as <-. discriminate.
      * rewrite calls_same, AT. cbn. destruct (i =? j); lia.
    + destruct (r_queue r) as [|m q]; [auto|]. pose proof (one_calls (r_last r) (r_time r) m) as OC.
      destruct (one (r_last r) (r_time r) m) as [[[last tm] calls] stop]. cbn in OC. split; [exact FL|]. split.
      * intros k q' Hk. cbn in Hk. destruct (Nat.eq_dec k j) as [->|NE]; [|rewrite set_at_other in Hk by exact NE; eauto].
        rewrite set_at_same in Hk by exact LJ. injection Hk as <-. destruct stop; discriminate.
      * rewrite AT. cbn [r_at]. rewrite calls_of_app, app_length. destruct (Nat.eqb_spec i j) as [->|NE].
        -- rewrite mine_same. unfold at_most. rewrite E, A. destruct stop; lia.
        -- rewrite mine_other by exact NE. cbn. lia.
  - destruct (nth_error (w_runs s) j) as [r|] eqn:E; [|auto]. pose proof (nth_len _ _ _ E) as LJ. destruct (r_at r) eqn:A; try (split; [|split]; auto; fail).
    destruct (r_done r); [|auto]. split; [exact FL|]. split.
    + intros k q Hk. cbn in Hk. destruct (Nat.eq_dec k j) as [->|NE]; [|rewrite set_at_other in Hk by exact NE; eauto].
      rewrite set_at_same in Hk by exact LJ. injection Hk as <-. discriminate.
    + rewrite calls_same. unfold at_most. cbn [w_runs]. destruct (Nat.eq_dec i j) as [->|NE]; [rewrite set_at_same by exact LJ; cbn; lia|].
      rewrite set_at_other by exact NE. lia.
Qed.
Theorem closed_calls es i : forall s, forallb no_watch es = true -> w_flag s = false -> started s ->
  length (calls_of i (wrun es s)) <= length (calls_of i s) + at_most s i.
Proof.
  assert (X : forall s, forallb no_watch es = true -> w_flag s = false -> started s ->
    length (calls_of i (wrun es s)) + at_most (wrun es s) i <= length (calls_of i s) + at_most s i).
  { induction es as [|e es IH]; intros s NC FL Q; [cbn; lia|]. cbn in NC. apply andb_prop in NC. destruct NC as [N1 N2]. cbn [wrun fold_left].
    destruct (step_closed s e i N1 FL Q) as (F1 & Q1 & C1). specialize (IH _ N2 F1 Q1). unfold wrun in IH. lia. }
  intros s A B C. specialize (X s A B C). lia.
Qed.
