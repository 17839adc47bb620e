(** Programs beside each other come to an end when everyone gets a turn again and again. *)
From Coq Require Import List NArith Bool Arith Lia.
From Verif Require Import GoStr Node Heap HeapProofs HeapOwn.
Import ListNotations.
Open Scope nat_scope.

Definition stopped {A} (p : prog A) : Prop := match p with Ret _ | Die | Spin => True | _ => False end.
(** [f k] has the [k]-th turn; everyone of [0 .. n-1] gets a turn again and again *)
Definition fair (n : nat) (f : nat -> nat) : Prop := forall i m, i < n -> exists k, m <= k /\ f k = i.

Section Fair.
Context {A : Type}.
Variable f : nat -> nat.
Variable ps : list (prog A).
Variable h : heap.
Definition after (n : nat) : list (prog A) * heap := schedule (map f (seq 0 n)) ps h.
Lemma after_next n : after (S n) = turn (fst (after n)) (snd (after n)) (f n).
Proof. unfold after, schedule. rewrite seq_S, map_app, fold_left_app. reflexivity. Qed.
Lemma turn_other (qs : list (prog A)) m i j : i <> j -> nth_error (fst (turn qs m j)) i = nth_error qs i.
Proof.
  intros N. unfold turn. destruct (nth_error qs j) as [p|]; [|reflexivity]. destruct (access p m) as [[p' m']|]; [|reflexivity].
  cbn [fst]. rewrite put_nth. destruct (Nat.eqb_spec i j); [tauto|reflexivity].
Qed.
Lemma turn_own (qs : list (prog A)) m i p p' m' : nth_error qs i = Some p -> access p m = Some (p', m') ->
  nth_error (fst (turn qs m i)) i = Some p'.
Proof.
  intros E X. unfold turn. rewrite E, X. cbn [fst]. rewrite put_nth, Nat.eqb_refl.
  assert (i < length qs) by (apply nth_error_Some; congruence). now rewrite (proj2 (Nat.ltb_lt _ _) H).
Qed.
Lemma stopped_stays i p n : nth_error (fst (after n)) i = Some p -> stopped p -> forall d, nth_error (fst (after (d + n))) i = Some p.
Proof.
  intros E S. induction d as [|d IH]; [exact E|]. cbn [plus]. rewrite after_next. destruct (Nat.eq_dec i (f (d + n))) as [<-|N].
  - unfold turn. rewrite IH. destruct p; cbn in S; try tauto; exact IH.
  - rewrite turn_other; auto.
Qed.
(** the next turn *)
Lemma next_go i n p k : n <= k -> f k = i -> nth_error (fst (after n)) i = Some p ->
  exists m, n <= m /\ f m = i /\ nth_error (fst (after m)) i = Some p.
Proof.
  intros L E. remember (k - n) as d eqn:D. revert n L D. induction d as [|d IH]; intros n L D Ep.
  - exists n. split; [lia|]. split; [replace n with k by lia; exact E|exact Ep].
  - destruct (Nat.eq_dec (f n) i) as [F|F]; [exists n; auto|]. destruct (IH (S n)) as (m & M1 & M2 & M3); try lia.
    + rewrite after_next, turn_other; auto.
    + exists m. split; [lia|auto].
Qed.
Lemma comes_to_end N i : fair N f -> i < N -> forall p n, nth_error (fst (after n)) i = Some p ->
  exists m q, n <= m /\ nth_error (fst (after m)) i = Some q /\ stopped q.
Proof.
  intros F L.
  assert (GO : forall p n, nth_error (fst (after n)) i = Some p ->
    (forall m p' h', access p (snd (after m)) = Some (p', h') -> nth_error (fst (after (S m))) i = Some p' ->
       exists m' q, S m <= m' /\ nth_error (fst (after m')) i = Some q /\ stopped q) ->
    (forall h, exists x, access p h = Some x) ->
    exists m q, n <= m /\ nth_error (fst (after m)) i = Some q /\ stopped q).
  { intros p n E H X. destruct (F i n L) as (k & K1 & K2). destruct (next_go i n p k K1 K2 E) as (m & M1 & M2 & M3).
    destruct (X (snd (after m))) as [[p' h'] Y]. destruct (H m p' h' Y) as (m' & q & A1 & A2 & A3).
    - rewrite after_next, M2. now apply turn_own with (1 := M3) (m' := h').
    - exists m', q. split; [lia|auto]. }
  assert (DIE : forall n, nth_error (fst (after n)) i = Some Die -> exists m q, n <= m /\ nth_error (fst (after m)) i = Some q /\ stopped q).
  { intros n E. exists n, Die. cbn. auto. }
  intros p. induction p as [x| | |a k IH|a g k IH|s k IH|r j k IH|r j x k IH|r k IH|l k IH]; intros n E.
  - exists n, (Ret x). cbn. auto.
  - now apply DIE.
  - exists n, Spin. cbn. auto.
  - apply (GO _ n E); [|cbn; eauto]. cbn [access]. intros m p' h' X Y. injection X as <- <-. destruct (hn _ a); eauto.
  - apply (GO _ n E); [|intros m; cbn; destruct (hn m a); eauto]. cbn [access]. intros m p' h' X Y. destruct (hn _ a); injection X as <- <-; eauto.
  - apply (GO _ n E); [|cbn; eauto]. cbn [access]. intros m p' h' X Y. injection X as <- <-. eauto.
  - apply (GO _ n E); [|cbn; eauto]. cbn [access]. intros m p' h' X Y. injection X as <- <-. destruct (nth_error _ j); eauto.
  - apply (GO _ n E); [|intros m; cbn [access]; destruct (_ <? _); eauto]. cbn [access]. intros m p' h' X Y. destruct (_ <? _); injection X as <- <-; eauto.
  - apply (GO _ n E); [|cbn; eauto]. cbn [access]. intros m p' h' X Y. injection X as <- <-. eauto.
  - apply (GO _ n E); [|cbn; eauto]. cbn [access]. intros m p' h' X Y. injection X as <- <-. eauto.
Qed.
Lemma turn_length (qs : list (prog A)) m i : length (fst (turn qs m i)) = length qs.
Proof. unfold turn. destruct (nth_error qs i) as [p|]; [|reflexivity]. destruct (access p m) as [[p' m']|]; [|reflexivity]. apply put_length. Qed.
Lemma after_length n : length (fst (after n)) = length ps.
Proof. induction n as [|n IH]; [reflexivity|]. rewrite after_next, turn_length. exact IH. Qed.
Theorem all_end : fair (length ps) f -> exists n, Forall stopped (fst (after n)).
Proof.
  intros F. assert (X : forall N, N <= length ps -> exists n, forall i p, i < N -> nth_error (fst (after n)) i = Some p -> stopped p).
  { induction N as [|N IH]; intros L; [exists 0; intros; lia|]. destruct IH as [n Hn]; [lia|].
    destruct (nth_error (fst (after n)) N) as [p|] eqn:E; [|apply nth_error_None in E; rewrite after_length in E; lia].
    destruct (comes_to_end (length ps) N F L p n E) as (m & q & M1 & M2 & M3). exists m. intros i r Li Er.
    destruct (Nat.eq_dec i N) as [->|Ni]; [congruence|].
    destruct (nth_error (fst (after n)) i) as [s|] eqn:Es; [|apply nth_error_None in Es; rewrite after_length in Es; lia].
    assert (Ss : stopped s) by (apply (Hn i s); [lia|exact Es]). pose proof (stopped_stays i s n Es Ss (m - n)) as ST.
    replace (m - n + n) with m in ST by lia. congruence. }
  destruct (X (length ps) (le_n _)) as [n Hn]. exists n. apply Forall_forall. intros p Hp. apply In_nth_error in Hp. destruct Hp as [i Ei].
  apply (Hn i p); [|exact Ei]. rewrite <- (after_length n). apply nth_error_Some. congruence.
Qed.
End Fair.
