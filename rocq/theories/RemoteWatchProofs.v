(** Watch and Close of the etcd and consul providers: proofs. *)
From Coq Require Import List Bool Arith Lia.
From Verif Require Import RemoteWatch.
Import ListNotations.

Section Remote.
Context {A : Type}.
Implicit Types (s : est A) (e : eev A) (es : list (eev A)).

Lemma put_at_len {B} (l : list B) i x : length (put_at l i x) = length l.
Proof. revert i. induction l as [|a l IH]; intros [|i]; cbn; auto. Qed.
Lemma put_at_same {B} (l : list B) i x : i < length l -> nth_error (put_at l i x) i = Some x.
Proof. revert i. induction l as [|a l IH]; intros [|i] H; cbn in *; try lia; auto. apply IH; lia. Qed.
Lemma put_at_other {B} (l : list B) i j x : j <> i -> nth_error (put_at l i x) j = nth_error l j.
Proof. revert i j. induction l as [|a l IH]; intros [|i] [|j] H; cbn; auto; try lia. Qed.
Lemma in_len {B} (l : list B) i x : nth_error l i = Some x -> i < length l.
Proof. intros E. apply nth_error_Some. congruence. Qed.

(** ** etcd *)
(** the responses in the channel of goroutine [i] *)
Definition chan_of (i : nat) s : list (list A) := match nth_error (e_gors _ s) i with Some g => e_chan _ g | None => [] end.
Definition listens (i : nat) s : bool := match nth_error (e_gors _ s) i with Some g => match e_at _ g with InSelect => e_client _ s | _ => false end | None => false end.
(** the responses that come while goroutine [i] listens *)
Fixpoint heard (i : nat) s es : list (list A) :=
  match es with
  | [] => []
  | e :: es => match e with EChange _ l => if listens i s then [l] else [] | _ => [] end ++ heard i (estep _ s e) es
  end.
Lemma mine_same i (l : list A) : map snd (filter (fun c => fst c =? i) (map (pair i) l)) = l.
Proof. induction l as [|x l IH]; cbn; auto. rewrite Nat.eqb_refl. cbn. now rewrite IH. Qed.
Lemma mine_other i j (l : list A) : j <> i -> map snd (filter (fun c => fst c =? j) (map (pair i) l)) = [].
Proof. intros N. induction l as [|x l IH]; cbn; auto. apply not_eq_sym, Nat.eqb_neq in N. now rewrite N. Qed.
Lemma e_of_app i s c gs cs : e_of _ i (ESt _ c gs (e_calls _ s ++ cs)) = e_of _ i s ++ map snd (filter (fun c => fst c =? i) cs).
Proof. unfold e_of. cbn. now rewrite filter_app, map_app. Qed.
Lemma e_of_same i s c gs : e_of _ i (ESt _ c gs (e_calls _ s)) = e_of _ i s. Proof. reflexivity. Qed.
Lemma chan_put i j s g0 g c cs : nth_error (e_gors _ s) i = Some g0 -> chan_of j (ESt _ c (put_at (e_gors _ s) i g) cs) = if j =? i then e_chan _ g else chan_of j s.
Proof.
  intros E. unfold chan_of. cbn. destruct (Nat.eqb_spec j i) as [->|N]; [rewrite put_at_same; auto; now apply in_len in E|now rewrite put_at_other].
Qed.
Definition pending i s : list A := e_of _ i s ++ concat (chan_of i s).
Lemma step_pending i s e : pending i (estep _ s e) = pending i s ++ concat (match e with EChange _ l => if listens i s then [l] else [] | _ => [] end).
Proof.
  unfold pending. destruct e as [| |j|j|l|j|j]; cbn [estep concat]; try rewrite (app_nil_r (e_of _ i s ++ concat (chan_of i s))).
  - rewrite e_of_same. f_equal. f_equal. unfold chan_of. cbn. destruct (Nat.ltb_spec i (length (e_gors _ s))) as [L|L].
    + now rewrite nth_error_app1.
    + rewrite nth_error_app2 by exact L. rewrite (proj2 (nth_error_None _ _) L). destruct (i - length (e_gors _ s)) as [|[|k]]; reflexivity.
  - reflexivity.
  - destruct (nth_error (e_gors _ s) j) as [g|] eqn:E; [|reflexivity]. rewrite e_of_app, (chan_put _ _ _ _ _ _ _ E). cbn [filter map e_chan]. rewrite app_nil_r.
    destruct (Nat.eqb_spec i j) as [->|]; [|reflexivity]. unfold chan_of. now rewrite E.
  - destruct (nth_error (e_gors _ s) j) as [[a q d n]|] eqn:E; [|reflexivity]. destruct a; try reflexivity. rewrite e_of_app, (chan_put _ _ _ _ _ _ _ E). cbn [filter map e_chan].
    rewrite app_nil_r. destruct (Nat.eqb_spec i j) as [->|]; [|reflexivity]. unfold chan_of. now rewrite E.
  - destruct (e_client _ s) eqn:C.
    + rewrite e_of_same. rewrite <- app_assoc. f_equal. unfold chan_of, listens. cbn. rewrite nth_error_map. destruct (nth_error (e_gors _ s) i) as [[a q d n]|]; [|reflexivity].
      cbn. destruct a; cbn; rewrite ?app_nil_r; auto. rewrite C. rewrite concat_app. cbn. reflexivity.
    + unfold listens. rewrite C. destruct (nth_error (e_gors _ s) i) as [[[] q d n]|]; cbn; now rewrite app_nil_r.
  - destruct (nth_error (e_gors _ s) j) as [[a q d n]|] eqn:E; [|reflexivity]. destruct a; try reflexivity. destruct q as [|l q].
    + destruct (e_client _ s); [reflexivity|]. rewrite e_of_app, (chan_put _ _ _ _ _ _ _ E). cbn [filter map e_chan]. rewrite app_nil_r.
      destruct (Nat.eqb_spec i j) as [->|]; [|reflexivity]. unfold chan_of. now rewrite E.
    + rewrite e_of_app, (chan_put _ _ _ _ _ _ _ E). cbn [e_chan]. destruct (Nat.eqb_spec i j) as [->|N].
      * rewrite mine_same. unfold chan_of. rewrite E. cbn. now rewrite <- app_assoc.
      * rewrite mine_other by exact N. now rewrite app_nil_r.
  - destruct (nth_error (e_gors _ s) j) as [[a q d n]|] eqn:E; [|reflexivity]. destruct a, d; try reflexivity. rewrite e_of_app, (chan_put _ _ _ _ _ _ _ E). cbn [filter map e_chan].
    rewrite app_nil_r. destruct (Nat.eqb_spec i j) as [->|]; [|reflexivity]. unfold chan_of. now rewrite E.
Qed.
Theorem etcd_calls i es : forall s, pending i (erun _ es s) = pending i s ++ concat (heard i s es).
Proof.
  induction es as [|e es IH]; intros s; cbn [heard]; [now rewrite app_nil_r|]. cbn [erun fold_left]. unfold erun in IH. rewrite IH, step_pending, concat_app, <- app_assoc. reflexivity.
Qed.
Lemma closed_step s e : e_client _ s = false -> e_client _ (estep _ s e) = false.
Proof.
  intros C. destruct e as [| |j|j|l|j|j]; cbn; auto.
  - now destruct (nth_error (e_gors _ s) j).
  - destruct (nth_error (e_gors _ s) j) as [[[] ? ? ?]|]; auto.
  - now rewrite C.
  - destruct (nth_error (e_gors _ s) j) as [[[] [|l q] ? ?]|]; auto. now rewrite C.
  - destruct (nth_error (e_gors _ s) j) as [[[] ? [] ?]|]; auto.
Qed.
Lemma heard_closed i es : forall s, e_client _ s = false -> heard i s es = [].
Proof.
  induction es as [|e es IH]; intros s C; cbn [heard]; [reflexivity|]. rewrite IH by now apply closed_step.
  assert (L : listens i s = false) by (unfold listens; rewrite C; destruct (nth_error (e_gors _ s) i) as [[[] ? ? ?]|]; reflexivity). rewrite L. now destruct e.
Qed.
Theorem etcd_closed i es s : e_client _ s = false -> exists rest, e_of _ i (erun _ es s) ++ rest = e_of _ i s ++ concat (chan_of i s).
Proof. intros C. exists (concat (chan_of i (erun _ es s))). pose proof (etcd_calls i es s) as E. rewrite heard_closed, app_nil_r in E by exact C. exact E. Qed.
(** takes of goroutine [i] empty its channel *)
Theorem etcd_drain i : forall q s d n, nth_error (e_gors _ s) i = Some (EGor _ InSelect q d n) ->
  e_of _ i (erun _ (repeat (ETake _ i) (length q)) s) = e_of _ i s ++ concat q /\
  nth_error (e_gors _ (erun _ (repeat (ETake _ i) (length q)) s)) i = Some (EGor _ InSelect [] d n).
Proof.
  induction q as [|l q IH]; intros s d n E; cbn [length repeat erun fold_left concat]; [rewrite app_nil_r; auto|].
  cbn [estep]. rewrite E.
  match goal with |- context [fold_left _ _ ?S] => destruct (IH S d n) as [I1 I2] end; [cbn; apply put_at_same; now apply in_len in E|].
  unfold erun in *. split; [|exact I2]. rewrite I1, e_of_app, mine_same, <- app_assoc. reflexivity.
Qed.
(** with the client closed a goroutine whose context goes on takes nothing, for good *)
Definition cancels (i : nat) e : bool := match e with ECancel _ j => j =? i | _ => false end.
Theorem etcd_spins i es : forall s n, e_client _ s = false -> nth_error (e_gors _ s) i = Some (EGor _ InSelect [] false n) -> forallb (fun e => negb (cancels i e)) es = true ->
  nth_error (e_gors _ (erun _ es s)) i = Some (EGor _ InSelect [] false (n + length (filter (fun e => match e with ETake _ j => j =? i | _ => false end) es))).
Proof.
  induction es as [|e es IH]; intros s n C E F; cbn [erun fold_left filter length]; [now rewrite Nat.add_0_r|]. cbn in F. apply andb_prop in F. destruct F as [F1 F2].
  pose proof (closed_step s e C) as C1. unfold erun in IH.
  assert (K : forall m, nth_error (e_gors _ (estep _ s e)) i = Some (EGor _ InSelect [] false m) ->
    nth_error (e_gors _ (fold_left (estep _) es (estep _ s e))) i = Some (EGor _ InSelect [] false (m + length (filter (fun e => match e with ETake _ j => j =? i | _ => false end) es)))).
  { intros m Em. now apply IH. }
  destruct e as [| |j|j|l|j|j].
  - apply K. cbn. rewrite nth_error_app1; [exact E|]. now apply in_len in E.
  - now apply K.
  - apply K. cbn in *. apply negb_true_iff, Nat.eqb_neq in F1. destruct (nth_error (e_gors _ s) j); [|exact E]. cbn. rewrite put_at_other; auto.
  - apply K. cbn. destruct (nth_error (e_gors _ s) j) as [[a q d m]|] eqn:Ej; [|exact E]. destruct a; try exact E. cbn. destruct (Nat.eq_dec i j) as [->|N]; [congruence|].
    rewrite put_at_other; auto.
  - apply K. cbn. now rewrite C.
  - destruct (Nat.eqb_spec j i) as [->|N].
    + cbn [length]. rewrite Nat.add_succ_r. change (S (n + ?x)) with (S n + x). apply K. cbn. rewrite E, C. cbn. apply put_at_same. now apply in_len in E.
    + apply K. cbn. destruct (nth_error (e_gors _ s) j) as [[a q d m]|] eqn:Ej; [|exact E]. destruct a; try exact E. destruct q as [|l q]; [rewrite C|]; cbn; rewrite put_at_other; auto.
  - apply K. cbn. destruct (nth_error (e_gors _ s) j) as [[a q d m]|] eqn:Ej; [|exact E]. destruct a, d; try exact E. cbn. destruct (Nat.eq_dec i j) as [->|N]; [congruence|].
    rewrite put_at_other; auto.
Qed.

(** ** consul *)
Implicit Types (c : cst A) (x : cev A) (xs : list (cev A)).
(** no goroutine is still before its start when Watch is called *)
Definition waits (g : cat_) : bool := match g with Wait => true | _ => false end.
Fixpoint prompt c xs : bool :=
  match xs with
  | [] => true
  | x :: xs => match x with CWatch _ => negb (existsb waits (c_gors _ c)) | _ => true end && prompt (cstep _ c x) xs
  end.
Record kept c : Prop := {
  k_len : length (c_gors _ c) = length (c_plans _ c);
  k_plan : match c_plan _ c with Some j => S j = length (c_plans _ c) | None => c_plans _ c = [] end;
  k_wait : forall i, nth_error (c_gors _ c) i = Some Wait -> S i = length (c_gors _ c);
  k_runs : forall i j, nth_error (c_gors _ c) i = Some (Runs j) -> j = i }.
Lemma step_kept c x : match x with CWatch _ => existsb waits (c_gors _ c) = false | _ => True end -> kept c -> kept (cstep _ c x).
Proof.
  intros P [L PL W R]. destruct x as [| |i|i a|i]; cbn [cstep].
  - constructor; cbn.
    + rewrite !app_length. cbn. lia.
    + rewrite app_length. cbn. lia.
    + intros i E. destruct (Nat.ltb_spec i (length (c_gors _ c))) as [Li|Li].
      * exfalso. rewrite nth_error_app1 in E by exact Li. apply nth_error_In in E. assert (X : existsb waits (c_gors _ c) = true) by (apply existsb_exists; exists Wait; auto). congruence.
      * rewrite nth_error_app2 in E by exact Li. rewrite app_length. cbn. destruct (i - length (c_gors _ c)) as [|[|k]] eqn:K; try discriminate. lia.
    + intros i j E. destruct (Nat.ltb_spec i (length (c_gors _ c))) as [Li|Li].
      * rewrite nth_error_app1 in E by exact Li. eauto.
      * rewrite nth_error_app2 in E by exact Li. destruct (i - length (c_gors _ c)) as [|[|k]]; discriminate.
  - destruct (c_plan _ c) as [j|] eqn:CP; [|constructor; auto; now rewrite CP]. constructor; cbn; rewrite ?put_at_len; auto.
  - destruct (nth_error (c_gors _ c) i) as [[|j|]|] eqn:E; try (constructor; auto; fail). destruct (c_plan _ c) as [j|] eqn:CP; [|constructor; auto; now rewrite CP].
    assert (LI : i < length (c_gors _ c)) by now apply in_len in E.
    constructor; cbn; rewrite ?put_at_len; auto.
    + intros k Ek. destruct (Nat.eq_dec k i) as [->|N]; [rewrite put_at_same in Ek by exact LI; discriminate|]. rewrite put_at_other in Ek by exact N. auto.
    + intros k m Ek. destruct (Nat.eq_dec k i) as [->|N]; [|rewrite put_at_other in Ek by exact N; eauto]. rewrite put_at_same in Ek by exact LI. injection Ek as <-.
      pose proof (W i E). lia.
  - destruct (nth_error (c_gors _ c) i) as [[|j|]|] eqn:E; try (constructor; auto; fail). destruct (nth j (c_plans _ c) true); constructor; auto.
  - destruct (nth_error (c_gors _ c) i) as [[|j|]|] eqn:E; try (constructor; auto; fail). destruct (nth j (c_plans _ c) true); [|constructor; auto].
    assert (LI : i < length (c_gors _ c)) by now apply in_len in E.
    constructor; cbn; rewrite ?put_at_len; auto.
    + intros k Ek. destruct (Nat.eq_dec k i) as [->|N]; [rewrite put_at_same in Ek by exact LI; discriminate|]. rewrite put_at_other in Ek by exact N. auto.
    + intros k m Ek. destruct (Nat.eq_dec k i) as [->|N]; [rewrite put_at_same in Ek by exact LI; discriminate|]. rewrite put_at_other in Ek by exact N. eauto.
Qed.
Lemma run_kept xs : forall c, prompt c xs = true -> kept c -> kept (crun_ _ xs c).
Proof.
  induction xs as [|x xs IH]; intros c P K; [exact K|]. cbn in P. apply andb_prop in P. destruct P as [P1 P2]. cbn [crun_ fold_left]. apply IH; [exact P2|]. apply step_kept; [|exact K].
  destruct x; auto. now apply negb_true_iff in P1.
Qed.
Lemma kept0 : kept (c0 A).
Proof. constructor; cbn; auto; intros [|i]; discriminate. Qed.
(** every goroutine runs the plan its Watch made, and its results go to the callback of this Watch until the plan is stopped *)
Theorem consul_own xs i a : prompt (c0 A) xs = true -> let c := crun_ _ xs (c0 A) in
  (forall j, nth_error (c_gors _ c) i = Some (Runs j) -> j = i) /\
  (nth_error (c_gors _ c) i = Some (Runs i) -> nth i (c_plans _ c) true = false -> c_log _ (cstep _ c (CChange _ i a)) = c_log _ c ++ [(i, a)]).
Proof.
  intros P c. pose proof (run_kept xs _ P kept0) as [_ _ _ R]. split; [apply R|]. intros E N. cbn [cstep]. now rewrite E, N.
Qed.
(** Close: the plan made last is stopped for good *)
Definition no_cwatch x : bool := match x with CWatch _ => false | _ => true end.
Definition stopped c j : Prop := nth j (c_plans _ c) true = true.
Lemma put_true (l : list bool) i j : nth j l true = true -> nth j (put_at l i true) true = true.
Proof. revert i j. induction l as [|a l IH]; intros [|i] [|j]; cbn; auto. Qed.
Lemma put_true_same (l : list bool) i : nth i (put_at l i true) true = true.
Proof. revert i. induction l as [|a l IH]; intros [|i]; cbn; auto. Qed.
Lemma stopped_step c x j : j < length (c_plans _ c) -> stopped c j -> j < length (c_plans _ (cstep _ c x)) /\ stopped (cstep _ c x) j /\ c_of _ j (cstep _ c x) = c_of _ j c.
Proof.
  unfold stopped. intros L S. destruct x as [| |i|i a|i]; cbn [cstep].
  - cbn. rewrite app_length, app_nth1 by exact L. cbn. repeat split; auto. lia.
  - destruct (c_plan _ c) as [k|]; auto. cbn. rewrite put_at_len. repeat split; auto. now apply put_true.
  - destruct (nth_error (c_gors _ c) i) as [[|k|]|]; auto. destruct (c_plan _ c); auto.
  - destruct (nth_error (c_gors _ c) i) as [[|k|]|]; auto. destruct (nth k (c_plans _ c) true) eqn:E; auto. cbn. repeat split; auto. unfold c_of. cbn.
    rewrite filter_app, map_app. cbn. destruct (Nat.eqb_spec k j) as [->|N]; [congruence|]. cbn. apply app_nil_r.
  - destruct (nth_error (c_gors _ c) i) as [[|k|]|]; auto. destruct (nth k (c_plans _ c) true); auto.
Qed.
Theorem consul_closed xs c j : c_plan _ c = Some j -> j < length (c_plans _ c) -> c_of _ j (crun_ _ xs (cstep _ c (CClose _))) = c_of _ j c.
Proof.
  intros P L. cbn [cstep]. rewrite P. set (d := CSt _ (put_at (c_plans _ c) j true) (Some j) (c_gors _ c) (c_log _ c)).
  assert (G : forall xs d, j < length (c_plans _ d) -> stopped d j -> c_of _ j (crun_ _ xs d) = c_of _ j d).
  { clear. induction xs as [|x xs IH]; intros d L S; [reflexivity|]. cbn [crun_ fold_left]. destruct (stopped_step d x j L S) as (L1 & S1 & E). rewrite <- E. now apply IH. }
  change (c_of _ j c) with (c_of _ j d). apply G; unfold d, stopped; cbn; [now rewrite put_at_len|apply put_true_same].
Qed.
(** a plan that s.plan does not hold is run only by the goroutines that run it *)
Theorem consul_lost xs j : forall c, (forall i, nth_error (c_gors _ c) i <> Some (Runs j)) -> c_plan _ c <> Some j -> j < length (c_plans _ c) ->
  c_of _ j (crun_ _ xs c) = c_of _ j c.
Proof.
  induction xs as [|x xs IH]; intros c R P L; [reflexivity|]. cbn [crun_ fold_left]. unfold crun_ in IH.
  assert (S : (forall i, nth_error (c_gors _ (cstep _ c x)) i <> Some (Runs j)) /\ c_plan _ (cstep _ c x) <> Some j /\ j < length (c_plans _ (cstep _ c x)) /\ c_of _ j (cstep _ c x) = c_of _ j c);
    [|destruct S as (S1 & S2 & S3 & S4); rewrite <- S4; now apply IH].
  destruct x as [| |i|i a|i]; cbn [cstep].
  - cbn. rewrite app_length. cbn. split; [|split; [injection; lia|split; [lia|reflexivity]]]. intros k Ek. destruct (Nat.ltb_spec k (length (c_gors _ c))) as [Lk|Lk].
    + rewrite nth_error_app1 in Ek by exact Lk. now apply R in Ek.
    + rewrite nth_error_app2 in Ek by exact Lk. destruct (k - length (c_gors _ c)) as [|[|m]]; discriminate.
  - destruct (c_plan _ c) as [m|] eqn:CP; [|repeat split; auto; now rewrite CP]. cbn. rewrite put_at_len. auto.
  - destruct (nth_error (c_gors _ c) i) as [[|m|]|] eqn:E; auto. destruct (c_plan _ c) as [m|] eqn:CP; [|repeat split; auto; now rewrite CP]. cbn. repeat split; auto.
    intros k Ek. destruct (Nat.eq_dec k i) as [->|N]; [|rewrite put_at_other in Ek by exact N; now apply R in Ek]. rewrite put_at_same in Ek by now apply in_len in E. congruence.
  - destruct (nth_error (c_gors _ c) i) as [[|m|]|] eqn:E; auto. destruct (nth m (c_plans _ c) true); auto. cbn. repeat split; auto. unfold c_of. cbn. rewrite filter_app, map_app. cbn.
    destruct (Nat.eqb_spec m j) as [->|N]; [now apply R in E|]. cbn. apply app_nil_r.
  - destruct (nth_error (c_gors _ c) i) as [[|m|]|] eqn:E; auto. destruct (nth m (c_plans _ c) true); auto. cbn. repeat split; auto.
    intros k Ek. destruct (Nat.eq_dec k i) as [->|N]; [|rewrite put_at_other in Ek by exact N; now apply R in Ek]. rewrite put_at_same in Ek by now apply in_len in E. discriminate.
Qed.
End Remote.
