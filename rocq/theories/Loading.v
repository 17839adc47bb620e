(** The loading state under concurrency: WithinLoading, load.go:21-29, and the frame of Load,
    load.go:91-93.  Any number of goroutines, any interleaving of their atomic steps.

    A [*storeS] is a number; [fl h] is its field [loading].  The body of WithinLoading or Load is
    any program: it may call WithinLoading and Load again, make views (dupS copies the field,
    store.go:143), panic, and recover.  Everything else a program does is an [Act], which looks at
    inLoading(), load.go:19, once. *)
From Coq Require Import List Bool Arith Lia.
Import ListNotations.

Inductive cmd :=
| Within (h : nat) (body : list cmd)   (* WithinLoading(fn) or Load(...) on store h *)
| Act (h : nat) (n : nat)              (* any step on store h, labelled n *)
| Dup (h : nat)                        (* a view of h *)
| Throw                                (* panic *)
| Try (body : list cmd).               (* a function that recovers *)

(** what a goroutine has still to do: commands, the deferred CompareAndSwap, the end of a [Try] *)
Inductive item := Do (c : cmd) | Rel (h : nat) | Catch.
Record thread := Thr { th_panic : bool; th_todo : list item }.
(** [Saw i h n b]: goroutine i made step n on store h and saw inLoading() = b *)
Inductive event := Saw (i h n : nat) (b : bool).
Record state := St { fl : nat -> bool; next : nat; ths : list thread }.

Definition fset (f : nat -> bool) (h : nat) (b : bool) : nat -> bool := fun x => if Nat.eqb x h then b else f x.

(** one atomic step of goroutine [i]: the new fields, the goroutine, what it saw *)
Definition step1 (i : nat) (f : nat -> bool) (nx : nat) (t : thread)
  : option ((nat -> bool) * nat * thread * list event) :=
  match th_todo t with
  | [] => None
  | Rel h :: r => Some (fset f h false, nx, Thr (th_panic t) r, [])   (* CompareAndSwap(1, 0) *)
  | Catch :: r => Some (f, nx, Thr false r, [])
  | Do c :: r =>
      if th_panic t then Some (f, nx, Thr true r, [])
      else match c with
           | Within h b => if f h then Some (f, nx, Thr false r, [])   (* CompareAndSwap(0, 1) fails *)
                           else Some (fset f h true, nx, Thr false (map Do b ++ Rel h :: r), [])
           | Act h n => Some (f, nx, Thr false r, [Saw i h n (f h)])
           | Dup h => Some (fset f nx (f h), S nx, Thr false r, [])
           | Throw => Some (f, nx, Thr true r, [])
           | Try b => Some (f, nx, Thr false (map Do b ++ Catch :: r), [])
           end
  end.
Fixpoint put (i : nat) (t : thread) (l : list thread) : list thread :=
  match l, i with
  | [], _ => []
  | _ :: r, 0 => t :: r
  | x :: r, S i => x :: put i t r
  end.
Definition step (i : nat) (s : state) : option (state * list event) :=
  match nth_error (ths s) i with
  | None => None
  | Some t => match step1 i (fl s) (next s) t with
              | Some (f, nx, t', e) => Some (St f nx (put i t' (ths s)), e)
              | None => None
              end
  end.
(** a schedule: which goroutine goes next; one that cannot go is skipped *)
Fixpoint sched (l : list nat) (s : state) : state * list event :=
  match l with
  | [] => (s, [])
  | i :: r => match step i s with
              | Some (s1, e1) => let '(s2, e2) := sched r s1 in (s2, e1 ++ e2)
              | None => sched r s
              end
  end.
(** [n] stores, none of them loading, and goroutines with the given programs *)
Definition start (n : nat) (ps : list (list cmd)) : state :=
  St (fun _ => false) n (map (fun p => Thr false (map Do p)) ps).

(** bodies that are running on store [h]: those whose deferred release is still to come *)
Definition is_rel (h : nat) (x : item) : bool := match x with Rel h' => Nat.eqb h' h | _ => false end.
Definition running_in (h : nat) (t : thread) : nat := length (filter (is_rel h) (th_todo t)).
Fixpoint running (h : nat) (l : list thread) : nat :=
  match l with [] => 0 | t :: r => running_in h t + running h r end.

Lemma running_put h i t' l t : nth_error l i = Some t ->
  running h (put i t' l) + running_in h t = running h l + running_in h t'.
Proof.
  revert i. induction l as [|x l IH]; intros [|i] E; cbn in *; try discriminate.
  - injection E as ->. lia.
  - specialize (IH i E). lia.
Qed.
Lemma running_do h b : length (filter (is_rel h) (map Do b)) = 0.
Proof. induction b; cbn; auto. Qed.
Lemma fset_same f h b : fset f h b h = b.
Proof. unfold fset. now rewrite Nat.eqb_refl. Qed.
Lemma fset_other f h b x : x <> h -> fset f h b x = f x.
Proof. intros H. unfold fset. destruct (Nat.eqb_spec x h); congruence. Qed.

(** the invariant: a store is loading exactly while one body runs on it *)
Definition inv (n : nat) (s : state) : Prop :=
  n <= next s /\ forall h, h < n -> running h (ths s) = if fl s h then 1 else 0.

Lemma running_start n ps h : running h (ths (start n ps)) = 0.
Proof.
  cbn. induction ps as [|p ps IH]; cbn; auto. rewrite IH. unfold running_in. cbn. now rewrite running_do.
Qed.
Lemma inv_start n ps : inv n (start n ps).
Proof. split; [cbn; lia|]. intros h _. rewrite running_start. reflexivity. Qed.

Lemma step_inv n i s s' e : inv n s -> step i s = Some (s', e) -> inv n s'.
Proof.
  intros [Hn HI]. unfold step. destruct (nth_error (ths s) i) as [t|] eqn:N; [|discriminate].
  destruct (step1 i (fl s) (next s) t) as [[[[f nx] t'] e']|] eqn:S1; [|discriminate].
  intros E. injection E as <- <-. unfold inv. cbn [next fl ths].
  assert (X : forall h, running h (put i t' (ths s)) + running_in h t = running h (ths s) + running_in h t')
    by (intros h; now apply running_put).
  destruct t as [pn td]. unfold step1 in S1. cbn [th_todo th_panic] in S1.
  destruct td as [|[c|r|] td]; try discriminate.
  - destruct pn; [injection S1 as <- <- <- <-; split; auto; intros h Hh; specialize (X h); rewrite <- (HI h Hh); cbn in X; lia|].
    destruct c as [r b|r m|r| |b].
    + destruct (fl s r) eqn:Fr; injection S1 as <- <- <- <-.
      * split; auto. intros h Hh. specialize (X h). rewrite <- (HI h Hh). cbn in X. lia.
      * split; auto. intros h Hh. specialize (X h). unfold running_in in X. cbn [th_todo filter is_rel] in X.
        rewrite filter_app, app_length, running_do in X. cbn [filter is_rel] in X. specialize (HI h Hh).
        destruct (Nat.eqb_spec r h) as [->|Hr].
        -- rewrite fset_same. rewrite Fr in HI. cbn [length] in X. lia.
        -- rewrite fset_other by auto. rewrite <- HI. lia.
    + injection S1 as <- <- <- <-. split; auto. intros h Hh. specialize (X h). rewrite <- (HI h Hh). cbn in X. lia.
    + injection S1 as <- <- <- <-. split; [lia|]. intros h Hh. specialize (X h).
      rewrite fset_other by lia. rewrite <- (HI h Hh). cbn in X. lia.
    + injection S1 as <- <- <- <-. split; auto. intros h Hh. specialize (X h). rewrite <- (HI h Hh). cbn in X. lia.
    + injection S1 as <- <- <- <-. split; auto. intros h Hh. specialize (X h). unfold running_in in X.
      cbn [th_todo filter is_rel] in X. rewrite filter_app, app_length, running_do in X. cbn [filter is_rel] in X.
      rewrite <- (HI h Hh). lia.
  - injection S1 as <- <- <- <-. split; auto. intros h Hh. specialize (X h). unfold running_in in X.
    cbn [th_todo filter is_rel] in X. specialize (HI h Hh).
    destruct (Nat.eqb_spec r h) as [->|Hr].
    + rewrite fset_same. cbn [length] in X. destruct (fl s h); lia.
    + rewrite fset_other by auto. rewrite <- HI. lia.
  - injection S1 as <- <- <- <-. split; auto. intros h Hh. specialize (X h). rewrite <- (HI h Hh). cbn in X. lia.
Qed.
Lemma sched_inv n l : forall s, inv n s -> inv n (fst (sched l s)).
Proof.
  induction l as [|i l IH]; intros s H; cbn [sched fst]; auto.
  destruct (step i s) as [[s1 e1]|] eqn:E; auto.
  specialize (IH s1 (step_inv n i s s1 e1 H E)). destruct (sched l s1). exact IH.
Qed.

(** at most one body runs on a store, whatever the programs and the schedule; and the store is in
    loading state exactly while it does *)
Theorem loading_exclusive n ps l h : h < n ->
  let s := fst (sched l (start n ps)) in running h (ths s) <= 1 /\ (fl s h = true <-> running h (ths s) = 1).
Proof.
  intros Hh s. destruct (sched_inv n l _ (inv_start n ps)) as [_ HI]. specialize (HI h Hh). fold s in HI.
  rewrite HI. destruct (fl s h); split; try lia; split; intros; congruence || lia.
Qed.
(** the step that ends a body, normally or by a panic, leaves the store out of loading state *)
Theorem loading_released n ps l i h r :
  h < n -> let s := fst (sched l (start n ps)) in
  (exists t, nth_error (ths s) i = Some t /\ th_todo t = Rel h :: r) ->
  exists s', step i s = Some (s', []) /\ fl s' h = false /\ running h (ths s') = 0.
Proof.
  intros Hh s (t & N & T). unfold step. rewrite N. unfold step1. rewrite T.
  eexists. split; [reflexivity|]. cbn [fl ths]. split; [apply fset_same|].
  assert (I : inv n s) by apply sched_inv, inv_start.
  assert (S' : step i s = Some (St (fset (fl s) h false) (next s) (put i (Thr (th_panic t) r) (ths s)), [])).
  { unfold step. rewrite N. unfold step1. now rewrite T. }
  destruct (step_inv n i s _ _ I S') as [_ HI]. specialize (HI h Hh). cbn [fl ths] in HI. now rewrite fset_same in HI.
Qed.
(** when all goroutines have ended, no store is loading *)
Theorem loading_done n ps l h : h < n ->
  let s := fst (sched l (start n ps)) in
  (forall t, In t (ths s) -> th_todo t = []) -> fl s h = false.
Proof.
  intros Hh s D. destruct (sched_inv n l _ (inv_start n ps)) as [_ HI]. specialize (HI h Hh). fold s in HI.
  assert (Z : running h (ths s) = 0).
  { clear HI. induction (ths s) as [|t ts IH]; cbn; auto. unfold running_in. rewrite (D t) by now left.
    cbn. apply IH. intros x Hx. apply D. now right. }
  rewrite Z in HI. destruct (fl s h); congruence.
Qed.
(** no goroutine waits: whoever has something to do can take a step *)
Theorem loading_no_deadlock i s t : nth_error (ths s) i = Some t -> th_todo t <> [] -> exists s' e, step i s = Some (s', e).
Proof.
  intros N T. unfold step. rewrite N. unfold step1. destruct t as [pn [|[c|h|] r]]; cbn [th_todo th_panic] in *; try congruence; eauto.
  destruct pn; eauto. destruct c; eauto. destruct (fl s h); eauto.
Qed.
(** a call while the store is loading does nothing at all: the body is skipped *)
Theorem loading_skipped i f nx h b r : f h = true ->
  step1 i f nx (Thr false (Do (Within h b) :: r)) = Some (f, nx, Thr false r, []).
Proof. intros H. cbn. now rewrite H. Qed.
Theorem loading_entered i f nx h b r : f h = false ->
  step1 i f nx (Thr false (Do (Within h b) :: r)) =
    Some (fset f h true, nx, Thr false (map Do b ++ Rel h :: r), []).
Proof. intros H. cbn. now rewrite H. Qed.
