(** Proofs about Handles. *)
From Coq Require Import String.
From Coq Require Import List NArith Bool Arith Lia.
From Verif Require Import GoStr Node Trie Dummy Handles.
Import ListNotations.
Open Scope nat_scope.
Open Scope list_scope.

(** the calls that set something through the handle [j] *)
Definition sets (j : nat) (c : hcall) : bool :=
  match c with CSetPrefix i _ | CSetDelim i _ => i =? j | _ => false end.
(** the last delimiter set through [j], else [d] *)
Fixpoint last_delim (j : nat) (cs : list hcall) (d : rune) : rune :=
  match cs with
  | [] => d
  | CSetDelim i x :: cs => last_delim j cs (if i =? j then x else d)
  | _ :: cs => last_delim j cs d
  end.
(** the last prefix set through any handle, else [p] *)
Fixpoint last_prefix (cs : list hcall) (p : gostring) : gostring :=
  match cs with
  | [] => p
  | CSetPrefix _ ps :: cs => last_prefix cs (join_str ps (s2b "."%string))
  | _ :: cs => last_prefix cs p
  end.

Lemma set_at_length {A} i (x : A) l : length (set_at i x l) = length l.
Proof. revert i. induction l as [|y l IH]; intros [|i]; cbn; auto. Qed.
Lemma set_at_same {A} i (x : A) l : i < length l -> nth_error (set_at i x l) i = Some x.
Proof. revert i. induction l as [|y l IH]; intros [|i] L; cbn in *; try lia; [reflexivity|]. apply IH. lia. Qed.
Lemma set_at_other {A} i j (x : A) l : i <> j -> nth_error (set_at i x l) j = nth_error l j.
Proof.
  revert i j. induction l as [|y l IH]; intros i j N; [now destruct i|]. destruct i as [|i], j as [|j]; cbn; try reflexivity.
  - congruence.
  - apply IH. congruence.
Qed.

Lemma hstep_cases c w w' : hstep c w = Some w' ->
  exists h, nth_error w (through c) = Some h /\
    ((exists n, w' = w ++ [n] /\ hdelim n = hdelim h /\ (forall j, sets j c = false) /\ forall j d, last_delim j [c] d = d) \/
     (exists n, w' = set_at (through c) n w /\ hmode n = hmode h /\ sets (through c) c = true /\
        hdelim n = last_delim (through c) [c] (hdelim h))).
Proof.
  unfold hstep. destruct (nth_error w (through c)) as [h|] eqn:E; [|discriminate]. intros H. exists h. split; [reflexivity|].
  destruct c; injection H as <-; cbn [through] in *;
    try (left; eexists; split; [reflexivity|]; repeat split; reflexivity);
    right; eexists; (split; [reflexivity|]); cbn; rewrite Nat.eqb_refl; repeat split.
Qed.
Lemma last_delim_cons j c cs d : last_delim j (c :: cs) d = last_delim j cs (last_delim j [c] d).
Proof. now destruct c. Qed.
Lemma last_delim_other j c d : through c <> j -> last_delim j [c] d = d.
Proof. intros N. destruct c; cbn in *; try reflexivity. destruct (Nat.eqb_spec i j); congruence. Qed.
Lemma sets_through j c : sets j c = true -> through c = j.
Proof. destruct c; cbn; try discriminate; intros H; now apply Nat.eqb_eq. Qed.

(** a handle is what it was, unless something is set through it *)
Theorem own_settings cs : forall w w' j h, hrun cs w = Some w' -> nth_error w j = Some h -> existsb (sets j) cs = false ->
  nth_error w' j = Some h.
Proof.
  induction cs as [|c cs IH]; intros w w' j h R N S; cbn in R; [congruence|]. cbn in S. apply orb_false_iff in S as [S1 S2].
  destruct (hstep c w) as [w1|] eqn:E; [|discriminate]. refine (IH w1 w' j h R _ S2).
  destruct (hstep_cases _ _ _ E) as (g & _ & [(n & -> & _)|(n & -> & _ & T & _)]).
  - rewrite nth_error_app1; [exact N|]. apply nth_error_Some. congruence.
  - rewrite set_at_other; [exact N|]. intros <-. congruence.
Qed.
(** its mode stays as it is in any case, and its delimiter is the one set last through it *)
Theorem own_delim cs : forall w w' j h, hrun cs w = Some w' -> nth_error w j = Some h ->
  exists h', nth_error w' j = Some h' /\ hmode h' = hmode h /\ hdelim h' = last_delim j cs (hdelim h).
Proof.
  induction cs as [|c cs IH]; intros w w' j h R N; cbn in R; [injection R as <-; eauto|].
  destruct (hstep c w) as [w1|] eqn:E; [|discriminate]. rewrite last_delim_cons.
  destruct (hstep_cases _ _ _ E) as (g & G & [(n & -> & _ & _ & D)|(n & -> & M & T & D)]).
  - rewrite D. apply (IH _ _ _ _ R). rewrite nth_error_app1; [exact N|]. apply nth_error_Some. congruence.
  - destruct (Nat.eq_dec (through c) j) as [<-|X].
    + rewrite N in G. injection G as <-. assert (L : through c < length w) by (apply nth_error_Some; congruence).
      destruct (IH _ _ _ n R (set_at_same _ _ _ L)) as (h' & A & B & C). exists h'. split; [exact A|]. split; congruence.
    + rewrite last_delim_other by exact X. apply (IH _ _ _ _ R). now rewrite set_at_other.
Qed.
(** a prefix set through a handle is there until the next one is *)
Theorem own_prefix cs i ps : forall w w' h, hrun (CSetPrefix i ps :: cs) w = Some w' -> nth_error w i = Some h ->
  (forall qs, ~ In (CSetPrefix i qs) cs) -> exists h', nth_error w' i = Some h' /\ hprefix h' = Join (hdelim h) ps.
Proof.
  intros w w' h R N F. cbn [hrun] in R. unfold hstep in R. cbn [through] in R. rewrite N in R.
  assert (L : i < length w) by (apply nth_error_Some; congruence).
  pose proof (set_at_same i (setPrefix h ps) w L) as N1. remember (set_at i (setPrefix h ps) w) as w1 eqn:W. clear W N L.
  remember (setPrefix h ps) as h1 eqn:H1. assert (P : hprefix h1 = Join (hdelim h) ps) by now subst. clear H1.
  revert w1 h1 P R N1. induction cs as [|c cs IH]; intros w1 h1 P R N1; cbn in R; [injection R as <-; eauto|].
  destruct (hstep c w1) as [w2|] eqn:E; [|discriminate]. assert (F' : forall qs, ~ In (CSetPrefix i qs) cs) by (intros qs X; apply (F qs); now right).
  assert (K : exists h2, hprefix h2 = Join (hdelim h) ps /\ nth_error w2 i = Some h2).
  { destruct (Nat.eq_dec (through c) i) as [X|X].
    - destruct c; cbn in X; subst; unfold hstep in E; cbn [through] in E; rewrite N1 in E; injection E as <-;
        try (exists h1; split; [exact P|]; rewrite nth_error_app1; [exact N1|apply nth_error_Some; congruence]).
      + exfalso. apply (F ps0). now left.
      + exists (setDelimiter h1 d). split; [exact P|]. apply set_at_same. apply nth_error_Some. congruence.
    - exists h1. split; [exact P|]. destruct (hstep_cases _ _ _ E) as (g & _ & [(n & -> & _)|(n & -> & _)]).
      + rewrite nth_error_app1; [exact N1|]. apply nth_error_Some. congruence.
      + now rewrite set_at_other. }
  destruct K as (h2 & P2 & N2). exact (IH F' w2 h2 P2 R N2).
Qed.

(** a dummy store has one prefix for all its handles *)
Lemma one_dummy cs : forall s rs w', (forall r, In r rs -> r = 0) -> drun cs ([s], rs) = Some w' ->
  exists rs', w' = ([Dum (last_prefix cs (du_p s))], rs') /\ (forall r, In r rs' -> r = 0) /\ length rs <= length rs'.
Proof.
  induction cs as [|c cs IH]; intros s rs w' Z R; cbn in R; [injection R as <-; exists rs; destruct s; auto|].
  destruct (dstep c ([s], rs)) as [w1|] eqn:E; [|discriminate]. unfold dstep in E. cbn [fst snd] in E.
  destruct (nth_error rs (through c)) as [r|] eqn:N; [|discriminate].
  assert (r = 0) as -> by (apply Z; eapply nth_error_In; exact N). cbn [nth_error] in E.
  destruct c; try discriminate; injection E as <-; cbn [set_at] in R; try exact (IH _ rs w' Z R);
    (destruct (IH s (rs ++ [0]) w') as (rs' & A & B & C);
      [intros r H; apply in_app_or in H as [H|[<-|[]]]; auto|exact R|rewrite app_length in C; cbn in C; exists rs';
       split; [exact A|]; split; [exact B|lia]]).
Qed.
Theorem dummy_one_prefix cs w j : drun cs dworld = Some w -> j < length (snd w) -> dprefix w j = Some (last_prefix cs []).
Proof.
  intros R L. destruct (one_dummy cs newDummy [0] w) as (rs & -> & Z & _); [now intros r [<-|[]]|exact R|].
  unfold dprefix. cbn [fst snd] in *. destruct (nth_error rs j) as [r|] eqn:N; [|apply nth_error_None in N; lia].
  assert (r = 0) as -> by (apply Z; eapply nth_error_In; exact N). reflexivity.
Qed.
(** a new handle has the delimiter of the one it was made through, and keeps it, whatever is set through others *)
Theorem new_handle c cs w w' h : hrun (c :: cs) w = Some w' -> nth_error w (through c) = Some h ->
  (forall j, sets j c = false) -> existsb (sets (length w)) cs = false ->
  exists n, nth_error w' (length w) = Some n /\ hdelim n = hdelim h /\
    hmode n = match c with CN _ => ModeNone | CR _ => ModeDown | CBR _ => ModeUp | _ => hmode h end /\
    match c with CN _ | CR _ | CBR _ | CDup _ => hprefix n = hprefix h | CWith _ ps => hprefix n = join1 (hdelim h) (hprefix h) ps
               | CRepl _ ps => hprefix n = Join (hdelim h) ps | _ => False end.
Proof.
  intros R N S X. cbn [hrun] in R. unfold hstep in R. rewrite N in R.
  assert (K : forall n w1, w1 = w ++ [n] -> hrun cs w1 = Some w' -> nth_error w' (length w) = Some n).
  { intros n w1 -> R1. apply (own_settings cs _ _ _ _ R1); [|exact X]. rewrite nth_error_app2, Nat.sub_diag by lia. reflexivity. }
  destruct c; try (eexists; split; [eapply K; [reflexivity|exact R]|repeat split]);
    specialize (S i); cbn in S; rewrite Nat.eqb_refl in S; discriminate.
Qed.
