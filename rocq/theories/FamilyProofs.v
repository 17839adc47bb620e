(** Proofs about Family. *)
From Coq Require Import List NArith Bool Arith Lia.
From Verif Require Import GoStr Node Trie Spec Refine ApiRefine Handles HandlesProofs Family.
Import ListNotations.
Open Scope nat_scope.
Open Scope list_scope.

(** the calls on the data of the tree [x], with the settings of the handles at that time *)
Fixpoint story (x : nat) (cs : list wcall) (hs : list (hdl * nat)) (n : nat) : list (hdl * op) :=
  match cs with
  | [] => []
  | WH c :: cs => match fstep c hs n with Some (hs', n') => story x cs hs' n' | None => [] end
  | WOp i o :: cs =>
      match nth_error hs i with
      | Some (h, y) => if y =? x then (h, o) :: story x cs hs n else story x cs hs n
      | None => []
      end
  end.
(** the tree of the handle [i] *)
Definition on (hs : list (hdl * nat)) (x i : nat) : bool :=
  match nth_error hs i with Some (_, y) => y =? x | None => false end.
(** every handle has a tree *)
Definition housed (hs : list (hdl * nat)) (n : nat) : Prop := Forall (fun e => snd e < n) hs.

Lemma fstep_keeps c hs n hs' n' i e : fstep c hs n = Some (hs', n') -> nth_error hs i = Some e ->
  exists h, nth_error hs' i = Some (h, snd e).
Proof.
  unfold fstep. destruct (nth_error hs (through c)) as [[h x]|] eqn:E; [|discriminate]. intros H N.
  assert (L : i < length hs) by (apply nth_error_Some; congruence).
  destruct c; injection H as <- <-; cbn [through] in E;
    try (destruct e as [g y]; exists g; rewrite nth_error_app1; assumption);
    (destruct (Nat.eq_dec i0 i) as [->|X];
      [rewrite E in N; injection N as <-; rewrite set_at_same by exact L; eauto
      |rewrite set_at_other by exact X; destruct e; eauto]).
Qed.
Lemma Forall_set_at {A} (P : A -> Prop) i a l : Forall P l -> P a -> Forall P (set_at i a l).
Proof. intros F H. revert i. induction F as [|b l Hb F IH]; intros [|i]; cbn; constructor; auto. Qed.
Lemma fstep_housed clone c hs ts hs' n' : housed hs (length ts) -> fstep c hs (length ts) = Some (hs', n') ->
  housed hs' n' /\ n' = length (ftrees clone c hs ts) /\
  forall x t, nth_error ts x = Some t -> nth_error (ftrees clone c hs ts) x = Some t.
Proof.
  unfold fstep, ftrees, housed. intros F. destruct (nth_error hs (through c)) as [[h x]|] eqn:E; [|discriminate].
  assert (X : x < length ts) by (rewrite Forall_forall in F; apply (F (h, x)); eapply nth_error_In; exact E).
  destruct (nth_error ts x) as [t|] eqn:T; [|apply nth_error_None in T; lia].
  intros H. destruct c; injection H as <- <-;
    try (split; [apply Forall_app; split; [exact F|repeat constructor; exact X]|split; [reflexivity|auto]]);
    try (split; [apply Forall_set_at; [exact F|exact X]|split; [reflexivity|auto]]).
  cbn [through] in *. rewrite ?E, ?T.
  split; [apply Forall_app; split; [|apply Forall_cons; [cbn; lia|apply Forall_nil]]|split; [rewrite app_length; cbn; lia|]].
  - eapply Forall_impl; [|exact F]. cbn. intros. lia.
  - intros y u Y. rewrite nth_error_app1; [exact Y|]. apply nth_error_Some. congruence.
Qed.

(** where a handle is at the end, it is all the time *)
Lemma wrun_on rf clone cs : forall hs ts hs' ts' outs i e, wrun rf clone cs hs ts = Ok (hs', ts', outs) ->
  nth_error hs i = Some e -> exists h, nth_error hs' i = Some (h, snd e).
Proof.
  induction cs as [|c cs IH]; intros hs ts hs' ts' outs i e R N; cbn [wrun] in R.
  - injection R as <- <- <-. destruct e; eauto.
  - destruct c as [c|j o].
    + destruct (fstep c hs (length ts)) as [[h1 n1]|] eqn:E; [|discriminate].
      destruct (fstep_keeps _ _ _ _ _ _ _ E N) as (h & K). exact (IH _ _ _ _ _ _ _ R K).
    + destruct (nth_error hs j) as [[h x]|]; [|discriminate]. destruct (nth_error ts x) as [t|]; [|discriminate].
      destruct (t_step rf h t o) as [[t1 r]| |]; cbn [bind] in R; try discriminate.
      destruct (wrun rf clone cs hs (set_at x t1 ts)) as [[[a b] rs]| |] eqn:E; cbn [bind] in R; try discriminate.
      injection R as -> -> <-. exact (IH _ _ _ _ _ _ _ E N).
Qed.

(** each tree is what its own calls make of it, and answers them as if there were no other *)
Theorem family cs : forall rf clone hs ts hs' ts' outs x t, housed hs (length ts) ->
  wrun rf clone cs hs ts = Ok (hs', ts', outs) -> nth_error ts x = Some t ->
  exists t', nth_error ts' x = Some t' /\
    t_run rf (story x cs hs (length ts)) t = Ok (t', map snd (filter (fun e => on hs' x (fst e)) outs)).
Proof.
  induction cs as [|c cs IH]; intros rf clone hs ts hs' ts' outs x t F R N; cbn [wrun] in R.
  - injection R as <- <- <-. exists t. split; [exact N|reflexivity].
  - destruct c as [c|i o]; cbn [story].
    + destruct (fstep c hs (length ts)) as [[h1 n1]|] eqn:E; [|discriminate].
      destruct (fstep_housed clone _ _ _ _ _ F E) as (F1 & -> & K). exact (IH _ _ _ _ _ _ _ _ _ F1 R (K _ _ N)).
    + destruct (nth_error hs i) as [[h y]|] eqn:I; [|discriminate]. destruct (nth_error ts y) as [u|] eqn:U; [|discriminate].
      destruct (t_step rf h u o) as [[t1 r]| |] eqn:S; cbn [bind] in R; try discriminate.
      destruct (wrun rf clone cs hs (set_at y t1 ts)) as [[[a b] rs]| |] eqn:W; cbn [bind] in R; try discriminate.
      injection R as -> -> <-. assert (L : y < length ts) by (apply nth_error_Some; congruence).
      destruct (wrun_on _ _ _ _ _ _ _ _ _ _ W I) as (g & G). cbn [snd] in G.
      assert (F1 : housed hs (length (set_at y t1 ts))) by now rewrite set_at_length.
      cbn [filter fst]. unfold on at 1. rewrite G. destruct (Nat.eqb_spec y x) as [->|X].
      * destruct (IH _ _ _ _ _ _ _ _ _ F1 W (set_at_same _ _ _ L)) as (t' & T & Q). exists t'. split; [exact T|].
        rewrite N in U. injection U as <-. cbn [t_run]. rewrite S. cbn [bind]. rewrite set_at_length in Q. rewrite Q. reflexivity.
      * assert (N1 : nth_error (set_at y t1 ts) x = Some t) by now rewrite set_at_other.
        destruct (IH _ _ _ _ _ _ _ _ _ F1 W N1) as (t' & T & Q). exists t'. split; [exact T|]. now rewrite set_at_length in Q.
Qed.
(** a copy goes its own way from the state at its Dup on *)
Theorem family_dup rf clone i cs hs ts hs' ts' outs h x t : housed hs (length ts) ->
  wrun rf clone (WH (CDup i) :: cs) hs ts = Ok (hs', ts', outs) -> nth_error hs i = Some (h, x) -> nth_error ts x = Some t ->
  exists t', nth_error ts' (length ts) = Some t' /\
    t_run rf (story (length ts) cs (hs ++ [(h, length ts)]) (S (length ts))) (Dup clone t) =
      Ok (t', map snd (filter (fun e => on hs' (length ts) (fst e)) outs)).
Proof.
  intros F R I N. cbn [wrun] in R. destruct (fstep (CDup i) hs (length ts)) as [[h1 n1]|] eqn:E; [|discriminate].
  destruct (fstep_housed clone _ _ _ _ _ F E) as (F1 & -> & _).
  assert (T : ftrees clone (CDup i) hs ts = ts ++ [Dup clone t]) by (unfold ftrees; cbn [through]; now rewrite I, N).
  assert (H1 : h1 = hs ++ [(h, length ts)]) by (unfold fstep in E; cbn [through] in E; rewrite I in E; now injection E as <- _).
  subst h1. rewrite T in *. pose proof (family cs rf clone _ _ _ _ _ (length ts) (Dup clone t) F1 R) as X.
  rewrite app_length in X. cbn [length] in X. rewrite Nat.add_1_r in X. apply X.
  rewrite nth_error_app2, Nat.sub_diag by lia. reflexivity.
Qed.
(** a tree no call is made on stays as it is *)
Theorem family_still rf clone cs hs ts hs' ts' outs x t : housed hs (length ts) ->
  wrun rf clone cs hs ts = Ok (hs', ts', outs) -> nth_error ts x = Some t -> story x cs hs (length ts) = [] -> nth_error ts' x = Some t.
Proof.
  intros F R N S. destruct (family cs rf clone hs ts hs' ts' outs x t F R N) as (t' & T & Q). rewrite S in Q.
  cbn [t_run] in Q. injection Q as <- _. exact T.
Qed.
(** of a new store: the handles that share its tree are answered by one map *)
Theorem family_map rf clone D h cs hs' ts' outs : wrun (S rf) clone cs [(h, 0)] [newTrie] = Ok (hs', ts', outs) ->
  plain_hist D (story 0 cs [(h, 0)] 1) ->
  let m := s_run (views (story 0 cs [(h, 0)] 1)) s_init in
  map snd (filter (fun e => on hs' 0 (fst e)) outs) = snd m /\ exists t', nth_error ts' 0 = Some t' /\ abs (root t') (fst m).
Proof.
  intros R P m. destruct (family cs (S rf) clone [(h, 0)] [newTrie] hs' ts' outs 0 newTrie) as (t' & T & Q);
    [repeat constructor|exact R|reflexivity|].
  destruct (run_refines rf D (story 0 cs [(h, 0)] 1) newTrie s_init newTrie_wf newTrie_abs (fun d _ => plain_init d) P) as (t1 & E & _ & A & _).
  cbn [length] in Q. rewrite E in Q. injection Q as <- Q. split; [symmetry; exact Q|]. exists t1. split; [exact T|exact A].
Qed.
(** the settings in such a program are those of its calls that make handles or set something *)
Definition makers (cs : list wcall) : list hcall := flat_map (fun c => match c with WH c => [c] | WOp _ _ => [] end) cs.
Lemma map_set_at {A B} (f : A -> B) i a l : map f (set_at i a l) = set_at i (f a) (map f l).
Proof. revert i. induction l as [|b l IH]; intros [|i]; cbn; congruence. Qed.
Lemma fstep_hstep c hs n hs' n' : fstep c hs n = Some (hs', n') -> hstep c (map fst hs) = Some (map fst hs').
Proof.
  unfold fstep, hstep. destruct (nth_error hs (through c)) as [[h x]|] eqn:E; [|discriminate].
  rewrite (map_nth_error fst _ _ E). cbn [fst]. intros H.
  destruct c; injection H as <- <-; rewrite ?map_app, ?map_set_at; reflexivity.
Qed.
Theorem family_settings rf clone cs : forall hs ts hs' ts' outs, wrun rf clone cs hs ts = Ok (hs', ts', outs) ->
  hrun (makers cs) (map fst hs) = Some (map fst hs').
Proof.
  induction cs as [|c cs IH]; intros hs ts hs' ts' outs R; cbn [wrun] in R; [injection R as <- <- <-; reflexivity|].
  destruct c as [c|i o]; cbn [makers flat_map app].
  - destruct (fstep c hs (length ts)) as [[h1 n1]|] eqn:E; [|discriminate]. cbn [hrun].
    rewrite (fstep_hstep _ _ _ _ _ E). exact (IH _ _ _ _ _ R).
  - destruct (nth_error hs i) as [[h y]|]; [|discriminate]. destruct (nth_error ts y) as [u|]; [|discriminate].
    destruct (t_step rf h u o) as [[t1 r]| |]; cbn [bind] in R; try discriminate.
    destruct (wrun rf clone cs hs (set_at y t1 ts)) as [[[a b] rs]| |] eqn:W; cbn [bind] in R; try discriminate.
    injection R as -> -> <-. exact (IH _ _ _ _ _ W).
Qed.
(** which tree a new handle has *)
Definition dups (c : wcall) : bool := match c with WH (CDup _) => true | _ => false end.
Theorem family_number rf clone cs : forall hs ts hs' ts' outs, housed hs (length ts) -> wrun rf clone cs hs ts = Ok (hs', ts', outs) ->
  length ts' = length ts + length (filter dups cs) /\ housed hs' (length ts') /\
  forall i x h, nth_error hs i = Some (h, x) -> exists h', nth_error hs' i = Some (h', x).
Proof.
  intros hs ts hs' ts' outs F R. split; [|split].
  - revert hs ts F R. revert outs. induction cs as [|c cs IH]; intros outs hs ts F R; cbn [wrun] in R; [injection R as <- <- <-; cbn; lia|].
    destruct c as [c|i o]; cbn [filter dups].
    + destruct (fstep c hs (length ts)) as [[h1 n1]|] eqn:E; [|discriminate].
      destruct (fstep_housed clone _ _ _ _ _ F E) as (F1 & N & _). subst n1. specialize (IH _ _ _ F1 R). rewrite IH. rewrite <- (Nat.add_comm (length (filter dups cs))).
      unfold fstep in E. destruct (nth_error hs (through c)) as [[h x]|]; [|discriminate].
      destruct c; try (cbn [ftrees filter length]; lia). injection E as _ E.
      assert (Q : S (length ts) = length (ftrees clone (CDup i) hs ts)) by exact E. rewrite <- Q. cbn [filter length]. lia.
    + destruct (nth_error hs i) as [[h y]|]; [|discriminate]. destruct (nth_error ts y) as [u|]; [|discriminate].
      destruct (t_step rf h u o) as [[t1 r]| |]; cbn [bind] in R; try discriminate.
      destruct (wrun rf clone cs hs (set_at y t1 ts)) as [[[a b] rs]| |] eqn:W; cbn [bind] in R; try discriminate.
      injection R as -> -> <-. specialize (IH rs hs (set_at y t1 ts)). rewrite set_at_length in IH. exact (IH F W).
  - revert hs ts F R. revert outs. induction cs as [|c cs IH]; intros outs hs ts F R; cbn [wrun] in R; [injection R as <- <- <-; exact F|].
    destruct c as [c|i o].
    + destruct (fstep c hs (length ts)) as [[h1 n1]|] eqn:E; [|discriminate].
      destruct (fstep_housed clone _ _ _ _ _ F E) as (F1 & N & _). subst n1. exact (IH _ _ _ F1 R).
    + destruct (nth_error hs i) as [[h y]|]; [|discriminate]. destruct (nth_error ts y) as [u|]; [|discriminate].
      destruct (t_step rf h u o) as [[t1 r]| |]; cbn [bind] in R; try discriminate.
      destruct (wrun rf clone cs hs (set_at y t1 ts)) as [[[a b] rs]| |] eqn:W; cbn [bind] in R; try discriminate.
      injection R as -> -> <-. apply (IH rs hs (set_at y t1 ts)); [now rewrite set_at_length|exact W].
  - intros i x h N. exact (wrun_on _ _ _ _ _ _ _ _ _ _ R N).
Qed.
