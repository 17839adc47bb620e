(** Calls on one tree by many goroutines, call by call (C141 - C147): only statements.

    [play grow rf dep rt sch ts h]: the threads [ts], each with calls still to make, take single memory accesses in the
    order [sch]; it gives the threads, the memory and the calls and replies in the order in which they were seen.
    [atomic rf t ss es t' ss']: the calls and replies [es] can be seen if every operation takes effect on the tree [t] at one
    moment between its call and its reply, [t'] is the tree then.  [tree_in h R]: the tree [R] is in the memory [h]. *)
From Coq Require Import String.
From Coq Require Import List NArith ZArith Bool Arith Lia.
From Verif Require Import GoStr Utf8 Node NodeWf MatchProofs Trie TreeOps Spec Refine ApiRefine Reach Effect Derived Derived3 Heap HeapProofs HeapWalk
  HeapRace HeapGet HeapGetProofs HeapLin HeapLinProofs.
Import ListNotations.
Open Scope nat_scope.
Open Scope list_scope.

Ltac run := vm_compute; reflexivity.
Definition b (s : string) : gostring := s2b s.
Definition dotD : rune -> Prop := fun c => c = 46%N.

Lemma both_of t n r : ended r -> (~ exists t' ss, atomic 1 t (repeat Idle n) (history r) t' ss) ->
  let '(ts, _, es) := r in (forall th, In th ts -> th = Th None []) /\ ~ exists t' ss, atomic 1 t (repeat Idle n) es t' ss.
Proof. destruct r as [[ts h] es]. auto. Qed.

(** ** C141: Get, Has, HasPart, GetDesc, GetComment, GetTag, SetTag, and Set of keys that exist, are linearizable *)
Theorem C141_linearizable D grow rf dep h0 t0 jobs sch :
  tree_in h0 (root t0) -> plain_reach D t0 -> depth (root t0) <= dep -> next t0 = nn h0 ->
  (forall os o, In os jobs -> In o os -> match o with
     | DoGet h _ | DoHas h _ | DoHasPart h _ | DoAttr _ h _ | DoTag h _ _ => D (hdelim h)
     | DoSet h p v => D (hdelim h) /\ t_get t0 (runes (replace_byte 32 45 (full h p))) <> None
     | DoSetEx _ _ _ | DoComment _ _ _ _ | DoUpdate _ _ _ => False
     end) ->
  let '(ts, h, es) := play grow (S rf) dep (nid (root t0)) sch (map (Th None) jobs) h0 in
  (forall th, In th ts -> cur th <> Some Die /\ cur th <> Some Spin) /\
  exists t ss, atomic (S rf) t0 (repeat Idle (length jobs)) es t ss /\
    ((forall th, In th ts -> cur th = None) -> tree_in h (root t) /\ next t = nn h).
Proof. intros T P L N A. exact (linearizable D grow rf dep h0 t0 T P L jobs sch N A). Qed.
Print Assumptions C141_linearizable.
(** the tree is one that calls reach: a node whose bit for data is not set holds nil *)
Theorem C141_bits D t : plain_reach D t -> forall k n, In (k, n) (ents [] (root t)) -> hasData n = false -> ndata n = GNil.
Proof. exact (@plain_clean D t). Qed.
Print Assumptions C141_bits.
Lemma t_abc_plain : plain_reach dotD t_abc.
Proof.
  pose (hist := map (fun kv : gostring * gval => (defaultHdl, OSet (fst kv) (snd kv))) abc).
  destruct (t_run 1 hist newTrie) as [[t outs]| |] eqn:E; [|vm_compute in E; discriminate..].
  apply (plain_reach_hist dotD 0 hist t_abc outs).
  - repeat (apply Forall_cons; [split; [reflexivity|intros d Hd; unfold dotD in Hd; subst d; vm_compute; reflexivity || exact I]|]).
    apply Forall_nil.
  - rewrite E. vm_compute in E. injection E as <- <-. reflexivity.
Qed.
Definition set (k : string) (v : Z) : gop := DoSet defaultHdl (b k) (GInt v).
Definition get (k : string) : gop := DoGet defaultHdl (b k).
Definition got (v : gval) : reply := Value (QRes v false true []).
Definition jobs : list (list gop) := [[set "a" 7; get "b"]; [get "a"; set "a" 8; get "a"]].
(** thread 1 reads 7 before the Set that stores it has returned, later its own 8 *)
Example C141_ex : tree_in h_abc (root t_abc) /\ plain_reach dotD t_abc /\ depth (root t_abc) <= 2 /\ next t_abc = nn h_abc /\
  (forall os o, In os jobs -> In o os -> match o with
     | DoGet h _ | DoHas h _ | DoHasPart h _ | DoAttr _ h _ | DoTag h _ _ => dotD (hdelim h)
     | DoSet h p v => dotD (hdelim h) /\ t_get t_abc (runes (replace_byte 32 45 (full h p))) <> None
     | DoSetEx _ _ _ | DoComment _ _ _ _ | DoUpdate _ _ _ => False
     end) /\
  history (play no_room 1 2 0 (repeat 0 10 ++ repeat 1 40 ++ repeat 0 20) (map (Th None) jobs) h_abc) =
    [Call 0 (set "a" 7); Call 1 (get "a"); Reply 1 (got (GInt 7)); Call 1 (set "a" 8); Reply 1 Stored; Call 1 (get "a");
     Reply 1 (got (GInt 8)); Reply 0 Stored; Call 0 (get "b"); Reply 0 (got (GStr [50%N]))].
Proof.
  split; [exact abc_in|]. split; [exact t_abc_plain|]. split; [vm_compute; lia|]. split; [reflexivity|]. split; [|run].
  intros os o [<-|[<-|[]]] H; repeat destruct H as [<-|H]; try easy; (split; [reflexivity|vm_compute; discriminate]).
Qed.
(** the tags that two goroutines set, seen by a third beside Set and Has *)
Definition tag (k : string) (v : Z) : gop := DoTag defaultHdl (b k) (GInt v).
Definition tag_of (k : string) : gop := DoAttr Tag defaultHdl (b k).
Definition jobs_tag : list (list gop) :=
  [[tag "a" 1; set "a" 7]; [tag "a" 2; tag "no" 3]; [tag_of "a"; tag_of "a"; DoHas defaultHdl (b "b"); DoHasPart defaultHdl (b "no")]].
Example C141_tags : (forall os o, In os jobs_tag -> In o os -> match o with
     | DoGet h _ | DoHas h _ | DoHasPart h _ | DoAttr _ h _ | DoTag h _ _ => dotD (hdelim h)
     | DoSet h p v => dotD (hdelim h) /\ t_get t_abc (runes (replace_byte 32 45 (full h p))) <> None
     | DoSetEx _ _ _ | DoComment _ _ _ _ | DoUpdate _ _ _ => False
     end) /\
  history (play no_room 1 2 0 (repeat 0 8 ++ repeat 2 10 ++ repeat 1 30 ++ repeat 2 40 ++ repeat 0 40) (map (Th None) jobs_tag) h_abc) =
    [Call 0 (tag "a" 1); Call 2 (tag_of "a"); Reply 2 (Is (GInt 1) true); Call 1 (tag "a" 2); Reply 1 (Yes true); Call 1 (tag "no" 3);
     Reply 1 (Yes false); Call 2 (tag_of "a"); Reply 2 (Is (GInt 2) true); Call 2 (DoHas defaultHdl (b "b")); Reply 2 (Yes true);
     Call 2 (DoHasPart defaultHdl (b "no")); Reply 2 (Yes false); Reply 0 (Yes true); Call 0 (set "a" 7); Reply 0 Stored].
Proof.
  split; [|run]. intros os o [<-|[<-|[<-|[]]]] H; repeat destruct H as [<-|H]; try easy; (split; [reflexivity|vm_compute; discriminate]).
Qed.

(** ** C142: with the old values that the setters report they are not *)
(** two SetEx of one key that exists both report the value that was there before, which no order of the two explains *)
Theorem C142_refuted : exists grow rf dep h0 t0 jobs sch D,
  tree_in h0 (root t0) /\ plain_reach D t0 /\ depth (root t0) <= dep /\ next t0 = nn h0 /\
  (forall os o, In os jobs -> In o os -> match o with
     | DoGet h p => D (hdelim h)
     | DoSet h p v => D (hdelim h) /\ t_get t0 (runes (replace_byte 32 45 (full h p))) <> None
     | DoSetEx h p v => D (hdelim h) /\ t_get t0 (runes (full h p)) <> None
     | _ => False
     end) /\
  let '(ts, _, es) := play grow (S rf) dep (nid (root t0)) sch (map (Th None) jobs) h0 in
  (forall th, In th ts -> th = Th None []) /\
  ~ exists t ss, atomic (S rf) t0 (repeat Idle (length jobs)) es t ss.
Proof.
  exists no_room, 0, 2, h_abc, t_abc, [[a7]; [a8]], (rounds 12 [0; 1]), dotD.
  split; [exact abc_in|]. split; [exact t_abc_plain|]. split; [vm_compute; lia|]. split; [reflexivity|]. split.
  - intros os o [<-|[<-|[]]] H; repeat destruct H as [<-|H]; try easy; (split; [reflexivity|vm_compute; discriminate]).
  - exact (both_of t_abc 2 swaps swaps_ended swaps_not).
Qed.
Print Assumptions C142_refuted.
(** what was seen *)
Example C142_seen : history swaps = [Call 0 a7; Call 1 a8; Reply 0 (Old (GStr [49%N])); Reply 1 (Old (GStr [49%N]))].
Proof. run. Qed.

(** ** C143: every call of these returns *)
(** in any order of the steps in which the thread gets a turn again and again, whatever the others do or fail to do *)
Theorem C143_wait_free D grow rf dep h0 t0 jobs f i os :
  tree_in h0 (root t0) -> plain_reach D t0 -> depth (root t0) <= dep -> next t0 = nn h0 ->
  (forall os o, In os jobs -> In o os -> match o with
     | DoGet h _ | DoHas h _ | DoHasPart h _ | DoAttr _ h _ | DoTag h _ _ => D (hdelim h)
     | DoSet h p v => D (hdelim h) /\ t_get t0 (runes (replace_byte 32 45 (full h p))) <> None
     | DoSetEx _ _ _ | DoComment _ _ _ _ | DoUpdate _ _ _ => False
     end) ->
  (forall n, exists k, n <= k /\ f k = i) -> nth_error jobs i = Some os ->
  exists n, let '(ts, _, _) := play grow (S rf) dep (nid (root t0)) (map f (seq 0 n)) (map (Th None) jobs) h0 in
    nth_error ts i = Some (Th None []).
Proof. intros T P L N A F E. exact (wait_free D grow rf dep h0 t0 T P L jobs f i os N A F E). Qed.
Print Assumptions C143_wait_free.
(** thread 0 stops in the middle of its Set, thread 1 gets every other turn *)
Definition f_ex (n : nat) : nat := if n <? 6 then 0 else if Nat.even n then 1 else 5.
Example C143_ex : (forall n, exists k, n <= k /\ f_ex k = 1) /\
  nth_error (fst (fst (play no_room 1 2 0 (map f_ex (seq 0 120)) (map (Th None) jobs) h_abc))) 1 = Some (Th None []) /\
  nth_error (fst (fst (play no_room 1 2 0 (map f_ex (seq 0 120)) (map (Th None) jobs) h_abc))) 0 <> Some (Th None []).
Proof.
  split; [|split; [run|vm_compute; discriminate]]. intros n. exists (2 * n + 6). split; [lia|]. unfold f_ex.
  replace (2 * n + 6 <? 6) with false by (symmetry; apply Nat.ltb_ge; lia).
  replace (2 * n + 6) with (2 * (n + 3)) by lia. now rewrite Nat.even_mul.
Qed.

(** ** C144: beside a Set of a new key Get is not linearizable *)
(** apple is there all the time, Get beside the Set of apricot replies that it is not *)
Theorem C144_refuted : exists grow rf dep h0 t0 jobs sch D,
  tree_in h0 (root t0) /\ plain_reach D t0 /\ depth (root t0) <= dep /\ next t0 = nn h0 /\
  (forall os o, In os jobs -> In o os -> match o with
     | DoGet h p => D (hdelim h)
     | DoSet h p v => D (hdelim h) /\ forall d, D d -> plain d (runes (replace_byte 32 45 (full h p)))
     | _ => False
     end) /\
  let '(ts, _, es) := play grow (S rf) dep (nid (root t0)) sch (map (Th None) jobs) h0 in
  (forall th, In th ts -> th = Th None []) /\
  ~ exists t ss, atomic (S rf) t0 (repeat Idle (length jobs)) es t ss.
Proof.
  exists no_room, 0, 3, h_apple, t_apple, [[s_apricot]; [g_apple]], sch_miss, dotD.
  split.
  { destruct (sets_tree no_room [(apple, GStr [49%N])] newHeap newTrie tree_in_new eq_refl) as (h & t & E & RUN & _ & G & _).
    unfold h_apple. change 0 with (nid (root newTrie)). rewrite RUN. vm_compute in E. injection E as <-. exact G. }
  split.
  { apply plain_more with (rf := 0) (h := defaultHdl) (o := OSet apple (GStr [49%N])) (t := newTrie) (r := ROld GNil);
      [constructor|reflexivity| |run].
    intros d Hd. unfold dotD in Hd. subst d. run. }
  split; [vm_compute; lia|]. split; [reflexivity|]. split.
  - intros os o [<-|[<-|[]]] H; repeat destruct H as [<-|H]; try easy.
    split; [reflexivity|]. intros d Hd. unfold dotD in Hd. subst d. run.
  - exact (both_of t_apple 2 miss miss_ended miss_not).
Qed.
Print Assumptions C144_refuted.
Example C144_seen : history miss = [Call 0 s_apricot; Call 1 g_apple; Reply 1 (Value (QRes GNil false false [])); Reply 0 Stored].
Proof. run. Qed.

(** ** C145: SetComment beside SetComment is not *)
(** the description of one call stays beside the comment of the other *)
Theorem C145_refuted : exists grow rf dep h0 t0 jobs sch D,
  tree_in h0 (root t0) /\ plain_reach D t0 /\ depth (root t0) <= dep /\ next t0 = nn h0 /\
  (forall os o, In os jobs -> In o os -> match o with
     | DoComment h p _ _ | DoAttr _ h p => D (hdelim h) /\ t_get t0 (runes (full h p)) <> None
     | _ => False
     end) /\
  let '(ts, _, es) := play grow (S rf) dep (nid (root t0)) sch (map (Th None) jobs) h0 in
  (forall th, In th ts -> th = Th None []) /\
  ~ exists t ss, atomic (S rf) t0 (repeat Idle (length jobs)) es t ss.
Proof.
  exists no_room, 0, 2, h_abc, t_abc, [[c_ab; g_desc; g_comm]; [c_cd]], (sch_cut 8), dotD.
  split; [exact abc_in|]. split; [exact t_abc_plain|]. split; [vm_compute; lia|]. split; [reflexivity|]. split.
  - intros os o [<-|[<-|[]]] H; repeat destruct H as [<-|H]; try easy; (split; [reflexivity|vm_compute; discriminate]).
  - exact (both_of t_abc 2 mixed mixed_ended mixed_not).
Qed.
Print Assumptions C145_refuted.
Example C145_seen : history mixed = [Call 0 c_ab; Call 1 c_cd; Reply 1 (Yes true); Reply 0 (Yes true); Call 0 g_desc; Reply 0 (Is (GStr [99%N]) true);
    Call 0 g_comm; Reply 0 (Is (GStr [98%N]) true)].
Proof. run. Qed.

(** ** C146: Update beside Update is not *)
(** of two calls that append to the value of a key the effect of one is lost *)
Theorem C146_refuted : exists grow rf dep h0 t0 jobs sch D,
  tree_in h0 (root t0) /\ plain_reach D t0 /\ depth (root t0) <= dep /\ next t0 = nn h0 /\
  (forall os o, In os jobs -> In o os -> match o with
     | DoGet h p | DoUpdate h p _ => D (hdelim h) /\ t_get t0 (runes (full h p)) <> None
     | _ => False
     end) /\
  let '(ts, _, es) := play grow (S rf) dep (nid (root t0)) sch (map (Th None) jobs) h0 in
  (forall th, In th ts -> th = Th None []) /\
  ~ exists t ss, atomic (S rf) t0 (repeat Idle (length jobs)) es t ss.
Proof.
  exists no_room, 0, 2, h_abc, t_abc, [[u_x; g_a]; [u_x]], (sch_cut 10), dotD.
  split; [exact abc_in|]. split; [exact t_abc_plain|]. split; [vm_compute; lia|]. split; [reflexivity|]. split.
  - intros os o [<-|[<-|[]]] H; repeat destruct H as [<-|H]; try easy; (split; [reflexivity|vm_compute; discriminate]).
  - exact (both_of t_abc 2 lost lost_ended lost_not).
Qed.
Print Assumptions C146_refuted.
Example C146_seen : history lost = [Call 0 u_x; Call 1 u_x; Reply 1 Stored; Reply 0 Stored; Call 0 g_a;
    Reply 0 (Value (QRes (GStr [49; 120]%N) false true []))].
Proof. run. Qed.

(** ** C147: Get beside Update is not *)
(** the key has a value before and after, Get replies nil *)
Theorem C147_refuted : exists grow rf dep h0 t0 jobs sch D,
  tree_in h0 (root t0) /\ plain_reach D t0 /\ depth (root t0) <= dep /\ next t0 = nn h0 /\
  (forall os o, In os jobs -> In o os -> match o with
     | DoGet h p | DoUpdate h p _ => D (hdelim h) /\ t_get t0 (runes (full h p)) <> None
     | _ => False
     end) /\
  let '(ts, _, es) := play grow (S rf) dep (nid (root t0)) sch (map (Th None) jobs) h0 in
  (forall th, In th ts -> th = Th None []) /\
  ~ exists t ss, atomic (S rf) t0 (repeat Idle (length jobs)) es t ss.
Proof.
  exists no_room, 0, 2, h_abc, t_abc, [[u_x]; [g_a]], (sch_cut 10), dotD.
  split; [exact abc_in|]. split; [exact t_abc_plain|]. split; [vm_compute; lia|]. split; [reflexivity|]. split.
  - intros os o [<-|[<-|[]]] H; repeat destruct H as [<-|H]; try easy; (split; [reflexivity|vm_compute; discriminate]).
  - exact (both_of t_abc 2 gap gap_ended gap_not).
Qed.
Print Assumptions C147_refuted.
Example C147_seen : history gap = [Call 0 u_x; Call 1 g_a; Reply 1 (Value (QRes GNil false true [])); Reply 0 Stored].
Proof. run. Qed.
