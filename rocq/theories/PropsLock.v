(** The properties of the lock of a node (C125-C127): only statements.

    [armed ps]: a node with a lock and the goroutines [ps]; [bare ps]: one without lock.  [lrun is_ x]:
    the goroutines [is_] step in this order.  [LTest KWrite] is a goroutine that begins a SetData,
    SetEmpty, Get or Query, [LTest KRead] a Data, [LTest KDump] a Dump, [LAdd] a SetTTL; [LBody k b] has
    the function running ([b]: with the lock). *)
From Coq Require Import List Bool Arith.
From Verif Require Import Ttl Locks LockProofs.
Import ListNotations.
Open Scope nat_scope.

(** ** C125: the lock keeps those apart that read and write the value *)
(** a lock made during a write that began without one: two writers inside *)
Theorem C125_refuted_late : exists is_,
  lgoros (lrun is_ (bare [LTest KWrite; LAdd; LTest KWrite])) = [LBody KWrite false; LDone; LBody KWrite true].
Proof. exact lock_late. Qed.
Print Assumptions C125_refuted_late.
(** two locks made by two SetTTLs: a writer unlocks one it never locked, which ends the program *)
Theorem C125_refuted_twice : exists is_,
  lgoros (lrun is_ (bare [LAdd; LAdd; LTest KWrite])) = [LDone; LDone; LFatal].
Proof. exact lock_twice. Qed.
Print Assumptions C125_refuted_twice.

(** ** C126: Dump returns while the store is in use *)
(** Dump holds the read lock and asks for it again; a Get that came between waits for the first and keeps out the second *)
Theorem C126_refuted : exists is_, forall is',
  lgoros (lrun is' (lrun is_ (armed [LTest KDump; LTest KWrite]))) = [LEnter2 true; LWait 0].
Proof. exact dump_deadlock. Qed.
Print Assumptions C126_refuted.

(** ** C127: a node that has its lock *)
(** no crash, and who writes is alone *)
Theorem C127_excludes ps is_ i j p q b :
  Forall starting ps ->
  let gs := lgoros (lrun is_ (armed ps)) in
  nth_error gs i = Some p -> p <> LFatal /\
  (p = LBody KWrite b -> b = true /\
     (j <> i -> nth_error gs j = Some q ->
        (forall k b', q <> LBody k b') /\ (forall b1 b2, q <> LBody2 b1 b2))).
Proof. exact (@lock_excludes ps is_ i j p q b). Qed.
Print Assumptions C127_excludes.
(** without Dump, or without writers, somebody can always go on *)
Theorem C127_goes_on ps is_ ok i p :
  Forall starting ps -> Forall (fun p => of_kind ok p = true) ps -> calm_kinds ok ->
  let x := lrun is_ (armed ps) in
  nth_error (lgoros x) i = Some p -> p <> LDone ->
  exists j q, nth_error (lgoros x) j = Some q /\ lmove (lcell x) q <> None.
Proof. exact (@lock_goes_on ps is_ ok i p). Qed.
Print Assumptions C127_goes_on.
(** ... and, whatever has happened so far, all can still finish, in at most ten steps each *)
Theorem C127_finishes ps is_ ok :
  Forall starting ps -> Forall (fun p => of_kind ok p = true) ps -> calm_kinds ok ->
  exists is', length is' <= 10 * length ps /\ Forall (fun p => p = LDone) (lgoros (lrun (is_ ++ is') (armed ps))).
Proof. exact (@lock_finishes ps is_ ok). Qed.
Print Assumptions C127_finishes.
Example C127_case :
  let ps := [LTest KWrite; LTest KRead; LAdd; LTest KWrite] in
  let ok := fun k => match k with KDump => false | _ => true end in
  Forall starting ps /\ Forall (fun p => of_kind ok p = true) ps /\ calm_kinds ok /\
  lgoros (lrun [0; 1; 1; 1; 0; 0; 3; 3; 1; 2] (armed ps)) = [LWait 0; LDone; LDone; LEnter KWrite] /\
  lgoros (lrun [0; 1; 1; 1; 0; 0; 3; 3; 1; 2; 0; 0; 0; 3; 3; 3; 3; 3] (armed ps)) = [LDone; LDone; LDone; LDone].
Proof.
  split; [repeat constructor|]. split; [repeat constructor|]. split; [left; reflexivity|]. split; reflexivity.
Qed.
Example C127_readers :
  let ps := [LTest KDump; LTest KRead; LTest KDump] in
  let ok := fun k => match k with KWrite => false | _ => true end in
  Forall starting ps /\ Forall (fun p => of_kind ok p = true) ps /\ calm_kinds ok /\
  exists is_, lgoros (lrun is_ (armed ps)) = [LBody2 true true; LBody KRead true; LBody2 true true].
Proof.
  split; [repeat constructor|]. split; [repeat constructor|]. split; [right; reflexivity|].
  exists [0; 0; 0; 0; 0; 1; 1; 2; 2; 2; 2; 2]. reflexivity.
Qed.
