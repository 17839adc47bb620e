(** Statements of the properties C182 and C183. *)
From Coq Require Import String List NArith Bool Arith Lia.
From Verif Require Import GoStr Utf8 Provider FileWatch FileWatchProofs FilePath FilePathProofs.
Import ListNotations.
Open Scope nat_scope.
Local Notation b s := (s2b s%string).

(** ** C182: Watch and Close *)
Theorem C182_calls es i : exists rest, calls_of i (wrun es w0) ++ rest = file_loop [] 0%N (received i es).
Proof. exact (calls_prefix es i). Qed.
Print Assumptions C182_calls.
Theorem C182_delivered es i r : nth_error (w_runs (wrun es w0)) i = Some r -> running r = true -> w_flag (wrun es w0) = true ->
  exists k, calls_of i (wrun (es ++ repeat (Step i) k) w0) = file_loop [] 0%N (received i es).
Proof. exact (calls_drained es i r). Qed.
Print Assumptions C182_delivered.
Theorem C182_one es : forallb no_close es = true -> exists i, (forall c, In c (w_calls (wrun es w0)) -> fst c = i) /\
  (forall j r, nth_error (w_runs (wrun es w0)) j = Some r -> running r = true -> j = i).
Proof. exact (one_watcher es). Qed.
Print Assumptions C182_one.
Theorem C182_closed es i s : forallb no_watch es = true -> w_flag s = false -> started s ->
  length (calls_of i (wrun es s)) <= length (calls_of i s) + at_most s i.
Proof. exact (closed_calls es i s). Qed.
Print Assumptions C182_closed.
Theorem C182_dead es s : forallb no_close es = true -> w_flag s = true -> quiet s -> w_calls (wrun es s) = w_calls s.
Proof. exact (never_again es s). Qed.
Print Assumptions C182_dead.

(** an event of the file that is reported, at a time *)
Definition change (t : N) (what : gostring) : fmsg := FEvent (FEv t what true false true true).
Definition removal (t : N) : fmsg := FEvent (FEv t (b "REMOVE") true true false false).
Definition in_loop (i : nat) : list wev := [Step i; Step i].
Theorem C182_refuted :
  (* Close returns, and the callback is called for a change that comes afterwards *)
  (exists es s, s = wrun (es ++ [DoClose]) w0 /\ started s /\ w_calls s = [] /\ w_calls (wrun [Arrive (change 9 (b "WRITE")); Step 0] s) = [(0, FcChange)]) /\
  (* Close and Watch again: one change is reported twice, with the callback that was given first, too *)
  (exists es, w_calls (wrun (es ++ [DoClose; DoWatch; Step 1; Step 1; Arrive (change 9 (b "WRITE")); Step 0; Step 1]) w0) = [(0, FcChange); (1, FcChange)]) /\
  (* the context ends; no later Watch reports anything *)
  (exists es s, s = wrun (es ++ [Cancel 0; Quit 0]) w0 /\ forall more, forallb no_close more = true -> w_calls (wrun more s) = []) /\
  (* the file is removed; no later Watch reports anything *)
  (exists es s, s = wrun (es ++ [Arrive (removal 9); Step 0]) w0 /\ w_calls s = [(0, FcError)] /\
     forall more, forallb no_close more = true -> w_calls (wrun more s) = [(0, FcError)]) /\
  (* Close after Watch, before the goroutine runs: it watches on, for good *)
  (exists s, s = wrun [DoWatch; DoClose; Step 0; Step 0] w0 /\ w_flag s = true /\
     forall ms, exists k, calls_of 0 (wrun ([DoWatch; DoClose; Step 0; Step 0] ++ map Arrive ms ++ repeat (Step 0) k) w0) = file_loop [] 0%N ms).
Proof.
  split; [|split; [|split; [|split]]].
  - exists (DoWatch :: in_loop 0). eexists. split; [reflexivity|]. split; [|split; vm_compute; reflexivity]. intros [|[|j]] r H; vm_compute in H; inversion H; discriminate.
  - exists (DoWatch :: in_loop 0). vm_compute. reflexivity.
  - exists (DoWatch :: in_loop 0). eexists. split; [reflexivity|]. intros more NC. rewrite never_again; auto. intros [|[|j]] r H; vm_compute in H; inversion H; reflexivity.
  - exists (DoWatch :: in_loop 0). eexists. split; [reflexivity|]. split; [vm_compute; reflexivity|]. intros more NC. rewrite never_again; auto.
    intros [|[|j]] r H; vm_compute in H; inversion H; reflexivity.
  - eexists. split; [reflexivity|]. split; [vm_compute; reflexivity|]. intros ms.
    assert (R : forall ms, received 0 ([DoWatch; DoClose; Step 0; Step 0] ++ map Arrive ms) = ms).
    { clear. intros ms. cbn. induction ms as [|m ms IH]; cbn; [reflexivity|]. now rewrite IH. }
    assert (S : forall ms q, wrun (map Arrive ms) (Ws true [Run AtSelect [] 0 q false true] []) = Ws true [Run AtSelect [] 0 (q ++ ms) false true] []).
    { clear. induction ms as [|m ms IH]; intros q; cbn; [now rewrite app_nil_r|]. rewrite IH. now rewrite <- app_assoc. }
    assert (W : wrun ([DoWatch; DoClose; Step 0; Step 0] ++ map Arrive ms) w0 = Ws true [Run AtSelect [] 0 ms false true] []).
    { unfold wrun. rewrite fold_left_app. exact (S ms []). }
    destruct (calls_drained ([DoWatch; DoClose; Step 0; Step 0] ++ map Arrive ms) 0 (Run AtSelect [] 0 ms false true)) as (k & K).
    + rewrite W. reflexivity.
    + reflexivity.
    + rewrite W. reflexivity.
    + exists k. rewrite R in K. rewrite app_assoc. exact K.
Qed.
Print Assumptions C182_refuted.

(** *** cases *)
(** two calls of Watch, changes and repeated events: one goroutine reports, each change once *)
Definition busy : list wev :=
  [DoWatch; DoWatch; Step 1; Step 0; Step 1; Arrive (change 9 (b "WRITE")); Arrive (change 11 (b "WRITE")); Arrive (change 40 (b "WRITE")); Cancel 0;
   Step 1; Step 1; Step 1; Step 1].
Example C182_calls_case : calls_of 1 (wrun busy w0) = [FcChange] /\ file_loop [] 0%N (received 1 busy) = [FcChange; FcChange] /\ calls_of 0 (wrun busy w0) = [].
Proof. vm_compute. repeat split. Qed.
Example C182_delivered_case : exists r, nth_error (w_runs (wrun busy w0)) 1 = Some r /\ running r = true /\ w_flag (wrun busy w0) = true /\ r_queue r <> [].
Proof. vm_compute. eexists. repeat split. discriminate. Qed.
Example C182_one_case : forallb no_close busy = true /\ w_calls (wrun busy w0) = [(1, FcChange)].
Proof. vm_compute. split; reflexivity. Qed.
Example C182_closed_case : let s := wrun (busy ++ [DoClose]) w0 in started s /\ w_flag s = false /\ at_most s 1 = 1 /\ at_most s 0 = 0 /\
  length (calls_of 1 (wrun [Step 1; Step 1; Step 1] s)) = length (calls_of 1 s) + 1.
Proof. cbv zeta. split; [|vm_compute; repeat split]. intros [|[|[|j]]] r H; vm_compute in H; inversion H; discriminate. Qed.
Example C182_dead_case : let s := wrun (busy ++ [Cancel 1; Quit 1]) w0 in w_flag s = true /\ quiet s /\ w_calls s = [(1, FcChange)].
Proof. cbv zeta. split; [vm_compute; reflexivity|]. split; [|vm_compute; reflexivity]. intros [|[|[|j]]] r H; vm_compute in H; inversion H; reflexivity. Qed.

(** ** C183: which events are events of the file *)
Theorem C183_clean s t : s <> [] -> clean (clean s ++ slash :: t) = clean (s ++ slash :: t) /\ clean (clean s) = clean s.
Proof. intros H. split; [now apply clean_join|apply clean_clean]. Qed.
Print Assumptions C183_clean.
Theorem C183_inside file d t n : name (base_of file) -> name n -> name t -> follow links d (base_of file) = Some (inl t) ->
  exists real, real_path d file = Some real /\ (mine file real n = true <-> n = t \/ (n = base_of file /\ clean file = file)).
Proof. exact (mine_inside file d t n). Qed.
Print Assumptions C183_inside.
Theorem C183_away file d p c n : name (base_of file) -> name n -> follow links d (base_of file) = Some (inr (p, c)) ->
  (forall m, name m -> clean p <> clean (dir_of file ++ m)) ->
  exists real, real_path d file = Some real /\ (mine file real n = true <-> n = base_of file /\ clean file = file).
Proof. exact (mine_away file d p c n). Qed.
Print Assumptions C183_away.
Theorem C183_file file d0 : name (base_of file) -> (exists c0, d0 (base_of file) = Some (File c0)) ->
  exists real, real_path d0 file = Some real /\
  (forall d x c, name (dname x) -> d (base_of file) = Some (File c) -> content (ddo d x) (base_of file) <> content d (base_of file) -> mine file real (dname x) = true) /\
  (forall n, name n -> n <> base_of file -> mine file real n = false).
Proof.
  intros Nb E0. destruct (mine_inside file d0 (base_of file) (base_of file)) as (real & R & _); auto.
  { destruct E0 as (c0 & E0). unfold links. cbn [follow]. now rewrite E0. }
  exists real. split; [exact R|]. split.
  - intros d x c Nx E C. destruct (file_changes file d0 d x c Nb Nx E0 E C) as (real' & R' & M). congruence.
  - intros n Nn NE. destruct (file_others file d0 n Nb Nn E0 NE) as (real' & R' & M). congruence.
Qed.
Print Assumptions C183_file.
Theorem C183_link file d0 d t x : name (base_of file) -> name (dname x) -> name t -> clean file = file ->
  d0 (base_of file) = Some (Link t) -> d (base_of file) = Some (Link t) -> (exists c0, d0 t = Some (File c0)) -> (exists c, d t = Some (File c)) ->
  content (ddo d x) (base_of file) <> content d (base_of file) ->
  exists real, real_path d0 file = Some real /\ mine file real (dname x) = true.
Proof. exact (link_changes file d0 d t x). Qed.
Print Assumptions C183_link.

(** a directory with two versions of a file and links *)
Definition versions : direct := fun n =>
  if str_eqb n (b "v1") then Some (File 1) else if str_eqb n (b "v2") then Some (File 2)
  else if str_eqb n (b "cur") then Some (Link (b "v1")) else if str_eqb n (b "app.json") then Some (Link (b "cur"))
  else if str_eqb n (b "my.json") then Some (Link (b "v1")) else None.
Ltac is_name := repeat split; try discriminate; intros X; vm_compute in X; intuition discriminate.
Theorem C183_refuted :
  (* the path is not clean and names a link: the link is made anew, the content changes, the event is not taken *)
  (exists file real x, real_path versions file = Some real /\ name (base_of file) /\ name (dname x) /\ dname x = base_of file /\
     content (ddo versions x) (base_of file) <> content versions (base_of file) /\ mine file real (dname x) = false) /\
  (* a clean path, a link to a link: the second link is made anew, the content changes, the event is not taken *)
  (exists file real x, real_path versions file = Some real /\ clean file = file /\ name (base_of file) /\ name (dname x) /\
     content (ddo versions x) (base_of file) <> content versions (base_of file) /\ mine file real (dname x) = false) /\
  (* a clean path, the link is made anew and that is noticed: from then on the writes to the file it leads to are not taken, and those to
     the file it led to before are *)
  (exists file real x y z, real_path versions file = Some real /\ clean file = file /\ mine file real (dname x) = true /\
     content (ddo (ddo versions x) y) (base_of file) <> content (ddo versions x) (base_of file) /\ mine file real (dname y) = false /\
     content (ddo (ddo versions x) z) (base_of file) = content (ddo versions x) (base_of file) /\ mine file real (dname z) = true).
Proof.
  split; [|split].
  - exists (b "./my.json"), (b "v1"), (Put (b "my.json") (Link (b "v2"))). repeat match goal with |- _ /\ _ => split end;
      try (vm_compute; reflexivity); try (vm_compute; discriminate); is_name.
  - exists (b "/etc/cfg/app.json"), (b "/etc/cfg/v1"), (Put (b "cur") (Link (b "v2"))). repeat match goal with |- _ /\ _ => split end;
      try (vm_compute; reflexivity); try (vm_compute; discriminate); is_name.
  - exists (b "/etc/cfg/my.json"), (b "/etc/cfg/v1"), (Put (b "my.json") (Link (b "v2"))), (Write (b "v2") 7), (Write (b "v1") 8).
    repeat match goal with |- _ /\ _ => split end; try (vm_compute; reflexivity); vm_compute; discriminate.
Qed.
Print Assumptions C183_refuted.

(** *** cases *)
Example C183_clean_case : clean (b "/a//b/../c/./d/") = b "/a/c/d" /\ clean (b "../x/../../y") = b "../../y" /\ clean (b "/../") = b "/" /\ clean (b "") = b "." /\
  clean (b "a/..") = b ".".
Proof. vm_compute. repeat split. Qed.
Example C183_inside_case : let file := b "conf//my.json" in name (base_of file) /\ follow links versions (base_of file) = Some (inl (b "v1")) /\
  real_path versions file = Some (b "conf/v1") /\ mine file (b "conf/v1") (b "v1") = true /\ mine file (b "conf/v1") (b "my.json") = false.
Proof. cbv zeta. split; [is_name|]. vm_compute. repeat split. Qed.
Example C183_away_case : let file := b "conf/x" in let d := fun n => if str_eqb n (b "x") then Some (Away (b "/srv/x") 5) else None in
  follow links d (base_of file) = Some (inr (b "/srv/x", 5%N)) /\ (forall m, name m -> clean (b "/srv/x") <> clean (dir_of file ++ m)) /\
  mine file (b "/srv/x") (b "x") = true.
Proof.
  cbv zeta. split; [vm_compute; reflexivity|]. split; [|vm_compute; reflexivity]. intros m _ E. apply (f_equal rooted) in E. rewrite !clean_rooted in E. discriminate.
Qed.
Example C183_file_case : let file := b "../conf/./v1" in name (base_of file) /\ real_path versions file = Some (b "../conf/v1") /\ mine file (b "../conf/v1") (b "v1") = true /\
  content (ddo versions (Write (b "v1") 9)) (base_of file) <> content versions (base_of file).
Proof. cbv zeta. split; [is_name|]. split; [vm_compute; reflexivity|]. split; [vm_compute; reflexivity|]. vm_compute. discriminate. Qed.
Example C183_link_case : let file := b "conf/my.json" in clean file = file /\ versions (base_of file) = Some (Link (b "v1")) /\
  content (ddo versions (Put (b "my.json") (Link (b "v2")))) (base_of file) <> content versions (base_of file).
Proof. cbv zeta. split; [vm_compute; reflexivity|]. split; [vm_compute; reflexivity|]. vm_compute. discriminate. Qed.
