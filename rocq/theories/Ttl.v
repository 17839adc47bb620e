(** Model of the time-to-live jobs, /repo/radix/trie.go:71-257, and node.SetTTL, node.go:120-122.

    A world holds trees, tries (the Go values of type [*trieS], each a handle on a tree), TTL
    managers (type TTL) and jobs (one goroutine with a timer each).  API calls are atomic steps;
    the goroutines of jobs advance in steps of their own, in any order.  A node pointer is a pair
    of a tree and an identity.  A node that has left its tree keeps the flag and the full path it
    had then.  The callback of a job is only recorded, what it does is not modelled. *)
From Coq Require Import List NArith Bool Arith.
From Verif Require Import GoStr Node Trie Spec ApiRefine.
Import ListNotations.
Open Scope nat_scope.

(** trieS, trie.go:34-41 *)
Record trieh := TH { th_tree : nat; th_h : hdl; th_present : bool; th_ttl : option nat }.
(** TTL, trie.go:71-85: treevec[0], and whether the context is cancelled *)
Record mgr := Mgr { mg_trie : nat; mg_done : bool }.
(** the goroutine of a job, trie.go:150-170: before the select, blocked in it, after the timer case
    was chosen, returned *)
Inductive jstat := JStart | JWait | JFired | JOver.
Record job := Job { j_mgr : nat; j_tree : nat; j_id : nat; j_branch : bool; j_key : gostring;
                    j_elapsed : bool; j_stat : jstat; j_cb : option nat }.
Record world := World { trees : list tr; tries : list trieh; mgrs : list mgr; jobs : list job }.

Fixpoint set_nth {A} (i : nat) (x : A) (l : list A) : list A :=
  match l, i with
  | [], _ => []
  | _ :: t, 0 => x :: t
  | y :: t, S i => y :: set_nth i x t
  end.
Definition find_id (id : nat) (t : tr) : option node := find (fun n => nid n =? id) (walk (root t)).

(** what the pointers of the jobs see after tree [ti] became [t] *)
Definition see (ti : nat) (t : tr) (j : job) : job :=
  if j_tree j =? ti then
    match find_id (j_id j) t with
    | Some n => Job (j_mgr j) (j_tree j) (j_id j) (isBranch n) (npathS n) (j_elapsed j) (j_stat j) (j_cb j)
    | None => j
    end
  else j.
Definition put_tree (ti : nat) (t : tr) (w : world) : world :=
  World (set_nth ti t (trees w)) (tries w) (mgrs w) (map (see ti t) (jobs w)).
Definition put_job (i : nat) (j : job) (w : world) : world :=
  World (trees w) (tries w) (mgrs w) (set_nth i j (jobs w)).
Definition with_stat (j : job) (e : bool) (s : jstat) : job :=
  Job (j_mgr j) (j_tree j) (j_id j) (j_branch j) (j_key j) e s (j_cb j).

(** [s.ttlpresent.CompareAndSwap(0, 1)] and newttls, trie.go:102-112, 221-223: the manager to use *)
Definition ensure (i : nat) (th : trieh) (w : world) : option nat * world :=
  if th_present th then (th_ttl th, w)
  else let m := length (mgrs w) in
       (Some m, World (trees w) (set_nth i (TH (th_tree th) (th_h th) true (Some m)) (tries w))
                      (mgrs w ++ [Mgr i false]) (jobs w)).
(** TTL.Add, trie.go:132-137, with the adder of run, trie.go:140-149: [short] is duration < 200ns,
    for which there is no job.  After cancellation nobody receives from the channel: None. *)
Definition add_job (m : nat) (ti : nat) (n : node) (short : bool) (cb : option nat) (w : world) : option world :=
  match nth_error (mgrs w) m with
  | Some g =>
      if mg_done g then None
      else if short then Some w
      else Some (World (trees w) (tries w) (mgrs w)
                       (jobs w ++ [Job m ti (nid n) (isBranch n) (npathS n) false JStart cb]))
  | None => None
  end.

Inductive cmd :=
| COp (i : nat) (o : op)                                    (* a call on trie i *)
| CSetTTL (i : nat) (path : gostring) (short : bool) (cb : option nat)
| CFast (i ti id : nat) (short : bool) (cb : option nat)    (* SetTTLFast with a node of tree ti *)
| CView (i : nat) (h : hdl)                                 (* dupS: WithPrefix, N, R, BR, ... *)
| CHandle (i : nat) (h : hdl)                               (* SetPrefix, SetDelimiter *)
| CCopy (i : nat)                                           (* Dup *)
| CClose (i : nat)                                          (* trieS.Close *)
| CStoreClose (i : nat)                                     (* storeS.Close, store.go:220-224 *)
| CTick (j : nat)                                           (* the timer of job j rings *)
| CEnter (j : nat) (timer : bool)                           (* the goroutine reaches the select *)
| CRun (j : nat).                                           (* the body of the timer case *)

Section WithFuel.
Variable rf : nat.
Variable clone : gval -> gval.

(** dupS, trie.go:244-257 with TTL.dupS, trie.go:114-124 *)
Definition dup_trie (th : trieh) (ti : nat) (h : hdl) (w : world) : world :=
  if th_present th then
    match th_ttl th with
    | Some m =>
        match nth_error (mgrs w) m with
        | Some g => World (trees w) (tries w ++ [TH ti h true (Some (length (mgrs w)))])
                          (mgrs w ++ [Mgr (mg_trie g) false]) (jobs w)
        | None => w
        end
    | None => w
    end
  else World (trees w) (tries w ++ [TH ti h false None]) (mgrs w) (jobs w).

(** the timer case, trie.go:155-164: [isBranch] and [pathS] of the node as it is now *)
Definition ring (j : job) (w : world) : res world :=
  if j_branch j then
    match nth_error (mgrs w) (j_mgr j) with
    | Some g =>
        match nth_error (tries w) (mg_trie g) with
        | Some th =>
            match nth_error (trees w) (th_tree th) with
            | Some t => do (t', _) <- Remove rf (th_h th) t (j_key j); Ok (put_tree (th_tree th) t' w)
            | None => Ok w
            end
        | None => Ok w
        end
    | None => Ok w
    end
  else
    match nth_error (trees w) (j_tree j) with
    | Some t => Ok (put_tree (j_tree j) (Tr (upd (j_id j) setEmpty (root t)) (next t)) w)
    | None => Ok w
    end.

(** one step; [None]: this step is not possible *)
Definition wstep (w : world) (c : cmd) : option (res world) :=
  match c with
  | COp i o =>
      match nth_error (tries w) i with
      | Some th => match nth_error (trees w) (th_tree th) with
                   | Some t => Some (do (t', _) <- t_step rf (th_h th) t o; Ok (put_tree (th_tree th) t' w))
                   | None => None
                   end
      | None => None
      end
  | CSetTTL i path short cb =>                              (* trie.go:212-227 *)
      match nth_error (tries w) i with
      | Some th =>
          match nth_error (trees w) (th_tree th) with
          | Some t =>
              match search rf (th_h th) t (full (th_h th) path) with
              | Ok r =>
                  match s_node r, s_partial r with
                  | Some n, false =>
                      match ensure i th w with
                      | (Some m, w1) => option_map Ok (add_job m (th_tree th) n short cb w1)
                      | (None, _) => Some Panic
                      end
                  | _, _ => Some (Ok w)
                  end
              | Panic => Some Panic
              | Fuel => Some Fuel
              end
          | None => None
          end
      | None => None
      end
  | CFast i ti id short cb =>                               (* trie.go:229-239 *)
      match nth_error (tries w) i, nth_error (trees w) ti with
      | Some th, Some t =>
          match find_id id t, ensure i th w with
          | Some n, (Some m, w1) => option_map Ok (add_job m ti n short cb w1)
          | Some _, (None, _) => Some Panic
          | None, _ => None
          end
      | _, _ => None
      end
  | CView i h => match nth_error (tries w) i with Some th => Some (Ok (dup_trie th (th_tree th) h w)) | None => None end
  | CHandle i h =>
      match nth_error (tries w) i with
      | Some th => Some (Ok (World (trees w) (set_nth i (TH (th_tree th) h (th_present th) (th_ttl th)) (tries w)) (mgrs w) (jobs w)))
      | None => None
      end
  | CCopy i =>
      match nth_error (tries w) i with
      | Some th =>
          match nth_error (trees w) (th_tree th) with
          | Some t => let w1 := World (trees w ++ [Dup clone t]) (tries w) (mgrs w) (jobs w) in
                      Some (Ok (dup_trie th (length (trees w)) (th_h th) w1))
          | None => None
          end
      | None => None
      end
  | CClose i =>                                             (* trie.go:182-188, context cancellation *)
      match nth_error (tries w) i with
      | Some th =>
          match th_present th, th_ttl th with
          | true, Some m =>
              match nth_error (mgrs w) m with
              | Some g =>
                  Some (Ok (World (trees w) (set_nth i (TH (th_tree th) (th_h th) false (th_ttl th)) (tries w))
                                  (set_nth m (Mgr (mg_trie g) true) (mgrs w))
                                  (map (fun j => match j_stat j with
                                                 | JWait => if j_mgr j =? m then with_stat j (j_elapsed j) JOver else j
                                                 | _ => j
                                                 end) (jobs w))))
              | None => None
              end
          | _, _ => Some (Ok w)
          end
      | None => None
      end
  | CStoreClose i => match nth_error (tries w) i with Some _ => Some (Ok w) | None => None end
  | CTick j =>
      match nth_error (jobs w) j with
      | Some x =>
          if j_elapsed x then None
          else Some (Ok (put_job j (with_stat x true (match j_stat x with JWait => JFired | s => s end)) w))
      | None => None
      end
  | CEnter j timer =>
      match nth_error (jobs w) j with
      | Some x =>
          match j_stat x, nth_error (mgrs w) (j_mgr x) with
          | JStart, Some g =>
              let s := match j_elapsed x, mg_done g with
                       | true, true => if timer then JFired else JOver
                       | true, false => JFired
                       | false, true => JOver
                       | false, false => JWait
                       end in
              Some (Ok (put_job j (with_stat x (j_elapsed x) s) w))
          | _, _ => None
          end
      | None => None
      end
  | CRun j =>
      match nth_error (jobs w) j with
      | Some x => match j_stat x with
                  | JFired => Some (ring x (put_job j (with_stat x (j_elapsed x) JOver) w))
                  | _ => None
                  end
      | None => None
      end
  end.

(** a schedule; steps that are not possible are skipped *)
Fixpoint wrun (cs : list cmd) (w : world) : res world :=
  match cs with
  | [] => Ok w
  | c :: r => match wstep w c with
              | Some x => do w1 <- x; wrun r w1
              | None => wrun r w
              end
  end.
End WithFuel.

(** one empty tree with one trie, no jobs *)
Definition world0 (h : hdl) : world := World [newTrie] [TH 0 h false None] [] [].
