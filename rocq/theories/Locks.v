(** Model of the lock of one node, /repo/radix/node.go:53-71 (readLockFor, lockFor), and of what
    takes it: SetData and SetEmpty (node.go:111-137), Data (node.go:101-108), Query and getNode
    (trie.go:626, 716), dumpR with Data inside its own read lock (node.go:522-527), and TTL.Add,
    which makes the lock (trie.go:132-135).  The lock is a sync.RWMutex: a writer that waits for
    readers keeps new readers out.  Steps are atomic, memory is sequentially consistent. *)
From Coq Require Import List Bool Arith.
From Verif Require Import Ttl.
Import ListNotations.
Open Scope nat_scope.

(** sync.RWMutex: readers inside, a writer has announced itself, it is inside *)
Record mutex := Mx { readers : nat; pending : bool; held : bool }.
Definition new_mutex : mutex := Mx 0 false false.
(** nd.rw is a pointer to a mutex or nil *)
Record cell := Cell { rw : option nat; mutexes : list mutex }.

(** lockFor; readLockFor; readLockFor of dumpR, whose function calls Data *)
Inductive kind := KWrite | KRead | KDump.
Inductive lpc :=
| LTest (k : kind)                  (* if s.rw != nil *)
| LEnter (k : kind)                 (* s.rw.Lock(), s.rw.RLock() *)
| LWait (l : nat)                   (* Lock has announced itself and waits for the readers *)
| LBody (k : kind) (locked : bool)  (* the function runs *)
| LLeave (k : kind)                 (* s.rw.Unlock(), s.rw.RUnlock() *)
| LTest2 (locked : bool)            (* readLockFor of Data inside of dumpR *)
| LEnter2 (locked : bool)
| LBody2 (locked locked2 : bool)
| LLeave2 (locked : bool)
| LAdd                              (* TTL.Add: if nd.rw == nil *)
| LMake                             (* nd.rw = &sync.RWMutex{} *)
| LDone
| LFatal.                           (* unlock of an unlocked mutex, or nil *)

Definition after (locked : bool) (k : kind) : lpc := if locked then LLeave k else LDone.
Definition put_mutex (l : nat) (m : mutex) (c : cell) : cell := Cell (rw c) (set_nth l m (mutexes c)).
Definition current (c : cell) : option (nat * mutex) :=
  match rw c with
  | Some l => match nth_error (mutexes c) l with Some m => Some (l, m) | None => None end
  | None => None
  end.

(** RLock: kept out by a writer that has announced itself *)
Definition rlock (c : cell) (q : lpc) : option (cell * lpc) :=
  match current c with
  | Some (l, m) => if pending m then None else Some (put_mutex l (Mx (S (readers m)) (pending m) (held m)) c, q)
  | None => Some (c, LFatal)
  end.
Definition runlock (c : cell) (q : lpc) : option (cell * lpc) :=
  match current c with
  | Some (l, m) => match readers m with
                   | S r => Some (put_mutex l (Mx r (pending m) (held m)) c, q)
                   | 0 => Some (c, LFatal)
                   end
  | None => Some (c, LFatal)
  end.

(** one step; [None]: blocked or over *)
Definition lmove (c : cell) (p : lpc) : option (cell * lpc) :=
  match p with
  | LTest k => match rw c with Some _ => Some (c, LEnter k) | None => Some (c, LBody k false) end
  | LEnter KWrite =>
      match current c with
      | Some (l, m) => if pending m then None else Some (put_mutex l (Mx (readers m) true (held m)) c, LWait l)
      | None => Some (c, LFatal)
      end
  | LEnter k => rlock c (LBody k true)
  | LWait l =>
      match nth_error (mutexes c) l with
      | Some m => match readers m with
                  | 0 => Some (put_mutex l (Mx 0 (pending m) true) c, LBody KWrite true)
                  | S _ => None
                  end
      | None => None
      end
  | LBody KDump b => Some (c, LTest2 b)
  | LBody k b => Some (c, after b k)
  | LLeave KWrite =>
      match current c with
      | Some (l, m) => if held m then Some (put_mutex l (Mx (readers m) false false) c, LDone) else Some (c, LFatal)
      | None => Some (c, LFatal)
      end
  | LLeave _ => runlock c LDone
  | LTest2 b => match rw c with Some _ => Some (c, LEnter2 b) | None => Some (c, LBody2 b false) end
  | LEnter2 b => rlock c (LBody2 b true)
  | LBody2 b b2 => Some (c, if b2 then LLeave2 b else after b KDump)
  | LLeave2 b => runlock c (after b KDump)
  | LAdd => match rw c with Some _ => Some (c, LDone) | None => Some (c, LMake) end
  | LMake => Some (Cell (Some (length (mutexes c))) (mutexes c ++ [new_mutex]), LDone)
  | LDone | LFatal => None
  end.

Record lstate := Ls { lcell : cell; lgoros : list lpc }.
(** goroutine [i] takes a step; if it cannot, nothing happens *)
Definition lstep (i : nat) (x : lstate) : lstate :=
  match nth_error (lgoros x) i with
  | Some p => match lmove (lcell x) p with
              | Some (c, q) => Ls c (set_nth i q (lgoros x))
              | None => x
              end
  | None => x
  end.
Definition lrun (is_ : list nat) (x : lstate) : lstate := fold_left (fun x i => lstep i x) is_ x.

(** a node without and with a lock, nobody inside *)
Definition bare (ps : list lpc) : lstate := Ls (Cell None []) ps.
Definition armed (ps : list lpc) : lstate := Ls (Cell (Some 0) [new_mutex]) ps.
