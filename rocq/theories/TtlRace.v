(** Model of SetTTL, Close and the making of views as sequences of atomic steps, for calls that run
    at the same time: /repo/radix/trie.go:102-149, 182-188, 212-257.

    One trie.  [present] is s.ttlpresent, [ttls] is s.ttls; a manager is its context (cancelled or
    not) and the goroutine of run (in its loop or returned).  The looking up of the node and the body
    of the jobs are left out.  Memory is sequentially consistent. *)
From Coq Require Import List Bool Arith.
From Verif Require Import Ttl.
Import ListNotations.
Open Scope nat_scope.

Record manager := Man { m_cancelled : bool; m_returned : bool }.
Record shared := Sh { present : bool; ttls : option nat; managers : list manager }.

(** where a goroutine is *)
Inductive pc :=
| SCas                 (* SetTTL: s.ttlpresent.CompareAndSwap(0, 1), trie.go:221 *)
| SMake                (* s.ttls = newttls(s), trie.go:222 *)
| SLoad                (* s.ttls.Add: reading s.ttls, trie.go:224; then s.adder of it, :136 *)
| SSend (m : nat)      (* s.adder <- job, trie.go:136 *)
| KCas                 (* Close: s.ttlpresent.CompareAndSwap(1, 0), trie.go:183 *)
| KLoad                (* if s.ttls != nil { s.ttls.Close() }, trie.go:184-186, :126-128 *)
| VLoad                (* dupS: s.ttlpresent.Load() > 0, trie.go:252 *)
| VDup                 (* s.ttls.dupS(), trie.go:253, :114-124 *)
| Done
| Dead.                (* nil pointer dereference *)

Record state := St { mem : shared; goros : list pc }.

Inductive event :=
| Go (i : nat)         (* goroutine i takes its next step *)
| Loop (m : nat).      (* the goroutine of run of manager m sees done and returns, trie.go:176-177 *)

Definition new_manager : manager := Man false false.

(** one step of a goroutine; [None]: it is blocked (or over) *)
Definition move (s : shared) (p : pc) : option (shared * pc) :=
  match p with
  | SCas => if present s then Some (s, SLoad) else Some (Sh true (ttls s) (managers s), SMake)
  | SMake => Some (Sh (present s) (Some (length (managers s))) (managers s ++ [new_manager]), SLoad)
  | SLoad => match ttls s with Some m => Some (s, SSend m) | None => Some (s, Dead) end
  | SSend m =>
      match nth_error (managers s) m with
      | Some g => if m_returned g then None else Some (s, Done)
      | None => None
      end
  | KCas => if present s then Some (Sh false (ttls s) (managers s), KLoad) else Some (s, Done)
  | KLoad =>
      match ttls s with
      | Some m =>
          match nth_error (managers s) m with
          | Some g => Some (Sh (present s) (ttls s) (set_nth m (Man true (m_returned g)) (managers s)), Done)
          | None => None
          end
      | None => Some (s, Done)
      end
  | VLoad => if present s then Some (s, VDup) else Some (s, Done)
  | VDup => match ttls s with
            | Some _ => Some (Sh (present s) (ttls s) (managers s ++ [new_manager]), Done)
            | None => Some (s, Dead)
            end
  | Done | Dead => None
  end.

(** a step that is not possible leaves the state alone *)
Definition happen (e : event) (x : state) : state :=
  match e with
  | Go i =>
      match nth_error (goros x) i with
      | Some p => match move (mem x) p with
                  | Some (s, q) => St s (set_nth i q (goros x))
                  | None => x
                  end
      | None => x
      end
  | Loop m =>
      match nth_error (managers (mem x)) m with
      | Some g => if m_cancelled g
                  then St (Sh (present (mem x)) (ttls (mem x)) (set_nth m (Man true true) (managers (mem x)))) (goros x)
                  else x
      | None => x
      end
  end.
Definition happens (es : list event) (x : state) : state := fold_left (fun x e => happen e x) es x.

(** a trie nobody has called SetTTL on, and the goroutines that are about to call *)
Definition fresh (ps : list pc) : state := St (Sh false None []) ps.
