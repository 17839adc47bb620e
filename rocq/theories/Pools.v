(** The pools of buffers (radix/trie.go:294-377, store.go:178-216) and of match contexts (radix/trie.go:760-778):
    goroutines that take objects from a sync.Pool, use them and put them back, one access at a time.

    sync.Pool is modelled by its contract: Get gives some object that was put and not taken since, or a new one; the
    collector may drop objects from the pool at any time.  A buffer is the bytes that were written and not reset; its
    capacity is whatever Cap answers.  String copies the bytes. *)
From Coq Require Import List NArith Bool Arith.
From Verif Require Import GoStr Utf8 Node Trie.
Import ListNotations.
Open Scope nat_scope.

Inductive pprog (V A : Type) :=
| PRet (x : A)
| PGet (k : nat -> pprog V A)                       (* pool.Get *)
| PUpd (o : nat) (f : V -> V) (k : pprog V A)       (* a write to the object *)
| PRead (o : nat) (k : V -> pprog V A)              (* a read of the object *)
| PAsk (k : nat -> pprog V A)                       (* a number that is not modelled, such as Cap *)
| PPut (o : nat) (k : pprog V A).                   (* pool.Put *)
Arguments PRet {V A}. Arguments PGet {V A}. Arguments PUpd {V A}. Arguments PRead {V A}. Arguments PAsk {V A}. Arguments PPut {V A}.
Fixpoint pthen {V A B} (p : pprog V A) (q : A -> pprog V B) : pprog V B :=
  match p with
  | PRet x => q x
  | PGet k => PGet (fun o => pthen (k o) q)
  | PUpd o f k => PUpd o f (pthen k q)
  | PRead o k => PRead o (fun v => pthen (k v) q)
  | PAsk k => PAsk (fun n => pthen (k n) q)
  | PPut o k => PPut o (pthen k q)
  end.

(** the objects, those in the pool, the number of objects, the goroutines *)
Record world (V A : Type) := World { w_mem : nat -> V; w_pool : list nat; w_next : nat; w_procs : list (pprog V A) }.
Arguments World {V A}. Arguments w_mem {V A}. Arguments w_pool {V A}. Arguments w_next {V A}. Arguments w_procs {V A}.
(** what happens next: goroutine [i] takes a step, [c] being the choice or the answer, or the pool drops its [c]-th object *)
Inductive event := Go (i c : nat) | Drop (c : nat).
Fixpoint del {A} (i : nat) (l : list A) : list A :=
  match i, l with O, _ :: l => l | S i, x :: l => x :: del i l | _, [] => [] end.
Fixpoint sub_nth {A} (i : nat) (x : A) (l : list A) : list A :=
  match i, l with O, _ :: l => x :: l | S i, y :: l => y :: sub_nth i x l | _, [] => [] end.
Definition store_at {V} (m : nat -> V) (o : nat) (v : V) : nat -> V := fun a => if a =? o then v else m a.

Section Play.
Context {V A : Type}.
Variable fresh : V.      (* what New gives *)
Definition happen (e : event) (w : world V A) : world V A :=
  match e with
  | Drop c => World (w_mem w) (del c (w_pool w)) (w_next w) (w_procs w)
  | Go i c =>
      match nth_error (w_procs w) i with
      | None | Some (PRet _) => w
      | Some (PGet k) =>
          match nth_error (w_pool w) c with
          | Some o => World (w_mem w) (del c (w_pool w)) (w_next w) (sub_nth i (k o) (w_procs w))
          | None => World (store_at (w_mem w) (w_next w) fresh) (w_pool w) (S (w_next w)) (sub_nth i (k (w_next w)) (w_procs w))
          end
      | Some (PUpd o f k) => World (store_at (w_mem w) o (f (w_mem w o))) (w_pool w) (w_next w) (sub_nth i k (w_procs w))
      | Some (PRead o k) => World (w_mem w) (w_pool w) (w_next w) (sub_nth i (k (w_mem w o)) (w_procs w))
      | Some (PAsk k) => World (w_mem w) (w_pool w) (w_next w) (sub_nth i (k c) (w_procs w))
      | Some (PPut o k) => World (w_mem w) (o :: w_pool w) (w_next w) (sub_nth i k (w_procs w))
      end
  end.
Definition happens (es : list event) (w : world V A) : world V A := fold_left (fun w e => happen e w) es w.
(** before anything has happened *)
Definition begin (ps : list (pprog V A)) : world V A := World (fun _ => fresh) [] 0 ps.
End Play.

(** ** buffers *)
Definition buffer := gostring.
Notation bprog := (pprog buffer).
(** WriteString and WriteByte: byte by byte *)
Fixpoint p_bytes {A} (o : nat) (s : gostring) (k : bprog A) : bprog A :=
  match s with [] => k | c :: s => PUpd o (fun v => v ++ [c]) (p_bytes o s k) end.
(** maxPrefixBufferSize, trie.go:291 *)
Definition maxSize : N := 64 * 1024 * 1024 - 64.
(** deferPoolGet, trie.go:302-307 *)
Definition p_giveBack {A} (o : nat) (k : bprog A) : bprog A :=
  PUpd o (fun _ => []) (PAsk (fun cap => if (N.of_nat cap <? maxSize)%N then PPut o k else k)).
(** UsePool, trie.go:309-314: String is evaluated before the deferred call *)
Definition p_UsePool (fn : nat -> bprog unit) : bprog gostring :=
  PGet (fun o => pthen (fn o) (fun _ => PRead o (fun s => p_giveBack o (PRet s)))).
(** the loop of Join, trie.go:353-361 *)
Fixpoint p_parts (d : rune) (wrote : bool) (args : list gostring) (o : nat) : bprog unit :=
  match args with
  | [] => PRet tt
  | it :: rest =>
      if is_nil it then p_parts d wrote rest o
      else p_bytes o ((if wrote then [delim_byte d] else []) ++ it) (p_parts d true rest o)
  end.
(** Join, trie.go:340-377 *)
Fixpoint p_Join (d : rune) (args : list gostring) : bprog gostring :=
  match args with
  | [] => PRet []
  | [a] => PRet a
  | a :: rest => if is_nil a then p_Join d rest else p_UsePool (p_parts d false args)
  end.
(** join1, trie.go:316-338 *)
Definition p_join1 (d : rune) (pre : gostring) (args : list gostring) : bprog gostring :=
  if is_nil pre then p_Join d args
  else match args with
       | [] => PRet pre
       | _ => PGet (fun o => p_bytes o pre (pthen (p_parts d true args o) (fun _ => PRead o (fun s => p_giveBack o (PRet s)))))
       end.
(** storeS.join, store.go:191-216, with its own pool and without the limit *)
Fixpoint p_storeJoin (d : rune) (args : list gostring) : bprog gostring :=
  match args with
  | [] => PRet []
  | [a] => PRet a
  | a :: rest =>
      if is_nil a then p_storeJoin d rest
      else PGet (fun o => pthen (p_parts d false args o) (fun _ => PRead o (fun s => PUpd o (fun _ => []) (PPut o (PRet s)))))
  end.

(** ** match contexts *)
Record matchCtx := Ctx { c_path : gostring; c_delim : rune }.
Notation cprog := (pprog matchCtx).
(** getMatchCtx and putBack, trie.go:760-765: a context is put back as it is *)
Definition p_getMatchCtx {A} (word : gostring) (d : rune) (k : nat -> cprog A) : cprog A :=
  PGet (fun o => PUpd o (fun v => Ctx word (c_delim v)) (PUpd o (fun v => Ctx (c_path v) d) (k o))).
(** what search does with it, trie.go:731-758: matchR reads the delimiter, time and again; the loop that climbs writes the
    shorter path *)
Inductive ctx_use := UseDelim | SetPath (w : gostring).
Fixpoint p_uses (o : nat) (us : list ctx_use) : cprog (list rune) :=
  match us with
  | [] => PRet []
  | UseDelim :: us => PRead o (fun v => pthen (p_uses o us) (fun l => PRet (c_delim v :: l)))
  | SetPath w :: us => PUpd o (fun v => Ctx w (c_delim v)) (p_uses o us)
  end.
Definition p_withCtx (word : gostring) (d : rune) (us : list ctx_use) : cprog (list rune) :=
  p_getMatchCtx word d (fun o => pthen (p_uses o us) (fun l => PPut o (PRet l))).

(** ** goroutines *)
Inductive job := JJoin (d : rune) (args : list gostring) | JJoin1 (d : rune) (pre : gostring) (args : list gostring)
  | JUse (parts : list gostring).                   (* UsePool with a function that writes *)
Fixpoint p_writes (o : nat) (l : list gostring) : bprog unit :=
  match l with [] => PRet tt | s :: l => p_bytes o s (p_writes o l) end.
Definition p_job (j : job) : bprog gostring :=
  match j with
  | JJoin d args => p_Join d args
  | JJoin1 d pre args => p_join1 d pre args
  | JUse l => p_UsePool (fun o => p_writes o l)
  end.
(** one after the other *)
Fixpoint p_all {V A B} (f : A -> pprog V B) (l : list A) : pprog V (list B) :=
  match l with
  | [] => PRet []
  | x :: l => pthen (f x) (fun y => pthen (p_all f l) (fun ys => PRet (y :: ys)))
  end.
