(** Goroutines that use the store (Set and Remove with their marks and handlers, store.go:246-260, 329-346, 392-401) and the calls
    of HeapWork.v, one call after the other, each in a section of the tree of its own. *)
From Coq Require Import List NArith Bool Arith.
From Verif Require Import GoStr Utf8 Node NodeWf MatchProofs Trie Store Heap HeapWalk HeapGet HeapRemove HeapStore HeapLin HeapWork.
Import ListNotations.
Open Scope nat_scope.

(** a call of the trie, Set of the store and Remove of the store, by some handle *)
Inductive scall := It (it : item) | StSet (s : store) (p : gostring) (v : gval) | StRm (s : store) (p : gostring).
(** what it gives: the reply; the old value and the calls of handlers; whether it was removed and the calls of handlers *)
Inductive sreply := Rep (x : reply) | Told (old : gval) (es : list ev) | Gone (ok : bool) (es : list ev).

(** ** the code *)
Section Code.
Variables (grow : nat -> nat) (rf dep rt : nat).
Definition p_call (c : scall) : prog sreply :=
  match c with
  | It it => let* x := code_i grow rf dep rt it in Ret (Rep x)
  | StSet s p v => let* x := p_storeSet grow rf dep s rt p v in Ret (Told (fst x) (snd x))
  | StRm s p => let* x := p_storeRemove grow rf dep s rt p in Ret (Gone (fst x) (snd x))
  end.
Fixpoint p_calls (cs : list scall) : prog (list sreply) :=
  match cs with
  | [] => Ret []
  | c :: cs => let* y := p_call c in let* ys := p_calls cs in Ret (y :: ys)
  end.
End Code.

(** ** the same calls one after the other, on the tree *)
Section Alone.
Variable rf : nat.
Definition does_c (t : tr) (c : scall) (t' : tr) (y : sreply) : Prop :=
  match c with
  | It it => exists x, does_i rf t it t' x /\ y = Rep x
  | StSet s p v => exists id old es, st_Set rf s t p v = Ok (t', id, old, es) /\ y = Told old es
  | StRm s p => exists b es, st_Remove rf s t p = Ok (t', b, es) /\ y = Gone b es
  end.
Inductive does_cs : tr -> list scall -> tr -> list sreply -> Prop :=
| dc_nil t : does_cs t [] t []
| dc_cons t c t1 y cs t2 ys : does_c t c t1 y -> does_cs t1 cs t2 ys -> does_cs t (c :: cs) t2 (y :: ys).
End Alone.

(** ** sections *)
(** the call stays at or below the node with the key [k].  Set of the store looks for the key first, with the blanks that it has. *)
Definition cstays (R : node) (k : key_t) (c : scall) : Prop :=
  match c with
  | It it => stays R k it
  | StSet s p v => stays R k (Op (DoGet (so_h s) p)) /\ stays R k (Op (DoSet (so_h s) p v))
  | StRm s p => stays R k (Rm (so_h s) p)
  end.
(** a goroutine is the key of its section, its calls and what it is given when it runs alone on the tree [t] *)
Definition ckeeps (R : node) (g : key_t * list scall * list sreply) : Prop :=
  (exists m, In (fst (fst g), m) (ents [] R)) /\ Forall (cstays R (fst (fst g))) (snd (fst g)).
Definition capart (gs : list (key_t * list scall * list sreply)) : Prop :=
  forall i j g g', i <> j -> nth_error gs i = Some g -> nth_error gs j = Some g' -> ~ exists z, fst (fst g') = fst (fst g) ++ z.
Definition calone (rf : nat) (t : tr) (g : key_t * list scall * list sreply) : Prop := exists t', does_cs rf t (snd (fst g)) t' (snd g).
(** calls with delimiters from [D], and keys that are no patterns for any of them *)
Definition ctame (D : rune -> Prop) (c : scall) : Prop :=
  match c with
  | It it => tame D it
  | StSet s p v => tame D (Op (DoSet (so_h s) p v))
  | StRm s p => D (hdelim (so_h s))
  end.
