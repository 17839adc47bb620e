(** The settings of many handles on a store, and of a dummy store: who may change the prefix and the delimiter of whom. *)
From Coq Require Import String.
From Coq Require Import List NArith Bool Arith Lia.
From Verif Require Import GoStr Node Trie Dummy.
Import ListNotations.
Open Scope nat_scope.
Open Scope list_scope.

(** the calls that make a handle or change the settings of one; [i]: the handle they are made through.
    WithPrefix, WithPrefixReplaced, N, R, BR and Dup, store.go:439-487; SetPrefix, store.go:481-483; SetDelimiter,
    trie.go:824 (storeS embeds the trie) *)
Inductive hcall :=
| CWith (i : nat) (ps : list gostring) | CRepl (i : nat) (ps : list gostring) | CN (i : nat) | CR (i : nat) | CBR (i : nat)
| CDup (i : nat) | CSetPrefix (i : nat) (ps : list gostring) | CSetDelim (i : nat) (d : rune).
(** the handle a call is made through *)
Definition through (c : hcall) : nat :=
  match c with CWith i _ | CRepl i _ | CN i | CR i | CBR i | CDup i | CSetPrefix i _ | CSetDelim i _ => i end.

Fixpoint set_at {A} (i : nat) (x : A) (l : list A) : list A :=
  match l, i with [], _ => [] | _ :: l, 0 => x :: l | y :: l, S i => y :: set_at i x l end.

(** A store has a trie of its own (storeS.Trie), so the two are one cell here: its prefix, delimiter and mode.  Every maker
    allocates a storeS (dupS, store.go:138-147) with a new trieS (dupS, trie.go:244-256) that gets a copy of the settings;
    the new handle is the last of the list.  None: there is no such handle. *)
Definition hstep (c : hcall) (w : list hdl) : option (list hdl) :=
  match nth_error w (through c) with
  | None => None
  | Some h => Some
      match c with
      | CWith _ ps => w ++ [withPrefix h ps]
      | CRepl _ ps => w ++ [withPrefixReplaced h ps]
      | CN _ => w ++ [viewN h]
      | CR _ => w ++ [viewR h]
      | CBR _ => w ++ [viewBR h]
      | CDup _ => w ++ [h]
      | CSetPrefix i ps => set_at i (setPrefix h ps) w
      | CSetDelim i d => set_at i (setDelimiter h d) w
      end
  end.
Fixpoint hrun (cs : list hcall) (w : list hdl) : option (list hdl) :=
  match cs with
  | [] => Some w
  | c :: cs => match hstep c w with None => None | Some w' => hrun cs w' end
  end.

(** A dummy store: WithPrefix, WithPrefixReplaced, N, R and BR return the receiver, dummy.go:336-337, 347-349, so the new
    handle is the same pointer.  [fst]: the dummies that exist; [snd]: of each handle, which of them it is.  Dup returns a nil
    Store, dummy.go:334, with which nothing can be done: None. *)
Definition dstep (c : hcall) (w : list dummy * list nat) : option (list dummy * list nat) :=
  match nth_error (snd w) (through c) with
  | None => None
  | Some r =>
      match nth_error (fst w) r with
      | None => None
      | Some s =>
          match c with
          | CWith _ _ | CRepl _ _ | CN _ | CR _ | CBR _ => Some (fst w, snd w ++ [r])
          | CSetPrefix _ ps => Some (set_at r (du_SetPrefix s ps) (fst w), snd w)
          | CSetDelim _ d => Some (set_at r (du_SetDelimiter s d) (fst w), snd w)
          | CDup _ => None
          end
      end
  end.
Fixpoint drun (cs : list hcall) (w : list dummy * list nat) : option (list dummy * list nat) :=
  match cs with
  | [] => Some w
  | c :: cs => match dstep c w with None => None | Some w' => drun cs w' end
  end.
(** NewDummyStore, and the handle it returns *)
Definition dworld : list dummy * list nat := ([newDummy], [0]).
(** Prefix() of the handle [j] *)
Definition dprefix (w : list dummy * list nat) (j : nat) : option gostring :=
  match nth_error (snd w) j with
  | None => None
  | Some r => option_map du_Prefix (nth_error (fst w) r)
  end.
