(** Models of writing a store back: Save and SaveAs to the end. *)
From Coq Require Import List NArith Bool Arith.
From Verif Require Import GoStr Trie Cvter Store.
Import ListNotations.
Open Scope nat_scope.

(** Codec.Marshal *)
Definition encoder := gmap -> outcome gostring.
(** where a provider takes bytes: OnceProvider.Write, io.Writer.Write, or nowhere; with the error *)
Inductive sink := SkOnce (e : option lerr) | SkWriter (e : option lerr) | SkNone.
(** the bytes handed over, and the error: load.go:627-637, the same as 588-599.  An OnceProvider that
    answers ErrNotImplemented is no io.Writer: the methods have the same name and other types. *)
Definition write_to (k : sink) (b : gostring) : option gostring * option lerr :=
  match k with
  | SkOnce e => (Some b, e)
  | SkWriter e => (Some b, e)
  | SkNone => (None, Some ENotImpl)
  end.
(** the end of trySave and SaveAs, load.go:618-639, 573-601: [m] is the answer of GetM *)
Definition save_map (enc : encoder) (k : sink) (m : option gmap) : option gostring * option lerr :=
  match m with
  | Some (x :: r) => match enc (x :: r) with
                     | inl b => write_to k b
                     | inr e => (None, Some e)
                     end
  | _ => (None, None)
  end.
(** Save of a loader, load.go:604-640 *)
Definition loader_Save (rf : nat) (order : gmap -> gmap) (ld : loader) (enc : encoder) (k : sink) (t : tr)
  : res (option gostring * option lerr) :=
  do m <- trySave rf order ld t; Ok (save_map enc k m).
(** SaveAs of a loader, load.go:546-602; the options and the provider: [co] is WithSaveAsCodec,
    [pc] the codec of the provider of WithSaveAsProvider *)
Definition loader_SaveAs (rf : nat) (order : gmap -> gmap) (h : hdl) (co : option encoder) (pv : option (option encoder * sink)) (t : tr)
  : res (option gostring * option lerr) :=
  match pv with
  | None => Ok (None, None)
  | Some (pc, k) =>
      match (match co with Some c => Some c | None => pc end) with
      | None => Ok (None, None)
      | Some enc => do m <- GetM rf order h t [] (MOpts false true None); Ok (save_map enc k m)
      end
  end.
(** SaveAs of the store, load.go:51-73: the options are made, and that is all *)
Definition store_SaveAs (co : option encoder) (pv : option (option encoder * sink)) : option gostring * option lerr := (None, None).
