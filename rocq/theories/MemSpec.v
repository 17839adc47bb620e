(** Memory safety: what it means for goroutines to stay inside the arrays and to follow only pointers to nodes or nil, and the calls
    that the model has programs for. *)
From Coq Require Import List NArith Bool Arith.
From Verif Require Import GoStr Utf8 Node Trie Store Heap HeapWalk HeapGet HeapRemove HeapSee Cvter HeapExport HeapStore HeapLin HeapWork HeapCalls.
Import ListNotations.
Open Scope nat_scope.

(** ** the statement: [a] is a node or nil (address 0 when it is no node); slices are inside their arrays *)
Definition pointer (h : heap) (a : nat) : Prop := (exists n, hn h a = Some n) \/ a = 0.
Record sound (h : heap) : Prop := {
  so_hdr : forall a n, hn h a = Some n -> sl_len (hkids n) <= length (ha h (sl_arr (hkids n)));
  so_arr : forall r x, In x (ha h r) -> pointer h x;
  so_new : forall r, na h <= r -> ha h r = [] }.
(** the next access of the program stays in memory *)
Definition legal {A} (h : heap) (p : prog A) : Prop :=
  match p with
  | GetN a _ | UpdN a _ _ => pointer h a
  | GetA r i _ | SetA r i _ _ => i < length (ha h r)
  | _ => True
  end.

(** ** the calls: those of HeapCalls.v; Walk; GetM, GetR and To; Dup *)
Inductive deed :=
| Calls (c : scall) | Looks (h : hdl) (p : gostring) | Maps (h : hdl) (p : gostring) (o : hopts) | Raw (h : hdl) (p : gostring) | Nested (h : hdl) (p : gostring) (o : hopts)
| Copies.
Section Deeds.
Variables (grow : nat -> nat) (order : gmap -> gmap) (clone : gval -> gval) (rf dep rt : nat).
Definition p_deed (x : deed) : prog unit :=
  match x with
  | Calls c => let* _ := p_call grow rf dep rt c in Ret tt
  | Looks h p => let* _ := p_Walk rf dep h rt p in Ret tt
  | Maps h p o => let* _ := p_GetM order rf dep h rt p o in Ret tt
  | Raw h p => let* _ := p_GetR rf dep h rt p [] in Ret tt
  | Nested h p o => let* _ := p_To order rf dep h rt p o in Ret tt
  | Copies => let* _ := p_dup grow clone dep rt in Ret tt
  end.
Fixpoint p_deeds (l : list deed) : prog unit := match l with [] => Ret tt | x :: l => let* _ := p_deed x in p_deeds l end.
End Deeds.
