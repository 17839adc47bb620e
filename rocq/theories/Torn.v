(** Fields of more than one word.

    The programs of Heap.v read and assign a field in one access.  In Go an interface (any) has a word for the type and one for the
    data, a slice one for the array, one for the length and one for the capacity; each word is read or written by an access of its own.
    [torn p q]: [q] is the program [p] in which any number of accesses to nodes are split into two, in either order: one for the words
    of some kind, one for the rest of the node.  [pre m n] is the node [n] with the words of that kind taken from [m], [ty n] what these
    words depend on. *)
From Coq Require Import List NArith ZArith Bool Arith Lia.
From Verif Require Import GoStr Node Heap.
Import ListNotations.
Open Scope nat_scope.

Section Torn.
Variable T : Type.
Variable ty : hnode -> T.
Variable pre : hnode -> hnode -> hnode.

Definition respects (f : hnode -> hnode) : Prop := forall m n, ty m = ty n -> ty (f m) = ty (f n).
Inductive torn {A} : prog A -> prog A -> Prop :=
| to_ret x : torn (Ret x) (Ret x)
| to_die : torn Die Die
| to_spin : torn Spin Spin
| to_get a k k' : (forall n, torn (k n) (k' n)) -> torn (GetN a k) (GetN a k')
| to_get_a a k k' : (forall n, torn (k n) (k' n)) -> torn (GetN a k) (GetN a (fun m => GetN a (fun n => k' (pre m n))))
| to_get_b a k k' : (forall n, torn (k n) (k' n)) -> torn (GetN a k) (GetN a (fun n => GetN a (fun m => k' (pre m n))))
| to_upd a f k k' : torn k k' -> torn (UpdN a f k) (UpdN a f k')
| to_upd_a a f k k' : torn k k' -> torn (UpdN a f k) (UpdN a (fun n => pre (f n) n) (UpdN a f k'))
| to_upd_b a f k k' : respects f -> torn k k' -> torn (UpdN a f k) (UpdN a (fun n => pre n (f n)) (UpdN a (fun n => pre (f n) n) k'))
| to_new n k k' : (forall x, torn (k x) (k' x)) -> torn (NewN n k) (NewN n k')
| to_elem r i k k' : (forall x, torn (k x) (k' x)) -> torn (GetA r i k) (GetA r i k')
| to_seta r i x k k' : torn k k' -> torn (SetA r i x k) (SetA r i x k')
| to_cap r k k' : (forall x, torn (k x) (k' x)) -> torn (CapA r k) (CapA r k')
| to_newa l k k' : (forall x, torn (k x) (k' x)) -> torn (NewA l k) (NewA l k').

(** every access to a node split, the words of the kind first *)
Fixpoint tear {A} (p : prog A) : prog A :=
  match p with
  | Ret x => Ret x
  | Die => Die
  | Spin => Spin
  | GetN a k => GetN a (fun m => GetN a (fun n => tear (k (pre m n))))
  | UpdN a f k => UpdN a (fun n => pre (f n) n) (UpdN a f (tear k))
  | NewN n k => NewN n (fun x => tear (k x))
  | GetA r i k => GetA r i (fun x => tear (k x))
  | SetA r i x k => SetA r i x (tear k)
  | CapA r k => CapA r (fun x => tear (k x))
  | NewA l k => NewA l (fun x => tear (k x))
  end.
End Torn.
Arguments torn {T} ty pre {A}. Arguments tear pre {A}.

(** ** the words of any: [retype v w] is the type word of [v] with the data word of [w] *)
Section Any.
Variable retype : gval -> gval -> gval.
Definition any_words (m n : hnode) : hnode :=
  HN (hpath n) (hpathS n) (hkids n) (retype (hdata m) (hdata n)) (hdesc n) (hcmt n) (retype (htag m) (htag n)) (htype n).
Definition any_types {T} (tyv : gval -> T) (n : hnode) : T * T := (tyv (hdata n), tyv (htag n)).
End Any.
(** ** the words of a slice: the array of [m] with the length of [n] *)
Definition slice_words (m n : hnode) : hnode := w_kids (Sl (sl_arr (hkids m)) (sl_len (hkids n))) n.
