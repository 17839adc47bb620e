(** Goroutines that read, set, update, tag, comment, remove and export keys, one call after the other, each in a section of the tree of its own. *)
From Coq Require Import List NArith Bool Arith.
From Verif Require Import GoStr Utf8 Node NodeWf MatchProofs Spec ApiRefine Trie Heap HeapWalk HeapGet HeapRemove HeapStore HeapLin Cvter HeapExport.
Import ListNotations.
Open Scope nat_scope.

(** the calls that insert a key and go on with the node: Update with a callback that calls methods of the node, SetNode, SetEmpty,
    trie.go:409-446, and Set and methods of the node that it returns *)
Inductive wcall :=
| WUpdate (f : gval -> list nodeop)
| WNode (v tag : gval) (dc : list gostring)
| WEmpty
| WWith (v : gval) (f : gval -> list nodeop).
(** what the node's methods write, field by field (node.go:77-98, 111-154); [AType]: the type is read and written *)
Inductive act := AData (v : gval) | ADesc (s : gostring) | ACmt (s : gostring) | ATag (v : gval) | AType (f : N -> N).
Definition acts_of (o : nodeop) : list act :=
  match o with
  | NSetData v => [AData v; AType (fun t => N.lor t NTData)]
  | NSetComment x y => [ADesc x; ACmt y]
  | NSetTag v => [ATag v]
  | NSetEmpty => [AData GNil; ATag GNil]
  | NSetModified true => [AType (fun t => N.lor t NTModified)]
  | NSetModified false | NResetModified => [AType (fun t => N.ldiff t NTModified)]
  | NToggleModified => [AType (fun t => N.lxor t NTModified)]
  end.
(** the switch of SetNode, trie.go:414-423 *)
Definition acts_dc (dc : list gostring) : list act :=
  match dc with
  | [] => []
  | [a] => [ADesc a]
  | [a; b] => [ADesc a; ACmt b]
  | a :: rest => [ADesc a; ACmt (join_str rest [10%N])]
  end.
Definition w_key (w : wcall) (h : hdl) (p : gostring) : gostring := match w with WWith _ _ => replace_byte 32 45 (full h p) | _ => full h p end.
Definition w_val (w : wcall) : gval := match w with WNode v _ _ | WWith v _ => v | _ => GNil end.
Definition w_acts (w : wcall) (old : gval) : list act :=
  match w with WUpdate f | WWith _ f => flat_map acts_of (f old) | WNode _ _ dc => acts_dc dc | WEmpty => acts_of NSetEmpty end.
Definition w_reply (w : wcall) (old : gval) : reply := match w with WUpdate _ => Stored | _ => Old old end.
Definition p_act (a : nat) (x : act) : prog unit :=
  match x with
  | AData v => UpdN a (w_data v) (Ret tt)
  | ADesc s => UpdN a (w_desc s) (Ret tt)
  | ACmt s => UpdN a (w_cmt s) (Ret tt)
  | ATag v => UpdN a (w_tag v) (Ret tt)
  | AType f => GetN a (fun n => UpdN a (w_type (f (htype n))) (Ret tt))
  end.
Fixpoint p_acts (a : nat) (l : list act) : prog unit := match l with [] => Ret tt | x :: l => let* _ := p_act a x in p_acts a l end.

(** the calls of HeapLin.v, and Remove, trie.go:562-565; then the two calls of the trie with which the store begins and that the
    store goes on with: Set, and SetModified(true) on the node that it returns if [mark] is set (setKV, store.go:329-346), and RemoveEx,
    and the data of the node that it returns (Remove, store.go:392-401); then GetR, GetM and To, cvter.go:342-574, with the iteration
    order of Go maps *)
Inductive item := Op (o : gop) | Rm (h : hdl) (p : gostring) | Mk (h : hdl) (p : gostring) (v : gval) (mark : bool) | Rg (h : hdl) (p : gostring)
| Ex (order : gmap -> gmap) (h : hdl) (q : ask) | Wr (w : wcall) (h : hdl) (p : gostring).

(** ** the code *)
Section Code.
Variables (grow : nat -> nat) (rf dep rt : nat).
Definition code_i (it : item) : prog reply :=
  match it with
  | Op o => code grow rf dep rt o
  | Rm h p => let* b := p_removeEx grow rf dep h rt p in Ret (Yes b)
  | Mk h p v mark =>
      let* r := p_set grow rt (replace_byte 32 45 (full h p)) v in
      let* _ := (if mark then p_setModified (fst (fst r)) else Ret tt) in
      Ret (Old (snd (fst r)))
  | Rg h p =>
      let* r := p_search rf dep h rt (full h p) in
      match hs_node r, hs_partial r with
      | Some a, false =>
          match hs_parent r with
          | Some q => let* b := p_remove grow q a in if b then GetN a (fun n => Ret (Is (hdata n) true)) else Ret (Is GNil false)
          | None => Ret (Is GNil false)
          end
      | _, _ => Ret (Is GNil false)
      end
  | Ex order h q => let* x := p_ask order rf dep h rt q in Ret (Map x)
  | Wr w h p =>
      let* r := p_set grow rt (w_key w h p) (w_val w) in
      let* _ := p_acts (fst (fst r)) (w_acts w (snd (fst r))) in
      Ret (w_reply w (snd (fst r)))
  end.
(** a goroutine: its calls in turn, and all replies *)
Fixpoint p_work (job : list item) : prog (list reply) :=
  match job with
  | [] => Ret []
  | it :: job => let* x := code_i it in let* xs := p_work job in Ret (x :: xs)
  end.
End Code.

(** ** the same calls one after the other, on the tree *)
Section Alone.
Variable rf : nat.
Definition does_i (t : tr) (it : item) (t' : tr) (x : reply) : Prop :=
  match it with
  | Op o => does rf t o t' x
  | Rm h p => exists b, Remove rf h t p = Ok (t', b) /\ x = Yes b
  | Mk h p v mark => exists t1 id old, Set_ h t p v = Ok (t1, id, old) /\
      t' = (if mark then Tr (upd id (setModified true) (root t1)) (next t1) else t1) /\ x = Old old
  | Rg h p => exists n q b, RemoveEx rf h t p = Ok (t', n, q, b) /\
      x = match n with Some n => Is (ndata n) true | None => Is GNil false end
  | Ex order h q => t' = t /\ (is_root_path (ask_path q) = true \/ exists r, search rf h t (full h (ask_path q)) = Ok r) /\
      x = Map (ask_on order rf h t q)
  | Wr (WUpdate f) h p => Update h t p (fun old n => fold_left (fun n o => n_nodeop o n) (f old) n) = Ok t' /\ x = Stored
  | Wr (WNode v tag dc) h p => exists id old, SetNode h t p v tag dc = Ok (t', id, old) /\ x = Old old
  | Wr WEmpty h p => exists old, SetEmpty h t p = Ok (t', old) /\ x = Old old
  | Wr (WWith v f) h p => exists t1 id old, Set_ h t p v = Ok (t1, id, old) /\
      t' = Tr (upd id (fun n => fold_left (fun n o => n_nodeop o n) (f old) n) (root t1)) (next t1) /\ x = Old old
  end.
Inductive does_all : tr -> list item -> tr -> list reply -> Prop :=
| da_nil t : does_all t [] t []
| da_cons t it t1 x job t2 xs : does_i t it t1 x -> does_all t1 job t2 xs -> does_all t (it :: job) t2 (x :: xs).
End Alone.

(** ** what a call is about *)
Definition hdl_of (it : item) : hdl :=
  match it with
  | Op (DoGet h _) | Op (DoHas h _) | Op (DoHasPart h _) | Op (DoAttr _ h _) | Op (DoSet h _ _) | Op (DoTag h _ _) | Op (DoSetEx h _ _)
  | Op (DoComment h _ _ _) | Op (DoUpdate h _ _) | Rm h _ | Mk h _ _ _ | Rg h _ | Ex _ h _ | Wr _ h _ => h
  end.
(** the key that is searched, or set: Set replaces blanks, SetEx and Update do not *)
Definition key_of (it : item) : gostring :=
  match it with
  | Op (DoSet h p _) | Mk h p _ _ => replace_byte 32 45 (full h p)
  | Op (DoGet h p) | Op (DoHas h p) | Op (DoHasPart h p) | Op (DoAttr _ h p) | Op (DoTag h p _) | Op (DoSetEx h p _)
  | Op (DoComment h p _ _) | Op (DoUpdate h p _) | Rm h p | Rg h p => full h p
  | Ex _ h q => full h (ask_path q)
  | Wr w h p => w_key w h p
  end.
Definition sets (it : item) : bool := match it with Op (DoSet _ _ _) | Op (DoSetEx _ _ _) | Op (DoUpdate _ _ _) | Mk _ _ _ _ | Wr _ _ _ => true | _ => false end.
Definition removes (it : item) : bool := match it with Rm _ _ | Rg _ _ => true | _ => false end.
(** an export of a part of the tree, not of the root, whose filter does not look at addresses *)
Definition exports_part (it : item) : Prop := match it with Ex _ _ q => is_root_path (ask_path q) = false /\ blind q | _ => True end.
(** the call stays at or below the node with the key [k]; what is removed is below it, and a call that neither sets nor removes may be
    about a key that ends inside the fragment of that node.  Searches do not climb (PathModeUp is off),
    and the tree [R] at the start has no patterns for their delimiter. *)
Definition stays (R : node) (k : key_t) (it : item) : Prop :=
  ((exists rest, runes (key_of it) = k ++ rest /\ (removes it = true -> rest <> [])) \/
   (sets it = false /\ removes it = false /\ exists m z, In (k, m) (ents [] R) /\ k = runes (key_of it) ++ z /\ length z < length (npath m))) /\
  (sets it = false -> hmode (hdl_of it) <> ModeUp /\ plain_tree (hdelim (hdl_of it)) [] R /\ exports_part it).
(** a goroutine is the key of its section and its calls *)
Definition keeps_to (R : node) (g : key_t * list item) : Prop :=
  (exists m, In (fst g, m) (ents [] R)) /\ Forall (stays R (fst g)) (snd g).
(** none of the keys begins with another *)
Definition apart (gs : list (key_t * list item)) : Prop :=
  forall i j g g', i <> j -> nth_error gs i = Some g -> nth_error gs j = Some g' -> ~ exists z, fst g' = fst g ++ z.
(** a goroutine with the replies that it gets when it runs alone *)
Definition alone (rf : nat) (t : tr) (g : key_t * list item * list reply) : Prop := exists t', does_all rf t (snd (fst g)) t' (snd g).
(** calls with delimiters from [D], and keys that are no patterns for any of them *)
Definition tame (D : rune -> Prop) (it : item) : Prop :=
  D (hdelim (hdl_of it)) /\ (sets it = true -> forall d, D d -> plain d (runes (key_of it))).
