(** Goroutines that call methods of one tree in memory, with the calls and replies an observer sees, and the
    same calls carried out in one step each on the tree. *)
From Coq Require Import List NArith Bool Arith.
From Verif Require Import GoStr Utf8 Node Trie Heap HeapWalk HeapGet.
From Verif Require Cvter.
Import ListNotations.
Open Scope nat_scope.

(** Get and Query, trie.go:702-726; Has, 534-541; HasPart, 546-556; GetDesc, GetComment and GetTag, 638-694; Set, 388-396;
    SetEx (without its callback), 400-406; SetTag, 465-474; SetComment, 451-460; Update, 439-446, whose callback is
    [func(node, old) { node.SetData(g(old)) }] *)
Inductive attrib := Desc | Comm | Tag.
Inductive gop :=
| DoGet (h : hdl) (p : gostring)
| DoHas (h : hdl) (p : gostring)
| DoHasPart (h : hdl) (p : gostring)
| DoAttr (x : attrib) (h : hdl) (p : gostring)
| DoSet (h : hdl) (p : gostring) (v : gval)
| DoTag (h : hdl) (p : gostring) (v : gval)
| DoSetEx (h : hdl) (p : gostring) (v : gval)
| DoComment (h : hdl) (p desc cmt : gostring)
| DoUpdate (h : hdl) (p : gostring) (g : gval -> gval).
Inductive reply := Stored | Old (v : gval) | Value (q : qres) | Yes (b : bool) | Is (v : gval) (ok : bool) | Map (x : res (option Cvter.gmap)).
(** what is seen from outside: thread [i] calls, thread [i] gets the reply *)
Inductive hev := Call (i : nat) (o : gop) | Reply (i : nat) (x : reply).

(** ** the code: each step is one memory access of one thread *)
Definition attr_in (x : attrib) (n : hnode) : gval :=
  match x with Desc => GStr (hdesc n) | Comm => GStr (hcmt n) | Tag => htag n end.
Definition attr_nil (x : attrib) : gval := match x with Tag => GNil | _ => GStr [] end.
Section Code.
Variables (grow : nat -> nat) (rf dep rt : nat).
(** Has *)
Definition p_has (h : hdl) (p : gostring) : prog bool :=
  let* r := p_search rf dep h rt (full h p) in
  Ret (match hs_node r with Some _ => negb (hs_partial r) | None => false end).
Definition p_hasPart (h : hdl) (p : gostring) : prog bool :=
  let* r := p_search rf dep h rt (full h p) in
  match hs_node r with
  | Some a => if hs_partial r then GetN a (fun n => Ret (has_prefix (full h p) (hpathS n))) else Ret true
  | None => Ret (hs_partial r)
  end.
(** GetDesc, GetComment, GetTag with getNodeFast *)
Definition p_attr (x : attrib) (h : hdl) (p : gostring) : prog (gval * bool) :=
  let* r := p_search rf dep h rt (full h p) in
  match hs_node r, hs_partial r with
  | Some a, false =>
      GetN a (fun n1 =>
      let* found := (if isBranch (view a n1) then GetN a (fun n2 => Ret (endsWith (view a n2) (hdelim h))) else Ret true) in
      if found : bool then GetN a (fun n3 => Ret (attr_in x n3, true)) else Ret (attr_nil x, false))
  | _, _ => Ret (attr_nil x, false)
  end.
(** SetTag and SetComment *)
Definition p_tag (h : hdl) (p : gostring) (v : gval) : prog bool :=
  let* r := p_search rf dep h rt (full h p) in
  match hs_node r with Some a => UpdN a (w_tag v) (Ret true) | None => Ret false end.
Definition p_comment (h : hdl) (p desc cmt : gostring) : prog bool :=
  let* r := p_search rf dep h rt (full h p) in
  match hs_node r with Some a => UpdN a (w_desc desc) (UpdN a (w_cmt cmt) (Ret true)) | None => Ret false end.
(** Update; SetData, node.go:111-118 *)
Definition p_update (h : hdl) (p : gostring) (g : gval -> gval) : prog unit :=
  let* r := p_set grow rt (full h p) GNil in
  let '(a, old, _) := r in
  UpdN a (w_data (g old)) (GetN a (fun n => UpdN a (w_type (N.lor (htype n) NTData)) (Ret tt))).
Definition code (o : gop) : prog reply :=
  match o with
  | DoGet h p => let* q := p_query rf dep h rt p in Ret (Value q)
  | DoHas h p => let* b := p_has h p in Ret (Yes b)
  | DoHasPart h p => let* b := p_hasPart h p in Ret (Yes b)
  | DoAttr x h p => let* r := p_attr x h p in Ret (Is (fst r) (snd r))
  | DoSet h p v => let* _ := p_set grow rt (replace_byte 32 45 (full h p)) v in Ret Stored
  | DoTag h p v => let* b := p_tag h p v in Ret (Yes b)
  | DoSetEx h p v => let* r := p_set grow rt (full h p) v in Ret (Old (snd (fst r)))
  | DoComment h p desc cmt => let* b := p_comment h p desc cmt in Ret (Yes b)
  | DoUpdate h p g => let* _ := p_update h p g in Ret Stored
  end.
Record thr := Th { cur : option (prog reply); todo : list gop }.
Definition stir (ts : list thr) (h : heap) (i : nat) : list thr * heap * list hev :=
  match nth_error ts i with
  | None => (ts, h, [])
  | Some (Th None []) => (ts, h, [])
  | Some (Th None (o :: os)) => (put ts i (Th (Some (code o)) os), h, [Call i o])
  | Some (Th (Some (Ret x)) os) => (put ts i (Th None os), h, [Reply i x])
  | Some (Th (Some p) os) =>
      match access p h with
      | Some (p', h') => (put ts i (Th (Some p') os), h', [])
      | None => (ts, h, [])
      end
  end.
Fixpoint play (sch : list nat) (ts : list thr) (h : heap) : list thr * heap * list hev :=
  match sch with
  | [] => (ts, h, [])
  | i :: sch =>
      let '(ts1, h1, e1) := stir ts h i in
      let '(ts2, h2, e2) := play sch ts1 h1 in
      (ts2, h2, e1 ++ e2)
  end.
End Code.

(** ** the specification: between its call and its reply every operation takes effect in one step *)
Inductive status := Idle | Called (o : gop) | Answered (x : reply).
Section Atomic.
Variable rf : nat.
Definition does (t : tr) (o : gop) (t' : tr) (x : reply) : Prop :=
  match o with
  | DoGet h p => t' = t /\ exists q, Query rf h t p = Ok q /\ x = Value q
  | DoHas h p => t' = t /\ exists b, Has rf h t p = Ok b /\ x = Yes b
  | DoHasPart h p => t' = t /\ exists b, HasPart rf h t p = Ok b /\ x = Yes b
  | DoAttr Desc h p => t' = t /\ exists v b, GetDesc rf h t p = Ok (v, b) /\ x = Is (GStr v) b
  | DoAttr Comm h p => t' = t /\ exists v b, GetComment rf h t p = Ok (v, b) /\ x = Is (GStr v) b
  | DoAttr Tag h p => t' = t /\ exists v b, GetTag rf h t p = Ok (v, b) /\ x = Is v b
  | DoSet h p v => (exists id old, Set_ h t p v = Ok (t', id, old)) /\ x = Stored
  | DoTag h p v => exists b, SetTag rf h t p v = Ok (t', b) /\ x = Yes b
  | DoSetEx h p v => exists old calls, SetEx h t p v = Ok (t', old, calls) /\ x = Old old
  | DoComment h p desc cmt => exists b, SetComment rf h t p desc cmt = Ok (t', b) /\ x = Yes b
  | DoUpdate h p g => Update h t p (fun old => setData (g old)) = Ok t' /\ x = Stored
  end.
Inductive atomic : tr -> list status -> list hev -> tr -> list status -> Prop :=
| at_nil t ss : atomic t ss [] t ss
| at_call t ss i o es t' ss' : nth_error ss i = Some Idle -> atomic t (put ss i (Called o)) es t' ss' ->
    atomic t ss (Call i o :: es) t' ss'
| at_act t ss i o t1 x es t' ss' : nth_error ss i = Some (Called o) -> does t o t1 x ->
    atomic t1 (put ss i (Answered x)) es t' ss' -> atomic t ss es t' ss'
| at_reply t ss i x es t' ss' : nth_error ss i = Some (Answered x) -> atomic t (put ss i Idle) es t' ss' ->
    atomic t ss (Reply i x :: es) t' ss'.
End Atomic.
