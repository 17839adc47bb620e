(** The tree in memory: nodes behind pointers, children in slices over shared arrays, and the functions that change them
    (radix/node.go) as programs of single memory accesses.

    A path fragment ([]rune) and a full path (string) are values here: the code never writes into them. *)
From Coq Require Import List NArith Bool Arith.
From Verif Require Import GoStr Node.
Import ListNotations.
Open Scope nat_scope.

(** a slice header; offsets are always 0 and the capacity is the length of the array *)
Record slice := Sl { sl_arr : nat; sl_len : nat }.
(** nodeS, node.go:23-33 *)
Record hnode := HN {
  hpath : list rune;
  hpathS : gostring;
  hkids : slice;
  hdata : gval;
  hdesc : gostring;
  hcmt : gostring;
  htag : gval;
  htype : N }.
(** nodes by address, arrays by number (0: the array of the nil slice); the next fresh ones *)
Record heap := Heap { hn : nat -> option hnode; ha : nat -> list nat; nn : nat; na : nat }.

Definition set_node (h : heap) (a : nat) (n : hnode) : heap :=
  Heap (fun b => if b =? a then Some n else hn h b) (ha h) (nn h) (na h).
Definition set_arr (h : heap) (r : nat) (l : list nat) : heap :=
  Heap (hn h) (fun q => if q =? r then l else ha h q) (nn h) (na h).
Definition new_node (h : heap) (n : hnode) : heap :=
  Heap (fun b => if b =? nn h then Some n else hn h b) (ha h) (S (nn h)) (na h).
Definition new_arr (h : heap) (l : list nat) : heap :=
  Heap (hn h) (fun q => if q =? na h then l else ha h q) (nn h) (S (na h)).
Fixpoint put {A} (l : list A) (i : nat) (x : A) : list A :=
  match l, i with [], _ => [] | _ :: t, O => x :: t | a :: t, S i => a :: put t i x end.

(** programs: one constructor for each access to shared memory *)
Inductive prog (A : Type) : Type :=
| Ret (x : A)
| Die                                             (* a panic *)
| Spin                                            (* the bound of the recursion is reached *)
| GetN (a : nat) (k : hnode -> prog A)            (* read a node *)
| UpdN (a : nat) (f : hnode -> hnode) (k : prog A) (* assign to fields of a node *)
| NewN (n : hnode) (k : nat -> prog A)            (* &nodeS{...} *)
| GetA (r i : nat) (k : nat -> prog A)            (* read an element *)
| SetA (r i x : nat) (k : prog A)                 (* assign to an element *)
| CapA (r : nat) (k : nat -> prog A)              (* cap *)
| NewA (l : list nat) (k : nat -> prog A).        (* a new array *)
Arguments Ret {A}. Arguments Die {A}. Arguments Spin {A}. Arguments GetN {A}. Arguments UpdN {A}. Arguments NewN {A}.
Arguments GetA {A}. Arguments SetA {A}. Arguments CapA {A}. Arguments NewA {A}.

Fixpoint seqp {A B} (p : prog A) (q : A -> prog B) : prog B :=
  match p with
  | Ret x => q x
  | Die => Die
  | Spin => Spin
  | GetN a k => GetN a (fun n => seqp (k n) q)
  | UpdN a f k => UpdN a f (seqp k q)
  | NewN n k => NewN n (fun x => seqp (k x) q)
  | GetA r i k => GetA r i (fun x => seqp (k x) q)
  | SetA r i x k => SetA r i x (seqp k q)
  | CapA r k => CapA r (fun x => seqp (k x) q)
  | NewA l k => NewA l (fun x => seqp (k x) q)
  end.
Notation "'let*' x := p 'in' q" := (seqp p (fun x => q)) (at level 200, x pattern, p at level 100, q at level 200).

(** one access; None: the program has ended *)
Definition access {A} (p : prog A) (h : heap) : option (prog A * heap) :=
  match p with
  | Ret _ | Die | Spin => None
  | GetN a k => Some (match hn h a with Some n => k n | None => Die end, h)
  | UpdN a f k => match hn h a with Some n => Some (k, set_node h a (f n)) | None => Some (Die, h) end
  | NewN n k => Some (k (nn h), new_node h n)
  | GetA r i k => Some (match nth_error (ha h r) i with Some x => k x | None => Die end, h)
  | SetA r i x k => if i <? length (ha h r) then Some (k, set_arr h r (put (ha h r) i x)) else Some (Die, h)
  | CapA r k => Some (k (length (ha h r)), h)
  | NewA l k => Some (k (na h), new_arr h l)
  end.
(** a program alone *)
Fixpoint run {A} (p : prog A) (h : heap) : res (heap * A) :=
  match p with
  | Ret x => Ok (h, x)
  | Die => Panic
  | Spin => Fuel
  | GetN a k => match hn h a with Some n => run (k n) h | None => Panic end
  | UpdN a f k => match hn h a with Some n => run k (set_node h a (f n)) | None => Panic end
  | NewN n k => run (k (nn h)) (new_node h n)
  | GetA r i k => match nth_error (ha h r) i with Some x => run (k x) h | None => Panic end
  | SetA r i x k => if i <? length (ha h r) then run k (set_arr h r (put (ha h r) i x)) else Panic
  | CapA r k => run (k (length (ha h r))) h
  | NewA l k => run (k (na h)) (new_arr h l)
  end.

(** ** assignments to fields *)
Definition w_path p s := HN p (hpathS s) (hkids s) (hdata s) (hdesc s) (hcmt s) (htag s) (htype s).
Definition w_pathS p s := HN (hpath s) p (hkids s) (hdata s) (hdesc s) (hcmt s) (htag s) (htype s).
Definition w_kids k s := HN (hpath s) (hpathS s) k (hdata s) (hdesc s) (hcmt s) (htag s) (htype s).
Definition w_data v s := HN (hpath s) (hpathS s) (hkids s) v (hdesc s) (hcmt s) (htag s) (htype s).
Definition w_desc v s := HN (hpath s) (hpathS s) (hkids s) (hdata s) v (hcmt s) (htag s) (htype s).
Definition w_cmt v s := HN (hpath s) (hpathS s) (hkids s) (hdata s) (hdesc s) v (htag s) (htype s).
Definition w_tag v s := HN (hpath s) (hpathS s) (hkids s) (hdata s) (hdesc s) (hcmt s) v (htype s).
Definition w_type v s := HN (hpath s) (hpathS s) (hkids s) (hdata s) (hdesc s) (hcmt s) (htag s) v.

Section Grow.
(** spare capacity of the array append allocates for a full slice of the given length; the runtime is free to choose *)
Variable grow : nat -> nat.

(** the elements [i], ..., [i + k - 1] of an array *)
Fixpoint p_read (r i k : nat) : prog (list nat) :=
  match k with
  | O => Ret []
  | S k => GetA r i (fun x => let* l := p_read r (S i) k in Ret (x :: l))
  end.
(** write [l] to the array from [i] on *)
Fixpoint p_write (r i : nat) (l : list nat) : prog unit :=
  match l with
  | [] => Ret tt
  | x :: l => SetA r i x (p_write r (S i) l)
  end.
(** append(s, x): in place while there is room *)
Definition p_append (s : slice) (x : nat) : prog slice :=
  CapA (sl_arr s) (fun c =>
    if sl_len s <? c then SetA (sl_arr s) (sl_len s) x (Ret (Sl (sl_arr s) (S (sl_len s))))
    else let* l := p_read (sl_arr s) 0 (sl_len s) in
         NewA (l ++ x :: repeat 0 (grow (sl_len s))) (fun r => Ret (Sl r (S (sl_len s))))).

(** insertAsLeaf, node.go:296-306 *)
Definition p_leaf (s : nat) (word : list rune) (fullPath : gostring) (data : gval) : prog nat :=
  NewN (HN word fullPath (Sl 0 0) data [] [] GNil (N.lor NTLeaf NTData)) (fun x =>
  GetN s (fun n => let* sl := p_append (hkids n) x in UpdN s (w_kids sl) (Ret x))).

(** split, node.go:258-294 *)
Definition p_split (s : nat) (pos : nat) : prog unit :=
  GetN s (fun n =>
  let d := length (hpath n) - pos in
  NewN (HN (skipn pos (hpath n)) (hpathS n) (hkids n) (hdata n) (hdesc n) (hcmt n) (htag n) (htype n)) (fun x =>
  UpdN s (w_path (firstn pos (hpath n)))
  (if d <=? length (hpathS n) then
     UpdN s (w_pathS (firstn (length (hpathS n) - d) (hpathS n)))
     (NewA [x] (fun r =>
     UpdN s (w_kids (Sl r 1)) (UpdN s (w_type NTBranch) (UpdN s (w_desc []) (UpdN s (w_cmt []) (UpdN s (w_tag GNil)
     (UpdN s (w_data GNil) (Ret tt))))))))
   else Die))).

(** matchChildren, node.go:308-321, over the [k] elements from [i] on *)
Fixpoint p_match (word : list rune) (r i k : nat) : prog (option nat) :=
  match k with
  | O => Ret None
  | S k =>
      GetA r i (fun c => GetN c (fun n =>
        match hpath n, word with
        | c0 :: _, w :: _ => if (c0 =? w)%N then Ret (Some c) else p_match word r (S i) k
        | _, _ => Die
        end))
  end.

(** insertInternal, node.go:205-256: the node, the old data and the calls of the callback *)
Fixpoint p_insert (fuel : nat) (s : nat) (word : list rune) (fullPath : gostring) (data : gval)
  : prog (nat * gval * list cbcall) :=
  match fuel with
  | O => Spin
  | S f =>
      GetN s (fun n =>
      let ourLen := length (hpath n) in
      let wordLen := length word in
      if (ourLen =? 0) && ((0 <? wordLen) && (sl_len (hkids n) =? 0)) then
        let* x := p_leaf s word fullPath data in Ret (x, GNil, [])
      else
        let cpl := if (0 <? ourLen) && (0 <? wordLen) then cpl_len word (hpath n) else 0 in
        let* _ := (if cpl <? ourLen then p_split s cpl else Ret tt) in
        if cpl <? wordLen then
          let word' := if 0 <? cpl then skipn cpl word else word in
          GetN s (fun b =>
          let* m := p_match word' (sl_arr (hkids b)) 0 (sl_len (hkids b)) in
          match m with
          | Some c =>
              let* r := p_insert f c word' fullPath data in
              let '(id, old, calls) := r in Ret (id, old, calls ++ [(fullPath, old, id)])
          | None => let* x := p_leaf s word' fullPath data in Ret (x, GNil, [(fullPath, GNil, x)])
          end)
        else
          GetN s (fun b => UpdN s (w_type (N.lor (htype b) NTData))
            (GetN s (fun b' => UpdN s (w_data data) (Ret (s, hdata b', [(fullPath, hdata b', s)]))))))
  end.

(** remove, node.go:183-195 *)
Fixpoint p_find (r i k c : nat) : prog (option nat) :=
  match k with
  | O => Ret None
  | S k => GetA r i (fun x => if x =? c then Ret (Some i) else p_find r (S i) k c)
  end.
(** append(s, l...): in place while there is room *)
Definition p_appends (s : slice) (l : list nat) : prog slice :=
  CapA (sl_arr s) (fun c =>
    if sl_len s + length l <=? c
    then let* _ := p_write (sl_arr s) (sl_len s) l in Ret (Sl (sl_arr s) (sl_len s + length l))
    else let* l0 := p_read (sl_arr s) 0 (sl_len s) in
         NewA (l0 ++ l ++ repeat 0 (grow (sl_len s + length l))) (fun r => Ret (Sl r (sl_len s + length l)))).
(** s.children is read three times: for the loop, for s.children[:i] and for s.children[i+1:] *)
Definition p_remove (s c : nat) : prog bool :=
  GetN s (fun n =>
  let* o := p_find (sl_arr (hkids n)) 0 (sl_len (hkids n)) c in
  match o with
  | Some i =>
      GetN s (fun n1 => CapA (sl_arr (hkids n1)) (fun cap =>
      if i <=? cap then
        GetN s (fun n2 =>
        if S i <=? sl_len (hkids n2) then
          let* l := p_read (sl_arr (hkids n2)) (S i) (sl_len (hkids n2) - S i) in
          let* sl := p_appends (Sl (sl_arr (hkids n1)) i) l in
          UpdN s (w_kids sl) (Ret true)
        else Die)
      else Die))
  | None => Ret false
  end).

(** Dup, node.go:559-579; first its loop, 567-569, over the [k] elements from [i] on *)
Fixpoint p_dups (dup : nat -> prog nat) (x r i k : nat) : prog unit :=
  match k with
  | O => Ret tt
  | S k =>
      GetA r i (fun c =>
      let* c' := dup c in
      GetN x (fun nx => let* sl := p_append (hkids nx) c' in UpdN x (w_kids sl) (p_dups dup x r (S i) k)))
  end.
Fixpoint p_dup (clone : gval -> gval) (fuel : nat) (s : nat) : prog nat :=
  match fuel with
  | O => Spin
  | S f =>
      GetN s (fun n =>
      NewN (HN (hpath n) (hpathS n) (Sl 0 0) GNil [] [] GNil (htype n)) (fun x =>
      NewA (repeat 0 (sl_len (hkids n))) (fun r =>
      UpdN x (w_kids (Sl r 0))
      (let* _ := p_dups (p_dup clone f) x (sl_arr (hkids n)) 0 (sl_len (hkids n)) in
       GetN s (fun n' => UpdN x (w_data (clone (hdata n'))) (Ret x))))))
  end.

(** walk, node.go:586-591, with a callback that may change the tree: the nodes it was called with.  The range loop
    takes the slice header once and reads each element when its turn comes. *)
Fixpoint p_walks (walk : nat -> prog (list nat)) (r i k : nat) : prog (list nat) :=
  match k with
  | O => Ret []
  | S k =>
      GetA r i (fun c =>
      let* l1 := walk c in
      let* l2 := p_walks walk r (S i) k in
      Ret (l1 ++ l2))
  end.
Fixpoint p_walk (cb : nat -> prog unit) (fuel : nat) (s : nat) : prog (list nat) :=
  match fuel with
  | O => Spin
  | S f =>
      let* _ := cb s in
      GetN s (fun n =>
      let* l := p_walks (p_walk cb f) (sl_arr (hkids n)) 0 (sl_len (hkids n)) in
      Ret (s :: l))
  end.
End Grow.

(** newTrie: an empty root, at address 0 *)
Definition newHeap : heap :=
  Heap (fun a => if a =? 0 then Some (HN [] [] (Sl 0 0) GNil [] [] GNil NTBranch) else None) (fun _ => []) 1 1.

(** ** goroutines: each step is one access of one of the programs *)
Definition turn {A} (ps : list (prog A)) (h : heap) (i : nat) : list (prog A) * heap :=
  match nth_error ps i with
  | Some p => match access p h with Some (p', h') => (put ps i p', h') | None => (ps, h) end
  | None => (ps, h)
  end.
Definition schedule {A} (sch : list nat) (ps : list (prog A)) (h : heap) : list (prog A) * heap :=
  fold_left (fun st i => turn (fst st) (snd st) i) sch (ps, h).
